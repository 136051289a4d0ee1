(** Specification of indentation: where tokens and nodes begin a line, and with how many levels. *)
From Verif Require Import Base Tokens Syntax Tree SpecGrammar SpecLayout SpecNodes SpecReference.

(** Token [t] is printed at the beginning of a line with [n] levels of indentation. *)
Definition begins (l : layout) (t : token) (n : nat) : Prop :=
  (exists e, In e l /\ e_tok e = t) /\ forall e, In e l -> e_tok e = t -> exists b, e_white e = WLine b n.
(** Node [c] begins a line: its first token does. *)
Definition leads (l : layout) (c : child) (n : nat) : Prop := exists t r, toks c = t :: r /\ begins l t n.

(** Nodes without lines of their own at the beginning: [solid] nodes are all but those. *)
Definition solid (c : child) : bool :=
  match c with
  | CTree KStoredDefinition _ | CTree KComposition _ | CTree KComponentList _ | CTree KComponentReference _ => false
  | _ => true
  end.

(** ** Classes *)

(** The body of a class whose first and last line have level [n]. *)
Definition section_token (d : sym) : bool :=
  match d with Term TPublic | Term TProtected | Term TExternal => true | _ => false end.
Record body_at (l : layout) (n : nat) (cs : list child) : Prop := {
  bd_words : forall d, In d cs -> section_token (kind_of d) = true -> leads l d n;
  bd_sections : forall k ds, (k = KEquationSection \/ k = KAlgorithmSection) -> In (CTree k ds) cs -> leads l (CTree k ds) n;
  bd_statements : forall k ds x, (k = KEquationSection \/ k = KAlgorithmSection) -> In (CTree k ds) cs ->
    In x ds -> statement (kind_of x) = true -> leads l x (S n);
  bd_elements : forall ds xs, In (CTree KElementList ds) cs -> In (CTree KElement xs) ds -> leads l (CTree KElement xs) (S n);
  bd_external : forall ds, In (CTree KExternalFunctionCall ds) cs -> leads l (CTree KExternalFunctionCall ds) (S n);
  (* annotations of the class are indented like elements, those of [external] by one more level *)
  bd_annotation : forall u ds v, cs = u ++ CTree KAnnotationClause ds :: v ->
    leads l (CTree KAnnotationClause ds) (if external_part (kind_last (rev u)) then S (S n) else S n)
}.
Record class_at (l : layout) (n : nat) (cs : list child) : Prop := {
  cl_end : forall d, In d cs -> kind_of d = Term TEnd -> leads l d n;
  cl_description : forall ds, In (CTree KDescriptionString ds) cs -> leads l (CTree KDescriptionString ds) (S n);
  cl_body : forall ds, In (CTree KComposition ds) cs -> body_at l n ds
}.

(** ** Parts of elements, arguments, equations and statements without indentation of their own *)
Definition plain_part (k : skind) : bool :=
  match k with
  | KElement | KClassDefinition | KClassSpecifier | KComponentClause | KComponentList
  | KComponentDeclaration | KComponentDeclaration1 | KDeclaration | KModification | KModificationExpression
  | KArgument | KElementModificationOrReplaceable | KElementModification | KElementRedeclaration | KElementReplaceable
  | KShortClassDefinition | KComponentClause1 | KEquation | KStatement
  | KFunctionArguments | KFunctionArgumentsNonFirst | KNamedArguments | KNamedArgument | KFunctionArgument
  | KArrayArguments | KArrayArgumentsNonFirst | KSubscript | KExpressionList => true
  | _ => false
  end.
(** [part c c0]: without descriptions, annotations, constraining clauses, the components of lists on
    several lines, and values that are an [if] on several lines. *)
Inductive part : child -> child -> Prop :=
| part_here c : part c c
| part_below c k cs d : plain_part k = true ->
    (k = KComponentList -> first_line (CTree k cs) = last_line (CTree k cs)) ->
    trailing (kind_of d) = false -> (value k (kind_of d) = true -> multi_if d = false) ->
    In d cs -> part c d -> part c (CTree k cs).

(** ** Operations of one expression: operands and results in parentheses belong to it. *)
Inductive chained : child -> child -> Prop :=
| ch_here c : chained c c
| ch_below c k cs d : continues k d = true -> In d cs -> chained c d -> chained c (CTree k cs).

(** ** The elements of lists: what stands after separators, and nodes after the opening bracket *)
Inductive slot : child -> child -> Prop :=
| slot_here k u o d v : is_sep o = true \/ (opens k o = true /\ forall t, d <> CTok t) ->
    slot (CTree k (u ++ CTok o :: d :: v)) d
| slot_rest k cs k' ds d : list_rest k' || bracketed k k' = true -> In (CTree k' ds) cs -> slot (CTree k' ds) d ->
    slot (CTree k cs) d.
