(** Specification of layouts in terms of the syntax tree: nodes, the separators of lists,
    and the token printed after another one. *)
From Verif Require Import Base Tokens Syntax Tree SpecLayout.

(** [inside c t]: [c] is [t] or a node or leaf below it. *)
Inductive inside : child -> child -> Prop :=
| in_here c : inside c c
| in_below c k cs d : In d cs -> inside c d -> inside c (CTree k cs).

(** [e] is the code token printed after token [t]; there may be comments between them. *)
Definition next_code (l : layout) (t : token) (e : entry) : Prop :=
  exists l1 a q l2, l = l1 ++ a :: q ++ e :: l2 /\ e_tok a = t /\
    Forall (fun c => e_rule c = None) q /\ e_rule e <> None.

(** Nodes that hold (part of) a list with separators. *)
Definition list_node (k : skind) : bool :=
  match k with
  | KFunctionCallArgs | KFunctionPartialApplication     (* f(a, b = c), function f(a = b) *)
  | KPrimary                                            (* {a, b}, [a; b] *)
  | KForIndices | KDerClassSpecifier                    (* i in a, j in b; der(f, x, y) *)
  | KConnectEquation                                    (* connect(a, b) *)
  | KArraySubscripts | KExpressionList                  (* [a, b], rows of matrices *)
  | KArgumentList | KArgumentOrInheritanceModificationList
  | KEnumList | KImportList | KComponentList => true
  | _ => false
  end.
(** The rest of a list is a node of its own. *)
Definition list_rest (k : skind) : bool :=
  match k with
  | KFunctionArguments | KFunctionArgumentsNonFirst | KNamedArguments
  | KArrayArguments | KArrayArgumentsNonFirst => true
  | _ => false
  end.
Definition is_sep (t : token) : bool :=
  match tkind_of t with TComma | TSemicolon => true | _ => false end.

(** The separators of one list, not those of lists inside its elements. *)
Fixpoint seps (c : child) : list token :=
  match c with
  | CTok _ => []
  | CTree _ cs =>
      flat_map (fun d => match d with
                         | CTok t => if is_sep t then [t] else []
                         | CTree k _ => if list_rest k then seps d else []
                         end) cs
  end.

(** The tokens of a node, and the source lines it starts and ends on. *)
Fixpoint toks (c : child) : list token :=
  match c with CTok t => [t] | CTree _ cs => flat_map toks cs end.
Definition first_line (c : child) : N :=
  match toks c with [] => 0 | t :: _ => line (tstart t) end.
Definition last_line (c : child) : N :=
  match rev (toks c) with [] => 0 | t :: _ => line (tend t) end.

(** [operator k o]: the token of [o], an operator between two operands in a node of kind [k]. *)
Definition operator (k : skind) (o : child) : option token :=
  match k, o with
  | KLogicalExpression, CTok t | KLogicalTerm, CTok t | KFactor, CTok t => Some t
  | KRelation, CTree KRelationalOperator [CTok t] => Some t
  | KArithmeticExpression, CTree KAddOperator [CTok t] => Some t
  | KTerm, CTree KMulOperator [CTok t] => Some t
  | _, _ => None
  end.

(** ** Lists in brackets *)
Definition opening (k : skind) (t : tkind) : bool :=
  match t with
  | TLCurly | TLBracket => true
  | TLParen => match k with KPrimary => false | _ => true end   (* (a + b) is no list *)
  | _ => false
  end.
Definition closing (k : skind) (t : tkind) : bool :=
  match t with
  | TRCurly | TRBracket => true
  | TRParen => match k with KPrimary => false | _ => true end
  | _ => false
  end.
Definition opens (k : skind) (t : token) : bool := opening k (tkind_of t).
Definition closes (k : skind) (t : token) : bool := closing k (tkind_of t).

(** Nodes with the brackets and the list between them ... *)
Definition own_brackets (k : skind) : bool :=
  match k with
  | KFunctionCallArgs | KFunctionPartialApplication | KPrimary | KArraySubscripts
  | KDerClassSpecifier | KConnectEquation => true
  | _ => false
  end.
(** ... and nodes with the brackets around a list that is a node of its own. *)
Definition bracketed (k k' : skind) : bool :=
  match k, k' with
  | KClassModification, KArgumentList
  | KClassOrInheritanceModification, KArgumentOrInheritanceModificationList
  | KShortClassSpecifier, KEnumList
  | KImportClause, KImportList
  | KExternalFunctionCall, KExpressionList => true
  | _, _ => false
  end.
Definition holder (k : skind) : bool := own_brackets k || existsb (bracketed k) all_skinds.

(** [held n c]: [c] has the list that stands in the brackets of [n]. *)
Inductive held : child -> child -> Prop :=
| held_own k cs : own_brackets k = true -> held (CTree k cs) (CTree k cs)
| held_below k cs k' ds : bracketed k k' = true -> In (CTree k' ds) cs -> held (CTree k cs) (CTree k' ds).

(** The brackets of a node stand on different lines of the source. *)
Definition spread (k : skind) (cs : list child) : Prop :=
  exists o c, In (CTok o) cs /\ In (CTok c) cs /\ opens k o = true /\ closes k c = true /\
    line (tstart o) < line (tstart c).

(** When the list in the brackets of a node is to be wrapped: if the brackets stand on different lines,
    or if there are descriptions inside, because they always start a line. *)
Definition wrapped (n : child) : Prop :=
  match n with
  | CTok _ => False
  | CTree KConnectEquation _ => first_line n < last_line n
  | CTree KClassModification cs =>
      spread KClassModification cs \/
      exists k ds, (k = KDescription \/ k = KDescriptionString) /\ inside (CTree k ds) n
  | CTree KShortClassSpecifier cs =>
      spread KShortClassSpecifier cs \/
      exists es ds, In (CTree KEnumList es) cs /\ inside (CTree KDescription ds) (CTree KEnumList es)
  | CTree k cs => spread k cs
  end.
