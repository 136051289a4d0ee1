(** Specification of texts that are settled after one run: what makes the second run wrap a list that the first run left
    on one line. *)
From Verif Require Import ProofBase Tokens Syntax Tree SpecNodes SpecReference.

(** Descriptions, annotations and constraining clauses always start a line of their own. *)
Definition bears (c : child) : bool :=
  holds KDescription c || holds KDescriptionString c || holds KAnnotationClause c || holds KConstrainingClause c.

(** Nodes that are wrapped if and only if they span several lines:
    declarations of several components, lists of arguments without a description, [(break ...)] and the like. *)
Definition crowded (k : skind) (cs : list child) : bool :=
  match k with
  | KComponentList => Nat.ltb 1 (length cs)
  | KClassModification => negb (existsb (fun d => holds KDescription d || holds KDescriptionString d) cs)
  | KClassOrInheritanceModification => Nat.ltb 2 (length cs)
  | _ => false
  end.

(** No such node stands on one line although something in it has to start a line. *)
Definition settled (tree : child) : Prop :=
  forall k cs, inside (CTree k cs) tree -> crowded k cs = true -> existsb bears cs = true -> spans (CTree k cs) = true.
