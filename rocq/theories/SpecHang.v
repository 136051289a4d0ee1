(** Specification: comments behind code that make the second run add an empty line. *)
From Verif Require Import Base Tokens Syntax Tree SpecLayout SpecReference.

(** In front of this code empty lines of the source are kept. *)
Definition keeps (tree : child) (t : token) : Prop :=
  exists x, In x (spots KStoredDefinition Beside 0 0 false false tree) /\ at_tok x = t /\ at_pos x = Below Kept.

(** A comment of two lines is printed behind something. The next item starts in the source on the line on which the
    comment ends. It starts a line in the output, without an empty line, although it could have one. *)
Definition hanging (keep : token -> Prop) (l : layout) : Prop :=
  exists a c y b n, l = a ++ c :: y :: b /\
    e_rule c = None /\ (e_white c = WNone \/ e_white c = WSpace) /\
    line (tend (e_tok c)) = line (tstart (e_tok c)) + 1 /\ line (tstart (e_tok y)) = line (tend (e_tok c)) /\
    e_white y = WLine false n /\ (e_rule y = None \/ keep (e_tok y)).

(** The same item, possibly with an empty line in front of it that was not there. *)
Definition grown (a b : entry) : Prop :=
  e_rule a = e_rule b /\ (tkind_of (e_tok a), ttext (e_tok a)) = (tkind_of (e_tok b), ttext (e_tok b)) /\
  (e_white a = e_white b \/ exists n, e_white a = WLine true n /\ e_white b = WLine false n).
