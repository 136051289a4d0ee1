(** Specification: the syntax trees of the files the parser accepts. They follow the
    tool's grammar ([SpecGrammar.v]); in addition an equation must not begin with a
    token that ends the list of equations it stands in. *)
From Verif Require Import ProofBase Tokens Syntax Tree ParserSem SpecGrammar.

(** [end] closes every list of equations; a section is also closed by [initial]. *)
Definition barred (parent child : skind) : list tkind :=
  match child with
  | KEquation => match parent with KEquationSection => [TInitial; TEnd] | _ => [TEnd] end
  | _ => []
  end.

(** [c] does not begin with a token barred for it below [parent]. *)
Definition allowed (parent : skind) (c : child) : Prop :=
  match c, leaves c with
  | CTree k _, t :: _ => ~ In (tkind_of t) (barred parent k)
  | _, _ => True
  end.

Inductive unbarred : child -> Prop :=
| un_tok x : unbarred (CTok x)
| un_tree k cs : Forall (allowed k) cs -> Forall unbarred cs -> unbarred (CTree k cs).

Definition parsable (t : child) : Prop := conforms false t /\ unbarred t.
