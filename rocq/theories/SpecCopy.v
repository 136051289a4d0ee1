(** Specification for C104: the same entries in different files. *)
From Verif Require Import Base Tokens SpecLayout SpecLocal.

(** The same item with the same white space in front of it; lines start [n'] levels to the right instead of [n]. *)
Definition copied (n n' : nat) (y y' : entry) : Prop :=
  ttext (e_tok y') = ttext (e_tok y) /\ tkind_of (e_tok y') = tkind_of (e_tok y) /\ same_white n n' (e_white y) (e_white y').
