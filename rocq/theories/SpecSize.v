(** Specification: the size of formatted text. *)
From Verif Require Import Base Tokens Syntax SpecLayout.

(** No line is indented by more levels than there are code tokens above it. *)
Definition pays_levels (l : layout) : Prop :=
  forall l1 e l2 b n, l = l1 ++ e :: l2 -> e_white e = WLine b n -> (n <= length (codes l1))%nat.
