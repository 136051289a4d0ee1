(** Settings shared by all proof files. *)
From Coq Require Export Lia Arith.
From Verif Require Export Base.
Open Scope N_scope.

Global Arguments N.add : simpl never.
Global Arguments N.sub : simpl never.
Global Arguments N.mul : simpl never.
Global Arguments N.leb : simpl never.
Global Arguments N.ltb : simpl never.
Global Arguments N.eqb : simpl never.
Global Arguments N.of_nat : simpl never.
Global Arguments N_of_ascii : simpl never.
Global Arguments str : simpl never.
Global Arguments N_of_digits : simpl never.
