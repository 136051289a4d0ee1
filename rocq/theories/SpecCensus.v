(** Specification: how many nodes a tree has (C114). *)
From Verif Require Import Base Tokens Syntax Tree.

Fixpoint census (c : child) : nat :=
  match c with CTok _ => 0 | CTree _ cs => S (list_sum (map census cs)) end.
