(** Specification: the order in which files are found. *)
From Coq Require Import Permutation.
From Verif Require Import Base Tokens Syntax Utf8 Cli.

(** The same files and directories, whose entries may be listed in another order. *)
Definition reordered (w w' : world) : Prop :=
  w_oserr w' = w_oserr w /\
  forall p, match w_node w p, w_node w' p with
            | Some (NDir es), Some (NDir es') => Permutation es es'
            | n, n' => n = n'
            end.
