(** Specification: what ends up in a file that is named several times. *)
From Verif Require Import Base Tokens Syntax Utf8 SpecUtf8 Cli SpecCli.

(** The contents of a file before and after it is formatted once: formatted text if there are
    no errors, otherwise as before. *)
Inductive treated (eol : text) (b : bytes) : bytes -> Prop :=
| tr_formatted src new b' : utf8 b src -> rewrites eol src new -> utf8 b' new -> treated eol b b'
| tr_kept : (forall src new, utf8 b src -> ~ rewrites eol src new) -> treated eol b b.
(** The same several times in a row. *)
Fixpoint treated_times (eol : text) (n : nat) (b b' : bytes) : Prop :=
  match n with
  | O => b' = b
  | S m => exists c, treated eol b c /\ treated_times eol m c b'
  end.

(** How many of the paths are names of Modelica files that lead to the file [i]. *)
Definition leads (w : world) (i : inode) (q : path) : bool :=
  is_modelica q && match w_node w q with Some (NFile j) => j =? i | _ => false end.
Definition named (w : world) (i : inode) (files : list path) : nat := length (filter (leads w i) files).
