(** Specification for C98: the parts of a file. *)
From Verif Require Import Base.

(** A part of a file, its formatted form, the number of empty lines in front of its first token and the number
    of empty lines behind its last one. *)
Record piece := mkPiece { source : text; result : text; before : N; behind_it : N }.

(** Results one behind the other: each starts on a new line, and there is an empty line where there was one or more. *)
Fixpoint joined (eol : text) (ps : list piece) : text :=
  match ps with
  | [] => []
  | [x] => result x
  | x :: ((y :: _) as r) => result x ++ (if 0 <? behind_it x + before y then eol else []) ++ eol ++ joined eol r
  end.
Definition sources (ps : list piece) : text := concat (map source ps).
