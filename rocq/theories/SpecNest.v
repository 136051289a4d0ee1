(** Specification: a text inside a package, and indented texts. *)
From Verif Require Import Base Tokens Syntax Tree SpecLayout.

(** The package [name] with the classes of the text [s]. *)
Definition packaged (name s : text) : text :=
  str "package " ++ name ++ [10] ++ s ++ str "end " ++ name ++ str ";".

(** All lines but the first, unless they are empty, two spaces further to the right. *)
Fixpoint indent (s : text) : text :=
  match s with
  | [] => []
  | c :: r =>
      c :: (if c =? 10 then match r with [] => [] | x :: _ => if (x =? 10) || (x =? 13) then [] else str "  " end else [])
      ++ indent r
  end.
(** The same for a layout, in which items may span lines. *)
Definition deepened (l : layout) : layout :=
  map (fun e => mkE (match e_white e with WLine b m => WLine b (S m) | w => w end) (e_rule e) (e_tok e)) l.
