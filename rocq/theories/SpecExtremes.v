(** Specification: the same code on as few and on as many lines as possible (C113). *)
From Verif Require Import Base Tokens SpecLayout SpecCode.

(** The texts of the tokens one behind the other, each followed by the character [c]. *)
Definition joined (c : N) (ts : list token) : text := flat_map (fun t => ttext t ++ [c]) ts.
(** All code on one line (but for line breaks inside of strings), and a line for every token. *)
Definition one_line : list token -> text := joined 32.
Definition one_each : list token -> text := joined 10.

(** Which tokens start a line in a layout. *)
Definition starters (l : layout) : list bool := map (fun e => is_break (e_white e)) (filter code l).
Definition no_more : list bool -> list bool -> Prop := Forall2 (fun b b' => b = true -> b' = true).
