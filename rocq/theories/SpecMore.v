(** Specification: the same code with more line breaks. *)
From Verif Require Import Base Tokens SpecLex SpecLayout SpecCode.

(** [more_rows ts ts']: token by token the same kinds, and between the tokens of [ts'] there are line breaks wherever there
    are some between those of [ts]. *)
Inductive more_rows : list token -> list token -> Prop :=
| mr_nil : more_rows [] []
| mr_one t t' : same_token t t' -> more_rows [t] [t']
| mr_two a a' b b' r r' : same_token a a' -> (line (tend a) < line (tstart b) -> line (tend a') < line (tstart b')) ->
    more_rows (b :: r) (b' :: r') -> more_rows (a :: b :: r) (a' :: b' :: r').
