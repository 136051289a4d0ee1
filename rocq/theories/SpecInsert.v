(** Specification: a text with one more comment. *)
From Verif Require Import Base Tokens SpecLex SpecLayout.

(** The same white space in front of an item of the same kind and spelling. *)
Definition alike (e e' : entry) : Prop :=
  e_white e' = e_white e /\ e_rule e' = e_rule e /\ tkind_of (e_tok e') = tkind_of (e_tok e) /\ ttext (e_tok e') = ttext (e_tok e).

(** A comment without line breaks. A line comment has to end in an ASCII character, see C06. *)
Definition remark (k : tkind) (w : text) : Prop :=
  lexeme k w /\ ~ In 10 w /\ (k = TBlockComment \/ k = TLineComment /\ exists u x, w = u ++ [x] /\ x < 128).

(** Items that are code. *)
Definition of_code (i : tkind * text) : Prop := fst i <> TLineComment /\ fst i <> TBlockComment.
Definition is_code (i : tkind * text) : bool := match fst i with TLineComment | TBlockComment => false | _ => true end.

(** The code of a layout. *)
Definition written (l : layout) : list text :=
  flat_map (fun e => match e_rule e with Some _ => [ttext (e_tok e)] | None => [] end) l.
(** The first code of a layout starts a line. *)
Definition starts_line (l : layout) : bool :=
  match filter (fun e => match e_rule e with Some _ => true | None => false end) l with e :: _ => is_break (e_white e) | [] => false end.
