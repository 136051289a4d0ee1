(** Specification for C103: expressions as parts of a text. *)
From Verif Require Import Base Tokens Syntax Tree SpecLex ParserSem SpecNodes SpecLayout SpecReference.

(** An expression of this syntax tree makes up the part [x] of the text [A ++ x ++ B]: [x] begins with its first token and ends with its last one. *)
Record expression_at (A x B : text) (tree : child) (ds : list child) : Prop := {
  ex_inside : inside (CTree KExpression ds) tree;
  ex_first : exists a l, leaves (CTree KExpression ds) = a :: l /\ pos (tstart a) = bytes_of A;
  ex_last : exists l b, leaves (CTree KExpression ds) = l ++ [b] /\ pos (tend b) = bytes_of (A ++ x) }.
(** White space, an opening bracket, a comma, a semicolon or an equality sign: characters in front of an expression. *)
Definition opener (c : char) : Prop := space c \/ In c [40; 91; 123; 44; 59; 61].
(** White space, a closing bracket, a comma or a semicolon: characters behind an expression. *)
Definition closer (c : char) : Prop := space c \/ In c [41; 93; 125; 44; 59].
Definition enclosed (A B : text) : Prop := (exists A0 c, A = A0 ++ [c] /\ opener c) /\ (exists c B0, B = c :: B0 /\ closer c).
(** White space in front of the first item of a part of a layout, and the text from this item on. *)
Definition gap_text (eol : text) (l : layout) : text := match l with i :: _ => white_text eol (e_white i) | [] => [] end.
Definition body_text (eol : text) (l : layout) : text := match l with i :: r => ttext (e_tok i) ++ render eol r | [] => [] end.
