(** What the check looks at, place by place (C112). *)
From Verif Require Import Base Tokens Syntax SpecLex SpecLayout.

(** [tidy eol s items l]: the text [s] consists of the items (tokens and comments of [s]) in order, each with exactly the white
    space in front of it which the layout [l] prescribes, none of them missing in the layout, and of one line break. *)
Inductive tidy (eol : text) : text -> list token -> layout -> Prop :=
| td_end : tidy eol eol [] []
| td_item e r items l : tidy eol r items l -> tidy eol (white_text eol (e_white e) ++ ttext (e_tok e) ++ r) (e_tok e :: items) (e :: l).

(** [fault eol s items l]: the first thing that is not in order. *)
Inductive fault (eol : text) : text -> list token -> layout -> Prop :=
(** other white space in front of an item than prescribed *)
| ft_gap g e r items l : Forall space g -> g <> white_text eol (e_white e) -> fault eol (g ++ ttext (e_tok e) ++ r) (e_tok e :: items) (e :: l)
(** a comment which will not be printed *)
| ft_comment g t r items l : Forall space g -> comment t -> ~ In t (map e_tok l) -> fault eol (g ++ ttext t ++ r) (t :: items) l
(** no line break, or more than that, at the end *)
| ft_end g : Forall space g -> g <> eol -> fault eol g [] []
| ft_later e r items l : fault eol r items l -> fault eol (white_text eol (e_white e) ++ ttext (e_tok e) ++ r) (e_tok e :: items) (e :: l).
