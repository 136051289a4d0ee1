(** Specification of formatted text, independent of the formatter model: printed items
    (code tokens and comments), each with the white space in front of it. *)
From Verif Require Import Base Tokens Syntax.

(** White space between two printed items: nothing, one space, or a line break
    ([blank = false]) or blank line ([blank = true]) followed by [n] levels of
    indentation. *)
Inductive white := WNone | WSpace | WLine (blank : bool) (n : nat).

(** [e_rule] is the rule of the syntax tree node to which a code token belongs; comments
    have none. *)
Record entry := mkE { e_white : white; e_rule : option skind; e_tok : token }.
Definition layout := list entry.
Definition codes (l : layout) : list (skind * token) :=
  flat_map (fun e => match e_rule e with Some r => [(r, e_tok e)] | None => [] end) l.
Definition consecutive (l : layout) (a b : entry) : Prop := exists l1 l2, l = l1 ++ a :: b :: l2.

Fixpoint times (n : nat) (t : text) : text := match n with O => [] | S n' => t ++ times n' t end.
Definition white_text (eol : text) (w : white) : text :=
  match w with
  | WNone => []
  | WSpace => str " "
  | WLine b n => (if b then eol else []) ++ eol ++ times n (str "  ")
  end.
Definition render (eol : text) (l : layout) : text :=
  flat_map (fun e => white_text eol (e_white e) ++ ttext (e_tok e)) l.

Definition is_break (w : white) : bool := match w with WLine _ _ => true | _ => false end.

(** Comments and code tokens. *)
Definition comment (t : token) : Prop := tkind_of t = TLineComment \/ tkind_of t = TBlockComment.

(** [drops p l l']: [l'] is [l] without some of the elements that satisfy [p], order kept. *)
Inductive drops {A} (p : A -> Prop) : list A -> list A -> Prop :=
| dr_nil : drops p [] []
| dr_keep x l l' : drops p l l' -> drops p (x :: l) (x :: l')
| dr_drop x l l' : p x -> drops p l l' -> drops p (x :: l) l'.
