(** Specification: the layout of code without regard to comments. *)
From Verif Require Import Base Tokens SpecLex SpecLayout.

(** [same_rows ts ts']: token by token the same kinds, and line breaks at the same places between them and inside them. *)
Definition same_token (t t' : token) : Prop :=
  tkind_of t' = tkind_of t /\ (line (tstart t) < line (tend t) <-> line (tstart t') < line (tend t')) /\
  (tkind_of t = TWithin -> (tidx t = 0 <-> tidx t' = 0)).
Inductive same_rows : list token -> list token -> Prop :=
| sr_nil : same_rows [] []
| sr_one t t' : same_token t t' -> same_rows [t] [t']
| sr_two a a' b b' r r' : same_token a a' -> (line (tend a) < line (tstart b) <-> line (tend a') < line (tstart b')) ->
    same_rows (b :: r) (b' :: r') -> same_rows (a :: b :: r) (a' :: b' :: r').

(** The same line break with the same indentation, with or without an empty line, or the same space. *)
Definition same_white (w w' : white) : Prop :=
  match w, w' with
  | WLine _ n, WLine _ n' => n = n'
  | _, _ => w = w'
  end.
Definition code (e : entry) : bool := match e_rule e with Some _ => true | None => false end.

(** [wiped s s']: in [s'] there are spaces instead of the characters of the comments of [s]; only line feeds are kept. *)
Definition wipe (w : text) : text := map (fun c => if c =? 10 then 10 else 32) w.
Inductive wiped : text -> text -> Prop :=
| wi_end : wiped [] []
| wi_space c r r' : space c -> wiped r r' -> wiped (c :: r) (c :: r')
| wi_item k w r r' : lexeme k w -> k <> TLineComment -> k <> TBlockComment -> follow_ok k w r -> wiped r r' -> wiped (w ++ r) (w ++ r')
| wi_comment k w r r' : lexeme k w -> k = TLineComment \/ k = TBlockComment -> follow_ok k w r -> wiped r r' -> wiped (w ++ r) (wipe w ++ r').
