(** Specification of the lexer on every text, correct or not: how a text falls into white
    space, items and rejected pieces, and what is reported about each of them. *)
From Verif Require Import Base Tokens SpecLex.
From Verif Require Lexer.

(** [rejected w m r]: the text [w], followed by [r], is rejected with the message [m]. *)
Inductive rejected : text -> text -> text -> Prop :=
(** a character that is no white space and starts no token or comment at all *)
| rj_char c r :
    ~ space c -> (forall k b, ~ lexeme k (c :: b)) ->
    rejected [c] (str "unexpected character: '" ++ [c] ++ str "'") r
(** a string without its closing quote takes the rest of the text *)
| rj_string b e :
    string_body b -> e = [] \/ e = [backslash] ->
    rejected (dquote :: b ++ e) (str "unclosed string") []
(** a quoted identifier ends at the first character that is not allowed in it *)
| rj_qchar b c r :
    qident_body b -> ~ qchar c -> c <> squote -> c <> backslash ->
    rejected (squote :: b ++ [c]) (str "unexpected character inside Q-IDENT: '" ++ [c] ++ str "'") r
(** a quoted identifier without its closing quote takes the rest of the text *)
| rj_qident b e :
    qident_body b -> e = [] \/ e = [backslash] ->
    rejected (squote :: b ++ e) (str "unclosed Q-IDENT") []
(** a block comment that is never closed takes the rest of the text *)
| rj_block x :
    ~ has_close (star :: x) ->
    rejected (slash :: star :: x) (str "unclosed block comment") [].

Inductive piece :=
| PSpace (c : N)                     (* a white-space character *)
| PItem (k : tkind) (w : text)       (* a token or comment *)
| PBad (w m : text).                 (* a rejected piece and the message about it *)

Inductive pieces : text -> list piece -> Prop :=
| pieces_nil : pieces [] []
| pieces_space c r ps : space c -> pieces r ps -> pieces (c :: r) (PSpace c :: ps)
| pieces_item k w r ps :
    lexeme k w -> follow_ok k w r -> pieces r ps -> pieces (w ++ r) (PItem k w :: ps)
| pieces_bad w m r ps :
    rejected w m r -> pieces r ps -> pieces (w ++ r) (PBad w m :: ps).

(** The place directly after the text [c]: byte offset, line and column. *)
Definition place_of (c : text) : position :=
  mkPos (bytes_of c) (1 + newlines c) (1 + columns c).

(** The tokens and comments (numbered from [n]) and the errors of pieces that stand
    after the text [c]. *)
Fixpoint report (c : text) (n : N) (ps : list piece) : list token * list Lexer.err :=
  match ps with
  | [] => ([], [])
  | PSpace x :: ps => report (c ++ [x]) n ps
  | PItem k w :: ps =>
      let '(ts, es) := report (c ++ w) (n + 1) ps in
      (mkTok n w k (place_of c) (place_of (c ++ w)) :: ts, es)
  | PBad w m :: ps =>
      let '(ts, es) := report (c ++ w) n ps in
      (ts, Lexer.mkErr (1 + newlines c) (1 + columns c) m :: es)
  end.

Definition is_comment (t : token) : bool :=
  match tkind_of t with TLineComment | TBlockComment => true | _ => false end.
Definition is_code (t : token) : bool := negb (is_comment t).

(** [w] ends with a character that takes more than one byte. *)
Definition ends_wide (w : text) : Prop := exists u x, w = u ++ [x] /\ 128 <= x.

(** The lexer counts every character as one byte when it notes where a token ends; it
    slices the source between two characters only, or crashes. *)
Inductive stumbles : list piece -> Prop :=
| st_comment w ps : ends_wide w -> stumbles (PItem TLineComment w :: ps)
| st_bad w m k v ps : ends_wide w -> stumbles (PBad w m :: PItem k v :: ps)
| st_later p ps : stumbles ps -> stumbles (p :: ps).
