(** Specification for C100: lists of declarations, equations and statements. *)
From Verif Require Import Base Tokens Syntax Tree SpecLex ParserSem SpecNodes SpecLayout SpecReference.

(** Nodes with such lists, and the kind of the entries. *)
Definition entry_kind (k : skind) : option skind :=
  match k with
  | KElementList => Some KElement
  | KEquationSection | KIfEquation | KForEquation | KWhenEquation => Some KEquation
  | KAlgorithmSection | KIfStatement | KForStatement | KWhenStatement | KWhileStatement => Some KStatement
  | _ => None
  end.
(** One or more entries, each with its semicolon. *)
Inductive entries (e : skind) : list child -> Prop :=
| entries_one ds t : tkind_of t = TSemicolon -> entries e [CTree e ds; CTok t]
| entries_more ds t cs : tkind_of t = TSemicolon -> entries e cs -> entries e (CTree e ds :: CTok t :: cs).

(** The entries [w] of a node of kind [k] make up the part [x] of the text [A ++ x ++ B] with this syntax tree:
    [x] begins with their first token and ends with their last one. *)
Record stands (A x B : text) (tree : child) (k e : skind) (u w v : list child) : Prop := {
  st_inside : inside (CTree k (u ++ w ++ v)) tree;
  st_kind : entry_kind k = Some e;
  st_entries : entries e w;
  st_place : exists a ts b, flat_map leaves w = a :: ts ++ [b] /\
    pos (tstart a) = bytes_of A /\ pos (tend b) = bytes_of (A ++ x) }.
(** White space or a semicolon. *)
Definition parting (c : char) : Prop := space c \/ c = 59.
(** Wrapped left-hand sides: each moves what follows it one level to the right. *)
Definition leaked (w : list child) : nat := fold_right (fun d n => (leak d + n)%nat) O w.
(** Entries of a layout whose items begin between two places of the text. *)
Definition begins (from to : N) (x : entry) : bool := (from <=? pos (tstart (e_tok x))) && (pos (tstart (e_tok x)) <? to).
(** The same item with the same white space in front of it. *)
Definition alike (x x' : entry) : Prop :=
  e_white x' = e_white x /\ ttext (e_tok x') = ttext (e_tok x) /\ tkind_of (e_tok x') = tkind_of (e_tok x).
(** Trees of the same form. *)
Inductive same_form : child -> child -> Prop :=
| sf_tok t t' : tkind_of t' = tkind_of t -> ttext t' = ttext t -> same_form (CTok t) (CTok t')
| sf_tree k cs cs' : Forall2 same_form cs cs' -> same_form (CTree k cs) (CTree k cs').
