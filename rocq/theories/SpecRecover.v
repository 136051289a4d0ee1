(** What the syntax errors of a file say, and which tokens the parser sets aside (C80). *)
From Verif Require Import Base Tokens Syntax Lexer Tree.

(** The contents of the nodes of kind [Error] of a tree, in order. *)
Fixpoint set_aside (c : child) : list (list child) :=
  match c with
  | CTok _ => []
  | CTree KError cs => [cs]
  | CTree _ cs => flat_map set_aside cs
  end.

(** The kind of the [n]-th token of [rest]; behind the last token it is [EOF]. *)
Definition kind_ahead (rest : list token) (n : nat) : tkind := nth n (map tkind_of rest) TEOF.

(** The complaints about a token that fits nowhere: which token is named (0: the token itself, 1: the
    one behind it), and what is said behind its kind. *)
Definition misfits : list (nat * string) := [
  (0%nat, "' used as a class prefix");
  (0%nat, "': doesn't match any type of class specifier");
  (1%nat, "' following 'initial'. Expected 'equation' or 'algorithm'");
  (0%nat, "' after element list inside composition. Expected 'protected', 'public', 'initial', 'equation', 'algorithm', 'external', 'annotation' or 'end'.");
  (1%nat, "' after '.'. Expected identifier or '{'")]%string.

(** What the syntax error [e] says about the tokens of the file: either a token of kind [t] is missing
    in front of the rest of the tokens, and nothing is set aside; or the token [x] fits nowhere, and
    [x] is set aside. A missing token at the end of the file is reported at the last token. *)
Inductive about (toks : list token) : err -> option token -> Prop :=
| about_missing before rest t x :
    toks = before ++ rest ->
    match rest with y :: _ => x = y | [] => exists l, toks = l ++ [x] end ->
    t <> kind_ahead rest 0 ->
    about toks (mkErr (line (tstart x)) (col (tstart x))
      (str "expected " ++ str (tkind_debug t) ++ str ", found " ++ str (tkind_debug (kind_ahead rest 0)))) None
| about_misfit before x after n post :
    toks = before ++ x :: after -> In (n, post) misfits ->
    about toks (mkErr (line (tstart x)) (col (tstart x))
      (str "unexpected token '" ++ str (tkind_debug (kind_ahead (x :: after) n)) ++ str post)) (Some x).

(** The values that are there. *)
Fixpoint present {A} (l : list (option A)) : list A :=
  match l with
  | [] => []
  | Some a :: l => a :: present l
  | None :: l => present l
  end.
