(** Specification: how many messages there are at one place. *)
From Coq Require Import PeanoNat.
From Verif Require Import Base Tokens Syntax Lexer.

(** The message [e] is about place [i]: the [i]-th token, or the end of the file behind the last token, for which
    the position of the last token is given. *)
Definition about_place (toks : list token) (e : err) (i : nat) : Prop :=
  exists t, nth_error toks (if Nat.eqb i (length toks) then i - 1 else i) = Some t /\
    eline e = line (tstart t) /\ ecol e = col (tstart t).
Definition times (i : nat) (places : list nat) : nat := count_occ Nat.eq_dec places i.
