(** Specification: how deep calls are nested. *)
From Verif Require Import Base Tokens Syntax Tree.

(** The largest number of rules that are open at the same time, [open] of them at the beginning. *)
Fixpoint nesting (open : nat) (evs : list event) : nat :=
  match evs with
  | [] => open
  | Enter _ :: r => nesting (S open) r
  | Exit :: r => Nat.max open (nesting (open - 1) r)
  | Advance :: r => nesting open r
  end.

(** Nodes on the longest path down a tree. *)
Fixpoint depth (c : child) : nat :=
  match c with CTok _ => 0 | CTree _ cs => S (list_max (map depth cs)) end.

(** The largest number of brackets open at the same time. *)
Definition opens (k : tkind) : bool := match k with TLParen | TLCurly | TLBracket => true | _ => false end.
Definition closes (k : tkind) : bool := match k with TRParen | TRCurly | TRBracket => true | _ => false end.
Fixpoint brackets (open : nat) (ks : list tkind) : nat :=
  match ks with
  | [] => open
  | k :: r => if opens k then brackets (S open) r
              else if closes k then Nat.max open (brackets (open - 1) r) else brackets open r
  end.
