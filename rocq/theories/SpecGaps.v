(** Specification of the space between two tokens on one line (code-style.md, "Spaces" and
    "Operators"). Tokens are given by the rule to which they belong and their kind. *)
From Verif Require Import Base Tokens Syntax SpecLayout.

Definition one_of (k : tkind) (ks : list tkind) : bool := existsb (tkind_eqb k) ks.
Definition opening_bracket (k : tkind) : bool := one_of k [TLParen; TLBracket; TLCurly].
Definition closing_bracket (k : tkind) : bool := one_of k [TRParen; TRBracket; TRCurly].

(** [tight a r e]: token [e] of rule [r] follows token [a] without space. *)
Definition tight (a : tkind) (r : skind) (e : tkind) : bool :=
  (** before closing brackets, commas and semicolons; after omitted results there is a space *)
  if closing_bracket e then negb (tkind_eqb a TComma)
  else if tkind_eqb e TComma then negb (one_of a [TComma; TLParen])
  else if tkind_eqb e TSemicolon then negb (tkind_eqb a TWithin)
  (** after opening brackets and dots *)
  else if opening_bracket a then true
  else if tkind_eqb a TDot then true
  (** before dots inside of names *)
  else if tkind_eqb e TDot then one_of a [TIdentifier; TRBracket]
  else if tkind_eqb e TDotStar then skind_eqb r KImportClause
  (** before opening brackets, unless they start an expression, a list of results or an annotation *)
  else if opening_bracket e then
    negb (skind_eqb r KPrimary || skind_eqb r KStatement || tkind_eqb a TAnnotation)
  else false.
