(** Specification for C117: the rules of the reference formatter for parts of files. *)
From Verif Require Import Base Tokens Syntax Tree SpecLayout SpecReference.

(** The layout of a text that is read as one [k] with this syntax tree, and these tokens and comments;
    [reference] is the case of whole files. *)
Definition reference_at (k : skind) (tree : child) (items : list token) : layout :=
  weave None 1 [] items (spots k Beside 0 0 false false tree).
