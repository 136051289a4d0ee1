(** Specification of changes of white space, independent of lexer and formatter. *)
From Verif Require Import Base Tokens SpecLex.

(** [respaced s s']: both texts consist of the same lexemes in the same order, with the same
    number of line feeds in front of each of them. Spaces, tabs, form feeds and carriage
    returns may be added, removed or exchanged, as long as no two lexemes become one; white space at the end
    does not matter. *)
Inductive respaced : text -> text -> Prop :=
| rs_end g g' : Forall space g -> Forall space g' -> respaced g g'
| rs_gap g g' r r' :
    Forall space g -> Forall space g' -> newlines g = newlines g' ->
    respaced r r' -> respaced (g ++ r) (g' ++ r')
| rs_item k w r r' :
    lexeme k w -> follow_ok k w r -> follow_ok k w r' ->
    respaced r r' -> respaced (w ++ r) (w ++ r').
