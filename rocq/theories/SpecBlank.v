(** Specification: where empty lines come from. *)
From Verif Require Import Base Tokens Syntax Tree SpecGrammar SpecLayout SpecNodes.

Definition symbol (c : child) : sym := match c with CTok t => Term (tkind_of t) | CTree k _ => Rule k end.

(** [part u d]: [d] begins a part of a class body, whose children before [d] are [u]: a list of elements, a section word, a
    section, [external], the call of an external function, or the annotation of the class. The annotation of the external
    function does not count. *)
Definition part (u : list child) (d : child) : Prop :=
  symbol d <> Term TSemicolon /\ symbol d <> Rule KLanguageSpecification /\
  (symbol d = Rule KAnnotationClause ->
     forall u' e, u = u' ++ [e] ->
       symbol e <> Term TExternal /\ symbol e <> Rule KLanguageSpecification /\ symbol e <> Rule KExternalFunctionCall).

(** Tokens with an empty line in front of them in any case: the first ones of parts of class bodies, of the first
    equation or statement of a section, and [end] of a class. *)
Inductive automatic (tree : child) (t : token) : Prop :=
| au_part u d v r :
    inside (CTree KComposition (u ++ d :: v)) tree -> part u d -> toks d = t :: r -> automatic tree t
| au_first k u w d v r :
    inside (CTree k (u ++ w :: d :: v)) tree -> k = KEquationSection \/ k = KAlgorithmSection ->
    symbol d = Rule KEquation \/ symbol d = Rule KStatement -> symbol w <> Term TSemicolon -> toks d = t :: r -> automatic tree t
| au_end u v :
    inside (CTree KLongClassSpecifier (u ++ CTok t :: v)) tree -> tkind_of t = TEnd -> automatic tree t.

(** The line on which the last token ends, or the last comment on a line of its own, if it comes later. *)
Definition anchor (first : N) (l : layout) : N :=
  fold_left (fun ln e => if is_break (e_white e) || match e_rule e with None => false | _ => true end then line (tend (e_tok e)) else ln) l first.
(** The source has an empty line between line [n] and the beginning of [e]. *)
Definition apart (n : N) (e : entry) : Prop := n + 1 < line (tstart (e_tok e)).
(** The line on which the previous item ends. *)
Definition ended (first : N) (l : layout) : N := match rev l with [] => first | e :: _ => line (tend (e_tok e)) end.
