(** Specification: the same file with other names, numbers, strings and comments. *)
From Verif Require Import Base Tokens SpecLex.

(** [retold s s']: both texts consist of lexemes of the same kinds in the same order, on the same
    lines. White space within lines, and the spelling of the lexemes, may differ. *)
Inductive retold : text -> text -> Prop :=
| rt_end g g' : Forall space g -> Forall space g' -> retold g g'
| rt_item g g' k w w' r r' :
    Forall space g -> Forall space g' -> newlines g = newlines g' ->
    lexeme k w -> lexeme k w' -> newlines w = newlines w' ->
    follow_ok k w r -> follow_ok k w' r' ->
    retold r r' -> retold (g ++ w ++ r) (g' ++ w' ++ r').

(** The text with line breaks of Windows: a carriage return in front of every line feed. *)
Definition windows (s : text) : text := flat_map (fun c => if c =? 10 then [13; 10] else [c]) s.
(** No quoted identifier spans lines. *)
Definition names_on_lines (items : list (tkind * text)) : Prop :=
  forall w, In (TIdentifier, w) items -> newlines w = 0.

(** [revised s s']: as [retold], but of line breaks only 0, 1 and more than 1 are told apart, between
    lexemes and within them. [relaid s s']: moreover the lexemes are the same. *)
Definition alike_gaps (g g' : text) : Prop := N.min 2 (newlines g) = N.min 2 (newlines g').
Inductive revised : text -> text -> Prop :=
| rv_end g g' : Forall space g -> Forall space g' -> revised g g'
| rv_item g g' k w w' r r' :
    Forall space g -> Forall space g' -> alike_gaps g g' ->
    lexeme k w -> lexeme k w' -> alike_gaps w w' ->
    follow_ok k w r -> follow_ok k w' r' ->
    revised r r' -> revised (g ++ w ++ r) (g' ++ w' ++ r').
Inductive relaid : text -> text -> Prop :=
| rl_end g g' : Forall space g -> Forall space g' -> relaid g g'
| rl_item g g' k w r r' :
    Forall space g -> Forall space g' -> alike_gaps g g' ->
    lexeme k w -> follow_ok k w r -> follow_ok k w r' ->
    relaid r r' -> relaid (g ++ w ++ r) (g' ++ w ++ r').
