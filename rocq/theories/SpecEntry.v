(** Specification for C115: texts read from a rule other than the one for files. *)
From Verif Require Import Base Tokens Syntax Tree Lib ParserSem SpecGrammar.

(** [parse] reads the whole text [s] as one [k] of the grammar, without errors: its events
    are those of a syntax tree for [k] whose leaves are all the tokens. *)
Definition read_whole (k : skind) (s : text) (p : parsed) (cs : list child) : Prop :=
  parse s k = Ok p /\ p_errors p = [] /\ conforms false (CTree k cs) /\
  leaves (CTree k cs) = p_tokens p /\ p_events p = flat (CTree k cs).

(** Rules whose formatter starts with a line break or ends with white space. *)
Definition edged : list skind :=
  [KStoredDefinition; KComposition; KComponentList; KOutputExpressionList].
