(** What a run leaves behind that stops half-way (C106). *)
From Verif Require Import Base Tokens Syntax ParserCore Lib Utf8 SpecUtf8 Cli SpecCli.

(** The contents of the file [q] crash the parser. *)
Definition fatal (w : world) (s : store) (q : path) : Prop :=
  exists src x, holds w s q src /\ parse src KStoredDefinition = Panic x.
(** The files [qs] have been dealt with completely, with the effects [es]. *)
Definition finished (eol : text) (w : world) (check : bool) (s : store) (qs : list path) (es : list effect) : Prop :=
  if check then Forall2 (report eol w s) qs es else exists bad, handled_all eol w s qs bad es.
(** The formatted text of [q] was being written when it happened. *)
Definition cut_short (eol : text) (w : world) (s : store) (q : path) (es : list effect) : Prop :=
  exists i src new b n, is_modelica q = true /\ w_node w q = Some (NFile i) /\ utf8 (s i) src /\ rewrites eol src new /\ utf8 b new /\
    es = ETrunc i :: map (EWrite i) (firstn n b).
