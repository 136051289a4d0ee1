(** Specification of the command line tool: which files it looks at, what may happen to
    them, and what it reports. *)
From Verif Require Import Base Tokens Syntax ParserCore Lib Utf8 SpecUtf8 Cli FmtNeat.

(** Nothing goes wrong in system calls. *)
Definition calm (w : world) : Prop := forall n, w_fault w n = FNone.

(** The last component of a path is a name with extension [mo]. *)
Definition mo_name (n : bytes) : Prop := exists b, b <> [] /\ n = b ++ str ".mo".

(** Names of directory entries. *)
Definition proper_name (n : bytes) : Prop := n <> [] /\ n <> dot_part /\ n <> dotdot_part /\ ~ In slash_ch n.
Definition proper (w : world) : Prop :=
  forall d es, w_node w d = Some (NDir es) -> Forall proper_name es /\ NoDup es.

(** ** Files selected by arguments *)
(** [dirs w a d]: the directory [d] is [a] or lies in it at any depth. *)
Inductive dirs (w : world) (a : path) : path -> Prop :=
| di_here : is_dir w a = true -> dirs w a a
| di_sub d es n : dirs w a d -> w_node w d = Some (NDir es) -> In n es -> is_dir w (join d n) = true ->
    dirs w a (join d n).
(** Files with extension [mo] in such a directory, and arguments that are not directories. *)
Definition selected (w : world) (args : list path) (q : path) : Prop :=
  exists a, In a args /\
    ((is_dir w a = false /\ q = a) \/
     (exists d es n, dirs w a d /\ w_node w d = Some (NDir es) /\ In n es /\ mo_name n /\
        q = join d n /\ is_dir w q = false)).

(** The order in which they are visited: depth first, in the order of the arguments and of
    the directory entries. *)
Inductive below (w : world) : path -> list path -> Prop :=
| be_dir p es fs : w_node w p = Some (NDir es) -> below_all w p es fs -> below w p fs
| be_take p : is_dir w p = false -> is_modelica p = true -> below w p [p]
| be_skip p : is_dir w p = false -> is_modelica p = false -> below w p []
with below_all (w : world) : path -> list bytes -> list path -> Prop :=
| ba_nil d : below_all w d [] []
| ba_cons d n es fs fs' : below w (join d n) fs -> below_all w d es fs' -> below_all w d (n :: es) (fs ++ fs').
Inductive listing (w : world) : list path -> list path -> Prop :=
| li_nil : listing w [] []
| li_file p args fs : is_dir w p = false -> listing w args fs -> listing w (p :: args) (p :: fs)
| li_dir p args fs fs' : is_dir w p = true -> below w p fs -> listing w args fs' -> listing w (p :: args) (fs ++ fs').

(** ** What happens to one file *)
(** [rewrites eol src new]: [src] is accepted and [new] is its formatted text with a final
    line ending. *)
Definition rewrites (eol src new : text) : Prop :=
  exists p out, accepted src p /\ pretty_print eol p = Ok out /\ new = out ++ eol.
Inductive rewrites_star (eol : text) : text -> text -> Prop :=
| rs_refl t : rewrites_star eol t t
| rs_step t u v : rewrites_star eol t u -> rewrites eol u v -> rewrites_star eol t v.

(** The text in a file with extension [mo]. *)
Definition holds (w : world) (s : store) (q : path) (src : text) : Prop :=
  is_modelica q = true /\ exists i, w_node w q = Some (NFile i) /\ utf8 (s i) src.
(** A file in order: readable, without errors and, if [check], already formatted. *)
Definition in_order (eol : text) (w : world) (s : store) (check : bool) (q : path) : Prop :=
  exists src new, holds w s q src /\ rewrites eol src new /\ (check = true -> new = src).

(** What is printed about a file: complaints, or the result of a check. *)
Inductive complaint (w : world) (s : store) (q : path) : effect -> Prop :=
| co_unreadable name msg : (calm w -> forall src, ~ holds w s q src) -> shows q name ->
    (* [w_oserr w] is the message of the operating system *)
    msg = (if is_modelica q then w_oserr w else name ++ str " is not a Modelica file") ->
    complaint w s q (EErr (name ++ str ": error: " ++ msg ++ [10]))
| co_syntax name src p : holds w s q src -> parse src KStoredDefinition = Ok p -> p_errors p <> [] -> shows q name ->
    (* each error on a line of its own *)
    complaint w s q (EOut (str "Syntax errors detected:" ++ [10] ++ concat (map (fun l => l ++ [10]) (error_strings name p)))).
Inductive report (eol : text) (w : world) (s : store) (q : path) : effect -> Prop :=
| rp_complaint e : complaint w s q e -> report eol w s q e
| rp_failed name src new : holds w s q src -> rewrites eol src new -> new <> src -> shows q name ->
    report eol w s q (EOut (name ++ str ": check failed" ++ [10]))
| rp_passed name src : holds w s q src -> rewrites eol src src -> shows q name ->
    report eol w s q (EOut (name ++ str ": check passed" ++ [10])).

(** What is done about a file in formatting mode: it is complained about, or its formatted
    text is written into it and nothing is printed; [bad] says which. *)
Inductive handled (eol : text) (w : world) (s : store) (q : path) : bool -> list effect -> Prop :=
| ha_complaint e : complaint w s q e -> handled eol w s q true [e]
| ha_written i src new b : is_modelica q = true -> w_node w q = Some (NFile i) -> utf8 (s i) src ->
    rewrites eol src new -> utf8 b new -> handled eol w s q false (ETrunc i :: map (EWrite i) b).
(** The same for a list of files, one after the other; [bad] if any file was complained about. *)
Inductive handled_all (eol : text) (w : world) : store -> list path -> bool -> list effect -> Prop :=
| hl_nil s : handled_all eol w s [] false []
| hl_cons s q qs b1 e1 b2 e2 : handled eol w s q b1 e1 -> handled_all eol w (after_effects s e1) qs b2 e2 ->
    handled_all eol w s (q :: qs) (b1 || b2) (e1 ++ e2).

Definition quiet (e : effect) : Prop := match e with EOut _ | EErr _ => True | _ => False end.

(** Everything a run may do to the store [s], if it works on [files]. *)
Inductive story (eol : text) (w : world) (files : list path) : store -> list effect -> Prop :=
| st_nil s : story eol w files s []
| st_quiet s e es : quiet e -> story eol w files s es -> story eol w files s (e :: es)
| st_write s q i src new b es :
    In q files -> is_modelica q = true -> w_node w q = Some (NFile i) -> utf8 (s i) src -> rewrites eol src new -> utf8 b new ->
    story eol w files (update s i b) es ->
    story eol w files s (ETrunc i :: map (EWrite i) b ++ es)
| st_cut s q i src new b n :
    In q files -> is_modelica q = true -> w_node w q = Some (NFile i) -> utf8 (s i) src -> rewrites eol src new -> utf8 b new ->
    story eol w files s (ETrunc i :: map (EWrite i) (firstn n b)).

(** ** Options *)
(** [AGarbled]: an argument is not UTF-8. *)
Inductive action := AUsage | AHelp | AVersion | AUnknown (o : text) | AWork (check : bool) (paths : list path) | AGarbled.
Definition help_options : list bytes := [str "-h"; str "--help"].
Definition version_options : list bytes := [str "-v"; str "--version"].
Inductive chooses : list bytes -> action -> Prop :=
| ds_none : chooses [] AUsage
| ds_program p : chooses [p] AUsage
| ds_help p o rest : In o help_options -> chooses (p :: o :: rest) AHelp
| ds_version p o rest : In o version_options -> chooses (p :: o :: rest) AVersion
| ds_check p paths : paths <> [] -> chooses (p :: str "--check" :: paths) (AWork true paths)
| ds_check_none p : chooses [p; str "--check"] AUsage
| ds_unknown p o rest t : ~ In (str "-" ++ o) (str "--check" :: help_options ++ version_options) ->
    utf8 (str "-" ++ o) t -> chooses (p :: (str "-" ++ o) :: rest) (AUnknown t)
| ds_format p a rest : (forall o, a <> str "-" ++ o) -> chooses (p :: a :: rest) (AWork false (a :: rest)).
Inductive dispatch (argv : list bytes) : action -> Prop :=
| dp_garbled a : In a argv -> ~ readable a -> dispatch argv AGarbled
| dp_chooses act : Forall readable argv -> chooses argv act -> dispatch argv act.
(** The message and the exit code of the actions that do not work on files. *)
Definition message (act : action) : option (effect * N) :=
  match act with
  | AUsage => Some (EErr (str "Missing PATHS arguments." ++ [10] ++ help ++ [10]), 1)
  | AHelp => Some (EOut (help ++ [10]), 0)
  | AVersion => Some (EOut (str "mofmt, " ++ version ++ [10]), 0)
  | AUnknown o => Some (EErr (str "Unrecognized option: '" ++ o ++ str "'." ++ [10] ++ help ++ [10]), 1)
  | AWork _ _ | AGarbled => None
  end.
