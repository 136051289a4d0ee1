(** Runs at the same time (C110): which files a run may read, which it may change. *)
From Verif Require Import Base Tokens Syntax ParserCore Lib Utf8 Cli SpecUtf8 SpecCli CliSteps.

(** The selected files with a Modelica name are read ... *)
Definition reads (w : world) (argv : list bytes) (i : inode) : Prop :=
  exists check paths files q, dispatch argv (AWork check paths) /\ listing w paths files /\ In q files /\ is_modelica q = true /\ w_node w q = Some (NFile i).
(** ... and, unless the run only checks, changed. *)
Definition changes (w : world) (argv : list bytes) (i : inode) : Prop :=
  exists paths files q, dispatch argv (AWork false paths) /\ listing w paths files /\ In q files /\ is_modelica q = true /\ w_node w q = Some (NFile i).

(** Runs are given by what they see of the file system and by their arguments. *)
Definition job : Type := world * list bytes.
Definition started (fuel : nat) (eol : text) (jobs : list job) : list prog := map (fun x : job => main_prog fuel eol (fst x) (snd x)) jobs.
(** No other run changes a file which the run [j] reads. *)
Definition undisturbed (jobs : list job) (j : nat) : Prop := forall i w argv w' argv' x, i <> j ->
  nth_error jobs i = Some (w, argv) -> nth_error jobs j = Some (w', argv') -> changes w argv x -> ~ reads w' argv' x.
Definition over (q : prog) : Prop := exists x, q = Done x.
