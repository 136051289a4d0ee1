(** Runs one after another (C111): how often a file is formatted in the course of a history. *)
From Verif Require Import Base Tokens Syntax Utf8 SpecUtf8 Cli SpecCli SpecTwice.

(** A history: for every run the fuel, what it sees of the file system (paths may lead to other files from run to run) and
    its arguments. *)
Definition command : Type := nat * world * list bytes.
Fixpoint after_runs (eol : text) (s : store) (cmds : list command) : store :=
  match cmds with
  | [] => s
  | (fuel, w, argv) :: rest => after_runs eol (after_effects s (snd (run fuel eol w s argv))) rest
  end.
(** Every run ends with an exit code. *)
Fixpoint all_exit (eol : text) (s : store) (cmds : list command) : Prop :=
  match cmds with
  | [] => True
  | (fuel, w, argv) :: rest => (exists c, fst (run fuel eol w s argv) = SExit c) /\ all_exit eol (after_effects s (snd (run fuel eol w s argv))) rest
  end.
(** No system call fails. *)
Definition all_calm (cmds : list command) : Prop := Forall (fun x : command => calm (snd (fst x))) cmds.

(** [times w argv i n]: the arguments ask for formatting the file [i] [n] times. *)
Inductive times (w : world) (argv : list bytes) (i : inode) : nat -> Prop :=
| tm_format paths files : dispatch argv (AWork false paths) -> listing w paths files -> times w argv i (named w i files)
| tm_other : (forall paths, ~ dispatch argv (AWork false paths)) -> times w argv i 0.
Inductive in_all (i : inode) : list command -> nat -> Prop :=
| ia_nil : in_all i [] 0
| ia_cons fuel w argv cmds n m : times w argv i n -> in_all i cmds m -> in_all i ((fuel, w, argv) :: cmds) (n + m).
