(** Runs one after another (C111). *)
From Verif Require Import ProofBase Tokens Syntax Lexer SpecLex ParserCore Grammar Tree Printer Formatter Lib SpecLayout
  FmtFacts FmtRelex FmtNeat FmtTree PropsFormat SpecReference PropsReference FmtStable FmtOnce
  Utf8 SpecUtf8 Utf8Facts Cli SpecCli CliFacts CliFind PropsCli PropsStable CliOrder SpecTwice PropsTwice SpecCrash PropsCrash SpecHistory.

Lemma times_fun w argv i n m : times w argv i n -> times w argv i m -> n = m.
Proof.
  intros H K. destruct H as [paths files D L|N]; destruct K as [paths' files' D' L'|N']; auto.
  - pose proof (dispatch_fun _ _ _ D D') as E. injection E as <-. rewrite (listing_fun _ _ _ L _ L'). reflexivity.
  - destruct (N' _ D).
  - destruct (N _ D').
Qed.
(** One run. *)
Lemma one_run fuel eol w s argv i : is_eol eol -> calm w ->
  exists m, treated_times eol m (s i) (after_effects s (snd (run fuel eol w s argv)) i) /\
    (forall n, times w argv i n -> (m <= n)%nat) /\
    ((exists c, fst (run fuel eol w s argv) = SExit c) -> times w argv i m).
Proof.
  intros EO C. destruct (run fuel eol w s argv) as [x es] eqn:R. cbn [fst snd]. destruct (dispatch_exists argv) as (act & D).
  assert (Forall quiet es -> (forall paths, ~ dispatch argv (AWork false paths)) ->
    exists m, treated_times eol m (s i) (after_effects s es i) /\ (forall n, times w argv i n -> (m <= n)%nat) /\ ((exists c, x = SExit c) -> times w argv i m)) as IDLE.
  { intros Q N. exists 0%nat. split; [cbn; apply (quiet_prefix s es es []); [exact Q|symmetry; apply app_nil_r]|]. split; [lia|]. intros _. apply tm_other, N. }
  destruct act as [| | | |check paths|].
  1-4, 6: apply IDLE; [eapply run_message; [exact D| |exact R]; discriminate|intros ps D'; pose proof (dispatch_fun _ _ _ D D'); discriminate].
  destruct check.
  { apply IDLE; [|intros ps D'; pose proof (dispatch_fun _ _ _ D D'); discriminate].
    destruct (run_work _ _ _ _ _ _ _ _ _ (fun _ => EO) D R) as [[-> _]|(files & L & [(c & X & P)|P])]; [constructor| |].
    - apply checked_all in P as [P _]. clear - P. induction P as [|q e qs es H P IH]; constructor; auto.
      destruct H as [e H|name src new|name src]; try exact Logic.I. pose proof (complaint_quiet _ _ _ _ H) as F. inversion F. assumption.
    - destruct (processed_all_cut _ _ _ _ _ _ _ _ P) as (a & q & b & c & e1 & e2 & -> & PA & PQ & ->). apply Forall_app. split.
      + apply checked_all in PA as [PA _]. clear - PA. induction PA as [|q e qs es H P IH]; constructor; auto.
        destruct H as [e H|name src new|name src]; try exact Logic.I. pose proof (complaint_quiet _ _ _ _ H) as F. inversion F. assumption.
      + inversion PQ as [| | | |j src new bs n NC CK MO ND U RW UB|ST]; subst; [discriminate|constructor]. }
  destruct (run_work _ _ _ _ _ _ _ _ _ (fun _ => EO) D R) as [[-> X]|(files & L & [(c & -> & P)|P])].
  - exists 0%nat. split; [reflexivity|]. split; [lia|]. intros (c & ->). destruct X as [X|[X _]]; discriminate.
  - destruct (handled_files _ _ _ _ _ _ _ P) as (bad & H & _). exists (named w i files). split; [eapply handled_all_treated; eauto|]. split.
    + intros n T. rewrite (times_fun _ _ _ _ _ T (tm_format w argv i paths files D L)). lia.
    + intros _. apply (tm_format w argv i paths files D L).
  - destruct (processed_all_cut _ _ _ _ _ _ _ _ P) as (a & q & b & c & e1 & e2 & -> & PA & PQ & ->).
    destruct (handled_files _ _ _ _ _ _ _ PA) as (bad & H & _).
    assert (e2 = []) as -> by (inversion PQ as [| | | |j src new bs n NC CK MO ND U RW UB|ST]; subst; [destruct (NC C)|reflexivity]).
    rewrite app_nil_r. exists (named w i a). split; [eapply handled_all_treated; eauto|]. split.
    + intros n T. rewrite (times_fun _ _ _ _ _ T (tm_format w argv i paths _ D L)). unfold named. rewrite filter_app, app_length. lia.
    + intros (c' & ->). pose proof (processed_all_stop _ _ _ _ _ _ _ _ P). discriminate.
Qed.

(** A file is never anything but its original contents formatted some number of times: at most as often as the runs were asked
    to, and exactly as often if they have all come to an end. *)
Theorem C111_contents : forall eol s cmds i, is_eol eol -> all_calm cmds ->
  exists m, treated_times eol m (s i) (after_runs eol s cmds i) /\
    (forall n, in_all i cmds n -> (m <= n)%nat) /\ (all_exit eol s cmds -> in_all i cmds m).
Proof.
  intros eol s cmds i EO C. revert s. induction C as [|[[fuel w] argv] cmds C _ IH]; intro s; cbn [after_runs all_exit].
  - exists 0%nat. split; [reflexivity|]. split; [lia|]. intros _. constructor.
  - cbn [fst snd] in C. destruct (one_run fuel eol w s argv i EO C) as (m & T & LE & EX).
    destruct (IH (after_effects s (snd (run fuel eol w s argv)))) as (m' & T' & LE' & EX'). exists (m + m')%nat.
    split; [eapply treated_times_app; eauto|]. split.
    + intros n H. inversion H as [|? ? ? ? n1 n2 H1 H2]; subst. specialize (LE _ H1). specialize (LE' _ H2). lia.
    + intros [E A]. constructor; auto.
Qed.
Print Assumptions C111_contents.

Lemma in_all_fun i cmds n : in_all i cmds n -> forall m, in_all i cmds m -> n = m.
Proof. induction 1 as [|fuel w argv cmds n m T H IH]; intros k K; inversion K; subst; [reflexivity|]. f_equal; [eapply times_fun; eauto|auto]. Qed.

(** A file that has been formatted twice is not changed by any later run. *)
Theorem C111_settled : forall eol s cmds later i n, is_eol eol -> all_calm cmds -> all_calm later -> all_exit eol s cmds ->
  in_all i cmds n -> (2 <= n)%nat -> (forall src, utf8 (s i) src -> no_lone_cr src) ->
  after_runs eol (after_runs eol s cmds) later i = after_runs eol s cmds i.
Proof.
  intros eol s cmds later i n EO C C' A N LE TA. destruct (C111_contents eol s cmds i EO C) as (m & T & _ & E). rewrite (in_all_fun _ _ _ (E A) _ N) in T.
  destruct (C111_contents eol (after_runs eol s cmds) later i EO C') as (m' & T' & _).
  replace n with (2 + (n - 2))%nat in T by lia. apply (C102_twice_is_enough eol _ _ _ EO TA) in T. destruct T as (c & H & d & K & X). cbn [treated_times] in X. rewrite X in *.
  pose proof (treated_fixed eol _ _ _ EO TA H K) as F. apply (treated_times_fun eol m' d _ _ T' (fixed_times eol d m' F)).
Qed.
Print Assumptions C111_settled.

(** The contents of a file depend only on whether it has been formatted never, once or more often: not on the order of the runs, on what else they
    were asked for, on the names it was given, nor on the checks in between. *)
Theorem C111_order : forall eol s cmds cmds' i n n', is_eol eol -> all_calm cmds -> all_calm cmds' -> all_exit eol s cmds -> all_exit eol s cmds' ->
  in_all i cmds n -> in_all i cmds' n' -> Nat.min 2 n = Nat.min 2 n' -> (forall src, utf8 (s i) src -> no_lone_cr src) ->
  after_runs eol s cmds i = after_runs eol s cmds' i.
Proof.
  intros eol s cmds cmds' i n n' EO C C' A A' N N' E TA.
  destruct (C111_contents eol s cmds i EO C) as (m & T & _ & X). rewrite (in_all_fun _ _ _ (X A) _ N) in T.
  destruct (C111_contents eol s cmds' i EO C') as (m' & T' & _ & X'). rewrite (in_all_fun _ _ _ (X' A') _ N') in T'.
  assert (forall k b, treated_times eol k (s i) b -> treated_times eol (Nat.min 2 k) (s i) b) as CUT.
  { intros k b H. destruct (Nat.le_gt_cases 2 k) as [L|L]; [|rewrite Nat.min_r by lia; exact H]. rewrite Nat.min_l by exact L.
    replace k with (2 + (k - 2))%nat in H by lia. apply (C102_twice_is_enough eol _ _ _ EO TA) in H. exact H. }
  apply CUT in T, T'. rewrite E in T. eapply treated_times_fun; eauto.
Qed.
Print Assumptions C111_order.

(** At the end a check passes if every file was without errors at the beginning and has been formatted twice. *)
Theorem C111_check : forall eol s cmds w argv paths files, is_eol eol -> all_calm cmds -> calm w -> all_exit eol s cmds ->
  dispatch argv (AWork true paths) -> listing w paths files ->
  Forall (fun q => exists src new i n, holds w s q src /\ no_lone_cr src /\ rewrites eol src new /\ w_node w q = Some (NFile i) /\ in_all i cmds n /\ (2 <= n)%nat) files ->
  exists enough, forall fuel, (enough <= fuel)%nat -> exists es, run fuel eol w (after_runs eol s cmds) argv = (SExit 0, es).
Proof.
  intros eol s cmds w argv paths files EO C CW A D L F. destruct C40_exit_code as (_ & _ & Z & _). apply (Z eol w _ argv true paths files EO CW D L); [|auto].
  rewrite Forall_forall in *. intros q Q. destruct (F q Q) as (src & new & i & n & (M & j & NJ & U) & NC & RW & NQ & N & LE).
  assert (j = i) as -> by congruence. destruct (C111_contents eol s cmds i EO C) as (m & T & _ & X). rewrite (in_all_fun _ _ _ (X A) _ N) in T.
  destruct (fine_times eol _ EO _ _ _ _ U NC RW T) as (t & u & UT & _ & RT & E). rewrite (E LE) in RT. exists t, t. split; [split; [exact M|eauto]|auto].
Qed.
Print Assumptions C111_check.

(** ** Concrete cases *)
(** A file which one run does not settle ([C44_format_then_check_refuted]): a check, a run, a check, a run. *)
Definition fmt_f : command := (5%nat, lone, [str "mofmt"; str "f.mo"]).
Definition check_f : command := (5%nat, lone, [str "mofmt"; str "--check"; str "f.mo"]).
Definition days : list command := [check_f; fmt_f; check_f; fmt_f].
Lemma lone_listing : listing lone [str "f.mo"] [str "f.mo"].
Proof. apply li_file; [reflexivity|constructor]. Qed.
Lemma fmt_dispatch : dispatch [str "mofmt"; str "f.mo"] (AWork false [str "f.mo"]).
Proof. apply dp_chooses; [repeat constructor; eexists; ascii|]. apply ds_format. intros o E. discriminate. Qed.
Lemma check_dispatch_f : dispatch [str "mofmt"; str "--check"; str "f.mo"] (AWork true [str "f.mo"]).
Proof. apply dp_chooses; [repeat constructor; eexists; ascii|]. apply (ds_check _ [str "f.mo"]). discriminate. Qed.
Lemma fmt_times : times lone [str "mofmt"; str "f.mo"] 0 1.
Proof. apply (tm_format lone _ 0 _ _ fmt_dispatch lone_listing). Qed.
Lemma check_times : times lone [str "mofmt"; str "--check"; str "f.mo"] 0 0.
Proof. apply tm_other. intros ps D. pose proof (dispatch_fun _ _ _ D check_dispatch_f). discriminate. Qed.
Example C111_applies : all_calm days /\ in_all 0 days 2 /\ all_exit lf (fun _ => unstable) days /\
  after_runs lf (fun _ => unstable) days 0 = after_runs lf (fun _ => unstable) [fmt_f; fmt_f] 0 /\
  after_runs lf (fun _ => unstable) days 0 <> after_runs lf (fun _ => unstable) [fmt_f] 0.
Proof.
  split; [repeat constructor|]. split.
  { apply (ia_cons 0 5 lone _ _ 0 2 check_times). apply (ia_cons 0 5 lone _ _ 1 1 fmt_times). apply (ia_cons 0 5 lone _ _ 0 1 check_times). apply (ia_cons 0 5 lone _ _ 1 0 fmt_times). constructor. }
  split.
  { cbn [all_exit days fmt_f check_f]. split; [exists 1; vm_compute; reflexivity|]. split; [exists 0; vm_compute; reflexivity|]. split; [exists 1; vm_compute; reflexivity|]. split; [exists 0; vm_compute; reflexivity|exact Logic.I]. }
  split; [vm_compute; reflexivity|]. vm_compute. discriminate.
Qed.
Example C111_checked : exists es, run 5 lf lone (after_runs lf (fun _ => unstable) days) [str "mofmt"; str "--check"; str "f.mo"] = (SExit 0, es).
Proof. eexists. vm_compute. reflexivity. Qed.
