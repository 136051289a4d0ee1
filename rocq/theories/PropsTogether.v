(** Several runs at the same time (C110). *)
From Verif Require Import ProofBase Tokens Syntax ParserCore Lib Utf8 Utf8Facts SpecUtf8 Cli SpecCli CliFacts CliFind CliSteps PropsCli PropsTwice SpecTogether CliTogether.

(** Step by step, a run that is alone is the run of the other theorems. *)
Theorem C110_alone : forall fuel eol w s argv, play (main_prog fuel eol w argv) s = run fuel eol w s argv.
Proof. exact alone. Qed.
Print Assumptions C110_alone.

Lemma mapped_nth {A B} (f : A -> B) j : forall l b, nth_error (map f l) j = Some b <-> exists a, nth_error l j = Some a /\ b = f a.
Proof.
  induction j as [|j IH]; intros [|x l] b; cbn; try apply IH.
  - split; [discriminate|intros (a & H & _); discriminate].
  - split; [intro H; exists x; split; congruence|intros (a & H & E); congruence].
  - split; [discriminate|intros (a & H & _); discriminate].
Qed.
Lemma started_nth fuel eol jobs j q : nth_error (started fuel eol jobs) j = Some q ->
  exists w argv, nth_error jobs j = Some (w, argv) /\ q = main_prog fuel eol w argv.
Proof. intro H. apply mapped_nth in H as ([w argv] & H & ->). eauto. Qed.
Lemma nth_started fuel eol jobs j w argv : nth_error jobs j = Some (w, argv) -> nth_error (started fuel eol jobs) j = Some (main_prog fuel eol w argv).
Proof. intro H. apply mapped_nth. exists (w, argv). auto. Qed.

(** A run whose files are changed by no other run is not affected by the others: in whatever order the steps are taken, its
    effects so far are the first effects it has alone, and when it is over, it has ended as it does alone. *)
Lemma beside fuel eol jobs j w argv s tr qs' s' : nth_error jobs j = Some (w, argv) -> undisturbed jobs j ->
  together (started fuel eol jobs) s tr qs' s' ->
  exists q', nth_error qs' j = Some q' /\ (forall x, q' = Done x -> run fuel eol w s argv = (x, own j tr)) /\
    (exists x es, run fuel eol w s argv = (x, own j tr ++ es)) /\
    (forall x, reads w argv x -> s' x = after_effects s (own j tr) x).
Proof.
  intros J UN T. destruct (unaffected _ _ _ _ _ T j (main_prog fuel eol w argv) (reads w argv)) with (sa := s) as (q' & E1 & E2 & E3); auto.
  - apply nth_started, J.
  - eapply within_weak; [| |apply main_within]; auto.
  - intros i p N H. apply started_nth in H as (w2 & argv2 & H & ->). eapply within_weak; [| |apply main_within]; auto. intros x C. eapply UN; eauto.
  - rewrite alone in E3. exists q'. split; [exact E1|]. split; [|split].
    + intros x ->. rewrite E3. cbn. rewrite app_nil_r. reflexivity.
    + eexists _, _. exact E3.
    + intros x R. symmetry. apply E2, R.
Qed.
Lemma changes_reads w argv x : changes w argv x -> reads w argv x.
Proof. intros (paths & files & q & H). exists false, paths, files, q. exact H. Qed.

Theorem C110_beside : forall fuel eol jobs j w argv s tr qs s', nth_error jobs j = Some (w, argv) -> undisturbed jobs j ->
  together (started fuel eol jobs) s tr qs s' ->
  exists q, nth_error qs j = Some q /\ (forall x, q = Done x -> run fuel eol w s argv = (x, own j tr)) /\
    (exists x es, run fuel eol w s argv = (x, own j tr ++ es)) /\
    (forall i, changes w argv i -> s' i = after_effects s (own j tr) i).
Proof.
  intros fuel eol jobs j w argv s tr qs s' J UN T. destruct (beside _ _ _ _ _ _ _ _ _ _ J UN T) as (q & A & B & C & D).
  exists q. split; [exact A|]. split; [exact B|]. split; [exact C|]. intros i H. apply D, changes_reads, H.
Qed.
Print Assumptions C110_beside.

(** A file which none of the runs changes stays as it is. *)
Theorem C110_kept : forall fuel eol jobs s tr qs s' i, together (started fuel eol jobs) s tr qs s' ->
  (forall w argv, In (w, argv) jobs -> ~ changes w argv i) -> s' i = s i.
Proof.
  intros fuel eol jobs s tr qs s' i T H. eapply unchanged; eauto. intros j q N. apply started_nth in N as (w & argv & N & ->).
  eapply within_weak; [| |apply main_within]; auto. intros x C ->. eapply H; eauto. eapply nth_error_In, N.
Qed.
Print Assumptions C110_kept.

(** Runs never wait for each other: from any moment on they can all be brought to an end. *)
Theorem C110_ends : forall fuel eol jobs s tr qs s', together (started fuel eol jobs) s tr qs s' ->
  exists tr2 qs2 s2, together (started fuel eol jobs) s (tr ++ tr2) qs2 s2 /\ Forall over qs2.
Proof.
  intros fuel eol jobs s tr qs s' T. destruct (can_finish qs s') as (tr2 & qs2 & s2 & T2 & O). exists tr2, qs2, s2. split; [eapply together_trans; eauto|exact O].
Qed.
Print Assumptions C110_ends.

(** Runs that only check disturb nobody: a run beside any number of them does what it does alone, and leaves the files as it does alone. *)
Theorem C110_checks : forall fuel eol jobs j w argv s tr qs s', nth_error jobs j = Some (w, argv) ->
  (forall i w' argv', i <> j -> nth_error jobs i = Some (w', argv') -> exists paths, dispatch argv' (AWork true paths)) ->
  together (started fuel eol jobs) s tr qs s' -> Forall over qs ->
  exists x, nth_error qs j = Some (Done x) /\ run fuel eol w s argv = (x, own j tr) /\ forall i, s' i = after_effects s (own j tr) i.
Proof.
  intros fuel eol jobs j w argv s tr qs s' J CH T O.
  assert (forall i w' argv' x, i <> j -> nth_error jobs i = Some (w', argv') -> ~ changes w' argv' x) as NC.
  { intros i w' argv' x N H (paths & files & q & D & _). destruct (CH _ _ _ N H) as (paths' & D'). pose proof (dispatch_fun _ _ _ D D'). discriminate. }
  assert (nth_error (started fuel eol jobs) j = Some (main_prog fuel eol w argv)) as SJ by (apply nth_started; exact J).
  destruct (unaffected _ _ _ _ _ T j (main_prog fuel eol w argv) (fun _ => True) SJ) with (sa := s) as (q' & E1 & E2 & E3); auto.
  - eapply within_weak; [| |apply main_within]; auto.
  - intros i p N H. apply started_nth in H as (w2 & argv2 & H & ->). eapply within_weak; [| |apply main_within]; auto. intros x C _. eapply NC; eauto.
  - rewrite alone in E3. rewrite Forall_forall in O. destruct (O q') as (x & ->); [eapply nth_error_In, E1|]. exists x. split; [exact E1|]. split.
    + rewrite E3. cbn. rewrite app_nil_r. reflexivity.
    + intro i. symmetry. apply E2. exact Logic.I.
Qed.
Print Assumptions C110_checks.

(** ** Two runs on one file *)
(** Both are successful and the code is lost: the second reads the file while it is empty, because the first has
    truncated and not yet written it; it takes the empty text for an empty file and writes a line break. The writing of the
    two does not overlap. *)
Definition fmt_a : list bytes := [str "mofmt"; str "src/a.mo"].
Definition order : list nat := [0; 0; 1]%nat ++ repeat 0%nat (length neat_text) ++ [1; 1]%nat.
Definition two : list prog := started 5 lf [(demo, fmt_a); (demo, fmt_a)].
Theorem C110_same_file_refuted : exists fuel w argv s tr s', calm w /\
  fst (run fuel lf w s argv) = SExit 0 /\ after_effects s (snd (run fuel lf w s argv)) 1 = neat_text /\
  together (started fuel lf [(w, argv); (w, argv)]) s tr [Done (SExit 0); Done (SExit 0)] s' /\ s' 1 = lf.
Proof.
  exists 5%nat, demo, fmt_a, demo_store, (fst (fst (drive order two demo_store))), (snd (drive order two demo_store)).
  split; [exact demo_calm|]. split; [vm_compute; reflexivity|]. split; [vm_compute; reflexivity|]. split; [|vm_compute; reflexivity].
  pose proof (driven order two demo_store) as D.
  assert (snd (fst (drive order two demo_store)) = [Done (SExit 0); Done (SExit 0)]) as E by (vm_compute; reflexivity).
  destruct (drive order two demo_store) as [[tr qs] s']. cbn [fst snd] in *. subst qs. exact D.
Qed.
Print Assumptions C110_same_file_refuted.

(** A check beside a formatting run can report on contents which the file has neither before nor after: the code is in
    order before and after, and the check fails. *)
Definition check_b : list bytes := [str "mofmt"; str "--check"; str "src/sub/b.mo"].
Definition fmt_b : list bytes := [str "mofmt"; str "src/sub/b.mo"].
Definition order_b : list nat := [1; 1; 0; 0]%nat ++ repeat 1%nat (length neat_text).
Definition two_b : list prog := started 5 lf [(demo, check_b); (demo, fmt_b)].
Theorem C110_false_alarm_refuted : exists fuel w argv argv' s tr s', calm w /\
  fst (run fuel lf w s argv) = SExit 0 /\ fst (run fuel lf w s argv') = SExit 0 /\
  together (started fuel lf [(w, argv); (w, argv')]) s tr [Done (SExit 1); Done (SExit 0)] s' /\ (forall i, s' i = s i) /\
  own 0 tr = [EOut (str "src/sub/b.mo: check failed" ++ [10])].
Proof.
  exists 5%nat, demo, check_b, fmt_b, demo_store, (fst (fst (drive order_b two_b demo_store))), (snd (drive order_b two_b demo_store)).
  split; [exact demo_calm|]. split; [vm_compute; reflexivity|]. split; [vm_compute; reflexivity|].
  pose proof (driven order_b two_b demo_store) as D.
  assert (snd (fst (drive order_b two_b demo_store)) = [Done (SExit 1); Done (SExit 0)]) as E by (vm_compute; reflexivity).
  assert (own 0 (fst (fst (drive order_b two_b demo_store))) = [EOut (str "src/sub/b.mo: check failed" ++ [10])]) as E2 by (vm_compute; reflexivity).
  assert (own 1 (fst (fst (drive order_b two_b demo_store))) = ETrunc 3 :: map (EWrite 3) neat_text) as E3 by (vm_compute; reflexivity).
  assert (snd (drive order_b two_b demo_store) 3 = neat_text) as E4 by (vm_compute; reflexivity).
  destruct (drive order_b two_b demo_store) as [[tr qs] s']. cbn [fst snd] in *. subst qs. split; [exact D|]. split; [|exact E2].
  intro i. destruct (N.eq_dec i 3) as [->|N]; [rewrite E4; reflexivity|]. eapply C110_kept; [exact D|].
  assert (dispatch check_b (AWork true [str "src/sub/b.mo"])) as DC.
  { apply dp_chooses; [repeat constructor; eexists; ascii|]. apply (ds_check _ [str "src/sub/b.mo"]). discriminate. }
  assert (dispatch fmt_b (AWork false [str "src/sub/b.mo"])) as DF.
  { apply dp_chooses; [repeat constructor; eexists; ascii|]. apply ds_format. intros o E. discriminate. }
  assert (listing demo [str "src/sub/b.mo"] [str "src/sub/b.mo"]) as L by (apply li_file; [reflexivity|constructor]).
  intros w argv [H|[H|[]]] (paths & files & q & D1 & L1 & IQ & _ & ND); injection H as <- <-.
  - pose proof (dispatch_fun _ _ _ D1 DC). discriminate.
  - pose proof (dispatch_fun _ _ _ D1 DF) as E. injection E as ->. rewrite (listing_fun _ _ _ L1 _ L) in IQ. destruct IQ as [<-|[]]. change (Some (NFile 3) = Some (NFile i)) in ND. injection ND as E. apply N. symmetry. exact E.
Qed.
Print Assumptions C110_false_alarm_refuted.

(** ** Examples *)
(** For [C110_checks]: the formatting run of [C110_false_alarm_refuted], beside a check.
    For [C110_beside]: two formatting runs on different files and a check of the second file by its own name, in turns: the first is not disturbed. *)
Definition dir_b : list bytes := [str "mofmt"; str "src/sub"].
Definition three : list job := [(demo, fmt_a); (demo, dir_b); (demo, check_b)].
Example C110_applies :
  let '(tr, qs, s') := drive ([0; 1; 2; 0; 2; 1] ++ flat_map (fun _ => [0; 1]) neat_text)%nat (started 5 lf three) demo_store in
  qs = [Done (SExit 0); Done (SExit 0); Done (SExit 0)] /\ own 0 tr = ETrunc 1 :: map (EWrite 1) neat_text /\ s' 1 = neat_text /\ s' 3 = neat_text.
Proof. vm_compute. repeat (split; [reflexivity|]). reflexivity. Qed.
Example C110_undisturbed : undisturbed three 0 /\ changes demo fmt_a 1.
Proof.
  assert (dispatch fmt_a (AWork false [str "src/a.mo"])) as DA.
  { apply dp_chooses; [repeat constructor; eexists; ascii|]. apply ds_format. intros o E. discriminate. }
  assert (dispatch dir_b (AWork false [str "src/sub"])) as DB.
  { apply dp_chooses; [repeat constructor; eexists; ascii|]. apply ds_format. intros o E. discriminate. }
  assert (dispatch check_b (AWork true [str "src/sub/b.mo"])) as DC.
  { apply dp_chooses; [repeat constructor; eexists; ascii|]. apply (ds_check _ [str "src/sub/b.mo"]). discriminate. }
  assert (listing demo [str "src/a.mo"] [str "src/a.mo"]) as LA by (apply li_file; [reflexivity|constructor]).
  assert (listing demo [str "src/sub"] [str "src/sub/b.mo"]) as LB by (eapply (collect_listing demo 5 _ (mkState demo_store [] 0)); vm_compute; reflexivity).
  split; [|exists [str "src/a.mo"], [str "src/a.mo"], (str "src/a.mo"); split; [exact DA|]; split; [exact LA|]; split; [left; reflexivity|]; split; reflexivity].
  intros i w argv w' argv' x N H J C (check & paths & files & q & D2 & L2 & I2 & _ & ND2).
  cbn in J. injection J as <- <-. pose proof (dispatch_fun _ _ _ D2 DA) as E. injection E as -> ->.
  rewrite (listing_fun _ _ _ L2 _ LA) in I2. destruct I2 as [<-|[]]. change (Some (NFile 1) = Some (NFile x)) in ND2. injection ND2 as <-.
  destruct C as (paths1 & files1 & q1 & D1 & L1 & I1 & _ & ND1).
  destruct i as [|[|[|i]]]; [contradiction| | |destruct i; discriminate]; cbn in H; injection H as <- <-.
  - pose proof (dispatch_fun _ _ _ D1 DB) as E. injection E as ->. rewrite (listing_fun _ _ _ L1 _ LB) in I1. destruct I1 as [<-|[]]. change (Some (NFile 3) = Some (NFile 1)) in ND1. discriminate.
  - pose proof (dispatch_fun _ _ _ D1 DC). discriminate.
Qed.
