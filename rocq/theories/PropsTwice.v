(** Property C102: files that are named several times. *)
From Verif Require Import ProofBase Tokens Syntax Lexer SpecLex ParserCore Grammar Tree Printer Formatter Lib SpecLayout
  FmtFacts FmtRelex FmtNeat FmtTree PropsFormat SpecReference PropsReference FmtStable FmtOnce
  Utf8 SpecUtf8 Utf8Facts Cli SpecCli CliFacts CliFind PropsCli PropsStable CliOrder SpecTwice.

Lemma treated_fun eol b x y : treated eol b x -> treated eol b y -> x = y.
Proof.
  intros H K. destruct H as [src new b' U R V|N]; destruct K as [src2 new2 b2 U2 R2 V2|N2]; auto.
  - rewrite <- (utf8_fun _ _ _ U U2) in R2. rewrite (rewrites_fun _ _ _ _ R R2) in V. rewrite (utf8_encode _ _ V), (utf8_encode _ _ V2). reflexivity.
  - destruct (N2 _ _ U R).
  - destruct (N _ _ U2 R2).
Qed.
Lemma treated_times_fun eol n : forall b x y, treated_times eol n b x -> treated_times eol n b y -> x = y.
Proof.
  induction n as [|n IH]; intros b x y H K; cbn [treated_times] in *; [congruence|]. destruct H as (c & H & H'), K as (d & K & K').
  rewrite (treated_fun _ _ _ _ H K) in H'. eauto.
Qed.
Lemma treated_times_app eol m : forall n b c d, treated_times eol m b c -> treated_times eol n c d -> treated_times eol (m + n) b d.
Proof. induction m as [|m IH]; intros n b c d H K; cbn [treated_times Nat.add] in *; [subst; exact K|]. destruct H as (e & H & H'). eauto. Qed.

(** ** What ends up in every file *)
Lemma complained eol w s q e i : calm w -> complaint w s q e -> leads w i q = true -> treated eol (s i) (s i).
Proof.
  intros C H L. apply andb_true_iff in L as [M L]. destruct (w_node w q) as [[j|]|] eqn:NQ; try discriminate. apply N.eqb_eq in L. subst j.
  apply tr_kept. intros src new U R. apply (complaint_not_in_order eol w s q e false C H). exists src, new. split; [|split; [exact R|discriminate]]. split; [exact M|]. eauto.
Qed.
Lemma handled_treated eol w s q bad es i : calm w -> handled eol w s q bad es ->
  treated_times eol (if leads w i q then 1 else 0) (s i) (after_effects s es i).
Proof.
  intros C H. destruct H as [e H|j src new b M NQ U R V].
  - rewrite (after_quiet _ _ (complaint_quiet _ _ _ _ H)). destruct (leads w i q) eqn:L; [|reflexivity]. exists (s i). split; [eapply complained; eauto|reflexivity].
  - rewrite (after_file j b s i). unfold update, leads. rewrite M, NQ. cbn [andb]. rewrite (N.eqb_sym j i). destruct (i =? j) eqn:E; [|reflexivity].
    apply N.eqb_eq in E. subst j. exists b. split; [|reflexivity]. eapply tr_formatted; eauto.
Qed.
Lemma handled_all_treated eol w s qs bad es i : calm w -> handled_all eol w s qs bad es -> treated_times eol (named w i qs) (s i) (after_effects s es i).
Proof.
  intros C H. induction H as [s|s q qs b1 e1 b2 e2 H1 H2 IH]; [reflexivity|]. rewrite after_app. unfold named in *. cbn [filter].
  pose proof (handled_treated eol w s q b1 e1 i C H1) as T. destruct (leads w i q); cbn [length]; [|cbn [treated_times] in T; rewrite <- T; exact IH].
  destruct T as (c & T & E). cbn [treated_times] in E. subst c. exists (after_effects s e1 i). auto.
Qed.
Theorem C102_contents fuel eol w s0 argv paths files c es :
  is_eol eol -> calm w -> dispatch argv (AWork false paths) -> listing w paths files ->
  run fuel eol w s0 argv = (SExit c, es) ->
  forall i, treated_times eol (named w i files) (s0 i) (after_effects s0 es i) /\
    forall b, treated_times eol (named w i files) (s0 i) b -> b = after_effects s0 es i.
Proof.
  intros EO C D L R i. destruct (C79_format_reports _ _ _ _ _ _ _ _ EO D R) as (fs & bad & L' & H & _). rewrite (listing_fun _ _ _ L' _ L) in H.
  assert (treated_times eol (named w i files) (s0 i) (after_effects s0 es i)) as T by (eapply handled_all_treated; eauto).
  split; [exact T|]. intros b K. eapply treated_times_fun; eauto.
Qed.
Print Assumptions C102_contents.

(** ** Twice is enough *)
Lemma rewrites_neat eol s new : is_eol eol -> no_lone_cr s -> rewrites eol s new -> no_lone_cr new.
Proof.
  intros EO NC (p & out & ACC & PP & ->). destruct (reading_of s p ACC) as (items & tree & RD).
  destruct (FmtStable.run eol _ _ _ _ RD NC EO) as (P & _ & _ & _ & _ & N & _). assert (out = render eol (reference tree items)) as -> by congruence. exact N.
Qed.
Definition tame (b : bytes) : Prop := forall src, utf8 b src -> no_lone_cr src.
Lemma treated_tame eol b c : is_eol eol -> tame b -> treated eol b c -> tame c.
Proof.
  intros EO T H. destruct H as [src new c U R V|N]; [|exact T]. intros t X. rewrite (utf8_fun _ _ _ X V). eapply rewrites_neat; eauto.
Qed.
Lemma treated_fixed eol b c d : is_eol eol -> tame b -> treated eol b c -> treated eol c d -> treated eol d d.
Proof.
  intros EO T H K. destruct H as [src new c U R V|N].
  - destruct (rewrites_twice eol src new EO (T _ U) R) as (new2 & R2 & R3). destruct K as [src2 new3 d U2 R4 V2|N2]; [|destruct (N2 _ _ V R2)].
    rewrite (utf8_fun _ _ _ U2 V) in R4. rewrite (rewrites_fun _ _ _ _ R4 R2) in V2. eapply tr_formatted; eauto.
  - destruct K as [src2 new3 d U2 R4 V2|N2]; [destruct (N _ _ U2 R4)|]. apply tr_kept, N.
Qed.
Lemma fixed_times eol d n : treated eol d d -> treated_times eol n d d.
Proof. intro T. induction n as [|n IH]; [reflexivity|]. exists d. auto. Qed.
Theorem C102_twice_is_enough eol b n b' : is_eol eol -> (forall src, utf8 b src -> no_lone_cr src) ->
  treated_times eol (2 + n) b b' <-> treated_times eol 2 b b'.
Proof.
  intros EO T. split.
  - intros (c & H & d & K & R). pose proof (treated_fixed eol b c d EO T H K) as F. rewrite (treated_times_fun _ _ _ _ _ R (fixed_times eol d n F)). exists c. split; [exact H|]. exists d. split; [exact K|reflexivity].
  - intros (c & H & d & K & ->). pose proof (treated_fixed eol b c d EO T H K) as F. exists c. split; [exact H|]. exists d. split; [exact K|]. apply fixed_times, F.
Qed.
Print Assumptions C102_twice_is_enough.

(** ** Files in order stay in order *)
Definition fine (eol : text) (w : world) (s : store) (q : path) : Prop :=
  exists t u, holds w s q t /\ no_lone_cr t /\ rewrites eol t u.
Lemma visit_fine eol w s q i t u : is_modelica q = true -> w_node w q = Some (NFile i) -> utf8 (s i) t -> rewrites eol t u ->
  visit eol w false s q = Some (false, ETrunc i :: map (EWrite i) (encode u)).
Proof.
  intros M NQ U (p & out & (PA & PE) & PP & ->). unfold visit, look. rewrite M, NQ. cbn [negb].
  unfold decode. rewrite (utf8_decode _ _ U _ (le_n _)), PA, PE, PP. reflexivity.
Qed.
Lemma visits_fine eol w files : is_eol eol -> forall qs s, incl qs files -> Forall (fine eol w s) files ->
  exists es, visits eol w false s qs = Some (false, es).
Proof.
  intro EO. induction qs as [|q qs IH]; intros s I F; [eexists; reflexivity|]. cbn [visits]. rewrite Forall_forall in F.
  destruct (F q (I q (or_introl eq_refl))) as (t & u & (M & i & NQ & U) & NC & R). rewrite (visit_fine eol w s q i t u M NQ U R).
  destruct (IH (after_effects s (ETrunc i :: map (EWrite i) (encode u)))) as (es & E); [intros x X; apply I; right; exact X| |rewrite E; eexists; reflexivity].
  apply Forall_forall. intros q' Q'. destruct (F q' Q') as (t' & u' & (M' & j & NJ & UJ) & NC' & R'). destruct (j =? i) eqn:E.
  - apply N.eqb_eq in E. subst j. destruct (rewrites_twice eol t u EO NC R) as (v & RV & _). exists u, v. split; [|split; [exact (rewrites_neat eol t u EO NC R)|exact RV]].
    split; [exact M'|]. exists i. split; [exact NJ|]. rewrite (after_file i (encode u) s i). unfold update. rewrite N.eqb_refl. exact (rewrites_utf8 eol _ _ _ EO U R).
  - exists t', u'. split; [|auto]. split; [exact M'|]. exists j. split; [exact NJ|]. rewrite (after_file i (encode u) s j). unfold update. rewrite E. exact UJ.
Qed.
Lemma collected w fuel paths files : calm w -> (exists s s', collect fuel w paths s = (inl files, s')) -> finds (collect fuel w paths) files.
Proof. intros C (s & s' & E). exact (blind_finds _ _ _ _ (blind_collect w C fuel paths) E). Qed.
Lemma format_ends eol w s0 argv paths files : is_eol eol -> calm w -> dispatch argv (AWork false paths) -> listing w paths files ->
  Forall (fine eol w s0) files -> exists F, forall fuel, (F <= fuel)%nat -> exists es, run fuel eol w s0 argv = (SExit 0, es).
Proof.
  intros EO C D L F. destruct (listing_found w paths files C L) as [F0 HF]. exists F0. intros fuel LE. destruct (visits_fine eol w files EO files s0 (incl_refl _) F) as (es & V).
  exists es. apply (run_calm eol w C fuel s0 argv false paths 0 es D). exists files, false. split; [|auto].
  apply (collected w fuel paths files C). destruct (HF fuel LE (mkState s0 [] 0)) as [s1 H1]. exists (mkState s0 [] 0), s1. exact H1.
Qed.

Lemma in_order_fine eol w s files : (forall q src, In q files -> holds w s q src -> no_lone_cr src) -> Forall (in_order eol w s false) files -> Forall (fine eol w s) files.
Proof.
  intros NC F. rewrite Forall_forall in *. intros q Q. destruct (F q Q) as (src & new & H & R & _). exists src, new. split; [exact H|]. split; [eauto|exact R].
Qed.
Lemma fine_times eol n : is_eol eol -> forall b b' t u, utf8 b t -> no_lone_cr t -> rewrites eol t u -> treated_times eol n b b' ->
  exists t' u', utf8 b' t' /\ no_lone_cr t' /\ rewrites eol t' u' /\ ((2 <= n)%nat -> u' = t').
Proof.
  intros EO b b' t u U NC R T. destruct n as [|[|n]].
  - cbn [treated_times] in T. subst b'. exists t, u. repeat split; auto. lia.
  - destruct T as (c & H & E). cbn [treated_times] in E. subst c. destruct H as [src new b' U' R' V|N]; [|destruct (N _ _ U R)].
    rewrite (utf8_fun _ _ _ U' U) in R'. destruct (rewrites_twice eol t new EO NC R') as (v & RV & _). exists new, v. repeat split; auto; [exact (rewrites_neat eol t new EO NC R')|lia].
  - assert (tame b) as TB by (intros x X; rewrite (utf8_fun _ _ _ X U); exact NC).
    apply (C102_twice_is_enough eol b n b' EO TB) in T. destruct T as (c & H & d & K & E). cbn [treated_times] in E. subst d. destruct H as [src new c U' R' V|N]; [|destruct (N _ _ U R)].
    rewrite (utf8_fun _ _ _ U' U) in R'. destruct (rewrites_twice eol t new EO NC R') as (v & RV & RVV). pose proof (rewrites_neat eol t new EO NC R') as NC1.
    destruct K as [src2 new2 b' U2 R2 V2|N]; [|destruct (N _ _ V RV)]. rewrite (utf8_fun _ _ _ U2 V) in R2. rewrite (rewrites_fun _ _ _ _ R2 RV) in V2.
    exists v, v. repeat split; auto. exact (rewrites_neat eol new v EO NC1 RV).
Qed.
Lemma named_once w i q files : In q files -> is_modelica q = true -> w_node w q = Some (NFile i) -> (1 <= named w i files)%nat.
Proof.
  intros I M NQ. unfold named. assert (In q (filter (leads w i) files)) as H by (apply filter_In; split; [exact I|]; unfold leads; rewrite M, NQ; apply N.eqb_refl).
  destruct (filter (leads w i) files); [destruct H|cbn [length]; lia].
Qed.

(** ** The check passes *)
Theorem C102_check_passes fuel eol w s0 argv argv2 paths files es :
  is_eol eol -> calm w -> dispatch argv (AWork false paths) -> dispatch argv2 (AWork true paths) -> listing w paths files ->
  (forall q src, In q files -> holds w s0 q src -> no_lone_cr src) ->
  (forall q i, In q files -> w_node w q = Some (NFile i) -> (2 <= named w i files)%nat) ->
  run fuel eol w s0 argv = (SExit 0, es) ->
  exists F, forall fuel2, (F <= fuel2)%nat -> exists es2, run fuel2 eol w (after_effects s0 es) argv2 = (SExit 0, es2).
Proof.
  intros EO C D D2 L NC TW R. destruct C40_exit_code as (_ & Z & A & _). destruct (Z _ _ _ _ _ _ _ _ EO D R) as (fs & L1 & F). rewrite (listing_fun _ _ _ L1 _ L) in F. clear fs L1.
  apply (A eol w _ argv2 true paths files EO C D2 L); [|auto]. rewrite Forall_forall in *. intros q Q. destruct (F q Q) as (src & new & H & RW & _). pose proof (NC q src Q H) as N.
  destruct H as (M & i & NQ & U). destruct (C102_contents fuel eol w s0 argv paths files 0 es EO C D L R i) as [T _].
  destruct (fine_times eol _ EO _ _ _ _ U N RW T) as (t & u & UT & _ & RT & E). rewrite (E (TW q i Q NQ)) in RT.
  exists t, t. split; [|auto]. split; [exact M|]. eauto.
Qed.
Print Assumptions C102_check_passes.
Theorem C102_check_after_two fuel eol w s0 argv argv2 paths files es :
  is_eol eol -> calm w -> dispatch argv (AWork false paths) -> dispatch argv2 (AWork true paths) -> listing w paths files ->
  (forall q src, In q files -> holds w s0 q src -> no_lone_cr src) ->
  run fuel eol w s0 argv = (SExit 0, es) ->
  exists F, forall fuel1, (F <= fuel1)%nat -> exists es1, run fuel1 eol w (after_effects s0 es) argv = (SExit 0, es1) /\
    exists F2, forall fuel2, (F2 <= fuel2)%nat -> exists es2, run fuel2 eol w (after_effects (after_effects s0 es) es1) argv2 = (SExit 0, es2).
Proof.
  intros EO C D D2 L NC R. destruct C40_exit_code as (_ & Z & A & _). destruct (Z _ _ _ _ _ _ _ _ EO D R) as (fs & L1 & F). rewrite (listing_fun _ _ _ L1 _ L) in F. clear fs L1.
  assert (Forall (fine eol w (after_effects s0 es)) files) as F1.
  { rewrite Forall_forall in *. intros q Q. destruct (F q Q) as (src & new & H & RW & _). pose proof (NC q src Q H) as N. destruct H as (M & i & NQ & U).
    destruct (C102_contents fuel eol w s0 argv paths files 0 es EO C D L R i) as [T _]. destruct (fine_times eol _ EO _ _ _ _ U N RW T) as (t & u & UT & NT & RT & _).
    exists t, u. split; [|auto]. split; [exact M|]. eauto. }
  destruct (format_ends eol w _ argv paths files EO C D L F1) as (F0 & H0). exists F0. intros fuel1 LE. destruct (H0 fuel1 LE) as (es1 & R1). exists es1. split; [exact R1|].
  apply (A eol w _ argv2 true paths files EO C D2 L); [|auto]. rewrite Forall_forall in *. intros q Q. destruct (F q Q) as (src & new & H & RW & _). pose proof (NC q src Q H) as N.
  destruct H as (M & i & NQ & U). destruct (C102_contents fuel eol w s0 argv paths files 0 es EO C D L R i) as [T _].
  destruct (C102_contents fuel1 eol w (after_effects s0 es) argv paths files 0 es1 EO C D L R1 i) as [T1 _].
  destruct (fine_times eol _ EO _ _ _ _ U N RW (treated_times_app _ _ _ _ _ _ T T1)) as (t & u & UT & _ & RT & E).
  pose proof (named_once w i q files Q M NQ). rewrite E in RT by lia. exists t, t. split; [|auto]. split; [exact M|]. eauto.
Qed.
Print Assumptions C102_check_after_two.
(** Formatting files in order succeeds even if several paths lead to the same file. *)
Theorem C102_succeeds eol w s0 argv paths files :
  is_eol eol -> calm w -> dispatch argv (AWork false paths) -> listing w paths files ->
  (forall q src, In q files -> holds w s0 q src -> no_lone_cr src) -> Forall (in_order eol w s0 false) files ->
  exists F, forall fuel, (F <= fuel)%nat -> exists es, run fuel eol w s0 argv = (SExit 0, es).
Proof. intros EO C D L NC F. eapply format_ends; eauto. apply in_order_fine; auto. Qed.
Print Assumptions C102_succeeds.

(** ** Concrete cases *)
(** A file that is named twice, in different ways: the text of C57_applies, which one run does not settle. *)
Definition pair_world : world := mkWorld (fun p => if text_eqb p (str "f.mo") || text_eqb p (str "./f.mo") then Some (NFile 0) else None) (fun _ => FNone) [].
Definition pair_argv : list bytes := [str "mofmt"; str "f.mo"; str "./f.mo"].
Definition pair_run := run 5 lf pair_world (fun _ => unstable) pair_argv.
Definition once_run := run 5 lf pair_world (fun _ => unstable) [str "mofmt"; str "f.mo"].
Lemma pair_listing : listing pair_world [str "f.mo"; str "./f.mo"] [str "f.mo"; str "./f.mo"].
Proof. apply li_file; [reflexivity|]. apply li_file; [reflexivity|constructor]. Qed.
Lemma pair_dispatch : dispatch pair_argv (AWork false [str "f.mo"; str "./f.mo"]).
Proof. apply dp_chooses; [repeat constructor; eexists; ascii|]. apply ds_format. intros o E. discriminate. Qed.
Example C102_applies :
  named pair_world 0 [str "f.mo"; str "./f.mo"] = 2%nat /\ fst pair_run = SExit 0 /\ fst once_run = SExit 0 /\
  after_effects (fun _ => unstable) (snd pair_run) 0 <> after_effects (fun _ => unstable) (snd once_run) 0 /\
  run 5 lf pair_world (after_effects (fun _ => unstable) (snd once_run)) [str "mofmt"; str "--check"; str "f.mo"] = (SExit 1, [EOut (str "f.mo: check failed" ++ [10])]) /\
  run 5 lf pair_world (after_effects (fun _ => unstable) (snd pair_run)) [str "mofmt"; str "--check"; str "f.mo"] = (SExit 0, [EOut (str "f.mo: check passed" ++ [10])]).
Proof.
  split; [reflexivity|]. split; [vm_compute; reflexivity|]. split; [vm_compute; reflexivity|]. split; [vm_compute; discriminate|].
  split; vm_compute; reflexivity.
Qed.
