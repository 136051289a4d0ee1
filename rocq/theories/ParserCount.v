(** The number of syntax errors and of events. *)
From Verif Require Import ProofBase Tokens Syntax Lexer ParserCore Grammar Tree ParserSem ParserFuel SpecGrammar Regex ParserGrammar ParserTree ParserFacts
  SpecRecover ParserSkips SpecCount.
Local Open Scope nat_scope.

(** ** Invariants of runs in which an error costs lookups *)
Section Costs.
Variable body : skind -> stmt.
Variable P : pstate -> Prop.
Hypothesis P_nth : forall n p k p', P p -> p_nth n p = Ok (k, p') -> P p'.
Hypothesis P_advance : forall p p', P p -> p_advance p = Ok p' -> P p'.
Hypothesis P_expect : forall t p p', P p -> p_expect t p = Ok p' -> P p'.
Hypothesis P_adverr : forall n k m p q p', P p -> p_nth n p = Ok (k, q) -> p_advance_with_error m q = Ok p' -> P p'.
Hypothesis P_enter : forall p m p', P p -> p_enter p = (m, p') -> P p'.
Hypothesis P_exit : forall m k p, P p -> P (p_exit m k p).
Lemma cond_keeps reg c : forall p b p', P p -> eval reg c p = Ok (b, p') -> P p'.
Proof.
  induction c; intros p b0 p' I H; cbn [eval] in H.
  - apply bind_ok in H as [[k q] [H1 H2]]. inversion H2; subst. eauto.
  - inversion H; subst; auto.
  - unfold p_consume in H. apply bind_ok in H as [[k q] [H1 H2]]. apply P_nth in H1; auto. destruct (tkind_eqb k t).
    + apply bind_ok in H2 as [q2 [H2 H3]]. inversion H3; subst. eauto.
    + inversion H2; subst; auto.
  - inversion H; subst; auto.
  - apply bind_ok in H as [[k q] [H1 H2]]. inversion H2; subst. exact (IHc _ _ _ I H1).
  - apply bind_ok in H as [[x q] [H1 H2]]. apply IHc1 in H1; auto.
    destruct x; [exact (IHc2 _ _ _ H1 H2)|inversion H2; subst; auto].
  - apply bind_ok in H as [[x q] [H1 H2]]. apply IHc1 in H1; auto.
    destruct x; [inversion H2; subst; auto|exact (IHc2 _ _ _ H1 H2)].
Qed.
Lemma run_keeps fuel : forall reg s p g p', P p -> exec body fuel reg s p = Ok (g, p') -> P p'.
Proof.
  induction fuel as [|n IHn]; [discriminate|].
  intros reg s; revert reg; induction s; intros reg p g p' I H.
  - inversion H; subst; auto.
  - rewrite exec_seq in H. apply bind_ok in H as [[g1 q] [H1 H2]]. apply IHs1 in H1; auto.
    destruct g1; [exact (IHs2 _ _ _ _ H1 H2)|inversion H2; subst; auto].
  - rewrite exec_do in H. apply bind_ok in H as [[g1 q] [H1 H2]]. inversion H2; subst. eapply cond_keeps; eauto.
  - rewrite exec_expect in H. apply bind_ok in H as [q [H1 H2]]. inversion H2; subst. eauto.
  - rewrite exec_advance in H. apply bind_ok in H as [q [H1 H2]]. inversion H2; subst. eauto.
  - rewrite exec_adverr in H. apply bind_ok in H as [[k q] [H1 H2]].
    apply bind_ok in H2 as [q2 [H2 H3]]. inversion H3; subst. eauto.
  - rewrite exec_call in H. destruct (p_enter p) as [m q] eqn:E. apply P_enter in E; auto.
    apply bind_ok in H as [[g1 q1] [H1 H2]]. inversion H2; subst. eauto.
  - rewrite exec_if in H. apply bind_ok in H as [[b q] [H1 H2]].
    pose proof (cond_keeps _ _ _ _ _ I H1) as J.
    destruct b; [exact (IHs1 _ _ _ _ J H2)|exact (IHs2 _ _ _ _ J H2)].
  - rewrite exec_while in H. apply bind_ok in H as [[b q] [H1 H2]].
    pose proof (cond_keeps _ _ _ _ _ I H1). destruct b; [|inversion H2; subst; auto].
    apply bind_ok in H2 as [[g1 q1] [H2 H3]]. apply IHs in H2; auto.
    destruct g1; [exact (IHn _ _ _ _ _ H2 H3)|inversion H3; subst; auto].
  - rewrite exec_let in H. apply bind_ok in H as [[k q] [H1 H2]].
    apply P_nth in H1; auto. exact (IHs _ _ _ _ H1 H2).
  - inversion H; subst; auto.
Qed.
End Costs.

(** ** Errors at one place *)
(** [d] lookups have been made for the next error. *)
Definition counted (d : nat) (p : pstate) : Prop :=
  exists pre ix, ptoks p = pre ++ prest p /\ Forall2 (about_place (ptoks p)) (perrs p) ix /\
    Forall (fun i => i <= length pre) ix /\
    2 * times (length pre) ix + N.to_nat (plifes p) + d <= N.to_nat (plimit p) /\
    forall i, i < length pre -> 2 * times i ix <= S (N.to_nat (plimit p)).
Lemma counted_nth d n p k p' : counted d p -> p_nth n p = Ok (k, p') -> counted (S d) p'.
Proof.
  intros (pre & ix & A & B & C & D & E) H. unfold p_nth in H. destruct (N.eqb_spec (plifes p) 0); [discriminate|]. inversion H; subst.
  exists pre, ix. cbn [ptoks prest perrs plifes plimit]. repeat (split; [assumption|]). split; [lia|exact E].
Qed.
Lemma counted_less d d' p : counted d p -> d' <= d -> counted d' p.
Proof. intros (pre & ix & A & B & C & D & E) L. exists pre, ix. repeat (split; [assumption|]). split; [lia|exact E]. Qed.
Lemma times_none n ix : Forall (fun i => i <= n) ix -> times (S n) ix = 0.
Proof. intro F. apply count_occ_not_In. intro I. rewrite Forall_forall in F. apply F in I. lia. Qed.
Lemma counted_advance d p p' : counted d p -> p_advance p = Ok p' -> counted 0 p'.
Proof.
  intros (pre & ix & A & B & C & D & E) H. unfold p_advance in H. destruct (prest p) as [|x r] eqn:R; inversion H; subst.
  exists (pre ++ [x]), ix. cbn [ptoks prest perrs plifes plimit]. rewrite app_length. cbn [length]. rewrite Nat.add_1_r.
  split; [rewrite A, <- app_assoc; reflexivity|]. split; [exact B|]. split; [eapply Forall_impl; [|exact C]; cbn; lia|].
  rewrite (times_none _ _ C). split; [lia|]. intros i L. destruct (Nat.eq_dec i (length pre)) as [->|N]; [lia|]. apply E. lia.
Qed.
(** The next error; it needs two lookups if the parser stays, and one if it moves on. *)
Lemma counted_error d m p p' : counted d p -> p_error m p = Ok p' ->
  exists pre ix, ptoks p' = pre ++ prest p' /\ Forall2 (about_place (ptoks p')) (perrs p') ix /\
    Forall (fun i => i <= length pre) ix /\ prest p' = prest p /\ plifes p' = plifes p /\ plimit p' = plimit p /\
    2 * times (length pre) ix + N.to_nat (plifes p) + d <= N.to_nat (plimit p) + 2 /\
    forall i, i < length pre -> 2 * times i ix <= S (N.to_nat (plimit p)).
Proof.
  intros (pre & ix & A & B & C & D & E) H. unfold p_error in H.
  assert (forall t, nth_error (ptoks p) (if Nat.eqb (length pre) (length (ptoks p)) then length pre - 1 else length pre) = Some t ->
    exists pre0 ix0, ptoks (add_err t m p) = pre0 ++ prest (add_err t m p) /\ Forall2 (about_place (ptoks (add_err t m p))) (perrs (add_err t m p)) ix0 /\
    Forall (fun i => i <= length pre0) ix0 /\ prest (add_err t m p) = prest p /\ plifes (add_err t m p) = plifes p /\ plimit (add_err t m p) = plimit p /\
    2 * times (length pre0) ix0 + N.to_nat (plifes p) + d <= N.to_nat (plimit p) + 2 /\
    forall i, i < length pre0 -> 2 * times i ix0 <= S (N.to_nat (plimit p))) as K.
  { intros t T. exists pre, (length pre :: ix). cbn [add_err ptoks prest perrs plifes plimit]. split; [exact A|]. split.
    - constructor; [|exact B]. exists t. split; [exact T|]. split; reflexivity.
    - split; [constructor; [lia|exact C]|]. repeat (split; [reflexivity|]). unfold times in *. cbn [count_occ].
      destruct (Nat.eq_dec (length pre) (length pre)) as [_|N]; [|congruence]. split; [lia|].
      intros i L. destruct (Nat.eq_dec (length pre) i); [lia|]. apply E, L. }
  destruct (prest p) as [|x r] eqn:R.
  - destruct (rev (ptoks p)) as [|t l] eqn:R2; inversion H; subst. apply K. rewrite app_nil_r in A.
    assert (ptoks p = rev l ++ [t]) as TP by (rewrite <- (rev_involutive (ptoks p)), R2; reflexivity).
    rewrite <- A, Nat.eqb_refl, TP, app_length. cbn [length]. rewrite Nat.add_sub, nth_error_app2 by lia. rewrite Nat.sub_diag. reflexivity.
  - inversion H; subst. apply K. rewrite A, app_length. cbn [length]. replace (Nat.eqb (length pre) (length pre + S (length r))) with false by (symmetry; apply Nat.eqb_neq; lia).
    rewrite nth_error_app2 by lia. rewrite Nat.sub_diag. reflexivity.
Qed.
Theorem counted_exec body fuel reg s p g p' : counted 0 p -> exec body fuel reg s p = Ok (g, p') -> counted 0 p'.
Proof.
  apply run_keeps; clear.
  - intros n p k p' I H. eapply counted_less; [eapply counted_nth; eauto|lia].
  - intros p p' I H. eapply counted_advance; eauto.
  - intros t p p' I H. unfold p_expect in H. apply bind_ok in H as [[b q] [H1 H2]]. unfold p_consume in H1. apply bind_ok in H1 as [[k q1] [H1 H3]].
    apply (counted_nth 0) in H1; [|exact I]. destruct (tkind_eqb k t).
    + apply bind_ok in H3 as [q2 [H3 H4]]. inversion H4; subst. inversion H2; subst. eapply counted_advance; eauto.
    + inversion H3; subst. apply bind_ok in H2 as [[k2 q2] [H2 H4]]. apply (counted_nth 1) in H2; [|exact H1].
      apply (counted_error 2) in H4; [|exact H2]. destruct H4 as (pre & ix & A & B & C & D1 & D2 & D3 & E & F).
      exists pre, ix. rewrite D2, D3. repeat (split; [assumption|]). split; [lia|exact F].
  - intros n k m p q p' I H1 H2. apply (counted_nth 0) in H1; [|exact I]. unfold p_advance_with_error in H2. apply bind_ok in H2 as [q1 [H2 H3]].
    apply (counted_error 1) in H2; [|exact H1]. destruct H2 as (pre & ix & A & B & C & D1 & D2 & D3 & E & F).
    cbn [p_enter] in H3. apply bind_ok in H3 as [q2 [H3 H4]]. inversion H4; subst. unfold p_advance in H3. cbn [p_enter prest] in H3.
    destruct (prest q1) as [|x r] eqn:R; inversion H3; subst. exists (pre ++ [x]), ix. cbn [p_exit ptoks prest perrs plifes plimit].
    rewrite app_length. cbn [length]. rewrite Nat.add_1_r. split; [rewrite A, <- app_assoc; reflexivity|]. split; [exact B|].
    split; [eapply Forall_impl; [|exact C]; cbn; lia|]. rewrite (times_none _ _ C). split; [lia|].
    intros i L. destruct (Nat.eq_dec i (length pre)) as [->|N]; [rewrite D3; lia|]. rewrite D3. apply F. lia.
  - intros p m p' I H. unfold p_enter in H. inversion H; subst. exact I.
  - intros m k p I. exact I.
Qed.

Lemma times_sum n : forall ix m, Forall (fun i => i < n) ix -> (forall i, i < n -> times i ix <= m) -> length ix <= n * m.
Proof.
  induction n as [|n IH]; intros ix m F T.
  - destruct ix; [cbn; lia|]. inversion F; subst. lia.
  - assert (length ix = times n ix + length (filter (fun i => negb (Nat.eqb i n)) ix)) as E.
    { clear. unfold times. induction ix as [|i ix IH]; [reflexivity|]. cbn [count_occ filter length].
      destruct (Nat.eq_dec i n) as [->|N]; [rewrite Nat.eqb_refl; cbn [negb]; lia|]. apply Nat.eqb_neq in N. rewrite N. cbn [negb length]. lia. }
    rewrite E. assert (length (filter (fun i => negb (Nat.eqb i n)) ix) <= n * m); [|specialize (T n ltac:(lia)); nia].
    apply IH.
    + rewrite Forall_forall in *. intros i I. apply filter_In in I as [I NE]. apply negb_true_iff, Nat.eqb_neq in NE. specialize (F i I). lia.
    + intros i L. transitivity (times i ix); [|apply T; lia]. clear. unfold times. induction ix as [|j ix IH]; [reflexivity|]. cbn [filter].
      destruct (Nat.eqb j n); cbn [negb count_occ]; destruct (Nat.eq_dec j i); lia.
Qed.
Theorem parse_counted ts k evs er : parse_events ts k = Ok (evs, er) ->
  exists places, Forall2 (about_place ts) er places /\ (forall i, In i places -> i <= length ts) /\ forall i, times i places <= 50.
Proof.
  intro H. unfold parse_events in H. pose proof (parse_events_entry _ _ _ _ _ H) as NE.
  rewrite parse_events_unfold in H by auto. apply bind_ok in H as [[g p] [H1 H2]]. inversion H2; subst. clear H2.
  assert (counted 0 (parser_with 100 ts)) as C0.
  { exists [], []. split; [reflexivity|]. split; [constructor|]. split; [constructor|]. split; [cbn; lia|]. cbn. intros i L. lia. }
  pose proof (exec_did _ _ _ _ _ _ _ H1) as (cs & es & D & _).
  apply counted_exec in H1; [|exact C0]. destruct H1 as (pre & ix & A & B & C & E & F).
  assert (ptoks p = ts) as TS by (rewrite (did_toks _ _ _ _ D); reflexivity).
  assert (plimit p = 100%N) as LM by (rewrite (did_lim _ _ _ _ D); reflexivity).
  rewrite TS in *. rewrite LM in *. change (N.to_nat 100) with 100 in *.
  exists (rev ix). split; [|split].
  - clear - B. induction B as [|e i es is H B IH]; [constructor|]. cbn [rev]. apply Forall2_app; auto.
  - intros i I. apply in_rev in I. rewrite Forall_forall in C. apply C in I. rewrite A, app_length. lia.
  - intro i. assert (times i (rev ix) = times i ix) as -> by (unfold times; clear; induction ix as [|j ix IH]; [reflexivity|]; cbn [rev]; rewrite count_occ_app, IH; cbn [count_occ]; destruct (Nat.eq_dec j i); lia).
    destruct (Nat.lt_trichotomy i (length pre)) as [L|[->|L]].
    + specialize (F i L). lia.
    + lia.
    + assert (times i ix = 0); [|lia]. apply count_occ_not_In. intro I. rewrite Forall_forall in C. apply C in I. lia.
Qed.

(** ** Events *)
Lemma flats_length cs : length (flats cs) = 2 * enters (flats cs) + length (yield cs).
Proof.
  assert (forall c, length (flats [c]) = 2 * enters (flats [c]) + length (yield [c])) as ONE.
  { clear cs. induction c as [t|k cs IH] using child_ind2; [reflexivity|]. rewrite enters_tree.
    assert (length (flats [CTree k cs]) = 2 + length (flats cs)) as L1.
    { unfold flats. cbn [flat_map]. rewrite app_nil_r. cbn [flat length app]. rewrite app_length. cbn [length]. lia. }
    assert (yield [CTree k cs] = yield cs) as L2 by (unfold yield; cbn [flat_map leaves]; apply app_nil_r).
    rewrite L1, L2. assert (length (flats cs) = 2 * enters (flats cs) + length (yield cs)); [|lia]. clear L1 L2.
    induction IH as [|d r D _ I]; [reflexivity|]. change (d :: r) with ([d] ++ r). rewrite flats_app, yield_app, !app_length, enters_app, D, I. lia. }
  induction cs as [|c cs IH]; [reflexivity|]. change (c :: cs) with ([c] ++ cs). rewrite flats_app, yield_app, !app_length, enters_app, ONE. lia.
Qed.
Theorem parse_events_length ts k evs er : parse_events ts k = Ok (evs, er) -> length evs <= 607 * (length ts + 1).
Proof.
  intro H. pose proof (parse_events_enters _ _ _ _ _ _ H) as E. apply parse_tells in H as (cs & rest & sk & EV & Y & _).
  assert (evs = flats [CTree k cs]) as EQ by (unfold flats; cbn [flat_map]; rewrite app_nil_r; exact EV).
  assert (yield [CTree k cs] = yield cs) as YC by (unfold yield; cbn [flat_map leaves]; apply app_nil_r).
  pose proof (flats_length [CTree k cs]) as L. rewrite <- EQ, YC in L. rewrite L.
  assert (length (yield cs) <= length ts) by (rewrite Y, app_length; lia). change (N.to_nat 100 + 1) with 101 in E. lia.
Qed.
