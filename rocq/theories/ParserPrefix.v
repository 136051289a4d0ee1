(** Two runs of the parser on token lists with the same beginning. *)
From Verif Require Import ProofBase Tokens Syntax Lexer ParserCore Grammar Tree ParserSem ParserFuel SpecGrammar Regex ParserGrammar ParserTree ParserFacts
  SpecRecover ParserSkips SpecCount ParserCount SpecPrefix.
Local Open Scope nat_scope.

(** ** No lookup is further than two tokens ahead *)
Fixpoint low_cond (c : cond) : bool :=
  match c with
  | CNth n _ => n <=? 2
  | CReg _ | CConsume _ | CEof => true
  | CNot c => low_cond c
  | CAnd a b | COr a b => low_cond a && low_cond b
  end.
Fixpoint low (s : stmt) : bool :=
  match s with
  | SSkip | SExpect _ | SAdvance | SCall _ | SBreak => true
  | SSeq a b => low a && low b
  | SDo c => low_cond c
  | SAdvErr _ n _ => n <=? 2
  | SIf c a b => low_cond c && low a && low b
  | SWhile c a => low_cond c && low a
  | SLet n a => (n <=? 2) && low a
  end.
Lemma body_low k : low (body k) = true.
Proof. destruct k; reflexivity. Qed.

Lemma taken_app a b : taken (a ++ b) = taken a + taken b.
Proof. unfold taken. rewrite filter_app, app_length. reflexivity. Qed.
Lemma taken_flats cs : taken (flats cs) = length (yield cs).
Proof.
  unfold flats, yield. induction cs as [|c cs IH]; [reflexivity|]. cbn [flat_map]. rewrite taken_app, app_length, IH. f_equal. clear.
  induction c as [t|k cs F] using child_ind2; [reflexivity|]. cbn [ParserSem.flat leaves].
  change (Enter k :: flat_map ParserSem.flat cs ++ [Exit]) with ([Enter k] ++ flat_map ParserSem.flat cs ++ [Exit]).
  rewrite !taken_app. cbn. rewrite Nat.add_0_r. induction F as [|c cs E F IH]; [reflexivity|]. cbn [flat_map]. rewrite taken_app, app_length. congruence.
Qed.

(** ** A run behind a place *)
Definition late (ts : list token) (K : nat) (e : err) : Prop := exists i, K <= i <= length ts /\ about_place ts e i.
Definition behind (K : nat) (p : pstate) : Prop := exists pre, ptoks p = pre ++ prest p /\ K <= length pre.
Definition moves (K : nat) (p q : pstate) : Prop :=
  exists cs er, did p q cs er /\ Forall (late (ptoks p) K) er /\ behind K q.
Lemma error_late K m p q : behind K p -> p_error m p = Ok q -> exists e, perrs q = e :: perrs p /\ late (ptoks p) K e.
Proof.
  intros (pre & A & L) H. unfold p_error in H.
  assert (forall t, nth_error (ptoks p) (if Nat.eqb (length pre) (length (ptoks p)) then length pre - 1 else length pre) = Some t ->
    late (ptoks p) K (mkErr (line (tstart t)) (col (tstart t)) m)) as Z.
  { intros t T. exists (length pre). split; [|exists t; split; [exact T|split; reflexivity]]. split; [exact L|]. rewrite A, app_length. lia. }
  destruct (prest p) as [|x r] eqn:R.
  - destruct (rev (ptoks p)) as [|t l] eqn:R2; inversion H; subst. eexists. split; [reflexivity|]. apply Z. rewrite app_nil_r in A.
    assert (ptoks p = rev l ++ [t]) as TP by (rewrite <- (rev_involutive (ptoks p)), R2; reflexivity).
    rewrite <- A, Nat.eqb_refl, TP, app_length. cbn [length]. rewrite Nat.add_sub, nth_error_app2 by lia. rewrite Nat.sub_diag. reflexivity.
  - inversion H; subst. eexists. split; [reflexivity|]. apply Z. rewrite A, app_length. cbn [length].
    replace (Nat.eqb (length pre) (length pre + S (length r))) with false by (symmetry; apply Nat.eqb_neq; lia).
    rewrite nth_error_app2 by lia. rewrite Nat.sub_diag. reflexivity.
Qed.
Lemma behind_rest K p q : behind K p -> ptoks q = ptoks p -> (exists l, prest p = l ++ prest q) -> behind K q.
Proof. intros (pre & A & L) E (l & R). exists (pre ++ l). rewrite E, A, R, <- app_assoc, app_length. split; [reflexivity|lia]. Qed.
Definition kept (K : nat) (ts : list token) (e0 : list err) (q : pstate) : Prop :=
  ptoks q = ts /\ behind K q /\ exists er, perrs q = er ++ e0 /\ Forall (late ts K) er.
Lemma exec_moves K fuel reg s p g q : behind K p -> exec body fuel reg s p = Ok (g, q) -> moves K p q.
Proof.
  intros B H. assert (kept K (ptoks p) (perrs p) q) as (T & BQ & er & E & F).
  { revert H. apply exec_inv with (P := kept K (ptoks p) (perrs p)).
    - intros n p0 k p' (T & B0 & er & E & F) H. apply p_nth_did in H as (D & _ & R). split; [rewrite (did_toks _ _ _ _ D); exact T|].
      split; [eapply behind_rest; [exact B0|apply (did_toks _ _ _ _ D)|exists []; auto]|]. exists er. rewrite (did_err _ _ _ _ D). auto.
    - intros p0 p' (T & B0 & er & E & F) H. apply p_advance_did in H as (x & R & D). split; [rewrite (did_toks _ _ _ _ D); exact T|].
      split; [eapply behind_rest; [exact B0|apply (did_toks _ _ _ _ D)|exists [x]; auto]|]. exists er. rewrite (did_err _ _ _ _ D). auto.
    - intros m p0 p' (T & B0 & er & E & F) H. pose proof (error_late _ _ _ _ B0 H) as (e & E1 & LE). apply p_error_did in H as (R & _ & t & D & _).
      split; [rewrite (did_toks _ _ _ _ D); exact T|].
      split; [eapply behind_rest; [exact B0|apply (did_toks _ _ _ _ D)|exists []; auto]|]. exists (e :: er). rewrite E1, E. split; [reflexivity|].
      constructor; [rewrite <- T; exact LE|exact F].
    - intros p0 m p' I H. unfold p_enter in H. inversion H; subst. exact I.
    - intros m k p0 I. exact I.
    - split; [reflexivity|]. split; [exact B|]. exists []. split; [reflexivity|constructor]. }
  destruct (exec_did _ _ _ _ _ _ _ H) as (cs & er2 & D & _). exists cs, er2. split; [exact D|].
  assert (er2 = er) as ->; [|split; assumption]. pose proof (did_err _ _ _ _ D) as E2. rewrite E in E2. apply app_inv_tail in E2. congruence.
Qed.
Lemma eval_moves K reg c p b q : behind K p -> eval reg c p = Ok (b, q) -> moves K p q.
Proof.
  intros B H. apply (exec_moves K 1 reg (SDo c) p Normal q B). rewrite exec_do, H. reflexivity.
Qed.
Lemma moves_trans K p q q2 : moves K p q -> moves K q q2 -> moves K p q2.
Proof.
  intros (c & e & D & F & B) (c2 & e2 & D2 & F2 & B2). exists (c ++ c2), (e2 ++ e). split; [eapply did_trans; eauto|]. split; [|exact B2].
  apply Forall_app. split; [rewrite (did_toks _ _ _ _ D) in F2; exact F2|exact F].
Qed.
Lemma moves_behind K p q : moves K p q -> behind K q.
Proof. intros (_ & _ & _ & _ & B). exact B. Qed.

(** ** Two runs *)
Section Two.
Variables u r r' : list token.
Let K := length u - 2.
Record agree (v : list token) (p p' : pstate) : Prop := mkAgree {
  ag_toks : ptoks p = u ++ r;
  ag_toks' : ptoks p' = u ++ r';
  ag_pre : exists pre, u = pre ++ v;
  ag_rest : prest p = v ++ r;
  ag_rest' : prest p' = v ++ r';
  ag_lifes : plifes p = plifes p';
  ag_limit : plimit p = plimit p'
}.
(** The runs have done the same. *)
Definition both (v : list token) (p q p' q' : pstate) : Prop :=
  exists cs er v2, did p q cs er /\ did p' q' cs er /\ agree v2 q q'.
(** The runs have done the same up to the last two common tokens. *)
Definition split (v : list token) (p q p' q' : pstate) : Prop :=
  exists c d d' e l l',
    pevents q = rev (c ++ d) ++ pevents p /\ pevents q' = rev (c ++ d') ++ pevents p' /\
    perrs q = l ++ e ++ perrs p /\ perrs q' = l' ++ e ++ perrs p' /\ length v <= taken c + 2 /\
    Forall (late (u ++ r) K) l /\ Forall (late (u ++ r') K) l' /\ ptoks q = u ++ r /\ ptoks q' = u ++ r' /\ behind K q /\ behind K q'.
Definition outcome {A} (v : list token) (p p' : pstate) (g : A) (q : pstate) (g' : A) (q' : pstate) : Prop :=
  (g = g' /\ both v p q p' q') \/ split v p q p' q'.

Lemma agree_behind v p p' : agree v p p' -> length v <= 2 -> behind K p /\ behind K p'.
Proof.
  intros [T T' (pre & E) R R' _ _] L. split; exists pre; rewrite ?T, ?T', ?R, ?R', E, <- app_assoc; (split; [reflexivity|unfold K; rewrite E, app_length; lia]).
Qed.
Lemma split_alone v p p' q q' : agree v p p' -> length v <= 2 -> moves K p q -> moves K p' q' -> split v p q p' q'.
Proof.
  intros A L (c & e & D & F & B) (c' & e' & D' & F' & B'). exists [], (flats c), (flats c'), [], e, e'. cbn [app].
  rewrite (did_ev _ _ _ _ D), (did_ev _ _ _ _ D'), (did_err _ _ _ _ D), (did_err _ _ _ _ D'), (did_toks _ _ _ _ D), (did_toks _ _ _ _ D').
  rewrite <- (ag_toks _ _ _ A), <- (ag_toks' _ _ _ A). repeat (split; [reflexivity|]). split; [cbn; lia|]. auto 10.
Qed.
Lemma split_more v p p' q q' q2 q2' : split v p q p' q' -> moves K q q2 -> moves K q' q2' -> split v p q2 p' q2'.
Proof.
  intros (c & d & d' & e & l & l' & E & E' & R & R' & L & F & F' & T & T' & B & B') (cs & er & D & G & H) (cs' & er' & D' & G' & H').
  exists c, (d ++ flats cs), (d' ++ flats cs'), e, (er ++ l), (er' ++ l').
  rewrite (did_ev _ _ _ _ D), (did_ev _ _ _ _ D'), (did_err _ _ _ _ D), (did_err _ _ _ _ D'), (did_toks _ _ _ _ D), (did_toks _ _ _ _ D'), E, E', R, R'.
  rewrite T in G. rewrite T' in G'.
  split; [rewrite !rev_app_distr, <- !app_assoc; reflexivity|]. split; [rewrite !rev_app_distr, <- !app_assoc; reflexivity|].
  split; [rewrite <- !app_assoc; reflexivity|]. split; [rewrite <- !app_assoc; reflexivity|]. split; [exact L|].
  split; [apply Forall_app; auto|]. split; [apply Forall_app; auto|]. auto.
Qed.
Lemma both_then_split v p p' q q' q2 q2' cs er v2 :
  agree v p p' -> did p q cs er -> did p' q' cs er -> agree v2 q q' -> split v2 q q2 q' q2' -> split v p q2 p' q2'.
Proof.
  intros A D D' A2 (c & d & d' & e & l & l' & E & E' & R & R' & L & Z).
  exists (flats cs ++ c), d, d', (e ++ er), l, l'. rewrite E, E', R, R', (did_ev _ _ _ _ D), (did_ev _ _ _ _ D'), (did_err _ _ _ _ D), (did_err _ _ _ _ D').
  split; [rewrite !rev_app_distr, <- !app_assoc; reflexivity|]. split; [rewrite !rev_app_distr, <- !app_assoc; reflexivity|].
  split; [rewrite <- !app_assoc; reflexivity|]. split; [rewrite <- !app_assoc; reflexivity|].
  split; [|exact Z]. rewrite taken_app, taken_flats. pose proof (did_rest _ _ _ _ D) as Y. rewrite (ag_rest _ _ _ A), (ag_rest _ _ _ A2) in Y.
  apply (f_equal (@length _)) in Y. rewrite !app_length in Y. lia.
Qed.
Lemma both_trans v p p' q q' q2 q2' cs er v2 :
  did p q cs er -> did p' q' cs er -> both v2 q q2 q' q2' -> both v p q2 p' q2'.
Proof.
  intros D D' (cs2 & er2 & v3 & D2 & D2' & A3). exists (cs ++ cs2), (er2 ++ er), v3. split; [|split; [|exact A3]]; eapply did_trans; eauto.
Qed.
Lemma outcome_then {A B} v p p' (g g' : A) q q' (h h' : B) q2 q2' :
  agree v p p' -> outcome v p p' g q g' q' ->
  (forall v2, g = g' -> agree v2 q q' -> outcome v2 q q' h q2 h' q2') ->
  (behind K q -> moves K q q2) -> (behind K q' -> moves K q' q2') ->
  outcome v p p' h q2 h' q2'.
Proof.
  intros AG [(E & cs & er & v2 & D & D' & A2)|S] H M M'.
  - destruct (H v2 E A2) as [(E2 & BB)|S].
    + left. split; [exact E2|]. eapply both_trans; eauto.
    + right. eapply both_then_split; eauto.
  - right. assert (behind K q /\ behind K q') as [Bq Bq'] by (destruct S as (? & ? & ? & ? & ? & ? & ? & ? & ? & ? & ? & ? & ? & ? & ? & ? & ?); auto).
    eapply split_more; eauto.
Qed.
Lemma outcome_refl {A} v p p' (g : A) : agree v p p' -> outcome v p p' g p g p'.
Proof. intro A0. left. split; [reflexivity|]. exists [], [], v. split; [apply did_refl|]. split; [apply did_refl|exact A0]. Qed.
Lemma moves_refl p : behind K p -> moves K p p.
Proof. intro B. exists [], []. split; [apply did_refl|]. split; [constructor|exact B]. Qed.

(** *** Primitive steps *)
Lemma nth_moves n p k q : behind K p -> p_nth n p = Ok (k, q) -> moves K p q.
Proof. intros B H. apply (eval_moves K TEOF (CNth n []) p false q B). cbn [eval]. rewrite H. reflexivity. Qed.
Lemma kind_same v n (a b : list token) : n < length v -> kind_at (v ++ a) n = kind_at (v ++ b) n.
Proof. intro L. unfold kind_at. rewrite !nth_error_app1 by exact L. reflexivity. Qed.
Lemma nth_two v n p p' k q k' q' : n <= 2 -> agree v p p' -> p_nth n p = Ok (k, q) -> p_nth n p' = Ok (k', q') -> outcome v p p' k q k' q'.
Proof.
  intros N A H H'. destruct (le_lt_dec (length v) 2) as [L|L].
  - right. destruct (agree_behind _ _ _ A L). apply split_alone; auto; eapply nth_moves; eauto.
  - left. unfold p_nth in *. destruct A as [T T' P R R' LF LM]. rewrite <- LF in H'. destruct (N.eqb (plifes p) 0); [discriminate|].
    inversion H; subst. inversion H'; subst. rewrite R, R'. split; [apply kind_same; lia|].
    exists [], [], v. split; [|split].
    + split; cbn; auto.
    + split; cbn; auto.
    + split; cbn; auto; congruence.
Qed.
Lemma exec_moves1 s p q : behind K p -> exec body 1 TEOF s p = Ok (Normal, q) -> moves K p q.
Proof. apply exec_moves. Qed.
Lemma advance_moves p q : behind K p -> p_advance p = Ok q -> moves K p q.
Proof. intros B H. apply (exec_moves1 SAdvance); [exact B|]. rewrite exec_advance, H. reflexivity. Qed.
Lemma advance_two {A} v (g : A) p p' q q' : agree v p p' -> p_advance p = Ok q -> p_advance p' = Ok q' -> outcome v p p' g q g q'.
Proof.
  intros A0 H H'. destruct (le_lt_dec (length v) 2) as [L|L].
  - right. destruct (agree_behind _ _ _ A0 L). apply split_alone; auto; eapply advance_moves; eauto.
  - left. split; [reflexivity|]. destruct A0 as [T T' (pre & P) R R' LF LM]. destruct v as [|x v]; [cbn in L; lia|].
    unfold p_advance in *. rewrite R in H. rewrite R' in H'. cbn [app] in *. inversion H; subst. inversion H'; subst.
    exists [CTok x], [], v. split; [|split].
    + split; cbn; auto.
    + split; cbn; auto.
    + split; cbn; auto. exists (pre ++ [x]). rewrite <- app_assoc. exact P.
Qed.
Lemma consume_two v t p p' b q b' q' : agree v p p' -> p_consume t p = Ok (b, q) -> p_consume t p' = Ok (b', q') -> outcome v p p' b q b' q'.
Proof.
  intros A H H'. unfold p_consume in *. apply bind_ok in H as [[k1 q1] [H1 H2]]. apply bind_ok in H' as [[k1' q1'] [H1' H2']].
  assert (forall k1 q1 b q, (if tkind_eqb k1 t then p <- p_advance q1 ;; Ok (true, p) else Ok (false, q1)) = Ok (b, q) -> behind K q1 -> moves K q1 q) as MV.
  { clear. intros k1 q1 b q H B. destruct (tkind_eqb k1 t); [|inversion H; subst; apply moves_refl, B].
    apply bind_ok in H as [q2 [H H2]]. inversion H2; subst. eapply advance_moves; eauto. }
  eapply outcome_then; [exact A|eapply nth_two; [|exact A|exact H1|exact H1']; lia| |eauto|eauto].
  intros v2 E A2. subst k1'. destruct (tkind_eqb k1 t).
  - apply bind_ok in H2 as [q2 [H2 H3]]. apply bind_ok in H2' as [q2' [H2' H3']]. inversion H3; subst. inversion H3'; subst. eapply advance_two; eauto.
  - inversion H2; subst. inversion H2'; subst. apply outcome_refl, A2.
Qed.
Lemma expect_moves t p q : behind K p -> p_expect t p = Ok q -> moves K p q.
Proof. intros B H. apply (exec_moves1 (SExpect t)); [exact B|]. rewrite exec_expect, H. reflexivity. Qed.
Lemma expect_two {A} (g : A) v t p p' q q' : agree v p p' -> p_expect t p = Ok q -> p_expect t p' = Ok q' -> outcome v p p' g q g q'.
Proof.
  intros A0 H H'. destruct (le_lt_dec (length v) 2) as [L|L].
  { right. destruct (agree_behind _ _ _ A0 L). apply split_alone; auto; eapply expect_moves; eauto. }
  left. split; [reflexivity|]. destruct v as [|x v]; [cbn in L; lia|]. destruct A0 as [T T' (pre & P) R R' LF LM].
  destruct p as [a1 a2 a3 a4 a5 a6], p' as [b1 b2 b3 b4 b5 b6]. cbn [ptoks prest pevents perrs plifes plimit] in *. subst.
  unfold p_expect, p_consume, p_nth in *. cbn [ptoks prest pevents perrs plifes plimit] in *.
  destruct (N.eqb b5 0); [discriminate|]. cbn [bind kind_at nth_error app] in *. destruct (tkind_eqb (tkind_of x) t).
  - cbn in H, H'. inversion H; subst. inversion H'; subst. exists [CTok x], [], v. split; [|split].
    + split; cbn; auto.
    + split; cbn; auto.
    + split; cbn; auto. exists (pre ++ [x]). rewrite <- app_assoc. exact P.
  - cbn [bind plifes prest ptoks pevents perrs plimit app kind_at nth_error] in *. destruct (N.eqb (b5 - 1) 0); [discriminate|].
    cbn [bind plifes prest ptoks pevents perrs plimit app kind_at nth_error p_error] in *. inversion H; subst. inversion H'; subst.
    eexists [], [_], (x :: v). split; [|split].
    + split; cbn; auto.
    + split; cbn; auto.
    + split; cbn; auto. exists pre. exact P.
Qed.
Lemma adverr_moves m p q : behind K p -> p_advance_with_error m p = Ok q -> moves K p q.
Proof.
  intros B H. unfold p_advance_with_error in H. apply bind_ok in H as [q1 [H1 H2]].
  pose proof (error_late _ _ _ _ B H1) as (e & E & LE). pose proof (p_adverr_did m p q) as D. unfold p_advance_with_error in D.
  rewrite H1 in D. cbn [bind] in D. destruct (D H2) as (x & R & D2). eexists _, _. split; [exact D2|]. split.
  - constructor; [|constructor]. pose proof (did_err _ _ _ _ D2) as E2. apply bind_ok in H2 as [q2 [H2 H3]]. inversion H3; subst. cbn [p_exit perrs] in E2.
    unfold p_advance in H2. cbn [p_enter prest] in H2. destruct (prest q1); [discriminate|]. inversion H2; subst. cbn [perrs] in E2. rewrite E in E2. cbn in E2.
    inversion E2; subst. exact LE.
  - eapply behind_rest; [exact B|apply (did_toks _ _ _ _ D2)|exists [x]; exact R].
Qed.
Lemma adverr_two {A} (g : A) v m p p' q q' : 2 < length v -> agree v p p' -> p_advance_with_error m p = Ok q -> p_advance_with_error m p' = Ok q' -> outcome v p p' g q g q'.
Proof.
  intros L A0 H H'. left. split; [reflexivity|]. destruct v as [|x v]; [cbn in L; lia|].
  pose proof (p_adverr_did _ _ _ H) as (y & R & D). pose proof (p_adverr_did _ _ _ H') as (y' & R' & D').
  destruct A0 as [T T' (pre & P) RR RR' LF LM]. rewrite RR in R. rewrite RR' in R'. cbn [app] in *. inversion R; subst y. inversion R'; subst y'.
  eexists _, _, v. split; [exact D|]. split; [exact D'|]. unfold p_advance_with_error, p_error in *. rewrite RR in H. rewrite RR' in H'.
  cbn [bind p_enter add_err prest p_advance] in H, H'. rewrite RR in H. rewrite RR' in H'. cbn [app bind] in H, H'. inversion H; subst. inversion H'; subst.
  split; cbn; auto; try congruence. exists (pre ++ [x]). rewrite <- app_assoc. exact P.
Qed.

(** *** Conditions and statements *)
Lemma eval_two reg c : forall v p p' b q b' q', low_cond c = true -> agree v p p' -> eval reg c p = Ok (b, q) -> eval reg c p' = Ok (b', q') -> outcome v p p' b q b' q'.
Proof.
  induction c; intros v p p' b0 q b0' q' W A H H'.
  - cbn [low_cond] in W. apply Nat.leb_le in W. cbn [eval] in *. apply bind_ok in H as [[k q1] [H1 H2]]. apply bind_ok in H' as [[k' q1'] [H1' H2']].
    inversion H2; subst. inversion H2'; subst. destruct (nth_two _ _ _ _ _ _ _ _ W A H1 H1') as [(-> & B)|S]; [left; auto|right; exact S].
  - cbn [eval] in *. inversion H; subst. inversion H'; subst. apply outcome_refl, A.
  - cbn [eval] in *. eapply consume_two; eauto.
  - cbn [eval] in *. inversion H; subst. inversion H'; subst. destruct (le_lt_dec (length v) 2) as [L|L].
    + right. destruct (agree_behind _ _ _ A L). apply split_alone; auto using moves_refl.
    + assert (p_eof q = p_eof q') as <-; [|apply outcome_refl, A]. unfold p_eof. rewrite (ag_rest _ _ _ A), (ag_rest' _ _ _ A). destruct v; [cbn in L; lia|reflexivity].
  - cbn [low_cond] in W. cbn [eval] in *. apply bind_ok in H as [[k q1] [H1 H2]]. apply bind_ok in H' as [[k' q1'] [H1' H2']].
    inversion H2; subst. inversion H2'; subst. destruct (IHc _ _ _ _ _ _ _ W A H1 H1') as [(-> & B)|S]; [left; auto|right; exact S].
  - cbn [low_cond] in W. apply andb_true_iff in W as [W1 W2]. cbn [eval] in *. apply bind_ok in H as [[k q1] [H1 H2]]. apply bind_ok in H' as [[k' q1'] [H1' H2']].
    eapply outcome_then; [exact A|eapply IHc1; eauto| | |].
    + intros v2 <- A2. destruct k; [eapply IHc2; eauto|]. inversion H2; subst. inversion H2'; subst. apply outcome_refl, A2.
    + intro B. destruct k; [eapply eval_moves; eauto|]. inversion H2; subst. apply moves_refl, B.
    + intro B. destruct k'; [eapply eval_moves; eauto|]. inversion H2'; subst. apply moves_refl, B.
  - cbn [low_cond] in W. apply andb_true_iff in W as [W1 W2]. cbn [eval] in *. apply bind_ok in H as [[k q1] [H1 H2]]. apply bind_ok in H' as [[k' q1'] [H1' H2']].
    eapply outcome_then; [exact A|eapply IHc1; eauto| | |].
    + intros v2 <- A2. destruct k; [|eapply IHc2; eauto]. inversion H2; subst. inversion H2'; subst. apply outcome_refl, A2.
    + intro B. destruct k; [|eapply eval_moves; eauto]. inversion H2; subst. apply moves_refl, B.
    + intro B. destruct k'; [|eapply eval_moves; eauto]. inversion H2'; subst. apply moves_refl, B.
Qed.
Lemma agree_enter v p p' m q m' q' : agree v p p' -> p_enter p = (m, q) -> p_enter p' = (m', q') -> agree v q q'.
Proof. intros [T T' P R R' LF LM] H H'. unfold p_enter in *. inversion H; subst. inversion H'; subst. split; cbn; auto. Qed.
Lemma exit_outcome v (g g' : signal) k p p' m q m' q' q2 q2' : agree v p p' -> p_enter p = (m, q) -> p_enter p' = (m', q') -> outcome v q q' g q2 g' q2' ->
  outcome v p p' Normal (p_exit m k q2) Normal (p_exit m' k q2').
Proof.
  intros A E E' [(_ & cs & er & v2 & D & D' & A2)|S].
  - left. split; [reflexivity|]. exists [CTree k cs], er, v2. split; [eapply enter_exit_did; eauto|]. split; [eapply enter_exit_did; eauto|].
    destruct A2. split; auto.
  - right. destruct S as (c & d & d' & e & l & l' & V & V' & R & R' & L & F & F' & T & T' & B & B').
    unfold p_enter in *. inversion E; subst. inversion E'; subst. cbn [pevents perrs] in *.
    exists (Enter k :: c), (d ++ [Exit]), (d' ++ [Exit]), e, l, l'. cbn [p_exit pevents perrs ptoks].
    assert (forall X Y o, patch (length (rev X ++ Enter Y :: o) - 1 - length o) (Enter k) (rev X ++ Enter Y :: o) = rev X ++ Enter k :: o) as PM.
    { clear. intros X Y o. replace (length (rev X ++ Enter Y :: o) - 1 - length o) with (length (rev X)); [apply patch_mid|]. rewrite app_length. cbn [length]. lia. }
    split; [rewrite V, PM; cbn [rev app]; rewrite !rev_app_distr; cbn [rev app]; rewrite <- !app_assoc; reflexivity|].
    split; [rewrite V', PM; cbn [rev app]; rewrite !rev_app_distr; cbn [rev app]; rewrite <- !app_assoc; reflexivity|].
    auto 12.
Qed.
Theorem exec_two fuel : forall fuel' reg s v p p' g q g' q', low s = true -> agree v p p' ->
  exec body fuel reg s p = Ok (g, q) -> exec body fuel' reg s p' = Ok (g', q') -> outcome v p p' g q g' q'.
Proof.
  induction fuel as [|n IHn]; [discriminate|]. intros [|n']; [discriminate|].
  intros reg s; revert reg; induction s; intros reg v p p' g q g' q' W A H H'; cbn [low] in W.
  - inversion H; subst. inversion H'; subst. apply outcome_refl, A.
  - apply andb_true_iff in W as [W1 W2]. rewrite exec_seq in H, H'. apply bind_ok in H as [[g1 q1] [H1 H2]]. apply bind_ok in H' as [[g1' q1'] [H1' H2']].
    eapply outcome_then; [exact A|eapply IHs1; eauto| | |].
    + intros v2 <- A2. destruct g1; [eapply IHs2; eauto|]. inversion H2; subst. inversion H2'; subst. apply outcome_refl, A2.
    + intro B. destruct g1; [eapply exec_moves; eauto|]. inversion H2; subst. apply moves_refl, B.
    + intro B. destruct g1'; [eapply exec_moves; eauto|]. inversion H2'; subst. apply moves_refl, B.
  - rewrite exec_do in H, H'. apply bind_ok in H as [[g1 q1] [H1 H2]]. apply bind_ok in H' as [[g1' q1'] [H1' H2']]. inversion H2; subst. inversion H2'; subst.
    destruct (eval_two _ _ _ _ _ _ _ _ _ W A H1 H1') as [(_ & B)|S]; [left; auto|right; exact S].
  - rewrite exec_expect in H, H'. apply bind_ok in H as [q1 [H1 H2]]. apply bind_ok in H' as [q1' [H1' H2']]. inversion H2; subst. inversion H2'; subst. eapply expect_two; eauto.
  - rewrite exec_advance in H, H'. apply bind_ok in H as [q1 [H1 H2]]. apply bind_ok in H' as [q1' [H1' H2']]. inversion H2; subst. inversion H2'; subst. eapply advance_two; eauto.
  - apply Nat.leb_le in W. rewrite exec_adverr in H, H'. apply bind_ok in H as [[k q1] [H1 H2]]. apply bind_ok in H' as [[k' q1'] [H1' H2']].
    apply bind_ok in H2 as [q2 [H2 H3]]. apply bind_ok in H2' as [q2' [H2' H3']]. inversion H3; subst. inversion H3'; subst.
    eapply outcome_then; [exact A|eapply nth_two; eauto| | |].
    + intros v2 <- A2. destruct (le_lt_dec (length v2) 2) as [L|L].
      * right. destruct (agree_behind _ _ _ A2 L). apply split_alone; auto; eapply adverr_moves; eauto.
      * eapply adverr_two; eauto.
    + intro B. eapply adverr_moves; eauto.
    + intro B. eapply adverr_moves; eauto.
  - rewrite exec_call in H, H'. destruct (p_enter p) as [m q0] eqn:E. destruct (p_enter p') as [m' q0'] eqn:E'.
    apply bind_ok in H as [[g1 q1] [H1 H2]]. apply bind_ok in H' as [[g1' q1'] [H1' H2']]. inversion H2; subst. inversion H2'; subst.
    eapply exit_outcome; [exact A|exact E|exact E'|]. eapply IHn; [apply body_low|eapply agree_enter; eauto|exact H1|exact H1'].
  - apply andb_true_iff in W as [W W2]. apply andb_true_iff in W as [W0 W1]. rewrite exec_if in H, H'.
    apply bind_ok in H as [[g1 q1] [H1 H2]]. apply bind_ok in H' as [[g1' q1'] [H1' H2']].
    eapply outcome_then; [exact A|eapply eval_two; eauto| | |].
    + intros v2 <- A2. destruct g1; [eapply IHs1; eauto|eapply IHs2; eauto].
    + intro B. destruct g1; eapply exec_moves; eauto.
    + intro B. destruct g1'; eapply exec_moves; eauto.
  - pose proof W as WW. apply andb_true_iff in W as [W0 W1]. rewrite exec_while in H, H'.
    apply bind_ok in H as [[b q1] [H1 H2]]. apply bind_ok in H' as [[b' q1'] [H1' H2']].
    assert (forall m (b : bool) q1 g q, (if b then '(g0, p0) <- exec body (S m) reg s q1 ;; match g0 with Normal => exec body m reg (SWhile c s) p0 | Broke => Ok (Normal, p0) end else Ok (Normal, q1)) = Ok (g, q) ->
      behind K q1 -> moves K q1 q) as MV.
    { clear. intros m b q1 g q H B. destruct b; [|inversion H; subst; apply moves_refl, B].
      apply bind_ok in H as [[g2 q2] [H H2]]. pose proof (exec_moves _ _ _ _ _ _ _ B H) as M. destruct g2; [|inversion H2; subst; exact M].
      eapply moves_trans; [exact M|]. eapply exec_moves; [eapply moves_behind; exact M|exact H2]. }
    eapply outcome_then; [exact A|eapply eval_two; eauto| |eapply MV; eauto|eapply MV; eauto].
    intros v2 <- A2. destruct b; [|inversion H2; subst; inversion H2'; subst; apply outcome_refl, A2].
    apply bind_ok in H2 as [[g2 q2] [H2 H3]]. apply bind_ok in H2' as [[g2' q2'] [H2' H3']].
    eapply outcome_then; [exact A2|eapply IHs; eauto| | |].
    + intros v3 <- A3. destruct g2; [eapply IHn; [|exact A3|exact H3|exact H3']; exact WW|]. inversion H3; subst. inversion H3'; subst. apply outcome_refl, A3.
    + intro B. destruct g2; [eapply exec_moves; eauto|]. inversion H3; subst. apply moves_refl, B.
    + intro B. destruct g2'; [eapply exec_moves; eauto|]. inversion H3'; subst. apply moves_refl, B.
  - apply andb_true_iff in W as [W0 W1]. apply Nat.leb_le in W0. rewrite exec_let in H, H'. apply bind_ok in H as [[k q1] [H1 H2]]. apply bind_ok in H' as [[k' q1'] [H1' H2']].
    eapply outcome_then; [exact A|eapply nth_two; eauto| | |].
    + intros v2 <- A2. eapply IHs; eauto.
    + intro B. eapply exec_moves; eauto.
    + intro B. eapply exec_moves; eauto.
  - inversion H; subst. inversion H'; subst. apply outcome_refl, A.
Qed.
End Two.

Theorem parse_two u r r' k evs er evs' er' :
  parse_events (u ++ r) k = Ok (evs, er) -> parse_events (u ++ r') k = Ok (evs', er') ->
  exists c d d' e l l', evs = c ++ d /\ evs' = c ++ d' /\ er = e ++ l /\ er' = e ++ l' /\
    (length u <= taken c + 2 \/ (evs = evs' /\ er = er')) /\
    Forall (late (u ++ r) (length u - 2)) l /\ Forall (late (u ++ r') (length u - 2)) l'.
Proof.
  intros H H'. unfold parse_events in H, H'. pose proof (parse_events_entry _ _ _ _ _ H) as NE.
  rewrite parse_events_unfold in H by auto. rewrite parse_events_unfold in H' by auto.
  apply bind_ok in H as [[g p] [H1 H2]]. apply bind_ok in H' as [[g' p'] [H1' H2']]. inversion H2; subst. inversion H2'; subst. clear H2 H2'.
  assert (agree u r r' u (parser_with 100 (u ++ r)) (parser_with 100 (u ++ r'))) as A by (split; try reflexivity; exists []; reflexivity).
  destruct (exec_two u r r' _ _ _ (SCall k) _ _ _ _ _ _ _ eq_refl A H1 H1') as [(_ & cs & e & v2 & D & D' & A2)|S].
  - exists (flats cs), [], [], (rev e), [], []. rewrite (did_ev _ _ _ _ D), (did_ev _ _ _ _ D'), (did_err _ _ _ _ D), (did_err _ _ _ _ D'). cbn [parser_with pevents perrs].
    rewrite !app_nil_r, rev_involutive. repeat (split; [reflexivity|]). split; [right; split; reflexivity|split; constructor].
  - destruct S as (c & d & d' & e & l & l' & V & V' & R & R' & L & F & F' & _). cbn [parser_with pevents perrs] in *. rewrite app_nil_r in *.
    exists c, d, d', (rev e), (rev l), (rev l'). rewrite V, V', R, R', !rev_involutive, !rev_app_distr. repeat (split; [reflexivity|]).
    split; [left; exact L|]. split; apply Forall_rev; assumption.
Qed.
