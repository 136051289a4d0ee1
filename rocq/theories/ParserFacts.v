(** Two more facts about parser runs: they depend on token kinds only, and the errors point
    at tokens, in order. *)
From Coq Require Import Sorting.Sorted.
From Verif Require Import ProofBase Tokens Syntax Lexer ParserCore Grammar Tree ParserSem.

(** * Kinds only: a run commutes with forgetting everything but the kinds. *)
Definition pos0 : position := mkPos 0 0 0.
Definition bare (t : token) : token := mkTok 0 [] (tkind_of t) pos0 pos0.
Definition bare_err (e : err) : err := mkErr 0 0 (emsg e).
Definition bare_p (p : pstate) : pstate :=
  mkP (map bare (ptoks p)) (map bare (prest p)) (pevents p) (map bare_err (perrs p))
      (plifes p) (plimit p).

Definition rmap {A B} (f : A -> B) (r : res A) : res B :=
  match r with Ok a => Ok (f a) | Panic x => Panic x | OutOfFuel => OutOfFuel end.
Definition on_snd {A B C} (f : B -> C) (x : A * B) : A * C := (fst x, f (snd x)).

Lemma rmap_bind {A B C} (r : res A) (f : A -> res B) (h : B -> C) :
  rmap h (bind r f) = bind r (fun a => rmap h (f a)).
Proof. destruct r; reflexivity. Qed.
Lemma bind_rmap {A B C} (r : res A) (h : A -> B) (f : B -> res C) :
  bind (rmap h r) f = bind r (fun a => f (h a)).
Proof. destruct r; reflexivity. Qed.
Lemma bind_ext {A B} (r : res A) (f g : A -> res B) :
  (forall a, f a = g a) -> bind r f = bind r g.
Proof. destruct r; simpl; auto. Qed.

Lemma kind_at_bare ts n : kind_at (map bare ts) n = kind_at ts n.
Proof.
  unfold kind_at. revert n; induction ts as [|t ts IH]; intros [|n]; simpl; auto.
Qed.

Lemma p_nth_bare n p : p_nth n (bare_p p) = rmap (on_snd bare_p) (p_nth n p).
Proof.
  unfold p_nth. cbn [plifes bare_p]. destruct (plifes p =? 0).
  - cbn [rmap]. f_equal. unfold blowup. cbn [prest ptoks bare_p].
    destruct (prest p), (ptoks p); reflexivity.
  - cbn [rmap]. unfold on_snd. cbn [fst snd]. f_equal. f_equal. apply kind_at_bare.
Qed.

Lemma p_advance_bare p : p_advance (bare_p p) = rmap bare_p (p_advance p).
Proof. unfold p_advance. cbn [prest bare_p]. destruct (prest p); reflexivity. Qed.

Lemma p_error_bare msg p : p_error msg (bare_p p) = rmap bare_p (p_error msg p).
Proof.
  unfold p_error. cbn [prest ptoks bare_p]. destruct (prest p) as [|x r]; cbn [map].
  - rewrite <- map_rev. destruct (rev (ptoks p)); reflexivity.
  - reflexivity.
Qed.


Lemma p_adverr_bare msg p :
  p_advance_with_error msg (bare_p p) = rmap bare_p (p_advance_with_error msg p).
Proof.
  unfold p_advance_with_error. rewrite p_error_bare, bind_rmap, rmap_bind. apply bind_ext.
  intro a. cbn [p_enter].
  change (mkP (ptoks (bare_p a)) (prest (bare_p a)) (Enter KError :: pevents (bare_p a))
            (perrs (bare_p a)) (plifes (bare_p a)) (plimit (bare_p a)))
    with (bare_p (mkP (ptoks a) (prest a) (Enter KError :: pevents a) (perrs a) (plifes a) (plimit a))).
  unfold p_enter. cbv beta iota zeta.
  rewrite rmap_bind.
  change (mkP (ptoks (bare_p a)) (prest (bare_p a)) (Enter KError :: pevents (bare_p a))
            (perrs (bare_p a)) (plifes (bare_p a)) (plimit (bare_p a)))
    with (bare_p (mkP (ptoks a) (prest a) (Enter KError :: pevents a) (perrs a) (plifes a) (plimit a))).
  rewrite p_advance_bare, bind_rmap. reflexivity.
Qed.

Lemma p_consume_bare t p : p_consume t (bare_p p) = rmap (on_snd bare_p) (p_consume t p).
Proof.
  unfold p_consume. rewrite p_nth_bare, bind_rmap, rmap_bind. apply bind_ext.
  intros [k q]. cbn [on_snd fst snd]. unfold on_snd. cbn [fst snd]. destruct (tkind_eqb k t); auto.
  rewrite p_advance_bare, bind_rmap, rmap_bind. reflexivity.
Qed.

Lemma p_expect_bare t p : p_expect t (bare_p p) = rmap bare_p (p_expect t p).
Proof.
  unfold p_expect. rewrite p_consume_bare, bind_rmap, rmap_bind. apply bind_ext.
  intros [b q]. unfold on_snd. cbn [fst snd]. destruct b; auto.
  rewrite p_nth_bare, bind_rmap, rmap_bind. apply bind_ext.
  intros [k q']. unfold on_snd. cbn [fst snd]. apply p_error_bare.
Qed.

Lemma eval_bare reg c p : eval reg c (bare_p p) = rmap (on_snd bare_p) (eval reg c p).
Proof.
  revert p; induction c; intro p; cbn [eval]; auto.
  - rewrite p_nth_bare, bind_rmap, rmap_bind. apply bind_ext. intros [k q]. reflexivity.
  - apply p_consume_bare.
  - unfold p_eof, on_snd. cbn [rmap fst snd prest bare_p]. destruct (prest p); reflexivity.
  - rewrite IHc, bind_rmap, rmap_bind. apply bind_ext. intros [k q]. reflexivity.
  - rewrite IHc1, bind_rmap, rmap_bind. apply bind_ext. intros [k q].
    unfold on_snd. cbn [fst snd]. destruct k; auto.
  - rewrite IHc1, bind_rmap, rmap_bind. apply bind_ext. intros [k q].
    unfold on_snd. cbn [fst snd]. destruct k; auto.
Qed.

Section Facts.
Variable body : skind -> stmt.

Lemma exec_bare fuel : forall reg s p,
  exec body fuel reg s (bare_p p) = rmap (on_snd bare_p) (exec body fuel reg s p).
Proof.
  induction fuel as [|n IHn]; [reflexivity|].
  intros reg s; revert reg; induction s; intros reg p.
  - reflexivity.
  - rewrite !exec_seq, IHs1, bind_rmap, rmap_bind. apply bind_ext. intros [g q].
    unfold on_snd. cbn [fst snd]. destruct g; auto.
  - rewrite !exec_do, eval_bare, bind_rmap, rmap_bind. apply bind_ext. intros [g q]. reflexivity.
  - rewrite !exec_expect, p_expect_bare, bind_rmap, rmap_bind. reflexivity.
  - rewrite !exec_advance, p_advance_bare, bind_rmap, rmap_bind. reflexivity.
  - rewrite !exec_adverr, p_nth_bare, bind_rmap, rmap_bind. apply bind_ext. intros [k q].
    unfold on_snd. cbn [fst snd]. rewrite p_adverr_bare, bind_rmap, rmap_bind. reflexivity.
  - rewrite !exec_call. unfold p_enter.
    change (mkP (ptoks (bare_p p)) (prest (bare_p p)) (Enter KError :: pevents (bare_p p))
            (perrs (bare_p p)) (plifes (bare_p p)) (plimit (bare_p p)))
    with (bare_p (mkP (ptoks p) (prest p) (Enter KError :: pevents p) (perrs p) (plifes p) (plimit p))).
    rewrite IHn, bind_rmap, rmap_bind. apply bind_ext. intros [g q]. reflexivity.
  - rewrite !exec_if, eval_bare, bind_rmap, rmap_bind. apply bind_ext. intros [b q].
    unfold on_snd. cbn [fst snd]. destruct b; auto.
  - rewrite !exec_while, eval_bare, bind_rmap, rmap_bind. apply bind_ext. intros [b q].
    unfold on_snd. cbn [fst snd]. destruct b; auto.
    rewrite IHs, bind_rmap, rmap_bind. apply bind_ext. intros [g q'].
    unfold on_snd. cbn [fst snd]. destruct g; auto.
  - rewrite !exec_let, p_nth_bare, bind_rmap, rmap_bind. apply bind_ext. intros [k q].
    unfold on_snd. cbn [fst snd]. apply IHs.
  - reflexivity.
Qed.

(** * Invariants of the primitive steps are invariants of runs. *)
Variable P : pstate -> Prop.
Hypothesis P_nth : forall n p k p', P p -> p_nth n p = Ok (k, p') -> P p'.
Hypothesis P_advance : forall p p', P p -> p_advance p = Ok p' -> P p'.
Hypothesis P_error : forall m p p', P p -> p_error m p = Ok p' -> P p'.
Hypothesis P_enter : forall p m p', P p -> p_enter p = (m, p') -> P p'.
Hypothesis P_exit : forall m k p, P p -> P (p_exit m k p).

Lemma consume_inv t p b p' : P p -> p_consume t p = Ok (b, p') -> P p'.
Proof.
  unfold p_consume. intros I H. apply bind_ok in H as [[k q] [H1 H2]]. apply P_nth in H1; auto.
  destruct (tkind_eqb k t).
  - apply bind_ok in H2 as [q2 [H2 H3]]. inversion H3; subst. eauto.
  - inversion H2; subst. auto.
Qed.

Lemma eval_inv reg c : forall p b p', P p -> eval reg c p = Ok (b, p') -> P p'.
Proof.
  induction c; intros p b0 p' I H; cbn [eval] in H.
  - apply bind_ok in H as [[k q] [H1 H2]]. inversion H2; subst. eauto.
  - inversion H; subst; auto.
  - eapply consume_inv; eauto.
  - inversion H; subst; auto.
  - apply bind_ok in H as [[k q] [H1 H2]]. inversion H2; subst. exact (IHc _ _ _ I H1).
  - apply bind_ok in H as [[x q] [H1 H2]]. apply IHc1 in H1; auto.
    destruct x; [exact (IHc2 _ _ _ H1 H2)|inversion H2; subst; auto].
  - apply bind_ok in H as [[x q] [H1 H2]]. apply IHc1 in H1; auto.
    destruct x; [inversion H2; subst; auto|exact (IHc2 _ _ _ H1 H2)].
Qed.

Lemma exec_inv fuel : forall reg s p g p', P p -> exec body fuel reg s p = Ok (g, p') -> P p'.
Proof.
  induction fuel as [|n IHn]; [discriminate|].
  intros reg s; revert reg; induction s; intros reg p g p' I H.
  - inversion H; subst; auto.
  - rewrite exec_seq in H. apply bind_ok in H as [[g1 q] [H1 H2]]. apply IHs1 in H1; auto.
    destruct g1; [exact (IHs2 _ _ _ _ H1 H2)|inversion H2; subst; auto].
  - rewrite exec_do in H. apply bind_ok in H as [[g1 q] [H1 H2]]. inversion H2; subst.
    eapply eval_inv; eauto.
  - rewrite exec_expect in H. apply bind_ok in H as [q [H1 H2]]. inversion H2; subst.
    unfold p_expect in H1. apply bind_ok in H1 as [[b q] [H1 H3]]. apply consume_inv in H1; auto.
    destruct b; [inversion H3; subst; auto|].
    apply bind_ok in H3 as [[k q2] [H3 H4]]. eauto.
  - rewrite exec_advance in H. apply bind_ok in H as [q [H1 H2]]. inversion H2; subst. eauto.
  - rewrite exec_adverr in H. apply bind_ok in H as [[k q] [H1 H2]]. apply P_nth in H1; auto.
    apply bind_ok in H2 as [q2 [H2 H3]]. inversion H3; subst.
    unfold p_advance_with_error in H2. apply bind_ok in H2 as [q3 [H2 H4]].
    apply P_error in H2; auto. destruct (p_enter q3) as [m q4] eqn:E.
    apply P_enter in E; auto. apply bind_ok in H4 as [q5 [H4 H5]]. inversion H5; subst. eauto.
  - rewrite exec_call in H. destruct (p_enter p) as [m q] eqn:E. apply P_enter in E; auto.
    apply bind_ok in H as [[g1 q1] [H1 H2]]. inversion H2; subst. eauto.
  - rewrite exec_if in H. apply bind_ok in H as [[b q] [H1 H2]].
    pose proof (eval_inv _ _ _ _ _ I H1) as J.
    destruct b; [exact (IHs1 _ _ _ _ J H2)|exact (IHs2 _ _ _ _ J H2)].
  - rewrite exec_while in H. apply bind_ok in H as [[b q] [H1 H2]].
    pose proof (eval_inv _ _ _ _ _ I H1). destruct b; [|inversion H2; subst; auto].
    apply bind_ok in H2 as [[g1 q1] [H2 H3]]. apply IHs in H2; auto.
    destruct g1; [exact (IHn _ _ _ _ _ H2 H3)|inversion H3; subst; auto].
  - rewrite exec_let in H. apply bind_ok in H as [[k q] [H1 H2]].
    apply P_nth in H1; auto. exact (IHs _ _ _ _ H1 H2).
  - inversion H; subst; auto.
Qed.
End Facts.

(** * Error positions *)
Definition points (e : err) (t : token) : Prop :=
  eline e = line (tstart t) /\ ecol e = col (tstart t).

(** The errors (newest first) point at the tokens with indices [ix], which never exceed the
    index of the current token. *)
Definition err_inv (p : pstate) : Prop :=
  exists pre ix, ptoks p = pre ++ prest p /\
    Forall2 (fun e i => exists t, nth_error (ptoks p) i = Some t /\ points e t) (perrs p) ix /\
    StronglySorted ge ix /\ Forall (fun i => (i <= length pre)%nat) ix.

Lemma err_inv_new l ts : err_inv (parser_with l ts).
Proof. exists [], []. repeat split; constructor. Qed.

Lemma err_inv_exec body fuel reg s p g p' :
  err_inv p -> exec body fuel reg s p = Ok (g, p') -> err_inv p'.
Proof.
  apply exec_inv; clear.
  - intros n p k p' I H. unfold p_nth in H. destruct (plifes p =? 0); inversion H; subst. exact I.
  - intros p p' (pre & ix & A & B & C & D) H. unfold p_advance in H.
    destruct (prest p) as [|x r] eqn:E; inversion H; subst.
    exists (pre ++ [x]), ix. simpl. rewrite <- app_assoc. repeat split; auto.
    eapply Forall_impl; [|exact D]. simpl. intros i L. rewrite app_length. simpl. lia.
  - intros m p p' (pre & ix & A & B & C & D) H. unfold p_error in H.
    destruct (prest p) as [|x r] eqn:E.
    + destruct (rev (ptoks p)) as [|t l] eqn:E2; inversion H; subst.
      assert (ptoks p = rev l ++ [t]) as TP.
      { rewrite <- (rev_involutive (ptoks p)), E2. reflexivity. }
      assert (nth_error (ptoks p) (length (rev l)) = Some t) as NT.
      { rewrite TP, nth_error_app2 by lia. rewrite Nat.sub_diag. reflexivity. }
      exists pre, (length (rev l) :: ix). cbn [add_err ptoks prest perrs].
      rewrite app_nil_r in A. rewrite E, app_nil_r.
      split; [exact A|]. split.
      { constructor; auto. exists t. split; auto. split; reflexivity. }
      split.
      * constructor; auto. apply Forall_forall. intros i I.
        assert (exists e, In e (perrs p) /\ exists t, nth_error (ptoks p) i = Some t) as (e & _ & u & U).
        { clear -B I. induction B as [|e j es js [u [U _]] B IH]; [contradiction|].
          destruct I as [<-|I]; [exists e; split; [left; auto|exists u; auto]|].
          destruct (IH I) as (e' & X & Y). exists e'. split; [right; auto|exact Y]. }
        assert (i < length (ptoks p))%nat as LT by (apply nth_error_Some; congruence).
        rewrite TP, app_length in LT. simpl in LT. lia.
      * constructor; auto. rewrite <- A, TP, app_length. simpl. lia.
    + inversion H; subst. exists pre, (length pre :: ix). cbn [add_err ptoks prest perrs].
      rewrite E. split; [exact A|]. split.
      { constructor; auto. exists x. rewrite A, nth_error_app2 by lia. rewrite Nat.sub_diag.
        split; [reflexivity|split; reflexivity]. }
      split; constructor; auto. 
  - intros p m p' I H. inversion H; subst. exact I.
  - intros m k p I. exact I.
Qed.

Lemma parse_unfold limit fuel ts k :
  k <> KError ->
  parse_events_with limit fuel ts k =
  ('(_, p) <- exec body fuel TEOF (SCall k) (parser_with limit ts) ;;
   Ok (rev (pevents p), rev (perrs p))).
Proof. destruct k; try reflexivity. contradiction. Qed.

Lemma parse_errors_at ts k evs er :
  parse_events ts k = Ok (evs, er) ->
  exists ix, Forall2 (fun e i => exists t, nth_error ts i = Some t /\ points e t) er ix /\
    StronglySorted le ix.
Proof.
  intro H. assert (k <> KError) as NE by (intro Z; subst; discriminate).
  unfold parse_events in H. rewrite parse_unfold in H by auto.
  apply bind_ok in H as [[g p] [H1 H2]]. inversion H2; subst.
  pose proof (err_inv_exec _ _ _ _ _ _ _ (err_inv_new 100 ts) H1) as (pre & ix & _ & B & C & _).
  apply exec_did in H1 as (cs & es & D & _). rewrite (did_toks _ _ _ _ D) in B.
  exists (rev ix). split.
  - clear -B. cbn [ptoks parser_with] in B. induction B as [|e i es is H B IH]; [constructor|].
    simpl. apply Forall2_app; auto.
  - clear -C. induction C as [|i is C IH F]; [constructor|]. simpl.
    assert (forall l, StronglySorted le l -> Forall (fun j => (j <= i)%nat) l -> StronglySorted le (l ++ [i])) as K.
    { induction 1 as [|j l S IHS FL]; intro FA; simpl; [repeat constructor|].
      inversion FA; subst. constructor; auto. apply Forall_app. split; auto. }
    apply K; auto. apply Forall_rev. eapply Forall_impl; [|exact F]. unfold ge. auto.
Qed.

Lemma bare_new limit ts : bare_p (parser_with limit ts) = parser_with limit (map bare ts).
Proof. reflexivity. Qed.

Lemma bare_kinds ts ts' : map tkind_of ts = map tkind_of ts' -> map bare ts = map bare ts'.
Proof.
  revert ts'. induction ts as [|t ts IH]; intros [|t' ts'] H; try discriminate; auto.
  simpl in *. inversion H. f_equal; auto. unfold bare. congruence.
Qed.

Definition bare_result (r : list event * list err) : list event * list err :=
  (fst r, map bare_err (snd r)).

Lemma parse_bare_eq limit fuel ts k :
  rmap bare_result (parse_events_with limit fuel ts k) =
  parse_events_with limit fuel (map bare ts) k.
Proof.
  destruct (skind_eqb k KError) eqn:E.
  { apply skind_eqb_eq in E. subst. reflexivity. }
  assert (k <> KError) as NE by (intro Z; subst; discriminate).
  rewrite !parse_unfold by auto. rewrite <- bare_new, exec_bare, bind_rmap, rmap_bind.
  apply bind_ext. intros [g p]. unfold on_snd, bare_result. cbn [fst snd rmap].
  cbn [bare_p pevents perrs]. rewrite map_rev. reflexivity.
Qed.

Lemma parse_bare ts ts' k :
  map tkind_of ts = map tkind_of ts' ->
  match parse_events ts k, parse_events ts' k with
  | Ok (e, er), Ok (e', er') => e = e' /\ map emsg er = map emsg er'
  | Panic x, Panic y => x = y
  | OutOfFuel, OutOfFuel => True
  | _, _ => False
  end.
Proof.
  intro H. pose proof (bare_kinds _ _ H) as B.
  assert (parse_fuel ts = parse_fuel ts') as F.
  { unfold parse_fuel. rewrite <- (map_length tkind_of ts), H, map_length. reflexivity. }
  unfold parse_events. rewrite <- F. generalize (parse_fuel ts). intro fuel.
  pose proof (parse_bare_eq 100 fuel ts k) as E1. pose proof (parse_bare_eq 100 fuel ts' k) as E2.
  rewrite B, <- E2 in E1.
  destruct (parse_events_with 100 fuel ts k) as [[e er]| |],
           (parse_events_with 100 fuel ts' k) as [[e' er']| |]; simpl in E1; try discriminate; auto.
  - inversion E1 as [[E3 E4]]. split; auto. apply (f_equal (map emsg)) in E4.
    rewrite !map_map in E4. exact E4.
  - inversion E1. reflexivity.
Qed.

(** * Crashes *)
Definition crash (x : panic) : Prop := x = PStuck \/ x = PAssertEof.

Lemma bind_panic {A B} (r : res A) (f : A -> res B) x :
  bind r f = Panic x -> r = Panic x \/ exists a, r = Ok a /\ f a = Panic x.
Proof. destruct r; simpl; intro H; eauto. left. inversion H. reflexivity. discriminate. Qed.

Definition full_p (p : pstate) : Prop := ptoks p <> [].

Lemma nth_panic n p x : full_p p -> p_nth n p = Panic x -> crash x.
Proof.
  unfold p_nth, full_p. intros F H. destruct (plifes p =? 0); [|discriminate].
  inversion H. unfold blowup, crash. destruct (prest p); auto. destruct (ptoks p); auto. contradiction.
Qed.
Lemma advance_panic p x : p_advance p = Panic x -> crash x.
Proof. unfold p_advance. destruct (prest p); intro H; inversion H. right; reflexivity. Qed.
Lemma error_panic m p x : full_p p -> p_error m p = Panic x -> crash x.
Proof.
  unfold p_error, full_p. intros F H. destruct (prest p); [|discriminate].
  destruct (rev (ptoks p)) eqn:E; [|discriminate].
  apply (f_equal (@rev token)) in E. rewrite rev_involutive in E. contradiction.
Qed.

Section Panics.
Variable body : skind -> stmt.

Lemma full_did p p' cs er : did p p' cs er -> full_p p -> full_p p'.
Proof. unfold full_p. intros D. rewrite (did_toks _ _ _ _ D). auto. Qed.

Lemma consume_panic t p x : full_p p -> p_consume t p = Panic x -> crash x.
Proof.
  intros F H. unfold p_consume in H. apply bind_panic in H as [H|[[k q] [_ H]]].
  - eapply nth_panic; eauto.
  - destruct (tkind_eqb k t); [|discriminate].
    apply bind_panic in H as [H|[a [_ H]]]; [|discriminate]. eapply advance_panic; eauto.
Qed.

Lemma eval_panic reg c : forall p x, full_p p -> eval reg c p = Panic x -> crash x.
Proof.
  induction c; intros p x F H; cbn [eval] in H; try discriminate.
  - apply bind_panic in H as [H|[[k q] [_ H]]]; [|discriminate]. eapply nth_panic; eauto.
  - eapply consume_panic; eauto.
  - apply bind_panic in H as [H|[[k q] [_ H]]]; [|discriminate]. eauto.
  - apply bind_panic in H as [H|[[b q] [E H]]]; [eauto|].
    destruct b; [|discriminate]. apply eval_did in E as (cs & _ & D).
    eapply IHc2; [|exact H]. eapply full_did; eauto.
  - apply bind_panic in H as [H|[[b q] [E H]]]; [eauto|].
    destruct b; [discriminate|]. apply eval_did in E as (cs & _ & D).
    eapply IHc2; [|exact H]. eapply full_did; eauto.
Qed.

Lemma exec_panic fuel : forall reg s p x, full_p p -> exec body fuel reg s p = Panic x -> crash x.
Proof.
  induction fuel as [|n IHn]; [discriminate|].
  intros reg s; revert reg; induction s; intros reg p x F H.
  - discriminate.
  - rewrite exec_seq in H. apply bind_panic in H as [H|[[g q] [E H]]]; [eauto|].
    destruct g; [|discriminate]. apply exec_did in E as (cs & er & D & _).
    eapply IHs2; [|exact H]. eapply full_did; eauto.
  - rewrite exec_do in H. apply bind_panic in H as [H|[[g q] [E H]]]; [|discriminate].
    eapply eval_panic; eauto.
  - rewrite exec_expect in H. apply bind_panic in H as [H|[q [E H]]]; [|discriminate].
    unfold p_expect in H. apply bind_panic in H as [H|[[b q] [E H]]]; [eapply consume_panic; eauto|].
    apply p_consume_did in E as (cs & _ & D).
    destruct b; [discriminate|]. apply bind_panic in H as [H|[[k q2] [E2 H]]].
    + eapply nth_panic; [|exact H]. eapply full_did; eauto.
    + apply p_nth_did in E2 as [D2 _]. eapply error_panic; [|exact H].
      eapply full_did; [exact D2|]. eapply full_did; eauto.
  - rewrite exec_advance in H. apply bind_panic in H as [H|[q [E H]]]; [|discriminate].
    eapply advance_panic; eauto.
  - rewrite exec_adverr in H. apply bind_panic in H as [H|[[k q] [E H]]]; [eapply nth_panic; eauto|].
    apply p_nth_did in E as [D _].
    apply bind_panic in H as [H|[q2 [E H]]]; [|discriminate].
    unfold p_advance_with_error in H. apply bind_panic in H as [H|[q3 [E H]]].
    + eapply error_panic; [|exact H]. eapply full_did; eauto.
    + destruct (p_enter q3) as [m q4]. apply bind_panic in H as [H|[q5 [E2 H]]]; [|discriminate].
      eapply advance_panic; eauto.
  - rewrite exec_call in H. destruct (p_enter p) as [m q] eqn:E.
    apply bind_panic in H as [H|[[g q2] [_ H]]]; [|discriminate].
    eapply IHn; [|exact H]. inversion E; subst. exact F.
  - rewrite exec_if in H. apply bind_panic in H as [H|[[b q] [E H]]]; [eapply eval_panic; eauto|].
    apply eval_did in E as (cs & _ & D). pose proof (full_did _ _ _ _ D F) as F2.
    destruct b; [exact (IHs1 _ _ _ F2 H)|exact (IHs2 _ _ _ F2 H)].
  - rewrite exec_while in H. apply bind_panic in H as [H|[[b q] [E H]]]; [eapply eval_panic; eauto|].
    apply eval_did in E as (cs & _ & D). pose proof (full_did _ _ _ _ D F) as F2.
    destruct b; [|discriminate]. apply bind_panic in H as [H|[[g q2] [E2 H]]].
    + exact (IHs _ _ _ F2 H).
    + apply exec_did in E2 as (cs2 & er & D2 & _). destruct g; [|discriminate].
      eapply IHn; [|exact H]. eapply full_did; eauto.
  - rewrite exec_let in H. apply bind_panic in H as [H|[[k q] [E H]]]; [eapply nth_panic; eauto|].
    apply p_nth_did in E as [D _]. eapply IHs; [|exact H]. eapply full_did; eauto.
  - discriminate.
Qed.
End Panics.

Lemma parse_panics limit fuel ts k x :
  ts <> [] -> k <> KError -> parse_events_with limit fuel ts k = Panic x -> crash x.
Proof.
  intros NE NK H. rewrite parse_unfold in H by auto.
  apply bind_panic in H as [H|[[g p] [_ H]]]; [|discriminate]. eapply exec_panic; [|exact H]. exact NE.
Qed.
