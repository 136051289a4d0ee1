(** Termination of the parser. The guard [lifes] gives a potential that every lookup and
    every advance decreases; between two lookups only finitely many calls can be nested. *)
From Verif Require Import ProofBase Tokens Syntax Lexer ParserCore Grammar Tree ParserSem.

Definition pot (p : pstate) : nat :=
  length (prest p) * (N.to_nat (plimit p) + 1) + N.to_nat (plifes p).

Definition bounded (p : pstate) : Prop := (plifes p <= plimit p)%N.

(** Does evaluating the condition look at a token? *)
Fixpoint cprog (c : cond) : bool :=
  match c with
  | CNth _ _ | CConsume _ => true
  | CReg _ | CEof => false
  | CNot c => cprog c
  | CAnd a _ | COr a _ => cprog a
  end.

(** Does every completed run of the statement look at a token? [pk k]: for calls. *)
Section Static.
Variable pk : skind -> bool.
Variable rk : skind -> nat.

Fixpoint prog (s : stmt) : bool :=
  match s with
  | SSkip | SBreak => false
  | SSeq a b => prog a
  | SDo c => cprog c
  | SExpect _ | SAdvance | SAdvErr _ _ _ | SLet _ _ => true
  | SCall k => pk k
  | SIf c a b => cprog c || (prog a && prog b)
  | SWhile c a => cprog c
  end.

(** Bound on the nesting of calls before the first lookup; loops make progress. *)
Fixpoint rank (s : stmt) : nat :=
  match s with
  | SSkip | SDo _ | SExpect _ | SAdvance | SAdvErr _ _ _ | SBreak | SLet _ _ => 0
  | SSeq a b => if prog a then rank a else Nat.max (rank a) (rank b)
  | SCall k => S (rk k)
  | SIf c a b => if cprog c then 0 else Nat.max (rank a) (rank b)
  | SWhile c a => if cprog c then 0 else rank a
  end.

Fixpoint loops_ok (s : stmt) : bool :=
  match s with
  | SSeq a b | SIf _ a b => loops_ok a && loops_ok b
  | SWhile c a => (cprog c || prog a) && loops_ok a
  | SLet _ a => loops_ok a
  | _ => true
  end.

End Static.

Section Term.
Lemma p_nth_pot n p k p' :
  bounded p -> p_nth n p = Ok (k, p') -> bounded p' /\ (pot p' < pot p)%nat.
Proof.
  unfold p_nth, bounded, pot. intro B. destruct (N.eqb_spec (plifes p) 0); [discriminate|].
  intro H; inversion H; subst; simpl. split; lia.
Qed.

Lemma p_advance_pot p p' :
  bounded p -> p_advance p = Ok p' -> bounded p' /\ (pot p' < pot p)%nat.
Proof.
  unfold p_advance, bounded, pot. intro B. destruct (prest p) eqn:E; [discriminate|].
  intro H; inversion H; subst; simpl. split; lia.
Qed.

Lemma p_error_pot m p p' :
  p_error m p = Ok p' -> bounded p -> bounded p' /\ pot p' = pot p.
Proof.
  intro H. apply p_error_did in H as (a & b & t & D & _). destruct D.
  unfold bounded, pot. rewrite a, b, did_lim. auto.
Qed.

Lemma p_consume_pot t p b p' :
  bounded p -> p_consume t p = Ok (b, p') -> bounded p' /\ (pot p' < pot p)%nat.
Proof.
  unfold p_consume. intros B H. apply bind_ok in H as [[k q] [H1 H2]].
  apply p_nth_pot in H1 as [B1 L1]; auto. destruct (tkind_eqb k t).
  - apply bind_ok in H2 as [q2 [H2 H3]]. inversion H3; subst.
    apply p_advance_pot in H2 as [B2 L2]; auto. split; auto. lia.
  - inversion H2; subst. auto.
Qed.

Lemma eval_pot reg c p b p' :
  bounded p -> eval reg c p = Ok (b, p') ->
  bounded p' /\ (pot p' <= pot p)%nat /\ (cprog c = true -> (pot p' < pot p)%nat).
Proof.
  revert p b p'; induction c; intros p b0 p' B H; simpl in H.
  - apply bind_ok in H as [[k q] [H1 H2]]. inversion H2; subst.
    apply p_nth_pot in H1 as [? ?]; auto. simpl. repeat split; auto; lia.
  - inversion H; subst. simpl. repeat split; auto; try lia; try discriminate.
  - apply p_consume_pot in H as [? ?]; auto. simpl. repeat split; auto; lia.
  - inversion H; subst. simpl. repeat split; auto; try lia; try discriminate.
  - apply bind_ok in H as [[k q] [H1 H2]]. inversion H2; subst. eapply IHc; eauto.
  - apply bind_ok in H as [[x q] [H1 H2]]. apply IHc1 in H1 as (B1 & L1 & P1); auto.
    simpl. destruct x.
    + apply IHc2 in H2 as (B2 & L2 & _); auto. repeat split; auto; [lia|]. intro Z; apply P1 in Z; lia.
    + inversion H2; subst. auto.
  - apply bind_ok in H as [[x q] [H1 H2]]. apply IHc1 in H1 as (B1 & L1 & P1); auto.
    simpl. destruct x.
    + inversion H2; subst. auto.
    + apply IHc2 in H2 as (B2 & L2 & _); auto. repeat split; auto; [lia|]. intro Z; apply P1 in Z; lia.
Qed.

Lemma eval_fuel reg c p : eval reg c p <> OutOfFuel.
Proof.
  revert p; induction c; intro p; simpl; unfold p_consume, p_nth, p_advance;
    try discriminate.
  - destruct (plifes p =? 0); discriminate.
  - destruct (plifes p =? 0); try discriminate. simpl.
    destruct (tkind_eqb _ t); try discriminate. destruct (prest p); discriminate.
  - specialize (IHc p). destruct (eval reg c p) as [[x q]| |]; try discriminate. congruence.
  - specialize (IHc1 p). destruct (eval reg c1 p) as [[x q]| |]; try discriminate; [|congruence].
    simpl. destruct x; [apply IHc2|discriminate].
  - specialize (IHc1 p). destruct (eval reg c1 p) as [[x q]| |]; try discriminate; [|congruence].
    simpl. destruct x; [discriminate|apply IHc2].
Qed.

Lemma bind_fuel {X Y} (r : res X) (f : X -> res Y) :
  bind r f = OutOfFuel -> r = OutOfFuel \/ exists x, r = Ok x /\ f x = OutOfFuel.
Proof. destruct r; simpl; try discriminate; eauto. Qed.

Lemma p_nth_fuel n p : p_nth n p <> OutOfFuel.
Proof. unfold p_nth. destruct (plifes p =? 0); discriminate. Qed.
Lemma p_advance_fuel p : p_advance p <> OutOfFuel.
Proof. unfold p_advance. destruct (prest p); discriminate. Qed.
Lemma p_error_fuel m p : p_error m p <> OutOfFuel.
Proof. unfold p_error. destruct (prest p); [destruct (rev (ptoks p))|]; discriminate. Qed.
Lemma p_expect_fuel t p : p_expect t p <> OutOfFuel.
Proof.
  unfold p_expect. intro H. apply bind_fuel in H as [H|[[b q] [H1 H2]]].
  - apply (eval_fuel TEOF (CConsume t) p). exact H.
  - destruct b; [discriminate|]. apply bind_fuel in H2 as [H2|[[k q2] [H2 H3]]].
    + exact (p_nth_fuel _ _ H2).
    + exact (p_error_fuel _ _ H3).
Qed.
Lemma p_adverr_fuel m p : p_advance_with_error m p <> OutOfFuel.
Proof.
  unfold p_advance_with_error. intro H. apply bind_fuel in H as [H|[q [H1 H2]]].
  - exact (p_error_fuel _ _ H).
  - destruct (p_enter q) as [x q2]. apply bind_fuel in H2 as [H2|[q3 [H2 H3]]].
    + exact (p_advance_fuel _ H2).
    + discriminate.
Qed.

Lemma p_expect_pot t p p' :
  bounded p -> p_expect t p = Ok p' -> bounded p' /\ (pot p' < pot p)%nat.
Proof.
  unfold p_expect. intros B H. apply bind_ok in H as [[b q] [H1 H2]].
  apply p_consume_pot in H1 as [B1 L1]; auto. destruct b.
  - inversion H2; subst; auto.
  - apply bind_ok in H2 as [[k q2] [H2 H3]]. apply p_nth_pot in H2 as [B2 L2]; auto.
    apply p_error_pot in H3 as [B3 L3]; auto. split; auto. lia.
Qed.

Lemma p_adverr_pot m p p' :
  bounded p -> p_advance_with_error m p = Ok p' -> bounded p' /\ (pot p' < pot p)%nat.
Proof.
  unfold p_advance_with_error. intros B H. apply bind_ok in H as [q [H1 H2]].
  apply p_error_pot in H1 as [B1 L1]; auto. unfold p_enter in H2.
  apply bind_ok in H2 as [q3 [H2 H3]]. inversion H3; subst.
  apply p_advance_pot in H2 as [B2 L2]; auto. unfold bounded, pot in *. simpl in *.
  split; auto. lia.
Qed.

Variable body : skind -> stmt.
Variable pk : skind -> bool.
Hypothesis Hpk : forall k, pk k = true -> prog pk (body k) = true.

(** Progress of completed runs. *)
Lemma exec_pot fuel reg s p g p' :
  bounded p -> exec body fuel reg s p = Ok (g, p') ->
  bounded p' /\ (pot p' <= pot p)%nat /\ (prog pk s = true -> (pot p' < pot p)%nat).
Proof.
  revert reg s p g p'. induction fuel as [|n IHn]; [discriminate|].
  intros reg s; revert reg; induction s; intros reg p g p' B H; simpl prog.
  - rewrite exec_skip in H. inversion H; subst. repeat split; auto; discriminate.
  - rewrite exec_seq in H. apply bind_ok in H as [[g1 p1] [H1 H2]].
    apply IHs1 in H1 as (B1 & L1 & P1); auto. destruct g1.
    + apply IHs2 in H2 as (B2 & L2 & P2); auto. repeat split; auto; [lia|].
      intro Z; apply P1 in Z; lia.
    + inversion H2; subst. auto.
  - rewrite exec_do in H. apply bind_ok in H as [[b q] [H1 H2]]. inversion H2; subst.
    eapply eval_pot; eauto.
  - rewrite exec_expect in H. apply bind_ok in H as [q [H1 H2]]. inversion H2; subst.
    apply p_expect_pot in H1 as [? ?]; auto. repeat split; auto; lia.
  - rewrite exec_advance in H. apply bind_ok in H as [q [H1 H2]]. inversion H2; subst.
    apply p_advance_pot in H1 as [? ?]; auto. repeat split; auto; lia.
  - rewrite exec_adverr in H. apply bind_ok in H as [[k q] [H1 H2]].
    apply bind_ok in H2 as [q2 [H2 H3]]. inversion H3; subst.
    apply p_nth_pot in H1 as [? ?]; auto. apply p_adverr_pot in H2 as [? ?]; auto.
    repeat split; auto; lia.
  - rewrite exec_call in H. destruct (p_enter p) as [m q] eqn:E.
    apply bind_ok in H as [[g1 q1] [H1 H2]]. inversion H2; subst.
    assert (bounded q /\ pot q = pot p) as [Bq Lq] by (inversion E; subst; split; auto).
    apply IHn in H1 as (B1 & L1 & P1); auto.
    assert (pot (p_exit m k q1) = pot q1) by reflexivity.
    repeat split; [exact B1|lia|]. intro Z. apply Hpk in Z. apply P1 in Z. lia.
  - rewrite exec_if in H. apply bind_ok in H as [[b q] [H1 H2]].
    apply eval_pot in H1 as (B1 & L1 & P1); auto. destruct b.
    + apply IHs1 in H2 as (B2 & L2 & P2); auto. repeat split; auto; [lia|].
      intro Z; apply orb_true_iff in Z as [Z|Z]; [apply P1 in Z; lia|].
      apply andb_true_iff in Z as [Z1 Z2]. apply P2 in Z1. lia.
    + apply IHs2 in H2 as (B2 & L2 & P2); auto. repeat split; auto; [lia|].
      intro Z; apply orb_true_iff in Z as [Z|Z]; [apply P1 in Z; lia|].
      apply andb_true_iff in Z as [Z1 Z2]. apply P2 in Z2. lia.
  - rewrite exec_while in H. apply bind_ok in H as [[b q] [H1 H2]].
    apply eval_pot in H1 as (B1 & L1 & P1); auto. destruct b.
    + apply bind_ok in H2 as [[g1 q1] [H2 H3]]. apply IHs in H2 as (B2 & L2 & _); auto.
      destruct g1.
      * apply IHn in H3 as (B3 & L3 & _); auto. repeat split; auto; [lia|].
        intro Z; apply P1 in Z; lia.
      * inversion H3; subst. repeat split; auto; [lia|]. intro Z; apply P1 in Z; lia.
    + inversion H2; subst. auto.
  - rewrite exec_let in H. apply bind_ok in H as [[k q] [H1 H2]].
    apply p_nth_pot in H1 as [B1 L1]; auto. apply IHs in H2 as (B2 & L2 & _); auto.
    repeat split; auto; lia.
  - rewrite exec_break in H. inversion H; subst. repeat split; auto; discriminate.
Qed.

Variable rk : skind -> nat.
Variable R : nat.
Hypothesis Hrk : forall k, (rank pk rk (body k) <= rk k)%nat.
Hypothesis HR : forall k, (rk k + 2 <= R)%nat.
Hypothesis Hloops : forall k, loops_ok pk (body k) = true.
Hypothesis HR2 : (2 <= R)%nat.

Lemma rank_R s : (rank pk rk s + 1 <= R)%nat.
Proof.
  induction s; simpl; try lia.
  - destruct (prog pk s1); lia.
  - specialize (HR k). lia.
  - destruct (cprog c); lia.
  - destruct (cprog c); lia.
Qed.

(** Enough fuel. *)
Lemma exec_fuel fuel reg s p :
  bounded p -> loops_ok pk s = true ->
  (pot p * R + rank pk rk s + 1 <= fuel)%nat ->
  exec body fuel reg s p <> OutOfFuel.
Proof.
  revert reg s p. induction fuel as [|n IHn]; [lia|].
  assert (forall s p p', (pot p' < pot p)%nat -> (pot p * R <= n)%nat ->
            (pot p' * R + rank pk rk s + 1 <= n)%nat) as K.
  { intros s p p' H1 H2. pose proof (rank_R s).
    assert ((pot p' + 1) * R <= pot p * R)%nat by (apply Nat.mul_le_mono_r; lia). lia. }
  intros reg s; revert reg; induction s; intros reg p B LO F H; simpl in LO; cbn [rank] in F.
  - discriminate.
  - apply andb_true_iff in LO as [LO1 LO2].
    rewrite exec_seq in H. apply bind_fuel in H as [H|[[g1 p1] [H1 H2]]].
    + revert H. apply IHs1; auto. destruct (prog pk s1); lia.
    + destruct g1; [|discriminate]. apply exec_pot in H1 as (B1 & L1 & P1); auto.
      revert H2. apply IHs2; auto. destruct (prog pk s1).
      * specialize (P1 eq_refl). specialize (K s2 p p1 P1). lia.
      * assert (pot p1 * R <= pot p * R)%nat by (apply Nat.mul_le_mono_r; lia). lia.
  - rewrite exec_do in H. apply bind_fuel in H as [H|[[b q] [H1 H2]]]; [|discriminate].
    exact (eval_fuel _ _ _ H).
  - rewrite exec_expect in H. apply bind_fuel in H as [H|[q [H1 H2]]]; [|discriminate].
    exact (p_expect_fuel _ _ H).
  - rewrite exec_advance in H. apply bind_fuel in H as [H|[q [H1 H2]]]; [|discriminate].
    exact (p_advance_fuel _ H).
  - rewrite exec_adverr in H. apply bind_fuel in H as [H|[[k q] [H1 H2]]].
    + exact (p_nth_fuel _ _ H).
    + apply bind_fuel in H2 as [H2|[q2 [H2 H3]]]; [|discriminate].
      exact (p_adverr_fuel _ _ H2).
  - rewrite exec_call in H. destruct (p_enter p) as [m q] eqn:E.
    apply bind_fuel in H as [H|[[g1 q1] [H1 H2]]]; [|discriminate].
    assert (bounded q /\ pot q = pot p) as [Bq Lq] by (inversion E; subst; split; auto).
    revert H. apply IHn; auto. rewrite Lq. specialize (Hrk k). lia.
  - apply andb_true_iff in LO as [LO1 LO2].
    rewrite exec_if in H. apply bind_fuel in H as [H|[[b q] [H1 H2]]].
    + exact (eval_fuel _ _ _ H).
    + apply eval_pot in H1 as (B1 & L1 & P1); auto.
      assert (pot q * R <= pot p * R)%nat by (apply Nat.mul_le_mono_r; lia).
      destruct b; revert H2; [apply IHs1|apply IHs2]; auto; destruct (cprog c);
        try (specialize (P1 eq_refl); pose proof (K s1 p q P1); pose proof (K s2 p q P1)); lia.
  - apply andb_true_iff in LO as [LO1 LO2].
    rewrite exec_while in H. apply bind_fuel in H as [H|[[b q] [H1 H2]]].
    + exact (eval_fuel _ _ _ H).
    + apply eval_pot in H1 as (B1 & L1 & P1); auto. destruct b; [|discriminate].
      assert (pot q * R <= pot p * R)%nat by (apply Nat.mul_le_mono_r; lia).
      apply bind_fuel in H2 as [H2|[[g1 q1] [H2 H3]]].
      * revert H2. apply IHs; auto. destruct (cprog c); [|lia].
        specialize (P1 eq_refl). pose proof (K s p q P1). lia.
      * destruct g1; [|discriminate]. apply exec_pot in H2 as (B2 & L2 & P2); auto.
        assert (pot q1 < pot p)%nat as L3.
        { apply orb_true_iff in LO1 as [Z|Z]; [apply P1 in Z|apply P2 in Z]; lia. }
        revert H3. apply IHn; auto.
        { simpl. rewrite LO1, LO2. reflexivity. }
        pose proof (K (SWhile c s) p q1 L3). lia.
  - rewrite exec_let in H. apply bind_fuel in H as [H|[[k q] [H1 H2]]].
    + exact (p_nth_fuel _ _ H).
    + apply p_nth_pot in H1 as [B1 L1]; auto. revert H2. apply IHs; auto.
      pose proof (K s p q L1). lia.
  - discriminate.
Qed.

End Term.

(** More fuel does not change a result. *)
Lemma exec_mono body fuel fuel' reg s p r :
  exec body fuel reg s p = r -> r <> OutOfFuel -> (fuel <= fuel')%nat ->
  exec body fuel' reg s p = r.
Proof.
  revert fuel' reg s p r. induction fuel as [|n IHn]; intros [|n'] reg s p r H N F; try lia;
    try (simpl in H; congruence).
  assert (F' : (n <= n')%nat) by lia. clear F.
  revert reg p r H N. induction s; intros reg p r H N; try exact H.
  - rewrite exec_seq in *. destruct (exec body (S n) reg s1 p) as [[g1 p1]| |] eqn:E.
    + rewrite (IHs1 _ _ _ E) by discriminate. cbn [bind] in *. destruct g1; auto.
    + rewrite (IHs1 _ _ _ E) by discriminate. exact H.
    + cbn [bind] in H. congruence.
  - rewrite exec_call in *. destruct (p_enter p) as [m q].
    destruct (exec body n TEOF (body k) q) as [[g1 p1]| |] eqn:E.
    + rewrite (IHn n' _ _ _ _ E) by (auto; discriminate). exact H.
    + rewrite (IHn n' _ _ _ _ E) by (auto; discriminate). exact H.
    + cbn [bind] in H. congruence.
  - rewrite exec_if in *. destruct (eval reg c p) as [[b q]| |]; cbn [bind] in *; auto.
    destruct b; auto.
  - rewrite exec_while in *. destruct (eval reg c p) as [[b q]| |]; cbn [bind] in *; auto.
    destruct b; auto.
    destruct (exec body (S n) reg s q) as [[g1 p1]| |] eqn:E.
    + rewrite (IHs _ _ _ E) by discriminate. cbn [bind] in *. destruct g1; auto.
    + rewrite (IHs _ _ _ E) by discriminate. exact H.
    + cbn [bind] in H. congruence.
  - rewrite exec_let in *. destruct (p_nth n0 p) as [[k q]| |]; cbn [bind] in *; auto.
Qed.

(** Tables for the grammar: every function looks at a token or advances, and at most
    [rk_tab] calls are nested before that. *)
Definition pk_tab (k : skind) : bool := match k with KError => false | _ => true end.
Fixpoint rk_iter (n : nat) : skind -> nat :=
  match n with
  | O => fun _ => O
  | S n' => let f := rk_iter n' in fun k => rank pk_tab f (body k)
  end.

Definition rk_tab : skind -> nat := Eval vm_compute in rk_iter 30.

Lemma skind_all (f : skind -> bool) : forallb f all_skinds = true -> forall k, f k = true.
Proof. intros H k. rewrite forallb_forall in H. apply H, all_skinds_complete. Qed.

Lemma pk_ok k : pk_tab k = true -> prog pk_tab (body k) = true.
Proof. destruct k; intro H; (discriminate H || reflexivity). Qed.
Lemma rk_ok k : (rank pk_tab rk_tab (body k) <= rk_tab k)%nat.
Proof. destruct k; vm_compute; lia. Qed.
Lemma rk_small k : (rk_tab k + 2 <= 5)%nat.
Proof. destruct k; vm_compute; lia. Qed.
Lemma body_loops_ok k : loops_ok pk_tab (body k) = true.
Proof. destruct k; reflexivity. Qed.

(** Fuel sufficient for a parser whose guard is reset to [limit]. *)
Definition enough (limit : N) (n : nat) : nat := (n + 1) * (N.to_nat limit + 1) * 5.

Lemma parse_fuel_enough ts : (enough 100 (length ts) <= parse_fuel ts)%nat.
Proof.
  unfold enough, parse_fuel. change (N.to_nat 100 + 1)%nat with 101%nat.
  rewrite (Nat.mul_comm (100 * 60)), <- Nat.mul_assoc. apply Nat.mul_le_mono_l.
  change (100 * 60)%nat with (60 * 100)%nat. lia.
Qed.

Lemma pot_new limit ts :
  (pot (parser_with limit ts) = length ts * (N.to_nat limit + 1) + N.to_nat limit)%nat.
Proof. reflexivity. Qed.

Lemma entry_fuel limit fuel ts k :
  (enough limit (length ts) <= fuel)%nat ->
  exec body fuel TEOF (SCall k) (parser_with limit ts) <> OutOfFuel.
Proof.
  intro H. apply (exec_fuel body pk_tab pk_ok rk_tab 5 rk_ok rk_small body_loops_ok).
  - lia.
  - unfold bounded. simpl. lia.
  - reflexivity.
  - rewrite pot_new. unfold enough in H. cbn [rank]. pose proof (rk_small k).
    rewrite !Nat.mul_add_distr_r in *. lia.
Qed.

Lemma parse_events_with_fuel limit fuel ts k :
  (enough limit (length ts) <= fuel)%nat -> parse_events_with limit fuel ts k <> OutOfFuel.
Proof.
  intros H E.
  assert (bind (exec body fuel TEOF (SCall k) (parser_with limit ts))
            (fun x => match x with (_, p) => Ok (rev (pevents p), rev (perrs p)) end) = OutOfFuel
          \/ k = KError) as [E2|E2]
    by (destruct k; auto; left; exact E).
  - apply bind_fuel in E2 as [E2|[[g p] [_ E2]]]; [|discriminate].
    exact (entry_fuel _ _ _ _ H E2).
  - subst. discriminate.
Qed.

Lemma parse_events_with_mono limit fuel fuel' ts k r :
  parse_events_with limit fuel ts k = r -> r <> OutOfFuel -> (fuel <= fuel')%nat ->
  parse_events_with limit fuel' ts k = r.
Proof.
  intros H N F. destruct k; try exact H;
  unfold parse_events_with in *;
  match type of H with context [exec body fuel TEOF ?s ?p] =>
    destruct (exec body fuel TEOF s p) as [[g q]| |] eqn:E;
    cbn [bind] in H; try congruence;
    rewrite (exec_mono _ _ fuel' _ _ _ _ E) by (auto; discriminate); exact H
  end.
Qed.

(** Number of rule activations. *)
Definition is_enter (e : event) : bool := match e with Enter _ => true | _ => false end.
Definition enters (evs : list event) : nat := length (filter is_enter evs).

(** No [break] escapes the statement. *)
Fixpoint nb (s : stmt) : bool :=
  match s with
  | SBreak => false
  | SSeq a b | SIf _ a b => nb a && nb b
  | SLet _ a => nb a
  | _ => true
  end.

Lemma exec_nb body fuel reg s p g p' :
  exec body fuel reg s p = Ok (g, p') -> nb s = true -> g = Normal.
Proof.
  revert reg s p g p'. induction fuel as [|n IHn]; [discriminate|].
  intros reg s; revert reg; induction s; intros reg p g p' H N; simpl in N.
  - inversion H; auto.
  - apply andb_true_iff in N as [N1 N2]. rewrite exec_seq in H.
    apply bind_ok in H as [[g1 p1] [H1 H2]]. apply IHs1 in H1; auto. subst. eauto.
  - rewrite exec_do in H. apply bind_ok in H as [[b q] [_ H]]. inversion H; auto.
  - rewrite exec_expect in H. apply bind_ok in H as [q [_ H]]. inversion H; auto.
  - rewrite exec_advance in H. apply bind_ok in H as [q [_ H]]. inversion H; auto.
  - rewrite exec_adverr in H. apply bind_ok in H as [[b q] [_ H]].
    apply bind_ok in H as [q2 [_ H]]. inversion H; auto.
  - rewrite exec_call in H. destruct (p_enter p).
    apply bind_ok in H as [[b q] [_ H]]. inversion H; auto.
  - apply andb_true_iff in N as [N1 N2]. rewrite exec_if in H.
    apply bind_ok in H as [[b q] [_ H]]. destruct b; eauto.
  - rewrite exec_while in H. apply bind_ok in H as [[b q] [_ H]].
    destruct b; [|inversion H; auto]. apply bind_ok in H as [[g1 q1] [_ H]].
    destruct g1; [|inversion H; auto]. eapply IHn; eauto.
  - rewrite exec_let in H. apply bind_ok in H as [[b q] [_ H]]. eauto.
  - discriminate.
Qed.

Lemma enters_app a b : enters (a ++ b) = (enters a + enters b)%nat.
Proof. unfold enters. rewrite filter_app, app_length. reflexivity. Qed.

Lemma enters_rev a : enters (rev a) = enters a.
Proof.
  induction a as [|e a IH]; simpl; auto. rewrite enters_app, IH.
  unfold enters. simpl. destruct (is_enter e); simpl; lia.
Qed.

Lemma enters_tree k cs : enters (flats [CTree k cs]) = S (enters (flats cs)).
Proof.
  unfold flats at 1. cbn [flat_map flat]. fold (flats cs). rewrite app_nil_r.
  change (Enter k :: flats cs ++ [Exit]) with ([Enter k] ++ flats cs ++ [Exit]).
  rewrite !enters_app. change (enters [Enter k]) with 1%nat. change (enters [Exit]) with 0%nat. lia.
Qed.

Section Cost.
Variable A : nat.
Variable ck : skind -> nat.

(** A lookup that is not part of a call. *)
Fixpoint refund (s : stmt) : bool :=
  match s with
  | SSkip | SBreak | SCall _ => false
  | SSeq a b => refund a || (nb a && refund b)
  | SDo c => cprog c
  | SExpect _ | SAdvance | SAdvErr _ _ _ | SLet _ _ => true
  | SIf c a b => cprog c || (refund a && refund b)
  | SWhile c a => cprog c
  end.

Fixpoint cost (s : stmt) : nat :=
  match s with
  | SSkip | SBreak | SDo _ | SExpect _ | SAdvance => 0
  | SAdvErr _ _ _ => 1
  | SSeq a b => cost a + cost b
  | SCall k => ck k
  | SIf _ a b => Nat.max (cost a) (cost b)
  | SWhile _ a => cost a
  | SLet _ a => cost a
  end.

Fixpoint cost_ok (s : stmt) : bool :=
  match s with
  | SSeq a b | SIf _ a b => cost_ok a && cost_ok b
  | SWhile c a => (cprog c || refund a) && Nat.leb (cost a) A && cost_ok a
  | SLet _ a => cost_ok a
  | _ => true
  end.

Variable body : skind -> stmt.
Hypothesis Hck : forall k, (S (cost (body k)) <= ck k + if refund (body k) then A else 0)%nat.
Hypothesis Hok : forall k, cost_ok (body k) = true.
Hypothesis HA : (1 <= A)%nat.

Definition bal (p : pstate) : nat := enters (pevents p) + A * pot p.

Lemma call_enters p m q k fuel g q1 :
  p_enter p = (m, q) -> exec body fuel TEOF (body k) q = Ok (g, q1) ->
  enters (pevents (p_exit m k q1)) = enters (pevents q1).
Proof.
  intros E H. apply exec_did in H as (cs & er & D & _).
  pose proof (enter_exit_did _ _ _ _ k _ _ E D) as D2.
  unfold p_enter in E. inversion E; subst.
  rewrite (did_ev _ _ _ _ D2), (did_ev _ _ _ _ D). cbn [pevents].
  change (Enter KError :: pevents p) with ([Enter KError] ++ pevents p).
  rewrite !enters_app, !enters_rev, enters_tree.
  change (enters [Enter KError]) with 1%nat. lia.
Qed.

Lemma ceval_enters reg c ts b cs r : ceval reg c ts = (b, cs, r) -> enters (flats cs) = O.
Proof.
  revert ts b cs r; induction c as [n l|l|t| |c IHc|c1 IHc1 c2 IHc2|c1 IHc1 c2 IHc2];
    intros ts b0 cs r H; simpl in H; try (inversion H; subst; reflexivity).
  - destruct ts as [|x l]; [inversion H; reflexivity|].
    destruct (tkind_eqb (tkind_of x) t); inversion H; reflexivity.
  - destruct (ceval reg c ts) as [[x l] r1] eqn:E. inversion H; subst; eauto.
  - destruct (ceval reg c1 ts) as [[x l] r1] eqn:E. apply IHc1 in E. destruct x.
    + destruct (ceval reg c2 r1) as [[y l2] r2] eqn:E2. apply IHc2 in E2.
      inversion H; subst. rewrite flats_app, enters_app. lia.
    + inversion H; subst. auto.
  - destruct (ceval reg c1 ts) as [[x l] r1] eqn:E. apply IHc1 in E. destruct x.
    + inversion H; subst. auto.
    + destruct (ceval reg c2 r1) as [[y l2] r2] eqn:E2. apply IHc2 in E2.
      inversion H; subst. rewrite flats_app, enters_app. lia.
Qed.

Lemma eval_bal reg c p b p' :
  bounded p -> eval reg c p = Ok (b, p') ->
  bounded p' /\ (bal p' + (if cprog c then A else 0) <= bal p)%nat.
Proof.
  intros B H. pose proof H as H'. apply eval_pot in H as (B1 & L1 & P1); auto.
  apply eval_did in H' as [cs [C D]]. split; auto. unfold bal.
  assert (enters (pevents p') = enters (pevents p)) as ->.
  { rewrite (did_ev _ _ _ _ D), enters_app, enters_rev.
    rewrite (ceval_enters _ _ _ _ _ _ C). lia. }
  destruct (cprog c).
  - specialize (P1 eq_refl). nia.
  - nia.
Qed.

Lemma bal_step p p' n :
  (enters (pevents p') <= enters (pevents p) + n)%nat -> (pot p' < pot p)%nat ->
  (bal p' + A <= bal p + n)%nat.
Proof. unfold bal. intros. assert (A * (pot p' + 1) <= A * pot p)%nat by (apply Nat.mul_le_mono_l; lia). lia. Qed.

Lemma p_nth_bal n p k p' :
  bounded p -> p_nth n p = Ok (k, p') -> bounded p' /\ (bal p' + A <= bal p)%nat.
Proof.
  intros B H. pose proof H as H'. apply p_nth_pot in H as [B1 L1]; auto.
  apply p_nth_did in H' as [D _]. split; auto.
  rewrite (plus_n_O (bal p)). apply bal_step; auto. rewrite (did_ev _ _ _ _ D). simpl. lia.
Qed.

Lemma exec_bal fuel reg s p g p' :
  bounded p -> cost_ok s = true -> exec body fuel reg s p = Ok (g, p') ->
  bounded p' /\ (bal p' + (if refund s then A else 0) <= bal p + cost s)%nat.
Proof.
  revert reg s p g p'. induction fuel as [|n IHn]; [discriminate|].
  intros reg s; revert reg; induction s; intros reg p g p' B CO H; simpl refund; simpl cost;
    simpl in CO.
  - rewrite exec_skip in H. inversion H; subst. split; auto; lia.
  - apply andb_true_iff in CO as [CO1 CO2].
    rewrite exec_seq in H. apply bind_ok in H as [[g1 p1] [H1 H2]].
    pose proof H1 as H1'. apply IHs1 in H1 as (B1 & L1); auto. destruct g1.
    + apply IHs2 in H2 as (B2 & L2); auto. split; auto.
      destruct (refund s1), (nb s1), (refund s2); simpl in *; lia.
    + inversion H2; subst. split; auto. destruct (nb s1) eqn:N1.
      * apply exec_nb in H1'; auto. discriminate.
      * simpl. rewrite orb_false_r. lia.
  - rewrite exec_do in H. apply bind_ok in H as [[b q] [H1 H2]]. inversion H2; subst.
    apply eval_bal in H1 as [? ?]; auto. split; auto; lia.
  - rewrite exec_expect in H. apply bind_ok in H as [q [H1 H2]]. inversion H2; subst.
    pose proof H1 as H1'. apply p_expect_pot in H1 as [? ?]; auto. split; auto.
    apply bal_step; auto. unfold p_expect in H1'.
    apply bind_ok in H1' as [[b q] [X1 X2]]. apply p_consume_did in X1 as [cs [X1 D]].
    apply ceval_enters in X1.
    assert (enters (pevents q) = enters (pevents p)).
    { rewrite (did_ev _ _ _ _ D), enters_app, enters_rev. lia. }
    destruct b.
    + inversion X2; subst. lia.
    + apply bind_ok in X2 as [[k q2] [X2 X3]]. apply p_nth_did in X2 as [D2 _].
      apply p_error_did in X3 as (_ & _ & t0 & D3 & _).
      rewrite (did_ev _ _ _ _ D3), (did_ev _ _ _ _ D2). simpl. lia.
  - rewrite exec_advance in H. apply bind_ok in H as [q [H1 H2]]. inversion H2; subst.
    pose proof H1 as H1'. apply p_advance_pot in H1 as [? ?]; auto. split; auto.
    apply bal_step; auto. apply p_advance_did in H1' as [x [_ D]].
    rewrite (did_ev _ _ _ _ D). simpl. unfold enters. simpl. lia.
  - rewrite exec_adverr in H. apply bind_ok in H as [[k q] [H1 H2]].
    apply bind_ok in H2 as [q2 [H2 H3]]. inversion H3; subst.
    apply p_nth_bal in H1 as [B1 L1]; auto.
    pose proof H2 as H2'. apply p_adverr_pot in H2 as [B2 L2]; auto. split; auto.
    assert (bal p' + A <= bal q + 1)%nat; [|lia].
    apply bal_step; auto. apply p_adverr_did in H2' as [x [_ D]].
    rewrite (did_ev _ _ _ _ D). simpl. unfold enters. simpl. lia.
  - rewrite exec_call in H. destruct (p_enter p) as [m q] eqn:E.
    apply bind_ok in H as [[g1 q1] [H1 H2]]. inversion H2; subst.
    pose proof (call_enters _ _ _ _ _ _ _ E H1) as CE.
    assert (bounded q /\ bal q = S (bal p)) as [Bq Lq].
    { inversion E; subst; split; auto. }
    apply IHn in H1 as (B1 & L1); auto.
    split; [exact B1|]. rewrite <- plus_n_O.
    assert (bal (p_exit m k q1) = bal q1) as ->.
    { unfold bal. rewrite CE. reflexivity. }
    specialize (Hck k). destruct (refund (body k)); lia.
  - apply andb_true_iff in CO as [CO1 CO2].
    rewrite exec_if in H. apply bind_ok in H as [[b q] [H1 H2]].
    apply eval_bal in H1 as (B1 & L1); auto. destruct b.
    + apply IHs1 in H2 as (B2 & L2); auto. split; auto.
      destruct (cprog c), (refund s1), (refund s2); simpl in *; lia.
    + apply IHs2 in H2 as (B2 & L2); auto. split; auto.
      destruct (cprog c), (refund s1), (refund s2); simpl in *; lia.
  - apply andb_true_iff in CO as [CO CO3]. apply andb_true_iff in CO as [CO1 CO2].
    rewrite exec_while in H. apply bind_ok in H as [[b q] [H1 H2]].
    apply eval_bal in H1 as (B1 & L1); auto. destruct b.
    + apply bind_ok in H2 as [[g1 q1] [H2 H3]]. apply IHs in H2 as (B2 & L2); auto.
      apply Nat.leb_le in CO2.
      destruct g1.
      * apply IHn in H3 as (B3 & L3); auto.
        { simpl in L3. split; auto. destruct (cprog c), (refund s); simpl in *; try discriminate; lia. }
        { simpl. rewrite CO1, CO3. apply Nat.leb_le in CO2. rewrite CO2. reflexivity. }
      * inversion H3; subst. split; auto. destruct (cprog c), (refund s); simpl in *; lia.
    + inversion H2; subst. split; auto. lia.
  - rewrite exec_let in H. apply bind_ok in H as [[k q] [H1 H2]].
    apply p_nth_bal in H1 as [B1 L1]; auto. apply IHs in H2 as (B2 & L2); auto.
    split; auto. lia.
  - rewrite exec_break in H. inversion H; subst. split; auto; lia.
Qed.
End Cost.

(** Every rule of the grammar pays for its calls with its own lookups, at three calls each. *)
Definition ck_look (l : list nat) (k : skind) : nat := nth (N.to_nat (skind_code k)) l O.
Definition ck_next (l : list nat) : list nat :=
  map (fun k => S (cost (ck_look l) (body k)) - if refund (body k) then 3 else 0)%nat all_skinds.
Definition ck_list : list nat := Eval vm_compute in Nat.iter 10 ck_next [].
Definition ck_tab : skind -> nat := ck_look ck_list.

Lemma ck_ok k : (S (cost ck_tab (body k)) <= ck_tab k + if refund (body k) then 3 else 0)%nat.
Proof. destruct k; vm_compute; lia. Qed.
Lemma body_cost_ok k : cost_ok 3 ck_tab (body k) = true.
Proof. destruct k; vm_compute; reflexivity. Qed.
Lemma ck_small k : (ck_tab k <= 3)%nat.
Proof. destruct k; vm_compute; lia. Qed.

Lemma parse_events_enters limit fuel ts k evs er :
  parse_events_with limit fuel ts k = Ok (evs, er) ->
  (enters evs <= 3 * (length ts + 1) * (N.to_nat limit + 1))%nat.
Proof.
  intro H.
  assert (bind (exec body fuel TEOF (SCall k) (parser_with limit ts))
            (fun x => match x with (_, p) => Ok (rev (pevents p), rev (perrs p)) end) = Ok (evs, er))
    as E by (destruct k; (discriminate H || exact H)).
  apply bind_ok in E as [[g p] [E1 E2]]. inversion E2; subst. rewrite enters_rev.
  apply (exec_bal 3 ck_tab body ck_ok body_cost_ok) in E1 as [_ E1].
  - unfold bal in E1. rewrite pot_new in E1. pose proof (ck_small k). cbn [refund cost] in E1.
    change (enters (pevents (parser_with limit ts))) with O in E1.
    rewrite !Nat.mul_add_distr_l, !Nat.mul_add_distr_r in *. nia.
  - lia.
  - unfold bounded. simpl. lia.
  - reflexivity.
Qed.
