(** The syntax errors of a run and the nodes of kind [Error] it produces. *)
From Verif Require Import ProofBase Tokens Syntax Lexer ParserCore Grammar Tree SpecGrammar SpecRecover ParserSem
  ParserTree ParserFacts.

Lemma kind_ahead_at rest n : kind_ahead rest n = kind_at rest n.
Proof.
  unfold kind_ahead, kind_at. revert n. induction rest as [|x r IH]; intros [|n]; try reflexivity.
  cbn [map nth nth_error]. apply IH.
Qed.

Lemma set_aside_node k cs : k <> KError -> set_aside (CTree k cs) = flat_map set_aside cs.
Proof. destruct k; try reflexivity. intro N. contradiction N; reflexivity. Qed.
Definition asides (cs : list child) : list (list child) := flat_map set_aside cs.
Definition lone (x : token) : list child := [CTok x].

Lemma present_app {A} (a b : list (option A)) : present (a ++ b) = present a ++ present b.
Proof. induction a as [|[x|] a IH]; cbn [app present]; rewrite ?IH; reflexivity. Qed.

(** Only the complaints of the table occur; [Error] is not a rule of the grammar. *)
Fixpoint tame (s : stmt) : bool :=
  match s with
  | SAdvErr pre n post => String.eqb pre "unexpected token '" &&
      existsb (fun m => Nat.eqb (fst m) n && String.eqb (snd m) post) misfits
  | SCall KError => false
  | SExpect TEOF => false
  | SSeq a b | SIf _ a b => tame a && tame b
  | SWhile _ a | SLet _ a => tame a
  | _ => true
  end.

Definition tells (p p' : pstate) (cs : list child) : Prop :=
  exists er sk, did p p' cs er /\ Forall2 (about (ptoks p)) (rev er) sk /\
    asides cs = map lone (present sk).
Definition within (p : pstate) : Prop := exists pre, ptoks p = pre ++ prest p.

Lemma tells_within p p' cs : tells p p' cs -> within p -> within p'.
Proof.
  intros (er & sk & D & _) (pre & E). exists (pre ++ yield cs).
  rewrite (did_toks _ _ _ _ D), E, (did_rest _ _ _ _ D), app_assoc. reflexivity.
Qed.
Lemma tells_trans p p1 p2 cs1 cs2 : tells p p1 cs1 -> tells p1 p2 cs2 -> tells p p2 (cs1 ++ cs2).
Proof.
  intros (e1 & s1 & D1 & F1 & A1) (e2 & s2 & D2 & F2 & A2). exists (e2 ++ e1), (s1 ++ s2).
  split; [exact (did_trans _ _ _ _ _ _ _ D1 D2)|]. split.
  - rewrite rev_app_distr. apply Forall2_app; auto. rewrite <- (did_toks _ _ _ _ D1). exact F2.
  - unfold asides in *. rewrite flat_map_app, A1, A2, present_app, map_app. reflexivity.
Qed.
Lemma tells_quiet p p' cs : did p p' cs [] -> asides cs = [] -> tells p p' cs.
Proof. intros D A. exists [], []. repeat split; auto; try apply D. constructor. Qed.

Lemma ceval_asides reg c ts b cs r : ceval reg c ts = (b, cs, r) -> asides cs = [].
Proof.
  unfold asides. revert ts b cs r; induction c as [n l|l|t| |c IHc|c1 IHc1 c2 IHc2|c1 IHc1 c2 IHc2];
    intros ts b0 cs r H; simpl in H; try (inversion H; subst; reflexivity).
  - destruct ts as [|x l]; [inversion H; reflexivity|].
    destruct (tkind_eqb (tkind_of x) t); inversion H; reflexivity.
  - destruct (ceval reg c ts) as [[x l] r1] eqn:E. inversion H; subst; eauto.
  - destruct (ceval reg c1 ts) as [[x l] r1] eqn:E. apply IHc1 in E. destruct x.
    + destruct (ceval reg c2 r1) as [[y l2] r2] eqn:E2. apply IHc2 in E2.
      inversion H; subst. rewrite flat_map_app, E, E2. reflexivity.
    + inversion H; subst. exact E.
  - destruct (ceval reg c1 ts) as [[x l] r1] eqn:E. apply IHc1 in E. destruct x.
    + inversion H; subst. exact E.
    + destruct (ceval reg c2 r1) as [[y l2] r2] eqn:E2. apply IHc2 in E2.
      inversion H; subst. rewrite flat_map_app, E, E2. reflexivity.
Qed.
Lemma eval_tells reg c p b p' : eval reg c p = Ok (b, p') -> exists cs, tells p p' cs.
Proof.
  intro H. apply eval_did in H as (cs & C & D). exists cs. apply tells_quiet; auto.
  eapply ceval_asides; eauto.
Qed.
Lemma nth_tells n p k p' : p_nth n p = Ok (k, p') ->
  tells p p' [] /\ k = kind_ahead (prest p) n /\ prest p' = prest p.
Proof.
  intro H. apply p_nth_did in H as (D & K & R). rewrite kind_ahead_at. split; auto.
  apply tells_quiet; auto.
Qed.

Section Run.
Variable body : skind -> stmt.
Hypothesis Htame : forall k, tame (body k) = true.

Lemma exec_tells fuel reg s p g p' :
  exec body fuel reg s p = Ok (g, p') -> tame s = true -> within p -> exists cs, tells p p' cs.
Proof.
  revert reg s p g p'. induction fuel as [|n IHn]; [discriminate|].
  intros reg s; revert reg; induction s as [|a IHa b IHb|c|t| |pre m post|k|c a IHa b IHb|c a IHa|m a IHa|];
    intros reg p g p' H T W.
  - rewrite exec_skip in H. inversion H; subst. exists []. apply tells_quiet; auto. apply did_refl.
  - rewrite exec_seq in H. apply bind_ok in H as [[g1 p1] [H1 H2]].
    cbn [tame] in T. apply andb_prop in T as [Ta Tb].
    apply IHa in H1 as (cs1 & D1); auto. destruct g1.
    + apply IHb in H2 as (cs2 & D2); auto; [|eapply tells_within; eauto].
      exists (cs1 ++ cs2). eapply tells_trans; eauto.
    + inversion H2; subst. eauto.
  - rewrite exec_do in H. apply bind_ok in H as [[b q] [H1 H2]]. inversion H2; subst.
    eapply eval_tells; eauto.
  - rewrite exec_expect in H. apply bind_ok in H as [q [H1 H2]]. inversion H2; subst.
    unfold p_expect in H1. apply bind_ok in H1 as [[b q] [H1 H3]].
    apply p_consume_did in H1 as [cs [H1 D]]. pose proof (ceval_asides _ _ _ _ _ _ H1) as A.
    destruct b.
    + inversion H3; subst. exists cs. apply tells_quiet; auto.
    + apply bind_ok in H3 as [[k q2] [H3 H4]]. apply nth_tells in H3 as (D2 & K & R).
      assert (cs = [] /\ prest q = prest p /\ t <> kind_ahead (prest p) 0) as (-> & R1 & N).
      { rewrite kind_ahead_at, kind_at_0. simpl in H1. destruct (prest p) as [|x r].
        - inversion H1; subst. repeat split; auto. intro Z; subst t. discriminate.
        - destruct (tkind_eqb (tkind_of x) t) eqn:E; inversion H1; subst. repeat split; auto.
          intro Z. subst t. rewrite (proj2 (tkind_eqb_eq _ _) eq_refl) in E. discriminate. }
      apply p_error_did in H4 as (_ & _ & x & D3 & X).
      exists ([] ++ [] ++ []). eapply tells_trans; [apply tells_quiet; eauto|].
      eapply tells_trans; [exact D2|].
      eexists. exists [None]. split; [exact D3|]. split; [|reflexivity].
      cbn [rev app]. constructor; [|constructor].
      assert (ptoks q2 = ptoks p) as ET.
      { destruct D2 as (? & ? & D2 & _). rewrite (did_toks _ _ _ _ D2). apply (did_toks _ _ _ _ D). }
      rewrite ET in *. destruct W as [before W]. rewrite K, R1.
      apply about_missing with (before := before); auto. rewrite <- R1, <- R. exact X.
  - rewrite exec_advance in H. apply bind_ok in H as [q [H1 H2]]. inversion H2; subst.
    apply p_advance_did in H1 as [x [X D]]. exists [CTok x]. apply tells_quiet; auto.
  - rewrite exec_adverr in H. apply bind_ok in H as [[k q] [H1 H2]].
    apply bind_ok in H2 as [q2 [H2 H3]]. inversion H3; subst.
    apply nth_tells in H1 as (D & K & R). apply p_adverr_did in H2 as [x [X D2]].
    exists ([] ++ [CTree KError [CTok x]]). eapply tells_trans; [exact D|].
    eexists. exists [Some x]. split; [exact D2|]. split; [|reflexivity].
    cbn [rev app]. constructor; [|constructor].
    destruct D as (? & ? & D & _). rewrite (did_toks _ _ _ _ D). destruct W as [before W].
    cbn [tame] in T. apply andb_prop in T as [T1 T2]. apply String.eqb_eq in T1. subst pre.
    apply existsb_exists in T2 as ([m' post'] & I & T2). cbn [fst snd] in T2.
    apply andb_prop in T2 as [T2 T3]. apply Nat.eqb_eq in T2. apply String.eqb_eq in T3. subst m' post'.
    rewrite R in X. rewrite K, X. apply about_misfit with (before := before); auto. rewrite W, X. reflexivity.
  - rewrite exec_call in H. destruct (p_enter p) as [m q] eqn:E.
    apply bind_ok in H as [[g1 q1] [H1 H2]]. inversion H2; subst.
    assert (within q /\ ptoks q = ptoks p) as [Wq Tq].
    { unfold p_enter in E. inversion E; subst. split; [exact W|reflexivity]. }
    apply IHn in H1 as (cs & er & sk & D & F & A); auto.
    exists [CTree k cs], er, sk. split; [exact (enter_exit_did _ _ _ _ k _ _ E D)|].
    split; [rewrite <- Tq; exact F|]. unfold asides. cbn [flat_map]. rewrite app_nil_r.
    rewrite set_aside_node; [exact A|]. intro Z. subst k. discriminate.
  - rewrite exec_if in H. apply bind_ok in H as [[b' q] [H1 H2]].
    cbn [tame] in T. apply andb_prop in T as [Ta Tb].
    apply eval_tells in H1 as [cs D]. pose proof (tells_within _ _ _ D W) as Wq.
    assert (exists cs, tells q p' cs) as (cs2 & D2).
    { destruct b'; [eapply IHa|eapply IHb]; eauto. }
    exists (cs ++ cs2). eapply tells_trans; eauto.
  - rewrite exec_while in H. apply bind_ok in H as [[b q] [H1 H2]].
    apply eval_tells in H1 as [cs D]. pose proof (tells_within _ _ _ D W) as Wq. destruct b.
    + apply bind_ok in H2 as [[g1 q1] [H2 H3]]. apply IHa in H2 as (cs2 & D2); auto.
      pose proof (tells_within _ _ _ D2 Wq) as Wq1. destruct g1.
      * apply IHn in H3 as (cs3 & D3); auto.
        exists (cs ++ cs2 ++ cs3). eapply tells_trans; [exact D|]. eapply tells_trans; eauto.
      * inversion H3; subst. exists (cs ++ cs2). eapply tells_trans; eauto.
    + inversion H2; subst. eauto.
  - rewrite exec_let in H. apply bind_ok in H as [[k q] [H1 H2]].
    apply nth_tells in H1 as (D & _ & _). pose proof (tells_within _ _ _ D W) as Wq.
    apply IHa in H2 as (cs & D2); auto.
    exists ([] ++ cs). eapply tells_trans; eauto.
  - rewrite exec_break in H. inversion H; subst. exists []. apply tells_quiet; auto. apply did_refl.
Qed.
End Run.

(** Pruning keeps the tokens set aside. *)
Lemma prune_asides c : forall l, set_aside c = map lone l -> set_aside (prune c) = map lone l.
Proof.
  induction c as [x|k cs IH] using child_ind2; intros l E; [exact E|]. rewrite prune_tree.
  assert (k = KError \/ k <> KError) as [->|N] by (destruct k; (left; reflexivity) || (right; discriminate)).
  - cbn [set_aside] in E. destruct l as [|x [|y l]]; try discriminate. inversion E; subst cs. reflexivity.
  - rewrite set_aside_node in * by exact N. revert l E. induction IH as [|c cs H _ IHcs]; intros l E; [exact E|].
    cbn [flat_map] in E. symmetry in E. apply map_eq_app in E as (l1 & l2 & -> & E1 & E2).
    symmetry in E1, E2. apply H in E1. apply IHcs in E2. rewrite map_app, <- E1, <- E2.
    change (prunes (c :: cs)) with (filter (fun c => negb (empty_tree c)) (prune c :: map prune cs)).
    cbn [filter]. destruct (empty_tree (prune c)) eqn:Z; [|reflexivity]. cbn [negb].
    destruct (prune c) as [x|k' [|d m]] eqn:P; try discriminate.
    assert (k' = KError \/ k' <> KError) as [->|N'] by (destruct k'; (left; reflexivity) || (right; discriminate)).
    + exfalso. cbn [set_aside] in E1. destruct l1 as [|y [|? ?]]; discriminate.
    + rewrite set_aside_node by exact N'. reflexivity.
Qed.

Lemma body_tame k : tame (body k) = true.
Proof. destruct k; vm_compute; reflexivity. Qed.

Lemma parse_tells ts k evs er : parse_events ts k = Ok (evs, er) ->
  exists cs rest sk, evs = flat (CTree k cs) /\ ts = yield cs ++ rest /\
    Forall2 (about ts) er sk /\ set_aside (CTree k cs) = map lone (present sk).
Proof.
  intro H. unfold parse_events in H. pose proof (parse_events_entry _ _ _ _ _ H) as NE.
  rewrite parse_events_unfold in H by auto.
  apply bind_ok in H as [[g p] [H1 H2]]. inversion H2; subst. clear H2.
  set (fuel := parse_fuel ts) in *. destruct fuel as [|f]; [discriminate|]. rewrite exec_call in H1.
  destruct (p_enter (parser_with 100 ts)) as [m q] eqn:E.
  apply bind_ok in H1 as [[g1 q1] [H1 H3]]. inversion H3; subst.
  assert (within q /\ ptoks q = ts /\ perrs q = [] /\ pevents (parser_with 100 ts) = [] /\ prest q = ts) as (W & T & PE & EV & PR).
  { unfold p_enter in E. inversion E; subst. cbn. repeat split. exists []. reflexivity. }
  apply (exec_tells body body_tame) in H1 as (cs & er & sk & D & F & A); auto using body_tame.
  pose proof (enter_exit_did _ _ _ _ k _ _ E D) as D2.
  exists cs, (prest q1), sk. repeat split.
  - rewrite (did_ev _ _ _ _ D2), EV, app_nil_r, rev_involutive. unfold flats. cbn [flat_map]. apply app_nil_r.
  - pose proof (did_rest _ _ _ _ D) as R. rewrite PR in R. exact R.
  - change (perrs (p_exit m k q1)) with (perrs q1). rewrite (did_err _ _ _ _ D), PE, app_nil_r, <- T. exact F.
  - rewrite set_aside_node by exact NE. exact A.
Qed.
