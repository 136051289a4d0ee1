(** The depth of the recursion is linear in the number of tokens. *)
From Verif Require Import ProofBase Tokens Syntax Lexer SpecLex ParserCore Grammar Tree ParserSem ParserFuel SpecGrammar Regex
  ParserGrammar ParserTree ParserFacts SpecDepth.

(** ** Trees and events *)
Lemma nesting_least evs : forall o, (o <= nesting o evs)%nat.
Proof. induction evs as [|[k| |] evs IH]; intro o; cbn [nesting]; auto; [specialize (IH (S o))|]; lia. Qed.
Lemma nesting_flat c : forall o r, nesting o (flat c ++ r) = Nat.max (o + depth c) (nesting o r).
Proof.
  pose proof nesting_least as GE.
  induction c as [x|k cs IH] using child_ind2; intros o r; cbn [flat depth].
  - cbn [app nesting]. specialize (GE r o). lia.
  - cbn [app nesting]. rewrite <- app_assoc.
    assert (forall o r, nesting o (flat_map flat cs ++ r) = Nat.max (o + list_max (map depth cs)) (nesting o r)) as K.
    { induction IH as [|c cs H F IH]; intros o' r'; cbn [flat_map map list_max fold_right app].
      - specialize (GE r' o'). lia.
      - rewrite <- app_assoc, H, IH. unfold list_max. lia. }
    rewrite K. cbn [app nesting]. replace (S o - 1)%nat with o by lia. specialize (GE r o). lia.
Qed.
Lemma nesting_tree c : nesting 0 (flat c) = depth c.
Proof. rewrite <- (app_nil_r (flat c)), nesting_flat. cbn. lia. Qed.

Lemma depth_prune c : (depth (prune c) <= depth c)%nat.
Proof.
  induction c as [x|k cs IH] using child_ind2; [reflexivity|]. cbn [prune depth]. apply le_n_S.
  induction IH as [|c cs H F IH]; [reflexivity|].
  change (list_max (map depth (c :: cs))) with (Nat.max (depth c) (list_max (map depth cs))).
  destruct (prune c) as [x|k' [|d ds]] eqn:E; try lia;
    match goal with |- (list_max (map depth (?a :: ?b)) <= _)%nat => change (list_max (map depth (a :: b))) with (Nat.max (depth a) (list_max (map depth b))) end; lia.
Qed.

(** ** All runs *)
Lemma depths_app a b : list_max (map depth (a ++ b)) = Nat.max (list_max (map depth a)) (list_max (map depth b)).
Proof. rewrite map_app. apply list_max_app. Qed.
Lemma ceval_flat reg c : forall ts b cs r, ceval reg c ts = (b, cs, r) -> list_max (map depth cs) = 0%nat.
Proof.
  induction c as [n l|l|t| |c IHc|c1 IHc1 c2 IHc2|c1 IHc1 c2 IHc2]; intros ts b cs r H; cbn [ceval] in H; try (inversion H; subst; reflexivity).
  - destruct ts as [|x ts]; [inversion H; reflexivity|]. destruct (tkind_eqb _ _); inversion H; reflexivity.
  - destruct (ceval reg c ts) as [[b1 cs1] r1] eqn:E. inversion H; subst. eauto.
  - destruct (ceval reg c1 ts) as [[b1 cs1] r1] eqn:E. destruct b1.
    + destruct (ceval reg c2 r1) as [[b2 cs2] r2] eqn:E2. inversion H; subst. rewrite depths_app, (IHc1 _ _ _ _ E), (IHc2 _ _ _ _ E2). reflexivity.
    + inversion H; subst. eauto.
  - destruct (ceval reg c1 ts) as [[b1 cs1] r1] eqn:E. destruct b1.
    + inversion H; subst. eauto.
    + destruct (ceval reg c2 r1) as [[b2 cs2] r2] eqn:E2. inversion H; subst. rewrite depths_app, (IHc1 _ _ _ _ E), (IHc2 _ _ _ _ E2). reflexivity.
Qed.
Definition grew (n : nat) (p p' : pstate) : Prop := exists cs er, did p p' cs er /\ (list_max (map depth cs) <= n)%nat.
Lemma grew_trans n p p1 p2 : grew n p p1 -> grew n p1 p2 -> grew n p p2.
Proof.
  intros (cs & er & D & L) (cs' & er' & D' & L'). exists (cs ++ cs'), (er' ++ er). split; [exact (did_trans _ _ _ _ _ _ _ D D')|]. rewrite depths_app. lia.
Qed.
Lemma grew_did n p p' er : did p p' [] er -> grew n p p'.
Proof. intro D. exists [], er. split; [exact D|]. cbn. lia. Qed.
Lemma grew_eval n reg c p b p' : eval reg c p = Ok (b, p') -> grew n p p'.
Proof. intro H. apply eval_did in H as (cs & E & D). exists cs, []. split; [exact D|]. rewrite (ceval_flat _ _ _ _ _ _ E). lia. Qed.
Lemma grew_consume n t p b p' : p_consume t p = Ok (b, p') -> grew n p p'.
Proof. intro H. apply p_consume_did in H as (cs & E & D). exists cs, []. split; [exact D|]. rewrite (ceval_flat _ _ _ _ _ _ E). lia. Qed.
Lemma exec_grew fuel : forall reg s p g p', exec body fuel reg s p = Ok (g, p') -> grew fuel p p'.
Proof.
  induction fuel as [|n IHn]; [discriminate|].
  assert (forall p p', grew n p p' -> grew (S n) p p') as UP by (intros p p' (cs & er & D & L); exists cs, er; split; [exact D|lia]).
  intros reg s; revert reg; induction s; intros reg p g p' H.
  - rewrite exec_skip in H. inversion H; subst. eapply grew_did, did_refl.
  - rewrite exec_seq in H. apply bind_ok in H as [[g1 p1] [H1 H2]]. apply IHs1 in H1. destruct g1.
    + apply IHs2 in H2. eapply grew_trans; eauto.
    + inversion H2; subst. exact H1.
  - rewrite exec_do in H. apply bind_ok in H as [[b q] [H1 H2]]. inversion H2; subst. eapply grew_eval; eauto.
  - rewrite exec_expect in H. apply bind_ok in H as [q [H1 H2]]. inversion H2; subst.
    unfold p_expect in H1. apply bind_ok in H1 as [[b q] [H1 H3]]. apply (grew_consume (S n)) in H1. destruct b.
    + inversion H3; subst. exact H1.
    + apply bind_ok in H3 as [[k q2] [H3 H4]]. apply p_nth_did in H3 as [D2 _]. apply p_error_did in H4 as (_ & _ & t0 & D3 & _).
      eapply grew_trans; [exact H1|]. eapply grew_trans; [eapply grew_did, D2|eapply grew_did, D3].
  - rewrite exec_advance in H. apply bind_ok in H as [q [H1 H2]]. inversion H2; subst.
    apply p_advance_did in H1 as [x [X D]]. exists [CTok x], []. split; [exact D|]. cbn. lia.
  - rewrite exec_adverr in H. apply bind_ok in H as [[k q] [H1 H2]]. apply bind_ok in H2 as [q2 [H2 H3]]. inversion H3; subst.
    apply p_nth_did in H1 as [D _]. apply p_adverr_did in H2 as [x [X D2]].
    eapply grew_trans; [eapply grew_did, D|]. eexists. eexists. split; [exact D2|]. cbn. lia.
  - rewrite exec_call in H. destruct (p_enter p) as [m q] eqn:E. apply bind_ok in H as [[g1 q1] [H1 H2]]. inversion H2; subst.
    apply IHn in H1 as (cs & er & D & L). pose proof (enter_exit_did _ _ _ _ k _ _ E D) as D2.
    exists [CTree k cs], er. split; [exact D2|]. cbn [map depth]. change (list_max [S (list_max (map depth cs))]) with (Nat.max (S (list_max (map depth cs))) 0). lia.
  - rewrite exec_if in H. apply bind_ok in H as [[b q] [H1 H2]]. apply (grew_eval (S n)) in H1.
    eapply grew_trans; [exact H1|]. destruct b; eauto.
  - rewrite exec_while in H. apply bind_ok in H as [[b q] [H1 H2]]. apply (grew_eval (S n)) in H1. eapply grew_trans; [exact H1|]. destruct b.
    + apply bind_ok in H2 as [[g1 q1] [H2 H3]]. apply IHs in H2. destruct g1.
      * apply IHn, UP in H3. eapply grew_trans; eauto.
      * inversion H3; subst. exact H2.
    + inversion H2; subst. eapply grew_did, did_refl.
  - rewrite exec_let in H. apply bind_ok in H as [[k q] [H1 H2]]. apply p_nth_did in H1 as [D [-> R]]. apply IHs in H2.
    eapply grew_trans; [eapply grew_did, D|exact H2].
  - rewrite exec_break in H. inversion H; subst. eapply grew_did, did_refl.
Qed.

Theorem run_depth ts k evs errs : parse_events ts k = Ok (evs, errs) -> (nesting 0 evs <= 505 * (length ts + 1))%nat.
Proof.
  intro H. assert (k <> KError) as NE by (intros ->; discriminate).
  assert (parse_events_with 100 (enough 100 (length ts)) ts k = Ok (evs, errs)) as H1.
  { pose proof (parse_events_with_fuel 100 _ ts k (le_n _)) as NF. unfold parse_events in H.
    rewrite (parse_events_with_mono 100 _ (parse_fuel ts) ts k _ eq_refl NF (parse_fuel_enough ts)) in H. exact H. }
  rewrite parse_unfold in H1 by exact NE. apply bind_ok in H1 as [[g p] [H1 H2]]. injection H2 as <- _.
  apply exec_grew in H1 as (cs & er & D & L). rewrite (did_ev _ _ _ _ D). cbn [parser_with pevents]. rewrite app_nil_r, rev_involutive.
  assert (nesting 0 (flats cs) = list_max (map depth cs)) as ->.
  { clear. assert (forall o r, nesting o (flats cs ++ r) = Nat.max (o + list_max (map depth cs)) (nesting o r)) as K.
    { induction cs as [|c cs IH]; intros o r; cbn [flats flat_map app map].
      - change (list_max []) with 0%nat. pose proof (nesting_least r o). lia.
      - rewrite <- app_assoc, nesting_flat. fold (flats cs). rewrite IH. unfold list_max. cbn [fold_right]. lia. }
    specialize (K 0%nat []). rewrite app_nil_r in K. rewrite K. cbn. lia. }
  unfold enough in L. change (N.to_nat 100 + 1)%nat with 101%nat in L. lia.
Qed.

(** ** Trees of the grammar *)
(** Rules that may cover no token. *)
Definition voids : list skind := [KStoredDefinition; KBasePrefix; KComposition; KElementList; KTypePrefix; KDescription; KDescriptionString; KOutputExpressionList].
Definition void_sym (x : sym) : bool := match x with Term _ => false | Rule k => existsb (skind_eqb k) voids end.
Fixpoint voidable (r : rx) : bool :=
  match r with
  | Void => false | Eps | Star _ => true
  | Sy x => void_sym x
  | Cat a b => voidable a && voidable b
  | Alt a b => voidable a || voidable b
  end.
Lemma voidable_word r w : lang r w -> forallb void_sym w = true -> voidable r = true.
Proof.
  induction 1; cbn [voidable forallb]; intro E; auto.
  - rewrite andb_true_r in E. exact E.
  - rewrite forallb_app in E. apply andb_true_iff in E as [E1 E2]. rewrite IHlang1, IHlang2 by assumption. reflexivity.
  - rewrite IHlang by assumption. reflexivity.
  - rewrite IHlang by assumption. apply orb_true_r.
Qed.
(** Rules that may cover everything a word covers. *)
Fixpoint units (r : rx) : list skind :=
  match r with
  | Void | Eps | Sy (Term _) => []
  | Sy (Rule k) => [k]
  | Cat a b => (if voidable b then units a else []) ++ (if voidable a then units b else [])
  | Alt a b => units a ++ units b
  | Star a => units a
  end.
Lemma units_word r w : lang r w -> forall u k v, w = u ++ Rule k :: v -> forallb void_sym u = true -> forallb void_sym v = true -> In k (units r).
Proof.
  assert (forall (a b u : list sym) x v, a ++ b = u ++ x :: v -> (exists m, a = u ++ x :: m /\ v = m ++ b) \/ (exists m, u = a ++ m /\ b = m ++ x :: v)) as SPLIT.
  { clear. induction a as [|y a IH]; intros b u x v E; cbn [app] in E; [right; exists u; auto|]. destruct u as [|z u]; cbn [app] in E; injection E as E1 E2.
    - left. exists a. subst. auto.
    - destruct (IH _ _ _ _ E2) as [(m & -> & ->)|(m & -> & ->)]; subst; [left|right]; exists m; auto. }
  induction 1 as [|x|a b wa wb LA IA LB IB|a b w L IL|a b w L IL|a|a wa wb LA IA LB IB]; intros u k v E FU FV; cbn [units].
  - destruct u; discriminate.
  - destruct u as [|y u]; [|destruct u; discriminate]. injection E as -> <-. left. reflexivity.
  - apply in_or_app. apply SPLIT in E as [(m & -> & ->)|(m & -> & ->)].
    + rewrite forallb_app in FV. apply andb_true_iff in FV as [F1 F2]. left. rewrite (voidable_word _ _ LB F2). eauto.
    + rewrite forallb_app in FU. apply andb_true_iff in FU as [F1 F2]. right. rewrite (voidable_word _ _ LA F1). eauto.
  - apply in_or_app. eauto.
  - apply in_or_app. eauto.
  - destruct u; discriminate.
  - apply SPLIT in E as [(m & -> & ->)|(m & -> & ->)].
    + rewrite forallb_app in FV. apply andb_true_iff in FV as [F1 F2]. eauto.
    + rewrite forallb_app in FU. apply andb_true_iff in FU as [F1 F2]. apply (IB m k v); auto.
Qed.

(** Ranks: longest chains of rules that cover the same tokens. *)
Fixpoint rank_of (n : nat) (k : skind) : nat :=
  match n with O => 0 | S n => list_max (map (fun k' => S (rank_of n k')) (units (production false k))) end.
Definition rank (k : skind) : nat := rank_of 20 k.
Lemma ranks_checked : forallb (fun k =>
  forallb (fun k' => Nat.ltb (rank k') (rank k)) (units (production false k)) && Nat.leb (rank k) 12 &&
  (void_sym (Rule k) || negb (voidable (production false k)))) all_skinds = true.
Proof. vm_compute. reflexivity. Qed.
Lemma rank_facts k : (forall k', In k' (units (production false k)) -> (rank k' < rank k)%nat) /\ (rank k <= 12)%nat /\ (voidable (production false k) = true -> void_sym (Rule k) = true).
Proof.
  pose proof ranks_checked as H. rewrite forallb_forall in H. specialize (H k (all_skinds_complete k)).
  apply andb_true_iff in H as [H H3]. apply andb_true_iff in H as [H1 H2]. rewrite forallb_forall in H1. apply Nat.leb_le in H2.
  split; [intros k' I; apply Nat.ltb_lt; auto|]. split; [exact H2|]. intro V. rewrite V, orb_false_r in H3. exact H3.
Qed.

Lemma empty_voids c : conforms false c -> leaves c = [] -> void_sym (sym_of c) = true.
Proof.
  induction c as [x|k cs IH] using child_ind2; intros C E; [discriminate|]. cbn [sym_of]. inversion C as [|? ? L F]; subst.
  apply (rank_facts k). apply (voidable_word _ _ L). cbn [leaves] in E. clear C L.
  induction IH as [|c cs H G IH]; [reflexivity|]. inversion F; subst. cbn [flat_map] in E. apply app_eq_nil in E as [E1 E2]. cbn [map forallb]. rewrite H, IH by assumption. reflexivity.
Qed.
Theorem tree_depth c : conforms false c -> (depth c <= 13 * length (leaves c) + match c with CTok _ => 0 | CTree k _ => S (rank k) end)%nat.
Proof.
  induction c as [x|k cs IH] using child_ind2; intro C; [cbn; lia|]. inversion C as [|? ? L F]; subst. cbn [depth].
  assert (list_max (map depth cs) <= 13 * length (leaves (CTree k cs)) + rank k)%nat as K; [|lia].
  apply list_max_le, Forall_forall. intros d I. apply in_map_iff in I as (c & <- & I). rewrite Forall_forall in IH, F. specialize (IH c I (F c I)).
  apply in_split in I as (u & v & ->). cbn [leaves]. rewrite flat_map_app. cbn [flat_map]. rewrite !app_length.
  destruct c as [x|k' ds]; [cbn [depth]; lia|]. destruct (rank_facts k) as (R1 & _ & _). destruct (rank_facts k') as (_ & R2 & _).
  destruct (Nat.eq_dec (length (flat_map leaves u) + length (flat_map leaves v)) 0) as [Z|Z]; [|lia].
  assert (rank k' < rank k)%nat; [|lia]. apply R1. apply (units_word _ _ L (map sym_of u) k' (map sym_of v)).
  - rewrite map_app. reflexivity.
  - apply forallb_forall. intros y I. apply in_map_iff in I as (c & <- & I). apply empty_voids; [apply F, in_or_app; auto|].
    apply in_split in I as (a & b & ->). rewrite flat_map_app in Z. cbn [flat_map] in Z. rewrite !app_length in Z. destruct (leaves c); [reflexivity|cbn in Z; lia].
  - apply forallb_forall. intros y I. apply in_map_iff in I as (c & <- & I). apply empty_voids; [apply F, in_or_app; right; right; auto|].
    apply in_split in I as (a & b & ->). rewrite (flat_map_app _ a) in Z. cbn [flat_map] in Z. rewrite !app_length in Z. destruct (leaves c); [reflexivity|cbn in Z; lia].
Qed.
