(** The parser accepts exactly the parsable trees, and each of them is found again. *)
From Verif Require Import ProofBase Tokens Syntax Lexer ParserCore Grammar Tree ParserSem
  ParserFuel ParserGuard ParserTree SpecGrammar Regex ParserGrammar SpecLanguage Looks Predict PredictOk Recognise.

(** * The tables *)
Definition first_closed : bool := forallb (fun k =>
  contained (openers (first_in first_tab k) (production false k)) (get first_tab k)) all_skinds.
Lemma first_closed_ok : first_closed = true.
Proof. vm_compute. reflexivity. Qed.
Lemma predicts_ok : forallb predicts all_skinds = true.
Proof. vm_compute. reflexivity. Qed.

(** * Completeness *)
Lemma conforms_kids k cs : conforms false (CTree k cs) ->
  lang (production false k) (syms cs) /\ Forall (conforms false) cs.
Proof. intro H; inversion H; subst; auto. Qed.
Lemma unbarred_kids k cs : unbarred (CTree k cs) -> Forall (allowed k) cs /\ Forall unbarred cs.
Proof. intro H; inversion H; subst; auto. Qed.

Definition starts (c : child) : Prop :=
  match c with CTok _ => True | CTree k _ => In (norm (kinds_of (leaves c))) (get first_tab k) end.

Lemma starts_opens k c : starts c -> allowed k c -> opens (first_in first_tab k) c.
Proof.
  unfold opens. destruct c as [x|k' cs]; [intros; left; reflexivity|].
  cbn [starts sym_of first_sym]. unfold allowed, first_in. intros S A.
  assert (forall ks, barred k k' = ks -> In (norm (kinds_of (leaves (CTree k' cs))))
    (filter (fun l => negb (hd_in ks l)) (get first_tab k'))) as H.
  { intros ks E. apply filter_In. split; auto. rewrite E in A.
    destruct (leaves (CTree k' cs)) as [|t l]; auto. cbn [kinds_of map norm hd_in].
    destruct (memk (tkind_of t) ks) eqn:M; auto. apply memk_in in M. contradiction. }
  destruct (barred k k') eqn:E; auto.
Qed.

Lemma all_starts c : conforms false c -> unbarred c -> starts c.
Proof.
  induction c as [x|k cs IH] using child_ind2; intros C U; [exact I|].
  apply conforms_kids in C as [L C]. apply unbarred_kids in U as [A U].
  pose proof (skind_all _ first_closed_ok k) as F. cbv beta in F.
  cbn [starts]. eapply contained_in; [exact F|]. change (leaves (CTree k cs)) with (yield cs).
  apply openers_ok; auto. rewrite Forall_forall in *. intros c I. apply starts_opens; auto.
Qed.

Lemma callable_in ft : forallb (predicts_in ft) all_skinds = true ->
  forall c, conforms false c -> unbarred c -> callable (get ft) c.
Proof.
  intro PO. induction c as [x|k cs IH] using child_ind2; intros C U; [exact I|].
  apply conforms_kids in C as [L C]. apply unbarred_kids in U as [A U].
  assert (Forall (good (first_in first_tab k) (get ft)) cs) as G.
  { rewrite Forall_forall in *. intros c I. split; auto.
    apply starts_opens; auto. apply all_starts; auto. }
  intros r F. pose proof (skind_all _ PO k) as P. unfold predicts_in in P.
  destruct (arun _ _ _ 0 (body k) _) as [[n b]|] eqn:E; [|discriminate].
  apply andb_true_iff in P as [P1 P2].
  destruct (run_ok _ _ _ r F (body k) TEOF 0%nat _ _ _ [] cs E) as (g & c1 & c2 & -> & O & I); auto.
  { exists (mkI (production false k) [] false false). split; [left; auto|].
    split; simpl; auto; discriminate. }
  assert (c2 = []) as ->.
  { destruct g; [eapply (finished_ok _ _ _ r F _ _ _ _ _ P1)|eapply (finished_ok _ _ _ r F _ _ _ _ _ P2)];
      try exact I; apply Forall_app in G as [_ G]; exact G. }
  rewrite app_nil_r in *. exists g. exact O.
Qed.
Definition all_callable := callable_in follow_tab predicts_ok.

Lemma okr_parse limit ts k g cs :
  okr body TEOF (body k) ts g cs [] -> k <> KError -> most <= limit ->
  exists n, forall m, (n <= m)%nat -> parse_events_with limit m ts k = Ok (flat (CTree k cs), []).
Proof.
  intros O NE LM. pose proof (gk_all gk_check_ok) as GA.
  apply (ok_call body TEOF) in O.
  assert (forall k,
    sok (sa gk_tab (body k)) = true /\ spre (sa gk_tab (body k)) <= fst (gk_tab k) /\
    (forall L ts L', meets (sN (sa gk_tab (body k))) L ts L' -> meets (snd (gk_tab k)) L ts L') /\
    (forall L ts L', meets (sB (sa gk_tab (body k))) L ts L' -> meets (snd (gk_tab k)) L ts L')) as GB.
  { intro k'. destruct (GA k') as (A & B & C & E & _). auto. }
  destruct (okr_exec body gk_tab GB _ _ _ _ _ _ O (parser_with limit ts)) as (p' & (n & E) & R & D' & _);
    auto.
  { cbn [sa spre]. destruct (GA k) as (_ & _ & _ & _ & X). cbn [plifes parser_with]. lia. }
  exists n. intros m F. rewrite parse_events_unfold, E by auto. cbn [bind]. f_equal. f_equal.
  - rewrite (did_ev _ _ _ _ D'). cbn [pevents parser_with]. rewrite app_nil_r, rev_involutive.
    unfold flats. cbn [flat_map]. apply app_nil_r.
  - rewrite (did_err _ _ _ _ D'). reflexivity.
Qed.

Lemma complete cs : parsable (CTree KStoredDefinition cs) ->
  parse_events (yield cs) KStoredDefinition = Ok (flat (CTree KStoredDefinition cs), []).
Proof.
  intros [C U]. pose proof (all_callable _ C U [] ltac:(left; reflexivity)) as [g O].
  rewrite app_nil_r in O.
  destruct (okr_parse 100 _ _ _ _ O ltac:(discriminate) ltac:(unfold most; lia)) as [n E].
  unfold parse_events.
  pose proof (parse_events_with_fuel 100 (parse_fuel (yield cs)) (yield cs) KStoredDefinition
    (parse_fuel_enough _)) as NF.
  rewrite <- (parse_events_with_mono _ _ (parse_fuel (yield cs) + n) _ _ _ eq_refl NF ltac:(lia)).
  apply E. lia.
Qed.

(** * Soundness: where the parser calls for an equation *)
Section Safe.
Variable bar : list tkind.
Fixpoint excludes (c : cond) : bool :=
  match c with
  | CNot (CNth O l) => subset bar l
  | CAnd a (CNot CEof) => excludes a
  | _ => false
  end.
Fixpoint safe (b : bool) (s : stmt) : bool :=
  match s with
  | SSeq x y => safe b x && safe false y
  | SIf c x y => safe (excludes c) x && safe false y
  | SWhile c x => safe (excludes c) x
  | SLet _ x => safe b x
  | SCall KEquation => b
  | _ => true
  end.
End Safe.
Lemma safe_ok : forallb (fun k => safe (barred k KEquation) false (body k)) all_skinds = true.
Proof. vm_compute. reflexivity. Qed.

Lemma excludes_ok bar reg c : excludes bar c = true -> forall ts cs r,
  ceval reg c ts = (true, cs, r) -> cs = [] /\ r = ts /\ ~ In (kind_at ts 0) bar.
Proof.
  induction c; simpl; intro H; try discriminate; intros ts cs r E.
  - destruct c; try discriminate. destruct n; try discriminate. simpl in E.
    destruct (memk (kind_at ts 0) ts0) eqn:M; inversion E; subst. split; auto. split; auto.
    intro I. apply (subset_in _ _ _ H) in I. apply memk_in in I. congruence.
  - destruct c2; try discriminate. destruct c2; try discriminate.
    destruct (ceval reg c1 ts) as [[x l] r1] eqn:F. destruct x; [|discriminate].
    destruct (IHc1 H _ _ _ F) as (-> & -> & N). simpl in E. inversion E; subst. auto.
Qed.

Lemma ceval_toks reg c : forall ts b cs r, ceval reg c ts = (b, cs, r) ->
  Forall unbarred cs /\ forall k, Forall (allowed k) cs.
Proof.
  induction c as [n l|l|t| |c IHc|c1 IHc1 c2 IHc2|c1 IHc1 c2 IHc2]; intros ts b0 cs r H; simpl in H;
    try (inversion H; subst; split; auto; fail).
  - destruct ts as [|x l]; [inversion H; auto|].
    destruct (tkind_eqb (tkind_of x) t); inversion H; subst; split; auto.
    + repeat constructor.
    + repeat constructor.
  - destruct (ceval reg c ts) as [[x l] r1] eqn:E. inversion H; subst; eauto.
  - destruct (ceval reg c1 ts) as [[x l] r1] eqn:E. destruct (IHc1 _ _ _ _ E) as [A B]. destruct x.
    + destruct (ceval reg c2 r1) as [[y l2] r2] eqn:E2. destruct (IHc2 _ _ _ _ E2) as [A2 B2].
      inversion H; subst. split; [|intro]; apply Forall_app; auto.
    + inversion H; subst. auto.
  - destruct (ceval reg c1 ts) as [[x l] r1] eqn:E. destruct (IHc1 _ _ _ _ E) as [A B]. destruct x.
    + inversion H; subst. auto.
    + destruct (ceval reg c2 r1) as [[y l2] r2] eqn:E2. destruct (IHc2 _ _ _ _ E2) as [A2 B2].
      inversion H; subst. split; [|intro]; apply Forall_app; auto.
Qed.

Lemma okr_unbarred reg s ts g cs r : okr body reg s ts g cs r ->
  Forall unbarred cs /\
  forall k b, safe (barred k KEquation) b s = true ->
    (b = true -> ~ In (kind_at ts 0) (barred k KEquation)) -> Forall (allowed k) cs.
Proof.
  induction 1; cbn [safe].
  - split; auto.
  - destruct IHokr1 as [A1 B1], IHokr2 as [A2 B2]. split; [apply Forall_app; auto|].
    intros k b0 S N. apply andb_true_iff in S as [S1 S2]. apply Forall_app. split; eauto.
    apply (B2 _ _ S2). discriminate.
  - destruct IHokr as [A B]. split; auto. intros k b0 S N. apply andb_true_iff in S as [S1 S2]. eauto.
  - destruct (ceval_toks _ _ _ _ _ _ H) as [A B]. auto.
  - split; repeat constructor.
  - split; repeat constructor.
  - destruct IHokr as [A B].
    assert (unbarred (CTree k cs)) as U.
    { constructor; auto. apply (B k false); [|discriminate]. exact (skind_all _ safe_ok k). }
    split; [constructor; auto|]. intros k' b S N. constructor; auto.
    unfold allowed. change (leaves (CTree k cs)) with (yield cs).
    apply okr_yield in H. destruct (yield cs) as [|t l] eqn:Y; auto.
    destruct k; try (intros []). cbn in S. subst b ts. specialize (N eq_refl). exact N.
  - destruct (ceval_toks _ _ _ _ _ _ H) as [A B]. destruct IHokr as [A2 B2].
    split; [apply Forall_app; auto|]. intros k b0 S N. apply andb_true_iff in S as [S1 S2].
    apply Forall_app. split; auto. destruct x.
    + apply (B2 _ _ S1). intro E. destruct (excludes_ok _ _ _ E _ _ _ H) as (_ & -> & M). auto.
    + apply (B2 _ _ S2). discriminate.
  - destruct (ceval_toks _ _ _ _ _ _ H) as [A B]. auto.
  - destruct (ceval_toks _ _ _ _ _ _ H) as [A B]. destruct IHokr as [A2 B2].
    split; [apply Forall_app; auto|]. intros k b0 S N.
    apply Forall_app. split; auto.
    apply (B2 _ _ S). intro E. destruct (excludes_ok _ _ _ E _ _ _ H) as (_ & -> & M). auto.
  - destruct (ceval_toks _ _ _ _ _ _ H) as [A B]. destruct IHokr1 as [A2 B2], IHokr2 as [A3 B3].
    split; [repeat (apply Forall_app; split; auto)|]. intros k b0 S N.
    apply Forall_app. split; auto. apply Forall_app. split.
    + apply (B2 _ _ S). intro E. destruct (excludes_ok _ _ _ E _ _ _ H) as (_ & -> & M). auto.
    + apply (B3 k false); auto. discriminate.
  - destruct IHokr as [A B]. split; auto.
  - split; auto.
Qed.

Lemma sound ts evs : parse_events ts KStoredDefinition = Ok (evs, []) ->
  exists cs, evs = flat (CTree KStoredDefinition cs) /\ ts = yield cs /\
    parsable (CTree KStoredDefinition cs).
Proof.
  intro H. unfold parse_events in H. apply parse_shape in H as (cs & rest & g & E & Y & R & O).
  rewrite (R eq_refl) in *. specialize (O eq_refl). rewrite app_nil_r in Y.
  exists cs. split; auto. split; auto. split; [eapply stored_conforms; eauto|].
  apply (ok_call body TEOF) in O. apply okr_unbarred in O as [O _]. inversion O; auto.
Qed.

(** * The tree is determined by its events and its leaves *)
Lemma flat_unique c1 : forall c2 e1 e2 l1 l2,
  flat c1 ++ e1 = flat c2 ++ e2 -> leaves c1 ++ l1 = leaves c2 ++ l2 ->
  c1 = c2 /\ e1 = e2 /\ l1 = l2.
Proof.
  induction c1 as [x|k cs IH] using child_ind2; intros [y|k' cs'] e1 e2 l1 l2 E L;
    cbn [flat leaves app] in *; try discriminate.
  - inversion E; inversion L; subst. auto.
  - inversion E as [[K F]]. subst k'.
    assert (forall cs', flat_map flat cs ++ Exit :: e1 = flat_map flat cs' ++ Exit :: e2 ->
      flat_map leaves cs ++ l1 = flat_map leaves cs' ++ l2 -> cs = cs' /\ e1 = e2 /\ l1 = l2) as G.
    { clear F E L cs'. revert l1 l2 e1 e2. induction IH as [|c cs H1 H2 IH]; intros l1 l2 e1 e2 cs' F L.
      - destruct cs' as [|c' cs'].
        + cbn in *. inversion F. auto.
        + cbn in F. destruct c'; discriminate.
      - destruct cs' as [|c' cs'].
        + cbn in F. destruct c; discriminate.
        + cbn [flat_map] in *. rewrite <- !app_assoc in F, L.
          destruct (H1 _ _ _ _ _ F L) as (-> & F2 & L2).
          destruct (IH _ _ _ _ _ F2 L2) as (-> & -> & ->). auto. }
    rewrite <- !app_assoc in F. destruct (G cs' F L) as (-> & -> & ->). auto.
Qed.

Lemma tree_unique c1 c2 : flat c1 = flat c2 -> leaves c1 = leaves c2 -> c1 = c2.
Proof.
  intros E L. destruct (flat_unique c1 c2 [] [] [] []) as [H _]; rewrite ?app_nil_r; auto.
Qed.

(** * The published grammar *)
Definition alike (c c' : child) : Prop := sym_of c = sym_of c' /\ leaves c = leaves c'.

(** A component reference or call as a simple expression. *)
Definition as_simple (cs : list child) : child :=
  CTree KSimpleExpression [CTree KLogicalExpression [CTree KLogicalTerm [CTree KLogicalFactor
    [CTree KRelation [CTree KArithmeticExpression [CTree KTerm [CTree KFactor
      [CTree KPrimary cs]]]]]]]].

Lemma matchb_one r w : matchb r w = true -> lang r w.
Proof. apply matchb_sound. Qed.

Lemma as_simple_ok a b : sym_of a = Rule KComponentReference -> sym_of b = Rule KFunctionCallArgs ->
  parsable a -> parsable b -> parsable (as_simple [a; b]).
Proof.
  intros A B [CA UA] [CB UB].
  assert (forall k cs, (forall w, w = map sym_of cs -> lang (production false k) w) ->
    Forall (allowed k) cs -> Forall parsable cs -> parsable (CTree k cs)) as N.
  { intros k cs L F P. split; constructor; auto; rewrite Forall_forall in *; intros c I; apply P; auto. }
  assert (forall k c, barred k (match sym_of c with Rule x => x | _ => k end) = [] -> allowed k c) as AL.
  { intros k [x|k' cs] E; cbn in E; unfold allowed; auto.
    destruct (leaves (CTree k' cs)); auto. rewrite E. auto. }
  unfold as_simple.
  repeat (apply N; [intros w ->; cbn [map sym_of]; apply matchb_one; vm_compute; reflexivity
                   |constructor; [apply AL; reflexivity|constructor]
                   |constructor; [|constructor]]).
  apply N.
  - intros w ->. cbn [map]. rewrite A, B. apply matchb_one. vm_compute. reflexivity.
  - constructor; [apply AL; rewrite A; reflexivity|]. constructor; [apply AL; rewrite B; reflexivity|constructor].
  - repeat constructor; auto.
Qed.

Lemma Forall2_syms cs cs' : Forall2 alike cs cs' -> map sym_of cs = map sym_of cs' /\ yield cs = yield cs'.
Proof.
  induction 1 as [|c c' cs cs' [A B] H [IH1 IH2]]; simpl; auto. unfold yield in *. simpl.
  split; congruence.
Qed.
Lemma alike_allowed k c c' : alike c c' -> allowed k c -> allowed k c'.
Proof.
  intros [A B] H. destruct c, c'; try discriminate; auto. inversion A; subst.
  unfold allowed in *. rewrite <- B. exact H.
Qed.
Lemma Forall2_allowed k cs cs' : Forall2 alike cs cs' -> Forall (allowed k) cs -> Forall (allowed k) cs'.
Proof. induction 1; intro F; inversion F; subst; constructor; auto. eapply alike_allowed; eauto. Qed.

Lemma production_same k : k <> KEquation -> production true k = production false k.
Proof. destruct k; auto. contradiction. Qed.

Lemma eq_words cs : lang (production true KEquation) (map sym_of cs) ->
  lang (production false KEquation) (map sym_of cs) \/
  exists a b c, cs = [a; b; c] /\ sym_of a = Rule KComponentReference /\
    sym_of b = Rule KFunctionCallArgs /\ sym_of c = Rule KDescription.
Proof.
  intro L. cbn [production sq alt] in L. apply cat_inv in L as (u & v & E & L1 & L2).
  apply sy_inv in L2. subst v. apply alt_inv in L1 as [L1|L1].
  - apply alt_inv in L1 as [L1|L1].
    + left. rewrite E. cbn [production sq alt]. constructor; [|constructor]. apply l_altl.
      apply cat_inv in L1 as (x & y & -> & LX & LY). constructor; auto. apply l_altr. exact LY.
    + right. apply cat_inv in L1 as (x & y & -> & LX & LY). apply sy_inv in LX, LY. subst.
      cbn [app] in E. destruct cs as [|a [|b [|c [|d cs]]]]; try discriminate.
      cbn [map] in E. inversion E as [[E1 E2 E3]]. exists a, b, c. auto.
  - left. rewrite E. cbn [production sq alt]. constructor; [|constructor]. apply l_altr. exact L1.
Qed.

Lemma loosen c : conforms true c -> unbarred c -> exists c', parsable c' /\ alike c c'.
Proof.
  induction c as [x|k cs IH] using child_ind2; intros C U.
  - exists (CTok x). split; [split; constructor|]. split; auto.
  - inversion C as [|? ? L CC]; subst. apply unbarred_kids in U as [A U].
    assert (exists cs', Forall parsable cs' /\ Forall2 alike cs cs') as (cs' & P & F).
    { clear L A C. induction IH as [|c cs H1 H2 IH']; [exists []; auto|].
      inversion CC; inversion U; subst. destruct H1 as (c' & P1 & A1); auto.
      destruct IH' as (cs' & P2 & A2); auto. exists (c' :: cs'). auto. }
    destruct (Forall2_syms _ _ F) as [S Y]. pose proof (Forall2_allowed k _ _ F A) as A'.
    assert (forall ds, lang (production false k) (map sym_of ds) -> Forall parsable ds ->
      Forall (allowed k) ds -> parsable (CTree k ds)) as N.
    { intros ds L' P' F'. split; constructor; auto; rewrite Forall_forall in *; intros c I; apply P'; auto. }
    assert (lang (production false k) (map sym_of cs') \/
      k = KEquation /\ exists a b c, cs' = [a; b; c] /\ sym_of a = Rule KComponentReference /\
        sym_of b = Rule KFunctionCallArgs /\ sym_of c = Rule KDescription) as [G|[-> G]].
    { rewrite S in L. destruct (skind_eqb k KEquation) eqn:E.
      - apply skind_eqb_eq in E. subst k. destruct (eq_words _ L) as [G|G]; auto.
      - left. rewrite <- production_same; auto. intro Z; subst; discriminate. }
    + exists (CTree k cs'). split; [apply N; auto|]. split; auto.
    + destruct G as (a & b & c & -> & SA & SB & SC).
      inversion P as [|? ? PA P1]; subst. inversion P1 as [|? ? PB P2]; subst. inversion P2 as [|? ? PC _]; subst.
      exists (CTree KEquation [as_simple [a; b]; c]). split.
      * apply N.
        -- cbn [map sym_of as_simple]. rewrite SC. apply matchb_one. vm_compute. reflexivity.
        -- constructor; [apply as_simple_ok; auto|]. constructor; auto.
        -- assert (forall k' (c' : child) x, sym_of c' = Rule x -> barred k' x = [] -> allowed k' c') as AL.
           { intros k' [y|k'' ds] x E B; [discriminate|]. inversion E; subst. unfold allowed.
             destruct (leaves (CTree x ds)); auto. rewrite B. auto. }
           constructor; [eapply AL; reflexivity|]. constructor; [eapply AL; eauto|constructor].
      * split; auto. change (leaves (CTree KEquation cs)) with (yield cs). rewrite Y.
        unfold yield. cbn [flat_map leaves as_simple]. rewrite !app_nil_r, <- ?app_assoc. reflexivity.
Qed.
