(** Rules that pass the check read every word of their production without an error. *)
From Verif Require Import ProofBase Tokens Syntax Lexer ParserCore Grammar Tree ParserSem
  SpecGrammar Regex ParserGrammar SpecLanguage Looks Predict.

Lemma lf_ok r x w : lang r (x :: w) -> exists r', In (x, r') (lf r) /\ lang r' w.
Proof.
  intro H. remember (x :: w) as u eqn:E. revert w E.
  induction H; intros w E; try discriminate; simpl.
  - inversion E; subst. exists Eps. split; [left; auto|constructor].
  - destruct u as [|y u].
    + simpl in E. subst v. destruct (IHlang2 _ eq_refl) as [r' [I1 I2]].
      exists r'. rewrite (proj2 (nullable_spec a) H), in_app_iff. auto.
    + simpl in E. inversion E; subst. destruct (IHlang1 _ eq_refl) as [r' [I1 I2]].
      exists (cat r' b). split; [|apply lang_cat; constructor; auto].
      assert (In (x, cat r' b) (map (fun p => (fst p, cat (snd p) b)) (lf a))) as I.
      { apply in_map_iff. exists (x, r'). auto. }
      destruct (nullable a); [apply in_or_app; left|]; exact I.
  - destruct (IHlang _ E) as [r' [I1 I2]]. exists r'. rewrite in_app_iff. auto.
  - destruct (IHlang _ E) as [r' [I1 I2]]. exists r'. rewrite in_app_iff. auto.
  - destruct u as [|y u].
    + simpl in E. subst v. destruct (IHlang2 _ eq_refl) as [r' [I1 I2]]. exists r'. auto.
    + simpl in E. inversion E; subst. destruct (IHlang1 _ eq_refl) as [r' [I1 I2]].
      exists (cat r' (Star a)). split; [|apply lang_cat; constructor; auto].
      apply in_map_iff. exists (x, r'). auto.
Qed.

Lemma memk_subset x ts l : subset ts l = true -> memk x l = false -> memk x ts = false.
Proof.
  intros S M. destruct (memk x ts) eqn:E; auto. apply memk_in in E.
  apply (subset_in _ _ _ S) in E. apply memk_in in E. congruence.
Qed.

Lemma ask n ts tk : askable n ts = true ->
  memk (at_look (norm (kinds_of tk)) n) ts = memk (kind_at tk n) ts.
Proof.
  unfold at_look, kind_at, kinds_of. intro A. destruct tk as [|x [|y [|z tk]]].
  - destruct n as [|[|[|n]]]; try discriminate; reflexivity.
  - destruct n as [|[|[|n]]]; try discriminate; reflexivity.
  - destruct n as [|[|[|n]]]; try discriminate; simpl in *; auto.
    unfold cls2. destruct (memk (tkind_of y) key2) eqn:E; auto.
    rewrite (memk_subset _ _ _ A E). exact (memk_subset TComma _ _ A eq_refl).
  - destruct n as [|[|[|n]]]; try discriminate; simpl in *; auto.
    + unfold cls2. destruct (memk (tkind_of y) key2) eqn:E; auto.
      rewrite (memk_subset _ _ _ A E). exact (memk_subset TComma _ _ A eq_refl).
    + unfold cls3. destruct (memk (tkind_of z) key3) eqn:E; auto.
      rewrite (memk_subset _ _ _ A E). exact (memk_subset TComma _ _ A eq_refl).
Qed.

Lemma kinds_eqb_eq a b : kinds_eqb a b = true -> a = b.
Proof.
  unfold kinds_eqb. revert b; induction a as [|x a IH]; intros [|y b] H; simpl in H; try discriminate; auto.
  apply andb_true_iff in H as [H1 H2]. apply andb_true_iff in H2 as [H2 H3].
  apply tkind_eqb_eq in H2. f_equal; auto. apply IH. rewrite H1, H3. auto.
Qed.
Lemma lim_eqb_eq a b : lim_eqb a b = true -> a = b.
Proof.
  destruct a, b; simpl; intro H; try discriminate.
  - apply andb_true_iff in H as [H H2]. apply andb_true_iff in H as [H0 H1].
    apply Bool.eqb_prop in H0. apply Nat.eqb_eq in H1. apply kinds_eqb_eq in H2. congruence.
  - apply Bool.eqb_prop in H. congruence.
Qed.

Section Sound.
Variable first : skind -> list look.
Variable follow_of : skind -> list look.
Variable after : list look.
Variable rest : list token.
Hypothesis Hrest : In (norm (kinds_of rest)) after.

(** A child the parser reads as intended. *)
Definition callable (c : child) : Prop :=
  match c with
  | CTok _ => True
  | CTree k cs => forall r, In (norm (kinds_of r)) (follow_of k) ->
      exists g, okr body TEOF (body k) (yield cs ++ r) g cs r
  end.
Definition good (c : child) : Prop := opens first c /\ callable c.

Definition todo (cs : list child) : list token := yield cs ++ rest.

Record holds (reg : tkind) (n : nat) (dn cs : list child) (i : item) : Prop := mkH {
  h_lang : lang (i_rx i) (syms cs);
  h_lims : fits (i_lims i) (norm (kinds_of (todo cs))) = true;
  h_live : i_live i = true -> reg = kind_at (todo cs) n;
  h_moved : i_moved i = true -> dn <> []
}.
Definition inst reg n dn cs (st : list item) : Prop := exists i, In i st /\ holds reg n dn cs i.

Lemma covers_holds reg n dn cs a b : covers a b = true -> holds reg n dn cs a -> holds reg n dn cs b.
Proof.
  unfold covers. intros C [A B D E]. apply andb_true_iff in C as [C C4].
  apply andb_true_iff in C as [C C3]. apply andb_true_iff in C as [C1 C2].
  apply rx_eqb_eq in C1. split.
  - rewrite <- C1. auto.
  - unfold fits in *. rewrite forallb_forall in *. intros c I. apply B.
    specialize (C2 _ I). apply existsb_exists in C2 as (d & I2 & E2).
    apply lim_eqb_eq in E2. subst. auto.
  - intro L. rewrite L in C3. auto.
  - intro L. rewrite L in C4. auto.
Qed.

Lemma put_in reg n dn cs a l : holds reg n dn cs a -> inst reg n dn cs (put a l).
Proof.
  intro H. unfold put. destruct (existsb (covers a) l) eqn:E.
  - apply existsb_exists in E as (b & I & C). exists b. split; auto. eapply covers_holds; eauto.
  - exists a. split; auto. left; auto.
Qed.
Lemma put_keep reg n dn cs a l : inst reg n dn cs l -> inst reg n dn cs (put a l).
Proof.
  intros (i & I & H). unfold put. destruct (existsb (covers a) l); exists i; split; auto. right; auto.
Qed.
Lemma join_ok reg n dn cs a b :
  inst reg n dn cs a \/ inst reg n dn cs b -> inst reg n dn cs (join_items a b).
Proof.
  unfold join_items. induction a as [|x a IH]; intro H.
  - destruct H as [(i & [] & _)|H]; auto.
  - simpl. destruct H as [(i & [->|I] & H)|H].
    + apply put_in; auto.
    + apply put_keep, IH. left. exists i. auto.
    + apply put_keep, IH. auto.
Qed.
Lemma join_l' reg n dn cs a b : inst reg n dn cs a -> inst reg n dn cs (join_items a b).
Proof. intro. apply join_ok; auto. Qed.
Lemma join_r' reg n dn cs a b : inst reg n dn cs b -> inst reg n dn cs (join_items a b).
Proof. intro. apply join_ok; auto. Qed.

Lemma ahead_ok r cs : lang r (syms cs) -> Forall good cs ->
  In (norm (kinds_of (todo cs))) (ahead first after r).
Proof.
  intros L G. unfold todo. rewrite kinds_of_app, norm_app. apply glues_in; auto.
  apply openers_ok; auto. eapply Forall_impl; [|exact G]. intros c [A _]; exact A.
Qed.

(** The next symbol is among the heads. *)
Lemma heads_ok reg n dn c cs i : holds reg n dn (c :: cs) i -> Forall good (c :: cs) ->
  exists r', In (sym_of c, r') (heads first after i) /\ lang r' (syms cs).
Proof.
  intros [A B _ _] G. simpl in A. destruct (lf_ok _ _ _ A) as (r' & I & L).
  exists r'. split; auto. unfold heads. apply filter_In. split; auto. cbn [fst snd].
  inversion G as [|? ? [G1 _] G2]; subst. unfold some_glue. apply existsb_exists.
  exists (norm (kinds_of (leaves c))). split; [exact G1|].
  assert (norm (kinds_of (todo (c :: cs))) =
          glue (norm (kinds_of (leaves c))) (norm (kinds_of (todo cs)))) as E.
  { unfold todo. rewrite <- norm_app, <- kinds_of_app, app_assoc. reflexivity. }
  rewrite E in B. destruct (full3 (norm (kinds_of (leaves c)))) eqn:F.
  - rewrite glue_full in B; auto.
  - apply existsb_exists. exists (norm (kinds_of (todo cs))). split; auto. apply ahead_ok; auto.
Qed.
Lemma end_ok reg n dn i : holds reg n dn [] i -> may_end after i = true.
Proof.
  intros [A B _ _]. unfold may_end. apply andb_true_iff. split.
  - apply nullable_spec. exact A.
  - apply existsb_exists. exists (norm (kinds_of rest)). split; auto.
Qed.

Lemma read_ok ok st l reg n dn cs :
  read first after ok st = Some l -> inst reg n dn cs st -> Forall good cs ->
  exists c cs' r', cs = c :: cs' /\ ok (sym_of c, r') = true /\ lang r' (syms cs') /\
    forall reg' n', inst reg' n' (dn ++ [c]) cs' l.
Proof.
  unfold read. revert l. induction st as [|j st IH]; intros l R (i & I & H) G; [destruct I|].
  cbn [fold_right] in R.
  destruct (fold_right _ (Some []) st) as [l1|] eqn:E; [|discriminate].
  destruct (may_end after j) eqn:ME; [discriminate|].
  destruct (forallb ok (heads first after j)) eqn:F; [|discriminate].
  inversion R; subst. destruct I as [->|I].
  - destruct cs as [|c cs]; [rewrite (end_ok _ _ _ _ H) in ME; discriminate|].
    destruct (heads_ok _ _ _ _ _ _ H G) as (r' & I & L).
    exists c, cs, r'. split; auto. rewrite forallb_forall in F. split; auto. split; auto.
    intros reg' n'. apply join_l'. exists (mkI r' [] false true). split.
    + apply in_map_iff. exists (sym_of c, r'). auto.
    + split; simpl; auto; try discriminate. intros _. destruct dn; discriminate.
  - destruct (IH _ eq_refl (ex_intro _ i (conj I H)) G) as (c & cs' & r' & A & B & C & D).
    exists c, cs', r'. split; auto. split; auto. split; auto. intros. apply join_r'. auto.
Qed.

Lemma know_ok reg n dn cs st c :
  inst reg n dn cs st -> lim_ok (norm (kinds_of (todo cs))) c = true ->
  inst reg n dn cs (map (know c) st).
Proof.
  intros (i & I & [A B C D]) L. exists (know c i). split; [apply in_map; auto|].
  split; simpl; auto. unfold fits in *. simpl. rewrite L. auto.
Qed.

Lemma ask_b n ts tk b : askable n ts = true -> memk (kind_at tk n) ts = b ->
  lim_ok (norm (kinds_of tk)) (LNth b n ts) = true.
Proof. intros A E. simpl. rewrite (ask _ _ _ A), E. apply Bool.eqb_reflx. Qed.

Lemma good_split c1 c2 : Forall good (c1 ++ c2) -> Forall good c2.
Proof. intro G. apply Forall_app in G as [_ G]. auto. Qed.

Lemma acond_ok c : forall reg n st x y dn cs,
  acond first after n c st = Some (x, y) -> inst reg n dn cs st -> Forall good cs ->
  exists b c1 c2, cs = c1 ++ c2 /\ ceval reg c (todo cs) = (b, c1, todo c2) /\
    inst reg n (dn ++ c1) c2 (if b : bool then x else y).
Proof.
  induction c as [m l|l|t| |c IHc|c1 IHc1 c2 IHc2|c1 IHc1 c2 IHc2];
    intros reg n st x y dn cs H S G; cbn [acond] in H; cbn [ceval].
  - destruct (askable m l) eqn:A; [|discriminate]. inversion H; subst.
    exists (memk (kind_at (todo cs) m) l), [], cs. split; auto. split; auto. rewrite app_nil_r.
    destruct (memk (kind_at (todo cs) m) l) eqn:M; apply know_ok; auto; apply ask_b; auto.
  - destruct (askable n l) eqn:A; [|discriminate]. cbn [andb] in H.
    destruct (forallb i_live st) eqn:F; [|discriminate]. inversion H; subst.
    exists (memk reg l), [], cs. split; auto. split; auto. rewrite app_nil_r.
    assert (reg = kind_at (todo cs) n) as E.
    { destruct S as (i & I & S). rewrite forallb_forall in F. apply (h_live _ _ _ _ _ S). auto. }
    destruct (memk reg l) eqn:M; apply know_ok; auto; apply ask_b; auto; rewrite <- E; auto.
  - destruct (read first after _ (map (know (LNth true 0 [t])) st)) as [l|] eqn:R; [|discriminate].
    inversion H; subst.
    assert (forall b, memk (kind_at (todo cs) 0) [t] = b ->
      inst reg n dn cs (map (know (LNth b 0 [t])) st)) as K.
    { intros b E. apply know_ok; auto. apply ask_b; auto. }
    destruct (todo cs) as [|z r] eqn:T.
    + exists false, [], cs. split; auto. rewrite T, app_nil_r. split; auto.
      destruct (memk (kind_at [] 0) [t]) eqn:M; [|apply K; auto].
      exfalso. destruct (read_ok _ _ _ _ _ _ _ R (K _ eq_refl) G) as (c & cs' & r' & -> & O & _).
      apply sym_eqb_eq in O. simpl in O.
      unfold todo in T. simpl in T. destruct c as [w|k w]; [discriminate|discriminate].
    + destruct (tkind_eqb (tkind_of z) t) eqn:M.
      * assert (memk (kind_at (z :: r) 0) [t] = true) as M2.
        { unfold memk, kind_at. cbn [nth_error existsb]. rewrite M. auto. }
        destruct (read_ok _ _ _ _ _ _ _ R (K _ M2) G) as (c & cs' & r' & -> & O & L & I).
        apply sym_eqb_eq in O. simpl in O. destruct c as [w|k w]; [|discriminate].
        unfold todo in T. simpl in T. inversion T; subst.
        exists true, [CTok z], cs'. split; [reflexivity|]. split; [reflexivity|]. apply I.
      * exists false, [], cs. split; auto. rewrite T, app_nil_r. split; auto.
        apply K. unfold memk, kind_at. cbn [nth_error existsb]. rewrite M. auto.
  - inversion H; subst.
    exists (match todo cs with [] => true | _ => false end), [], cs. split; auto. split; auto.
    rewrite app_nil_r. destruct (todo cs) as [|z r] eqn:T; apply know_ok; auto; rewrite T; reflexivity.
  - destruct (acond first after n c st) as [[x1 y1]|] eqn:E; [|discriminate]. inversion H; subst.
    destruct (IHc _ _ _ _ _ _ _ E S G) as (b & c1 & c2 & -> & V & I).
    exists (negb b), c1, c2. rewrite V. split; auto. split; auto. destruct b; auto.
  - destruct (acond first after n c1 st) as [[x1 y1]|] eqn:E; [|discriminate].
    destruct (acond first after n c2 x1) as [[x2 y2]|] eqn:E2; [|discriminate].
    inversion H; subst.
    destruct (IHc1 _ _ _ _ _ _ _ E S G) as (b & d1 & d2 & -> & V & I). rewrite V. destruct b.
    + destruct (IHc2 _ _ _ _ _ _ _ E2 I (good_split _ _ G)) as (b & d3 & d4 & -> & V2 & I2).
      rewrite V2. exists b, (d1 ++ d3), d4. rewrite !app_assoc in *. split; auto. split; auto.
      destruct b; auto. apply join_r'; auto.
    + exists false, d1, d2. split; auto. split; auto. apply join_l'; auto.
  - destruct (acond first after n c1 st) as [[x1 y1]|] eqn:E; [|discriminate].
    destruct (acond first after n c2 y1) as [[x2 y2]|] eqn:E2; [|discriminate].
    inversion H; subst.
    destruct (IHc1 _ _ _ _ _ _ _ E S G) as (b & d1 & d2 & -> & V & I). rewrite V. destruct b.
    + exists true, d1, d2. split; auto. split; auto. apply join_l'; auto.
    + destruct (IHc2 _ _ _ _ _ _ _ E2 I (good_split _ _ G)) as (b & d3 & d4 & -> & V2 & I2).
      rewrite V2. exists b, (d1 ++ d3), d4. rewrite !app_assoc in *. split; auto. split; auto.
      destruct b; auto. apply join_r'; auto.
Qed.

Definition pick (g : signal) (x y : list item) : list item :=
  match g with Normal => x | Broke => y end.

(** One statement. *)
Definition runs (s : stmt) : Prop := forall reg n st x y dn cs,
  arun first follow_of after n s st = Some (x, y) -> inst reg n dn cs st -> Forall good cs ->
  exists g c1 c2, cs = c1 ++ c2 /\ okr body reg s (todo cs) g c1 (todo c2) /\
    inst reg n (dn ++ c1) c2 (pick g x y).

Lemma unmoved_ok reg n dn cs st : inst reg n dn cs st -> inst reg n [] cs (map unmoved st).
Proof.
  intros (i & I & [A B C D]). exists (unmoved i). split; [apply in_map; auto|].
  split; simpl; auto; discriminate.
Qed.

Lemma loop_ok c a : runs a -> forall reg n m st z dn cs,
  loop (acond first after n c) (arun first follow_of after n a) m st = Some z ->
  inst reg n [] cs st -> Forall good cs ->
  (forall i, In i st -> i_live i = false /\ i_moved i = false) ->
  exists c1 c2, cs = c1 ++ c2 /\ okr body reg (SWhile c a) (todo cs) Normal c1 (todo c2) /\
    exists i, In i z /\ holds reg n dn c2 (moved_if false i).
Proof.
  intros RA reg n m. induction m as [|m IHm]; intros st z dn cs H S G U; [discriminate|].
  cbn [loop] in H.
  destruct (acond first after n c st) as [[x y]|] eqn:EC; [|discriminate].
  destruct (arun first follow_of after n a x) as [[nx bx]|] eqn:EA; [|discriminate].
  cbv zeta in H. destruct (forallb i_moved nx) eqn:MV; [|discriminate].
  destruct (all_covered (map unmoved nx) st) eqn:AC.
  - (* invariant *)
    inversion H; subst z. clear H IHm.
    remember (length cs) as w eqn:W. revert cs W S G.
    induction w as [w IHw] using lt_wf_ind. intros cs W S G.
    destruct (acond_ok _ _ _ _ _ _ _ _ EC S G) as (b & c1 & c2 & -> & V & I).
    simpl in I. destruct b.
    + destruct (RA _ _ _ _ _ _ _ EA I (good_split _ _ G)) as (g & c3 & c4 & -> & O & I2).
      destruct g; cbn [pick] in I2.
      * destruct I2 as (i & Ii & Hi).
        assert (c1 ++ c3 <> []) as NE.
        { rewrite forallb_forall in MV. apply (h_moved _ _ _ _ _ Hi). auto. }
        assert (inst reg n [] c4 st) as S2.
        { unfold all_covered in AC. rewrite forallb_forall in AC.
          specialize (AC (unmoved i) (in_map _ _ _ Ii)). apply existsb_exists in AC as (j & Ij & Cj).
          exists j. split; auto. eapply covers_holds; [exact Cj|].
          destruct Hi as [A B C D]. split; simpl; auto; discriminate. }
        destruct (IHw (length c4)) with (cs := c4) as (c5 & c6 & -> & O2 & i2 & I3 & H3); auto.
        { rewrite !app_length in W. destruct c1, c3; simpl in *; try lia. contradiction. }
        { apply good_split in G. apply good_split in G. auto. }
        exists (c1 ++ c3 ++ c5), c6. rewrite <- !app_assoc. split; auto. split.
        -- eapply ok_while; eauto.
        -- exists i2. auto.
      * destruct I2 as (i & Ii & Hi).
        assert (inst reg n (c1 ++ c3) c4 (join_items y bx)) as J by (apply join_r'; exists i; auto).
        destruct J as (j & Ij & Hj).
        exists (c1 ++ c3), c4. rewrite <- app_assoc. split; auto. split.
        -- eapply ok_while_broke; eauto.
        -- exists j. split; auto. destruct Hj as [A B C D]. split; simpl; auto; discriminate.
    + assert (inst reg n c1 c2 (join_items y bx)) as J by (apply join_l'; auto).
      destruct J as (j & Ij & Hj).
      exists c1, c2. split; auto. split.
      * apply ok_while_end. auto.
      * exists j. split; auto. destruct Hj as [A B C D]. split; simpl; auto; discriminate.
  - apply (IHm _ _ dn _ H); auto.
    + apply join_r'; auto.
    + clear - U. intros i I.
      assert (forall a b, (forall i, In i a -> i_live i = false /\ i_moved i = false) ->
        (forall i, In i b -> i_live i = false /\ i_moved i = false) ->
        forall i, In i (join_items a b) -> i_live i = false /\ i_moved i = false) as J.
      { clear. induction a as [|x a IH]; intros b A B i I; [auto|].
        simpl in I. unfold put in I. destruct (existsb (covers x) (join_items a b)).
        - apply (IH b); auto. intros; apply A; right; auto.
        - destruct I as [<-|I]; [apply A; left; auto|]. apply (IH b); auto.
          intros; apply A; right; auto. }
      apply (J (map unmoved nx) st); auto.
      intros j Ij. apply in_map_iff in Ij as (q & <- & _). auto.
Qed.

Lemma run_ok s : runs s.
Proof.
  induction s as [|a IHa b IHb|c|t| |pre m post|k|c a IHa b IHb|c a IHa|m a IHa|];
    intros reg n st x y dn cs H S G; cbn [arun] in H.
  - inversion H; subst. exists Normal, [], cs. split; auto. split; [apply ok_skip|].
    rewrite app_nil_r. auto.
  - destruct (arun first follow_of after n a st) as [[n1 b1]|] eqn:E1; [|discriminate].
    destruct (arun first follow_of after n b n1) as [[n2 b2]|] eqn:E2; [|discriminate].
    inversion H; subst.
    destruct (IHa _ _ _ _ _ _ _ E1 S G) as (g & c1 & c2 & -> & O & I). destruct g; cbn [pick] in I.
    + destruct (IHb _ _ _ _ _ _ _ E2 I (good_split _ _ G)) as (g & c3 & c4 & -> & O2 & I2).
      exists g, (c1 ++ c3), c4. rewrite <- !app_assoc in *. split; auto. split.
      * eapply ok_seq; eauto.
      * destruct g; auto. apply join_r'; auto.
    + exists Broke, c1, c2. split; auto. split; [apply ok_seq_broke; auto|].
      apply join_l'; auto.
  - destruct (acond first after n c st) as [[x1 y1]|] eqn:E; [|discriminate]. inversion H; subst.
    destruct (acond_ok _ _ _ _ _ _ _ _ E S G) as (b & c1 & c2 & -> & V & I).
    exists Normal, c1, c2. split; auto. split; [eapply ok_do; eauto|].
    destruct b; [apply join_l'|apply join_r']; auto.
  - destruct (read first after _ st) as [l|] eqn:R; [|discriminate]. inversion H; subst.
    destruct (read_ok _ _ _ _ _ _ _ R S G) as (c & cs' & r' & -> & O & _ & I).
    apply sym_eqb_eq in O. simpl in O. destruct c as [w|k w]; [|discriminate]. inversion O; subst.
    exists Normal, [CTok w], cs'. split; auto. split; [apply ok_expect|apply I].
  - destruct (read first after _ st) as [l|] eqn:R; [|discriminate]. inversion H; subst.
    destruct (read_ok _ _ _ _ _ _ _ R S G) as (c & cs' & r' & -> & O & _ & I).
    simpl in O. destruct c as [w|k w]; [|discriminate].
    exists Normal, [CTok w], cs'. split; auto. split; [apply ok_advance|apply I].
  - destruct (forallb (dead first after) st) eqn:D; [|discriminate].
    destruct S as (i & I & Hi). rewrite forallb_forall in D. specialize (D _ I).
    unfold dead in D. apply andb_true_iff in D as [D1 D2].
    destruct cs as [|c cs].
    + rewrite (end_ok _ _ _ _ Hi) in D1. discriminate.
    + destruct (heads_ok _ _ _ _ _ _ Hi G) as (r' & I2 & _).
      destruct (heads first after i); [destruct I2|discriminate].
  - destruct (read first after _ st) as [l|] eqn:R; [|discriminate]. inversion H; subst.
    destruct (read_ok _ _ _ _ _ _ _ R S G) as (c & cs' & r' & -> & O & L & I).
    apply andb_true_iff in O as [O1 O2]. cbn [fst snd] in O1, O2.
    apply sym_eqb_eq in O1. destruct c as [w|k' w]; [discriminate|]. inversion O1; subst.
    inversion G as [|? ? [_ G1] G2]; subst.
    pose proof (contained_in _ _ _ O2 (ahead_ok _ _ L G2)) as F.
    destruct (G1 _ F) as (g & Ok1).
    exists Normal, [CTree k w], cs'. split; auto. split; [|apply I].
    eapply ok_call. unfold todo at 1. simpl. rewrite <- app_assoc. exact Ok1.
  - destruct (acond first after n c st) as [[x1 y1]|] eqn:E; [|discriminate].
    destruct (arun first follow_of after n a x1) as [[n1 e1]|] eqn:E1; [|discriminate].
    destruct (arun first follow_of after n b y1) as [[n2 e2]|] eqn:E2; [|discriminate].
    inversion H; subst.
    destruct (acond_ok _ _ _ _ _ _ _ _ E S G) as (q & c1 & c2 & -> & V & I). destruct q.
    + destruct (IHa _ _ _ _ _ _ _ E1 I (good_split _ _ G)) as (g & c3 & c4 & -> & O & I2).
      exists g, (c1 ++ c3), c4. rewrite <- !app_assoc in *. split; auto. split.
      * eapply (ok_if _ _ _ _ _ _ true); eauto.
      * destruct g; apply join_l'; auto.
    + destruct (IHb _ _ _ _ _ _ _ E2 I (good_split _ _ G)) as (g & c3 & c4 & -> & O & I2).
      exists g, (c1 ++ c3), c4. rewrite <- !app_assoc in *. split; auto. split.
      * eapply (ok_if _ _ _ _ _ _ false); eauto.
      * destruct g; apply join_r'; auto.
  - destruct (loop _ _ 30 (map unmoved st)) as [l|] eqn:E; [|discriminate]. inversion H; subst.
    destruct (loop_ok _ _ IHa _ _ _ _ _ dn _ E (unmoved_ok _ _ _ _ _ S) G) as
      (c1 & c2 & -> & O & i & I & [A B C D]).
    { intros i I. apply in_map_iff in I as (q & <- & _). auto. }
    exists Normal, c1, c2. split; auto. split; auto. cbn [pick].
    exists (moved_if (forallb i_moved st) i). split; [apply in_map; auto|].
    split; simpl; auto; try discriminate.
    intros M. destruct S as (j & Ij & Hj). rewrite forallb_forall in M.
    pose proof (h_moved _ _ _ _ _ Hj (M _ Ij)) as N. destruct dn; [contradiction|discriminate].
  - destruct (arun first follow_of after m a _) as [[x1 y1]|] eqn:E; [|discriminate].
    inversion H; subst.
    assert (inst (kind_at (todo cs) m) m dn cs
      (map (fun i => mkI (i_rx i) (i_lims i) true (i_moved i)) st)) as S2.
    { destruct S as (i & I & [A B C D]). eexists. split; [apply in_map; exact I|].
      split; simpl; auto. }
    destruct (IHa _ _ _ _ _ _ _ E S2 G) as (g & c1 & c2 & -> & O & I).
    exists g, c1, c2. split; auto. split; [apply ok_let; auto|].
    assert (forall l, inst (kind_at (todo (c1 ++ c2)) m) m (dn ++ c1) c2 l ->
      inst reg n (dn ++ c1) c2 (map (fun i => mkI (i_rx i) (i_lims i) false (i_moved i)) l)) as OFF.
    { intros l (i & Ii & [A B C D]). eexists. split; [apply in_map; exact Ii|].
      split; simpl; auto. discriminate. }
    destruct g; apply OFF; auto.
  - inversion H; subst. exists Broke, [], cs. split; auto. split; [apply ok_break|].
    rewrite app_nil_r. auto.
Qed.

Lemma finished_ok reg n dn cs st : finished first after st = true -> inst reg n dn cs st ->
  Forall good cs -> cs = [].
Proof.
  unfold finished. rewrite forallb_forall. intros F (i & I & H) G. specialize (F _ I).
  destruct cs as [|c cs]; auto.
  destruct (heads_ok _ _ _ _ _ _ H G) as (r' & I2 & _). destruct (heads first after i); [destruct I2|discriminate].
Qed.

End Sound.
