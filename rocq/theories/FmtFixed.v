(** The second run changes nothing: exactly for the settled texts. *)
From Coq Require Import Sorted.
From Verif Require Import ProofBase Tokens Syntax Lexer SpecLex LexInv LexMain LexFacts ParserCore Grammar
  Tree Printer Formatter Lib ParserSem ParserFuel SpecGrammar Regex ParserGrammar ParserTree ParserFacts Recognise PropsParser
  FmtAbs FmtPlan FmtShape FmtTables FmtSound SpecLayout FmtExec FmtTop FmtFacts FmtRelex FmtNeat SpecNodes FmtTree FmtLists FmtOps
  FmtWrap SpecGaps SpecReference FmtNode FmtReference FmtSame PropsFormat PropsReference FmtBreaks FmtAgree FmtPrinted FmtStable FmtOnce
  SpecSettled FmtSettled.

(** ** Settled texts *)
Theorem settled_stable eol s p : accepted s p -> no_lone_cr s -> is_eol eol ->
  (forall c t, In c (p_comments p) -> In t (p_tokens p ++ p_comments p) -> line (tstart c) < line (tend c) -> line (tstart t) <> line (tend c)) ->
  forall o1 p1 tree, pretty_print eol p = Ok o1 -> accepted (o1 ++ eol) p1 ->
  build_tree (p_tokens p) (p_events p) = Ok tree -> settled tree -> pretty_print eol p1 = Ok o1.
Proof.
  intros ACC NC EO CM o1 p1 tree' PO PA BT ST. destruct (reading_of s p ACC) as (items & tree & R0).
  assert (tree' = tree) as -> by (pose proof (rd_tree _ _ _ _ R0); congruence).
  destruct (FmtStable.run eol _ _ _ _ R0 NC EO) as (P0 & p1' & items1 & tree1 & R1 & NC1 & EV1 & PR1).
  assert (o1 = render eol (reference tree items)) as -> by congruence.
  pose proof (rd_accepted _ _ _ _ R1) as [A1 _]. destruct PA as [PA _]. assert (p1' = p1) as -> by congruence. clear A1.
  destruct (FmtStable.run eol _ _ _ _ R1 NC1 EO) as (P1 & _). rewrite P1. f_equal.
  destruct (run_lines _ _ _ _ _ _ _ _ R0 R1 EV1 PR1) as (g & G & ET1 & L1 & LEN). apply lined_from_lined in L1.
  apply alike_render. unfold reference in *.
  pose proof (laid_downward _ _ (rd_laid _ _ _ _ R0)) as D0.
  apply weave_once; auto using (reading_spots _ _ _ _ R0), (reading_spots _ _ _ _ R1).
  - intros a c t b E C H. pose proof (laid_ends _ _ (rd_laid _ _ _ _ R0)) as LE. rewrite Forall_forall in LE.
    assert (forall z, In z items -> In z (p_tokens p ++ p_comments p)) as SPLIT.
    { intros z Z. rewrite (rd_tokens _ _ _ _ R0), (rd_comments _ _ _ _ R0). apply in_or_app. rewrite !filter_In. unfold plain, commentary. destruct (is_comment_kind (tkind_of z)); cbn; auto. }
    assert (In c items) as IC by (rewrite E; apply in_or_app; right; left; reflexivity).
    assert (In t items) as IT by (rewrite E; apply in_or_app; right; right; left; reflexivity).
    rewrite E in D0. apply downward_app in D0 as [_ D0]. cbn [downward] in D0. destruct D0 as (_ & _ & D0 & _).
    assert (line (tstart t) <> line (tend c)); [|lia]. apply CM; auto.
    + rewrite (rd_comments _ _ _ _ R0). apply filter_In. auto.
    + rewrite (LE c IC). lia.
  - rewrite ET1. apply (alike_spots g G). destruct (rd_fits _ _ _ _ R0) as (cs & E & [F|F]).
    + rewrite E, F. constructor. intros u d v K. destruct (rev u); discriminate.
    + pose proof (toks_some _ F) as NE.
      apply (first_agrees g G tree F false false (false :: marks (toks tree))); auto.
      * apply (downward_lined _ _ 1); [|exact NE]. rewrite (rd_toks _ _ _ _ R0), (rd_tokens _ _ _ _ R0). apply downward_filter. exact D0.
      * rewrite <- ET1. exact L1.
      * rewrite E. discriminate.
Qed.

(** ** The other direction: what has to start a line *)
Definition forced_ok (k : skind) : bool :=
  implb (among k inner_kinds)
    (forallb (fun p => implb (trailing (snd p)) (always_below k (Some (fst p)) (snd p) false)) (pairs (prod k)) &&
     forallb (fun x => implb (trailing x) (skind_eqb k KDescription) && negb (value k x)) (firsts (prod k)) &&
     forallb (fun x => negb (sym_eqb x (Rule KComponentList))) (syms_of k)).
Lemma forced_checked : forallb forced_ok all_skinds = true.
Proof. vm_compute. reflexivity. Qed.
Lemma late_more k p d l : always_below k p d false = true -> always_below k p d l = true.
Proof.
  unfold always_below. destruct (fixed_position k p d); [auto|]. cbn [andb]. rewrite orb_false_r. intros ->. reflexivity.
Qed.

Lemma tl_part (l r : list bool) : existsb (fun x => x) (tl l) = true -> existsb (fun x => x) (tl (l ++ r)) = true.
Proof. destruct l as [|a l]; [discriminate|]. cbn [app tl]. intro E. rewrite existsb_app, E. reflexivity. Qed.
Lemma tl_later (a l r : list bool) : existsb (fun x => x) (tl l) = true -> existsb (fun x => x) (tl (a ++ l ++ r)) = true.
Proof.
  intro E. destruct a as [|b a]; [cbn [app]; apply tl_part; exact E|]. cbn [app tl]. rewrite !existsb_app. destruct l as [|x l]; [discriminate|]. cbn [tl] in E.
  cbn [existsb]. rewrite E, !orb_true_r. reflexivity.
Qed.
Lemma tl_flagged b l : tl (flagged b l) = tl l.
Proof. destruct l; reflexivity. Qed.
Theorem forced_breaks c : fits c -> inner_sym (sym_of c) = true -> sym_of c <> Rule KDescription -> laden c = true -> forall inh,
  existsb (fun x => x) (tl (bits false inh c)) = true.
Proof.
  induction c as [t|k cs IH] using child_ind2; intros F S ND LD inh; [discriminate|]. cbn [laden] in LD. apply existsb_exists in LD as (d & I & B).
  assert (S' := S). cbn [sym_of inner_sym among_sym] in S. pose proof (skind_all _ forced_checked k) as K. unfold forced_ok in K. rewrite S in K. cbn [implb] in K.
  apply andb_true_iff in K as [K _]. apply andb_true_iff in K as [K1 K2]. rewrite forallb_forall in K1, K2.
  pose proof (skind_all _ inner_checked k) as C. unfold inner_ok in C. rewrite S in C. cbn [implb] in C.
  apply andb_true_iff in C as [C _]. apply andb_true_iff in C as [C _]. apply andb_true_iff in C as [C _]. rewrite forallb_forall in C.
  assert (fits d) as FD by (inversion F as [|? ? ? ? FC]; subst; rewrite Forall_forall in FC; auto).
  pose proof (child_sym _ _ _ F I) as SD. inversion F as [|? ? NE LG FC]; subst. apply in_split in I as (x & y & E).
  rewrite bits_tree. destruct (trailing (sym_of d)) eqn:T.
  - destruct x as [|z x].
    + exfalso. rewrite E in LG. specialize (K2 _ (initial_child _ _ _ LG)). rewrite T in K2. cbn [implb] in K2. apply andb_true_iff in K2 as [K2 _].
      apply skind_eqb_eq in K2. subst k. apply ND. reflexivity.
    + destruct (@exists_last _ (z :: x)) as (l & a & EL); [discriminate|]. rewrite EL in E. assert (LG' := LG). rewrite E, <- app_assoc in LG'. cbn [app] in LG'.
      specialize (K1 _ (neighbours _ _ _ _ _ LG')). cbn [fst snd] in K1. rewrite T in K1. cbn [implb] in K1.
      rewrite E in FC |- * at 3. apply Forall_app in FC as [FX FY].
      apply bit_inside; auto; [destruct l; discriminate|]. rewrite below_why. rewrite rev_app_distr. cbn [rev app kind_last]. rewrite !kind_sym.
      rewrite (late_more _ _ _ _ K1). reflexivity.
  - assert (laden d = true) as LD by (destruct d as [t|kd ds]; [discriminate|]; rewrite bears_tree in B; cbn [sym_of] in T; rewrite T in B; exact B).
    rewrite Forall_forall in IH. assert (In d cs) as I by (rewrite E; apply in_or_app; right; left; reflexivity).
    assert (sym_of d <> Rule KDescription) as ND' by (intro X; rewrite X in T; discriminate).
    pose proof (IH d I FD (C _ SD) ND' LD) as H. rewrite E at 3.
    destruct (bits_in_app k (wide k cs inh) cs false x [] (d :: y)) as (a & LA & ->). cbn [bits_in]. apply tl_later. rewrite (bits_flag d FD), tl_flagged. apply H.
Qed.

(** The first token of such a node starts no line of its own. *)
Theorem quiet_first c : fits c -> inner_sym (sym_of c) = true -> sym_of c <> Rule KComponentList -> forall inh, hd false (bits false inh c) = false.
Proof.
  induction c as [t|k cs IH] using child_ind2; intros F S NC inh; [reflexivity|].
  cbn [sym_of inner_sym among_sym] in S. pose proof (skind_all _ forced_checked k) as K. unfold forced_ok in K. rewrite S in K. cbn [implb] in K.
  apply andb_true_iff in K as [K K3]. apply andb_true_iff in K as [_ K2]. rewrite forallb_forall in K2, K3.
  pose proof (skind_all _ inner_checked k) as C. unfold inner_ok in C. rewrite S in C. cbn [implb] in C.
  apply andb_true_iff in C as [C _]. apply andb_true_iff in C as [C C3]. apply andb_true_iff in C as [C _]. rewrite forallb_forall in C, C3.
  inversion F as [|? ? NE LG FC]; subst. destruct cs as [|d v]; [contradiction|]. inversion FC as [|? ? FD FV]; subst. inversion IH as [|? ? HD _]; subst.
  pose proof (initial_child _ _ _ LG) as I0. pose proof (child_sym _ _ d F (or_introl eq_refl)) as SD.
  rewrite bits_tree. cbn [bits_in first_bit orb].
  assert (below_at k (wide k (d :: v) inh) [] d v = false) as ->.
  { rewrite below_why. cbn [kind_last last_of]. rewrite kind_sym. specialize (C3 _ I0). apply negb_true_iff in C3. rewrite (late_less _ _ _ _ C3).
    specialize (K2 _ I0). apply andb_true_iff in K2 as [_ K2]. apply negb_true_iff in K2. rewrite K2. unfold turns. cbn [andb orb].
    destruct (wide k (d :: v) inh) eqn:W; [|apply andb_false_r]. cbn [andb].
    destruct (fixed_none k None (sym_of d) && spread_position k None (sym_of d)) eqn:SP; [|reflexivity].
    exfalso. apply NC. rewrite (spread_first _ _ _ _ _ LG W SP). reflexivity. }
  rewrite hd_app by (apply bits_some; exact FD). apply HD; [exact FD|apply C; exact SD|].
  intro X. specialize (K3 _ SD). rewrite X in K3. discriminate.
Qed.

(** ** Unsettled texts *)
Lemma tl_split (a b x y : list bool) : length a = length b -> tl (a ++ x) = tl (b ++ y) -> tl a = tl b /\ (a <> [] -> x = y) /\ (a = [] -> tl x = tl y).
Proof.
  destruct a as [|p a], b as [|q b]; intros L E; try discriminate; [repeat split; auto; contradiction|]. cbn [app tl] in *. injection L as L.
  revert b L E. induction a as [|z a IH]; intros [|z' b] L E; try discriminate; cbn [app] in *.
  - split; [reflexivity|]. split; [intros _; exact E|discriminate].
  - injection E as -> E. injection L as L. destruct (IH b L E) as (-> & H & _). split; [reflexivity|]. split; [intros _; apply H; discriminate|discriminate].
Qed.

Section Unsettled.
Variable g : token -> token.
Hypothesis G : relined g.
Notation tg := (tmap g).

Lemma toks_len d : length (toks (tg d)) = length (toks d).
Proof. rewrite (toks_map g). apply map_length. Qed.
(** The flags of a child and those behind it. *)
Lemma same_child k w w' cs u d v : Forall fits cs -> cs = rev u ++ d :: v ->
  tl (bits_in k w cs false [] cs) = tl (bits_in k w' (map tg cs) false [] (map tg cs)) ->
  tl (bits false (bequeathed k w cs d) d) = tl (bits false (bequeathed k w' (map tg cs) (tg d)) (tg d)) /\
  (u <> [] -> below_at k w u d v || hd false (bits false (bequeathed k w cs d) d) =
              below_at k w' (map tg u) (tg d) (map tg v) || hd false (bits false (bequeathed k w' (map tg cs) (tg d)) (tg d))).
Proof.
  intros F E T. assert (E' : map tg cs = rev (map tg u) ++ tg d :: map tg v) by (rewrite E, map_app, map_rev; reflexivity).
  rewrite E in T at 2. rewrite E' in T at 2.
  assert (fits d) as FD by (rewrite Forall_forall in F; apply F; rewrite E; apply in_or_app; right; left; reflexivity).
  assert (FD' := fits_map g G d FD).
  destruct (bits_in_app k w cs false (rev u) [] (d :: v)) as (a & LA & EA). destruct (bits_in_app k w' (map tg cs) false (rev (map tg u)) [] (tg d :: map tg v)) as (a' & LA' & EA').
  rewrite EA, EA', !app_nil_r, !rev_involutive in T. clear EA EA'. cbn [bits_in] in T.
  rewrite !first_bit_false in T. rewrite (bits_flag d FD), (bits_flag (tg d) FD') in T.
  assert (length a = length a') as LL by (rewrite LA, LA', <- map_rev, (flat_toks_map g), map_length; reflexivity).
  destruct (tl_split _ _ _ _ LL T) as (_ & T1 & T2). clear T.
  assert (forall b inh b' inh' r r', tl (flagged b (bits false inh d) ++ r) = tl (flagged b' (bits false inh' (tg d)) ++ r') ->
    tl (bits false inh d) = tl (bits false inh' (tg d))) as TT.
  { intros b inh b' inh' r r' Z. apply tl_split in Z as (Z & _); [rewrite !tl_flagged in Z; exact Z|].
    rewrite <- (bits_flag d FD), <- (bits_flag (tg d) FD'), !bits_toks. symmetry. apply toks_len. }
  destruct u as [|z u].
  - split; [|contradiction]. assert (a = []) as -> by (destruct a; [reflexivity|discriminate]). eapply TT. apply T2. reflexivity.
  - assert (a <> []) as NA.
    { intros ->. cbn [rev] in LA. rewrite flat_map_app, app_length in LA. cbn [flat_map] in LA. rewrite app_nil_r in LA.
      assert (fits z) as FZ by (rewrite Forall_forall in F; apply F; rewrite E; cbn [rev]; rewrite <- app_assoc; apply in_or_app; right; left; reflexivity).
      apply toks_some in FZ. destruct (toks z); [contradiction|]. cbn [length] in LA. lia. }
    specialize (T1 NA). split; [eapply TT; rewrite T1; reflexivity|]. intros _.
    pose proof (bits_some false (bequeathed k w cs d) d FD) as N1. pose proof (bits_some false (bequeathed k w' (map tg cs) (tg d)) (tg d) FD') as N2.
    apply (f_equal (hd false)) in T1. destruct (bits false (bequeathed k w cs d) d); [contradiction|]. destruct (bits false (bequeathed k w' (map tg cs) (tg d)) (tg d)); [contradiction|].
    exact T1.
Qed.

Definition crowds_ok (k : skind) : bool :=
  implb (match k with KComponentList | KClassModification | KClassOrInheritanceModification => true | _ => false end)
    (among k inner_kinds && by_span k && negb (inherits k) && negb (by_apart k) &&
     forallb (fun p => implb (spread_free k (Some (fst p)) (snd p)) (negb (always_below k (Some (fst p)) (snd p) true) && negb (value k (snd p)))) (pairs (prod k)) &&
     forallb (fun x => implb (is_rule x) (skind_eqb k KComponentList)) (firsts (prod k)) &&
     forallb (fun p => implb (is_rule (snd p)) (inherits_sym (snd p) || skind_eqb k KComponentList)) (pairs (prod k))).
Lemma crowds_checked : forallb crowds_ok all_skinds = true.
Proof. vm_compute. reflexivity. Qed.

Theorem unsettled c : fits c -> forall inh inh', lined (bits false inh c) (toks (tg c)) ->
  tl (bits false inh c) = tl (bits false inh' (tg c)) -> settled c.
Proof.
  induction c as [t|k cs IH] using child_ind2; intros F inh inh' L1 T.
  { intros k cs IS. inversion IS. }
  intros k' cs' IS CR LD. assert (FC : Forall fits cs) by (inversion F; assumption). assert (LG : lang (prod k) (map sym_of cs)) by (inversion F; assumption).
  assert (T' := T). change (tg (CTree k cs)) with (CTree k (map tg cs)) in T'. rewrite !bits_tree in T'.
  inversion IS as [|? ? ? d I IS']; subst.
  2:{ rewrite Forall_forall in IH, FC. apply in_split in I as (x & y & E). assert (In d cs) as I by (rewrite E; apply in_or_app; right; left; reflexivity).
      assert (E' : cs = rev (rev x) ++ d :: y) by (rewrite rev_involutive; exact E).
      destruct (same_child k _ _ cs (rev x) d y ltac:(apply Forall_forall; exact FC) E' T') as [TD _].
      refine (IH d I (FC d I) _ _ _ TD k' cs' IS' CR LD).
      apply (node_child g k (wide k cs inh) cs false (rev (rev x)) d y (FC d I)). pose proof (flat_lines g _ _ _ L1) as L. rewrite E' in L at 3 4. exact L. }
  destruct (spans (CTree k cs)) eqn:S; [reflexivity|exfalso].
  assert (match k with KComponentList | KClassModification | KClassOrInheritanceModification => true | _ => false end = true) as KK by (destruct k; try discriminate CR; reflexivity).
  pose proof (skind_all _ crowds_checked k) as C. unfold crowds_ok in C. rewrite KK in C. cbn [implb] in C.
  repeat (apply andb_true_iff in C as [C ?Q]). apply negb_true_iff in Q2, Q3. rewrite forallb_forall in Q, Q0, Q1.
  assert (always_wide k cs = false) as AW.
  { destruct k; try discriminate KK; try reflexivity. cbn [crowded] in CR. apply negb_true_iff in CR. apply not_true_iff_false. intro A. unfold always_wide in A.
    assert (existsb (fun d => holds KDescription d || holds KDescriptionString d) cs = true); [|congruence].
    apply orb_true_iff in A as [A|A]; cbn [holds skind_eqb orb] in A; apply existsb_exists in A as (d & I & D); apply existsb_exists; exists d; split; auto; apply orb_true_iff; auto. }
  assert (long_enough k cs = true) as LE by (destruct k; try discriminate KK; try reflexivity; exact CR).
  assert (wide k cs inh = false) as W0 by (rewrite wide_why, Q3, AW, Q2, S; cbn [andb orb]; rewrite andb_false_r; reflexivity).
  assert (spans (tg (CTree k cs)) = true) as S1.
  { pose proof (forced_breaks (CTree k cs) F C ltac:(cbn [sym_of]; intro X; injection X as ->; discriminate KK) LD inh) as FB.
    destruct (bits false inh (CTree k cs)) as [|b r]; [discriminate|]. apply (spans_bits b r _ L1). auto. }
  assert (wide k (map tg cs) inh' = true) as W1.
  { assert (long_enough k (map tg cs) = true) as LE' by (unfold long_enough in *; destruct k; rewrite ?map_length; exact LE).
    rewrite wide_why, Q4, LE'. change (CTree k (map tg cs)) with (tg (CTree k cs)). rewrite S1, !orb_true_r. reflexivity. }
  assert (spread_child k cs) as (u & a & d & v & E & SF).
  { destruct (skind_eqb k KComponentList) eqn:KC.
    - apply skind_eqb_eq in KC. subst k. destruct cs as [|c r]; [discriminate LD|].
      pose proof (initial_child _ _ _ LG) as I0. destruct r as [|c' r]; [discriminate CR|]. pose proof (neighbours _ [] _ _ _ LG) as P1.
      destruct r as [|e r].
      { exfalso. pose proof (final_child _ [c] c' LG) as P2. revert I0 P1 P2. generalize (sym_of c) (sym_of c'). clear. intros y x P0 P1 P2. vm_compute in P0, P1, P2. intuition congruence. }
      pose proof (neighbours _ [c] _ _ _ LG) as P2. exists [c], c', e, r. split; [reflexivity|].
      assert (sym_of c' = Term TComma /\ sym_of e = Rule KComponentDeclaration) as [-> ->]; [|reflexivity].
      revert I0 P1 P2. generalize (sym_of c) (sym_of c') (sym_of e). clear. intros y x z P0 P1 P2. vm_compute in P0, P1, P2. intuition congruence.
    - apply existsb_exists in LD as (d & I & B). assert (is_rule (sym_of d) = true) as R by (destruct d; [discriminate B|reflexivity]).
      apply in_split in I as (x & y & E). destruct x as [|z x].
      { exfalso. rewrite E in LG. specialize (Q0 _ (initial_child _ _ _ LG)). rewrite R in Q0. discriminate Q0. }
      destruct (@exists_last _ (z :: x)) as (l & a & EL); [discriminate|]. rewrite EL, <- app_assoc in E. cbn [app] in E.
      assert (LG' := LG). rewrite E in LG'. specialize (Q _ (neighbours _ _ _ _ _ LG')). cbn [fst snd] in Q. rewrite R, orb_false_r in Q. cbn [implb] in Q. rewrite inherits_of in Q.
      assert (E' : cs = rev (a :: rev l) ++ d :: y) by (cbn [rev]; rewrite rev_involutive, <- app_assoc; exact E).
      exists (rev l), a, d, y. split; [exact E'|]. eapply inheriting_next; eauto. }
  assert (In d cs) as I by (rewrite E; apply in_or_app; right; left; reflexivity).
  destruct (same_child k _ _ cs (a :: u) d v FC E T') as [_ H]. specialize (H ltac:(discriminate)). rewrite W0, W1 in H.
  assert (spread_free k (kind_last (map tg (a :: u))) (kind_of (tg d)) = true) as SF'.
  { rewrite (kind_last_map g G), (kind_map g G). cbn [kind_last]. rewrite !kind_sym. exact SF. }
  rewrite (below_spread _ _ _ _ SF') in H. cbn [orb] in H.
  assert (LG' := LG). rewrite E in LG'. cbn [rev] in LG'. rewrite <- app_assoc in LG'. specialize (Q1 _ (neighbours _ _ _ _ _ LG')). cbn [fst snd] in Q1. rewrite SF in Q1. cbn [implb] in Q1.
  apply andb_true_iff in Q1 as [Q5 Q6]. apply negb_true_iff in Q5, Q6.
  assert (below_at k false (a :: u) d v = false) as B0.
  { rewrite below_why. cbn [kind_last]. rewrite ?(kind_sym a), ?(kind_sym d), (late_less _ _ _ _ Q5), Q6. cbn [andb orb]. rewrite orb_false_r.
    assert (turns k (last_of (a :: u)) d v = false) as ->; [|apply andb_false_r].
    unfold turns. cbn [last_of]. destruct v; [reflexivity|]. destruct k; try discriminate KK; reflexivity. }
  rewrite B0 in H. cbn [orb] in H.
  assert (FD : fits d) by (rewrite Forall_forall in FC; auto).
  rewrite (quiet_first d FD) in H; [discriminate| |].
  - pose proof (skind_all _ inner_checked k) as X. unfold inner_ok in X. rewrite C in X. cbn [implb] in X.
    apply andb_true_iff in X as [X _]. apply andb_true_iff in X as [X _]. apply andb_true_iff in X as [X _]. rewrite forallb_forall in X. apply X. eapply child_sym; eauto.
  - intro X. pose proof (skind_all _ forced_checked k) as Y. unfold forced_ok in Y. rewrite C in Y. cbn [implb] in Y. apply andb_true_iff in Y as [_ Y]. rewrite forallb_forall in Y.
    specialize (Y _ (child_sym _ _ _ F I)). rewrite X in Y. discriminate.
Qed.
End Unsettled.

Lemma lined_same a : forall b ln ts, lined_from ln a ts -> lined_from ln b ts -> a = b.
Proof.
  induction a as [|x a IH]; intros [|y b] ln [|t ts] A B; cbn [lined_from] in *; try contradiction; [reflexivity|].
  destruct A as (A1 & _ & A2), B as (B1 & _ & B2). f_equal; [destruct x, y; auto; lia|]. eapply IH; eauto.
Qed.
Theorem stable_settled eol s p : accepted s p -> no_lone_cr s -> is_eol eol ->
  forall o1 p1 tree, pretty_print eol p = Ok o1 -> accepted (o1 ++ eol) p1 ->
  build_tree (p_tokens p) (p_events p) = Ok tree -> pretty_print eol p1 = Ok o1 -> settled tree.
Proof.
  intros ACC NC EO o1 p1 tree' PO PA BT PP. destruct (reading_of s p ACC) as (items & tree & R0).
  assert (tree' = tree) as -> by (pose proof (rd_tree _ _ _ _ R0); congruence).
  destruct (FmtStable.run eol _ _ _ _ R0 NC EO) as (P0 & p1' & items1 & tree1 & R1 & NC1 & EV1 & PR1).
  assert (o1 = render eol (reference tree items)) as -> by congruence.
  pose proof (rd_accepted _ _ _ _ R1) as [A1 _]. assert (PA' := PA). destruct PA as [PA _]. assert (p1' = p1) as -> by congruence. clear A1.
  destruct (FmtStable.run eol _ _ _ _ R1 NC1 EO) as (P1 & p2 & items2 & tree2 & R2 & NC2 & EV2 & PR2).
  assert (render eol (reference tree1 items1) = render eol (reference tree items)) as ER by congruence.
  assert (p2 = p1) as -> by (pose proof (rd_accepted _ _ _ _ R2) as [A2 _]; rewrite ER in A2; congruence).
  destruct (run_lines _ _ _ _ _ _ _ _ R0 R1 EV1 PR1) as (g & G & ET1 & L1 & LEN).
  destruct (run_lines _ _ _ _ _ _ _ _ R1 R2 EV2 PR2) as (h & H & ET2 & L2 & _).
  rewrite (rd_toks _ _ _ _ R2), <- (rd_toks _ _ _ _ R1) in L2.
  pose proof (lined_same _ _ _ _ L1 L2) as EB. apply lined_from_lined in L1. rewrite ET1 in EB, L1.
  destruct (rd_fits _ _ _ _ R0) as (cs & E & [F|F]).
  - rewrite E, F. intros k cs' IS. inversion IS as [|? ? ? d I]; subst; [discriminate|contradiction].
  - apply (unsettled g G tree F false false L1). rewrite EB. reflexivity.
Qed.
