(** Line breaks that do not matter. *)
From Coq Require Import Sorted.
From Verif Require Import ProofBase Tokens Syntax Lexer SpecLex LexInv LexMain LexFacts ParserCore Grammar
  Tree Printer Formatter Lib ParserSem ParserFuel SpecGrammar Regex ParserGrammar ParserTree ParserFacts Recognise PropsParser
  FmtAbs FmtPlan FmtShape FmtTables FmtSound SpecLayout FmtExec FmtTop FmtFacts FmtRelex FmtNeat SpecNodes FmtTree FmtLists FmtOps
  FmtWrap SpecGaps SpecReference FmtNode FmtReference FmtSame PropsFormat PropsReference FmtBreaks FmtAgree FmtPrinted FmtStable FmtOnce FmtNear SpecFree.

(** ** Flags *)
Fixpoint tied_in (deep b : bool) (k : skind) (cs : list child) (u v : list child) : list bool :=
  match v with
  | [] => []
  | d :: v' =>
      let here := deep || delicate k cs || in_brackets k u in
      tied here (match u with [] => b | _ => here end) d ++ tied_in deep b k cs (d :: u) v'
  end.
Lemma tied_tree deep b k cs : tied deep b (CTree k cs) = tied_in deep b k cs [] cs.
Proof.
  cbn [tied]. match goal with |- ?f [] cs = _ => assert (forall v u, f u v = tied_in deep b k cs u v) as H end; [|apply H].
  induction v as [|d v IH]; intro u; [reflexivity|]. cbn [tied_in]. rewrite <- IH. reflexivity.
Qed.
Lemma tied_in_app deep b k cs x : forall u y, tied_in deep b k cs u (x ++ y) = tied_in deep b k cs u x ++ tied_in deep b k cs (rev x ++ u) y.
Proof.
  induction x as [|d x IH]; intros u y; [reflexivity|]. cbn [app tied_in rev]. rewrite IH, <- !app_assoc. reflexivity.
Qed.
Lemma tied_length c : forall deep b, length (tied deep b c) = length (toks c).
Proof.
  induction c as [t|k cs IH] using child_ind2; intros deep b; [reflexivity|]. rewrite tied_tree. cbn [toks].
  assert (forall all u, length (tied_in deep b k all u cs) = length (flat_map toks cs)) as H; [|apply H]. intro all.
  induction IH as [|d v D _ IHv]; intro u; [reflexivity|]. cbn [tied_in flat_map]. rewrite !app_length, D, IHv. reflexivity.
Qed.
Lemma tied_in_length deep b k cs v : forall u, length (tied_in deep b k cs u v) = length (flat_map toks v).
Proof. induction v as [|d v IH]; intro u; [reflexivity|]. cbn [tied_in flat_map]. rewrite !app_length, tied_length, IH. reflexivity. Qed.
Lemma all_tied c : Forall (eq true) (tied true true c).
Proof.
  induction c as [t|k cs IH] using child_ind2; [repeat constructor|]. rewrite tied_tree.
  assert (forall all u, Forall (eq true) (tied_in true true k all u cs)) as H; [|apply H]. intro all.
  induction IH as [|d v D _ IHv]; intro u; [constructor|]. cbn [tied_in orb]. apply Forall_app. split; [destruct u; exact D|apply IHv].
Qed.
Lemma tied_in_true deep b k cs v : forall u, u <> [] ->
  (forall x d y, v = x ++ d :: y -> deep || delicate k cs || in_brackets k (rev x ++ u) = true) -> Forall (eq true) (tied_in deep b k cs u v).
Proof.
  induction v as [|d v IH]; intros u NU H; [constructor|]. cbn [tied_in]. pose proof (H [] d v eq_refl) as H0. cbn [rev app] in H0. rewrite H0. apply Forall_app. split.
  - destruct u; [contradiction|]. apply all_tied.
  - apply IH; [discriminate|]. intros x e y E. specialize (H (d :: x) e y). cbn [app rev] in H. rewrite <- app_assoc in H. apply H. rewrite E. reflexivity.
Qed.
Lemma tied_head c : fits c -> forall deep b, tied deep b c = b :: List.tl (tied deep true c).
Proof.
  induction c as [t|k cs IH] using child_ind2; intros F deep b; [reflexivity|]. rewrite !tied_tree. inversion F as [|? ? NE _ FC]; subst.
  destruct cs as [|d v]; [contradiction|]. inversion IH; subst. inversion FC; subst. cbn [tied_in].
  rewrite (H1 H3 _ b), (H1 H3 _ true). cbn [app List.tl]. f_equal. f_equal. clear.
  assert (forall all u, u <> [] -> tied_in deep b k all u v = tied_in deep true k all u v) as H; [|apply H; discriminate]. intro all.
  induction v as [|e v IH]; intros u N; [reflexivity|]. cbn [tied_in]. rewrite IH by discriminate. destruct u; [contradiction|]. reflexivity.
Qed.
Lemma tied_delicate k cs deep b : delicate k cs = true -> tied deep b (CTree k cs) = tied true b (CTree k cs).
Proof.
  intro D. rewrite !tied_tree. assert (forall v u, tied_in deep b k cs u v = tied_in true b k cs u v) as H; [|apply H].
  induction v as [|d v IH]; intro u; [reflexivity|]. cbn [tied_in]. rewrite D, orb_true_r, IH. cbn [orb]. reflexivity.
Qed.

(** ** Trees *)
Section Fine.
Variable g : token -> token.
Hypothesis G : relined g.
Definition brk (x y : token) : bool := line (tend x) <? line (tstart y).
Fixpoint fine (z : token) (fl : list bool) (ts : list token) : Prop :=
  match fl, ts with
  | f :: fl', t :: ts' => (f = true -> brk (g z) (g t) = brk z t) /\ fine t fl' ts'
  | _, _ => True
  end.
Definition fines (fl : list bool) (ts : list token) : Prop :=
  match fl, ts with _ :: fl', t :: ts' => fine t fl' ts' | _, _ => True end.
Lemma fine_fines z fl ts : fine z fl ts -> fines fl ts.
Proof. destruct fl, ts; cbn [fine fines]; try exact (fun _ => I). intros [_ F]. exact F. Qed.
Lemma fine_app fl1 : forall z ts1 fl2 ts2, length fl1 = length ts1 -> fine z (fl1 ++ fl2) (ts1 ++ ts2) -> fine z fl1 ts1 /\ fines fl2 ts2.
Proof.
  induction fl1 as [|f fl1 IH]; intros z [|t ts1] fl2 ts2 L F; try discriminate; cbn [app fine] in *.
  - split; [exact I|]. apply fine_fines in F. exact F.
  - destruct F as [F1 F2]. injection L as L. destruct (IH t ts1 fl2 ts2 L F2) as [A B]. auto.
Qed.
Lemma fines_app fl1 ts1 fl2 ts2 : length fl1 = length ts1 -> fines (fl1 ++ fl2) (ts1 ++ ts2) -> fines fl1 ts1 /\ fines fl2 ts2.
Proof.
  destruct fl1 as [|f fl1], ts1 as [|t ts1]; intros L F; try discriminate; cbn [app fines] in *; [split; [exact I|exact F]|].
  injection L as L. apply (fine_app fl1); auto.
Qed.
Lemma fine_marks fl : forall z ts, length fl = length ts -> Forall (eq true) fl -> fine z fl ts -> marks (map g (z :: ts)) = marks (z :: ts).
Proof.
  induction fl as [|f fl IH]; intros z [|t ts] L A F; try discriminate; [reflexivity|]. cbn [fine] in F. destruct F as [F1 F2]. inversion A as [|? ? AF A']; subst.
  injection L as L. specialize (IH t ts L A' F2). cbn [map] in *. change (brk (g z) (g t) :: marks (g t :: map g ts) = brk z t :: marks (t :: ts)).
  rewrite IH, F1; auto.
Qed.
Lemma fines_kin fl ts ln ln' : downward ln ts -> downward ln' (map g ts) -> length fl = length ts -> Forall (eq true) (List.tl fl) -> fines fl ts -> kin g ts.
Proof.
  intros D D' L A F. destruct ts as [|t ts]; [exists []; split; exact I|]. destruct fl as [|f fl]; [discriminate|]. cbn [List.tl fines] in *. injection L as L.
  pose proof (fine_marks _ _ _ L A F) as M. exists (false :: marks (t :: ts)). split.
  - apply (downward_lined _ _ ln D). discriminate.
  - rewrite <- M. apply (downward_lined _ _ ln' D'). discriminate.
Qed.
Lemma downward_part a b c ln : downward ln (a ++ b ++ c) -> exists m, downward m b.
Proof.
  revert ln. induction a as [|t a IH]; intros ln D.
  - cbn [app] in D. exists ln. revert ln D. induction b as [|t b IH]; intros ln D; [exact I|]. cbn [app downward] in *. destruct D as (D1 & D2 & D3). auto.
  - cbn [app downward] in D. destruct D as (_ & _ & D). apply (IH _ D).
Qed.

Lemma no_brackets k w : filter (bracket k) (map sym_of w) = [] -> existsb (is_closing k) w = false.
Proof.
  induction w as [|d w IH]; intro E; [reflexivity|]. cbn [map filter existsb] in *. destruct d as [t|k' ds]; cbn [sym_of bracket is_closing] in *; [|auto].
  unfold closes. destruct (closing k (tkind_of t)); [rewrite orb_true_r in E; discriminate|]. destruct (opening k (tkind_of t)); [discriminate|]. cbn [orb] in *. auto.
Qed.
Lemma pair_alone k u o x c y : by_apart k = true -> lang (prod k) (map sym_of (rev u ++ CTok o :: x ++ CTok c :: y)) ->
  opens k o = true -> closes k c = true -> existsb (is_closing k) (rev u) = false /\ is_closing k (CTok o) = false /\ existsb (is_closing k) x = false.
Proof.
  intros B L O C. pose proof (skind_all _ brackets_checked k) as K. unfold brackets_ok in K. rewrite B in K. cbn [implb] in K.
  apply andb_true_iff in K as [K _]. destruct (words (bracket k) (prod k)) as [ws|] eqn:W; [|discriminate].
  pose proof (words_complete _ _ _ L _ W) as IN. rewrite forallb_forall in K. specialize (K _ IN).
  rewrite map_app, filter_app in K. cbn [map sym_of filter bracket] in K. rewrite map_app, filter_app in K. cbn [map sym_of filter bracket] in K.
  unfold opens in O. unfold closes in C. rewrite O, C in K. rewrite orb_true_r in K. cbn [orb] in K.
  destruct (filter (bracket k) (map sym_of (rev u))) as [|s1 l1] eqn:E1.
  - cbn [app] in K. destruct (filter (bracket k) (map sym_of x)) as [|s2 l2] eqn:E2.
    + cbn [app one_pair] in K. rewrite (no_brackets _ _ E1), (no_brackets _ _ E2). split; [reflexivity|]. split; [|reflexivity].
      cbn [is_closing]. unfold closes. destruct (filter (bracket k) (map sym_of y)); [|discriminate]. rewrite O in K. destruct (closing k (tkind_of o)); [discriminate|reflexivity].
    + cbn [app one_pair] in K. destruct s2, l2; discriminate.
  - destruct s1; [|discriminate]. cbn [app one_pair] in K. destruct l1 as [|s3 l1]; [|destruct s3, l1; discriminate].
    cbn [app] in K. destruct (filter (bracket k) (map sym_of x)); discriminate.
Qed.

Lemma bracketed_apart k : bracketed k = by_apart k.
Proof. destruct k; reflexivity. Qed.
Lemma tied_agrees c : fits c -> forall deep b inh ln ln', downward ln (toks c) -> downward ln' (map g (toks c)) -> fines (tied deep b c) (toks c) -> agree g inh c.
Proof.
  induction c as [t|k cs IH] using child_ind2; intros F deep b inh ln ln' D D' FN; [constructor|].
  destruct (delicate k cs) eqn:DL.
  { apply kin_agrees; auto. apply (fines_kin (tied true b (CTree k cs)) _ ln ln'); auto; [apply tied_length| |rewrite <- (tied_delicate k cs deep b DL); exact FN].
    rewrite (tied_head _ F). cbn [List.tl]. pose proof (all_tied (CTree k cs)) as A. destruct (tied true true (CTree k cs)); [constructor|]. inversion A; assumption. }
  inversion F as [|? ? NE L FC]; subst. rewrite tied_tree in FN. cbn [toks] in *.
  assert (forall u v, cs = rev u ++ v -> exists m m', downward m (flat_map toks v) /\ downward m' (map g (flat_map toks v)) /\ fines (tied_in deep b k cs u v) (flat_map toks v)) as SUF.
  { intros u v E. rewrite E, flat_map_app in D, D'. rewrite map_app in D'. rewrite <- (app_nil_r (flat_map toks v)) in D. rewrite <- (app_nil_r (map g (flat_map toks v))) in D'.
    apply downward_part in D as (m & D). apply downward_part in D' as (m' & D'). exists m, m'. split; [exact D|]. split; [exact D'|].
    rewrite E in FN at 2 3. rewrite tied_in_app, flat_map_app, rev_involutive, app_nil_r in FN. apply fines_app in FN as [_ FN]; [exact FN|apply tied_in_length]. }
  assert (forall u x v, cs = rev u ++ x ++ v -> exists m m', downward m (flat_map toks x) /\ downward m' (map g (flat_map toks x)) /\ fines (tied_in deep b k cs u x) (flat_map toks x)) as SEG.
  { intros u x v E. destruct (SUF u (x ++ v) E) as (m & m' & A1 & A2 & A3). rewrite flat_map_app in *. rewrite map_app in A2.
    apply (downward_part []) in A1 as (m1 & A1). apply (downward_part []) in A2 as (m2 & A2). exists m1, m2. split; [exact A1|]. split; [exact A2|].
    rewrite tied_in_app in A3. apply fines_app in A3 as [A3 _]; [exact A3|apply tied_in_length]. }
  constructor.
  - rewrite !wide_why, (always_wide_map g).
    assert (by_span k && long_enough k (map (tmap g) cs) = false /\ by_span k && long_enough k cs = false) as [-> ->].
    { unfold long_enough. rewrite map_length. destruct k; cbn [delicate by_span andb] in *; auto; discriminate. }
    cbn [andb orb]. rewrite !orb_false_r. f_equal. destruct (by_apart k) eqn:B; [|reflexivity]. cbn [andb].
    assert (forall u o x c y, cs = rev u ++ CTok o :: x ++ CTok c :: y -> opens k o = true -> closes k c = true ->
      (line (tstart (g o)) <? line (tstart (g c))) = (line (tstart o) <? line (tstart c))) as Z.
    { intros u o x c y E O C. apply (kin_start g G (flat_map toks x)).
      assert (cs = rev u ++ (CTok o :: x ++ [CTok c]) ++ y) as E2 by (rewrite E; cbn [app]; rewrite <- app_assoc; reflexivity).
      destruct (SEG _ _ _ E2) as (m & m' & A1 & A2 & A3).
      replace (flat_map toks (CTok o :: x ++ [CTok c])) with (o :: flat_map toks x ++ [c]) in * by (cbn [flat_map toks app]; rewrite flat_map_app; reflexivity).
      eapply fines_kin; [exact A1|exact A2| | |exact A3].
      - rewrite tied_in_length. cbn [flat_map toks app]. rewrite flat_map_app. reflexivity.
      - cbn [tied_in tied app List.tl]. apply tied_in_true; [discriminate|]. intros x1 d y1 E3.
        destruct (pair_alone k u o x c y B) as (N1 & N2 & N3); auto; [rewrite <- E; exact L|].
        assert (existsb (is_closing k) x1 = false) as N4.
        { destruct (@exists_last _ (d :: y1)) as (y2 & z & E4); [discriminate|]. rewrite E4, app_assoc in E3. apply app_inj_tail in E3 as [E3 _]. rewrite E3, existsb_app in N3. apply orb_false_iff in N3. apply N3. }
        assert (forall w, existsb (is_closing k) (rev w) = existsb (is_closing k) w) as RV.
        { clear. induction w as [|d w IH]; [reflexivity|]. cbn [rev existsb]. rewrite existsb_app, IH. cbn [existsb]. rewrite orb_false_r. apply orb_comm. }
        unfold in_brackets. rewrite bracketed_apart, B, !existsb_app. cbn [existsb is_opening]. rewrite O, !RV, N4, N2, <- (RV u), N1. cbn. rewrite !orb_true_r. reflexivity. }
    assert (map (tmap (fun t => t)) cs = cs) as ID.
    { clear. assert (forall c, tmap (fun t => t) c = c) as H.
      { clear. induction c as [t|k cs IH] using child_ind2; [reflexivity|]. cbn [tmap]. f_equal. induction IH as [|d r D _ I]; [reflexivity|]. cbn [map]. rewrite D, I. reflexivity. }
      induction cs as [|c cs IH]; [reflexivity|]. cbn [map]. rewrite H, IH. reflexivity. }
    apply eq_true_iff_eq. split; intro A.
    + apply (apart_split k cs B L g (re_kind g G)) in A as (u & o & x & c & y & E & O & C & LT). apply N.ltb_lt in LT. rewrite (Z _ _ _ _ _ E O C) in LT. apply N.ltb_lt in LT.
      rewrite <- ID, E. apply split_apart; auto.
    + rewrite <- ID in A. apply (apart_split k cs B L (fun t => t) (fun t => eq_refl)) in A as (u & o & x & c & y & E & O & C & LT). apply N.ltb_lt in LT. rewrite <- (Z _ _ _ _ _ E O C) in LT. apply N.ltb_lt in LT.
      rewrite E. apply split_apart; auto. apply (re_kind g G).
  - intros u d v E. assert (cs = rev u ++ [d] ++ v) as E2 by exact E. destruct (SEG _ _ _ E2) as (m & m' & A1 & A2 & A3). cbn [flat_map] in A1, A2, A3. rewrite app_nil_r in A1, A2, A3.
    cbn [tied_in] in A3. rewrite app_nil_r in A3. assert (In d cs) as ID by (rewrite E; apply in_or_app; right; left; reflexivity).
    rewrite Forall_forall in IH, FC. split; [|split].
    + assert (forall s, operates k s = false) as OP by (intro s; destruct k; cbn [delicate] in DL; try discriminate; destruct s; reflexivity).
      unfold turns. destruct (last_of (map (tmap g) u)), (map (tmap g) v), (last_of u), v; rewrite ?OP; reflexivity.
    + intro V. unfold multi_if. rewrite kin_spans; auto.
      * rewrite (toks_map g). f_equal. destruct (toks d); cbn [map]; rewrite ?(re_kind g G); reflexivity.
      * assert (exists dk ds, d = CTree dk ds /\ delicate dk ds = true) as (dk & ds & -> & DD).
        { destruct d as [t|dk ds]; [destruct k; cbn in V; discriminate|]. exists dk, ds. split; [reflexivity|]. destruct k; cbn in V; try discriminate; destruct dk; try discriminate; reflexivity. }
        rewrite (tied_delicate _ _ _ _ DD) in A3. eapply fines_kin; [exact A1|exact A2|apply tied_length| |exact A3].
        rewrite (tied_head _ (FC _ ID)). cbn [List.tl]. pose proof (all_tied (CTree dk ds)) as A. destruct (tied true true (CTree dk ds)); [constructor|]. inversion A; assumption.
    + eapply IH; eauto.
Qed.
End Fine.

(** ** Where empty lines are kept *)
Definition inner (k : skind) : bool :=
  existsb (skind_eqb k)
    [KConnectEquation; KConditionAttribute; KComponentDeclaration; KInheritanceModification; KArgumentOrInheritanceModificationList; KClassOrInheritanceModification;
     KElementRedeclaration; KDeclaration; KComponentDeclaration1; KTypePrefix; KComponentClause1; KBasePrefix;
     KShortClassSpecifier; KClassPrefixes; KShortClassDefinition; KConstrainingClause; KElementReplaceable; KModificationExpression;
     KModification; KElementModification; KElementModificationOrReplaceable; KArgument; KArgumentList; KImportList;
     KClassModification; KAnnotationClause; KDescriptionString; KDescription; KEnumerationLiteral; KEnumList; KRelationalOperator;
     KMulOperator; KArrayArgumentsNonFirst; KArrayArguments; KExpressionList; KOutputExpressionList; KForIndex; KForIndices;
     KFunctionArgumentsNonFirst; KName; KTypeSpecifier; KFunctionArgument; KNamedArgument; KNamedArguments; KFunctionPartialApplication;
     KFunctionArguments; KFunctionCallArgs; KSubscript; KArraySubscripts; KComponentReference; KPrimary; KFactor; KTerm; KAddOperator;
     KArithmeticExpression; KRelation; KLogicalFactor; KLogicalTerm; KLogicalExpression; KSimpleExpression; KExpression].
Definition fragile (k : skind) : bool :=
  match k with KComponentList | KClassOrInheritanceModification => true | _ => delicate k [] end.
Definition keeps_here (k : skind) (prev : option sym) (d : sym) : bool :=
  match fixed_position k prev d with Some (Below Kept) => true | _ => false end.
Definition keeper (k : skind) : bool :=
  match k with
  | KStoredDefinition | KElementList | KEquationSection | KAlgorithmSection | KIfEquation | KIfStatement | KForEquation | KForStatement
  | KWhenEquation | KWhenStatement | KWhileStatement => true
  | _ => false
  end.
Definition inner_sym (s : sym) : bool := match s with Term _ => true | Rule k => inner k end.
Definition outer_sym (s : sym) : bool := match s with Rule KStoredDefinition => false | _ => true end.
Definition ending_sym (s : sym) : bool := match s with Term t => ending t | Rule _ => false end.
Definition empties_ok (k : skind) : bool :=
  implb (inner k || fragile k || bracketed k)
    (negb (keeper k) && forallb inner_sym (firsts (prod k)) && forallb (fun p => inner_sym (snd p)) (pairs (prod k))) &&
  forallb outer_sym (firsts (prod k)) && forallb (fun p => outer_sym (snd p)) (pairs (prod k)) &&
  forallb (fun s => implb (keeps_here k None s) (skind_eqb k KStoredDefinition)) (firsts (prod k)) &&
  forallb (fun p => implb (keeps_here k (Some (fst p)) (snd p)) (ending_sym (fst p))) (pairs (prod k)).
Lemma empties_checked : forallb empties_ok all_skinds = true.
Proof. vm_compute. reflexivity. Qed.
Lemma keeps_keeper k prev d : keeps_here k prev d = true -> keeper k = true.
Proof. unfold keeps_here, fixed_position. destruct k; try discriminate; try reflexivity. all: destruct d as [t|k']; try destruct t; try destruct k'; try discriminate; destruct (external_part prev); discriminate. Qed.
Lemma position_kept k w turn m l s prev d : position_of k w turn m l s prev d = Below Kept -> keeps_here k prev d = true.
Proof.
  unfold position_of, keeps_here. destruct (fixed_position k prev d) as [[| | |[]]|]; try discriminate; auto.
  destruct (_ || _); [discriminate|]. destruct prev as [[t|k']|]; try discriminate. destruct k'; try discriminate. destruct s; discriminate.
Qed.
Lemma delicate_fragile k cs : delicate k cs = true -> fragile k = true.
Proof. destruct k; try discriminate; reflexivity. Qed.
(** What the table says about a child. *)
Lemma child_facts k cs u d v : fits (CTree k cs) -> cs = rev u ++ d :: v ->
  (inner k || fragile k || bracketed k = true -> keeper k = false /\ inner_sym (sym_of d) = true) /\ outer_sym (sym_of d) = true /\
  match u with [] => keeps_here k None (sym_of d) = true -> k = KStoredDefinition
             | a :: _ => keeps_here k (Some (sym_of a)) (sym_of d) = true -> ending_sym (sym_of a) = true end.
Proof.
  intros F E. inversion F as [|? ? _ L _]; subst. pose proof (skind_all _ empties_checked k) as K. unfold empties_ok in K.
  apply andb_true_iff in K as [K K5]. apply andb_true_iff in K as [K K4]. apply andb_true_iff in K as [K K3]. apply andb_true_iff in K as [K1 K2].
  rewrite forallb_forall in K2, K3, K4, K5. destruct u as [|a u].
  - cbn [rev app map] in L. apply firsts_complete in L. split; [|split; [apply K2, L|]].
    + intro H. rewrite H in K1. cbn [implb] in K1. apply andb_true_iff in K1 as [K1 _]. apply andb_true_iff in K1 as [K1 K6]. rewrite forallb_forall in K6.
      apply negb_true_iff in K1. auto.
    + intro H. specialize (K4 _ L). rewrite H in K4. apply skind_eqb_eq, K4.
  - cbn [rev] in L. rewrite <- app_assoc in L. cbn [app] in L. apply neighbours in L. split; [|split; [apply (K3 _ L)|]].
    + intro H. rewrite H in K1. cbn [implb] in K1. apply andb_true_iff in K1 as [K1 K7]. apply andb_true_iff in K1 as [K1 _]. rewrite forallb_forall in K7.
      apply negb_true_iff in K1. split; [exact K1|]. apply (K7 _ L).
    + intro H. specialize (K5 _ L). cbn [fst snd] in K5. rewrite H in K5. exact K5.
Qed.

Fixpoint chain (z : token) (fl : list bool) (xs : list spot) : Prop :=
  match fl, xs with
  | f :: fl', x :: xs' => (at_pos x = Below Kept -> ending (tkind_of z) = true /\ f = false) /\ chain (at_tok x) fl' xs'
  | _, _ => True
  end.
Definition chains (fl : list bool) (xs : list spot) : Prop :=
  match fl, xs with _ :: fl', x :: xs' => chain (at_tok x) fl' xs' | _, _ => True end.
Lemma chain_join fl1 : forall z xs1 l x fl2 xs2, length fl1 = length xs1 -> xs1 = l ++ [x] -> chain z fl1 xs1 -> chain (at_tok x) fl2 xs2 -> chain z (fl1 ++ fl2) (xs1 ++ xs2).
Proof.
  induction fl1 as [|f fl1 IH]; intros z [|y xs1] l x fl2 xs2 L E C1 C2; try discriminate; [destruct l; discriminate|].
  cbn [app chain] in *. destruct C1 as [C0 C1]. split; [exact C0|]. injection L as L. destruct l as [|y' l]; cbn [app] in E; injection E as -> E.
  - subst xs1. destruct fl1; [exact C2|discriminate].
  - eapply IH; eauto.
Qed.
Lemma chains_join fl1 xs1 l x fl2 xs2 : length fl1 = length xs1 -> xs1 = l ++ [x] -> chains fl1 xs1 -> chain (at_tok x) fl2 xs2 -> chains (fl1 ++ fl2) (xs1 ++ xs2).
Proof.
  destruct fl1 as [|f fl1], xs1 as [|y xs1]; intros L E C1 C2; try discriminate; [destruct l; discriminate|]. cbn [app chains] in *. injection L as L.
  destruct l as [|y' l]; cbn [app] in E; injection E as -> E.
  - subst xs1. destruct fl1; [exact C2|discriminate].
  - eapply chain_join; eauto.
Qed.

Lemma first_pos c : fits c -> outer_sym (sym_of c) = true -> forall q pos first n on inh x r,
  spots q pos first n on inh c = x :: r -> at_pos x = Below Kept -> pos = Below Kept.
Proof.
  induction c as [t|k cs IH] using child_ind2; intros F O q pos first n on inh x r E K.
  - cbn [spots] in E. injection E as <- _. exact K.
  - rewrite spots_tree in E. destruct cs as [|d v]; [discriminate|]. destruct (child_facts k (d :: v) [] d v F eq_refl) as (_ & OD & KN).
    inversion F as [|? ? _ _ FC]; subst. inversion FC as [|? ? FD _]; subst. inversion IH as [|? ? ID _]; subst. cbn [children] in E.
    set (p := position_of _ _ _ _ _ _ _ _) in E. assert (p <> Below Kept) as NP.
    { intro H. apply position_kept in H. apply KN in H. subst k. discriminate O. }
    match type of E with spots _ ?a ?b ?c ?e ?f d ++ _ = _ => destruct (spots k a b c e f d) as [|y ys] eqn:ES end.
    + apply (f_equal (map at_tok)) in ES. rewrite spots_toks in ES. apply toks_some in FD. contradiction.
    + cbn [app] in E. injection E as -> _. specialize (ID FD OD _ _ _ _ _ _ _ _ ES K). destruct p as [| | |[]]; auto; try discriminate. contradiction.
Qed.
Lemma spots_length c q pos first n on inh deep b : length (tied deep b c) = length (spots q pos first n on inh c).
Proof. rewrite tied_length, <- (spots_toks c q pos first n on inh), map_length. reflexivity. Qed.
Lemma spots_chain c : fits c -> forall deep, (deep = true -> inner_sym (sym_of c) = true) -> forall b q pos first n on inh,
  chains (tied deep b c) (spots q pos first n on inh c).
Proof.
  induction c as [t|k cs IH] using child_ind2; intros F deep H b q pos first n on inh; [exact I|]. rewrite tied_tree, spots_tree.
  generalize (wide k cs inh). intro w.
  assert (forall v u n on, cs = rev u ++ v ->
    match u with [] => chains (tied_in deep b k cs u v) (children k w cs pos first u n on v)
               | a :: _ => forall z l, toks a = l ++ [z] -> chain z (tied_in deep b k cs u v) (children k w cs pos first u n on v) end) as G; [|apply (G cs [] n on eq_refl)].
  induction v as [|d v IHv]; intros u n1 on1 E.
  { destruct u; [exact I|]. intros; exact I. }
  destruct (child_facts k cs u d v F E) as (KI & OD & KN). inversion F as [|? ? _ _ FC]; subst.
  assert (In d (rev u ++ d :: v)) as ID by (apply in_or_app; right; left; reflexivity).
  rewrite Forall_forall in IH, FC. pose proof (FC d ID) as FD.
  cbn [tied_in children]. set (here := deep || delicate k _ || in_brackets k u). set (p := position_of _ _ _ _ _ _ _ _).
  assert (here = true -> keeper k = false /\ inner_sym (sym_of d) = true) as HH.
  { intro HT. apply KI. unfold here in HT. apply orb_true_iff in HT as [HT|HT]; [apply orb_true_iff in HT as [HT|HT]|].
    - subst deep. specialize (H eq_refl). cbn [sym_of inner_sym] in H. rewrite H. reflexivity.
    - apply delicate_fragile in HT. rewrite HT, orb_true_r. reflexivity.
    - unfold in_brackets in HT. apply andb_true_iff in HT as [HT _]. apply andb_true_iff in HT as [HT _]. rewrite HT, !orb_true_r. reflexivity. }
  match goal with |- context [spots k ?a ?b0 ?c0 ?e ?f d] => set (xs1 := spots k a b0 c0 e f d); set (pos1 := a) in xs1 end.
  assert (exists l x, xs1 = l ++ [x] /\ exists l', toks d = l' ++ [at_tok x]) as (l & x & EX & l' & ET).
  { destruct (@exists_last _ xs1) as (l & x & EX).
    - intro N. apply (f_equal (map at_tok)) in N. unfold xs1 in N. rewrite spots_toks in N. apply toks_some in FD. contradiction.
    - exists l, x. split; [exact EX|]. exists (map at_tok l). assert (map at_tok xs1 = toks d) as M by apply spots_toks. rewrite <- M, EX, map_app. reflexivity. }
  match goal with |- context [tied here ?bb d] => set (b1 := bb) end.
  assert (length (tied here b1 d) = length xs1) as LEN by apply spots_length.
  assert (chains (tied here b1 d) xs1) as C1 by (apply IH; auto; apply HH).
  assert (rev u ++ d :: v = rev (d :: u) ++ v) as E2 by (cbn [rev]; rewrite <- app_assoc; reflexivity).
  match goal with |- context [children k w _ pos first (d :: u) ?nn ?oo v] => pose proof (IHv (d :: u) nn oo E2 (at_tok x) l' ET) as C2 end.
  destruct u as [|a u].
  - eapply chains_join; [exact LEN|exact EX|exact C1|exact C2].
  - intros z lz EZ. eapply chain_join; [exact LEN|exact EX| |exact C2].
    rewrite (tied_head d FD) in C1 |- *. destruct xs1 as [|y xs] eqn:E1; [destruct l; discriminate|]. cbn [chains chain] in *. split; [|exact C1].
    intro K. assert (pos1 = Below Kept) as P1.
    { unfold xs1 in E1. eapply first_pos; eauto. }
    unfold pos1 in P1. apply position_kept in P1. change (kind_last (a :: u)) with (Some (sym_of a)) in P1. change (kind_of d) with (sym_of d) in P1.
    pose proof (KN P1) as EA. split.
    + destruct a as [ta|]; [|discriminate]. cbn [toks] in EZ. assert (ta = z) as <- by (destruct lz as [|? [|]]; cbn [app] in EZ; congruence). exact EA.
    + unfold b1. destruct here; [|reflexivity]. apply keeps_keeper in P1. destruct (HH eq_refl). congruence.
Qed.

(** ** Items *)
(** Groups of comments with the token behind them; [zk]: the kind of the token in front. *)
Inductive grouped : tkind -> N -> N -> list bool -> list token -> list token -> Prop :=
| gr_end zk ln ln' cs cs' : Forall (fun c => commentary c = true) cs -> Forall (fun c => commentary c = true) cs' -> grouped zk ln ln' [] cs cs'
| gr_token zk ln ln' b bs cs cs' t t' r r' :
    Forall (fun c => commentary c = true) cs -> Forall (fun c => commentary c = true) cs' -> length cs = length cs' ->
    commentary t = false -> tkind_of t' = tkind_of t -> ttext t' = ttext t -> tidx t' = tidx t ->
    (cs = [] /\ cs' = [] /\ ln <= line (tstart t) /\ ln' <= line (tstart t') /\
       (b = true -> (0 <? line (tstart t) - ln) = (0 <? line (tstart t') - ln')) /\
       (b = false -> ending zk = true -> (1 <? line (tstart t) - ln) = (1 <? line (tstart t') - ln'))
     \/ near ln ln' (cs ++ [t]) (cs' ++ [t'])) ->
    grouped (tkind_of t) (line (tend t)) (line (tend t')) bs r r' -> grouped zk ln ln' (b :: bs) (cs ++ t :: r) (cs' ++ t' :: r').

Lemma remark_commentary t : remark t = commentary t.
Proof. unfold remark, commentary. destruct (tkind_of t); reflexivity. Qed.
Lemma same_height t t' ln ln' r r' : downward ln (t :: r) -> downward ln' (t' :: r') -> ttext t' = ttext t ->
  ln <= line (tstart t) /\ ln' <= line (tstart t') /\ line (tstart t) <= line (tend t) /\ line (tstart t') <= line (tend t') /\
  close (line (tend t) - line (tstart t)) (line (tend t') - line (tstart t')).
Proof. cbn [downward]. intros (A & B & _) (A' & B' & _) E. unfold height in *. rewrite E in B'. unfold close. repeat split; lia. Qed.
Definition numbered (l l' : list token) : Prop := Forall2 (fun t t' => tidx t' = tidx t) l l'.
Lemma loose_grouped l : forall z z' bs l', loose z z' bs l l' -> downward (line (tend z)) l -> downward (line (tend z')) l' -> numbered l l' ->
  (remark z = false -> grouped (tkind_of z) (line (tend z)) (line (tend z')) bs l l') /\
  (remark z = true -> bs = [] /\ Forall (fun c => commentary c = true) l /\ Forall (fun c => commentary c = true) l' \/
     exists b bs' cs cs' t t' r r', bs = b :: bs' /\ l = cs ++ t :: r /\ l' = cs' ++ t' :: r' /\
       Forall (fun c => commentary c = true) cs /\ Forall (fun c => commentary c = true) cs' /\ length cs = length cs' /\
       commentary t = false /\ tkind_of t' = tkind_of t /\ ttext t' = ttext t /\ tidx t' = tidx t /\
       near (line (tend z)) (line (tend z')) (cs ++ [t]) (cs' ++ [t']) /\
       grouped (tkind_of t) (line (tend t)) (line (tend t')) bs' r r').
Proof.
  induction l as [|y l IH]; intros z z' bs l' L D D' N.
  { inversion L; subst. split; [intro; constructor; constructor|]. intros _. left. auto. }
  inversion L as [|? ? ? ? y' ? r' R K T G L1|? ? b bs1 ? y' ? r' R K T G1 G2 G3 L1]; subst; inversion N as [|? ? ? ? IX N1]; subst.
  - pose proof (same_height _ _ _ _ _ _ D D' T) as (A1 & A2 & A3 & A4 & A5). assert (D1 := D). assert (D1' := D'). cbn [downward] in D1, D1'. destruct D1 as (_ & _ & D1), D1' as (_ & _ & D1').
    assert (commentary y = true) as CY by (rewrite <- remark_commentary; exact R). assert (commentary y' = true) as CY' by (unfold commentary in *; rewrite K; exact CY).
    destruct (IH _ _ _ _ L1 D1 D1' N1) as [_ H]. specialize (H R).
    assert (forall cs cs' t t', near (line (tend y)) (line (tend y')) (cs ++ [t]) (cs' ++ [t']) -> near (line (tend z)) (line (tend z')) ((y :: cs) ++ [t]) ((y' :: cs') ++ [t'])) as NC.
    { intros cs cs' t t' NR. cbn [app]. constructor; auto. }
    destruct H as [(-> & F1 & F2)|(b & bs' & cs & cs' & t & t' & r1 & r1' & -> & -> & -> & F1 & F2 & LE & C & KT & TT & IT & NR & GR)].
    + split; intros _; [constructor; auto|left; auto].
    + split; intros _.
      * change (y :: cs ++ t :: r1) with ((y :: cs) ++ t :: r1). change (y' :: cs' ++ t' :: r1') with ((y' :: cs') ++ t' :: r1'). constructor; auto. cbn [length]. congruence.
      * right. exists b, bs', (y :: cs), (y' :: cs'), t, t', r1, r1'. cbn [length]. repeat (split; auto).
  - pose proof (same_height _ _ _ _ _ _ D D' T) as (A1 & A2 & A3 & A4 & A5). assert (D1 := D). assert (D1' := D'). cbn [downward] in D1, D1'. destruct D1 as (_ & _ & D1), D1' as (_ & _ & D1').
    assert (commentary y = false) as CY by (rewrite <- remark_commentary; exact R).
    destruct (IH _ _ _ _ L1 D1 D1' N1) as [H _]. specialize (H R). split; intro RZ.
    + apply (gr_token _ _ _ b bs1 [] [] y y' l r'); auto. left. unfold breaks in *. repeat (split; auto).
    + right. exists b, bs1, [], [], y, y', l, r'. repeat (split; auto). cbn [app]. specialize (G1 RZ). constructor; auto. constructor.
Qed.
Lemma loosely_grouped l l' bs zk : loosely bs l l' -> downward 1 l -> downward 1 l' -> numbered l l' -> grouped zk 1 1 bs l l'.
Proof.
  intros L D D' N. inversion L as [|? y y' r r' R K T G L1|b bs1 y y' r r' R K T G L1]; subst; [constructor; constructor| |]; inversion N as [|? ? ? ? IX N1]; subst;
    pose proof (same_height _ _ _ _ _ _ D D' T) as (A1 & A2 & A3 & A4 & A5); assert (D1 := D); assert (D1' := D'); cbn [downward] in D1, D1'; destruct D1 as (_ & _ & D1), D1' as (_ & _ & D1');
    destruct (loose_grouped _ _ _ _ _ L1 D1 D1' N1) as [H1 H2].
  - assert (commentary y = true) as CY by (rewrite <- remark_commentary; exact R). assert (commentary y' = true) as CY' by (unfold commentary in *; rewrite K; exact CY).
    destruct (H2 R) as [(-> & F1 & F2)|(b & bs' & cs & cs' & t & t' & r1 & r1' & -> & -> & -> & F1 & F2 & LE & C & KT & TT & IT & NR & GR)]; [constructor; auto|].
    change (y :: cs ++ t :: r1) with ((y :: cs) ++ t :: r1). change (y' :: cs' ++ t' :: r1') with ((y' :: cs') ++ t' :: r1'). constructor; auto; [cbn [length]; congruence|].
    right. cbn [app]. constructor; auto. unfold close. lia.
  - apply (gr_token _ _ _ b bs1 [] [] y y' r r'); auto; [rewrite <- remark_commentary; exact R|]. right. cbn [app]. constructor; auto; [unfold close; lia|constructor].
Qed.

Lemma near_last a : forall ln ln' a' t t', near ln ln' (a ++ [t]) (a' ++ [t']) -> length a = length a' ->
  ln <= line (tstart t) /\ ln' <= line (tstart t') /\ close (line (tstart t) - ln) (line (tstart t') - ln').
Proof.
  induction a as [|c a IH]; intros ln ln' [|c' a'] t t' N L; try discriminate; cbn [app] in N; inversion N; subst; [auto|].
  injection L as L. match goal with H : near _ _ (a ++ _) _ |- _ => destruct (IH _ _ _ _ _ H L) as (B1 & B2 & B3) end. split; [lia|]. split; [lia|].
  apply (close_step ln ln' (line (tstart c)) (line (tstart c'))); auto; try lia. apply (close_step _ _ (line (tend c)) (line (tend c'))); auto.
Qed.
(** The breaks between tokens that belong together. *)
Fixpoint fine2 (ln ln' : N) (fl : list bool) (ts ts' : list token) : Prop :=
  match fl, ts, ts' with
  | f :: fl', t :: r, t' :: r' => (f = true -> (ln <? line (tstart t)) = (ln' <? line (tstart t'))) /\ fine2 (line (tend t)) (line (tend t')) fl' r r'
  | _, _, _ => True
  end.
Lemma grouped_fine zk ln ln' bs l l' : grouped zk ln ln' bs l l' -> fine2 ln ln' bs (filter plain l) (filter plain l').
Proof.
  induction 1 as [zk ln ln' cs cs' F F'|zk ln ln' b bs cs cs' t t' r r' F F' LE C K T IX G GR IH]; [exact I|].
  rewrite !filter_app, (comments_plain cs F), (comments_plain cs' F'). cbn [app filter].
  assert (plain t = true) as -> by (unfold plain; unfold commentary in C; rewrite C; reflexivity).
  assert (plain t' = true) as -> by (unfold plain; unfold commentary in C; rewrite K, C; reflexivity).
  cbn [fine2]. split; [|exact IH]. intro B. apply eq_true_iff_eq. rewrite !N.ltb_lt. destruct G as [(_ & _ & A1 & A2 & G & _)|G].
  - specialize (G B). apply eq_iff_eq_true in G. rewrite !N.ltb_lt in G. lia.
  - apply near_last in G as (A1 & A2 & G); [|exact LE]. unfold close in G. lia.
Qed.
Lemma fine2_fine g bs : forall ln ln' ts, fine2 ln ln' bs ts (map g ts) -> fines g bs ts.
Proof.
  assert (forall bs z ts, fine2 (line (tend z)) (line (tend (g z))) bs ts (map g ts) -> fine g z bs ts) as H.
  { induction bs0 as [|b bs0 IH]; intros z [|t ts] F; cbn [fine]; try exact I. cbn [map fine2] in F. destruct F as [F1 F2]. split; [|apply IH, F2].
    intro B. unfold brk. symmetry. apply F1, B. }
  intros ln ln' ts F. destruct bs as [|b bs], ts as [|t ts]; cbn [fines]; try exact I. cbn [map fine2] in F. apply H, F.
Qed.
(** The layout. *)
Theorem weave_loose zk ln ln' bs l l' : grouped zk ln ln' bs l l' -> forall p xs xs' z, tkind_of z = zk ->
  filter plain l = map at_tok xs -> filter plain l' = map at_tok xs' -> map strip xs' = map strip xs ->
  (chain z bs xs \/ chains bs xs /\ match l, l' with t :: _, t' :: _ => close (line (tstart t) - ln) (line (tstart t') - ln') | _, _ => True end) ->
  Forall2 kept (weave p ln [] l xs) (weave p ln' [] l' xs').
Proof.
  induction 1 as [zk ln ln' cs cs' F F'|zk ln ln' b bs cs cs' t t' r r' F F' LE C K T IX G GR IH]; intros p xs xs' z Z P P' S CH.
  - rewrite (comments_plain _ F) in P. rewrite (comments_plain _ F') in P'. destruct xs; [|discriminate]. destruct xs'; [|discriminate].
    assert (forall cs, Forall (fun c => commentary c = true) cs -> forall p ln acc, weave p ln acc cs [] = []) as W.
    { induction 1 as [|c l0 HC _ IHc]; intros; [reflexivity|]. cbn [weave]. rewrite is_commentary, HC. apply IHc. }
    rewrite !W by assumption. constructor.
  - assert (commentary t' = false) as C' by (unfold commentary in *; rewrite K; exact C).
    rewrite filter_app, (comments_plain cs F) in P. rewrite filter_app, (comments_plain cs' F') in P'. cbn [app filter] in P, P'.
    assert (plain t = true) as PT by (unfold plain; unfold commentary in C; rewrite C; reflexivity).
    assert (plain t' = true) as PT' by (unfold plain; unfold commentary in C'; rewrite C'; reflexivity).
    rewrite PT in P. rewrite PT' in P'. destruct xs as [|x xs]; [discriminate|]. destruct xs' as [|x' xs']; [discriminate|]. cbn [map] in *.
    assert (t = at_tok x) as -> by congruence. assert (t' = at_tok x') as -> by congruence.
    assert (strip x' = strip x) as SX by congruence. apply (f_equal (@List.tl _)) in P, P', S. cbn [List.tl] in P, P', S.
    rewrite (FmtPrinted.weave_group p ln _ x xs cs r eq_refl F C), (FmtPrinted.weave_group p ln' _ x' xs' cs' r' eq_refl F' C'). apply Forall2_app.
    + destruct G as [(-> & -> & A1 & A2 & _ & G)|G].
      * assert (SX' := SX). unfold strip in SX'. injection SX' as S1 S2 S3. unfold put. rewrite S1, S2, S3, K.
        assert (forall w q, Forall2 kept [mkE w q (at_tok x)] [mkE w q (at_tok x')]) as ONE by (intros; constructor; [unfold kept; auto|constructor]).
        destruct (at_pos x) as [| | |k0] eqn:AP; try apply ONE. cbn [filter behind app rows].
        destruct k0; try apply ONE. assert (gap_between ln' (line (tstart (at_tok x'))) = gap_between ln (line (tstart (at_tok x)))) as ->; [|apply ONE].
        destruct CH as [CH|[_ CH]]; [|apply close_gap; exact CH]. cbn [chain] in CH. destruct CH as [CH _]. destruct (CH AP) as [E1 E2]. unfold gap_between. symmetry. apply G; [exact E2|]. rewrite <- Z. exact E1.
      * apply put_near; auto.
    + replace (at_rule x') with (at_rule x) by (unfold strip in SX; congruence). rewrite K. apply (IH _ _ _ (at_tok x)); auto. left.
      destruct CH as [CH|[CH _]]; cbn [chain chains] in CH; [apply CH|exact CH].
Qed.
