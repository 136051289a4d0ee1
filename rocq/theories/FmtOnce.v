(** When formatting once is enough. *)
From Coq Require Import Sorted.
From Verif Require Import ProofBase Tokens Syntax Lexer SpecLex LexInv LexMain LexFacts ParserCore Grammar
  Tree Printer Formatter Lib ParserSem ParserFuel SpecGrammar Regex ParserGrammar ParserTree ParserFacts Recognise PropsParser
  FmtAbs FmtPlan FmtShape FmtTables FmtSound SpecLayout FmtExec FmtTop FmtFacts FmtRelex FmtNeat SpecNodes FmtTree FmtLists FmtOps
  FmtWrap SpecGaps SpecReference FmtNode FmtReference FmtSame PropsFormat PropsReference FmtBreaks FmtAgree FmtPrinted FmtStable.

(** ** Tokens with the same line breaks *)
Section Kin.
Variable g : token -> token.
Hypothesis G : relined g.
Definition kin (ts : list token) : Prop := exists bs, lined bs ts /\ lined bs (map g ts).
Lemma kin_app a b : kin (a ++ b) -> kin a /\ kin b.
Proof.
  intros (bs & L1 & L2). rewrite map_app in L2. pose proof (lined_length _ _ L1) as N. rewrite app_length in N.
  rewrite <- (firstn_skipn (length a) bs) in L1, L2.
  assert (length (firstn (length a) bs) = length a) as N1 by (rewrite List.firstn_length; lia).
  apply lined_app in L1 as [A1 B1]; [|exact N1]. apply lined_app in L2 as [A2 B2]; [|rewrite map_length; exact N1].
  split; eexists; eauto.
Qed.
Lemma tall_kin ts : existsb tall (map g ts) = existsb tall ts.
Proof. induction ts as [|t ts IH]; [reflexivity|]. cbn [map existsb]. rewrite IH, (re_tall g G). reflexivity. Qed.
Lemma kin_start ts t e : kin (t :: ts ++ [e]) -> (line (tstart (g t)) <? line (tstart (g e))) = (line (tstart t) <? line (tstart e)).
Proof.
  intros ([|b bs] & L1 & L2); [contradiction|]. cbn [map] in L2. rewrite map_app in L2. cbn [map] in L2.
  apply lined_start in L1 as [_ L1]. apply lined_start in L2 as [_ L2]. rewrite map_length in L2. change (g t :: map g ts) with (map g (t :: ts)) in L2.
  rewrite tall_kin in L2. apply eq_true_iff_eq. rewrite !N.ltb_lt, L1, L2. reflexivity.
Qed.
Lemma kin_end ts t e : kin (t :: ts ++ [e]) -> (line (tend (g t)) <? line (tstart (g e))) = (line (tend t) <? line (tstart e)).
Proof.
  intros K. destruct ts as [|m ts].
  - destruct K as ([|b [|b' bs]] & L1 & L2); try contradiction; [destruct L1 as (_ & _ & [])|]. cbn [map app lined] in *.
    destruct L1 as (_ & L1 & _), L2 as (_ & L2 & _). apply eq_true_iff_eq. rewrite !N.ltb_lt. destruct b'; lia.
  - pose proof K as K1. change (t :: (m :: ts) ++ [e]) with ([t] ++ m :: ts ++ [e]) in K1. apply kin_app in K1 as [_ K1]. apply kin_start in K1.
    apply eq_iff_eq_true in K1. apply eq_true_iff_eq. rewrite !N.ltb_lt in *.
    destruct K as ([|b [|b' bs]] & L1 & L2); try contradiction; [destruct L1 as (_ & _ & [])|].
    assert (forall f : token -> token, lined (b :: b' :: bs) (map f (t :: m :: ts ++ [e])) -> line (tstart (f m)) <= line (tstart (f e)) /\ if b' then line (tend (f t)) < line (tstart (f m)) else line (tend (f t)) = line (tstart (f m))) as Z.
    { intros f L. cbn [map] in L. rewrite map_app in L. cbn [map] in L. destruct L as (_ & A & L). apply lined_start in L as [L _]. split; [exact L|exact A]. }
    destruct (Z (fun x => x)) as [Z1 Z2]; [rewrite map_id; exact L1|]. destruct (Z g L2) as [Y1 Y2]. destruct b'; lia.
Qed.
Lemma kin_spans c : kin (toks c) -> spans (tmap g c) = spans c.
Proof.
  intros (bs & L1 & L2). destruct bs as [|b bs].
  - destruct (toks c) eqn:E; [|contradiction]. unfold spans, first_line, last_line. rewrite (toks_map g), E. reflexivity.
  - apply eq_true_iff_eq. rewrite (spans_bits b bs c L1). rewrite (spans_bits b bs (tmap g c)) by (rewrite (toks_map g); exact L2).
    rewrite (toks_map g), tall_kin. reflexivity.
Qed.
Lemma kin_child k u d v : kin (toks (CTree k (rev u ++ d :: v))) -> kin (toks d).
Proof.
  intro K. cbn [toks] in K. rewrite flat_map_app in K. apply kin_app in K as [_ K]. cbn [flat_map] in K. apply kin_app in K as [K _]. exact K.
Qed.
Lemma kin_apart k cs : by_apart k = true -> fits (CTree k cs) -> kin (toks (CTree k cs)) -> brackets_apart k (map (tmap g) cs) = brackets_apart k cs.
Proof.
  intros B F K. assert (lang (prod k) (map sym_of cs)) as L by (inversion F; assumption).
  assert (forall u o x c y, cs = rev u ++ CTok o :: x ++ CTok c :: y -> (line (tstart (g o)) <? line (tstart (g c))) = (line (tstart o) <? line (tstart c))) as Z.
  { intros u o x c y E. apply (kin_start (flat_map toks x)). cbn [toks] in K. rewrite E, flat_map_app in K. apply kin_app in K as [_ K].
    cbn [flat_map toks app] in K. rewrite flat_map_app in K. cbn [flat_map toks app] in K.
    replace (o :: flat_map toks x ++ c :: flat_map toks y) with ((o :: flat_map toks x ++ [c]) ++ flat_map toks y) in K by (cbn [app]; rewrite <- app_assoc; reflexivity).
    apply kin_app in K as [K _]. exact K. }
  assert (map (tmap (fun t => t)) cs = cs) as ID.
  { clear. assert (forall c, tmap (fun t => t) c = c) as H.
    { clear. induction c as [t|k cs IH] using child_ind2; [reflexivity|]. cbn [tmap]. f_equal. induction IH as [|d r D _ I]; [reflexivity|]. cbn [map]. rewrite D, I. reflexivity. }
    induction cs as [|c cs IH]; [reflexivity|]. cbn [map]. rewrite H, IH. reflexivity. }
  apply eq_true_iff_eq. split; intro A.
  - apply (apart_split k cs B L g (re_kind g G)) in A as (u & o & x & c & y & E & O & C & LT). apply N.ltb_lt in LT. rewrite (Z _ _ _ _ _ E) in LT. apply N.ltb_lt in LT.
    rewrite <- ID, E. apply split_apart; auto.
  - rewrite <- ID in A. apply (apart_split k cs B L (fun t => t) (fun t => eq_refl)) in A as (u & o & x & c & y & E & O & C & LT). apply N.ltb_lt in LT. rewrite <- (Z _ _ _ _ _ E) in LT. apply N.ltb_lt in LT.
    rewrite E. apply split_apart; auto. apply (re_kind g G).
Qed.
Lemma kin_wide k cs inh : fits (CTree k cs) -> kin (toks (CTree k cs)) -> wide k (map (tmap g) cs) inh = wide k cs inh.
Proof.
  intros F K. rewrite !wide_why, (always_wide_map g). pose proof (kin_spans _ K) as S. cbn [tmap] in S. rewrite S.
  unfold long_enough. destruct (by_apart k) eqn:B; [rewrite (kin_apart _ _ B F K)|]; destruct k; rewrite ?map_length; reflexivity.
Qed.
Lemma kin_turns k u d v : Forall fits (rev u ++ d :: v) -> kin (toks (CTree k (rev u ++ d :: v))) ->
  turns k (last_of (map (tmap g) u)) (tmap g d) (map (tmap g) v) = turns k (last_of u) d v.
Proof.
  intros F K. destruct u as [|a u]; [reflexivity|]. destruct v as [|b v]; [reflexivity|]. unfold turns. cbn [map last_of]. rewrite (kind_map g G). f_equal.
  cbn [rev] in *. rewrite <- app_assoc in *. cbn [app] in *. apply Forall_app in F as [_ F]. inversion F as [|? ? FA F1]; subst. inversion F1 as [|? ? _ F2]; subst. inversion F2 as [|? ? FB _]; subst.
  cbn [toks] in K. rewrite flat_map_app in K. apply kin_app in K as [_ K]. cbn [flat_map] in K.
  destruct (@exists_last _ (toks a)) as (ra & t & EA); [apply toks_some; exact FA|].
  destruct (toks b) as [|e rb] eqn:EB; [apply toks_some in FB; contradiction|].
  unfold last_line, first_line. rewrite !(toks_map g), EA, EB, !map_app, !rev_app_distr. cbn [map rev app].
  apply (kin_end (toks d)). rewrite EA in K. rewrite <- app_assoc in K. apply kin_app in K as [_ K].
  replace ([t] ++ toks d ++ (e :: rb) ++ flat_map toks v) with ((t :: toks d ++ [e]) ++ rb ++ flat_map toks v) in K by (cbn [app]; rewrite <- app_assoc; reflexivity).
  apply kin_app in K as [K _]. exact K.
Qed.
Theorem kin_agrees c : fits c -> kin (toks c) -> forall inh, agree g inh c.
Proof.
  induction c as [t|k cs IH] using child_ind2; intros F K inh; [constructor|]. constructor; [apply kin_wide; auto|].
  intros u d v E. assert (Forall fits cs) as FK by (inversion F; assumption). rewrite E in *.
  pose proof (kin_child _ _ _ _ K) as KD. split; [apply kin_turns; auto|]. split.
  - intros _. unfold multi_if. rewrite (kin_spans _ KD), (toks_map g). f_equal. destruct (toks d); cbn [map]; rewrite ?(re_kind g G); reflexivity.
  - rewrite Forall_forall in IH, FK. apply IH; auto; try apply FK; apply in_or_app; right; left; reflexivity.
Qed.
End Kin.

(** ** Where the lines of two texts break *)
Fixpoint marks (ts : list token) : list bool :=
  match ts with
  | a :: (b :: _) as r => (line (tend a) <? line (tstart b)) :: marks r
  | _ => []
  end.
Lemma downward_lined ts : forall b ln, downward ln ts -> ts <> [] -> lined (b :: marks ts) ts.
Proof.
  induction ts as [|t ts IH]; intros b ln D N; [contradiction|]. cbn [downward] in D. destruct D as (D1 & D2 & D3). destruct ts as [|t' ts].
  - cbn. split; [lia|]. split; exact I.
  - assert (t' :: ts <> []) as N' by discriminate. specialize (IH (line (tend t) <? line (tstart t')) _ D3 N').
    change (marks (t :: t' :: ts)) with ((line (tend t) <? line (tstart t')) :: marks (t' :: ts)).
    change (line (tstart t) <= line (tend t) /\ (if (line (tend t) <? line (tstart t')) then line (tend t) < line (tstart t') else line (tend t) = line (tstart t')) /\ lined ((line (tend t) <? line (tstart t')) :: marks (t' :: ts)) (t' :: ts)).
    split; [lia|]. split; [|exact IH]. cbn [downward] in D3. destruct D3 as (D3 & _). destruct (N.ltb_spec (line (tend t)) (line (tstart t'))); lia.
Qed.
Lemma downward_less a : forall b ln, downward b a -> ln <= b -> downward ln a.
Proof. destruct a as [|t a]; intros b ln D L; [exact I|]. cbn [downward] in *. destruct D as (D1 & D2). split; [lia|exact D2]. Qed.
Lemma downward_filter f items : forall ln, downward ln items -> downward ln (filter f items).
Proof.
  induction items as [|t items IH]; intros ln D; [exact I|]. cbn [downward filter] in *. destruct D as (D1 & D2 & D3). specialize (IH _ D3).
  destruct (f t); [cbn [downward]; auto|]. eapply downward_less; [exact IH|]. lia.
Qed.

(** ** Comments that are printed where they stand *)
Lemma weave_once xs0 : forall xs1 p ln0 ln1 items0 items1,
  downward ln0 items0 ->
  (forall a c t b, items0 = a ++ c :: t :: b -> commentary c = true -> 0 < height c -> line (tend c) < line (tstart t)) ->
  filter plain items0 = map at_tok xs0 -> filter plain items1 = map at_tok xs1 ->
  map strip xs1 = map strip xs0 -> printed ln1 (weave p ln0 [] items0 xs0) items1 ->
  Forall2 alike (weave p ln1 [] items1 xs1) (weave p ln0 [] items0 xs0).
Proof.
  induction xs0 as [|x0 xs0 IH]; intros [|x1 xs1] p ln0 ln1 items0 items1 O W E0 E1 ST P; try discriminate.
  - rewrite (weave_rest p ln1 [] items1 (no_group _ E1)), (weave_rest p ln0 [] items0 (no_group _ E0)). constructor.
  - destruct (group_of _ _ _ E0) as (cs0 & r0 & I0 & C0 & N0 & R0).
    destruct (group_of _ _ _ E1) as (cs1 & r1 & I1 & C1 & N1 & R1).
    destruct (printed_group _ _ _ _ _ _ _ _ _ O I0 C0 N0 P) as (a1 & b1 & d1 & J1 & K1 & M1 & IT1 & _ & _ & _ & PP & Q1 & OO).
    rewrite I1 in J1. destruct (group_unique _ _ _ _ _ _ J1 C1 K1 N1 M1) as (-> & <- & <-).
    cbn [map] in ST. assert (strip x1 = strip x0) as SX by congruence. apply (f_equal (@tl _)) in ST. cbn [tl] in ST.
    rewrite (weave_group _ _ _ _ _ _ _ I0 C0 N0), (weave_group _ _ _ _ _ _ _ I1 C1 N1).
    apply Forall2_app.
    + apply put_same; auto. rewrite I0 in O, W. apply downward_app in O as [O _].
      destruct (parts _ _ O) as (B & R & EC & HB & HR). exists B, R. split; [exact EC|]. split; [exact HB|]. split; [exact HR|].
      intro NZ. rewrite <- (heap_end _ _ HB).
      destruct (@exists_last _ B) as (B' & c & EB); [intros ->; apply NZ; reflexivity|].
      assert (last_height B = height c) as LH by (rewrite EB; clear; induction B' as [|y B' IHB]; [reflexivity|]; cbn [app last_height]; destruct (B' ++ [c]) eqn:Z; [destruct B'; discriminate|exact IHB]).
      rewrite EB, end_line_app. cbn [end_line].
      apply (W B' c (hd (at_tok x0) R) (match R with [] => r0 | _ :: R' => R' ++ at_tok x0 :: r0 end)).
      * rewrite EC, EB. destruct R; cbn [hd app]; rewrite <- !app_assoc; reflexivity.
      * rewrite Forall_forall in C0. apply C0. rewrite EC, EB. apply in_or_app. left. apply in_or_app. right. left. reflexivity.
      * lia.
    + assert (at_rule x1 = at_rule x0) as -> by (unfold strip in SX; congruence).
      assert (tkind_of (at_tok x1) = tkind_of (at_tok x0)) as -> by (unfold item_of in IT1; congruence).
      eapply IH; eauto. intros a c t b E. apply (W (cs0 ++ at_tok x0 :: a) c t b). rewrite I0, E, <- app_assoc. reflexivity.
Qed.

Lemma marks_same a : forall b, length a = length b ->
  (forall i x y x' y', nth_error a i = Some x -> nth_error a (S i) = Some y -> nth_error b i = Some x' -> nth_error b (S i) = Some y' ->
     (line (tend x) < line (tstart y) <-> line (tend x') < line (tstart y'))) ->
  marks a = marks b.
Proof.
  induction a as [|x a IH]; intros [|x' b] N H; try discriminate; [reflexivity|]. destruct a as [|y a], b as [|y' b]; try discriminate; [reflexivity|].
  change ((line (tend x) <? line (tstart y)) :: marks (y :: a) = (line (tend x') <? line (tstart y')) :: marks (y' :: b)). f_equal.
  - apply eq_true_iff_eq. rewrite !N.ltb_lt. apply (H 0%nat); reflexivity.
  - apply IH; [auto|]. intros i z z1 z' z1' A B C D. apply (H (S i)); assumption.
Qed.

(** ** Formatting once *)
Theorem once_stable eol s p : accepted s p -> no_lone_cr s -> is_eol eol ->
  (forall c t, In c (p_comments p) -> In t (p_tokens p ++ p_comments p) -> line (tstart c) < line (tend c) -> line (tstart t) <> line (tend c)) ->
  forall o1 p1, pretty_print eol p = Ok o1 -> accepted (o1 ++ eol) p1 ->
  (forall i x y x' y', nth_error (p_tokens p) i = Some x -> nth_error (p_tokens p) (S i) = Some y ->
     nth_error (p_tokens p1) i = Some x' -> nth_error (p_tokens p1) (S i) = Some y' ->
     (line (tend x) < line (tstart y) <-> line (tend x') < line (tstart y'))) ->
  pretty_print eol p1 = Ok o1.
Proof.
  intros ACC NC EO CM o1 p1 PO PA BR. destruct (reading_of s p ACC) as (items & tree & R0).
  destruct (FmtStable.run eol _ _ _ _ R0 NC EO) as (P0 & p1' & items1 & tree1 & R1 & NC1 & EV1 & PR1).
  assert (o1 = render eol (reference tree items)) as -> by congruence.
  pose proof (rd_accepted _ _ _ _ R1) as [A1 _]. destruct PA as [PA _]. assert (p1' = p1) as -> by congruence. clear A1.
  destruct (FmtStable.run eol _ _ _ _ R1 NC1 EO) as (P1 & _). rewrite P1. f_equal.
  destruct (run_lines _ _ _ _ _ _ _ _ R0 R1 EV1 PR1) as (g & G & ET1 & L1 & LEN).
  apply alike_render. unfold reference in *.
  pose proof (laid_downward _ _ (rd_laid _ _ _ _ R0)) as D0. pose proof (laid_downward _ _ (rd_laid _ _ _ _ R1)) as D1.
  apply weave_once; auto using (reading_spots _ _ _ _ R0), (reading_spots _ _ _ _ R1).
  - intros a c t b E C H. pose proof (laid_ends _ _ (rd_laid _ _ _ _ R0)) as LE. rewrite Forall_forall in LE.
    assert (forall z, In z items -> In z (p_tokens p ++ p_comments p)) as SPLIT.
    { intros z Z. rewrite (rd_tokens _ _ _ _ R0), (rd_comments _ _ _ _ R0). apply in_or_app. rewrite !filter_In. unfold plain, commentary. destruct (is_comment_kind (tkind_of z)); cbn; auto. }
    assert (In c items) as IC by (rewrite E; apply in_or_app; right; left; reflexivity).
    assert (In t items) as IT by (rewrite E; apply in_or_app; right; right; left; reflexivity).
    rewrite E in D0. apply downward_app in D0 as [_ D0]. cbn [downward] in D0. destruct D0 as (_ & _ & D0 & _).
    assert (line (tstart t) <> line (tend c)); [|lia]. apply CM; auto.
    + rewrite (rd_comments _ _ _ _ R0). apply filter_In. auto.
    + rewrite (LE c IC). lia.
  - rewrite ET1. apply agree_spots; [exact G|]. destruct (rd_fits _ _ _ _ R0) as (cs & E & [F|F]).
    + rewrite E, F. constructor; [reflexivity|]. intros u d v K. destruct (rev u); discriminate.
    + apply kin_agrees; auto. pose proof (toks_some _ F) as NE.
      assert (marks (toks tree) = marks (toks tree1)) as M.
      { rewrite (rd_toks _ _ _ _ R0), (rd_toks _ _ _ _ R1). apply marks_same; [|exact BR].
        rewrite <- (rd_toks _ _ _ _ R0), <- (rd_toks _ _ _ _ R1). exact LEN. }
      exists (false :: marks (toks tree)). split.
      * apply (downward_lined _ _ 1); [|exact NE]. rewrite (rd_toks _ _ _ _ R0), (rd_tokens _ _ _ _ R0). apply downward_filter. exact D0.
      * rewrite <- (toks_map g), <- ET1, M. apply (downward_lined _ _ 1).
        -- rewrite (rd_toks _ _ _ _ R1), (rd_tokens _ _ _ _ R1). apply downward_filter. exact D1.
        -- intro K. rewrite K in LEN. destruct (toks tree); [contradiction|discriminate].
Qed.
