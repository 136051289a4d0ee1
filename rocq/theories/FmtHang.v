(** What the second run changes in front of comments. *)
From Coq Require Import Sorted.
From Verif Require Import ProofBase Tokens Syntax Lexer SpecLex LexInv LexMain LexFacts ParserCore Grammar
  Tree Printer Formatter Lib ParserSem ParserFuel SpecGrammar Regex ParserGrammar ParserTree ParserFacts Recognise PropsParser
  FmtAbs FmtPlan FmtShape FmtTables FmtSound SpecLayout FmtExec FmtTop FmtFacts FmtRelex FmtNeat SpecNodes FmtTree FmtLists FmtOps
  FmtWrap SpecGaps SpecReference FmtNode FmtReference FmtSame PropsFormat PropsReference FmtBreaks FmtAgree FmtPrinted FmtStable FmtOnce
  SpecSettled FmtSettled FmtFixed SpecHang.

(** ** Layouts with more empty lines *)
Lemma alike_grown a b : Forall2 alike a b -> Forall2 grown a b.
Proof. induction 1 as [|x y a b (A & B & C) _ IH]; constructor; auto. split; auto. Qed.
Lemma alike_app a b : forall a' b', length a = length a' -> Forall2 alike (a ++ b) (a' ++ b') -> Forall2 alike a a' /\ Forall2 alike b b'.
Proof.
  induction a as [|x a IH]; intros [|x' a'] b' N F; try discriminate; [split; auto|]. inversion F; subst.
  destruct (IH a' b') as [F1 F2]; auto.
Qed.
Lemma grown_render eol l2 l1 : eol <> [] -> Forall2 grown l2 l1 ->
  (length (render eol l1) <= length (render eol l2))%nat /\ (length (render eol l1) = length (render eol l2) -> Forall2 alike l2 l1).
Proof.
  intros EO F. induction F as [|x y l2 l1 (G1 & G2 & G3) _ (IH1 & IH2)]; [split; [lia|constructor]|].
  unfold render in *. cbn [flat_map]. rewrite !app_length. assert (ttext (e_tok x) = ttext (e_tok y)) as T by congruence. rewrite T.
  destruct G3 as [E|(n & E1 & E2)].
  - rewrite E. split; [lia|]. intro L. constructor; [split; [exact E|split; [exact G1|exact G2]]|apply IH2; lia].
  - rewrite E1, E2. cbn [white_text]. destruct eol as [|z eol]; [contradiction|]. rewrite !app_length. cbn [length]. split; lia.
Qed.

(** ** One token and the comments in front of it *)
Definition hung (ln : N) (cs : list token) (x : spot) : Prop :=
  exists B R b, cs = B ++ R /\ heap ln B /\ (forall c, In c R -> ln < line (tstart c)) /\ last_height B <> 0 /\
    at_pos x = Below b /\ gap_between ln (line (tstart (hd (at_tok x) R))) = false /\ (b = Kept \/ b = Never /\ R <> []).

Lemma rows_next n r t1 t2 R1 : forall R2 b ln1 ln2 pr, item_of t2 = item_of t1 ->
  printed pr (rows b n ln1 R1 r t1) (R2 ++ [t2]) -> ln2 <= pr ->
  Forall2 grown (rows b n ln2 R2 r t2) (rows b n ln1 R1 r t1) /\
  (Forall2 alike (rows b n ln2 R2 r t2) (rows b n ln1 R1 r t1) <->
   ~ (ln2 <> pr /\ gap_between ln1 (line (tstart (hd t1 R1))) = false /\ (b = Kept \/ b = Never /\ R1 <> []))).
Proof.
  intros R2 b ln1 ln2 pr ET P L.
  destruct (N.eq_dec ln2 pr) as [E|NE].
  { assert (Forall2 alike (rows b n ln2 R2 r t2) (rows b n ln1 R1 r t1)) as F by (eapply rows_same; eauto).
    split; [apply alike_grown, F|]. split; [intros _ (K & _); contradiction|auto]. }
  assert (forall f, gap_between ln2 (pr + breaks (WLine f n)) = true) as GB.
  { intro f. unfold gap_between. cbn [breaks]. apply N.ltb_lt. destruct f; lia. }
  destruct R1 as [|c1 R1], R2 as [|c2 R2]; cbn [rows hd app printed] in *.
  - destruct P as (_ & P2 & _ & _). cbn [e_white] in P2.
    destruct b.
    + split; [constructor; [split; [reflexivity|split; [exact ET|left; reflexivity]]|constructor]|].
      split; [intros _ (_ & _ & [K|(_ & K)]); [discriminate|contradiction]|]. intros _. constructor; [split; [reflexivity|split; [reflexivity|exact ET]]|constructor].
    + rewrite P2, GB. destruct (gap_between ln1 (line (tstart t1))) eqn:G.
      * split; [constructor; [split; [reflexivity|split; [exact ET|left; reflexivity]]|constructor]|].
        split; [intros _ (_ & K & _); discriminate|]. intros _. constructor; [split; [reflexivity|split; [reflexivity|exact ET]]|constructor].
      * split; [constructor; [split; [reflexivity|split; [exact ET|right; exists n; split; reflexivity]]|constructor]|].
        split; [intro F; inversion F as [|? ? ? ? (K & _)]; cbn [e_white] in K; discriminate|]. intro K. exfalso. apply K. auto.
    + split; [constructor; [split; [reflexivity|split; [exact ET|left; reflexivity]]|constructor]|].
      split; [intros _ (_ & _ & [K|(_ & K)]); [discriminate|contradiction]|]. intros _. constructor; [split; [reflexivity|split; [reflexivity|exact ET]]|constructor].
  - destruct P as (_ & _ & _ & P). destruct R2; contradiction.
  - destruct P as (_ & _ & _ & P). destruct R1; contradiction.
  - destruct P as (P1 & P2 & P3 & P4). cbn [e_tok e_white] in *.
    assert (Forall2 alike (rows (match b with Always => Kept | _ => b end) n (line (tend c2)) R2 r t2) (rows (match b with Always => Kept | _ => b end) n (line (tend c1)) R1 r t1)) as F.
    { eapply rows_same; eauto. lia. }
    assert (c1 :: R1 <> []) as CN by discriminate.
    destruct b.
    + split; [constructor; [split; [reflexivity|split; [exact P1|left; reflexivity]]|apply alike_grown, F]|].
      split; [intros _ (_ & _ & [K|(K & _)]); discriminate|]. intros _. constructor; [split; [reflexivity|split; [reflexivity|exact P1]]|exact F].
    + rewrite P2, GB. destruct (gap_between ln1 (line (tstart c1))) eqn:G.
      * split; [constructor; [split; [reflexivity|split; [exact P1|left; reflexivity]]|apply alike_grown, F]|].
        split; [intros _ (_ & K & _); discriminate|]. intros _. constructor; [split; [reflexivity|split; [reflexivity|exact P1]]|exact F].
      * split; [constructor; [split; [reflexivity|split; [exact P1|right; exists n; split; reflexivity]]|apply alike_grown, F]|].
        split; [intro K; inversion K as [|? ? ? ? (K1 & _)]; cbn [e_white] in K1; discriminate|]. intro K. exfalso. apply K. auto.
    + rewrite P2, GB. destruct (gap_between ln1 (line (tstart c1))) eqn:G.
      * split; [constructor; [split; [reflexivity|split; [exact P1|left; reflexivity]]|apply alike_grown, F]|].
        split; [intros _ (_ & K & _); discriminate|]. intros _. constructor; [split; [reflexivity|split; [reflexivity|exact P1]]|exact F].
      * split; [constructor; [split; [reflexivity|split; [exact P1|right; exists n; split; reflexivity]]|apply alike_grown, F]|].
        split; [intro K; inversion K as [|? ? ? ? (K1 & _)]; cbn [e_white] in K1; discriminate|]. intro K. exfalso. apply K. auto.
Qed.

Lemma parts_unique ln B R B' R' : B ++ R = B' ++ R' -> heap ln B -> heap ln B' ->
  (forall c, In c R -> ln < line (tstart c)) -> (forall c, In c R' -> ln < line (tstart c)) -> B = B' /\ R = R'.
Proof.
  intros E HB HB' L L'. pose proof (f_equal (filter (fun c => line (tstart c) =? ln)) E) as E1.
  rewrite !filter_app, (proj1 (heap_filter _ _ HB)), (proj1 (heap_filter _ _ HB')), (proj1 (late_filter _ _ L)), (proj1 (late_filter _ _ L')), !app_nil_r in E1.
  subst B'. apply app_inv_head in E. auto.
Qed.

Lemma put_next p ln1 cs1 x1 ln2 cs2 x2 : downward ln1 cs1 -> strip x2 = strip x1 ->
  printed ln2 (put p ln1 cs1 x1) (cs2 ++ [at_tok x2]) ->
  Forall2 grown (put p ln2 cs2 x2) (put p ln1 cs1 x1) /\ (Forall2 alike (put p ln2 cs2 x2) (put p ln1 cs1 x1) <-> ~ hung ln1 cs1 x1).
Proof.
  intros O ST P. unfold strip in ST. injection ST as E1 E2 E3.
  destruct (is_below (at_pos x1)) eqn:BL.
  - destruct (parts _ _ O) as (B & R & -> & HB & HR).
    destruct (at_pos x1) as [| | |b] eqn:AP; try discriminate. unfold put in *. rewrite E1, E2, AP in *.
    rewrite !filter_app in *. destruct (heap_filter _ _ HB) as [F1 F2]. destruct (late_filter _ _ HR) as [F3 F4].
    rewrite F1, F2, F3, F4, app_nil_r in *. cbn [app] in *.
    apply printed_app in P as (B2 & i2 & EI & P1 & P2). apply printed_behind in P1 as [EB H2]; [|eapply heap_low; eauto].
    assert (P3 := P2). apply printed_rows in P3 as (R2 & t2 & -> & ER & ET & L). rewrite app_assoc in EI. apply app_inj_tail in EI as [-> <-].
    pose proof (heap_end _ _ H2) as EE. rewrite EE in *.
    assert (forall c, In c R2 -> ln2 < line (tstart c)) as L2.
    { intros c IC. pose proof (L c (in_or_app _ _ _ (or_introl IC))). lia. }
    rewrite !filter_app. destruct (heap_filter _ _ H2) as [K1 K2]. destruct (late_filter _ _ L2) as [K3 K4].
    rewrite K1, K2, K3, K4, app_nil_r. cbn [app].
    assert (last_height B2 = last_height B) as LH.
    { clear - EB. revert B EB. induction B2 as [|c2 B2 IH]; intros [|c B] E; try discriminate; [reflexivity|]. cbn [map] in E.
      assert (item_of c2 = item_of c) as EC by congruence. apply (f_equal (@tl _)) in E. cbn [tl] in E.
      destruct B2, B; try discriminate; [|apply (IH _ E)]. cbn [last_height]. unfold height. unfold item_of in EC. injection EC as _ ->. reflexivity. }
    pose proof (behind_same (match p with None => true | Some _ => false end) _ _ EB) as BS.
    destruct (rows_next (at_level x1) (at_rule x1) (at_tok x1) (at_tok x2) R R2 b ln1 ln2 (ln2 + last_height B2) ET P2 ltac:(lia)) as [RG RA].
    rewrite E3. split; [apply Forall2_app; [apply alike_grown, BS|exact RG]|].
    assert (hung ln1 (B ++ R) x1 <-> ln2 <> ln2 + last_height B2 /\ gap_between ln1 (line (tstart (hd (at_tok x1) R))) = false /\ (b = Kept \/ b = Never /\ R <> [])) as HU.
    { split.
      - intros (B' & R' & b' & E & HB' & HR' & LZ & AP' & G & K). destruct (parts_unique _ _ _ _ _ E HB HB' HR HR') as [-> ->].
        assert (b' = b) as -> by congruence. split; [lia|auto].
      - intros (Z & G & K). exists B, R, b. repeat (split; [first [reflexivity|assumption|lia]|]). assumption. }
    rewrite HU, <- RA. split; intro F.
    + eapply alike_app; [|exact F]. clear - BS; induction BS; cbn [length]; congruence.
    + apply Forall2_app; auto.
  - assert (Forall2 alike (put p ln2 cs2 x2) (put p ln1 cs1 x1)) as F.
    { unfold put in *. rewrite E1, E2.
      assert (forall w its t2 t1 r, printed ln2 [mkE w (Some r) t1] (its ++ [t2]) -> item_of t2 = item_of t1) as ONE.
      { intros w its t2 t1 r Q. destruct its as [|y its]; cbn [app printed] in Q; [tauto|]. destruct Q as (_ & _ & _ & Q). destruct its; contradiction. }
      destruct (at_pos x1) as [| | |b]; try discriminate.
      - apply ONE in P. constructor; [|constructor]. split; [|split; [reflexivity|exact P]]. cbn [e_white]. unfold item_of in P. injection P as -> _. reflexivity.
      - apply ONE in P. constructor; [|constructor]. split; [reflexivity|split; [reflexivity|exact P]].
      - apply ONE in P. constructor; [|constructor]. split; [reflexivity|split; [reflexivity|exact P]]. }
    split; [apply alike_grown, F|]. split; [|auto]. intros _ (B & R & b & _ & _ & _ & _ & AP & _). rewrite AP in BL. discriminate.
Qed.

(** ** Seen in the layout *)
Lemma two_kinds (f : entry -> bool) a c y b : forall L1 L2, L1 ++ L2 = a ++ c :: y :: b ->
  Forall (fun e => f e = false) L1 -> Forall (fun e => f e = true) L2 -> f c = false -> f y = true -> L1 = a ++ [c] /\ L2 = y :: b.
Proof.
  induction a as [|e a IH]; intros L1 L2 E F1 F2 C Y.
  - destruct L1 as [|e1 L1]; cbn [app] in E.
    + subst L2. inversion F2; subst. congruence.
    + injection E as -> E. destruct L1 as [|e2 L1]; cbn [app] in E; [subst; auto|]. injection E as -> _. inversion F1 as [|? ? _ F1']; subst. inversion F1'; subst. congruence.
  - destruct L1 as [|e1 L1]; cbn [app] in E.
    + subst L2. inversion F2 as [|? ? _ F2']; subst. apply Forall_app in F2' as [_ F2']. inversion F2'; subst. congruence.
    + injection E as -> E. inversion F1; subst. destruct (IH L1 L2 E) as [-> ->]; auto.
Qed.
Definition down (e : entry) : bool := match e_white e with WLine _ _ => true | _ => false end.
Lemma behind_beside first B : Forall (fun e => down e = false) (behind first B).
Proof.
  destruct B as [|c B]; [constructor|]. cbn [behind]. constructor; [destruct first; reflexivity|]. apply Forall_forall. intros e IE. apply in_map_iff in IE as (d & <- & _). reflexivity.
Qed.
Lemma rows_down n r t R : forall b ln, Forall (fun e => down e = true) (rows b n ln R r t).
Proof. induction R as [|c R IH]; intros b ln; cbn [rows]; constructor; auto. Qed.
Lemma behind_toks first B : map e_tok (behind first B) = B /\ Forall (fun e => e_rule e = None) (behind first B).
Proof.
  destruct B as [|c B]; [split; [reflexivity|constructor]|]. cbn [behind map e_tok]. rewrite map_map. cbn [e_tok]. rewrite map_id.
  split; [reflexivity|]. constructor; [reflexivity|]. apply Forall_forall. intros e IE. apply in_map_iff in IE as (d & <- & _). reflexivity.
Qed.
Lemma last_height_snoc B c : last_height (B ++ [c]) = height c.
Proof. induction B as [|y B IHB]; [reflexivity|]. cbn [app last_height]. destruct (B ++ [c]) eqn:Z; [destruct B; discriminate|exact IHB]. Qed.
Lemma heap_in ln B c : heap ln B -> In c B -> line (tstart c) = ln /\ line (tend c) = line (tstart c) + height c.
Proof. induction B as [|d B IH]; intros HB IC; [contradiction|]. cbn [heap] in HB. destruct HB as (H1 & H2 & _ & H4). destruct IC as [<-|IC]; auto. Qed.

Lemma hanging_put keep p ln cs x : downward ln (cs ++ [at_tok x]) -> (keep (at_tok x) <-> at_pos x = Below Kept) ->
  (hanging keep (put p ln cs x) <-> hung ln cs x).
Proof.
  intros O K. assert (O' := O). apply downward_app in O as [O _]. destruct (parts _ _ O) as (B & R & -> & HB & HR).
  assert (forall b, at_pos x = Below b -> put p ln (B ++ R) x = behind (match p with None => true | Some _ => false end) B ++ rows b (at_level x) ln R (at_rule x) (at_tok x)) as PU.
  { intros b AP. unfold put. rewrite AP, !filter_app. destruct (heap_filter _ _ HB) as [F1 F2]. destruct (late_filter _ _ HR) as [F3 F4].
    rewrite F1, F2, F3, F4, app_nil_r. reflexivity. }
  split.
  - intros (a & c & y & b & n & E & C1 & C2 & C3 & Y1 & Y2 & Y3).
    destruct (at_pos x) as [| | |bl] eqn:AP.
    + exfalso. unfold put in E. rewrite AP in E. destruct a as [|? [|]]; discriminate.
    + exfalso. unfold put in E. rewrite AP in E. destruct a as [|? [|]]; discriminate.
    + exfalso. unfold put in E. rewrite AP in E. destruct a as [|? [|]]; discriminate.
    + rewrite (PU bl eq_refl) in E. destruct (two_kinds down a c y b _ _ E) as [EB ER].
      * apply behind_beside.
      * apply rows_down.
      * unfold down. destruct C2 as [-> | ->]; reflexivity.
      * unfold down. rewrite Y2. reflexivity.
      * pose proof (behind_toks (match p with None => true | Some _ => false end) B) as [BT _]. rewrite EB, map_app in BT. cbn [map] in BT.
        assert (In (e_tok c) B) as IC by (rewrite <- BT; apply in_or_app; right; left; reflexivity).
        destruct (heap_in _ _ _ HB IC) as [S1 S2].
        exists B, R, bl. split; [reflexivity|]. split; [exact HB|]. split; [exact HR|].
        split; [rewrite <- BT, last_height_snoc; lia|]. split; [exact AP|].
        assert (e_tok y = hd (at_tok x) R) as EY by (destruct R; cbn [rows] in ER; injection ER as <- _; reflexivity).
        rewrite <- EY. split; [unfold gap_between; apply N.ltb_ge; lia|].
        destruct bl; [|left; reflexivity|].
        -- exfalso. destruct R; cbn [rows] in ER; injection ER as <- _; cbn [e_white] in Y2; discriminate.
        -- right. split; [reflexivity|]. intros ->. cbn [rows] in ER. injection ER as <- _. cbn [e_rule e_tok] in Y3. destruct Y3 as [Y3|Y3]; [discriminate|].
           apply K in Y3. congruence.
  - intros (B' & R' & b & E & HB' & HR' & LZ & AP & G & KB). destruct (parts_unique _ _ _ _ _ E HB HB' HR HR') as [<- <-]. clear E HB' HR'.
    rewrite (PU b AP). destruct (@exists_last _ B) as (B' & c & EB); [intros ->; apply LZ; reflexivity|].
    pose proof (behind_toks (match p with None => true | Some _ => false end) B) as [BT BN].
    pose proof (behind_beside (match p with None => true | Some _ => false end) B) as BD.
    set (L := behind _ B) in *. destruct (@exists_last _ L) as (L' & e & EL); [intros Z; rewrite Z, EB in BT; destruct B'; discriminate|].
    rewrite EL, map_app, EB in BT. cbn [map] in BT. apply app_inj_tail in BT as [_ EC].
    rewrite EL in *. apply Forall_app in BN as [_ BN]. apply Forall_app in BD as [_ BD]. inversion BN as [|? ? N0 _]; subst. inversion BD as [|? ? D0 _]; subst.
    destruct (heap_in ln (B' ++ [e_tok e]) (e_tok e) HB) as [S1 S2]; [apply in_or_app; right; left; reflexivity|].
    rewrite last_height_snoc in LZ.
    assert (line (tend (e_tok e)) <= line (tstart (hd (at_tok x) R))) as LO.
    { rewrite <- !app_assoc in O'. apply downward_app in O' as [_ O']. cbn [app downward] in O'. destruct O' as (_ & _ & O'). destruct R; cbn [app downward hd] in *; tauto. }
    unfold gap_between in G. apply N.ltb_ge in G.
    exists L', e, (hd (mkE WNone None (at_tok x)) (rows b (at_level x) ln R (at_rule x) (at_tok x))), (tl (rows b (at_level x) ln R (at_rule x) (at_tok x))), (at_level x).
    assert (e_tok (hd (mkE WNone None (at_tok x)) (rows b (at_level x) ln R (at_rule x) (at_tok x))) = hd (at_tok x) R) as EY by (destruct R; reflexivity).
    rewrite EY. split; [rewrite <- app_assoc; destruct R; reflexivity|]. split; [exact N0|]. split; [unfold down in D0; destruct (e_white e); auto; discriminate|].
    split; [lia|]. split; [lia|]. assert (gap_between ln (line (tstart (hd (at_tok x) R))) = false) as G' by (unfold gap_between; apply N.ltb_ge; lia).
    split.
    + destruct R as [|d R]; cbn [rows hd e_white] in *; (destruct b; [destruct KB as [KB|(KB & _)]; discriminate| |]); rewrite ?G'; reflexivity.
    + destruct R as [|d R]; cbn [rows hd e_rule]; [|left; reflexivity]. right. destruct KB as [->|(_ & KB)]; [|contradiction]. apply K. exact AP.
Qed.

Lemma hanging_app keep a e b : e_rule e <> None -> (hanging keep ((a ++ [e]) ++ b) <-> hanging keep (a ++ [e]) \/ hanging keep b).
Proof.
  intro N. split.
  - intros (u & c & y & v & n & E & C1 & H). rewrite <- app_assoc in E. cbn [app] in E.
    assert ((exists w, a = u ++ c :: w) \/ exists w, b = w ++ c :: y :: v) as D.
    { clear H. revert u E. induction a as [|z a IH]; intros [|z' u] E; cbn [app] in E; injection E as -> E; try (exfalso; congruence).
      - right. exists u. exact E.
      - left. exists a. reflexivity.
      - destruct (IH u E) as [(w & ->)|D]; [left; exists w; reflexivity|right; exact D]. }
    destruct D as [(w & ->)|(w & ->)].
    + left. rewrite <- app_assoc in E. apply app_inv_head in E. cbn [app] in E. injection E as E.
      destruct w as [|z w]; cbn [app] in E; injection E as -> E; exists u, c.
      * exists y, [], n. rewrite <- app_assoc. auto.
      * exists y, (w ++ [e]), n. rewrite <- app_assoc. auto.
    + right. exists w, c, y, v, n. auto.
  - intros [(u & c & y & v & n & E & H)|(u & c & y & v & n & E & H)].
    + exists u, c, y, (v ++ b), n. rewrite E, <- app_assoc. auto.
    + exists ((a ++ [e]) ++ u), c, y, v, n. split; [rewrite E, !app_assoc; reflexivity|exact H].
Qed.
Lemma put_last p ln cs x : exists a e, put p ln cs x = a ++ [e] /\ e_rule e <> None.
Proof.
  assert (forall b n ln R r t, exists a e, rows b n ln R r t = a ++ [e] /\ e_rule e <> None) as RW.
  { intros b n l R. revert b l. induction R as [|c R IH]; intros b l r t; cbn [rows].
    - exists []. eexists. split; [reflexivity|discriminate].
    - destruct (IH (match b with Always => Kept | _ => b end) (line (tend c)) r t) as (a & e & -> & N). eexists (_ :: a), e. split; [reflexivity|exact N]. }
  unfold put. destruct (at_pos x) as [| | |b]; try (exists []; eexists; split; [reflexivity|discriminate]).
  destruct (RW b (at_level x) ln (filter (fun c => negb (line (tstart c) =? ln)) cs) (at_rule x) (at_tok x)) as (a & e & -> & N).
  rewrite app_assoc. eexists _, e. split; [reflexivity|exact N].
Qed.

Lemma hung_dec ln cs x : downward ln cs -> hung ln cs x \/ ~ hung ln cs x.
Proof.
  intro O. destruct (parts _ _ O) as (B & R & -> & HB & HR).
  assert (hung ln (B ++ R) x -> last_height B <> 0 /\ gap_between ln (line (tstart (hd (at_tok x) R))) = false /\ (at_pos x = Below Kept \/ at_pos x = Below Never /\ R <> [])) as U.
  { intros (B' & R' & b' & E & HB' & HR' & LZ & AP & G & K). destruct (parts_unique _ _ _ _ _ E HB HB' HR HR') as [-> ->].
    split; [exact LZ|]. split; [exact G|]. destruct K as [->|(-> & K)]; auto. }
  destruct (N.eq_dec (last_height B) 0) as [Z|Z]; [right; tauto|].
  destruct (gap_between ln (line (tstart (hd (at_tok x) R)))) eqn:G; [right; intro H; apply U in H as (_ & K & _); discriminate|].
  destruct (at_pos x) as [| | |b] eqn:AP; try (right; intro H; apply U in H as (_ & _ & [K|(K & _)]); discriminate).
  destruct b; try (right; intro H; apply U in H as (_ & _ & [K|(K & _)]); discriminate).
  - left. exists B, R, Kept. auto 10.
  - destruct R as [|c R]; [right; intro H; apply U in H as (_ & _ & [K|(_ & K)]); [discriminate|contradiction]|].
    left. exists B, (c :: R), Never. repeat (split; [assumption || reflexivity|]). right. split; [reflexivity|discriminate].
Qed.

Lemma weave_next keep xs0 : forall xs1 p ln0 ln1 items0 items1,
  downward ln0 items0 -> (forall x, In x xs0 -> keep (at_tok x) <-> at_pos x = Below Kept) ->
  filter plain items0 = map at_tok xs0 -> filter plain items1 = map at_tok xs1 ->
  map strip xs1 = map strip xs0 -> printed ln1 (weave p ln0 [] items0 xs0) items1 ->
  Forall2 grown (weave p ln1 [] items1 xs1) (weave p ln0 [] items0 xs0) /\
  (Forall2 alike (weave p ln1 [] items1 xs1) (weave p ln0 [] items0 xs0) <-> ~ hanging keep (weave p ln0 [] items0 xs0)) /\
  (hanging keep (weave p ln0 [] items0 xs0) \/ ~ hanging keep (weave p ln0 [] items0 xs0)).
Proof.
  induction xs0 as [|x0 xs0 IH]; intros [|x1 xs1] p ln0 ln1 items0 items1 O KE E0 E1 ST P; try discriminate.
  - rewrite (weave_rest p ln1 [] items1 (no_group _ E1)), (weave_rest p ln0 [] items0 (no_group _ E0)). split; [constructor|].
    assert (~ hanging keep []) as NH by (intros (a & c & y & b & n & E & _); destruct a; discriminate).
    split; [split; [intros _; exact NH|constructor]|right; exact NH].
  - destruct (group_of _ _ _ E0) as (cs0 & r0 & I0 & C0 & N0 & R0).
    destruct (group_of _ _ _ E1) as (cs1 & r1 & I1 & C1 & N1 & R1).
    destruct (printed_group _ _ _ _ _ _ _ _ _ O I0 C0 N0 P) as (a1 & b1 & d1 & J1 & K1 & M1 & IT1 & _ & _ & _ & PP & Q1 & OO).
    rewrite I1 in J1. destruct (group_unique _ _ _ _ _ _ J1 C1 K1 N1 M1) as (-> & <- & <-).
    cbn [map] in ST. assert (strip x1 = strip x0) as SX by congruence. apply (f_equal (@tl _)) in ST. cbn [tl] in ST.
    rewrite (weave_group _ _ _ _ _ _ _ I0 C0 N0), (weave_group _ _ _ _ _ _ _ I1 C1 N1).
    assert (at_rule x1 = at_rule x0) as ER by (unfold strip in SX; congruence).
    assert (tkind_of (at_tok x1) = tkind_of (at_tok x0)) as EK by (unfold item_of in IT1; congruence).
    rewrite ER, EK.
    destruct (IH xs1 (Some (at_rule x0, tkind_of (at_tok x0))) _ _ _ _ OO (fun x I => KE x (or_intror I)) R0 R1 ST Q1) as (G2 & A2 & D2).
    assert (downward ln0 (cs0 ++ [at_tok x0])) as O1.
    { rewrite I0 in O. change (at_tok x0 :: r0) with ([at_tok x0] ++ r0) in O. rewrite app_assoc in O. apply downward_app in O as [O _]. exact O. }
    destruct (put_next p ln0 cs0 x0 ln1 a1 x1) as [G1 A1]; [apply downward_app in O1; tauto|exact SX|exact PP|].
    split; [apply Forall2_app; assumption|].
    pose proof (hanging_put keep p ln0 cs0 x0 O1 (KE x0 (or_introl eq_refl))) as HP.
    rewrite <- HP in A1. destruct (put_last p ln0 cs0 x0) as (l & e & EL & NE). rewrite EL in *.
    assert (hung ln0 cs0 x0 \/ ~ hung ln0 cs0 x0) as D1 by (apply hung_dec; apply downward_app in O1; tauto). rewrite <- HP in D1.
    rewrite hanging_app by exact NE. split; [|tauto]. split.
    + intro F. apply alike_app in F as [F1 F2]; [|clear - G1; induction G1; cbn [length]; congruence].
      apply A1 in F1. apply A2 in F2. tauto.
    + intro NH. apply Forall2_app; [apply A1|apply A2]; tauto.
Qed.

(** ** The second run *)
Theorem hanging_exactly eol s p items tree : reading s p items tree -> no_lone_cr s -> is_eol eol ->
  exists o1 p1 o2, layout_of eol s p (reference tree items) /\
    pretty_print eol p = Ok o1 /\ accepted (o1 ++ eol) p1 /\ pretty_print eol p1 = Ok o2 /\
    (settled tree -> (exists l2, layout_of eol (o1 ++ eol) p1 l2 /\ Forall2 grown l2 (reference tree items)) /\ (o2 = o1 \/ hanging (keeps tree) (reference tree items))) /\
    (o2 = o1 <-> settled tree /\ ~ hanging (keeps tree) (reference tree items)).
Proof.
  intros R0 NC EO. pose proof (rd_accepted _ _ _ _ R0) as ACC.
  destruct (FmtStable.run eol _ _ _ _ R0 NC EO) as (P0 & p1 & items1 & tree1 & R1 & NC1 & EV1 & PR1).
  destruct (FmtStable.run eol _ _ _ _ R1 NC1 EO) as (P1 & _).
  exists (render eol (reference tree items)), p1, (render eol (reference tree1 items1)).
  split; [apply (reading_reference eol _ _ _ _ R0)|]. split; [exact P0|].
  split; [exact (rd_accepted _ _ _ _ R1)|]. split; [exact P1|].
  assert (settled tree -> Forall2 grown (reference tree1 items1) (reference tree items) /\ (Forall2 alike (reference tree1 items1) (reference tree items) <-> ~ hanging (keeps tree) (reference tree items)) /\
    (hanging (keeps tree) (reference tree items) \/ ~ hanging (keeps tree) (reference tree items))) as KEY.
  { intro ST. destruct (run_lines _ _ _ _ _ _ _ _ R0 R1 EV1 PR1) as (g & G & ET1 & L1 & LEN). apply lined_from_lined in L1.
    pose proof (laid_downward _ _ (rd_laid _ _ _ _ R0)) as D0. unfold reference in *.
    apply weave_next; auto using (reading_spots _ _ _ _ R0), (reading_spots _ _ _ _ R1).
    - intros x IX. split; [|intro AP; exists x; auto]. intros (x' & IX' & ET & AP).
      pose proof (reading_spots _ _ _ _ R0) as SP. assert (NoDup (filter plain items)) as ND.
      { apply NoDup_filter. eapply ordered_nodup. apply (laid_ordered _ _ _ (rd_laid _ _ _ _ R0)). }
      rewrite SP in ND. enough (x = x') by congruence. clear - ND IX IX' ET. symmetry in ET. revert ND IX IX' ET. generalize (spots KStoredDefinition Beside 0 0 false false tree). intro L.
      induction L as [|z L IH]; intros ND IX IX' ET; [contradiction|]. cbn [map] in ND. inversion ND as [|? ? N1 N2]; subst.
      destruct IX as [<-|IX], IX' as [<-|IX']; auto.
      + exfalso. apply N1. rewrite ET. apply in_map. exact IX'.
      + exfalso. apply N1. rewrite <- ET. apply in_map. exact IX.
    - rewrite ET1. apply (alike_spots g G). destruct (rd_fits _ _ _ _ R0) as (cs & E & [F|F]).
      + rewrite E, F. constructor. intros u d v K. destruct (rev u); discriminate.
      + pose proof (toks_some _ F) as NE.
        apply (first_agrees g G tree F false false (false :: marks (toks tree))); auto.
        * apply (downward_lined _ _ 1); [|exact NE]. rewrite (rd_toks _ _ _ _ R0), (rd_tokens _ _ _ _ R0). apply downward_filter. exact D0.
        * rewrite <- ET1. exact L1.
        * rewrite E. discriminate. }
  assert (eol <> []) as EN by (destruct EO as [-> | ->]; discriminate).
  split; [intro ST; destruct (KEY ST) as (G & A & D); split; [exists (reference tree1 items1); split; [apply (reading_reference eol _ _ _ _ R1)|exact G]|]; destruct D as [D|D]; [right; exact D|left; apply alike_render, A, D]|]. split.
  - intro E. assert (settled tree) as ST.
    { apply (stable_settled eol s p ACC NC EO _ p1 tree P0 (rd_accepted _ _ _ _ R1) (rd_tree _ _ _ _ R0)). rewrite P1, E. reflexivity. }
    split; [exact ST|]. destruct (KEY ST) as (G & A & _). apply A. apply (grown_render eol _ _ EN G). rewrite E. reflexivity.
  - intros [ST NH]. destruct (KEY ST) as (_ & A & _). apply alike_render. apply A. exact NH.
Qed.
