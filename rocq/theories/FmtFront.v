(** For C107: entries put in front of others, and taken away there. *)
From Verif Require LexSpecProofs.
From Verif Require Import ProofBase Tokens Syntax Lexer SpecLex LexInv LexMain LexFacts ParserCore Grammar
  Tree Printer Formatter Lib ParserSem ParserFuel SpecGrammar Regex ParserGrammar ParserTree ParserFacts Recognise PropsParser
  SpecLanguage Looks ParserComplete PropsLanguage
  FmtAbs FmtPlan FmtShape FmtTables FmtSound SpecLayout FmtExec FmtTop FmtFacts FmtRelex FmtNeat SpecNodes FmtTree FmtLists FmtOps
  FmtWrap SpecGaps SpecReference FmtNode FmtReference FmtSame PropsFormat PropsReference FmtBreaks FmtAgree FmtPrinted FmtStable FmtMoved
  FmtConcat SpecLevels FmtLevels SpecLocal FmtLocal SpecEdit LexSplice FmtEdit FmtSplice PropsEdit SpecCopy FmtCopy FmtGrow PropsGrow FmtSwap.

Lemma alike_trans l l' l2 : Forall2 alike l l' -> Forall2 alike l' l2 -> Forall2 alike l l2.
Proof. intro F. revert l2. induction F as [|z z' l l' (S1 & S2 & S3) _ IH]; intros l2 X; inversion X as [|? z2 ? ? (R1 & R2 & R3) X']; subst; constructor; auto. split; [congruence|]. split; congruence. Qed.
Lemma same_level_alike n r r' : Forall2 (copied n n) r r' -> Forall2 alike r r'.
Proof.
  apply forall2_imp. intros z z' (T & K & S). split; [|split; assumption].
  unfold same_white in S. destruct (e_white z), (e_white z'); try congruence. destruct S as [-> S]. f_equal. lia.
Qed.

Theorem in_front A x B p items tree k e u w v g A2 x2 B2 p2 tree2 k2 u2 w2 v2 :
  reading (A ++ x ++ B) p items tree -> stands A x B tree k e u w v -> read (A2 ++ x2 ++ B2) p2 tree2 -> stands A2 x2 B2 tree2 k2 e u2 w2 v2 ->
  (exists A0 c, A = A0 ++ [c] /\ parting c) -> Forall space g -> Forall (allowed k) w2 -> leaked w = 0%nat -> leaked w2 = 0%nat ->
  exists p' items' tree' wn wc v' la i r lb j q i' r' lb' b n b2, reading (A ++ x2 ++ g ++ x ++ B) p' items' tree' /\
    stands A x2 (g ++ x ++ B) tree' k e u wn (wc ++ v') /\ stands (A ++ x2 ++ g) x B tree' k e (u ++ wn) wc v' /\ Forall2 same_form w2 wn /\ Forall2 same_form w wc /\
    reference tree items = la ++ (i :: r) ++ lb /\ reference tree' items' = la ++ (j :: q) ++ (i' :: r') ++ lb' /\
    within_range 0 (bytes_of A) la /\ within_range (bytes_of A) (bytes_of (A ++ x)) (i :: r) /\ within_range (bytes_of (A ++ x)) (bytes_of (A ++ x ++ B)) lb /\
    within_range (bytes_of A) (bytes_of (A ++ x2)) (j :: q) /\ within_range (bytes_of (A ++ x2 ++ g)) (bytes_of (A ++ x2 ++ g ++ x)) (i' :: r') /\
    within_range (bytes_of (A ++ x2 ++ g ++ x)) (bytes_of (A ++ x2 ++ g ++ x ++ B)) lb' /\
    e_white i = WLine b n /\ e_white j = WLine b n /\ e_white i' = WLine b2 n /\ ttext (e_tok i') = ttext (e_tok i) /\ tkind_of (e_tok i') = tkind_of (e_tok i) /\
    Forall2 alike r r' /\ Forall2 alike lb lb'.
Proof.
  intros RD ST R2 ST2 PT GS AL LW LW2. destruct (read_reading _ _ _ R2) as (items2 & RD2).
  pose proof (stands_allowed _ _ _ _ _ _ _ _ _ _ _ _ RD eq_refl ST) as AX. pose proof (st_kind _ _ _ _ _ _ _ _ _ ST) as EK.
  assert (read (A ++ x ++ B) p tree) as RR by (split; [apply (rd_accepted _ _ _ _ RD)|apply (rd_tree _ _ _ _ RD)]).
  destruct (replaced_reading _ _ _ _ _ _ _ _ _ _ _ _ _ _ _ _ _ _ _ _ RD ST R2 ST2 PT AL ltac:(congruence))
    as (p1 & items1 & tree1 & wn & v1 & la & i & r & j & q & lb & lb1 & RD1 & ST1 & SF1 & E0 & E1 & WJ & AB & G1 & G2 & G3 & G4 & G5).
  destruct (copies _ _ _ _ _ _ _ _ _ _ _ _ _ _ _ _ _ _ _ _ _ _ RD2 eq_refl ST2 RD1 eq_refl ST1) as (_ & LN & _).
  destruct (inserted_reading _ _ _ _ _ _ _ _ _ _ _ g _ _ _ _ _ _ _ _ _ RD1 ST1 RR ST GS AX LW)
    as (p' & items' & tree' & wc & v' & la2 & lx & lb2 & lb' & RD' & ST' & SF2 & F1 & F2 & AB2 & H1 & H2 & H3 & H4).
  assert (A ++ x2 ++ g ++ x ++ B = (A ++ x2 ++ g) ++ x ++ B) as T1 by (rewrite <- !app_assoc; reflexivity).
  assert (RDa := RD'). rewrite T1 in RDa.
  assert (bytes_of A <= bytes_of (A ++ x2) /\ bytes_of (A ++ x2) <= bytes_of (A ++ x2 ++ g)) as (N1 & N2) by (rewrite !bytes_app; lia).
  assert (la2 = la ++ (j :: q)) as EL.
  { rewrite <- (keep 0 (bytes_of (A ++ x2)) 0 (bytes_of (A ++ x2)) la2 H1) by lia.
    assert (filter (begins 0 (bytes_of (A ++ x2))) (reference tree1 items1) = filter (begins 0 (bytes_of (A ++ x2))) la2) as Z.
    { rewrite F1, !filter_app, (skip _ _ 0 (bytes_of (A ++ x2)) _ H3), !app_nil_r by lia. reflexivity. }
    rewrite <- Z, E1, !filter_app, (keep _ _ 0 (bytes_of (A ++ x2)) _ G1), (keep _ _ 0 (bytes_of (A ++ x2)) _ G3), (skip _ _ 0 (bytes_of (A ++ x2)) _ G5), app_nil_r by lia. reflexivity. }
  assert (lb2 = lb1) as ->. { rewrite F1, EL, <- app_assoc in E1. apply app_inv_head in E1. apply app_inv_head in E1. exact E1. }
  rewrite EL, <- app_assoc in F2.
  (* the entries that were there *)
  destruct (copies _ _ _ _ _ _ _ _ _ _ _ _ _ _ _ _ _ _ _ _ _ _ RD eq_refl ST RDa eq_refl ST')
    as (_ & LC & L3 & L4 & c & cr & L5 & L6 & c1 & cr1 & b & n & b1 & n1 & C1 & C2 & D1 & D2 & D3 & D4 & D5 & D6 & W1 & W2 & TX & KX & CX).
  rewrite <- !app_assoc in *.
  assert (c :: cr = i :: r) as EC.
  { rewrite <- (middle _ _ _ _ _ _ _ C1 D1 D2 D3). apply (middle _ _ _ _ _ _ _ E0 G1 G2 G4). }
  assert (within_range 0 (bytes_of (A ++ x2 ++ g)) (la ++ j :: q)) as WF.
  { apply Forall_app; split; [revert G1|revert G3]; apply Forall_impl; intro z; unfold begins; rewrite !andb_true_iff, !N.leb_le, !N.ltb_lt; lia. }
  assert (c1 :: cr1 = lx) as EC1.
  { rewrite <- (middle _ _ _ _ _ _ _ C2 D4 D5 D6). apply (middle (la ++ j :: q) lx lb' _ _ (bytes_of (A ++ x2 ++ g ++ x ++ B))); [rewrite F2, <- app_assoc; reflexivity|exact WF|exact H2|exact H4]. }
  injection EC as -> ->. subst lx.
  (* the levels *)
  assert (stands A x2 (g ++ x ++ B) tree' k e u wn (wc ++ v')) as STN.
  { destruct ST' as [IN _ _ _]. destruct ST1 as [_ K E P]. split; auto. rewrite <- !app_assoc in IN. exact IN. }
  destruct (standing _ _ _ _ _ _ _ RD' (st_inside _ _ _ _ _ _ _ _ _ STN) EK) as (lv & SD).
  destruct (SD A x2 (g ++ x ++ B) u wn (wc ++ v') eq_refl STN eq_refl) as (z1 & z2 & z3 & Z1 & Z2).
  destruct (SD (A ++ x2 ++ g) x B (u ++ wn) wc v' ltac:(rewrite <- !app_assoc; reflexivity) ST' ltac:(rewrite <- !app_assoc; reflexivity)) as (z4 & z5 & z6 & Z4 & Z5).
  assert (filter (begins (bytes_of A) (bytes_of (A ++ x2))) (reference tree' items') = j :: q) as QJ.
  { rewrite F2. cbn [app]. change (la ++ j :: q ++ c1 :: cr1 ++ lb') with (la ++ (j :: q) ++ (c1 :: cr1) ++ lb').
    rewrite !filter_app, (skip _ _ (bytes_of A) (bytes_of (A ++ x2)) _ G1), (keep _ _ (bytes_of A) (bytes_of (A ++ x2)) _ G3), (skip _ _ (bytes_of A) (bytes_of (A ++ x2)) _ H2), (skip _ _ (bytes_of A) (bytes_of (A ++ x2)) _ H4), !app_nil_r; [reflexivity|..]; rewrite !bytes_app in *; lia. }
  rewrite QJ in Z1. rewrite <- !app_assoc, (middle _ _ _ _ _ _ _ C2 D4 D5 D6) in Z4. injection Z1 as <- <-. injection Z4 as <- <-.
  assert (n = (lv + leak_in k u)%nat) as EN by congruence. assert (n1 = (lv + leak_in k (u ++ wn))%nat) as EN1 by congruence.
  assert (n1 = n) as -> by (rewrite EN1, EN, leak_in_app, (leaked_in k e wn EK); lia).
  exists p', items', tree', wn, wc, v', la, i, r, lb, j, q, c1, cr1, lb', b, n, b1.
  split; [exact RD'|]. split; [exact STN|]. split; [exact ST'|]. split; [exact SF1|]. split; [exact SF2|]. split; [exact E0|]. split; [exact F2|].
  split; [exact G1|]. split; [exact G2|]. split; [exact G4|]. split; [exact G3|]. split; [exact H2|]. split; [exact H4|].
  split; [exact W1|]. split; [congruence|]. split; [exact W2|]. split; [exact TX|]. split; [exact KX|].
  split; [apply (same_level_alike n _ _ CX)|apply (alike_trans _ _ _ AB AB2)].
Qed.

Lemma between (a1 b1 a2 b2 : list entry) m1 m2 t : a1 ++ b1 = a2 ++ b2 -> within_range 0 m1 a1 -> within_range m1 t b1 -> within_range 0 m2 a2 -> within_range m2 t b2 -> m1 <= m2 ->
  exists d, a2 = a1 ++ d /\ b1 = d ++ b2 /\ within_range m1 m2 d.
Proof.
  intros E W1 W2 W3 W4 L. exists (filter (begins 0 m2) b1).
  assert (a2 = a1 ++ filter (begins 0 m2) b1) as EA.
  { assert (filter (begins 0 m2) (a2 ++ b2) = a2) as Z by (rewrite filter_app, (keep _ _ _ _ _ W3), (skip _ _ _ _ _ W4), app_nil_r by lia; reflexivity).
    rewrite <- E, filter_app, (keep _ _ _ _ _ W1) in Z by lia. symmetry. exact Z. }
  split; [exact EA|]. split; [rewrite EA, <- app_assoc in E; apply app_inv_head in E; exact E|].
  apply Forall_forall. intros z Z. apply filter_In in Z as [Z1 Z2]. rewrite Forall_forall in W2. apply W2 in Z1. unfold begins in *. rewrite andb_true_iff, N.leb_le, N.ltb_lt in *. lia.
Qed.

Theorem off_front A x2 g x B p items tree k e u w2 w v :
  reading (A ++ x2 ++ g ++ x ++ B) p items tree -> stands A x2 (g ++ x ++ B) tree k e u w2 (w ++ v) -> stands (A ++ x2 ++ g) x B tree k e (u ++ w2) w v ->
  (exists A0 c, A = A0 ++ [c] /\ parting c) -> leaked w2 = 0%nat ->
  exists p' items' tree' w' v' la j q lg i r lb i' r' lb' b n b2, reading (A ++ x ++ B) p' items' tree' /\ stands A x B tree' k e u w' v' /\ Forall2 same_form w w' /\
    reference tree items = la ++ (j :: q) ++ lg ++ (i :: r) ++ lb /\ reference tree' items' = la ++ (i' :: r') ++ lb' /\
    within_range 0 (bytes_of A) la /\ within_range (bytes_of A) (bytes_of (A ++ x2)) (j :: q) /\ within_range (bytes_of (A ++ x2)) (bytes_of (A ++ x2 ++ g)) lg /\
    within_range (bytes_of (A ++ x2 ++ g)) (bytes_of (A ++ x2 ++ g ++ x)) (i :: r) /\ within_range (bytes_of (A ++ x2 ++ g ++ x)) (bytes_of (A ++ x2 ++ g ++ x ++ B)) lb /\
    within_range (bytes_of A) (bytes_of (A ++ x)) (i' :: r') /\ within_range (bytes_of (A ++ x)) (bytes_of (A ++ x ++ B)) lb' /\
    e_white j = WLine b n /\ e_white i = WLine b2 n /\ e_white i' = WLine b n /\ ttext (e_tok i') = ttext (e_tok i) /\ tkind_of (e_tok i') = tkind_of (e_tok i) /\
    Forall2 alike r r' /\ Forall2 alike lb lb'.
Proof.
  intros RD ST2 ST PT LW2. pose proof (st_kind _ _ _ _ _ _ _ _ _ ST) as EK.
  pose proof (stands_join _ _ _ _ _ _ _ _ _ _ _ _ ST2 ST) as SJ.
  assert (A ++ x2 ++ g ++ x ++ B = (A ++ x2 ++ g) ++ x ++ B) as T1 by (rewrite <- !app_assoc; reflexivity).
  assert (A ++ x2 ++ g ++ x ++ B = A ++ (x2 ++ g ++ x) ++ B) as T2 by (rewrite <- !app_assoc; reflexivity).
  assert (RDa := RD). rewrite T1 in RDa. assert (RDj := RD). rewrite T2 in RDj.
  assert (read ((A ++ x2 ++ g) ++ x ++ B) p tree) as RR by (split; [apply (rd_accepted _ _ _ _ RDa)|apply (rd_tree _ _ _ _ RDa)]).
  pose proof (stands_allowed _ _ _ _ _ _ _ _ _ _ _ _ RDa eq_refl ST) as AX.
  assert (leaked w = leaked (w2 ++ w)) as LJ by (rewrite <- !(leaked_in k e) by exact EK; rewrite leak_in_app, (leaked_in k e w2 EK), LW2; reflexivity).
  destruct (replaced_reading _ _ _ _ _ _ _ _ _ _ _ _ _ _ _ _ _ _ _ _ RDj SJ RR ST PT AX LJ)
    as (p' & items' & tree' & w' & v' & la & j & qq & i' & r' & lb & lb' & RD' & ST' & SF & E0 & E1 & WJ & AB & G1 & G2 & G3 & G4 & G5).
  destruct (copies _ _ _ _ _ _ _ _ _ _ _ _ _ _ _ _ _ _ _ _ _ _ RDa eq_refl ST RD' eq_refl ST')
    as (_ & _ & L3 & L4 & c & cr & L5 & L6 & c1 & cr1 & b2 & m & b1 & n1 & C1 & C2 & D1 & D2 & D3 & D4 & D5 & D6 & W1 & W2 & TX & KX & CX).
  rewrite <- !app_assoc in *.
  destruct (copies _ _ _ _ _ _ _ _ _ _ _ _ _ _ _ _ _ _ _ _ _ _ RD eq_refl ST2 RD eq_refl ST2)
    as (_ & _ & M3 & M4 & j0 & q & M5 & M6 & j1 & q1 & b & n & bb & nn & P1 & _ & Q1 & Q2 & Q3 & _ & _ & _ & V1 & _).
  destruct (standing _ _ _ _ _ _ _ RD (st_inside _ _ _ _ _ _ _ _ _ ST2) EK) as (lv & SD).
  destruct (SD A x2 (g ++ x ++ B) u w2 (w ++ v) eq_refl ST2 eq_refl) as (z1 & z2 & z3 & Z1 & Z2).
  destruct (SD (A ++ x2 ++ g) x B (u ++ w2) w v ltac:(rewrite <- !app_assoc; reflexivity) ST ltac:(rewrite <- !app_assoc; reflexivity)) as (z4 & z5 & z6 & Z4 & Z5).
  rewrite (middle _ _ _ _ _ _ _ P1 Q1 Q2 Q3) in Z1. rewrite <- !app_assoc, (middle _ _ _ _ _ _ _ C1 D1 D2 D3) in Z4. injection Z1 as <- <-. injection Z4 as <- <-.
  assert (n = (lv + leak_in k u)%nat) as EN by congruence. assert (m = (lv + leak_in k (u ++ w2))%nat) as EM by congruence.
  assert (m = n) as -> by (rewrite EM, EN, leak_in_app, (leaked_in k e w2 EK); lia).
  assert (bytes_of A <= bytes_of (A ++ x2) /\ bytes_of (A ++ x2) <= bytes_of (A ++ x2 ++ g) /\ bytes_of (A ++ x2 ++ g) <= bytes_of (A ++ x2 ++ g ++ x) /\ bytes_of (A ++ x2 ++ g ++ x) <= bytes_of (A ++ x2 ++ g ++ x ++ B)) as (N1 & N2 & N3 & N4) by (rewrite !bytes_app; lia).
  set (t := bytes_of (A ++ x2 ++ g ++ x ++ B)) in *.
  assert (within_range (bytes_of A) t ((j0 :: q) ++ M4)) as R1.
  { apply Forall_app; split; [revert Q2|revert Q3]; apply Forall_impl; intro z; unfold begins; rewrite !andb_true_iff, !N.leb_le, !N.ltb_lt; lia. }
  assert (within_range (bytes_of A) t ((j :: qq) ++ lb)) as R2.
  { apply Forall_app; split; [revert G2|revert G4]; apply Forall_impl; intro z; unfold begins; rewrite !andb_true_iff, !N.leb_le, !N.ltb_lt; lia. }
  assert (within_range (bytes_of (A ++ x2 ++ g)) t ((c :: cr) ++ L4)) as R3.
  { apply Forall_app; split; [revert D2|revert D3]; apply Forall_impl; intro z; unfold begins; rewrite !andb_true_iff, !N.leb_le, !N.ltb_lt; lia. }
  assert (within_range 0 (bytes_of (A ++ x2)) (M3 ++ j0 :: q)) as R4.
  { apply Forall_app; split; [revert Q1|revert Q2]; apply Forall_impl; intro z; unfold begins; rewrite !andb_true_iff, !N.leb_le, !N.ltb_lt; lia. }
  assert (within_range 0 (bytes_of (A ++ x2 ++ g ++ x)) (L3 ++ c :: cr)) as R5.
  { apply Forall_app; split; [revert D1|revert D2]; apply Forall_impl; intro z; unfold begins; rewrite !andb_true_iff, !N.leb_le, !N.ltb_lt; lia. }
  assert (within_range 0 (bytes_of (A ++ x2 ++ g ++ x)) (la ++ j :: qq)) as R6.
  { apply Forall_app; split; [revert G1|revert G2]; apply Forall_impl; intro z; unfold begins; rewrite !andb_true_iff, !N.leb_le, !N.ltb_lt; lia. }
  assert (forall m d, within_range m m d -> d = @nil entry) as NR.
  { intros m d D. destruct d as [|z d]; [reflexivity|]. inversion D as [|? ? Z _]; subst. unfold begins in Z. rewrite andb_true_iff, N.leb_le, N.ltb_lt in Z. lia. }
  destruct (between la ((j :: qq) ++ lb) M3 ((j0 :: q) ++ M4) _ _ t ltac:(congruence) G1 R2 Q1 R1 (N.le_refl _)) as (d1 & X1 & X2 & X3). apply NR in X3 as ->. rewrite app_nil_r in X1. subst M3.
  destruct (between (L3 ++ c :: cr) L4 (la ++ j :: qq) lb _ _ t ltac:(rewrite <- !app_assoc; congruence) R5 D3 R6 G4 (N.le_refl _)) as (d2 & Y1 & Y2 & Y3). apply NR in Y3 as ->. cbn [app] in Y2. subst L4.
  destruct (between (la ++ j0 :: q) M4 L3 ((c :: cr) ++ lb) _ _ t ltac:(rewrite <- !app_assoc; congruence) R4 Q3 D1 R3 N2) as (lg & U1 & U2 & U3).
  cbn [app] in X2. assert (j0 = j) as -> by congruence.
  assert (c1 :: cr1 = i' :: r') as EC1. { rewrite <- (middle _ _ _ _ _ _ _ C2 D4 D5 D6). apply (middle _ _ _ _ _ _ _ E1 G1 G3 G5). }
  injection EC1 as -> ->. assert (n1 = n) as -> by congruence.
  exists p', items', tree', w', v', la, j, q, lg, c, cr, lb, i', r', lb', b, n, b2.
  split; [exact RD'|]. split; [exact ST'|]. split; [exact SF|]. split; [rewrite P1, U2; reflexivity|]. split; [exact E1|].
  split; [exact G1|]. split; [exact Q2|]. split; [exact U3|]. split; [exact D2|]. split; [exact G4|]. split; [exact G3|]. split; [exact G5|].
  split; [exact V1|]. split; [exact W1|]. split; [congruence|]. split; [exact TX|]. split; [exact KX|]. split; [apply (same_level_alike n _ _ CX)|exact AB].
Qed.
