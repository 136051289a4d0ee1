(** For C105: two groups of entries of one list change places. *)
From Verif Require LexSpecProofs.
From Verif Require Import ProofBase Tokens Syntax Lexer SpecLex LexInv LexMain LexFacts ParserCore Grammar
  Tree Printer Formatter Lib ParserSem ParserFuel SpecGrammar Regex ParserGrammar ParserTree ParserFacts Recognise PropsParser
  SpecLanguage Looks ParserComplete PropsLanguage
  FmtAbs FmtPlan FmtShape FmtTables FmtSound SpecLayout FmtExec FmtTop FmtFacts FmtRelex FmtNeat SpecNodes FmtTree FmtLists FmtOps
  FmtWrap SpecGaps SpecReference FmtNode FmtReference FmtSame PropsFormat PropsReference FmtBreaks FmtAgree FmtPrinted FmtStable FmtMoved
  FmtConcat SpecLevels FmtLevels SpecLocal FmtLocal SpecEdit LexSplice FmtEdit FmtSplice PropsEdit SpecCopy FmtCopy.

Notation within_range f t l := (Forall (fun y => begins f t y = true) l).
Lemma keep f t f' t' l : within_range f t l -> f' <= f -> t <= t' -> filter (begins f' t') l = l.
Proof.
  intros F L U. induction F as [|y l Y _ IH]; [reflexivity|]. cbn [filter]. replace (begins f' t' y) with true; [rewrite IH; reflexivity|].
  symmetry. unfold begins in *. apply andb_true_iff in Y. apply andb_true_iff. rewrite N.leb_le, N.ltb_lt in *. lia.
Qed.
Lemma skip f t f' t' l : within_range f t l -> t <= f' \/ t' <= f -> filter (begins f' t') l = [].
Proof.
  intros F D. induction F as [|y l Y _ IH]; [reflexivity|]. cbn [filter]. destruct (begins f' t' y) eqn:Q; [|exact IH]. exfalso. unfold begins in *. apply andb_true_iff in Y, Q. rewrite N.leb_le, N.ltb_lt in *. lia.
Qed.
Lemma middle a b c f t t' l : l = a ++ b ++ c -> within_range 0 f a -> within_range f t b -> within_range t t' c -> filter (begins f t) l = b.
Proof. intros -> P Q R. rewrite !filter_app, (skip _ _ _ _ _ P), (keep _ _ _ _ _ Q), (skip _ _ _ _ _ R), app_nil_r by lia. reflexivity. Qed.

(** Entries of one list and their levels. *)
Lemma standing s p items tree k e cs0 : reading s p items tree -> inside (CTree k cs0) tree -> entry_kind k = Some e ->
  exists c, forall A x B u w v, s = A ++ x ++ B -> stands A x B tree k e u w v -> cs0 = u ++ w ++ v ->
  exists b i r, filter (begins (bytes_of A) (bytes_of (A ++ x))) (reference tree items) = i :: r /\ e_white i = WLine b (c + leak_in k u).
Proof.
  intros RD IN EK. destruct (pieces _ _ _ _ _ _ _ RD IN EK) as (c & H). exists c. intros A x B u w v ES ST EC.
  destruct (stands_cut _ _ _ _ _ _ _ _ _ _ _ _ RD ES ST) as (IA & a & mid & b & IB & y & EI & Pa & Pb & Kb & FX & EX & CT).
  destruct (H _ _ _ _ _ _ _ _ _ _ _ _ ST EC CT EI FX Pa Pb) as (LA & LB & r & bl & xs & x0 & xs0 & E1 & I1 & I2 & I3 & _).
  pose proof (items_lexemes _ _ (rd_lexes _ _ _ _ RD)) as XL. rewrite EI in XL. apply Forall_app in XL as [XA XL]. apply Forall_app in XL as [XX XB].
  assert (forall (l : list entry) f to (IS : list token), (forall x0, In x0 l -> In (e_tok x0) IS) -> (forall t, In t IS -> f <= pos (tstart t) /\ pos (tstart t) < to) -> Forall (fun y => begins f to y = true) l) as G.
  { clear. intros l f to I0 H1 H2. apply Forall_forall. intros x0 I. apply H1, H2 in I as [G1 G2]. unfold begins. apply andb_true_iff. rewrite N.leb_le, N.ltb_lt. auto. }
  pose proof (ct_set_part _ _ _ _ _ _ _ _ _ CT) as SP. rewrite <- EX in SP.
  exists bl, (mkE (WLine bl (c + leak_in k u)) (Some r) a). eexists. split; [|reflexivity].
  apply (middle _ _ _ _ _ (bytes_of (A ++ x ++ B)) _ E1).
  - apply (G LA 0 (bytes_of A) IA I1); intros t I; destruct (set_out_range _ _ _ _ (ct_set _ _ _ _ _ _ _ _ _ CT) XA t I); split; [lia|assumption].
  - apply (G _ _ _ (a :: mid ++ [b])); [intros z [<-|I]; [left; reflexivity|right; auto]|apply (set_out_range _ _ _ _ SP XX)].
  - apply (G LB _ _ IB I3); pose proof (set_out_range _ _ _ _ (ct_set_after _ _ _ _ _ _ _ _ _ CT) XB) as SR; rewrite EX, <- !app_assoc in *; exact SR.
Qed.
Lemma stands_allowed s p items tree A x B k e u w v : reading s p items tree -> s = A ++ x ++ B -> stands A x B tree k e u w v -> Forall (allowed k) w.
Proof.
  intros RD ES ST. destruct (stands_phrase _ _ _ _ _ _ _ _ _ _ _ _ RD ES ST) as (y & a & mid & b & rw & IA & IB & PH & EX & <- & CT & EI & AW).
  clear - AW. induction AW as [|c rw C _ IH]; [constructor|]. cbn [map]. constructor; [|exact IH]. unfold allowed in *. destruct c as [t|q ds]; [exact Logic.I|].
  rewrite prune_tree. rewrite <- (prune_tree q ds), leaves_prune. exact C.
Qed.
Lemma alike_copied n n' l l' l2 : Forall2 (copied n n') l l' -> Forall2 alike l' l2 -> Forall2 (copied n n') l l2.
Proof.
  intro C. revert l2. induction C as [|y y' l l' (T & K & S) _ IH]; intros l2 A; inversion A as [|? z ? ? (W & T' & K') A']; subst; constructor; auto.
  split; [congruence|]. split; [congruence|]. rewrite W. exact S.
Qed.

Theorem exchange A x g y B p items tree k e u wx vg wy v :
  reading (A ++ x ++ g ++ y ++ B) p items tree -> stands A x (g ++ y ++ B) tree k e u wx (vg ++ wy ++ v) -> stands (A ++ x ++ g) y B tree k e (u ++ wx ++ vg) wy v ->
  (exists A0 c, A = A0 ++ [c] /\ parting c) -> (exists A0 c, A ++ x ++ g = A0 ++ [c] /\ parting c) -> leaked wx = leaked wy ->
  exists p' items' tree' la i r lg j q lb j' q' lg' i' r' lb' b n b2 n2,
    reading (A ++ y ++ g ++ x ++ B) p' items' tree' /\
    reference tree items = la ++ (i :: r) ++ lg ++ (j :: q) ++ lb /\
    reference tree' items' = la ++ (j' :: q') ++ lg' ++ (i' :: r') ++ lb' /\
    within_range 0 (bytes_of A) la /\ within_range (bytes_of A) (bytes_of (A ++ x)) (i :: r) /\ within_range (bytes_of (A ++ x)) (bytes_of (A ++ x ++ g)) lg /\
    within_range (bytes_of (A ++ x ++ g)) (bytes_of (A ++ x ++ g ++ y)) (j :: q) /\ within_range (bytes_of (A ++ x ++ g ++ y)) (bytes_of (A ++ x ++ g ++ y ++ B)) lb /\
    Forall2 alike lg lg' /\ Forall2 alike lb lb' /\
    e_white i = WLine b n /\ e_white j = WLine b2 n2 /\ n2 = (n + leaked (wx ++ vg))%nat /\ e_white j' = e_white i /\ e_white i' = e_white j /\
    ttext (e_tok i') = ttext (e_tok i) /\ tkind_of (e_tok i') = tkind_of (e_tok i) /\ ttext (e_tok j') = ttext (e_tok j) /\ tkind_of (e_tok j') = tkind_of (e_tok j) /\
    Forall2 (copied n n2) r r' /\ Forall2 (copied n2 n) q q'.
Proof.
  intros RD SX SY PA PG LK.
  assert (A ++ x ++ g ++ y ++ B = (A ++ x ++ g) ++ y ++ B) as T0 by (rewrite <- !app_assoc; reflexivity).
  assert (RDa := RD). rewrite T0 in RDa.
  assert (read (A ++ x ++ g ++ y ++ B) p tree) as RR by (split; [apply (rd_accepted _ _ _ _ RD)|apply (rd_tree _ _ _ _ RD)]).
  pose proof (stands_allowed _ _ _ _ _ _ _ _ _ _ _ _ RD eq_refl SX) as AX. pose proof (stands_allowed _ _ _ _ _ _ _ _ _ _ _ _ RDa eq_refl SY) as AY.
  destruct (replaced_reading _ _ _ _ _ _ _ _ _ _ _ _ _ _ _ _ _ _ _ _ RDa SY RR SX PG AX LK)
    as (p1 & items1 & tree1 & wx1 & v1 & la1 & j & q & i1 & r1 & lb & lb1 & RD1 & ST1 & _ & E0 & E1 & WJ & AB & G1 & G2 & G3 & G4 & G5).
  assert ((A ++ x ++ g) ++ x ++ B = A ++ x ++ g ++ x ++ B) as T1 by (rewrite <- !app_assoc; reflexivity).
  assert (RD1a := RD1). rewrite T1 in RD1a.
  assert (stands A x (g ++ x ++ B) tree1 k e u wx (vg ++ wx1 ++ v1)) as SX1.
  { destruct ST1 as [IN _ _ _]. destruct SX as [_ K E P]. split; auto. rewrite <- !app_assoc in IN. exact IN. }
  assert (read ((A ++ x ++ g) ++ y ++ B) p tree) as RRa by (rewrite <- T0; exact RR).
  destruct (replaced_reading _ _ _ _ _ _ _ _ _ _ _ _ _ _ _ _ _ _ _ _ RD1a SX1 RRa SY PA AY (eq_sym LK))
    as (p2 & items2 & tree2 & wy2 & v2 & la & i & r & j2 & q2 & lb2 & lb2' & RD2 & ST2 & _ & F1 & F2 & WI & AB2 & H1 & H2 & H3 & H4 & H5).
  (* the copies *)
  destruct (copies _ _ _ _ _ _ _ _ _ _ _ _ _ _ _ _ _ _ _ _ _ _ RD eq_refl SX RD1 eq_refl ST1)
    as (_ & _ & L3 & L4 & c & cr & L5 & L6 & c1 & cr1 & b & n & b1 & n1 & C1 & C2 & D1 & D2 & D3 & D4 & D5 & D6 & W1 & W2 & TX & KX & CX).
  destruct (copies _ _ _ _ _ _ _ _ _ _ _ _ _ _ _ _ _ _ _ _ _ _ RDa eq_refl SY RD2 eq_refl ST2)
    as (_ & _ & M3 & M4 & d & dr & M5 & M6 & d2 & dr2 & bd & m & bd2 & m2 & P1 & P2 & Q1 & Q2 & Q3 & Q4 & Q5 & Q6 & V1 & V2 & TY & KY & CY).
  rewrite <- !app_assoc in *.
  (* the layout of the text in between *)
  set (lg := filter (begins 0 (bytes_of (A ++ x ++ g))) lb2).
  assert (bytes_of A <= bytes_of (A ++ x) /\ bytes_of (A ++ x) <= bytes_of (A ++ x ++ g) /\ bytes_of (A ++ x ++ g) <= bytes_of (A ++ x ++ g ++ y) /\ bytes_of (A ++ x ++ g) <= bytes_of (A ++ x ++ g ++ x)) as (N1 & N2 & N3 & N4) by (rewrite !bytes_app; lia).
  assert (la1 = la ++ (i :: r) ++ lg) as EL.
  { rewrite <- (keep 0 (bytes_of (A ++ x ++ g)) 0 (bytes_of (A ++ x ++ g)) la1 G1) by lia.
    assert (filter (begins 0 (bytes_of (A ++ x ++ g))) (reference tree1 items1) = filter (begins 0 (bytes_of (A ++ x ++ g))) la1) as Z.
    { rewrite E1, !filter_app, (skip _ _ 0 (bytes_of (A ++ x ++ g)) _ G3), (skip _ _ 0 (bytes_of (A ++ x ++ g)) _ G5), !app_nil_r by lia. reflexivity. }
    rewrite <- Z, F1, !filter_app, (keep _ _ 0 (bytes_of (A ++ x ++ g)) _ H1), (keep _ _ 0 (bytes_of (A ++ x ++ g)) _ H2) by lia. reflexivity. }
  assert (lb2 = lg ++ (i1 :: r1) ++ lb1) as EB.
  { rewrite F1, EL in E1. rewrite <- !app_assoc in E1. apply app_inv_head in E1. apply app_inv_head in E1. exact E1. }
  assert (within_range (bytes_of (A ++ x)) (bytes_of (A ++ x ++ g)) lg) as RG.
  { unfold lg. clear - H4. apply Forall_forall. intros z Z. apply filter_In in Z as [Z1 Z2]. rewrite Forall_forall in H4. apply H4 in Z1. unfold begins in *. rewrite andb_true_iff, N.leb_le, N.ltb_lt in *. lia. }
  rewrite EB in AB2. apply Forall2_app_inv_l in AB2 as (lg' & r0 & AG & AR & EB2). apply Forall2_app_inv_l in AR as (r3 & lb' & AR & ABB & ->).
  inversion AR as [|? i' ? r' (WI' & TI & KI) ARR]; subst r3.
  assert (E0' : reference tree items = la ++ (i :: r) ++ lg ++ (j :: q) ++ lb) by (rewrite E0, EL, <- !app_assoc; reflexivity).
  (* identifying the pieces *)
  assert (c :: cr = i :: r) as EC.
  { rewrite <- (middle _ _ _ _ _ _ _ C1 D1 D2 D3). apply (middle _ _ _ _ _ (bytes_of (A ++ x ++ g ++ y ++ B)) _ E0'); [exact H1|exact H2|].
    assert (bytes_of (A ++ x ++ g ++ y) <= bytes_of (A ++ x ++ g ++ y ++ B)) as N5 by (rewrite !bytes_app; lia).
    repeat (apply Forall_app; split); [revert RG|revert G2|revert G4]; apply Forall_impl; intros z; unfold begins; rewrite !andb_true_iff, !N.leb_le, !N.ltb_lt; lia. }
  assert (c1 :: cr1 = i1 :: r1) as EC1.
  { rewrite <- (middle _ _ _ _ _ _ _ C2 D4 D5 D6). apply (middle _ _ _ _ _ _ _ E1 G1 G3 G5). }
  assert (d :: dr = j :: q) as ED.
  { rewrite <- (middle _ _ _ _ _ _ _ P1 Q1 Q2 Q3). apply (middle _ _ _ _ _ _ _ E0 G1 G2 G4). }
  assert (d2 :: dr2 = j2 :: q2) as ED2.
  { rewrite <- (middle _ _ _ _ _ _ _ P2 Q4 Q5 Q6). apply (middle _ _ _ _ _ _ _ F2 H1 H3 H5). }
  injection EC as -> ->. injection EC1 as -> ->. injection ED as -> ->. injection ED2 as -> ->.
  (* the levels *)
  pose proof (st_kind _ _ _ _ _ _ _ _ _ SX) as EK.
  destruct (standing _ _ _ _ _ _ _ RD (st_inside _ _ _ _ _ _ _ _ _ SX) EK) as (lv & ST).
  destruct (ST A x (g ++ y ++ B) u wx (vg ++ wy ++ v) eq_refl SX eq_refl) as (z1 & z2 & z3 & Z1 & Z2).
  destruct (ST (A ++ x ++ g) y B (u ++ wx ++ vg) wy v ltac:(rewrite <- !app_assoc; reflexivity) SY ltac:(rewrite <- !app_assoc; reflexivity)) as (z4 & z5 & z6 & Z4 & Z5).
  rewrite (middle _ _ _ _ _ _ _ C1 D1 D2 D3) in Z1. rewrite <- !app_assoc in Z4. rewrite (middle _ _ _ _ _ _ _ E0 G1 G2 G4) in Z4. injection Z1 as <- <-. injection Z4 as <- <-.
  assert (n = (lv + leak_in k u)%nat) as LN by congruence. assert (m = (lv + leak_in k (u ++ wx ++ vg))%nat) as LM by congruence.
  assert (n1 = m) as -> by congruence. assert (m2 = n) as -> by congruence.
  exists p2, items2, tree2, la, i, r, lg, j, q, lb, j2, q2, lg', i', r', lb', b, n, bd, m.
  split; [exact RD2|]. split; [exact E0'|]. split; [rewrite F2, EB2; reflexivity|]. split; [exact H1|]. split; [exact H2|]. split; [exact RG|]. split; [exact G2|]. split; [exact G4|].
  split; [exact AG|].
  split. { clear - AB ABB. revert lb' ABB. induction AB as [|z z' l l' (S1 & S2 & S3) _ IH]; intros l2 X; inversion X as [|? z2 ? ? (R1 & R2 & R3) X']; subst; constructor; auto. split; [congruence|]. split; congruence. }
  split; [exact W1|]. split; [exact V1|]. split. { rewrite LM, LN, leak_in_app, (leaked_in k e (wx ++ vg) EK). lia. }
  split; [exact WI|]. split; [congruence|]. split; [congruence|]. split; [congruence|]. split; [exact TY|]. split; [exact KY|].
  split; [apply (alike_copied _ _ _ _ _ CX ARR)|exact CY].
Qed.
