(** Property C103: one expression in the place of another one. *)
From Verif Require LexSpecProofs.
From Verif Require Import ProofBase Tokens Syntax Lexer SpecLex LexInv LexMain LexFacts ParserCore Grammar
  Tree Printer Formatter Lib ParserSem ParserFuel SpecGrammar Regex ParserGrammar ParserTree ParserFacts Recognise PropsParser
  SpecLanguage Looks ParserComplete PropsLanguage
  FmtAbs FmtPlan FmtShape FmtTables FmtSound SpecLayout FmtExec FmtTop FmtFacts FmtRelex FmtNeat SpecNodes FmtTree FmtLists FmtOps
  FmtWrap SpecGaps SpecReference FmtNode FmtReference FmtSame PropsFormat PropsReference FmtBreaks FmtAgree FmtPrinted FmtStable FmtMoved
  FmtConcat SpecLevels FmtLevels SpecLocal FmtLocal SpecEdit SpecExpr LexSplice FmtEdit FmtSplice PropsEdit FmtExpr LexExpr FmtExprText.

Lemma shape_flat_on s A y B IA m z IB ds : piece s A y B IA m z IB -> newlines (y ++ ttext z) = 0 -> filter plain (m ++ [z]) = toks (CTree KExpression ds) ->
  flat_on (1 + newlines A) (CTree KExpression ds).
Proof.
  intros CT Z E. pose proof (set_out_line _ _ _ _ (pc_set_part _ _ _ _ _ _ _ _ CT) Z) as L. unfold flat_on. rewrite <- E. rewrite Forall_forall in *. intros t I. apply filter_In in I as [I _].
  apply L in I. exact I.
Qed.
Lemma plug_inside F c : inside c (plug F c).
Proof. induction F as [|[[q a] b] F IH]; [constructor|]. cbn [plug fold_right fst snd]. econstructor; [|exact IH]. apply in_or_app. right. left. reflexivity. Qed.
Lemma frames_same F : Forall2 (frame_moved same_text 0) F F.
Proof.
  assert (forall c, tree_moved same_text 0 c c) as TM.
  { induction c as [t|k cs IH] using child_ind2; constructor.
    - split; [reflexivity|]. split; [reflexivity|]. split; [lia|]. split; [lia|]. reflexivity.
    - induction IH; constructor; auto. }
  induction F as [|f F IH]; constructor; auto. split; [reflexivity|]. split; [reflexivity|]. induction (snd f); constructor; auto.
Qed.
Lemma moved_same l : Forall2 (moved same_text 0) l l.
Proof. induction l; constructor; auto. split; [reflexivity|]. split; [reflexivity|]. split; [lia|]. split; [lia|]. reflexivity. Qed.

Lemma swapped A x B p items tree ds A2 x2 B2 p2 items2 tree2 ds2 :
  reading (A ++ x ++ B) p items tree -> expression_at A x B tree ds -> newlines x = 0 ->
  reading (A2 ++ x2 ++ B2) p2 items2 tree2 -> expression_at A2 x2 B2 tree2 ds2 -> newlines x2 = 0 -> enclosed A B ->
  exists p' tree' ds' la i lx lb i' lx' lb' la2 i2 lx2 lb2, read (A ++ x2 ++ B) p' tree' /\ expression_at A x2 B tree' ds' /\ Forall2 same_form ds2 ds' /\
    reference tree items = la ++ (i :: lx) ++ lb /\ (forall eol, layout_of eol (A ++ x2 ++ B) p' (la ++ (i' :: lx') ++ lb')) /\ reference tree2 items2 = la2 ++ (i2 :: lx2) ++ lb2 /\
    e_white i' = e_white i /\ Forall2 alike lb lb' /\
    (ttext (e_tok i') = ttext (e_tok i2) /\ tkind_of (e_tok i') = tkind_of (e_tok i2)) /\ Forall2 alike lx2 lx' /\
    Forall (fun y => e_white y = WNone \/ e_white y = WSpace) lx' /\
    Forall (fun y => begins 0 (bytes_of A) y = true) la /\
    Forall (fun y => begins (bytes_of A) (bytes_of (A ++ x)) y = true) (i :: lx) /\
    Forall (fun y => begins (bytes_of A) (bytes_of (A ++ x2)) y = true) (i' :: lx') /\
    Forall (fun y => begins (bytes_of A2) (bytes_of (A2 ++ x2)) y = true) (i2 :: lx2) /\
    Forall (fun y => begins (bytes_of (A ++ x)) (bytes_of (A ++ x ++ B)) y = true) lb /\
    Forall (fun y => begins (bytes_of (A ++ x2)) (bytes_of (A ++ x2 ++ B)) y = true) lb' /\
    Forall (fun y => begins 0 (bytes_of A2) y = true) la2 /\
    Forall (fun y => begins (bytes_of (A2 ++ x2)) (bytes_of (A2 ++ x2 ++ B2)) y = true) lb2.
Proof.
  intros RD ST Z RD2 ST2 Z2 EN.
  destruct (express _ _ _ _ _ _ _ _ _ _ _ _ _ _ _ _ RD eq_refl ST Z RD2 eq_refl ST2 Z2 EN)
    as (p' & items' & tree' & F & F' & ds' & IA & m & z & IB & m' & z' & IB' & y & y' & RD' & ET & ET' & EI & EI' & NF & NF' & FF & [PH PZ] & [PH' PZ'] & FX & FX' & EX & CT & EX' & CT' & MB & BD & SH).
  destruct (expression_piece _ _ _ _ _ _ _ _ RD2 eq_refl ST2) as (IA2 & m2 & z2 & IB2 & y2 & EI2 & PH2 & PZ2 & FX2 & EX2 & CT2).
  destruct (inside_plug _ _ (ex_inside _ _ _ _ _ ST2)) as (F2 & ET2).
  assert (F2 <> []) as NF2. { intros ->. destruct (rd_fits _ _ _ _ RD2) as (cs & E2 & _). cbn in ET2. rewrite E2 in ET2. discriminate. }
  pose proof (reading_fits _ _ _ _ _ _ RD ET NF) as FT. pose proof (reading_fits _ _ _ _ _ _ RD' ET' NF') as FT'. pose proof (reading_fits _ _ _ _ _ _ RD2 ET2 NF2) as FT2.
  rewrite ET in FT. rewrite ET' in FT'. rewrite ET2 in FT2.
  pose proof (fits_plug _ _ FT') as FC'. pose proof (fits_plug _ _ FT2) as FC2.
  assert (flat_on (1 + newlines A) (CTree KExpression ds)) as HC by (apply (shape_flat_on _ _ _ _ _ _ _ _ _ CT); congruence).
  assert (flat_on (1 + newlines A) (CTree KExpression ds')) as HC' by (apply (shape_flat_on _ _ _ _ _ _ _ _ _ CT'); congruence).
  assert (flat_on (1 + newlines A2) (CTree KExpression ds2)) as HC2 by (apply (shape_flat_on _ _ _ _ _ _ _ _ _ CT2); congruence).
  assert (forall s p items tree, reading s p items tree -> toks tree = filter plain items /\ NoDup items) as TT.
  { intros s0 q0 its0 tr0 R0. split; [rewrite (rd_toks _ _ _ _ R0), (rd_tokens _ _ _ _ R0); reflexivity|apply (laid_nodup _ _ _ (rd_laid _ _ _ _ R0))]. }
  destruct (TT _ _ _ _ RD) as [T1 N1]. destruct (TT _ _ _ _ RD') as [T1' N1']. destruct (TT _ _ _ _ RD2) as [T2 N2]. clear TT.
  destruct (head_split m z) as (r & EH). destruct (head_split m' z') as (r' & EH'). destruct (head_split m2 z2) as (r2 & EH2).
  rewrite ET, EI in T1. rewrite EI in N1. rewrite ET', EI' in T1'. rewrite EI' in N1'. rewrite ET2, EI2 in T2. rewrite EI2 in N2.
  destruct (swap_layout F F' ds ds' (1 + newlines A) IA (m ++ [z]) (m' ++ [z']) IB IB' (head_of m z) r (head_of m' z') r' FF FT FT' HC HC' T1 T1' N1 N1' FX FX' EH EH' PH PH'
    (ex_intro _ m (ex_intro _ z (conj eq_refl PZ))) (ex_intro _ m' (ex_intro _ z' (conj eq_refl PZ'))) MB)
    as (la & lb & lb' & wh & x1 & xs & x1' & xs' & E1 & E1' & LB & (q & ps & fi & n & on & inh & SP) & (q' & ps' & fi' & n' & on' & inh' & SP') & IA1 & IB1 & IB1').
  destruct (swap_layout F2 F2 ds2 ds2 (1 + newlines A2) IA2 (m2 ++ [z2]) (m2 ++ [z2]) IB2 IB2 (head_of m2 z2) r2 (head_of m2 z2) r2 (frames_same F2) FT2 FT2 HC2 HC2 T2 T2 N2 N2 FX2 FX2 EH2 EH2 PH2 PH2
    (ex_intro _ m2 (ex_intro _ z2 (conj eq_refl PZ2))) (ex_intro _ m2 (ex_intro _ z2 (conj eq_refl PZ2))) (moved_same IB2))
    as (la2 & lb2 & _ & wh2 & x2' & xs2 & _ & _ & E2 & _ & _ & (q2 & ps2 & fi2 & n2 & on2 & inh2 & SP2) & _ & IA12 & IB12 & _).
  rewrite <- ET, <- EI in E1. rewrite <- ET', <- EI' in E1'. rewrite <- ET2, <- EI2 in E2.
  destruct (expression_inline _ _ _ _ _ _ FC2 FC' HC2 HC' BD SH _ _ _ _ _ _ _ _ SP2 _ _ _ _ _ _ _ _ SP') as (R & K & T & IL).
  assert (forall q ps fi n on inh ds0 x0 xs0 m0 z0 r0, spots q ps fi n on inh (CTree KExpression ds0) = x0 :: xs0 -> filter plain (m0 ++ [z0]) = toks (CTree KExpression ds0) -> m0 ++ [z0] = head_of m0 z0 :: r0 -> plain (head_of m0 z0) = true ->
    at_tok x0 = head_of m0 z0 /\ forall w t, In t (map e_tok (inline w xs0)) -> In t (m0 ++ [z0])) as HD.
  { intros q0 ps0 fi0 n0 on0 inh0 ds0 x0 xs0 m0 z0 r0 S0 M0 H0 P0. pose proof (f_equal (map at_tok) S0) as S1. rewrite spots_toks, <- M0, H0 in S1. cbn [filter map] in S1. rewrite P0 in S1. split; [congruence|].
    intros w t I. rewrite inline_toks in I. rewrite H0. assert (map at_tok xs0 = filter plain r0) as S2 by congruence. rewrite S2 in I. apply filter_In in I as [I _]. right. exact I. }
  destruct (HD _ _ _ _ _ _ _ _ _ _ _ _ SP FX EH PH) as [HX HI]. destruct (HD _ _ _ _ _ _ _ _ _ _ _ _ SP' FX' EH' PH') as [HX' HI']. destruct (HD _ _ _ _ _ _ _ _ _ _ _ _ SP2 FX2 EH2 PH2) as [HX2 HI2]. clear HD.
  exists p', tree', ds', la, (mkE wh (Some (at_rule x1)) (head_of m z)), (inline (at_rule x1, tkind_of (head_of m z)) xs), lb,
    (mkE wh (Some (at_rule x1')) (head_of m' z')), (inline (at_rule x1', tkind_of (head_of m' z')) xs'), lb', la2, (mkE wh2 (Some (at_rule x2')) (head_of m2 z2)), (inline (at_rule x2', tkind_of (head_of m2 z2)) xs2), lb2.
  assert (forall (l : list entry) a b (I : list token), (forall x0, In x0 l -> In (e_tok x0) I) -> (forall t, In t I -> a <= pos (tstart t) /\ pos (tstart t) < b) -> Forall (fun y => begins a b y = true) l) as G.
  { intros l a b I0 H1 H2. apply Forall_forall. intros x0 I. apply H1, H2 in I as [I1 I2]. unfold begins. apply andb_true_iff. rewrite N.leb_le, N.ltb_lt. auto. }
  pose proof (items_lexemes _ _ (rd_lexes _ _ _ _ RD)) as XL. rewrite EI in XL. apply Forall_app in XL as [XA XL]. apply Forall_app in XL as [XX XB].
  pose proof (items_lexemes _ _ (rd_lexes _ _ _ _ RD')) as XL'. rewrite EI' in XL'. apply Forall_app in XL' as [_ XL']. apply Forall_app in XL' as [XX' XB'].
  pose proof (items_lexemes _ _ (rd_lexes _ _ _ _ RD2)) as XL2. rewrite EI2 in XL2. apply Forall_app in XL2 as [XA2 XL2]. apply Forall_app in XL2 as [XX2 XB2].
  assert (forall m0 z0 w0 (HI : forall w t, In t (map e_tok (inline w w0)) -> In t (m0 ++ [z0])) wh0 r0 k0, forall y, In y (mkE wh0 r0 (head_of m0 z0) :: inline k0 w0) -> In (e_tok y) (m0 ++ [z0])) as MI.
  { intros m0 z0 w0 HH wh0 r0 k0 y0 [<-|I]; [cbn [e_tok]; destruct (head_split m0 z0) as (? & ->); left; reflexivity|]. apply (HH k0). apply in_map, I. }
  split; [split; [apply (rd_accepted _ _ _ _ RD')|apply (rd_tree _ _ _ _ RD')]|]. split; [|split].
  - split; [rewrite ET'; apply plug_inside| |].
    + exists (head_of m' z'), (filter plain r'). split; [rewrite <- toks_leaves, <- FX', EH'; cbn [filter]; rewrite PH'; reflexivity|]. apply (pc_first _ _ _ _ _ _ _ _ CT').
    + exists (filter plain m'), z'. split; [rewrite <- toks_leaves, <- FX', filter_app; cbn [filter]; rewrite PZ'; reflexivity|]. rewrite EX'. apply (pc_last _ _ _ _ _ _ _ _ CT').
  - apply (shapes_form (newlines A2) (newlines A)); [congruence|exact SH].
  - split; [exact E1|]. split; [intro eol; rewrite <- E1'; apply (reading_reference eol _ _ _ _ RD')|]. split; [exact E2|]. split; [reflexivity|].
    split; [revert LB; apply forall2_imp; intros e e' (W & _ & (TX & TK & _)); split; [exact W|]; split; [symmetry; exact TX|exact TK]|].
    cbn [e_tok]. split; [rewrite <- HX', <- HX2; auto|]. split; [rewrite <- HX', <- HX2, R, K; apply IL|]. split; [apply inline_level|].
    split; [apply (G la 0 (bytes_of A) IA IA1); intros t I; destruct (set_out_range _ _ _ _ (pc_set _ _ _ _ _ _ _ _ CT) XA t I); split; [lia|assumption]|].
    split; [apply (G _ (bytes_of A) (bytes_of (A ++ x)) (m ++ [z])); [apply MI, HI|rewrite EX; apply (set_out_range _ _ _ _ (pc_set_part _ _ _ _ _ _ _ _ CT) XX)]|].
    split; [apply (G _ (bytes_of A) (bytes_of (A ++ x2)) (m' ++ [z'])); [apply MI, HI'|rewrite EX'; apply (set_out_range _ _ _ _ (pc_set_part _ _ _ _ _ _ _ _ CT') XX')]|].
    split; [apply (G _ (bytes_of A2) (bytes_of (A2 ++ x2)) (m2 ++ [z2])); [apply MI, HI2|rewrite EX2; apply (set_out_range _ _ _ _ (pc_set_part _ _ _ _ _ _ _ _ CT2) XX2)]|].
    split; [|split; [|split]].
    + apply (G lb _ _ IB IB1). pose proof (set_out_range _ _ _ _ (pc_set_after _ _ _ _ _ _ _ _ CT) XB) as SR. rewrite EX, <- !app_assoc in *. exact SR.
    + apply (G lb' _ _ IB' IB1'). pose proof (set_out_range _ _ _ _ (pc_set_after _ _ _ _ _ _ _ _ CT') XB') as SR. rewrite EX', <- !app_assoc in *. exact SR.
    + apply (G la2 0 (bytes_of A2) IA2 IA12); intros t I; destruct (set_out_range _ _ _ _ (pc_set _ _ _ _ _ _ _ _ CT2) XA2 t I); split; [lia|assumption].
    + apply (G lb2 _ _ IB2 IB12). pose proof (set_out_range _ _ _ _ (pc_set_after _ _ _ _ _ _ _ _ CT2) XB2) as SR. rewrite EX2, <- !app_assoc in *. exact SR.
Qed.

(** ** C103 *)
Theorem C103_replace : forall A x B p tree ds A2 x2 B2 p2 tree2 ds2,
  read (A ++ x ++ B) p tree -> expression_at A x B tree ds -> newlines x = 0 ->
  read (A2 ++ x2 ++ B2) p2 tree2 -> expression_at A2 x2 B2 tree2 ds2 -> newlines x2 = 0 -> enclosed A B ->
  exists p' tree' ds' la i lx lb i' lx' lb' la2 i2 lx2 lb2, read (A ++ x2 ++ B) p' tree' /\ expression_at A x2 B tree' ds' /\ Forall2 same_form ds2 ds' /\
    (forall eol, layout_of eol (A ++ x ++ B) p (la ++ (i :: lx) ++ lb) /\ layout_of eol (A ++ x2 ++ B) p' (la ++ (i' :: lx') ++ lb') /\ layout_of eol (A2 ++ x2 ++ B2) p2 (la2 ++ (i2 :: lx2) ++ lb2)) /\
    e_white i' = e_white i /\ Forall2 alike lb lb' /\
    (ttext (e_tok i') = ttext (e_tok i2) /\ tkind_of (e_tok i') = tkind_of (e_tok i2)) /\ Forall2 alike lx2 lx' /\
    Forall (fun y => e_white y = WNone \/ e_white y = WSpace) lx' /\
    Forall (fun y => begins 0 (bytes_of A) y = true) la /\
    Forall (fun y => begins (bytes_of A) (bytes_of (A ++ x)) y = true) (i :: lx) /\
    Forall (fun y => begins (bytes_of A) (bytes_of (A ++ x2)) y = true) (i' :: lx') /\
    Forall (fun y => begins (bytes_of A2) (bytes_of (A2 ++ x2)) y = true) (i2 :: lx2) /\
    Forall (fun y => begins (bytes_of (A ++ x)) (bytes_of (A ++ x ++ B)) y = true) lb /\
    Forall (fun y => begins (bytes_of (A ++ x2)) (bytes_of (A ++ x2 ++ B)) y = true) lb' /\
    Forall (fun y => begins 0 (bytes_of A2) y = true) la2 /\
    Forall (fun y => begins (bytes_of (A2 ++ x2)) (bytes_of (A2 ++ x2 ++ B2)) y = true) lb2.
Proof.
  intros A x B p tree ds A2 x2 B2 p2 tree2 ds2 R ST Z R2 ST2 Z2 EN. destruct (read_reading _ _ _ R) as (items & RD). destruct (read_reading _ _ _ R2) as (items2 & RD2).
  destruct (swapped _ _ _ _ _ _ _ _ _ _ _ _ _ _ RD ST Z RD2 ST2 Z2 EN) as (p' & tree' & ds' & la & i & lx & lb & i' & lx' & lb' & la2 & i2 & lx2 & lb2 & H1 & H2 & H3 & H4 & H5 & H6 & H7).
  exists p', tree', ds', la, i, lx, lb, i', lx', lb', la2, i2, lx2, lb2. split; [exact H1|]. split; [exact H2|]. split; [exact H3|]. split; [|exact H7].
  intro eol. rewrite <- H4, <- H6. split; [apply (reading_reference eol _ _ _ _ RD)|]. split; [apply H5|apply (reading_reference eol _ _ _ _ RD2)].
Qed.
Print Assumptions C103_replace.

(** The text: everything around the expression and the white space in front of it is written as before, and the expression itself as in its own file. *)
Theorem C103_output : forall A x B p tree ds A2 x2 B2 p2 tree2 ds2,
  read (A ++ x ++ B) p tree -> expression_at A x B tree ds -> newlines x = 0 ->
  read (A2 ++ x2 ++ B2) p2 tree2 -> expression_at A2 x2 B2 tree2 ds2 -> newlines x2 = 0 -> enclosed A B ->
  exists l l2 p', (forall eol, layout_of eol (A ++ x ++ B) p l /\ layout_of eol (A2 ++ x2 ++ B2) p2 l2) /\ accepted (A ++ x2 ++ B) p' /\
    forall eol, pretty_print eol p' = Ok (
      render eol (filter (begins 0 (bytes_of A)) l) ++ gap_text eol (filter (begins (bytes_of A) (bytes_of (A ++ x))) l) ++
      body_text eol (filter (begins (bytes_of A2) (bytes_of (A2 ++ x2))) l2) ++ render eol (filter (begins (bytes_of (A ++ x)) (bytes_of (A ++ x ++ B))) l)).
Proof.
  intros A x B p tree ds A2 x2 B2 p2 tree2 ds2 R ST Z R2 ST2 Z2 EN.
  destruct (C103_replace _ _ _ _ _ _ _ _ _ _ _ _ R ST Z R2 ST2 Z2 EN)
    as (p' & tree' & ds' & la & i & lx & lb & i' & lx' & lb' & la2 & i2 & lx2 & lb2 & H1 & _ & _ & H4 & W & AK & [T _] & AK2 & _ & B1 & B3 & _ & B5 & B6 & _ & B8 & B9).
  exists (la ++ (i :: lx) ++ lb), (la2 ++ (i2 :: lx2) ++ lb2), p'. split; [intro eol; destruct (H4 eol) as (X & _ & Y); auto|]. split; [apply H1|]. intro eol. destruct (H4 eol) as (_ & L & _). rewrite (lo_text _ _ _ _ L).
  assert (forall a b l, Forall (fun y => begins a b y = true) l -> filter (begins a b) l = l) as FK.
  { intros a b l F. induction F as [|y l Y _ IH]; [reflexivity|]. cbn [filter]. rewrite Y, IH. reflexivity. }
  assert (forall a b a' b' l, Forall (fun y => begins a' b' y = true) l -> b <= a' \/ b' <= a -> filter (begins a b) l = []) as FN.
  { intros a b a' b' l F D. induction F as [|y l Y _ IH]; [reflexivity|]. cbn [filter]. destruct (begins a b y) eqn:E; [|exact IH]. exfalso. unfold begins in *. apply andb_true_iff in Y, E. rewrite N.leb_le, N.ltb_lt in *. lia. }
  assert (forall (a y b : text), bytes_of a <= bytes_of (a ++ y)) as LE by (intros; rewrite bytes_app; lia).
  pose proof (LE A x []) as L1. pose proof (LE A2 x2 []) as L2.
  rewrite !filter_app, (FK _ _ _ B1), (FK _ _ _ B6), (FK _ _ _ B3), (FK _ _ _ B5), (FN 0 (bytes_of A) _ _ _ B3), (FN 0 (bytes_of A) _ _ _ B6), (FN (bytes_of A) (bytes_of (A ++ x)) _ _ _ B1), (FN (bytes_of A) (bytes_of (A ++ x)) _ _ _ B6),
    (FN (bytes_of (A ++ x)) _ _ _ _ B1), (FN (bytes_of (A ++ x)) _ _ _ _ B3), (FN (bytes_of A2) (bytes_of (A2 ++ x2)) _ _ _ B8), (FN (bytes_of A2) (bytes_of (A2 ++ x2)) _ _ _ B9), !app_nil_r by lia.
  assert (forall l l', Forall2 alike l l' -> render eol l' = render eol l) as RA.
  { clear. induction 1 as [|y y' l l' (W & T & _) _ IH]; [reflexivity|]. unfold render in *. cbn [flat_map]. rewrite W, T, IH. reflexivity. }
  cbn [app gap_text body_text]. f_equal. unfold render at 1. rewrite !flat_map_app. cbn [app flat_map]. fold (render eol la) (render eol (lx' ++ lb')). rewrite W, T, <- !app_assoc. f_equal. f_equal. f_equal.
  unfold render at 1. rewrite flat_map_app. fold (render eol lx') (render eol lb'). rewrite (RA _ _ AK), (RA _ _ AK2). reflexivity.
Qed.
Print Assumptions C103_output.

(** Non-vacuity: an argument of a wrapped call gives way to the value of a variable in another file. *)
Definition slot_a : text := lines ["model M Real x = f(a,"; "["]%string.
Definition slot_x : text := str "b+1".
Definition slot_b : text := lines [",2], c)"; "+ 3 ""d""; // one"; "equation y = if u then 1"; "else 2; end M;"]%string.
Definition value_a : text := lines ["package P"; ""; "constant Real z(start=2)="]%string.
Definition value_x : text := str "if  p then {q,r[1: 2]} else-s.^2 /* n */ - .g.h( i= -1)".
Definition value_b : text := lines [""; """v""; end P;"]%string.
Definition expression_no (n : nat) (s : text) : list child := match nth n (nodes KExpression (tree_of s)) (CTree KExpression []) with CTree _ cs => cs | _ => [] end.
Lemma nth_inside k c n d cs : nth n (nodes k c) d = CTree k cs -> (n < length (nodes k c))%nat -> inside (CTree k cs) c.
Proof. intros E L. apply (nodes_inside k). rewrite <- E. apply nth_In. exact L. Qed.
Ltac spoken n := split; [apply (nth_inside KExpression _ n (CTree KExpression [])); vm_compute; [reflexivity|lia]|eexists _, _; split; vm_compute; reflexivity|].
Definition some_token : token := mkTok 0 [] TEOF (mkPos 0 0 0) (mkPos 0 0 0).
Ltac ended s n := let w := eval vm_compute in (leaves (CTree KExpression (expression_no n s))) in
  let l := eval vm_compute in (removelast w) in let b := eval vm_compute in (last w some_token) in exists l, b; split; vm_compute; reflexivity.
Example C103_applies :
  read (slot_a ++ slot_x ++ slot_b) (parsed_of (slot_a ++ slot_x ++ slot_b)) (tree_of (slot_a ++ slot_x ++ slot_b)) /\
  expression_at slot_a slot_x slot_b (tree_of (slot_a ++ slot_x ++ slot_b)) (expression_no 3 (slot_a ++ slot_x ++ slot_b)) /\ newlines slot_x = 0 /\
  read (value_a ++ value_x ++ value_b) (parsed_of (value_a ++ value_x ++ value_b)) (tree_of (value_a ++ value_x ++ value_b)) /\
  expression_at value_a value_x value_b (tree_of (value_a ++ value_x ++ value_b)) (expression_no 1 (value_a ++ value_x ++ value_b)) /\ newlines value_x = 0 /\ enclosed slot_a slot_b.
Proof.
  split; [split; [split|]; vm_compute; reflexivity|]. split; [spoken 3%nat; ended (slot_a ++ slot_x ++ slot_b) 3%nat|]. split; [reflexivity|].
  split; [split; [split|]; vm_compute; reflexivity|]. split; [spoken 1%nat; ended (value_a ++ value_x ++ value_b) 1%nat|]. split; [reflexivity|].
  split; [exists (removelast slot_a), 91; split; [vm_compute; reflexivity|right; vm_compute; tauto]|eexists _, _; split; [vm_compute; reflexivity|right; vm_compute; tauto]].
Qed.
Example C103_shown :
  formats (slot_a ++ slot_x ++ slot_b) (lines ["model M"; ""; "  Real x = f("; "    a,"; "    [b + 1, 2],"; "    c)"; "    + 3"; "    ""d""; // one"; ""; "equation"; ""; "  y ="; "    if u then"; "      1"; "    else"; "      2;"; ""; "end M;"]%string) /\
  formats (value_a ++ value_x ++ value_b) (lines ["package P"; ""; "  constant Real z(start = 2) = if p then {q, r[1 : 2]} else -s .^ 2 - .g.h(i = -1)"; "    ""v"";"; ""; "end P;"]%string) /\
  formats (slot_a ++ value_x ++ slot_b) (lines ["model M"; ""; "  Real x = f("; "    a,"; "    [if p then {q, r[1 : 2]} else -s .^ 2 - .g.h(i = -1), 2],"; "    c)"; "    + 3"; "    ""d""; // one"; ""; "equation"; ""; "  y ="; "    if u then"; "      1"; "    else"; "      2;"; ""; "end M;"]%string).
Proof. split; [formatted|]. split; formatted. Qed.
(** An expression with a line break may wrap what is around it. *)
Example C103_one_line :
  formats (lines ["model M Real x = f(a, b, c); end M;"]%string) (lines ["model M"; ""; "  Real x = f(a, b, c);"; ""; "end M;"]%string) /\
  formats (lines ["model M Real x = f(a, b"; "+ 1, c); end M;"]%string) (lines ["model M"; ""; "  Real x = f("; "    a,"; "    b"; "      + 1,"; "    c);"; ""; "end M;"]%string).
Proof. split; formatted. Qed.
(** Without white space or a bracket around it, another expression may run into the words around it. *)
Example C103_enclosed :
  (exists p, accepted (str "model M Real x = if a then" ++ str "(1)" ++ str "else 2; end M;") p) /\ (exists p, accepted (str "model M Real x = if a then " ++ str "1" ++ str " else 2; end M;") p) /\
  ~ exists p, accepted (str "model M Real x = if a then" ++ str "1" ++ str "else 2; end M;") p.
Proof.
  split; [eexists; split; vm_compute; reflexivity|]. split; [eexists; split; vm_compute; reflexivity|]. intros (p & A & _). vm_compute in A. discriminate.
Qed.
