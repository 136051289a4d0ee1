(** The text of one expression in the place of another one. *)
From Verif Require Import ProofBase Tokens Syntax Lexer SpecLex LexInv LexMain LexFacts ParserCore Grammar
  Tree Printer Formatter Lib ParserSem ParserFuel SpecGrammar Regex ParserGrammar ParserTree ParserFacts Recognise PropsParser
  SpecLanguage ParserComplete PropsLanguage
  FmtAbs FmtPlan FmtShape FmtTables FmtSound SpecLayout FmtExec FmtTop FmtFacts FmtRelex FmtNeat SpecNodes FmtTree FmtLists FmtOps
  FmtWrap SpecGaps SpecReference FmtNode FmtReference FmtSame PropsFormat PropsReference FmtBreaks FmtAgree FmtPrinted FmtStable FmtMoved
  FmtConcat SpecLevels FmtLevels SpecLocal FmtLocal SpecEdit SpecExpr LexSplice FmtEdit FmtSplice FmtExpr LexExpr.

(** ** Trees *)
Lemma prunes_toks u : flat_map toks (prunes u) = flat_map toks u.
Proof. rewrite !toks_yield. pose proof (leaves_prune (CTree KExpression u)) as H. rewrite prune_tree in H. exact H. Qed.
Lemma pruned_lefts X : lefts (map prune_frame X) = lefts X.
Proof. induction X as [|[[k u] v] X IH]; [reflexivity|]. unfold lefts in *. cbn [map flat_map prune_frame fst snd]. rewrite prunes_toks, IH. reflexivity. Qed.
Lemma plug_sym X c c' : sym_of c = sym_of c' -> sym_of (plug X c) = sym_of (plug X c').
Proof. destruct X as [|[[k u] v] X]; intro E; [exact E|reflexivity]. Qed.
Lemma plug_parsable_expression X c c' : sym_of c = Rule KExpression -> sym_of c' = Rule KExpression -> leaves c' <> [] -> fits (plug (map prune_frame X) (prune c)) ->
  parsable c' -> parsable (plug X c) -> parsable (plug X c').
Proof.
  intros SC SC' NE. induction X as [|[[k u] v] X IH]; cbn [plug fold_right fst snd map prune_frame]; intros FT PC P; [exact PC|].
  fold (plug (map prune_frame X) (prune c)) in FT. fold (plug X c) in P. fold (plug X c').
  apply fits_kids in FT as (_ & _ & FT). apply Forall_app in FT as [_ FT]. inversion FT as [|? ? FD _]; subst.
  destruct P as [C U]. apply conforms_kids in C as [LA C]. apply unbarred_kids in U as [A U].
  apply Forall_app in C as [C1 C2], A as [A1 A2], U as [U1 U2]. inversion C2 as [|? ? C3 C4]; subst. inversion A2 as [|? ? A3 A4]; subst. inversion U2 as [|? ? U3 U4]; subst.
  destruct (IH FD PC (conj C3 U3)) as [C5 U5]. assert (sym_of (plug X c) = sym_of (plug X c')) as S by (apply plug_sym; congruence).
  assert (allowed k (plug X c')) as A5.
  { unfold allowed in *. destruct (plug X c) as [t|q ds] eqn:EP, (plug X c') as [t'|q' ds'] eqn:EP'; try exact Logic.I; try discriminate. cbn [sym_of] in S. injection S as <-.
    destruct (skind_eqb q KEquation) eqn:EQ.
    - apply skind_eqb_eq in EQ. subst q.
      assert (lefts X <> []) as NL.
      { intro Z. destruct (before_expression_ok (map prune_frame X) (prune c)) as [BE _]; [rewrite kind_is, prune_sym; exact SC|exact FD|]. rewrite pruned_lefts in BE. specialize (BE Z).
        unfold leads in BE. rewrite kind_is in BE. assert (sym_of (plug (map prune_frame X) (prune c)) = Rule KEquation) as SE.
        { destruct X as [|[[k0 u0] v0] X]; [cbn in EP; rewrite EP in SC; discriminate|]. cbn [plug fold_right fst snd map prune_frame sym_of] in *. injection EP as -> _. reflexivity. }
        rewrite SE in BE. vm_compute in BE. discriminate. }
      assert (leaves (CTree KEquation ds) = lefts X ++ leaves c ++ rights X) as L1 by (rewrite <- EP, <- !toks_leaves; apply plug_toks).
      assert (leaves (CTree KEquation ds') = lefts X ++ leaves c' ++ rights X) as L2 by (rewrite <- EP', <- !toks_leaves; apply plug_toks).
      rewrite L1 in A3. rewrite L2. destruct (lefts X) as [|h r]; [contradiction|]. exact A3.
    - replace (barred k q) with (@nil tkind) by (destruct q; try reflexivity; discriminate). destruct (leaves (CTree q ds')); [exact Logic.I|intros []]. }
  split.
  - constructor; [|apply Forall_app; auto]. unfold syms in *. rewrite map_app in *. cbn [map] in *. rewrite <- S. exact LA.
  - constructor; apply Forall_app; auto.
Qed.

(** ** Pieces *)
Lemma expression_piece s p items tree A x B ds : reading s p items tree -> s = A ++ x ++ B -> expression_at A x B tree ds ->
  exists IA m b IB y, items = IA ++ (m ++ [b]) ++ IB /\ plain (head_of m b) = true /\ plain b = true /\
    filter plain (m ++ [b]) = toks (CTree KExpression ds) /\ x = y ++ ttext b /\ piece s A y B IA m b IB.
Proof.
  intros RD ES [IN (a & l1 & EL1 & PA) (l2 & b & EL2 & PB)]. destruct (inside_toks _ _ IN) as (l & r & ET).
  rewrite (rd_toks _ _ _ _ RD), (rd_tokens _ _ _ _ RD) in ET. rewrite <- toks_leaves in EL1, EL2.
  assert (exists IA m IB, items = IA ++ (m ++ [b]) ++ IB /\ head_of m b = a /\ filter plain m = l2 /\ plain a = true /\ plain b = true) as (IA & m & IB & EI & EH & EM & Fa & Fb).
  { destruct l1 as [|a1 l1].
    - assert (l2 = [] /\ a = b) as [-> ->]. { rewrite EL1 in EL2. destruct l2 as [|? [|]]; try discriminate. injection EL2 as ->. auto. }
      rewrite EL1 in ET. cbn [app] in ET. apply filter_split in ET as (IA & IB & -> & _ & _ & Fa). exists IA, [], IB. auto.
    - destruct (@exists_last _ (a1 :: l1)) as (w & b' & EW); [discriminate|]. rewrite EW in EL1. rewrite EL1 in EL2. change (a :: w ++ [b']) with ((a :: w) ++ [b']) in EL2. apply app_inj_tail in EL2 as [<- ->].
      rewrite EL1 in ET. replace (l ++ (a :: w ++ [b]) ++ r) with (l ++ a :: (w ++ b :: r)) in ET by (cbn [app]; rewrite <- app_assoc; reflexivity).
      apply filter_split in ET as (IA & r1 & EI & _ & ER & Fa). apply filter_split in ER as (mid & IB & -> & EM & _ & Fb). exists IA, (a :: mid), IB.
      split; [rewrite EI; cbn [app]; rewrite <- app_assoc; reflexivity|]. split; [reflexivity|]. split; [|auto]. cbn [filter]. rewrite Fa, EM. reflexivity. }
  pose proof (rd_laid _ _ _ _ RD) as LD. pose proof (rd_lexes _ _ _ _ RD) as LX. rewrite EI in LD, LX.
  destruct (piece_of _ _ _ _ _ LD LX) as (A' & y & B' & CT). pose proof (pc_text _ _ _ _ _ _ _ _ CT) as E1. pose proof (pc_first _ _ _ _ _ _ _ _ CT) as [_ P1].
  pose proof (pc_last _ _ _ _ _ _ _ _ CT) as [_ P2]. rewrite EH in P1. rewrite ES in E1. apply prefix_eq in E1 as [<- E1]; [|congruence].
  assert (x = y ++ ttext b /\ B = B') as [-> <-]. { apply prefix_eq; [exact E1|]. rewrite P2 in PB. rewrite !bytes_app in *. lia. }
  exists IA, m, b, IB, y. split; [exact EI|]. split; [rewrite EH; exact Fa|]. split; [exact Fb|]. split; [|auto].
  rewrite filter_app, EM. cbn [filter]. rewrite Fb. congruence.
Qed.
Lemma raw_expression s p items tree A x B ds : reading s p items tree -> expression_at A x B tree ds ->
  exists X raws cs, plug X (CTree KExpression raws) = CTree KStoredDefinition cs /\ parsable (CTree KStoredDefinition cs) /\
    tree = prune (CTree KStoredDefinition cs) /\ parsable (CTree KExpression raws) /\ prune (CTree KExpression raws) = CTree KExpression ds /\
    (exists a b x0, X = (KStoredDefinition, a, b) :: x0) /\ leaves (CTree KExpression raws) <> [].
Proof.
  intros RD [IN (a & l1 & EL1 & PA) _]. destruct (reading_cs _ _ _ _ RD) as (cs & P & LT & ->).
  destruct (inside_prune _ _ IN) as (c0 & I0 & E0).
  { destruct ds; [discriminate|reflexivity]. }
  destruct c0 as [t|q raws]; [discriminate|]. assert (q = KExpression) as -> by (rewrite prune_tree in E0; congruence).
  pose proof (parsable_inside _ _ I0 P) as PN. apply inside_plug in I0 as (X & EX). exists X, raws, cs. split; [congruence|]. split; [exact P|]. split; [reflexivity|]. split; [exact PN|]. split; [exact E0|].
  split; [|rewrite <- leaves_prune, E0, EL1; discriminate].
  destruct X as [|[[q l] m] X]; [cbn in EX; discriminate|]. cbn [plug fold_right fst snd] in EX. injection EX as <- _. eauto.
Qed.
Lemma expression_fits s p items tree A x B ds : reading s p items tree -> expression_at A x B tree ds -> fits (CTree KExpression ds).
Proof.
  intros RD EX. destruct (inside_plug _ _ (ex_inside _ _ _ _ _ EX)) as (F & E). destruct F as [|f F].
  - exfalso. destruct (rd_fits _ _ _ _ RD) as (cs & E2 & _). cbn in E. rewrite E2 in E. discriminate.
  - pose proof (reading_fits _ _ _ _ _ _ RD E ltac:(discriminate)) as FT. rewrite E in FT. apply fits_plug in FT. exact FT.
Qed.
Lemma expression_head ds t l : fits (CTree KExpression ds) -> toks (CTree KExpression ds) = t :: l -> tkind_of t <> TEqual /\ tkind_of t <> TEq /\ tkind_of t <> TWithin.
Proof.
  intros F E. assert (forall q ds, among inner q = true -> fits (CTree q ds) -> toks (CTree q ds) = t :: l -> tkind_of t <> TWithin) as W.
  { clear. intros q ds A F E. assert (In t (toks (CTree q ds))) as I by (rewrite E; left; reflexivity). clear E.
    assert (forall c, inside_expression c -> fits c -> forall t, In t (toks c) -> tkind_of t <> TWithin) as G; [|eapply (G (CTree q ds)); eauto].
    clear. induction c as [t|k cs IH] using child_ind2; intros N F t' I.
    - destruct I as [<-|[]]. exact N.
    - pose proof (inner_kids k cs N F) as IK. apply fits_kids in F as (_ & _ & F). cbn [toks] in I. apply in_flat_map in I as (d & ID & I). rewrite Forall_forall in *. eauto. }
  assert (tkind_of t <> TWithin) as K by (apply (W KExpression ds); auto).
  destruct (spots KExpression Beside 0%nat 0%nat false false (CTree KExpression ds)) as [|x xs] eqn:ES; pose proof (f_equal (map at_tok) ES) as M; rewrite spots_toks, E in M; [discriminate|].
  cbn [map] in M. assert (at_tok x = t) as <- by congruence.
  pose proof (first_opening _ F KExpression ds eq_refl eq_refl _ _ _ _ _ _ _ _ ES) as O. unfold opens_expression in O. apply andb_true_iff in O as [O _]. apply andb_true_iff in O as [_ O].
  split; [|split; [|exact K]]; intro Z; rewrite Z in O; discriminate.
Qed.
Lemma head_first m b l t : filter plain (m ++ [b]) = t :: l -> plain (head_of m b) = true -> head_of m b = t.
Proof. intros E P. destruct m as [|a m]; cbn [app head_of filter] in *; rewrite P in E; congruence. Qed.
Lemma head_split m b : exists r, m ++ [b] = head_of m b :: r.
Proof. destruct m as [|a m]; cbn [app head_of]; eauto. Qed.
Theorem express s p items tree A x B ds s2 p2 items2 tree2 A2 x2 B2 ds2 :
  reading s p items tree -> s = A ++ x ++ B -> expression_at A x B tree ds -> newlines x = 0 ->
  reading s2 p2 items2 tree2 -> s2 = A2 ++ x2 ++ B2 -> expression_at A2 x2 B2 tree2 ds2 -> newlines x2 = 0 -> enclosed A B ->
  exists p' items' tree' F F' ds' IA m z IB m' z' IB' y y',
    reading (A ++ x2 ++ B) p' items' tree' /\ tree = plug F (CTree KExpression ds) /\ tree' = plug F' (CTree KExpression ds') /\
    items = IA ++ (m ++ [z]) ++ IB /\ items' = IA ++ (m' ++ [z']) ++ IB' /\ F <> [] /\ F' <> [] /\ Forall2 (frame_moved same_text 0) F F' /\
    (plain (head_of m z) = true /\ plain z = true) /\ (plain (head_of m' z') = true /\ plain z' = true) /\
    filter plain (m ++ [z]) = toks (CTree KExpression ds) /\ filter plain (m' ++ [z']) = toks (CTree KExpression ds') /\
    x = y ++ ttext z /\ piece s A y B IA m z IB /\ x2 = y' ++ ttext z' /\ piece (A ++ x2 ++ B) A y' B IA m' z' IB' /\
    Forall2 (moved same_text 0) IB IB' /\ map (tmap bare) ds' = map (tmap bare) ds2 /\
    Forall2 (shifted_by (newlines A2) (newlines A)) (toks (CTree KExpression ds2)) (toks (CTree KExpression ds')).
Proof.
  intros RD ES ST Z RD2 ES2 ST2 Z2 [EA EB].
  destruct (expression_piece _ _ _ _ _ _ _ _ RD ES ST) as (IA & m & b & IB & y & EI & Pa & Pb & FX & EX & CT).
  destruct (expression_piece _ _ _ _ _ _ _ _ RD2 ES2 ST2) as (IA2 & m2 & b2 & IB2 & y2 & EI2 & Pa2 & Pb2 & FX2 & EX2 & CT2).
  destruct (raw_expression _ _ _ _ _ _ _ _ RD ST) as (X & raws & cs & ET & PA & ETR & PN & ED & RT & NE).
  destruct (raw_expression _ _ _ _ _ _ _ _ RD2 ST2) as (X2 & raws2 & cs2 & ET2 & PA2 & ETR2 & PN2 & ED2 & RT2 & NE2).
  pose proof (expression_fits _ _ _ _ _ _ _ _ RD2 ST2) as FC2.
  assert (exists h2 l2, toks (CTree KExpression ds2) = h2 :: l2) as (h2 & l2 & HL2). { rewrite <- FX2. destruct (head_split m2 b2) as (r & ->). cbn [filter]. rewrite Pa2. eauto. }
  destruct (expression_head _ _ _ FC2 HL2) as (K1 & K2 & K3).
  assert (head_of m2 b2 = h2) as HH2 by (apply (head_first m2 b2 l2); [congruence|exact Pa2]).
  (* the tree of the new text *)
  assert (tree = plug (map prune_frame X) (CTree KExpression ds)) as TR by (rewrite ETR, <- ET, prune_plug by exact NE; rewrite ED; reflexivity).
  set (F := map prune_frame X) in *.
  assert (F <> []) as NF by (destruct RT as (? & ? & ? & ->); discriminate).
  pose proof (reading_fits _ _ _ _ _ _ RD TR NF) as FT. rewrite TR in FT.
  assert (parsable (plug X (CTree KExpression raws2))) as PT'.
  { apply (plug_parsable_expression X (CTree KExpression raws)); auto; [rewrite ED; exact FT|rewrite ET; exact PA]. }
  (* tokens *)
  assert (toks tree = filter plain items) as TT by (rewrite (rd_toks _ _ _ _ RD), (rd_tokens _ _ _ _ RD); reflexivity).
  pose proof (laid_nodup _ _ _ (rd_laid _ _ _ _ RD)) as ND.
  destruct (head_split m b) as (r0 & EH). 
  assert (lefts F = filter plain IA /\ rights F = filter plain IB) as [EL ER].
  { rewrite TR, plug_toks, EI in TT. rewrite (filter_app plain IA), (filter_app plain (m ++ [b])), <- FX in TT. rewrite EI in ND. apply (NoDup_filter plain) in ND. rewrite (filter_app plain IA), (filter_app plain (m ++ [b])) in ND.
    rewrite EH in TT, ND. cbn [filter] in TT, ND. rewrite Pa in TT, ND. cbn [app] in TT, ND. symmetry in TT. apply nodup_split in TT as [T1 T2]; [|exact ND].
    apply app_inv_head in T2. auto. }
  (* the text *)
  assert (exists c v, y2 ++ ttext b2 = c :: v /\ c <> 61) as NQ.
  { destruct (pc_head _ _ _ _ _ _ _ _ CT2) as (k & w & r & E & L & K). rewrite HH2 in K. assert (L0 := L). apply lexeme_starts in L0 as (c & v & EW & _). exists c, (v ++ r). split; [rewrite E, EW; reflexivity|].
    intro C. destruct (lexeme_equal k w c v L EW C) as [Q|Q]; congruence. }
  assert (walks A (map item_of IA) ((y2 ++ ttext b2) ++ B)) as W1.
  { apply (walks_into _ _ _ (pc_before _ _ _ _ _ _ _ _ CT) EA).
    - destruct (pc_starts _ _ _ _ _ _ _ _ CT) as (c & r & E & N). rewrite E. cbn [app]. eauto.
    - destruct NQ as (c & v & E & N). rewrite E. cbn [app]. eauto. }
  pose proof (pc_end _ _ _ _ _ _ _ _ CT2) as PH2.
  assert (ttext b2 <> []) as NB by (destruct (lexeme_starts _ _ PH2) as (c & r & E & _); rewrite E; discriminate).
  assert (walks y2 (map item_of m2) (ttext b2 ++ B)) as W2.
  { apply walks_more; [|exact NB]. apply (walks_less _ _ _ B2); [apply (pc_part _ _ _ _ _ _ _ _ CT2)|exact NB]. }
  assert (follow_ok (tkind_of b2) (ttext b2) B) as FB.
  { apply closer_follow; [|exact EB]. refine (last_ending (CTree KExpression ds2) FC2 eq_refl (filter plain m2) b2 _). rewrite <- FX2, filter_app. cbn [filter]. rewrite Pb2. reflexivity. }
  set (its := map item_of IA ++ map item_of (m2 ++ [b2]) ++ map item_of IB).
  assert (map item_of (m2 ++ [b2]) = map item_of m2 ++ [item_of b2]) as MX by (rewrite map_app; reflexivity).
  assert (lexes (A ++ (y2 ++ ttext b2) ++ B) its) as LX.
  { apply (walks_lexes _ _ _ W1). rewrite MX, <- !app_assoc. apply (walks_lexes _ _ _ W2). cbn [app]. change (item_of b2) with (tkind_of b2, ttext b2).
    constructor; [exact PH2|exact FB|apply (pc_after _ _ _ _ _ _ _ _ CT)]. }
  assert (comments_ascii its) as CA.
  { pose proof (rd_ascii _ _ _ _ RD) as H1. pose proof (rd_ascii _ _ _ _ RD2) as H2. rewrite EI in H1. rewrite EI2 in H2. rewrite (map_app item_of IA), (map_app item_of (m ++ [b])) in H1. rewrite (map_app item_of IA2), (map_app item_of (m2 ++ [b2])) in H2. rewrite ascii_in in *. intros i I.
    unfold its in I. apply in_app_or in I as [I|I]; [apply H1; apply in_or_app; auto|]. apply in_app_or in I as [I|I]; [apply H2; apply in_or_app; right; apply in_or_app; auto|apply H1; apply in_or_app; right; apply in_or_app; auto]. }
  destruct (plug X (CTree KExpression raws2)) as [|q0 cs'] eqn:EP; [destruct RT as (? & ? & ? & ->); discriminate|].
  assert (q0 = KStoredDefinition) as -> by (destruct RT as (? & ? & ? & ->); cbn [plug fold_right fst snd] in EP; congruence).
  assert (forall c, leaves (plug X c) = lefts X ++ leaves c ++ rights X) as PLV by (intro c; rewrite <- !toks_leaves; apply plug_toks).
  assert (lefts X = filter plain IA) as LX1 by (rewrite <- EL; unfold F; symmetry; apply pruned_lefts).
  assert (leaves (CTree KExpression raws2) = filter plain (m2 ++ [b2])) as LX2 by (rewrite FX2, <- (leaves_prune (CTree KExpression raws2)), ED2, <- toks_leaves; reflexivity).
  assert (leaves (CTree KStoredDefinition cs') = filter plain IA ++ filter plain (m2 ++ [b2]) ++ filter plain IB) as LV.
  { assert (leaves (CTree KStoredDefinition cs) = filter plain IA ++ toks (CTree KExpression ds) ++ filter plain IB) as L0.
    { rewrite <- leaves_prune, <- ETR, <- toks_leaves, TT, EI, (filter_app plain IA), (filter_app plain (m ++ [b])), FX. reflexivity. }
    rewrite <- ET, PLV in L0. rewrite <- EP, PLV, LX2, LX1. rewrite LX1 in L0. apply app_inv_head in L0.
    rewrite <- (leaves_prune (CTree KExpression raws)), ED, <- toks_leaves in L0. apply app_inv_head in L0. rewrite L0. reflexivity. }
  destruct (tree_read _ its _ cs' eq_refl PT' LX CA) as (p' & items' & tree' & RD' & MI & TB).
  { rewrite LV, (map_app tkind_of (filter plain IA)), (map_app tkind_of (filter plain (m2 ++ [b2]))), !plain_kinds. unfold its. rewrite !filter_app, !map_app. reflexivity. }
  (* its items *)
  unfold its in MI. apply map_eq_app in MI as (IA' & r & EI' & MA & MR). apply map_eq_app in MR as (IX' & IB' & -> & MIX & MB).
  rewrite MX in MIX. apply map_eq_app in MIX as (m' & r & -> & MH & MZ). destruct r as [|b' [|]]; try discriminate. cbn [map] in MZ. assert (item_of b' = item_of b2) as MZ0 by congruence. clear MZ. rename MZ0 into MZ.
  pose proof (rd_laid _ _ _ _ RD') as LD'. pose proof (rd_lexes _ _ _ _ RD') as LX'. rewrite EI' in LD', LX'.
  destruct (piece_of _ _ _ _ _ LD' LX') as (A' & y' & B' & CT').
  destruct (piece_known _ A y2 B IA m2 b2 _ _ _ _ _ _ _ CT' eq_refl W1 (pc_starts _ _ _ _ _ _ _ _ CT2) W2 PH2 MA MH MZ) as (-> & -> & TZ & ->).
  pose proof (items_lexemes _ _ (rd_lexes _ _ _ _ RD)) as XL. rewrite EI in XL. apply Forall_app in XL as [XA XL]. apply Forall_app in XL as [XX XB].
  assert (IA' = IA) as ->. { symmetry. apply (set_out_unique _ _ _ _ (pc_set _ _ _ _ _ _ _ _ CT)); [apply (pc_set _ _ _ _ _ _ _ _ CT')|congruence|exact XA]. }
  (* its tree *)
  assert (prune (CTree KStoredDefinition cs') = plug F (CTree KExpression ds2)) as PR'.
  { rewrite <- EP, prune_plug by exact NE2. rewrite ED2. reflexivity. }
  rewrite PR', plug_tmap in TB. destruct (plug_shape F (CTree KExpression ds2) tree' TB) as (F' & c' & ETR' & BF & BC).
  destruct c' as [|q0 ds']; [discriminate|]. cbn [tmap] in BC. assert (q0 = KExpression /\ map (tmap bare) ds' = map (tmap bare) ds2) as [-> BD] by (split; congruence).
  assert (toks tree' = filter plain items') as TT' by (rewrite (rd_toks _ _ _ _ RD'), (rd_tokens _ _ _ _ RD'); reflexivity).
  assert (map item_of (m' ++ [b']) = map item_of (m2 ++ [b2])) as MM by (rewrite !map_app; cbn [map]; congruence).
  assert (lefts F' = filter plain IA /\ toks (CTree KExpression ds') = filter plain (m' ++ [b']) /\ rights F' = filter plain IB') as (EL' & EW' & ER').
  { rewrite ETR', plug_toks, EI' in TT'. rewrite (filter_app plain IA), (filter_app plain (m' ++ [b']) IB') in TT'.
    apply app_eq_length in TT' as [T1 T2]; [|rewrite (frames_lefts _ _ BF), EL; reflexivity].
    apply app_eq_length in T2 as [T2 T3]; [auto|]. rewrite (shape_length (CTree KExpression ds') (CTree KExpression ds2)) by (cbn [tmap]; congruence). rewrite <- FX2. symmetry. apply items_plain. exact MM. }
  assert (lefts F' = lefts F) as LF by congruence.
  (* moved *)
  pose proof (pc_set_after _ _ _ _ _ _ _ _ CT) as SB. pose proof (pc_set_after _ _ _ _ _ _ _ _ CT') as SB'. rewrite TZ in SB'.
  rewrite <- EX in SB. rewrite <- EX2 in SB'.
  assert (forall l b, (0 < length IA + length (l ++ [b] : list token))%nat) as PL by (intros l b0; rewrite app_length; cbn [length]; lia).
  assert (newlines (A ++ x) = newlines (A ++ x2)) as NN by (rewrite !newlines_app; lia).
  assert (Forall2 (shifted_by (newlines (A ++ x)) (newlines (A ++ x2))) IB IB') as SHB.
  { apply (set_out_shifted _ _ _ _ _ _ _ SB SB'); [congruence|exact XB|apply PL|apply PL]. }
  assert (forall l l', Forall2 (shifted_by (newlines (A ++ x)) (newlines (A ++ x2))) l l' -> Forall2 (moved same_text 0) l l') as MV.
  { intros l l' H. apply shifted_moved in H; [|lia]. replace (newlines (A ++ x2) - newlines (A ++ x)) with 0 in H by lia. exact H. }
  assert (Forall2 (moved same_text 0) (rights F) (rights F')) as MR.
  { apply MV. rewrite ER, ER'. apply forall2_filter; [|exact SHB]. intros t t' (_ & K & _). unfold plain. rewrite K. reflexivity. }
  assert (F' <> []) as NF' by (destruct F as [|]; [contradiction|]; destruct F'; discriminate).
  assert (plain b' = true) as PB'. { unfold plain in *. assert (tkind_of b' = tkind_of b2) as -> by (unfold item_of in MZ; congruence). exact Pb2. }
  assert (plain (head_of m' b') = true) as PA'.
  { unfold plain in *. assert (tkind_of (head_of m' b') = tkind_of (head_of m2 b2)) as ->; [|exact Pa2]. destruct m' as [|a' m'], m2 as [|a2 m2]; try discriminate; cbn [head_of]; [unfold item_of in MZ; congruence|].
    cbn [map] in MH. assert (item_of a' = item_of a2) as Q by congruence. unfold item_of in Q. congruence. }
  rewrite <- EX2 in *.
  exists p', items', tree', F, F', ds', IA, m, b, IB, m', b', IB', y, y2.
  split; [exact RD'|]. split; [exact TR|]. split; [exact ETR'|]. split; [exact EI|]. split; [exact EI'|]. split; [exact NF|]. split; [exact NF'|].
  split; [apply frames_moved; [congruence|exact LF|exact MR]|]. split; [auto|]. split; [auto|]. split; [exact FX|]. split; [symmetry; exact EW'|]. split; [exact EX|]. split; [exact CT|].
  split; [congruence|]. split; [exact CT'|]. split; [apply MV, SHB|]. split; [exact BD|].
  rewrite EW', <- FX2. apply forall2_filter; [intros t t' (_ & K & _); unfold plain; rewrite K; reflexivity|].
  pose proof (items_lexemes _ _ (rd_lexes _ _ _ _ RD2)) as XL2. rewrite EI2 in XL2. apply Forall_app in XL2 as [_ XL2]. apply Forall_app in XL2 as [XX2 _].
  pose proof (pc_set_part _ _ _ _ _ _ _ _ CT2) as SP2. pose proof (pc_set_part _ _ _ _ _ _ _ _ CT') as SP. rewrite TZ in SP.
  destruct (head_split m2 b2) as (r2 & EH2). destruct (head_split m' b') as (r' & EH'). rewrite EH2, EH' in *.
  apply (set_out_shifted_first _ _ _ _ _ _ _ _ _ SP2 SP); [congruence|exact XX2|]. rewrite HH2. exact K3.
Qed.
(** ** White space inside *)
Lemma glyphs_strip l l' : map strip l' = map strip l -> map glyph l' = map glyph l.
Proof.
  revert l'. induction l as [|x l IH]; intros [|x' l'] E; try discriminate; [reflexivity|]. cbn [map] in *. assert (strip x' = strip x) as E1 by congruence. apply (f_equal (@List.tl _)) in E. cbn [List.tl] in E.
  rewrite (IH _ E). f_equal. unfold strip in E1. unfold glyph. congruence.
Qed.
Lemma inline_alike xs : forall xs' p, map glyph xs' = map glyph xs -> Forall2 (fun t t' => tkind_of t' = tkind_of t /\ ttext t' = ttext t) (map at_tok xs) (map at_tok xs') ->
  Forall2 alike (inline p xs) (inline p xs').
Proof.
  induction xs as [|x xs IH]; intros [|x' xs'] p E F; try discriminate; [constructor|]. cbn [map] in *. inversion F as [|? ? ? ? [K T] F']; subst.
  assert (glyph x' = glyph x) as G by congruence. apply (f_equal (@List.tl _)) in E. cbn [List.tl] in E. assert (at_rule x' = at_rule x /\ at_pos x' = at_pos x) as [G1 G2] by (unfold glyph in G; split; congruence).
  cbn [inline]. constructor.
  - unfold alike. cbn [e_white e_tok]. unfold beside_white. rewrite G1, G2, K. auto.
  - rewrite G1, K. apply IH; auto.
Qed.
Lemma expression_inline n n' ds ds' ln ln' : fits (CTree KExpression ds) -> fits (CTree KExpression ds') -> flat_on ln (CTree KExpression ds) -> flat_on ln' (CTree KExpression ds') ->
  map (tmap bare) ds' = map (tmap bare) ds -> Forall2 (shifted_by n n') (toks (CTree KExpression ds)) (toks (CTree KExpression ds')) ->
  forall q pos first n on inh x xs, spots q pos first n on inh (CTree KExpression ds) = x :: xs ->
  forall q' pos' first' n' on' inh' x' xs', spots q' pos' first' n' on' inh' (CTree KExpression ds') = x' :: xs' ->
  at_rule x' = at_rule x /\ tkind_of (at_tok x') = tkind_of (at_tok x) /\ ttext (at_tok x') = ttext (at_tok x) /\ forall p, Forall2 alike (inline p xs) (inline p xs').
Proof.
  intros FC FC' HC HC' B S q pos first n0 on inh x xs E q' pos' first' n0' on' inh' x' xs' E'.
  set (c := CTree KExpression ds) in *. set (c' := CTree KExpression ds') in *.
  assert (tmap bare c' = tmap bare c) as BC by (unfold c, c'; cbn [tmap]; congruence).
  assert (map glyph (spots KExpression Beside 0 0 false false c') = map glyph (spots KExpression Beside 0 0 false false c)) as G.
  { destruct (N.le_ge_cases n n') as [L|L].
    - apply glyphs_strip, (moved_spots same_text (n' - n)); auto. apply shape_moved; [congruence|]. apply shifted_moved; auto.
    - symmetry. apply glyphs_strip, (moved_spots same_text (n - n')); auto. apply shape_moved; [congruence|]. apply shifted_moved; [|exact L]. apply shifted_sym, S. }
  destruct (expression_spots ln ds FC HC) as (r & ps & _ & SP). destruct (expression_spots ln' ds' FC' HC') as (r' & ps' & _ & SP').
  destruct (SP KExpression Beside 0%nat 0%nat false false) as (x0 & xs0 & E0 & _ & _ & R0 & G0). destruct (SP' KExpression Beside 0%nat 0%nat false false) as (x0' & xs0' & E0' & _ & _ & R0' & G0').
  destruct (SP q pos first n0 on inh) as (x1 & xs1 & E1 & _ & _ & R1 & G1). destruct (SP' q' pos' first' n0' on' inh') as (x1' & xs1' & E1' & _ & _ & R1' & G1').
  fold c in E0, E1. fold c' in E0', E1'. rewrite E in E1. rewrite E' in E1'. rewrite E0, E0' in G. cbn [map] in G.
  assert (x1 = x /\ xs1 = xs) as [-> ->] by (split; congruence). assert (x1' = x' /\ xs1' = xs') as [-> ->] by (split; congruence).
  assert (glyph x0' = glyph x0) as GX by congruence. apply (f_equal (@List.tl _)) in G. cbn [List.tl] in G. assert (at_rule x0' = at_rule x0) as GR by (unfold glyph in GX; congruence).
  pose proof (f_equal (map at_tok) E) as T. pose proof (f_equal (map at_tok) E') as T'. rewrite spots_toks in T, T'. fold c in S. fold c' in S. rewrite T, T' in S. cbn [map] in S.
  inversion S as [|? ? ? ? (S1 & S2 & _) S3]; subst. split; [congruence|]. split; [exact S2|]. split; [exact S1|].
  intro p. apply inline_alike; [congruence|]. revert S3. apply forall2_imp. intros t t' (H1 & H2 & _). auto.
Qed.
Lemma inline_level xs : forall p, Forall (fun y => e_white y = WNone \/ e_white y = WSpace) (inline p xs).
Proof.
  induction xs as [|x xs IH]; intro p; cbn [inline]; constructor; [|apply IH]. cbn [e_white]. unfold beside_white. destruct (at_pos x); auto; destruct (tight _ _ _); auto.
Qed.
Lemma inline_toks xs : forall p, map e_tok (inline p xs) = map at_tok xs.
Proof. induction xs as [|x xs IH]; intro p; cbn [inline map]; [reflexivity|]. rewrite IH. reflexivity. Qed.
