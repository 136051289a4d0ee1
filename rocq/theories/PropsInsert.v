(** Property C92: one more comment adds that comment to the output, or nothing. *)
From Coq Require Import Sorted.
From Verif Require Import ProofBase Tokens Syntax Lexer SpecLex LexInv LexMain LexFacts LexCut ParserCore Grammar
  Tree Printer Formatter Lib ParserSem ParserFuel SpecGrammar Regex ParserGrammar ParserTree ParserFacts Recognise PropsParser
  SpecLanguage ParserComplete PropsLanguage
  FmtAbs FmtPlan FmtShape FmtTables FmtSound SpecLayout FmtExec FmtTop FmtFacts FmtRelex FmtNeat SpecNodes FmtTree FmtLists FmtOps
  FmtWrap SpecGaps SpecReference FmtNode FmtReference FmtSame PropsFormat PropsReference PropsSame FmtBreaks FmtAgree FmtPrinted FmtStable
  FmtMoved FmtConcat SpecTold PropsModular FmtOnce FmtNear PropsVertical FmtLocal PropsTree SpecDepth PropsDepth SpecCode FmtCode SpecInsert FmtInsert.

(** ** The new text is accepted, with the same tree *)
Lemma is_code_plain t : is_code (item_of t) = plain t.
Proof. unfold is_code, plain, is_comment_kind, item_of. cbn [fst]. destruct (tkind_of t); reflexivity. Qed.
Lemma kinds_of_items items : map tkind_of (filter plain items) = map fst (filter is_code (map item_of items)).
Proof. induction items as [|t items IH]; [reflexivity|]. cbn [filter map]. rewrite is_code_plain. destruct (plain t); cbn [map]; rewrite IH; reflexivity. Qed.
Lemma texts_of_items items : map ttext (filter plain items) = map snd (filter is_code (map item_of items)).
Proof. induction items as [|t items IH]; [reflexivity|]. cbn [filter map]. rewrite is_code_plain. destruct (plain t); cbn [map]; rewrite IH; reflexivity. Qed.
Lemma accepted_again s p items tree s' its' : reading s p items tree -> lexes s' its' -> comments_ascii its' ->
  map fst (filter is_code its') = map fst (filter is_code (map item_of items)) ->
  exists p' items' tree', reading s' p' items' tree' /\ map item_of items' = its' /\ p_events p' = p_events p.
Proof.
  intros R LX CA K. destruct (lex_complete _ _ LX CA) as (items' & LE & M' & LA). rewrite <- M' in K. rewrite <- !kinds_of_items in K.
  assert (exists p', accepted s' p' /\ p_events p' = p_events p) as (p' & A' & EV).
  { pose proof (rd_accepted _ _ _ _ R) as A. destruct A as [P Z]. apply parse_inv in P as (lx & e & L & P & E). rewrite E in Z. apply app_eq_nil in Z as [_ ->].
    pose proof (C17_kinds_only (p_tokens p) (filter plain items') KStoredDefinition) as Q. rewrite (rd_tokens _ _ _ _ R) in Q at 1. specialize (Q (eq_sym K)). rewrite P in Q.
    destruct (parse_events (filter plain items') KStoredDefinition) as [[ev er]|x|] eqn:PE; try contradiction. destruct Q as [K1 K2]. destruct er; [|discriminate].
    exists (mkParsed (filter plain items') (filter commentary items') ev []). split; [|auto]. split; [|reflexivity]. unfold parse. rewrite LE. cbn [bind]. rewrite PE. reflexivity. }
  destruct (reading_of s' p' A') as (j & tree' & R'). exists p', j, tree'. split; [exact R'|]. split; [|exact EV].
  rewrite <- M'. rewrite (lexes_unique _ _ _ (rd_lexes _ _ _ _ R') (eq_ind_r (fun x => lexes s' x) LX M')). reflexivity.
Qed.
Lemma remark_comment k w : remark k w -> is_code (k, w) = false /\ is_comment_kind k = true.
Proof. intros (_ & _ & [->|[-> _]]); auto. Qed.
Lemma remark_ascii k w A B : remark k w -> comments_ascii (A ++ B) -> comments_ascii (A ++ (k, w) :: B).
Proof.
  intros (_ & _ & K) CA x I. apply in_app_or in I as [I|[I|I]]; [apply CA, in_or_app; auto| |apply CA, in_or_app; auto].
  injection I as -> ->. destruct K as [K|[_ K]]; [discriminate|exact K].
Qed.
Lemma no_newlines w : ~ In 10 w -> newlines w = 0.
Proof. induction w as [|c w IH]; intro N; [reflexivity|]. cbn [newlines]. rewrite IH by (intro; apply N; right; auto). destruct (c =? 10) eqn:E; [exfalso; apply N; left; apply N.eqb_eq, E|reflexivity]. Qed.
Lemma item_split items A B : map item_of items = A ++ B -> exists IA IB, items = IA ++ IB /\ map item_of IA = A /\ map item_of IB = B.
Proof. intro E. apply map_eq_app in E as (IA & IB & -> & <- & <-). eauto. Qed.
Lemma lexemes_app s A B : lexes s (map item_of (A ++ B)) -> lexemes A /\ lexemes B.
Proof. intro L. apply items_lexemes, Forall_app in L. exact L. Qed.

(** ** C92

    Behind a token: the comment is printed behind the token if the next token starts a line, and lost otherwise. All
    else stays as it is. *)
Theorem C92_behind : forall s p a b A B k0 w0 k w,
  accepted s p -> s = a ++ w0 ++ b -> lexes a A -> lexeme k0 w0 -> of_code (k0, w0) -> lexes s (A ++ (k0, w0) :: B) ->
  remark k w -> follow_ok k w b ->
  exists p', accepted (a ++ w0 ++ 32 :: w ++ b) p' /\
    exists L1 L2 L2' c, ttext c = w /\ (exists L0 e, L1 = L0 ++ [e] /\ ttext (e_tok e) = w0) /\
      written L1 = map snd (filter is_code (A ++ [(k0, w0)])) /\ Forall2 alike L2 L2' /\
      (forall eol, layout_of eol s p (L1 ++ L2) /\
         layout_of eol (a ++ w0 ++ 32 :: w ++ b) p' (L1 ++ (if starts_line L2 then [mkE WSpace None c] else []) ++ L2')).
Proof.
  intros s p a b A B k0 w0 k w ACC ES LA L0 CO LS RM FO. destruct (reading_of s p ACC) as (items & tree & R).
  pose proof (lexes_unique _ _ _ (rd_lexes _ _ _ _ R) LS) as M. destruct RM as (LW & NW & KW). assert (remark k w) as RM by (repeat split; auto). destruct (remark_comment k w RM) as [IC ICK].
  assert (is_code (k0, w0) = true) as IC0 by (destruct CO as [C1 C2]; cbn [fst] in *; unfold is_code; cbn [fst]; destruct k0; auto; contradiction).
  pose proof (lexeme_starts _ _ L0) as (z & y & E0 & N0).
  assert (lexes b B) as LB.
  { rewrite ES in LS. apply (lexes_rest a A LA) in LS. apply lexes_head in LS as [LS _]; auto. }
  assert (lexes (a ++ w0 ++ 32 :: w ++ b) (A ++ (k0, w0) :: (k, w) :: B)) as LX.
  { rewrite ES in LS. rewrite E0 in *. cbn [app] in *. eapply lexes_swap; [exact LA|exact LS|]. change (z :: y ++ 32 :: w ++ b) with ((z :: y) ++ 32 :: w ++ b).
    constructor; [exact L0|apply follow_white; right; split; [reflexivity|]; destruct CO as [C1 _]; exact C1|]. constructor; [vm_compute; auto 10|]. constructor; auto. }
  destruct (accepted_again s p items tree _ _ R LX) as (p' & items' & tree' & R' & M' & EV).
  { pose proof (rd_ascii _ _ _ _ R) as CA. rewrite M in CA. change (A ++ (k0, w0) :: (k, w) :: B) with (A ++ [(k0, w0)] ++ (k, w) :: B). rewrite app_assoc. apply remark_ascii; auto. rewrite <- app_assoc. exact CA. }
  { rewrite M, !filter_app. cbn [filter]. rewrite IC0, IC. reflexivity. }
  exists p'. split; [apply R'|].
  destruct (item_split _ _ _ M) as (A1 & X & EI & MA & MX). destruct X as [|t0 IB]; [discriminate|]. cbn [map] in MX. assert (item_of t0 = (k0, w0)) as T0 by congruence. apply (f_equal (@List.tl _)) in MX. cbn [List.tl] in MX.
  destruct (item_split _ _ _ M') as (A1' & X' & EI' & MA' & MX'). destruct X' as [|t0' [|c IB']]; try discriminate. cbn [map] in MX'. assert (item_of t0' = (k0, w0)) as T0' by congruence. assert (item_of c = (k, w)) as TC by congruence.
  apply (f_equal (@List.tl _)), (f_equal (@List.tl _)) in MX'. cbn [List.tl] in MX'. subst items items'.
  pose proof (laid_set _ _ (rd_laid _ _ _ _ R)) as SO. pose proof (laid_set _ _ (rd_laid _ _ _ _ R')) as SO'. rewrite ES in SO.
  destruct (lexemes_app _ _ _ (rd_lexes _ _ _ _ R)) as [LM1 LM2]. destruct (lexemes_app _ _ _ (rd_lexes _ _ _ _ R')) as [LM1' LM2'].
  destruct (set_out_cut a A LA [] 0 A1 (t0 :: IB) (w0 ++ b) MA LM2 SO) as [S1 S2].
  destruct (set_out_cut a A LA [] 0 A1' (t0' :: c :: IB') _ MA' LM2' SO') as [S1' S2'].
  assert (A1' = A1) as -> by (symmetry; eapply set_out_unique; eauto; congruence). cbn [app] in S2, S2'.
  assert (t0' = t0) as ->.
  { assert (ttext t0 = w0 /\ ttext t0' = w0) as [Q1 Q2] by (unfold item_of in T0, T0'; split; congruence).
    apply set_out_inv in S2 as (sp & r & E & SP & B1 & B2 & B3 & B4 & B5 & _). apply set_out_inv in S2' as (sp' & r' & E' & SP' & B1' & B2' & B3' & B4' & B5' & _).
    destruct sp as [|q sp]; [|exfalso; rewrite E0 in E; cbn [app] in E; injection E as -> _; inversion SP; contradiction].
    destruct sp' as [|q sp']; [|exfalso; rewrite E0 in E'; cbn [app] in E'; injection E' as -> _; inversion SP'; contradiction].
    clear - B1 B2 B3 B4 B5 B1' B2' B3' B4' B5' T0 T0' Q1 Q2. destruct t0 as [i1 w1 k1 [s1 s2 s3] [e1 e2 e3]], t0' as [i2 w2 k2 [s4 s5 s6] [e4 e5 e6]].
    unfold coords_after, item_of in *. cbn [tidx ttext tkind_of tstart tend Tokens.pos line col app] in *. destruct B1, B3, B1', B3'. congruence. }
  assert (ttext t0 = w0 /\ tkind_of t0 = k0) as [TW TK] by (unfold item_of in T0; split; congruence). assert (ttext c = w /\ tkind_of c = k) as [CW CK] by (unfold item_of in TC; split; congruence).
  clear z y E0 N0. inversion LM2 as [|? ? LT LM3]; subst. inversion LM2' as [|? ? _ LM3']; subst. inversion LM3' as [|? ? _ LM4']; subst.
  apply set_out_first in S2 as (Z1 & Z2 & S2); [|reflexivity|exact LT]. apply set_out_first in S2' as (_ & _ & S2'); [|reflexivity|exact LT].
  apply set_out_skip in S2'; [|vm_compute; auto 10|exact LM3']. apply set_out_first in S2' as (Y1 & Y2 & S2'); [|reflexivity|eauto].
  assert (newlines (ttext c) = 0) as NC by (apply no_newlines; exact NW).
  assert (Forall2 (moved same_text 0) IB IB') as MB.
  { eapply set_out_moved; [exact S2|exact S2'|congruence|exact LM3| |lia|lia]. rewrite !FmtSame.newlines_app, NC. change (newlines [32]) with 0. lia. }
  destruct (insert_behind _ _ p p' tree tree' 0 A1 [] IB IB' t0 c R R' EV) as (L1 & L2 & L2' & E1 & W1 & AL & E2 & L & e & EL & ET); auto.
  { unfold plain. unfold is_code in IC0. cbn [fst] in IC0. unfold is_comment_kind. destruct (tkind_of t0); auto; discriminate. }
  { intros x _. rewrite N.add_0_r. tauto. }
  { rewrite Y1, Z2, !FmtSame.newlines_app. change (newlines [32]) with 0. lia. }
  exists L1, L2, L2', c. split; [reflexivity|]. split; [exists L, e; split; [exact EL|congruence]|]. split; [rewrite W1, texts_of_items, map_app; cbn [map]; rewrite T0; reflexivity|]. split; [exact AL|].
  intro eol. cbn [app] in E1, E2. rewrite <- E1, <- E2. split; [apply (reading_reference eol _ _ _ _ R)|apply (reading_reference eol _ _ _ _ R')].
Qed.
Print Assumptions C92_behind.

(** ** On a line of its own, right above the line of the next token or comment *)
Lemma last_code IA : existsb is_code (map item_of IA) = true -> exists A1 t0 C1, IA = A1 ++ t0 :: C1 /\ plain t0 = true /\ Forall (fun x => commentary x = true) C1.
Proof.
  induction IA as [|t IA IH]; [discriminate|]. cbn [map existsb]. intro E. destruct (existsb is_code (map item_of IA)) eqn:X.
  - destruct (IH eq_refl) as (A1 & t0 & C1 & -> & P & F). exists (t :: A1), t0, C1. auto.
  - rewrite orb_false_r, is_code_plain in E. exists [], t, IA. split; [reflexivity|]. split; [exact E|]. clear - X.
    induction IA as [|u IA IH]; [constructor|]. cbn [map existsb] in X. apply orb_false_iff in X as [X1 X2]. rewrite is_code_plain in X1. constructor; auto. unfold plain in X1. apply negb_false_iff in X1. exact X1.
Qed.
Lemma set_out_later c n its r : set_out c n its r -> Forall (fun t => 1 + newlines c <= line (tstart t)) its.
Proof.
  induction 1 as [|c n sp t its r S A1 A2 A3 A4 A5 L IH]; [constructor|]. apply coords_line in A1. rewrite FmtSame.newlines_app in A1. constructor; [lia|].
  eapply Forall_impl; [|exact IH]. cbn beta. intros u U. rewrite FmtSame.newlines_app in U. lia.
Qed.
Lemma set_out_within c n its r : set_out c n its r -> Forall (fun t => line (tend t) <= 1 + newlines (c ++ r)) its.
Proof.
  induction 1 as [|c n sp t its r S A1 A2 A3 A4 A5 L IH]; [constructor|]. apply coords_line in A3. rewrite !FmtSame.newlines_app in *. constructor; [lia|].
  eapply Forall_impl; [|exact IH]. cbn beta. intros u U. rewrite ?FmtSame.newlines_app in U. lia.
Qed.
Lemma end_line_ge F : forall ln m, m <= ln -> Forall (fun t => m <= line (tend t)) F -> m <= end_line ln F.
Proof. induction F as [|t F IH]; intros ln m L H; [exact L|]. inversion H; subst. cbn [end_line]. apply IH; auto. Qed.

Lemma end_line_snoc F t : forall ln, end_line ln (F ++ [t]) = line (tend t).
Proof. induction F as [|u F IH]; intro ln; [reflexivity|]. cbn [app end_line]. apply IH. Qed.
Lemma downward_end F : forall ln, downward ln F -> ln <= end_line ln F.
Proof. induction F as [|t F IH]; intros ln D; [cbn; lia|]. cbn [downward end_line] in *. destruct D as (D1 & D2 & D3). apply IH in D3. lia. Qed.

Theorem C92_own : forall s p a sp z b A B k w nl,
  accepted s p -> s = a ++ 10 :: sp ++ z :: b -> Forall (fun c => space c /\ c <> 10) sp -> ~ space z ->
  lexes a A -> existsb is_code A = true -> lexes s (A ++ B) -> remark k w -> is_eol nl ->
  exists p', accepted (a ++ 10 :: sp ++ w ++ nl ++ z :: b) p' /\
    exists L1 L2 L2' c, ttext c = w /\ written L1 = map snd (filter is_code A) /\
      (forall eol, layout_of eol s p (L1 ++ L2) /\ layout_of eol (a ++ 10 :: sp ++ w ++ nl ++ z :: b) p' (L1 ++ L2')) /\
      if starts_line L2 then
        exists e e' bl bl' n R R', L2 = e :: R /\ L2' = mkE (WLine bl' n) None c :: e' :: R' /\
          e_white e = WLine bl n /\ e_white e' = WLine false n /\ e_rule e' = e_rule e /\ ttext (e_tok e') = ttext (e_tok e) /\ Forall2 alike R R' /\
          (bl = true -> bl' = true) /\
          (forall a0 A0 k0 w0 sp0, a = a0 ++ w0 ++ sp0 -> lexes a0 A0 -> A = A0 ++ [(k0, w0)] -> ~ In 10 sp0 -> of_code (k0, w0) \/ ~ In 10 w0 -> bl' = bl)
      else Forall2 alike L2 L2'.
Proof.
  intros s p a sp z b A B k w nl ACC ES FS NZ LA CO LS RM NL. destruct (reading_of s p ACC) as (items & tree & R).
  pose proof (lexes_unique _ _ _ (rd_lexes _ _ _ _ R) LS) as M. destruct RM as (LW & NW & KW). assert (remark k w) as RM by (repeat split; auto). destruct (remark_comment k w RM) as [IC ICK].
  assert (Forall space sp /\ newlines sp = 0) as [SP N0].
  { clear - FS. induction FS as [|c sp [S N] F [IH1 IH2]]; [split; [constructor|reflexivity]|]. split; [constructor; auto|]. cbn [newlines]. rewrite IH2. apply N.eqb_neq in N. rewrite N. reflexivity. }
  assert (Forall space nl /\ newlines nl = 1) as [SN N1] by (destruct NL; subst nl; (split; [repeat constructor; vm_compute; auto 10|reflexivity])).
  assert (space 10) as S10 by (vm_compute; auto).
  assert (lexes (z :: b) B) as LB.
  { rewrite ES in LS. apply (lexes_rest a A LA) in LS. apply lexes_skip in LS; auto. apply lexes_skips in LS; auto. }
  assert (lexes (a ++ 10 :: sp ++ w ++ nl ++ z :: b) (A ++ (k, w) :: B)) as LX.
  { rewrite ES in LS. eapply lexes_swap; [exact LA|exact LS|]. constructor; [exact S10|]. apply LexMain.lexes_spaces; [exact SP|]. constructor; [exact LW| |apply LexMain.lexes_spaces; auto].
    destruct KW as [->|[-> _]]; [exact Logic.I|]. right. destruct NL; subst nl; cbn [app]; unfold SpecLex.starts, newline_char; eauto. }
  destruct (accepted_again s p items tree _ _ R LX) as (p' & items' & tree' & R' & M' & EV).
  { pose proof (rd_ascii _ _ _ _ R) as CA. rewrite M in CA. apply remark_ascii; auto. }
  { rewrite M, !filter_app. cbn [filter]. rewrite IC. reflexivity. }
  exists p'. split; [apply R'|].
  destruct (item_split _ _ _ M) as (IA & IB & EI & MA & MX). destruct (item_split _ _ _ M') as (IA' & X' & EI' & MA' & MX'). destruct X' as [|c IB']; [discriminate|]. cbn [map] in MX'.
  assert (item_of c = (k, w)) as TC by congruence. apply (f_equal (@List.tl _)) in MX'. cbn [List.tl] in MX'. subst items items'.
  pose proof (laid_set _ _ (rd_laid _ _ _ _ R)) as SO. pose proof (laid_set _ _ (rd_laid _ _ _ _ R')) as SO'. rewrite ES in SO.
  destruct (lexemes_app _ _ _ (rd_lexes _ _ _ _ R)) as [LM1 LM2]. destruct (lexemes_app _ _ _ (rd_lexes _ _ _ _ R')) as [LM1' LM2'].
  destruct (set_out_cut a A LA [] 0 IA IB _ MA LM2 SO) as [S1 S2]. destruct (set_out_cut a A LA [] 0 IA' (c :: IB') _ MA' LM2' SO') as [S1' S2'].
  assert (IA' = IA) as -> by (symmetry; eapply set_out_unique; eauto; congruence). clear S1' LM1'. cbn [app] in S2, S2'.
  assert (ttext c = w /\ tkind_of c = k) as [CW CK] by (unfold item_of in TC; split; congruence).
  inversion LM2' as [|? ? _ LM3']; subst. rewrite (map_app item_of) in *.
  apply set_out_skip in S2; auto. apply set_out_skips in S2; auto.
  apply set_out_skip in S2'; auto. apply set_out_skips in S2'; auto. apply set_out_first in S2' as (Y1 & Y2 & S2'); [|reflexivity|eauto]. apply set_out_skips in S2'; auto.
  assert (newlines (ttext c) = 0) as NC by (apply no_newlines; exact NW). rewrite !FmtSame.newlines_app in Y1. rewrite !FmtSame.newlines_app in Y2. change (newlines [10]) with 1 in *.
  destruct (last_code _ CO) as (A1 & t0 & C1 & EA & P0 & FC).
  assert (line (tstart c) = 2 + newlines a) as LC by lia. assert (line (tend c) = line (tstart c)) as EC by lia.
  pose proof (set_out_within _ _ _ _ S1) as WI. cbn [app] in WI. rewrite EA in WI. apply Forall_app in WI as [_ WI]. inversion WI as [|? ? W0 W1]; subst.
  pose proof (set_out_later _ _ _ _ S2) as LT. rewrite !FmtSame.newlines_app in LT. change (newlines [10]) with 1 in LT.
  assert (Forall2 (moved same_text 1) IB IB') as MB.
  { eapply set_out_moved; [exact S2|exact S2'|congruence|exact LM2| | |]; [|rewrite app_length; cbn [Datatypes.length]; lia|lia]. rewrite !FmtSame.newlines_app, NC, N0, N1. change (newlines [10]) with 1. lia. }
  assert (forall X, (A1 ++ t0 :: C1) ++ X = A1 ++ t0 :: C1 ++ X) as AS by (intro X; rewrite <- app_assoc; reflexivity).
  rewrite !AS in R, R'.
  destruct (insert_own _ _ p p' tree tree' 1 A1 C1 IB IB' t0 c R R' EV) as (L1 & L2 & L2' & E1 & E2 & W2 & CASE); auto.
  { intros x I. rewrite Forall_forall in LT. apply LT in I. lia. }
  { lia. }
  { eapply Forall_impl; [|exact LT]. cbn beta. intros. lia. }
  { intros t r ->. apply set_out_inv in S2 as (sp1 & r2 & E & SP1 & B1 & _). apply coords_line in B1. destruct sp1 as [|q sp1]; [|exfalso; cbn [app] in E; injection E as -> _; inversion SP1; contradiction].
    rewrite app_nil_r, !FmtSame.newlines_app in B1. change (newlines [10]) with 1 in B1. lia. }
  exists L1, L2, L2', c. split; [reflexivity|]. split; [|split].
  - rewrite W2, <- texts_of_items, !filter_app. cbn [filter]. rewrite P0, (comments_plain _ FC). reflexivity.
  - intro eol. rewrite <- E1, <- E2. split; [apply (reading_reference eol _ _ _ _ R)|apply (reading_reference eol _ _ _ _ R')].
  - destruct (starts_line L2); [|exact CASE]. destruct CASE as (e & e' & bl & bl' & n & R1 & R2 & X1 & X2 & X3 & X4 & X5 & (X6 & _) & X7 & X8 & X9).
    exists e, e', bl, bl', n, R1, R2. repeat split; auto. intros a0 A0 k0 w0 sp0 EQ L0 EA0 NS KO. destruct bl; [apply X8; reflexivity|]. destruct bl'; [|reflexivity]. exfalso.
    destruct (X9 eq_refl) as [?|G]; [discriminate|]. clear X9 X8. subst a.
    pose proof (laid_downward _ _ (rd_laid _ _ _ _ R)) as DW. apply downward_app in DW as [_ DW]. cbn [downward] in DW. destruct DW as (_ & _ & DW).
    destruct (item_split _ _ _ EA0) as (I0 & X & EX & MI0 & MX0). destruct X as [|x [|? ?]]; try discriminate. cbn [map] in MX0. assert (item_of x = (k0, w0)) as IX by congruence.
    rewrite EX in S1. destruct (lexemes_app _ _ _ (rd_lexes _ _ _ _ R)) as [_ LL]. assert (lexeme k0 w0) as LK.
    { pose proof (lexes_rest a0 A0 L0 (w0 ++ sp0) [(k0, w0)]) as Q. rewrite <- EA0 in Q. specialize (Q LA). clear - Q. remember (w0 ++ sp0) as v eqn:E. clear E. remember [(k0, w0)] as l eqn:E.
      revert E. induction Q; intro E; try discriminate; auto. injection E as -> -> _. assumption. }
    assert (ttext x = w0 /\ tkind_of x = k0) as [XW XK] by (unfold item_of in IX; split; congruence).
    destruct (set_out_cut a0 A0 L0 [] 0 I0 [x] (w0 ++ sp0) MI0) as [_ S3]; [constructor; [exists k0; rewrite XW; exact LK|constructor]|exact S1|].
    cbn [app] in S3. apply set_out_first in S3 as (Q1 & Q2 & _); [|exact XW|eauto]. rewrite !FmtSame.newlines_app in *. rewrite (no_newlines sp0 NS) in *.
    destruct (@exists_last _ (t0 :: C1)) as (U & x' & EU); [discriminate|]. rewrite EU, app_assoc in EX. apply app_inj_tail in EX as [_ ->].
    destruct U as [|u C2]; cbn [app] in EU; injection EU as E3 E4.
    + subst. cbn [filter end_line] in G. lia.
    + subst u. rewrite E4 in *. destruct KO as [KO|KO].
      * apply Forall_app in FC as [_ FC]. inversion FC as [|? ? F0 _]; subst. destruct KO as [K1 K2]. unfold commentary, is_comment_kind in F0. cbn [fst] in *. destruct (tkind_of x); try discriminate; contradiction.
      * rewrite (no_newlines w0 KO) in *. rewrite filter_app in G. cbn [filter] in G. destruct (line (tstart x) =? line (tend t0)) eqn:EQ; cbn [negb] in G.
        -- apply N.eqb_eq in EQ. rewrite app_nil_r in G.
           assert (line (tend t0) <= end_line (line (tend t0)) (filter (fun t => negb (line (tstart t) =? line (tend t0))) C2)); [|lia]. apply end_line_ge; [lia|].
           apply Forall_forall. intros y I. apply filter_In in I as [I _]. apply downward_app in DW as [DW _]. apply downward_app in DW as [DW _].
           apply in_split in I as (y1 & y2 & ->). apply downward_app in DW as [D1 D2]. cbn [downward] in D2. destruct D2 as (D2 & D3 & _).
           pose proof (downward_end y1 _ D1). lia.
        -- rewrite end_line_snoc in G. lia.
Qed.
Print Assumptions C92_own.

(** ** The formatted texts *)
Lemma alike_render eol l l' : Forall2 alike l l' -> render eol l' = render eol l.
Proof. induction 1 as [|e e' l l' (A & _ & _ & B) _ IH]; [reflexivity|]. unfold render in *. cbn [flat_map]. rewrite A, B, IH. reflexivity. Qed.
Definition indentation (n : nat) : text := times n (str "  ").
Theorem C92_behind_text : forall eol s p a b A B k0 w0 k w,
  accepted s p -> s = a ++ w0 ++ b -> lexes a A -> lexeme k0 w0 -> of_code (k0, w0) -> lexes s (A ++ (k0, w0) :: B) ->
  remark k w -> follow_ok k w b ->
  exists p' o1 o2, accepted (a ++ w0 ++ 32 :: w ++ b) p' /\ pretty_print eol p = Ok ((o1 ++ w0) ++ o2) /\
    (pretty_print eol p' = Ok ((o1 ++ w0) ++ 32 :: w ++ o2) \/ pretty_print eol p' = pretty_print eol p).
Proof.
  intros eol s p a b A B k0 w0 k w ACC ES LA L0 CO LS RM FO.
  destruct (C92_behind _ _ _ _ _ _ _ _ _ _ ACC ES LA L0 CO LS RM FO) as (p' & A' & L1 & L2 & L2' & c & CW & (L & e & -> & EW) & _ & AL & H). destruct (H eol) as [H1 H2].
  pose proof (lo_text _ _ _ _ H1) as T1. pose proof (lo_text _ _ _ _ H2) as T2. rewrite !FmtConcat.render_app in *. rewrite (alike_render eol _ _ AL) in T2.
  exists p', (render eol L ++ white_text eol (e_white e)), (render eol L2). split; [exact A'|]. unfold render at 2 in T1. cbn [flat_map] in T1. rewrite app_nil_r, EW in T1.
  unfold render at 2 in T2. cbn [flat_map] in T2. rewrite app_nil_r, EW in T2.
  split; [rewrite T1, <- !app_assoc; reflexivity|]. destruct (starts_line L2) eqn:SL.
  - left. rewrite T2. unfold render at 2. cbn [flat_map e_white e_tok white_text]. rewrite CW, app_nil_r, <- !app_assoc. reflexivity.
  - right. rewrite T1, T2. reflexivity.
Qed.
Print Assumptions C92_behind_text.
Theorem C92_own_text : forall eol s p a sp z b A B k w nl,
  accepted s p -> s = a ++ 10 :: sp ++ z :: b -> Forall (fun c => space c /\ c <> 10) sp -> ~ space z ->
  lexes a A -> existsb is_code A = true -> lexes s (A ++ B) -> remark k w -> is_eol nl ->
  exists p' o, accepted (a ++ 10 :: sp ++ w ++ nl ++ z :: b) p' /\ pretty_print eol p = Ok o /\
    (pretty_print eol p' = Ok o \/
     exists u x n v, o = u ++ eol ++ indentation n ++ v /\ (x = [] \/ x = eol) /\
       pretty_print eol p' = Ok (u ++ x ++ eol ++ indentation n ++ w ++ eol ++ indentation n ++ v) /\
       (forall a0 A0 k0 w0 sp0, a = a0 ++ w0 ++ sp0 -> lexes a0 A0 -> A = A0 ++ [(k0, w0)] -> ~ In 10 sp0 -> of_code (k0, w0) \/ ~ In 10 w0 -> x = [])).
Proof.
  intros eol s p a sp z b A B k w nl ACC ES FS NZ LA CO LS RM NL.
  destruct (C92_own _ _ _ _ _ _ _ _ _ _ _ ACC ES FS NZ LA CO LS RM NL) as (p' & A' & L1 & L2 & L2' & c & CW & _ & H & CASE). destruct (H eol) as [H1 H2].
  pose proof (lo_text _ _ _ _ H1) as T1. pose proof (lo_text _ _ _ _ H2) as T2. rewrite !FmtConcat.render_app in *. exists p', (render eol L1 ++ render eol L2). split; [exact A'|]. split; [exact T1|].
  destruct (starts_line L2); [|left; rewrite (alike_render eol _ _ CASE) in T2; exact T2]. right.
  destruct CASE as (e & e' & bl & bl' & n & R & R' & -> & -> & W1 & W2 & _ & TX & AL & I1 & I2).
  assert (forall e r, render eol (e :: r) = white_text eol (e_white e) ++ ttext (e_tok e) ++ render eol r) as RC by (intros; unfold render; cbn [flat_map]; rewrite <- app_assoc; reflexivity).
  rewrite !RC in T2. rewrite RC. cbn [e_white e_tok] in *. rewrite W2, TX, CW, (alike_render eol _ _ AL) in T2. rewrite W1. cbn [white_text] in *. fold (indentation n) in *.
  exists (render eol L1 ++ (if bl then eol else [])), (if bl' then if bl then [] else eol else []), n, (ttext (e_tok e) ++ render eol R).
  split; [rewrite <- !app_assoc; reflexivity|]. split; [destruct bl', bl; auto|]. split.
  - rewrite T2, <- !app_assoc. f_equal. f_equal. destruct bl; [rewrite (I1 eq_refl); reflexivity|destruct bl'; reflexivity].
  - intros a0 A0 k0 w0 sp0 E1 E2 E3 E4 E5. rewrite (I2 a0 A0 k0 w0 sp0 E1 E2 E3 E4 E5). destruct bl; reflexivity.
Qed.
Print Assumptions C92_own_text.

(** ** Cases *)
Definition note : text := str "// note".
Lemma note_remark : remark TLineComment note.
Proof.
  split; [apply (lx_line (str " note")); repeat constructor; unfold newline_char; vm_compute; intros [?|?]; discriminate|]. split; [vm_compute; intuition discriminate|].
  right. split; [reflexivity|]. exists (str "// not"), 101. split; reflexivity.
Qed.
Ltac lexed := eapply lexed_alone; vm_compute; reflexivity.

(** Behind the semicolon of a declaration; the last line shows one that gets lost since no line starts behind it. *)
Example C92_behind_applies :
  (exists p a b A B k0 w0, let s := str "model M Real x; Real y; end M;" in
    accepted s p /\ s = a ++ w0 ++ b /\ lexes a A /\ lexeme k0 w0 /\ of_code (k0, w0) /\ lexes s (A ++ (k0, w0) :: B) /\
    remark TBlockComment (str "/* n */") /\ follow_ok TBlockComment (str "/* n */") b /\ w0 = str ";" /\ b = str " Real y; end M;") /\
  formats (str "model M Real x; Real y; end M;") (lines ["model M"; ""; "  Real x;"; "  Real y;"; ""; "end M;"]%string) /\
  formats (str "model M Real x; /* n */ Real y; end M;") (lines ["model M"; ""; "  Real x; /* n */"; "  Real y;"; ""; "end M;"]%string) /\
  formats (str "model M Real x /* n */; Real y; end M;") (lines ["model M"; ""; "  Real x;"; "  Real y;"; ""; "end M;"]%string).
Proof.
  split; [|split; [formatted|split; formatted]].
  eexists. exists (str "model M Real x"), (str " Real y; end M;"). do 2 eexists. exists TSemicolon, (str ";"). cbv zeta. split; [split; vm_compute; reflexivity|]. split; [reflexivity|].
  split; [lexed|]. split; [apply lx_symbol; exists ";"%string; split; [vm_compute; auto 10|reflexivity]|]. split; [split; discriminate|]. split; [|split; [|split; [exact Logic.I|auto]]].
  - replace (str "model M Real x; Real y; end M;") with (str "model M Real x" ++ str ";" ++ str " Real y; end M;") by reflexivity.
    eapply lexed_alone; [vm_compute; reflexivity|]. vm_compute. reflexivity.
  - split; [|split; [vm_compute; intuition discriminate|auto]]. apply (lx_block (str " n ")). intros (u & v & E). vm_compute in E.
    destruct u as [|? [|? [|? [|? [|? [|? ?]]]]]]; try discriminate.
Qed.

(** Right above the second declaration; above the second summand, where it gets lost, since lines start in front of operators. *)
Definition above : text := lines ["model M"; "  Real x;"]%string.
Definition below : text := lines ["Real y = 1 +"; "2; end M;"]%string.
Example C92_own_applies :
  (exists p z b A B, let s := above ++ 10 :: str "  " ++ below in
    accepted s p /\ below = z :: b /\ ~ space z /\ Forall (fun c => space c /\ c <> 10) (str "  ") /\ lexes above A /\ existsb is_code A = true /\ lexes s (A ++ B) /\ remark TLineComment note /\
    exists a0 A0 k0 w0, above = a0 ++ w0 ++ [] /\ lexes a0 A0 /\ A = A0 ++ [(k0, w0)] /\ of_code (k0, w0)) /\
  formats (above ++ 10 :: str "  " ++ below) (lines ["model M"; ""; "  Real x;"; "  Real y = 1"; "    + 2;"; ""; "end M;"]%string) /\
  formats (above ++ 10 :: str "  " ++ note ++ [10] ++ below) (lines ["model M"; ""; "  Real x;"; "  // note"; "  Real y = 1"; "    + 2;"; ""; "end M;"]%string) /\
  formats (lines ["model M"; "  Real x;"; "  Real y = 1 +"; "// note"; "2; end M;"]%string) (lines ["model M"; ""; "  Real x;"; "  Real y = 1"; "    + 2;"; ""; "end M;"]%string).
Proof.
  split; [|split; [formatted|split; formatted]].
  eexists. do 4 eexists. cbv zeta. split; [split; vm_compute; reflexivity|]. split; [vm_compute; reflexivity|]. split; [vm_compute; intuition discriminate|].
  split; [apply Forall_forall; intros q [<-|[<-|[]]]; (split; [vm_compute; auto 10|discriminate])|]. split; [lexed|]. split; [vm_compute; reflexivity|]. split; [eapply lexed_alone; [vm_compute; reflexivity|vm_compute; reflexivity]|]. split; [exact note_remark|].
  exists (lines ["model M"; "  Real x"]%string). eexists. exists TSemicolon, (str ";"). split; [reflexivity|]. split; [lexed|]. split; [vm_compute; reflexivity|]. split; discriminate.
Qed.
(** An empty line of the source that has no effect in front of a description counts in front of the comment. *)
Example C92_empty_line :
  formats (lines ["model M"; "Real x"; ""; """d""; end M;"]%string) (lines ["model M"; ""; "  Real x"; "    ""d"";"; ""; "end M;"]%string) /\
  formats (lines ["model M"; "Real x"; ""; "// note"; """d""; end M;"]%string) (lines ["model M"; ""; "  Real x"; ""; "    // note"; "    ""d"";"; ""; "end M;"]%string).
Proof. split; formatted. Qed.
