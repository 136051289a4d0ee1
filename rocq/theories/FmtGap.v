(** For C108: what stands between two neighbouring entries. *)
From Verif Require LexSpecProofs.
From Verif Require Import ProofBase Tokens Syntax Lexer SpecLex LexInv LexMain LexFacts ParserCore Grammar
  Tree Printer Formatter Lib ParserSem ParserFuel SpecGrammar Regex ParserGrammar ParserTree ParserFacts Recognise PropsParser
  SpecLanguage Looks ParserComplete PropsLanguage
  FmtAbs FmtPlan FmtShape FmtTables FmtSound SpecLayout FmtExec FmtTop FmtFacts FmtRelex FmtNeat SpecNodes FmtTree FmtLists FmtOps
  FmtWrap SpecGaps SpecReference FmtNode FmtReference FmtSame PropsFormat PropsReference FmtBreaks FmtAgree FmtPrinted FmtStable FmtMoved
  FmtConcat SpecLevels FmtLevels SpecLocal FmtLocal SpecEdit LexSplice FmtEdit FmtSplice PropsEdit SpecCopy FmtCopy FmtGrow PropsGrow FmtSwap FmtFront.

(** ** The items between *)
Lemma toks_between (a1 b1 a2 b2 : list token) m1 m2 : a1 ++ b1 = a2 ++ b2 -> (forall t, In t a1 -> pos (tstart t) < m1) -> (forall t, In t b2 -> m2 <= pos (tstart t)) -> m1 <= m2 ->
  (forall t, In t b1 -> m1 <= pos (tstart t)) -> (forall t, In t a2 -> pos (tstart t) < m2) ->
  exists d, a2 = a1 ++ d /\ b1 = d ++ b2.
Proof.
  revert a2. induction a1 as [|x a1 IH]; intros a2 E L1 L2 M L3 L4; cbn [app] in E.
  - exists a2. auto.
  - destruct a2 as [|y a2]; cbn [app] in E.
    + exfalso. assert (In x b2) as I by (rewrite <- E; left; reflexivity). apply L2 in I. specialize (L1 x (or_introl eq_refl)). lia.
    + injection E as -> E. destruct (IH a2 E) as (d & -> & ->); auto; [intros t I; apply L1; right; exact I|intros t I; apply L4; right; exact I|]. exists d. auto.
Qed.
Lemma set_out_split c P t Q : forall n r, set_out c n (P ++ t :: Q) r -> exists r1 r2, r = r1 ++ r2 /\ pos (tend t) = bytes_of (c ++ r1) /\ set_out (c ++ r1) (n + length P + 1) Q r2.
Proof.
  revert c. induction P as [|x P IH]; intros c n r S; cbn [app] in S; apply set_out_inv in S as (sp & r2 & -> & F & A1 & A2 & A3 & A4 & A5 & S).
  - exists (sp ++ ttext t), r2. rewrite <- app_assoc. split; [reflexivity|]. split; [exact A4|]. cbn [length]. replace (n + 0 + 1)%nat with (Datatypes.S n) by lia. exact S.
  - apply IH in S as (q1 & q2 & -> & E & S). exists (sp ++ ttext x ++ q1), q2. rewrite <- !app_assoc in *. split; [reflexivity|]. split; [exact E|].
    cbn [length]. replace (n + Datatypes.S (length P) + 1)%nat with (Datatypes.S n + length P + 1)%nat by lia. exact S.
Qed.
Lemma spaces_lexes sp : Forall space sp -> lexes sp [].
Proof. induction 1; constructor; auto. Qed.
Lemma comments_lexes c n IG g : set_out c n IG g -> forall R J, lexes (g ++ R) (map item_of IG ++ J) -> Forall (fun t => is_comment t = true) IG -> lexes g (map item_of IG).
Proof.
  induction 1 as [c n sp S|c n sp t its r S A1 A2 A3 A4 A5 L IH]; intros R J X CM; [apply spaces_lexes, S|].
  cbn [map app] in *. rewrite <- app_assoc in X. apply (lexes_skip sp) in X; [|exact S].
  assert (lexes (ttext t ++ r) (map item_of (t :: its))) as G.
  { cbn [map]. unfold item_of at 1. unfold item_of at 1 in X. inversion CM as [|? ? C1 C2]; subst.
    assert (exists w r0, lexeme (tkind_of t) w /\ w = ttext t /\ ttext t ++ r ++ R = w ++ r0 /\ follow_ok (tkind_of t) w r0 /\ lexes r0 (map item_of its ++ J)) as (w & r0 & LX & -> & EQ & FO & LR).
    { pose proof (lexes_head _ _ _ _ X) as LX. destruct (lexeme_starts _ _ LX) as (z & y & EX & NX). rewrite <- app_assoc in X. remember (ttext t ++ r ++ R) as T eqn:ET. inversion X as [|z0 r0 it SP L0|k0 w0 r0 it L0 F0 L1]; subst.
      - exfalso. rewrite EX in *. cbn [app] in *. match goal with H : _ :: _ = _ :: _ |- _ => injection H as -> _ end. contradiction.
      - exists (ttext t), r0. auto 6. }
    apply app_inv_head in EQ. subst r0. constructor; [exact LX| |apply (IH R J LR C2)].
    unfold is_comment in C1. destruct (tkind_of t); try discriminate C1; cbn [follow_ok] in *; [|exact Logic.I].
    destruct r as [|z r]; [left; reflexivity|]. right. destruct FO as [FO|FO]; [discriminate|]. destruct FO as (z0 & y0 & E0 & N0). cbn [app] in E0. injection E0 as -> _. exists z0, r. auto. }
  clear - S G. induction S as [|x sp X S IH]; [exact G|]. cbn [app]. constructor; auto.
Qed.

(** ** The layout between *)
Lemma weave_comments IG : forall p ln cs t rest z xs, Forall (fun c => is_comment c = true) IG -> is_comment t = false ->
  weave p ln cs (IG ++ t :: rest) (z :: xs) = put p ln (cs ++ IG) z ++ weave (Some (at_rule z, tkind_of t)) (line (tend t)) [] rest xs.
Proof.
  induction IG as [|c IG IH]; intros p ln cs t rest z xs F T; cbn [app weave].
  - rewrite T, app_nil_r. reflexivity.
  - inversion F as [|? ? C F']; subst. rewrite C, IH by auto. rewrite <- app_assoc. reflexivity.
Qed.
Lemma later_head k e pos first second n w : entry_kind k = Some e -> entries e w -> Forall fits w ->
  exists z zs, kids k pos first (Some (Term TSemicolon)) second n w = z :: zs /\ at_pos z = Below Kept /\ at_level z = (n + extra k e)%nat.
Proof.
  intros E EN FW. assert (exists ds cs, w = CTree e ds :: cs) as (ds & cs & ->) by (destruct EN; eauto).
  inversion FW as [|? ? FD _]; subst. cbn [kids kind_of]. cbv zeta. rewrite (entry_later k e _ _ _ E), (entry_extra k e _ _ E).
  assert (is_opener (CTree e ds) = false) as NO by (destruct k; cbn in E; try discriminate; injection E as <-; reflexivity).
  destruct (head_spot (CTree e ds) (mkA k (Below Kept) (n + extra k e) (n + extra k e) false false) FD NO) as (x & xs & EX & XP & XL & _).
  unfold spots_at in EX. cbn [a_rule a_pos a_first a_n a_on a_inh] in *. rewrite EX. cbn [app]. do 2 eexists. split; [reflexivity|]. auto.
Qed.
Lemma prev_entries e prev w : entries e w -> prev_after prev w = Some (Term TSemicolon).
Proof. intro EN. destruct (entries_last _ _ EN) as (u & t & -> & T & _). unfold prev_after. rewrite rev_app_distr. cbn [rev app]. cbn [kind_of]. rewrite T. reflexivity. Qed.

Lemma gap_layout A x g y B p items tree k e u wx wy v :
  reading (A ++ x ++ g ++ y ++ B) p items tree -> stands A x (g ++ y ++ B) tree k e u wx (wy ++ v) -> stands (A ++ x ++ g) y B tree k e (u ++ wx) wy v ->
  exists n IG L0 r2 t2 lvl L2, let ln := 1 + newlines (A ++ x) in
    set_out (A ++ x) n IG g /\ (0 < n)%nat /\ lexes g (map item_of IG) /\ Forall (fun t => is_comment t = true) IG /\ Forall (fun t => exists k, lexeme k (ttext t)) IG /\
    reference tree items = L0 ++ (behind false (filter (fun c => line (tstart c) =? ln) IG) ++ rows Kept lvl ln (filter (fun c => negb (line (tstart c) =? ln)) IG) r2 t2) ++ L2 /\
    line (tstart t2) = 1 + newlines (A ++ x ++ g) /\ pos (tstart t2) = bytes_of (A ++ x ++ g) /\ within_range 0 (bytes_of (A ++ x)) L0 /\ within_range (bytes_of (A ++ x ++ g)) (bytes_of (A ++ x ++ g ++ y ++ B)) L2 /\
    is_comment t2 = false.
Proof.
  intros RD SX SY. pose proof (st_kind _ _ _ _ _ _ _ _ _ SX) as EK. pose proof (stands_join _ _ _ _ _ _ _ _ _ _ _ _ SX SY) as SJ.
  assert (A ++ x ++ g ++ y ++ B = (A ++ x ++ g) ++ y ++ B) as T1 by (rewrite <- !app_assoc; reflexivity).
  assert (A ++ x ++ g ++ y ++ B = A ++ (x ++ g ++ y) ++ B) as T2 by (rewrite <- !app_assoc; reflexivity).
  destruct (stands_cut _ _ _ _ _ _ _ _ _ _ _ _ RD eq_refl SX) as (IA & a & mid & b & IB & y1 & EI & Pa & Pb & Kb & FX & EX & CT).
  destruct (stands_cut _ _ _ _ _ _ _ _ _ _ _ _ RD T1 SY) as (IA2 & a2 & mid2 & b2 & IB2 & y2 & EI2 & Pa2 & Pb2 & Kb2 & FX2 & EX2 & CT2).
  destruct (stands_cut _ _ _ _ _ _ _ _ _ _ _ _ RD T2 SJ) as (IA3 & a3 & mid3 & b3 & IB3 & y3 & EI3 & Pa3 & Pb3 & Kb3 & FX3 & EX3 & CT3).
  pose proof (items_lexemes _ _ (rd_lexes _ _ _ _ RD)) as XL.
  assert (forall a1 b1 c1, items = a1 ++ b1 ++ c1 -> Forall (fun t => exists k, lexeme k (ttext t)) a1 /\ Forall (fun t => exists k, lexeme k (ttext t)) b1 /\ Forall (fun t => exists k, lexeme k (ttext t)) c1) as XP.
  { intros a1 b1 c1 E. rewrite E in XL. apply Forall_app in XL as [X1 XL]. apply Forall_app in XL as [X2 X3]. auto. }
  destruct (XP _ _ _ EI) as (XA & XX & XB). destruct (XP _ _ _ EI2) as (XA2 & XX2 & XB2). destruct (XP _ _ _ EI3) as (XA3 & XX3 & XB3).
  pose proof (set_out_range _ _ _ _ (ct_set _ _ _ _ _ _ _ _ _ CT) XA) as RA. pose proof (set_out_range _ _ _ _ (ct_set_part _ _ _ _ _ _ _ _ _ CT) XX) as RX. pose proof (set_out_range _ _ _ _ (ct_set_after _ _ _ _ _ _ _ _ _ CT) XB) as RB.
  pose proof (set_out_range _ _ _ _ (ct_set _ _ _ _ _ _ _ _ _ CT2) XA2) as RA2. pose proof (set_out_range _ _ _ _ (ct_set_part _ _ _ _ _ _ _ _ _ CT2) XX2) as RX2. pose proof (set_out_range _ _ _ _ (ct_set_after _ _ _ _ _ _ _ _ _ CT2) XB2) as RB2.
  pose proof (set_out_range _ _ _ _ (ct_set _ _ _ _ _ _ _ _ _ CT3) XA3) as RA3. pose proof (set_out_range _ _ _ _ (ct_set_part _ _ _ _ _ _ _ _ _ CT3) XX3) as RX3. pose proof (set_out_range _ _ _ _ (ct_set_after _ _ _ _ _ _ _ _ _ CT3) XB3) as RB3.
  rewrite <- EX in *. rewrite <- EX2 in *. rewrite <- EX3 in *. cbn [app] in RA, RA2, RA3.
  rewrite <- !app_assoc in *.
  assert (bytes_of A <= bytes_of (A ++ x) /\ bytes_of (A ++ x) <= bytes_of (A ++ x ++ g) /\ bytes_of (A ++ x ++ g) <= bytes_of (A ++ x ++ g ++ y) /\ bytes_of (A ++ x ++ g ++ y) <= bytes_of (A ++ x ++ g ++ y ++ B)) as (N1 & N2 & N3 & N4) by (rewrite !bytes_app; lia).
  (* the items *)
  assert (exists IG, IA2 = (IA ++ a :: mid ++ [b]) ++ IG /\ IB = IG ++ (a2 :: mid2 ++ [b2]) ++ IB2) as (IG & EA2 & EB).
  { apply (toks_between _ _ _ _ (bytes_of (A ++ x)) (bytes_of (A ++ x ++ g))); [rewrite <- app_assoc; congruence| | |lia| |].
    - intros t I. apply in_app_or in I as [I|I]; [apply RA in I|apply RX in I]; lia.
    - intros t I. apply in_app_or in I as [I|I]; [apply RX2 in I|apply RB2 in I]; lia.
    - intros t I. apply RB in I. lia.
    - intros t I. apply RA2 in I. lia. }
  assert (IA3 = IA) as ->.
  { destruct (toks_between IA ((a :: mid ++ [b]) ++ IB) IA3 ((a3 :: mid3 ++ [b3]) ++ IB3) (bytes_of A) (bytes_of A)) as (d & E1 & E2); [congruence| | |lia| | |].
    - intros t I. apply RA in I. lia.
    - intros t I. apply in_app_or in I as [I|I]; [apply RX3 in I|apply RB3 in I]; lia.
    - intros t I. apply in_app_or in I as [I|I]; [apply RX in I|apply RB in I]; lia.
    - intros t I. apply RA3 in I. lia.
    - destruct d as [|t d]; [rewrite app_nil_r in E1; exact E1|exfalso]. assert (In t IA3) as I1 by (rewrite E1; apply in_or_app; right; left; reflexivity). apply RA3 in I1.
      assert (In t ((a :: mid ++ [b]) ++ IB)) as I2 by (rewrite E2; left; reflexivity). apply in_app_or in I2 as [I2|I2]; [apply RX in I2|apply RB in I2]; lia. }
  assert (IB3 = IB2) as ->.
  { destruct (toks_between (IA ++ a3 :: mid3 ++ [b3]) IB3 (IA2 ++ a2 :: mid2 ++ [b2]) IB2 (bytes_of (A ++ x ++ g ++ y)) (bytes_of (A ++ x ++ g ++ y))) as (d & E1 & E2); [rewrite <- !app_assoc; congruence| | |lia| | |].
    - intros t I. apply in_app_or in I as [I|I]; [apply RA in I|apply RX3 in I]; lia.
    - intros t I. apply RB2 in I. lia.
    - intros t I. apply RB3 in I. lia.
    - intros t I. apply in_app_or in I as [I|I]; [apply RA2 in I|apply RX2 in I]; lia.
    - destruct d as [|t d]; [exact E2|exfalso]. assert (In t IB3) as I1 by (rewrite E2; left; reflexivity). apply RB3 in I1.
      assert (In t (IA2 ++ a2 :: mid2 ++ [b2])) as I2 by (rewrite E1; apply in_or_app; right; left; reflexivity). apply in_app_or in I2 as [I2|I2]; [apply RA2 in I2|apply RX2 in I2]; lia. }
  assert (a3 :: mid3 ++ [b3] = (a :: mid ++ [b]) ++ IG ++ (a2 :: mid2 ++ [b2])) as EM.
  { rewrite EI3 in EI2. rewrite EA2, <- !app_assoc in EI2. apply app_inv_head in EI2. rewrite !app_assoc in EI2. apply app_inv_tail in EI2. rewrite <- !app_assoc in *. exact EI2. }
  assert (filter plain IG = []) as FG.
  { apply (f_equal (filter plain)) in EM. rewrite FX3, !filter_app, FX, FX2, flat_map_app in EM. apply app_inv_head in EM. rewrite <- (app_nil_l (flat_map toks wy)) in EM at 1. apply app_inv_tail in EM. symmetry. exact EM. }
  assert (Forall (fun t => is_comment t = true) IG) as CG.
  { clear - FG. induction IG as [|c IG IH]; [constructor|]. cbn [filter] in FG. rewrite plain_comment in FG. destruct (is_comment c) eqn:Q; [|discriminate]. constructor; auto. }
  assert (XG : Forall (fun t => exists k, lexeme k (ttext t)) IG) by (rewrite EA2 in XA2; apply Forall_app in XA2; apply XA2).
  (* the text *)
  assert (set_out (A ++ x) (0 + length (IA ++ a :: mid) + 1) IG g) as SG.
  { pose proof (ct_set _ _ _ _ _ _ _ _ _ CT2) as S. rewrite EA2 in S. rewrite <- !app_assoc in S. cbn [app] in S. rewrite <- !app_assoc in S. cbn [app] in S.
    replace (IA ++ a :: mid ++ b :: IG) with ((IA ++ a :: mid) ++ b :: IG) in S by (rewrite <- app_assoc; reflexivity).
    apply set_out_split in S as (r1 & r3 & E & EP & S). change ([] ++ r1) with r1 in *. destruct (ct_last _ _ _ _ _ _ _ _ _ CT) as [_ PL]. rewrite <- EX in PL. rewrite PL in EP.
    rewrite (app_assoc A) in E. apply prefix_eq in E as [<- <-]; [exact S|exact EP]. }
  assert (lexes g (map item_of IG)) as LG.
  { apply (comments_lexes _ _ _ _ SG (y ++ B) (map item_of ((a2 :: mid2 ++ [b2]) ++ IB2))); [|exact CG]. rewrite <- map_app, <- EB. apply (ct_after _ _ _ _ _ _ _ _ _ CT). }
  (* the places *)
  destruct (rd_fits _ _ _ _ RD) as (cs & RT & [->|FT]).
  { exfalso. pose proof (st_inside _ _ _ _ _ _ _ _ _ SX) as IN. rewrite RT in IN. apply inside_root in IN. subst k. discriminate. }
  destruct (inside_seat tree root_args _ (st_inside _ _ _ _ _ _ _ _ _ SX)) as (ar & S). destruct (list_seat _ _ _ _ _ FT (ex_intro _ cs RT) S EK) as [ES EP].
  pose proof (stands_fits _ _ _ _ _ _ _ _ _ _ _ _ RD SX) as FWX. assert (reading ((A ++ x ++ g) ++ y ++ B) p items tree) as RDb by (rewrite <- !app_assoc; exact RD). pose proof (stands_fits _ _ _ _ _ _ _ _ _ _ _ _ RDb SY) as FWY.
  destruct (seat_infix _ _ _ _ S) as (X & Y & EXX). rewrite ES, !kids_app in EXX.
  rewrite (prev_entries e _ wx (st_entries _ _ _ _ _ _ _ _ _ SX)) in EXX.
  match type of EXX with context [kids k ?pp ?ff (Some (Term TSemicolon)) ?ss ?nn wy] =>
    destruct (later_head k e pp ff ss nn wy EK (st_entries _ _ _ _ _ _ _ _ _ SY) FWY) as (z & zs & EZ & ZP & ZL);
    pose proof (kids_toks k pp ff wy (Some (Term TSemicolon)) ss nn) as TK; set (lvl := (nn + extra k e)%nat) in ZL end.
  rewrite EZ in EXX, TK. rewrite <- FX2 in TK. cbn [filter map] in TK. rewrite Pa2 in TK. assert (at_tok z = a2) as TZ by congruence. apply (f_equal (@List.tl _)) in TK. cbn [List.tl] in TK.
  match type of EXX with _ = X ++ (?q1 ++ ?q2 ++ (z :: zs) ++ ?q3) ++ Y => set (S1 := X ++ q1 ++ q2) in *; set (S3 := q3 ++ Y) in *; assert (spots_at root_args tree = S1 ++ (z :: zs) ++ S3) as SP by (unfold S1, S3; rewrite EXX, <- !app_assoc; reflexivity) end.
  pose proof (reading_spots _ _ _ _ RD) as RS. change (spots KStoredDefinition Beside 0 0 false false tree) with (spots_at root_args tree) in RS. rewrite SP in RS.
  pose proof (laid_nodup _ _ _ (rd_laid _ _ _ _ RD)) as ND. apply (NoDup_filter plain) in ND. rewrite EI2, !filter_app in ND, RS.
  destruct (parts_of S1 (z :: zs) S3 _ _ _ a2 ND (eq_sym RS)) as [FA FB].
  { cbn [map filter]. rewrite Pa2, TZ, TK. reflexivity. }
  { cbn [filter]. rewrite Pa2. left. reflexivity. }
  assert (exists S0 zb, S1 = S0 ++ [zb] /\ at_tok zb = b /\ filter plain (IA ++ a :: mid) = map at_tok S0) as (S0 & zb & ES1 & TB & FA0).
  { rewrite EA2, filter_app, FG, app_nil_r in FA. replace (IA ++ a :: mid ++ [b]) with ((IA ++ a :: mid) ++ [b]) in FA by (rewrite <- app_assoc; reflexivity). rewrite filter_app in FA. cbn [filter] in FA. rewrite Pb in FA.
    destruct S1 as [|zb S0 _] using rev_ind; [exfalso; destruct (filter plain (IA ++ a :: mid)); discriminate|]. rewrite map_app in FA. cbn [map] in FA. apply app_inj_tail in FA as [FA FBB]. exists S0, zb. auto. }
  unfold reference. change (spots KStoredDefinition Beside 0 0 false false tree) with (spots_at root_args tree). rewrite SP, ES1, EI, EB.
  replace (IA ++ (a :: mid ++ [b]) ++ IG ++ (a2 :: mid2 ++ [b2]) ++ IB2) with ((IA ++ a :: mid) ++ b :: (IG ++ a2 :: (mid2 ++ [b2]) ++ IB2)) by (rewrite <- !app_assoc; cbn [app]; rewrite <- !app_assoc; reflexivity).
  replace ((S0 ++ [zb]) ++ (z :: zs) ++ S3) with (S0 ++ zb :: (z :: zs ++ S3)) by (rewrite <- !app_assoc; reflexivity).
  destruct (weave_pass (IA ++ a :: mid) None 1 [] S0 zb b (IG ++ a2 :: (mid2 ++ [b2]) ++ IB2) (z :: zs ++ S3) FA0 Pb TB) as (L & wh & EW & _ & IL).
  assert (is_comment a2 = false) as NC by (rewrite plain_comment in Pa2; destruct (is_comment a2); [discriminate|reflexivity]).
  destruct (ct_last _ _ _ _ _ _ _ _ _ CT) as [CL PL]. destruct (ct_first _ _ _ _ _ _ _ _ _ CT2) as [CF PF]. rewrite <- EX in CL, PL. destruct CL as [CL _]. destruct CF as [CF _].
  exists (0 + length (IA ++ a :: mid) + 1)%nat, IG, (L ++ [mkE wh (Some (at_rule zb)) b]), (at_rule z), a2, lvl. eexists. cbv zeta.
  split; [exact SG|]. split; [lia|]. split; [exact LG|]. split; [exact CG|]. split; [exact XG|].
  split. { rewrite EW, (weave_comments IG) by auto. cbn [app]. unfold put. rewrite ZP, ZL, TZ, CL. rewrite <- !app_assoc. reflexivity. }
  split; [exact CF|]. split; [exact PF|].
  split. { apply Forall_app. split; [|constructor; [|constructor]].
    - apply Forall_forall. intros q Q. apply IL in Q. cbn [app] in Q. unfold begins. apply andb_true_iff. rewrite N.leb_le, N.ltb_lt. split; [lia|]. apply in_app_or in Q as [Q|Q]; [apply RA in Q; lia|].
      assert (In (e_tok q) (a :: mid ++ [b])) as I by (destruct Q as [Q|Q]; [left; exact Q|right; apply in_or_app; auto]). apply RX in I. lia.
    - unfold begins. cbn [e_tok]. apply andb_true_iff. rewrite N.leb_le, N.ltb_lt. split; [lia|]. assert (In b (a :: mid ++ [b])) as I by (right; apply in_or_app; right; left; reflexivity). apply RX in I. lia. }
  split. { apply Forall_forall. intros q Q. apply weave_in in Q; [|rewrite map_app, FB, TK, app_assoc, filter_app; reflexivity]. unfold begins. apply andb_true_iff. rewrite N.leb_le, N.ltb_lt. change ([] ++ ?l) with l in Q. rewrite app_assoc in Q. apply in_app_or in Q as [Q|Q].
    - assert (In (e_tok q) (a2 :: mid2 ++ [b2])) as I by (right; exact Q). apply RX2 in I. lia.
    - apply RB2 in Q. lia. }
  auto.
Qed.

(** ** The same text between entries of two files *)
Lemma rows_between lv lv' m m' r r' t t' cs cs' : line (tstart t') + m = line (tstart t) + m' -> Forall2 (shifted_by m m') cs cs' -> forall b ln ln', ln' + m = ln + m' ->
  exists l l' bl, rows b lv ln cs r t = l ++ [mkE (WLine bl lv) (Some r) t] /\ rows b lv' ln' cs' r' t' = l' ++ [mkE (WLine bl lv') (Some r') t'] /\
    Forall2 (copied lv lv') l l' /\ map e_tok l = cs /\ map e_tok l' = cs' /\ (cs = [] -> b = Kept -> bl = gap_between ln (line (tstart t))).
Proof.
  intros T C. induction C as [|c c' cs cs' CC C IH]; intros b ln ln' L; cbn [rows].
  - exists [], []. eexists. split; [reflexivity|]. split; [|split; [constructor|split; [reflexivity|split; [reflexivity|intros _ ->; reflexivity]]]].
    cbn [app]. rewrite (gap_shift m m' ln (line (tstart t)) ln' (line (tstart t'))) by auto. reflexivity.
  - assert (C0 := CC). destruct C0 as (CT & CK & C1 & C2 & _).
    destruct (IH (match b with Always => Kept | _ => b end) (line (tend c)) (line (tend c')) C2) as (l & l' & bl & E & E' & F & M & M' & _). rewrite E, E'.
    eexists (_ :: l), (_ :: l'), bl. split; [reflexivity|]. split; [reflexivity|]. split; [|split; [cbn [map e_tok]; rewrite M; reflexivity|split; [cbn [map e_tok]; rewrite M'; reflexivity|discriminate]]].
    constructor; [|exact F]. split; [exact CT|]. split; [exact CK|]. cbn [e_white same_white]. split; [|lia].
    rewrite (gap_shift m m' ln (line (tstart c)) ln' (line (tstart c'))) by auto. reflexivity.
Qed.
Lemma behind_between lv lv' m m' b cs cs' : Forall2 (shifted_by m m') cs cs' -> Forall2 (copied lv lv') (behind b cs) (behind b cs') /\ map e_tok (behind b cs) = cs /\ map e_tok (behind b cs') = cs'.
Proof.
  assert (forall w t t', (forall b k, w <> WLine b k) -> shifted_by m m' t t' -> copied lv lv' (mkE w None t) (mkE w None t')) as G.
  { intros w t t' W (T & K & _). split; [exact T|]. split; [exact K|]. cbn [e_white]. unfold same_white. destruct w; auto. exfalso. eapply W. reflexivity. }
  intros [|c c' l l' C L]; [split; [constructor|split; reflexivity]|]. cbn [behind map e_tok]. rewrite !map_map. cbn [e_tok]. rewrite !map_id. split; [|split; reflexivity]. constructor; [apply G; [destruct b; discriminate|exact C]|].
  induction L as [|y y' l l' X L IH]; constructor; auto. apply G; [discriminate|exact X].
Qed.
Theorem gaps A x g y B p items tree k e u wx wy v A2 x2 y2 B2 p2 items2 tree2 k2 e2 u2 wx2 wy2 v2 :
  reading (A ++ x ++ g ++ y ++ B) p items tree -> stands A x (g ++ y ++ B) tree k e u wx (wy ++ v) -> stands (A ++ x ++ g) y B tree k e (u ++ wx) wy v ->
  reading (A2 ++ x2 ++ g ++ y2 ++ B2) p2 items2 tree2 -> stands A2 x2 (g ++ y2 ++ B2) tree2 k2 e2 u2 wx2 (wy2 ++ v2) -> stands (A2 ++ x2 ++ g) y2 B2 tree2 k2 e2 (u2 ++ wx2) wy2 v2 ->
  exists la lg i lb la2 lg2 i2 lb2 b n n2,
    reference tree items = la ++ lg ++ i :: lb /\ reference tree2 items2 = la2 ++ lg2 ++ i2 :: lb2 /\
    within_range 0 (bytes_of (A ++ x)) la /\ within_range (bytes_of (A ++ x)) (bytes_of (A ++ x ++ g)) lg /\ pos (tstart (e_tok i)) = bytes_of (A ++ x ++ g) /\
    within_range (bytes_of (A ++ x ++ g)) (bytes_of (A ++ x ++ g ++ y ++ B)) lb /\
    within_range 0 (bytes_of (A2 ++ x2)) la2 /\ within_range (bytes_of (A2 ++ x2)) (bytes_of (A2 ++ x2 ++ g)) lg2 /\ pos (tstart (e_tok i2)) = bytes_of (A2 ++ x2 ++ g) /\
    within_range (bytes_of (A2 ++ x2 ++ g)) (bytes_of (A2 ++ x2 ++ g ++ y2 ++ B2)) lb2 /\
    e_white i = WLine b n /\ e_white i2 = WLine b n2 /\ Forall2 (copied n n2) lg lg2 /\ (Forall space g -> lg = [] /\ b = (1 <? newlines g)).
Proof.
  intros RD SX SY RD2 SX2 SY2.
  destruct (gap_layout _ _ _ _ _ _ _ _ _ _ _ _ _ _ RD SX SY) as (c & IG & la & r & t & n & lb & SG & C0 & LG & CG & XG & E & TL & TP & RA & RB & NC).
  destruct (gap_layout _ _ _ _ _ _ _ _ _ _ _ _ _ _ RD2 SX2 SY2) as (c2 & IG2 & la2 & r2 & t2 & n2 & lb2 & SG2 & C02 & LG2 & CG2 & XG2 & E2 & TL2 & TP2 & RA2 & RB2 & NC2).
  pose proof (lexes_unique _ _ _ LG LG2) as M.
  pose proof (set_out_shifted _ _ _ _ _ _ _ SG SG2 M XG C0 C02) as SH.
  assert (line (tstart t2) + newlines (A ++ x) = line (tstart t) + newlines (A2 ++ x2)) as TS by (rewrite TL, TL2, !(app_assoc _ _ g), !(newlines_app _ g); lia).
  set (ln := 1 + newlines (A ++ x)) in *. set (ln2 := 1 + newlines (A2 ++ x2)) in *.
  assert (forall (f : bool -> bool), Forall2 (shifted_by (newlines (A ++ x)) (newlines (A2 ++ x2))) (filter (fun c => f (line (tstart c) =? ln)) IG) (filter (fun c => f (line (tstart c) =? ln2)) IG2)) as G.
  { intro f. clear - SH. induction SH as [|d d' cs cs' CC C IH]; [constructor|]. cbn [filter]. assert (C0 := CC). destruct C0 as (_ & _ & C1 & _).
    replace (line (tstart d') =? ln2) with (line (tstart d) =? ln) by (unfold ln, ln2; destruct (N.eqb_spec (line (tstart d)) (1 + newlines (A ++ x))), (N.eqb_spec (line (tstart d')) (1 + newlines (A2 ++ x2))); reflexivity || lia).
    destruct (f (line (tstart d) =? ln)); auto. }
  destruct (rows_between n n2 _ _ r r2 t t2 _ _ TS (G negb) Kept ln ln2) as (l & l2 & b & R1 & R2 & F & M1 & M2 & BL); [unfold ln, ln2; lia|].
  destruct (behind_between n n2 _ _ false _ _ (G (fun b => b))) as (F0 & M3 & M4).
  set (h := behind false (filter (fun c => line (tstart c) =? ln) IG)) in *. set (h2 := behind false (filter (fun c => line (tstart c) =? ln2) IG2)) in *.
  exists la, (h ++ l), (mkE (WLine b n) (Some r) t), lb, la2, (h2 ++ l2), (mkE (WLine b n2) (Some r2) t2), lb2, b, n, n2.
  split; [rewrite E, R1, <- !app_assoc; reflexivity|]. split; [rewrite E2, R2, <- !app_assoc; reflexivity|].
  assert (forall A x IG c l, set_out (A ++ x) c IG g -> Forall (fun t => exists k, lexeme k (ttext t)) IG -> (forall z, In z (map e_tok l) -> In z IG) -> within_range (bytes_of (A ++ x)) (bytes_of (A ++ x ++ g)) l) as WG.
  { clear. intros A x IG c l S X H. apply Forall_forall. intros z Z. apply (in_map e_tok) in Z. apply H in Z. pose proof (set_out_range _ _ _ _ S X _ Z) as R. rewrite <- app_assoc in R. unfold begins. apply andb_true_iff. rewrite N.leb_le, N.ltb_lt. exact R. }
  split; [exact RA|].
  split. { apply (WG _ _ _ _ _ SG XG). intros z Z. rewrite map_app, M1, M3 in Z. apply in_app_or in Z as [Z|Z]; apply filter_In in Z; apply Z. }
  split; [exact TP|]. split; [exact RB|]. split; [exact RA2|].
  split. { apply (WG _ _ _ _ _ SG2 XG2). intros z Z. rewrite map_app, M2, M4 in Z. apply in_app_or in Z as [Z|Z]; apply filter_In in Z; apply Z. }
  split; [exact TP2|]. split; [exact RB2|]. split; [reflexivity|]. split; [reflexivity|]. split; [apply Forall2_app; auto|].
  intro SP. assert (IG = []) as ->. { pose proof (lexes_unique _ _ _ LG (spaces_lexes g SP)) as Z. destruct IG; [reflexivity|discriminate]. }
  split; [cbn [filter] in *; destruct h; [|discriminate]; destruct l; [reflexivity|discriminate]|].
  rewrite (BL eq_refl eq_refl). unfold gap_between. rewrite TL. unfold ln. rewrite (app_assoc A x g), (newlines_app _ g). f_equal. lia.
Qed.
