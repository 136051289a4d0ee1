(** The layout of the code does not depend on comments. *)
From Coq Require Import Sorted.
From Verif Require Import ProofBase Tokens Syntax Lexer SpecLex LexInv LexMain LexFacts LexCut ParserCore Grammar
  Tree Printer Formatter Lib ParserSem ParserFuel SpecGrammar Regex ParserGrammar ParserTree ParserFacts Recognise PropsParser
  SpecLanguage ParserComplete PropsLanguage
  FmtAbs FmtPlan FmtShape FmtTables FmtSound SpecLayout FmtExec FmtTop FmtFacts FmtRelex FmtNeat SpecNodes FmtTree FmtLists FmtOps
  FmtWrap SpecGaps SpecReference FmtNode FmtReference FmtSame PropsFormat PropsReference PropsSame FmtBreaks FmtAgree FmtPrinted FmtStable
  FmtMoved FmtConcat SpecTold PropsModular FmtOnce FmtNear PropsVertical FmtLocal SpecCode.

(** ** The code of a woven layout *)
Definition same_entry (e e' : entry) : Prop :=
  same_white (e_white e) (e_white e') /\ e_rule e' = e_rule e /\ tkind_of (e_tok e') = tkind_of (e_tok e).
Lemma same_white_refl w : same_white w w.
Proof. destruct w; reflexivity. Qed.
Fixpoint spelled (p : option (skind * tkind)) (xs : list spot) : layout :=
  match xs with
  | [] => []
  | x :: xs' =>
      mkE (match at_pos x with
           | Beside => match p with None => WNone | Some (_, a) => if SpecGaps.tight a (at_rule x) (tkind_of (at_tok x)) then WNone else WSpace end
           | Attached => WNone
           | Detached => WSpace
           | Below _ => WLine false (at_level x)
           end) (Some (at_rule x)) (at_tok x) :: spelled (Some (at_rule x, tkind_of (at_tok x))) xs'
  end.
Lemma code_behind f B : filter code (behind f B) = [].
Proof. destruct B as [|c B]; [reflexivity|]. cbn [behind filter code e_rule]. induction B; [reflexivity|assumption]. Qed.
Lemma code_rows n r t C : forall b ln, exists w, filter code (rows b n ln C r t) = [mkE (WLine w n) (Some r) t].
Proof. induction C as [|c C IH]; intros b ln; cbn [rows filter code e_rule]; [eauto|apply IH]. Qed.
Definition like_entry (e e' : entry) : Prop := same_white (e_white e) (e_white e') /\ e_rule e' = e_rule e /\ e_tok e' = e_tok e.
Lemma code_weave items : forall p ln cs xs, filter plain items = map at_tok xs -> Forall2 like_entry (filter code (weave p ln cs items xs)) (spelled p xs).
Proof.
  induction items as [|t items IH]; intros p ln cs xs F.
  - destruct xs; [constructor|discriminate].
  - cbn [weave filter] in *. rewrite plain_comment in F. destruct (is_comment t); cbn [negb] in F; [apply IH, F|].
    destruct xs as [|x xs]; [discriminate|]. cbn [map] in F. assert (t = at_tok x) as -> by congruence. apply (f_equal (@List.tl _)) in F. cbn [List.tl] in F.
    rewrite filter_app. cbn [spelled]. change (?a :: ?b) with ([a] ++ b) at 1. apply Forall2_app; [|apply IH, F].
    unfold put. destruct (at_pos x); try (cbn [filter code e_rule]; constructor; [repeat split; apply same_white_refl|constructor]).
    rewrite filter_app, code_behind. destruct (code_rows (at_level x) (at_rule x) (at_tok x) (filter (fun c => negb (line (tstart c) =? ln)) cs) b ln) as (w & ->).
    constructor; [repeat split|constructor].
Qed.
Lemma spelled_same xs : forall p xs', map strip xs' = map strip xs -> map (fun x => tkind_of (at_tok x)) xs' = map (fun x => tkind_of (at_tok x)) xs ->
  Forall2 (fun e e' => e_white e' = e_white e /\ e_rule e' = e_rule e /\ tkind_of (e_tok e') = tkind_of (e_tok e)) (spelled p xs) (spelled p xs').
Proof.
  induction xs as [|x xs IH]; intros p [|x' xs'] S K; try discriminate; [constructor|]. cbn [map] in *.
  assert (strip x' = strip x) as SX by congruence. assert (tkind_of (at_tok x') = tkind_of (at_tok x)) as KX by congruence. apply (f_equal (@List.tl _)) in S, K. cbn [List.tl] in S, K.
  unfold strip in SX. assert (at_rule x' = at_rule x /\ at_pos x' = at_pos x /\ at_level x' = at_level x) as (E1 & E2 & E3) by (repeat split; congruence). cbn [spelled]. rewrite KX, E1, E2, E3. constructor; [auto|apply IH; auto].
Qed.

Lemma same_rows_marks l l' : same_rows l l' -> marks l = marks l'.
Proof.
  induction 1 as [|t t' _|a a' b b' r r' _ C S IH]; [reflexivity|reflexivity|].
  change ((line (tend a) <? line (tstart b)) :: marks (b :: r) = (line (tend a') <? line (tstart b')) :: marks (b' :: r')). rewrite IH. f_equal. apply eq_true_iff_eq. rewrite !N.ltb_lt. exact C.
Qed.
Lemma same_rows_paired l l' : same_rows l l' -> Forall paired (combine l l').
Proof.
  assert (forall t t', same_token t t' -> paired (t, t')) as K.
  { intros t t' (K & T & W). unfold paired. cbn [fst snd]. split; [exact K|]. split; [unfold tall; apply eq_true_iff_eq; rewrite !N.ltb_lt; symmetry; exact T|].
    intro X. specialize (W X). destruct (N.eq_dec (tidx t) 0), (N.eq_dec (tidx t') 0); apply eq_true_iff_eq; rewrite !N.ltb_lt; lia. }
  induction 1; cbn [combine]; constructor; auto.
Qed.
Lemma same_rows_both l l' : same_rows l l' -> Forall2 same_token l l'.
Proof. induction 1; constructor; auto. Qed.
Lemma same_rows_kinds l l' : same_rows l l' -> map tkind_of l = map tkind_of l'.
Proof. intro S. apply same_rows_both in S. induction S as [|t t' l l' (K & _) _ IH]; [reflexivity|]. cbn [map]. congruence. Qed.

Lemma reading_strip s p items tree s' p' items' tree' : reading s p items tree -> reading s' p' items' tree' ->
  p_events p' = p_events p -> same_rows (filter plain items) (filter plain items') ->
  map strip (spots KStoredDefinition Beside 0 0 false false tree') = map strip (spots KStoredDefinition Beside 0 0 false false tree).
Proof.
  intros R R' EV NP.
  assert (length (filter plain items) = length (filter plain items')) as LEN by (apply same_rows_both, near_length in NP; exact NP).
  destruct (near_combine _ _ LEN) as [C1 C2]. set (g := partner (combine (filter plain items) (filter plain items'))).
  pose proof (laid_ordered _ _ _ (rd_laid _ _ _ _ R)) as [S0 _ _].
  assert (map g (filter plain items) = filter plain items') as MG.
  { pose proof (partner_maps (combine (filter plain items) (filter plain items'))) as PM. rewrite C1, C2 in PM. apply PM, sorted_filter, S0. }
  assert (relined g) as G by (eapply partner_relined, same_rows_paired; exact NP).
  assert (tree' = tmap g tree) as ET.
  { pose proof (rd_tree _ _ _ _ R') as B'. rewrite (rd_tokens _ _ _ _ R'), <- MG, EV, build_tree_map in B'. rewrite <- (rd_tokens _ _ _ _ R), (rd_tree _ _ _ _ R) in B'. cbn [rmap] in B'. apply ok_same in B'. auto. }
  rewrite ET. apply agree_spots; [exact G|]. destruct (rd_fits _ _ _ _ R) as (cs & E & [F|F]).
    - rewrite E, F. constructor; [reflexivity|]. intros u d v K. destruct (rev u); discriminate.
    - apply kin_agrees; auto. pose proof (toks_some _ F) as NE. rewrite (rd_toks _ _ _ _ R), (rd_tokens _ _ _ _ R) in *.
      exists (false :: marks (filter plain items)). rewrite MG. split.
      + apply (downward_lined _ _ 1); [|exact NE]. apply downward_filter. apply (laid_downward _ _ (rd_laid _ _ _ _ R)).
      + rewrite (same_rows_marks _ _ NP). apply (downward_lined _ _ 1).
        * apply downward_filter. apply (laid_downward _ _ (rd_laid _ _ _ _ R')).
        * intro K. rewrite K in LEN. destruct (filter plain items); [contradiction|discriminate].
Qed.
Theorem reading_code s p items tree s' p' items' tree' : reading s p items tree -> reading s' p' items' tree' ->
  p_events p' = p_events p -> same_rows (filter plain items) (filter plain items') ->
  Forall2 same_entry (filter code (reference tree items)) (filter code (reference tree' items')).
Proof.
  intros R R' EV NP. pose proof (reading_strip _ _ _ _ _ _ _ _ R R' EV NP) as ST.
  pose proof (reading_spots _ _ _ _ R) as SP. pose proof (reading_spots _ _ _ _ R') as SP'.
  pose proof (code_weave items None 1 [] _ SP) as W. pose proof (code_weave items' None 1 [] _ SP') as W'.
  assert (map (fun x => tkind_of (at_tok x)) (spots KStoredDefinition Beside 0 0 false false tree') = map (fun x => tkind_of (at_tok x)) (spots KStoredDefinition Beside 0 0 false false tree)) as KS.
  { rewrite <- !(map_map at_tok tkind_of). rewrite <- SP, <- SP'. symmetry. apply same_rows_kinds, NP. }
  pose proof (spelled_same _ None _ ST KS) as Q. unfold reference.
  revert W W' Q. generalize (spelled None (spots KStoredDefinition Beside 0 0 false false tree)) as a, (spelled None (spots KStoredDefinition Beside 0 0 false false tree')) as b,
    (filter code (weave None 1 [] items (spots KStoredDefinition Beside 0 0 false false tree))) as x, (filter code (weave None 1 [] items' (spots KStoredDefinition Beside 0 0 false false tree'))) as y.
  clear. intros a b x y W. revert b y. induction W as [|e a1 x a (E1 & E2 & E3) W IH]; intros b y W' Q; inversion Q as [|? b1 ? b2 (Q1 & Q2 & Q3) Q']; subst; inversion W' as [|e' ? y' ? (F1 & F2 & F3) W2]; subst; constructor.
  - split; [|split; congruence]. unfold same_white in *. rewrite Q1 in F1. destruct (e_white e), (e_white a1), (e_white e'); try discriminate; congruence.
  - eapply IH; eauto.
Qed.

(** ** Spaces instead of comments *)
Lemma set_out_skip c n its x r : set_out c n its (x :: r) -> space x -> Forall (fun t => exists k, lexeme k (ttext t)) its -> set_out (c ++ [x]) n its r.
Proof.
  intros S X L. destruct its as [|t its].
  - inversion S as [? ? sp F|]; subst. inversion F; subst. constructor. assumption.
  - apply set_out_inv in S as (sp & r2 & E & F & A1 & A2 & A3 & A4 & A5 & S). inversion L as [|? ? (k & LX) _]; subst. pose proof (lexeme_starts _ _ LX) as (z & y & EX & NX).
    destruct sp as [|x' sp]; [exfalso; apply NX; cbn [app] in E; rewrite EX in E; cbn [app] in E; injection E as <- _; exact X|].
    cbn [app] in E. injection E as <- ->. inversion F; subst. replace (c ++ x :: sp) with ((c ++ [x]) ++ sp) in * by (rewrite <- app_assoc; reflexivity).
    replace (c ++ (x :: sp) ++ ttext t) with ((c ++ [x]) ++ sp ++ ttext t) in * by (rewrite <- app_assoc; reflexivity). constructor; auto.
Qed.
Lemma set_out_skips sp : forall c n its r, set_out c n its (sp ++ r) -> Forall space sp -> Forall (fun t => exists k, lexeme k (ttext t)) its -> set_out (c ++ sp) n its r.
Proof.
  induction sp as [|x sp IH]; intros c n its r S F L; [rewrite app_nil_r; exact S|]. inversion F; subst. cbn [app] in S. apply set_out_skip in S; auto.
  apply IH in S; auto. rewrite <- app_assoc in S. exact S.
Qed.
Lemma set_out_first c n t its w r : set_out c n (t :: its) (w ++ r) -> ttext t = w -> (exists k, lexeme k w) ->
  line (tstart t) = 1 + newlines c /\ line (tend t) = 1 + newlines (c ++ w) /\ set_out (c ++ w) (S n) its r.
Proof.
  intros S W (k & LX). apply set_out_inv in S as (sp & r2 & E & F & A1 & A2 & A3 & A4 & A5 & S). pose proof (lexeme_starts _ _ LX) as (z & y & EX & NX).
  destruct sp as [|x sp]; [|exfalso; rewrite EX in E; cbn [app] in E; injection E as -> _; inversion F; contradiction].
  rewrite W in *. cbn [app] in *. apply app_inv_head in E. subst r2. rewrite app_nil_r in A1. apply coords_line in A1, A3. auto.
Qed.
Lemma wipe_space w : Forall space (wipe w).
Proof. unfold wipe. induction w as [|c w IH]; [constructor|]. cbn [map]. constructor; [destruct (c =? 10); vm_compute; auto 10|exact IH]. Qed.
Lemma wipe_newlines w : newlines (wipe w) = newlines w.
Proof. induction w as [|c w IH]; [reflexivity|]. cbn [wipe map newlines] in *. unfold wipe in IH. rewrite IH. destruct (c =? 10) eqn:E; [rewrite N.eqb_refl; reflexivity|reflexivity]. Qed.
Lemma wiped_follow k w r r' : wiped r r' -> k <> TLineComment -> follow_ok k w r -> follow_ok k w r'.
Proof.
  intros W K F. inversion W as [|c u u' _ _|k1 w1 u u' L _ _ _ _|k1 w1 u u' L C _ _]; subst.
  - apply LexFacts.follow_nil.
  - eapply follow_head, F.
  - apply lexeme_starts in L as (z & y & -> & _). cbn [app] in *. eapply follow_head, F.
  - apply lexeme_starts in L as (z & y & -> & _). cbn [wipe map app] in *. apply follow_white. destruct (z =? 10); auto.
Qed.
Definition code_item (i : tkind * text) : bool := negb (is_comment_kind (fst i)).
Definition same_lines (t t' : token) : Prop :=
  tkind_of t' = tkind_of t /\ ttext t' = ttext t /\ line (tstart t') = line (tstart t) /\ line (tend t') = line (tend t).
Lemma item_lexemes its : forall items, map item_of items = its -> Forall (fun i => lexeme (fst i) (snd i)) its -> Forall (fun t => exists k, lexeme k (ttext t)) items.
Proof. intros items <-. induction items as [|t items IH]; cbn [map]; intro F; [constructor|]. inversion F; subst. constructor; eauto. Qed.
Lemma wiped_items s s' : wiped s s' -> exists its, lexes s its /\ lexes s' (filter code_item its) /\ Forall (fun i => lexeme (fst i) (snd i)) its /\
  forall c c' n n' items items', newlines c = newlines c' -> set_out c n items s -> set_out c' n' items' s' ->
    map item_of items = its -> map item_of items' = filter code_item its -> Forall2 same_lines (filter plain items) items'.
Proof.
  induction 1 as [|c r r' S W (its & L & L' & LM & IH)|k w r r' LX N1 N2 F W (its & L & L' & LM & IH)|k w r r' LX C F W (its & L & L' & LM & IH)].
  - exists []. repeat split; try constructor. intros c c' n n' items items' _ _ _ E E'. destruct items, items'; try discriminate. constructor.
  - exists its. split; [constructor; auto|]. split; [constructor; auto|]. split; [exact LM|]. intros c0 c1 n n' items items' NL S0 S1 E E'.
    apply (IH (c0 ++ [c]) (c1 ++ [c]) n n'); auto; [rewrite !newlines_app; lia| |]; apply set_out_skip; auto.
    + eapply item_lexemes; eauto.
    + eapply item_lexemes; [exact E'|]. rewrite Forall_forall in *. intros i I. apply filter_In in I as [I _]. auto.
  - exists ((k, w) :: its). assert (code_item (k, w) = true) as CI by (unfold code_item; cbn [fst]; destruct k; try reflexivity; contradiction).
    cbn [filter]. rewrite CI. split; [constructor; auto|]. split; [constructor; auto; eapply wiped_follow; eauto|]. split; [constructor; auto|].
    intros c c' n n' items items' NL S0 S1 E E'. destruct items as [|t items]; [discriminate|]. destruct items' as [|t' items']; [discriminate|]. cbn [map] in E, E'.
    assert (item_of t = (k, w)) as T1 by congruence. assert (item_of t' = (k, w)) as T2 by congruence. apply (f_equal (@List.tl _)) in E, E'. cbn [List.tl] in E, E'. unfold item_of in T1, T2.
    assert (tkind_of t = k /\ ttext t = w) as [K1 W1] by (split; congruence). assert (tkind_of t' = k /\ ttext t' = w) as [K2 W2] by (split; congruence).
    apply set_out_first in S0 as (A1 & A2 & S0); [|auto|eauto]. apply set_out_first in S1 as (B1 & B2 & S1); [|auto|eauto].
    cbn [filter]. assert (plain t = true) as -> by (unfold plain; unfold code_item in CI; cbn [fst] in CI; rewrite K1; exact CI).
    rewrite !newlines_app in *. constructor; [unfold same_lines; rewrite K1, K2, W1, W2, A1, A2, B1, B2; repeat split; lia|].
    apply (IH (c ++ w) (c' ++ w) (S n) (S n')); auto. rewrite !newlines_app. lia.
  - exists ((k, w) :: its). assert (code_item (k, w) = false) as CI by (destruct C; subst; reflexivity).
    cbn [filter]. rewrite CI. split; [constructor; auto|]. split; [apply LexMain.lexes_spaces; [apply wipe_space|auto]|]. split; [constructor; auto|].
    intros c c' n n' items items' NL S0 S1 E E'. destruct items as [|t items]; [discriminate|]. cbn [map] in E.
    assert (item_of t = (k, w)) as T1 by congruence. apply (f_equal (@List.tl _)) in E. cbn [List.tl] in E. unfold item_of in T1.
    assert (tkind_of t = k /\ ttext t = w) as [K1 W1] by (split; congruence).
    apply set_out_first in S0 as (A1 & A2 & S0); [|auto|eauto].
    apply set_out_skips in S1; [|apply wipe_space|eapply item_lexemes; [exact E'|]; rewrite Forall_forall in *; intros i I; apply filter_In in I as [I _]; auto].
    cbn [filter]. assert (plain t = false) as -> by (unfold plain; unfold code_item in CI; cbn [fst] in CI; rewrite K1; exact CI).
    apply (IH (c ++ w) (c' ++ wipe w) (S n) n'); auto. rewrite !newlines_app, wipe_newlines. lia.
Qed.
Lemma spelled_tokens xs : forall p, map e_tok (spelled p xs) = map at_tok xs.
Proof. induction xs as [|x xs IH]; intro p; [reflexivity|]. cbn [spelled map e_tok]. f_equal. apply IH. Qed.
Lemma reading_code_tokens s p items tree : reading s p items tree -> map e_tok (filter code (reference tree items)) = p_tokens p.
Proof.
  intro R. pose proof (reading_spots _ _ _ _ R) as SP. rewrite (rd_tokens _ _ _ _ R), SP, <- (spelled_tokens _ None).
  pose proof (code_weave items None 1 [] _ SP) as W. unfold reference. induction W as [|e e' l l' (_ & _ & E) _ IH]; [reflexivity|]. cbn [map]. congruence.
Qed.
Lemma same_lines_rows l l' : Forall2 same_lines l l' ->
  (forall t r t' r', l = t :: r -> l' = t' :: r' -> tkind_of t = TWithin -> (tidx t = 0 <-> tidx t' = 0)) ->
  (forall t r, List.tl l = r -> In t r -> tidx t <> 0) -> (forall t r, List.tl l' = r -> In t r -> tidx t <> 0) -> same_rows l l'.
Proof.
  intro F. induction F as [|t t' l l' (K & X & A & B) F IH]; intros H P P'; [constructor|].
  assert (same_token t t') as S by (split; [exact K|]; split; [rewrite A, B; reflexivity|]; apply (H t l t' l'); auto).
  destruct F as [|u u' l l' (K2 & X2 & A2 & B2) F]; [constructor; exact S|]. constructor; [exact S|rewrite B, A2; reflexivity|]. apply IH.
  - intros z r z' r' E E' _. injection E as <- <-. injection E' as <- <-. cbn [List.tl] in *.
    split; intro Z; exfalso; [eapply (P u)|eapply (P' u')]; eauto; left; reflexivity.
  - intros z r <- I. cbn [List.tl] in *. eapply P; [reflexivity|]. right. exact I.
  - intros z r <- I. cbn [List.tl] in *. eapply P'; [reflexivity|]. right. exact I.
Qed.
Lemma later_index s items : laid space s items -> forall f t, In t (List.tl (filter f items)) -> tidx t <> 0.
Proof.
  intros L f t I. pose proof (laid_index _ _ L) as IX. destruct (filter f items) as [|x r] eqn:E; [destruct I|]. cbn [List.tl] in I.
  apply in_split in I as (u & v & ->). assert (exists a b c, items = a ++ x :: b ++ t :: c) as (a & b & c & EI).
  { clear IX L. revert E. induction items as [|y items IH]; [discriminate|]. cbn [filter]. destruct (f y) eqn:Y; intro E.
    - injection E as -> E. assert (In t (filter f items)) as J by (rewrite E; apply in_elt). apply filter_In in J as [J _]. apply in_split in J as (b & c & ->). exists [], b, c. reflexivity.
    - destruct (IH E) as (a & b & c & ->). exists (y :: a), b, c. reflexivity. }
  rewrite (IX (a ++ x :: b) t c) by (rewrite EI, <- app_assoc; reflexivity). rewrite app_length. cbn [length]. lia.
Qed.
