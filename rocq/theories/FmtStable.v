(** Formatting twice reaches a fixed point. *)
From Coq Require Import Sorted.
From Verif Require Import ProofBase Tokens Syntax Lexer SpecLex LexInv LexMain LexFacts ParserCore Grammar
  Tree Printer Formatter Lib ParserSem ParserFuel SpecGrammar Regex ParserGrammar ParserTree ParserFacts Recognise PropsParser
  FmtAbs FmtPlan FmtShape FmtTables FmtSound SpecLayout FmtExec FmtTop FmtFacts FmtRelex FmtNeat SpecNodes FmtTree FmtLists FmtOps
  FmtWrap SpecGaps SpecReference FmtNode FmtReference FmtSame PropsFormat PropsReference FmtBreaks FmtAgree FmtPrinted.

(** ** Reading and printing *)
Record reading (s : text) (p : parsed) (items : list token) (tree : child) : Prop := mk_reading {
  rd_accepted : accepted s p;
  rd_lexes : lexes s (map item_of items);
  rd_ascii : comments_ascii (map item_of items);
  rd_laid : laid space s items;
  rd_tokens : p_tokens p = filter plain items;
  rd_comments : p_comments p = filter commentary items;
  rd_tree : build_tree (p_tokens p) (p_events p) = Ok tree;
  rd_toks : toks tree = p_tokens p;
  rd_fits : exists cs, tree = CTree KStoredDefinition cs /\ (cs = [] \/ fits tree)
}.
Lemma reading_of s p : accepted s p -> exists items tree, reading s p items tree.
Proof.
  intro ACC. assert (ACC' := ACC). destruct ACC' as [H Z].
  destruct (accepted_tree s p H Z) as (cs & items & C & L & E & B & X1 & X2 & X3 & X4 & X5).
  exists items, (prune (CTree KStoredDefinition cs)). split; auto.
  - rewrite toks_leaves, leaves_prune. exact L.
  - pose proof (prune_fits _ C) as F. cbn [prune] in *. eexists. split; [reflexivity|]. match type of F with match ?l with _ => _ end => destruct l end; auto.
Qed.

Lemma sorted_same a : forall b, StronglySorted before a -> StronglySorted before b -> (forall t, In t a <-> In t b) -> a = b.
Proof.
  induction a as [|x a IH]; intros [|y b] SA SB M.
  - reflexivity.
  - destruct (proj2 (M y) (or_introl eq_refl)).
  - destruct (proj1 (M x) (or_introl eq_refl)).
  - apply StronglySorted_inv in SA as [SA FA]. apply StronglySorted_inv in SB as [SB FB]. rewrite Forall_forall in FA, FB.
    assert (x = y) as ->.
    { destruct (proj1 (M x) (or_introl eq_refl)) as [E|IX]; [auto|]. destruct (proj2 (M y) (or_introl eq_refl)) as [E|IY]; [auto|].
      apply FB in IX. apply FA in IY. unfold before in *. lia. }
    f_equal. apply IH; auto. intro t. split; intro T.
    + destruct (proj1 (M t) (or_intror T)) as [<-|K]; [|exact K]. apply FA in T. unfold before in T. lia.
    + destruct (proj2 (M t) (or_intror T)) as [<-|K]; [|exact K]. apply FB in T. unfold before in T. lia.
Qed.
Lemma items_unique s a b : laid space s a -> laid space s b -> filter plain a = filter plain b -> filter commentary a = filter commentary b -> a = b.
Proof.
  intros LA LB P C. apply laid_ordered in LA as [SA _ _]. apply laid_ordered in LB as [SB _ _]. apply sorted_same; auto.
  assert (forall l t, In t l <-> In t (filter plain l) \/ In t (filter commentary l)) as K.
  { intros l t. rewrite !filter_In. unfold plain, commentary. destruct (is_comment_kind (tkind_of t)); cbn; tauto. }
  intro t. rewrite (K a), (K b), P, C. reflexivity.
Qed.

Lemma reading_reference eol s p items tree : reading s p items tree ->
  layout_of eol s p (reference tree items) /\ arranged adjacent None 1 items (codes (reference tree items)) (reference tree items).
Proof.
  intros [ACC LX CA LA PT PC BT _ _]. destruct (accepted_reference eol s p ACC) as (tree' & items' & LO & _ & _ & LA' & PT' & PC' & AR & BT').
  assert (items' = items) as -> by (apply (items_unique s); congruence || assumption).
  assert (tree' = tree) as -> by congruence. auto.
Qed.

(** Lines of a text. *)
Lemma laid_ends s items : laid space s items -> Forall (fun t => line (tend t) = line (tstart t) + height t) items.
Proof.
  induction 1 as [|c x items L IH S|c items t L IH [A _] _ [B _] _ _]; auto. apply Forall_app. split; [exact IH|].
  constructor; [|constructor]. unfold height. rewrite B, A, newlines_app. lia.
Qed.
Lemma fwd_downward c items r : fwd c items r -> Forall (fun t => line (tend t) = line (tstart t) + height t) items -> downward (1 + newlines c) items.
Proof.
  induction 1 as [|c x items r S F IH|c t items r L F IH]; intro E; cbn [downward].
  - exact I.
  - specialize (IH E). rewrite newlines_app in IH. destruct items as [|t items]; [exact I|]. cbn [downward] in *. destruct IH as (I1 & I2). split; [lia|exact I2].
  - inversion E as [|? ? E1 E2]; subst. specialize (IH E2). rewrite newlines_app in IH. split; [lia|]. split; [exact E1|].
    replace (line (tend t)) with (1 + (newlines c + newlines (ttext t))) by (unfold height in E1; lia). exact IH.
Qed.
Lemma laid_whole s items : laid space s items -> fwd [] items s.
Proof. intro L. rewrite <- (app_nil_r items), <- (app_nil_r s). apply laid_fwd; auto. constructor. Qed.
Lemma laid_downward s items : laid space s items -> downward 1 items.
Proof. intro L. apply (fwd_downward [] items s); [apply laid_whole, L|apply (laid_ends _ _ L)]. Qed.
Lemma laid_index s items : laid space s items -> forall a t b, items = a ++ t :: b -> tidx t = N.of_nat (length a).
Proof.
  induction 1 as [|c x items L IH S|c items t L IH _ _ _ _ T]; intros a t' b E; [destruct a; discriminate|eauto|].
  destruct (@exists_last _ (t' :: b)) as (l & z & EL); [discriminate|]. rewrite EL in E. rewrite app_assoc in E. apply app_inj_tail in E as [E1 E2].
  destruct l as [|y l]; cbn [app] in EL; injection EL as E3 E4.
  - rewrite app_nil_r in E1. subst. exact T.
  - subst. eapply IH. reflexivity.
Qed.

Lemma white_breaks eol w : is_eol eol -> newlines (white_text eol w) = breaks w /\ Forall space (white_text eol w).
Proof.
  pose proof space_some as (S1 & S2 & S3). intro E.
  assert (forall n, newlines (times n (str "  ")) = 0 /\ Forall space (times n (str "  "))) as T.
  { induction n as [|n [IH1 IH2]]; [split; [reflexivity|constructor]|]. cbn [times]. split; [rewrite newlines_app, IH1; reflexivity|].
    apply Forall_app. split; [|exact IH2]. constructor; [exact S3|]. constructor; [exact S3|constructor]. }
  destruct w as [| |b n]; cbn [white_text breaks].
  - split; [reflexivity|constructor].
  - split; [reflexivity|]. constructor; [exact S3|constructor].
  - destruct (T n) as [T1 T2]. rewrite !newlines_app, T1. split.
    + destruct E as [->| ->], b; reflexivity.
    + apply Forall_app. split; [destruct b|apply Forall_app; split; [|exact T2]]; destruct E as [->| ->]; repeat (constructor; auto).
Qed.

Lemma fwd_printed eol tail l : is_eol eol -> forall c items, fwd c items (render eol l ++ tail) -> Forall (fun t => line (tend t) = line (tstart t) + height t) items ->
  map item_of items = map (fun e => item_of (e_tok e)) l -> Forall (fun e => exists k, lexeme k (ttext (e_tok e))) l ->
  printed (1 + newlines c) l items.
Proof.
  intro EO. induction l as [|e l IH]; intros c [|t items] W E M LX; try discriminate; [exact I|]. cbn [map] in M.
  assert (item_of t = item_of (e_tok e)) as IT by congruence. apply (f_equal (@tl _)) in M. cbn [tl] in M.
  inversion E as [|? ? E1 E2]; subst. inversion LX as [|? ? [k X] LX']; subst. apply fwd_first in W as (sp & r' & EQ & SP & LI & W).
  destruct (white_breaks eol (e_white e) EO) as [WB WS].
  assert (ttext t = ttext (e_tok e)) as TT by (unfold item_of in IT; congruence).
  unfold render in EQ. cbn [flat_map] in EQ. rewrite <- !app_assoc in EQ. change (flat_map _ l) with (render eol l) in EQ.
  apply lexeme_starts in X as (x & b & EX & NX). rewrite TT in EQ. symmetry in EQ.
  apply spaces_prefix in EQ as [ES ER]; auto; try (rewrite EX; cbn [app]; eauto).
  apply app_inv_head in ER. subst sp r'. cbn [printed]. split; [exact IT|]. split; [rewrite LI, newlines_app, WB; lia|]. split; [exact E1|].
  replace (line (tend t)) with (1 + newlines (c ++ white_text eol (e_white e) ++ ttext t)); [apply IH; auto|].
  rewrite E1, LI, !newlines_app. unfold height. lia.
Qed.

(** ** Carriage returns *)
Lemma lone_app a b : no_lone_cr a -> no_lone_cr b -> no_lone_cr (a ++ b).
Proof.
  intros A B pre post E. apply cut in E as [(z & NZ & EA & E)|(z & EP & E)].
  - destruct z as [|y z]; [contradiction|]. injection E as <- ->. destruct (A _ _ EA) as (post' & ->). exists (post' ++ b). reflexivity.
  - apply (B z post E).
Qed.
Lemma lone_none w : Forall (fun c => c <> 13) w -> no_lone_cr w.
Proof. intros F pre post ->. apply Forall_app in F as [_ F]. inversion F; subst. contradiction. Qed.
Lemma white_lone eol w : is_eol eol -> no_lone_cr (white_text eol w).
Proof.
  intro E. assert (no_lone_cr eol) as L.
  { destruct E as [->| ->]; [apply lone_none; repeat constructor; discriminate|].
    intros [|x [|y pre]] post H; cbn [app] in H; injection H; intros; subst; eauto; try discriminate. destruct pre; discriminate. }
  assert (forall n, no_lone_cr (times n (str "  "))) as T.
  { induction n as [|n IH]; cbn [times]; [apply lone_none; constructor|]. apply lone_app; [apply lone_none; repeat constructor; discriminate|exact IH]. }
  destruct w as [| |b n]; cbn [white_text].
  - apply lone_none. constructor.
  - apply lone_none. repeat constructor. discriminate.
  - apply lone_app; [destruct b; [exact L|apply lone_none; constructor]|]. apply lone_app; auto.
Qed.
Lemma lexeme_end k w : lexeme k w -> forall u, w <> u ++ [13].
Proof.
  assert (forall (l : text) x u, l ++ [x] = u ++ [13] -> x = 13) as TL by (intros l x u E; apply app_inj_tail in E; tauto).
  assert (forall (P : N -> Prop) l u, Forall P l -> ~ P 13 -> l = u ++ [13] -> False) as FA.
  { intros P l u F N ->. apply Forall_app in F as [_ F]. inversion F; subst. auto. }
  assert (forall tbl, forallb (fun s => negb (last (str (fst s)) 0 =? 13)) tbl = true -> forall w0 k0 u, spelled tbl w0 k0 -> w0 = u ++ [13] -> False) as SP.
  { intros tbl C w0 k0 u (s & I & ->) E. rewrite forallb_forall in C. apply C in I. cbn [fst] in I. rewrite E, last_last in I. discriminate. }
  assert (~ digit 13) as ND by (unfold digit; lia).
  assert (~ idchar 13) as NI by (unfold idchar, nondigit, letter, digit; lia).
  intros L u E. destruct L as [k w S|k w S|c b C F R|b Q|b Q|d NE F|d f e NE F X Y Z|b F|x X|].
  - revert E. eapply SP; [|exact S]. reflexivity.
  - revert E. eapply SP; [|exact S]. reflexivity.
  - eapply (FA idchar (c :: b)); eauto. constructor; [unfold idchar; auto|exact F].
  - apply (TL (squote :: b)) in E. discriminate.
  - apply (TL (dquote :: b)) in E. discriminate.
  - eauto.
  - destruct Y as [->|(m & sg & g & M & SG & FG & ->)].
    + rewrite app_nil_r in E. destruct X as [->|(g & FG & ->)]; [rewrite app_nil_r in E; eauto|].
      revert E. eapply (FA (fun c => digit c \/ c = dot)); [|intros [K|K]; [auto|discriminate]].
      apply Forall_app. split; [eapply Forall_impl; [|exact F]; auto|]. constructor; [auto|]. eapply Forall_impl; [|exact FG]; auto.
    + rewrite app_assoc in E. destruct (@exists_last _ (m :: sg ++ g)) as (l & z & EL); [discriminate|]. rewrite EL, app_assoc in E. apply TL in E. subst z.
      eapply (FA (fun c => exp_mark c \/ SpecLex.sign c \/ digit c)); [| |exact EL].
      * constructor; [auto|]. apply Forall_app. split; [|eapply Forall_impl; [|exact FG]; auto].
        destruct SG as [->|(c & C & ->)]; [constructor|]. constructor; auto.
      * unfold exp_mark, SpecLex.sign, digit. lia.
  - eapply (FA (fun c => ~ newline_char c) (slash :: slash :: b)); [| |exact E].
    + constructor; [|constructor; [|exact F]]; unfold newline_char, slash; lia.
    + intro K. apply K. unfold newline_char. auto.
  - replace (slash :: star :: x ++ [star; slash]) with ((slash :: star :: x ++ [star]) ++ [slash]) in E by (cbn [app]; rewrite <- app_assoc; reflexivity).
    apply TL in E. discriminate.
  - apply (TL [slash; star] slash) in E. discriminate.
Qed.
Lemma text_lone u w v : no_lone_cr (u ++ w ++ v) -> (forall z, w <> z ++ [13]) -> no_lone_cr w.
Proof.
  intros L E pre post ->. apply lone_suffix in L. destruct (L pre (post ++ v)) as (post' & P); [rewrite <- app_assoc; reflexivity|].
  destruct post as [|x post]; [destruct (E pre); reflexivity|]. cbn [app] in P. injection P as -> _. eauto.
Qed.
Lemma render_lone eol l : is_eol eol -> (forall e, In e l -> no_lone_cr (ttext (e_tok e))) -> no_lone_cr (render eol l).
Proof.
  intros EO. induction l as [|e l IH]; intro T; [apply lone_none; constructor|].
  unfold render. cbn [flat_map]. rewrite <- app_assoc. apply lone_app; [apply white_lone, EO|]. apply lone_app; [apply T; left; reflexivity|].
  apply IH. intros e' I. apply T. right. exact I.
Qed.

(** ** One formatting run *)
Lemma run eol s p items tree : reading s p items tree -> no_lone_cr s -> is_eol eol ->
  pretty_print eol p = Ok (render eol (reference tree items)) /\
  exists p' items' tree', reading (render eol (reference tree items) ++ eol) p' items' tree' /\ no_lone_cr (render eol (reference tree items) ++ eol) /\
    p_events p' = p_events p /\ printed 1 (reference tree items) items'.
Proof.
  intros RD NC EO. assert (RD' := RD). destruct RD' as [ACC LX CA LA PT PC BT TK FT].
  destruct (reading_reference eol s p items tree RD) as [LO AR]. set (l := reference tree items) in *.
  destruct (C23_reparse eol s p eol ACC NC EO (or_intror eq_refl)) as (out & p' & PP & ACC' & EV & _).
  pose proof (lo_text _ _ _ _ LO) as PL. assert (out = render eol l) as -> by congruence.
  split; [exact PL|]. destruct (reading_of _ _ ACC') as (items' & tree' & RD'). exists p', items', tree'. split; [exact RD'|].
  assert (forall e, In e l -> In (e_tok e) items) as SUB.
  { intros e I. eapply drops_in; [eapply arranged_drops; exact AR|]. apply in_map. exact I. }
  pose proof (lexes_lexemes _ _ LX) as LM. rewrite Forall_forall in LM.
  split; [|split; [exact EV|]].
  - apply lone_app; [|destruct (white_breaks eol (WLine false 0) EO) as [_ _]; pose proof (white_lone eol (WLine false 0) EO) as WL; cbn [white_text times app] in WL; rewrite ?app_nil_r in WL; exact WL].
    apply render_lone; [exact EO|]. intros e I. apply SUB in I.
    destruct (fwd_in _ _ _ (laid_whole _ _ LA) _ I) as (u & v & -> & _). eapply text_lone; [exact NC|]. eapply lexeme_end. apply LM. exact I.
  - assert (lexes (render eol l ++ eol) (map (fun e => item_of (e_tok e)) l)) as RL.
    { destruct (eol_tail eol eol EO (or_intror eq_refl)) as [T1 T2]. apply relex; auto.
      - apply Forall_forall. intros e I. apply LM. auto.
      - eapply layout_apt; eauto. }
    destruct (lex_complete _ _ RL) as (its & LE & ME & LA').
    { intros w I. apply CA. apply in_map_iff in I as (e & E & I). rewrite <- E. apply in_map. auto. }
    destruct RD' as [_ LX' CA' LA2 PT' PC' _ _ _].
    assert (its = items') as ->.
    { destruct ACC' as [PA _]. apply parse_inv in PA as (errs & perrs & L1 & _). rewrite LE in L1. apply ok_same in L1. apply (items_unique (render eol l ++ eol)); congruence. }
    change 1 with (1 + newlines []). eapply fwd_printed; [exact EO|apply laid_whole; exact LA2|eapply laid_ends; exact LA2|exact ME|].
    apply Forall_forall. intros e I. eauto.
Qed.

(** ** The token of the second text for each of the first *)
Definition same_sort (a b : token) : bool := (tidx a =? tidx b) && tkind_eqb (tkind_of a) (tkind_of b) && Bool.eqb (tall a) (tall b).
Definition partner (l : list (token * token)) (t : token) : token :=
  match find (fun x => same_sort (fst x) t) l with Some x => snd x | None => t end.
Definition paired (x : token * token) : Prop :=
  tkind_of (snd x) = tkind_of (fst x) /\ tall (snd x) = tall (fst x) /\ (tkind_of (fst x) = TWithin -> (0 <? tidx (snd x)) = (0 <? tidx (fst x))).
Lemma partner_relined l : Forall paired l -> relined (partner l).
Proof.
  intro F. rewrite Forall_forall in F.
  assert (forall t, partner l t = t \/ exists x, paired x /\ partner l t = snd x /\ tidx (fst x) = tidx t /\ tkind_of (fst x) = tkind_of t /\ tall (fst x) = tall t) as K.
  { intro t. unfold partner. destruct (find _ l) as [x|] eqn:E; [|auto]. right. exists x. apply find_some in E as [I S]. unfold same_sort in S.
    apply andb_true_iff in S as [S S3]. apply andb_true_iff in S as [S1 S2]. apply N.eqb_eq in S1. apply tkind_eqb_eq in S2. apply Bool.eqb_prop in S3. auto. }
  split; intro t; destruct (K t) as [E|(x & (P1 & P2 & P3) & E & X1 & X2 & X3)]; rewrite E; try congruence.
  intro W. rewrite P3, X1; congruence.
Qed.
Lemma partner_maps l : StronglySorted before (map fst l) -> map (partner l) (map fst l) = map snd l.
Proof.
  intro S. assert (forall x, In x l -> partner l (fst x) = snd x) as K; [|rewrite map_map; apply map_ext_in; exact K].
  intros x I. unfold partner. induction l as [|y l IH]; [destruct I|]. cbn [map] in S. apply StronglySorted_inv in S as [S F]. cbn [find].
  destruct I as [->|I].
  - unfold same_sort. rewrite N.eqb_refl, tkind_eqb_refl, Bool.eqb_reflx. reflexivity.
  - rewrite Forall_forall in F. assert (before (fst y) (fst x)) as B by (apply F, in_map, I). unfold before in B.
    assert (same_sort (fst y) (fst x) = false) as ->; [|auto]. unfold same_sort. destruct (N.eqb_spec (tidx (fst y)) (tidx (fst x))); [lia|reflexivity].
Qed.
Lemma sorted_filter f l : StronglySorted before l -> StronglySorted before (filter f l).
Proof.
  induction 1 as [|x l S IH F]; [constructor|]. cbn [filter]. destruct (f x); [|exact IH]. constructor; [exact IH|].
  rewrite Forall_forall in *. intros y I. apply filter_In in I as [I _]. auto.
Qed.
Lemma tall_height t : line (tend t) = line (tstart t) + height t -> tall t = (0 <? height t).
Proof. unfold tall. intros ->. destruct (N.ltb_spec (line (tstart t)) (line (tstart t) + height t)), (N.ltb_spec 0 (height t)); lia || reflexivity. Qed.

Lemma pairing a : forall b, map item_of a = map item_of b -> StronglySorted before a -> StronglySorted before b ->
  Forall (fun t => line (tend t) = line (tstart t) + height t) a -> Forall (fun t => line (tend t) = line (tstart t) + height t) b ->
  match a, b with t :: _, t' :: _ => tkind_of t = TWithin -> (0 <? tidx t') = (0 <? tidx t) | _, _ => True end ->
  Forall paired (combine a b).
Proof.
  assert (forall a b, map item_of a = map item_of b ->
    Forall (fun t => line (tend t) = line (tstart t) + height t) a -> Forall (fun t => line (tend t) = line (tstart t) + height t) b ->
    (forall t, In t a -> 0 < tidx t) -> (forall t, In t b -> 0 < tidx t) -> Forall paired (combine a b)) as K.
  { clear. induction a as [|t a IH]; intros [|t' b] M EA EB NA NB; try discriminate; [constructor|]. cbn [map] in M.
    assert (item_of t = item_of t') as I by congruence. apply (f_equal (@tl _)) in M. inversion EA; inversion EB; subst. unfold item_of in I. injection I as I1 I2.
    constructor; [|apply IH; auto; intros; [apply NA|apply NB]; right; auto].
    split; [cbn [fst snd]; auto|]. cbn [fst snd]. split; [rewrite !tall_height by auto; unfold height; rewrite I2; reflexivity|].
    intros _. pose proof (NA t (or_introl eq_refl)). pose proof (NB t' (or_introl eq_refl)).
    destruct (N.ltb_spec 0 (tidx t)), (N.ltb_spec 0 (tidx t')); lia || reflexivity. }
  intros b M SA SB EA EB L. destruct a as [|t a], b as [|t' b]; try discriminate; [constructor|]. cbn [map] in M.
  assert (item_of t = item_of t') as I by congruence. apply (f_equal (@tl _)) in M. inversion EA; inversion EB; subst. unfold item_of in I. injection I as I1 I2.
  apply StronglySorted_inv in SA as [_ FA]. apply StronglySorted_inv in SB as [_ FB]. rewrite Forall_forall in FA, FB.
  constructor.
  - split; [cbn [fst snd]; auto|]. cbn [fst snd]. split; [rewrite !tall_height by auto; unfold height; rewrite I2; reflexivity|exact L].
  - apply K; auto; intros z J; [apply FA in J|apply FB in J]; unfold before in J; lia.
Qed.

Lemma reading_spots s p items tree : reading s p items tree -> filter plain items = map at_tok (spots KStoredDefinition Beside 0 0 false false tree).
Proof. intros [_ _ _ _ PT _ _ TK _]. rewrite spots_toks. congruence. Qed.

(** What is needed of the reading of a text: also parts of files have it. *)
Record viewed (s : text) (p : parsed) (items : list token) (tree : child) : Prop := mk_viewed {
  vw_laid : laid space s items;
  vw_tokens : p_tokens p = filter plain items;
  vw_comments : p_comments p = filter commentary items;
  vw_tree : build_tree (p_tokens p) (p_events p) = Ok tree;
  vw_toks : toks tree = p_tokens p;
  vw_late : forall x xs, spots KStoredDefinition Beside 0 0 false false tree = x :: xs -> tkind_of (at_tok x) = TWithin -> 0 < tidx (at_tok x) ->
    is_below (at_pos x) = true
}.
Lemma viewed_spots s p items tree : viewed s p items tree -> filter plain items = map at_tok (spots KStoredDefinition Beside 0 0 false false tree).
Proof. intros [_ PT _ _ TK _]. rewrite spots_toks. congruence. Qed.
Lemma reading_viewed s p items tree : reading s p items tree -> viewed s p items tree.
Proof.
  intro RD. split; try apply RD. intros x xs EX W P.
  pose proof (bits_spots tree KStoredDefinition Beside 0 0%nat false false) as BS. rewrite EX in BS. cbn [map is_below] in BS.
  assert (toks tree = at_tok x :: map at_tok xs) as TT by (rewrite <- (spots_toks tree KStoredDefinition Beside 0%nat 0%nat false false), EX; reflexivity).
  destruct (rd_fits _ _ _ _ RD) as (cs0 & ET & [F|F]); [rewrite ET, F in TT; discriminate|].
  pose proof (late_within _ _ _ F TT W P false false _ _ ET) as LW. rewrite <- BS in LW. exact LW.
Qed.
Lemma run_lines_at s p items tree s' p' items' tree' : viewed s p items tree -> viewed s' p' items' tree' ->
  p_events p' = p_events p -> printed 1 (reference tree items) items' ->
  exists g, relined g /\ tree' = tmap g tree /\ lined_from 1 (bits false false tree) (toks tree') /\ length (toks tree) = length (toks tree').
Proof.
  intros RD RD' EV PR. pose proof (viewed_spots _ _ _ _ RD) as SP. unfold reference in PR.
  destruct (weave_lined _ None 1 items 1 items' (laid_downward _ _ (vw_laid _ _ _ _ RD)) SP PR) as [LI MI]. rewrite <- SP in MI.
  pose proof (laid_ends _ _ (vw_laid _ _ _ _ RD)) as E0. pose proof (laid_ends _ _ (vw_laid _ _ _ _ RD')) as E1.
  pose proof (laid_ordered _ _ _ (vw_laid _ _ _ _ RD)) as [S0 _ _]. pose proof (laid_ordered _ _ _ (vw_laid _ _ _ _ RD')) as [S1 _ _].
  pose proof (vw_tokens _ _ _ _ RD) as T0. pose proof (vw_tokens _ _ _ _ RD') as T1.
  assert (length (filter plain items) = length (filter plain items')) as LEN by (apply (f_equal (@length _)) in MI; rewrite !map_length in MI; auto).
  assert (map fst (combine (filter plain items) (filter plain items')) = filter plain items /\ map snd (combine (filter plain items) (filter plain items')) = filter plain items') as [C1 C2].
  { revert LEN. generalize (filter plain items) as a, (filter plain items') as b. induction a as [|x a IH]; intros [|y b] LN; try discriminate; [auto|].
    cbn [combine map fst snd]. destruct (IH b) as [-> ->]; auto. }
  exists (partner (combine (filter plain items) (filter plain items'))).
  set (g := partner _).
  assert (map g (filter plain items) = filter plain items') as MG.
  { pose proof (partner_maps (combine (filter plain items) (filter plain items'))) as PM. rewrite C1, C2 in PM. apply PM, sorted_filter, S0. }
  split; [|split; [|split]].
  - apply partner_relined, pairing; auto using sorted_filter, forall_filter.
    destruct (spots KStoredDefinition Beside 0 0 false false tree) as [|x xs] eqn:EX; [rewrite SP; exact I|].
    destruct (group_of items x xs SP) as (cs & r & EI & FC & CX & FR).
    destruct (printed_group None 1 items x xs 1 items' cs r (laid_downward _ _ (vw_laid _ _ _ _ RD)) EI FC CX PR) as (cs' & t' & r' & EI' & FC' & CT' & IT & _ & _ & CL & _).
    assert (filter plain items' = t' :: filter plain r') as ->.
    { rewrite EI', filter_app, comments_plain by exact FC'. cbn [app filter]. unfold plain at 1. change (is_comment_kind (tkind_of t')) with (commentary t'). rewrite CT'. reflexivity. }
    rewrite SP. cbn [map]. intro W.
    pose proof (laid_index _ _ (vw_laid _ _ _ _ RD) _ _ _ EI) as I0. pose proof (laid_index _ _ (vw_laid _ _ _ _ RD') _ _ _ EI') as I1. rewrite I0, I1.
    destruct (N.ltb_spec 0 (N.of_nat (length cs))) as [P|P].
    + assert (is_below (at_pos x) = true) as B.
      { apply (vw_late _ _ _ _ RD x xs EX W). rewrite I0. lia. }
      rewrite B in CL. destruct CL as [_ ->]. apply N.ltb_lt. lia.
    + assert (cs = []) as -> by (destruct cs; [reflexivity|cbn in P; lia]).
      assert (cs' = []) as -> by (destruct (is_below _); destruct CL as [_ CL]; [destruct cs'; [reflexivity|discriminate]|exact CL]). reflexivity.
  - pose proof (vw_tree _ _ _ _ RD') as B'. rewrite T1, <- MG, EV, build_tree_map in B'. rewrite <- T0, (vw_tree _ _ _ _ RD) in B'. cbn [rmap] in B'. apply ok_same in B'. auto.
  - rewrite (vw_toks _ _ _ _ RD'), T1. rewrite (bits_spots tree KStoredDefinition Beside) in LI. exact LI.
  - rewrite (vw_toks _ _ _ _ RD), (vw_toks _ _ _ _ RD'), T0, T1. exact LEN.
Qed.
Lemma run_lines s p items tree s' p' items' tree' : reading s p items tree -> reading s' p' items' tree' ->
  p_events p' = p_events p -> printed 1 (reference tree items) items' ->
  exists g, relined g /\ tree' = tmap g tree /\ lined_from 1 (bits false false tree) (toks tree') /\ length (toks tree) = length (toks tree').
Proof. intros RD RD'. apply (run_lines_at s p items tree s' p' items' tree'); apply reading_viewed; assumption. Qed.

(** ** The second run reaches a fixed point *)
Lemma third_same eol s p items tree s1 p1 items1 tree1 s2 p2 items2 tree2 :
  viewed s p items tree -> viewed s1 p1 items1 tree1 -> viewed s2 p2 items2 tree2 -> (exists k, tree = CTree k []) \/ fits tree ->
  p_events p1 = p_events p -> printed 1 (reference tree items) items1 -> p_events p2 = p_events p1 -> printed 1 (reference tree1 items1) items2 ->
  render eol (reference tree2 items2) = render eol (reference tree1 items1).
Proof.
  intros R0 R1 R2 FT EV1 PR1 EV2 PR2.
  destruct (run_lines_at _ _ _ _ _ _ _ _ R0 R1 EV1 PR1) as (g & G & ET1 & L1 & LEN).
  destruct (run_lines_at _ _ _ _ _ _ _ _ R1 R2 EV2 PR2) as (h & H & ET2 & L2 & _). apply lined_from_lined in L1, L2.
  assert (agree h false tree1) as AG.
  { rewrite ET1. destruct FT as [(k & E)|F].
    - rewrite E. cbn [tmap map]. constructor; [reflexivity|]. intros u d v K. destruct (rev u); discriminate.
    - subst tree1. apply (second_agrees g h G H tree F false false); auto. rewrite ET2 in L2. exact L2. }
  apply alike_render. unfold reference in *.
  eapply weave_stable; [apply (laid_downward _ _ (vw_laid _ _ _ _ R0))|eapply viewed_spots; exact R0|eapply viewed_spots; exact R1|eapply viewed_spots; exact R2| | |exact PR1|exact PR2].
  - rewrite <- !(map_length at_tok), !spots_toks. exact LEN.
  - rewrite ET2. apply agree_spots; auto.
Qed.
Theorem twice_stable eol s p : accepted s p -> no_lone_cr s -> is_eol eol ->
  exists p1 p2 o1 o2, pretty_print eol p = Ok o1 /\ accepted (o1 ++ eol) p1 /\
    pretty_print eol p1 = Ok o2 /\ accepted (o2 ++ eol) p2 /\ pretty_print eol p2 = Ok o2.
Proof.
  intros ACC NC EO. destruct (reading_of s p ACC) as (items & tree & R0).
  destruct (run eol _ _ _ _ R0 NC EO) as (P0 & p1 & items1 & tree1 & R1 & NC1 & EV1 & PR1).
  destruct (run eol _ _ _ _ R1 NC1 EO) as (P1 & p2 & items2 & tree2 & R2 & NC2 & EV2 & PR2).
  destruct (run eol _ _ _ _ R2 NC2 EO) as (P2 & _).
  exists p1, p2, (render eol (reference tree items)), (render eol (reference tree1 items1)).
  split; [exact P0|]. split; [apply R1|]. split; [exact P1|]. split; [apply R2|]. rewrite P2. f_equal.
  destruct (rd_fits _ _ _ _ R0) as (cs & E & FT).
  apply (third_same eol _ _ _ _ _ _ _ _ _ _ _ _ (reading_viewed _ _ _ _ R0) (reading_viewed _ _ _ _ R1) (reading_viewed _ _ _ _ R2)); auto.
  destruct FT as [->|F]; [left; exists KStoredDefinition; exact E|right; exact F].
Qed.

(** ** The second run keeps the line breaks of the first *)
Lemma lined_apart bs : forall ln ts, lined_from ln bs ts -> forall i a b, nth_error ts i = Some a -> nth_error ts (S i) = Some b ->
  (line (tend a) < line (tstart b) <-> nth_error bs (S i) = Some true).
Proof.
  induction bs as [|x bs IH]; intros ln [|t ts] L i a b A B; cbn [lined_from] in L; try contradiction; [destruct i; discriminate|].
  destruct L as (_ & _ & L). destruct i as [|i]; [|cbn [nth_error] in A, B |- *; eapply IH; eauto].
  cbn [nth_error] in *. injection A as ->. destruct bs as [|y bs], ts as [|z ts]; cbn [lined_from nth_error] in *; try contradiction; try discriminate.
  injection B as ->. destruct L as (L & _). destruct y; split; intro K; auto; try discriminate; try lia.
Qed.
Lemma grows_nth bs bs' : Forall2 grows bs bs' -> forall i, nth_error bs i = Some true -> nth_error bs' i = Some true.
Proof.
  induction 1 as [|x y bs bs' G _ IH]; intros [|i] E; cbn [nth_error] in *; try discriminate; auto. injection E as ->. rewrite (G eq_refl). reflexivity.
Qed.
