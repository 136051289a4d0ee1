(** Property C84: of line breaks in the source, the layout tells apart none, one, and more than one. *)
From Coq Require Import Sorted.
From Verif Require Import ProofBase Tokens Syntax Lexer SpecLex LexInv LexMain LexFacts ParserCore Grammar
  Tree Printer Formatter Lib ParserSem ParserFuel SpecGrammar Regex ParserGrammar ParserTree ParserFacts Recognise PropsParser
  SpecLanguage ParserComplete PropsLanguage
  FmtAbs FmtPlan FmtShape FmtTables FmtSound SpecLayout FmtExec FmtTop FmtFacts FmtRelex FmtNeat SpecNodes FmtTree FmtLists FmtOps
  FmtWrap SpecGaps SpecReference FmtNode FmtReference FmtSame PropsFormat PropsReference PropsSame FmtBreaks FmtAgree FmtPrinted FmtStable
  FmtMoved FmtConcat SpecTold PropsModular FmtOnce FmtNear.

Lemma revised_items s s' : revised s s' -> exists its its', lexes s its /\ lexes s' its' /\
  forall c c' n items items', set_out c n items s -> set_out c' n items' s' ->
    map item_of items = its -> map item_of items' = its' -> near (1 + newlines c) (1 + newlines c') items items'.
Proof.
  induction 1 as [g g' S S'|g g' k w w' r r' S S' NG LX LX' NW FO FO' R IH].
  - exists [], []. split; [|split].
    + clear S'. induction S; [constructor|apply lexes_space; auto].
    + clear S. induction S'; [constructor|apply lexes_space; auto].
    + intros c c' n items items' _ _ E E'. destruct items, items'; try discriminate. constructor.
  - destruct IH as (its & its' & L & L' & IH). exists ((k, w) :: its), ((k, w') :: its').
    assert (forall g its s, Forall space g -> lexes s its -> lexes (g ++ s) its) as SP.
    { clear. intros g its s S L. induction S; [exact L|]. cbn [app]. constructor; auto. }
    split; [apply SP; auto; constructor; auto|]. split; [apply SP; auto; constructor; auto|].
    intros c c' n items items' SO SO' E E'. destruct items as [|t items]; [discriminate|]. destruct items' as [|t' items']; [discriminate|]. cbn [map] in E, E'.
    assert (item_of t = (k, w)) as T1 by congruence. assert (item_of t' = (k, w')) as T2 by congruence.
    apply (f_equal (@List.tl _)) in E, E'. cbn [List.tl] in E, E'. unfold item_of in T1, T2.
    assert (tkind_of t = k /\ ttext t = w) as [K1 W1] by (split; congruence). assert (tkind_of t' = k /\ ttext t' = w') as [K2 W2] by (split; congruence).
    apply set_out_inv in SO as (sp & r2 & EQ & FS & A1 & _ & A2 & _ & A3 & SO). apply set_out_inv in SO' as (sp' & r2' & EQ' & FS' & B1 & _ & B2 & _ & B3 & SO').
    rewrite W1 in *. rewrite W2 in *.
    pose proof (lexeme_starts _ _ LX) as (x & y & EX & NX). pose proof (lexeme_starts _ _ LX') as (x' & y' & EX' & NX').
    apply spaces_prefix in EQ as [-> EQ]; auto; try (rewrite EX; cbn [app]; eauto). apply app_inv_head in EQ. subst r2.
    apply spaces_prefix in EQ' as [-> EQ']; auto; try (rewrite EX'; cbn [app]; eauto). apply app_inv_head in EQ'. subst r2'.
    specialize (IH (c ++ sp ++ w) (c' ++ sp' ++ w') (Datatypes.S n) items items' SO SO' E E').
    apply coords_line in A1, A2, B1, B2. rewrite <- A2, <- B2 in IH. rewrite !newlines_app in *.
    unfold alike_gaps in NG, NW.
    constructor; auto; try congruence; try lia; unfold close; rewrite ?A1, ?A2, ?B1, ?B2.
    + replace (1 + (newlines c + newlines sp) - (1 + newlines c)) with (newlines sp) by lia.
      replace (1 + (newlines c' + newlines sp') - (1 + newlines c')) with (newlines sp') by lia. exact NG.
    + match goal with |- N.min 2 ?a = N.min 2 ?b => replace a with (newlines w) by lia; replace b with (newlines w') by lia end. exact NW.
Qed.

Lemma near_kinds ln ln' l l' : near ln ln' l l' -> map tkind_of l = map tkind_of l'.
Proof. intro N. apply near_both in N. induction N as [|t t' l l' [_ K] _ IH]; [reflexivity|]. cbn [map]. congruence. Qed.
Lemma near_plain ln ln' l l' : near ln ln' l l' -> map tkind_of (filter plain l) = map tkind_of (filter plain l').
Proof.
  intro N. apply near_both in N. induction N as [|t t' l l' [_ K] _ IH]; [reflexivity|]. cbn [filter].
  replace (plain t') with (plain t) by (unfold plain; rewrite K; reflexivity). destruct (plain t); cbn [map]; congruence.
Qed.

Lemma parse_lexed s entry p : parse s entry = Ok p -> forall toks coms errs, lex s = Ok (toks, coms, errs) -> p_tokens p = toks /\ p_comments p = coms.
Proof.
  intros P toks coms errs LE. unfold parse in P. rewrite LE in P. cbn [bind] in P. destruct (parse_events toks entry) as [[ev er]|x|]; cbn [bind] in P; try discriminate.
  injection P as <-. split; reflexivity.
Qed.

(** ** Sources with the same items *)
Lemma revised_core s s' p p' : accepted s p -> revised s s' -> parse s' KStoredDefinition = Ok p' ->
  accepted s' p' /\ exists items items' tree tree', reading s p items tree /\ reading s' p' items' tree' /\
    Forall2 kept (reference tree items) (reference tree' items').
Proof.
  intros ACC RT P'. destruct (revised_items _ _ RT) as (its & its' & LX & LX' & MV).
  destruct (reading_of s p ACC) as (items & tree & R). assert (ACC' := ACC). destruct ACC' as [P Z].
  destruct (lex s) as [[[toks coms] errs]|x|] eqn:LE; [|unfold parse in P; rewrite LE in P; discriminate|unfold parse in P; rewrite LE in P; discriminate].
  destruct (lex s') as [[[toks' coms'] errs']|x|] eqn:LE'; [|unfold parse in P'; rewrite LE' in P'; discriminate|unfold parse in P'; rewrite LE' in P'; discriminate].
  destruct (lexed_items _ _ _ _ _ LX LE) as (i0 & M0 & L0 & T0 & C0 & ->). destruct (lexed_items _ _ _ _ _ LX' LE') as (i1 & M1 & L1 & T1 & C1 & ->).
  assert (near 1 1 i0 i1) as NI by (apply (MV [] [] 0%nat); auto using laid_set).
  destruct (parse_lexed _ _ _ P _ _ _ LE) as [E1 E2]. destruct (parse_lexed _ _ _ P' _ _ _ LE') as [E1' E2'].
  assert (items = i0) as ->.
  { apply (items_unique s); [apply R|exact L0| |]; [rewrite <- (rd_tokens _ _ _ _ R)|rewrite <- (rd_comments _ _ _ _ R)]; congruence. }
  destruct (C17_layout_irrelevant s s' KStoredDefinition p p' P P') as (EV & lx & lx' & sy & sy' & X1 & X2 & X3 & X4 & X5).
  { rewrite E1, E1', T0, T1. eapply near_plain, NI. }
  assert (accepted s' p') as ACC1.
  { split; [exact P'|]. rewrite X4. rewrite Z in X3. symmetry in X3. apply app_eq_nil in X3 as [_ ->].
    assert (lx' = []) as -> by congruence. cbn [map] in X5. destruct sy'; [reflexivity|discriminate]. }
  split; [exact ACC1|]. destruct (reading_of s' p' ACC1) as (items' & tree' & R').
  assert (items' = i1) as ->.
  { apply (items_unique s'); [apply R'|exact L1| |]; [rewrite <- (rd_tokens _ _ _ _ R')|rewrite <- (rd_comments _ _ _ _ R')]; congruence. }
  exists i0, i1, tree, tree'. split; [exact R|]. split; [exact R'|]. eapply reading_near; eauto.
Qed.

Theorem C84_vertical : forall s s' p p', accepted s p -> revised s s' -> parse s' KStoredDefinition = Ok p' ->
  accepted s' p' /\ exists l l', (forall eol, layout_of eol s p l /\ layout_of eol s' p' l') /\
    Forall2 (fun e e' => e_white e' = e_white e /\ e_rule e' = e_rule e /\
                         tkind_of (e_tok e') = tkind_of (e_tok e) /\ tidx (e_tok e') = tidx (e_tok e)) l l'.
Proof.
  intros s s' p p' ACC RV P'. destruct (revised_core _ _ _ _ ACC RV P') as (ACC' & items & items' & tree & tree' & R & R' & K).
  split; [exact ACC'|]. exists (reference tree items), (reference tree' items'). split; [|exact K].
  intro eol. split; [apply (reading_reference eol _ _ _ _ R)|apply (reading_reference eol _ _ _ _ R')].
Qed.
Print Assumptions C84_vertical.

Lemma relaid_revised s s' : relaid s s' -> revised s s'.
Proof. induction 1; [apply rv_end; auto|apply (rv_item g g' k w w); auto; reflexivity]. Qed.
Lemma relaid_lexes s s' : relaid s s' -> exists its, lexes s its /\ lexes s' its.
Proof.
  assert (forall g its s, Forall space g -> lexes s its -> lexes (g ++ s) its) as SP.
  { clear. intros g its s S L. induction S; [exact L|]. cbn [app]. constructor; auto. }
  induction 1 as [g g' S S'|g g' k w r r' S S' NG LX FO FO' R (its & L & L')].
  - exists []. rewrite <- (app_nil_r g), <- (app_nil_r g'). split; apply SP; auto; constructor.
  - exists ((k, w) :: its). split; apply SP; auto; constructor; auto.
Qed.

Lemma app_parts {A} (a : list A) : forall a' b b', a ++ b = a' ++ b' -> length a = length a' -> b = b'.
Proof. induction a as [|x a IH]; intros [|x' a'] b b' E L; try discriminate; [exact E|]. cbn [app] in E. injection E as _ E. eauto. Qed.

Theorem C84_same : forall s s' eol, relaid s s' -> format_source eol s = format_source eol s'.
Proof.
  intros s s' eol RL. destruct (relaid_lexes _ _ RL) as (its & X & X'). pose proof (relaid_revised _ _ RL) as RV.
  destruct (ascii_decides its) as [CA|CA]; [|unfold format_source, parse; rewrite (lex_crash _ _ X CA), (lex_crash _ _ X' CA); reflexivity].
  destruct (lex_complete _ _ X CA) as (items & L & M & LA). destruct (lex_complete _ _ X' CA) as (items' & L' & M' & LA').
  assert (map tkind_of (filter plain items) = map tkind_of (filter plain items')) as MK.
  { assert (forall l l', map item_of l = map item_of l' -> map tkind_of (filter plain l) = map tkind_of (filter plain l')) as K; [|apply K; congruence].
    clear. induction l as [|t l IH]; intros [|t' l'] E; try discriminate; [reflexivity|]. cbn [map] in E. unfold item_of at 1 3 in E. injection E as K _ E. cbn [filter].
    replace (plain t') with (plain t) by (unfold plain; rewrite K; reflexivity). destruct (plain t); cbn [map]; rewrite (IH l') by exact E; congruence. }
  pose proof (parse_bare _ _ KStoredDefinition MK) as PB.
  destruct (parse s KStoredDefinition) as [p|x|] eqn:P.
  2,3: unfold format_source; rewrite P; unfold parse in *; rewrite L in P; rewrite L'; cbn [bind] in *;
    destruct (parse_events (filter plain items) KStoredDefinition) as [[e er]|y|], (parse_events (filter plain items') KStoredDefinition) as [[e' er']|y'|]; try contradiction; try discriminate; cbn [bind] in *; congruence.
  destruct (parse s' KStoredDefinition) as [p'|x|] eqn:P'.
  2,3: exfalso; unfold parse in *; rewrite L in P; rewrite L' in P'; cbn [bind] in *;
    destruct (parse_events (filter plain items) KStoredDefinition) as [[e er]|y|], (parse_events (filter plain items') KStoredDefinition) as [[e' er']|y'|]; try contradiction; discriminate.
  unfold format_source. rewrite P, P'. cbn [bind].
  assert (map emsg (p_errors p) = map emsg (p_errors p')) as EM.
  { unfold parse in *; rewrite L in P; rewrite L' in P'; cbn [bind] in *.
    destruct (parse_events (filter plain items) KStoredDefinition) as [[e er]|y|], (parse_events (filter plain items') KStoredDefinition) as [[e' er']|y'|]; try contradiction; try discriminate.
    cbn [bind] in *. injection P as <-. injection P' as <-. cbn [p_errors app]. apply PB. }
  destruct (p_errors p) eqn:Z, (p_errors p') eqn:Z'; try discriminate; [|reflexivity].
  destruct (revised_core s s' p p' (conj P Z) RV P') as (ACC' & i0 & i1 & tree & tree' & R & R' & K).
  destruct (reading_reference eol _ _ _ _ R) as [LO AR]. destruct (reading_reference eol _ _ _ _ R') as [LO' AR'].
  rewrite (lo_text _ _ _ _ LO), (lo_text _ _ _ _ LO'). cbn [bind]. do 2 f_equal.
  assert (i0 = items) as ->.
  { apply (items_unique s); [apply R|exact LA| |]; [rewrite <- (rd_tokens _ _ _ _ R)|rewrite <- (rd_comments _ _ _ _ R)]; apply (parse_lexed _ _ _ P _ _ _ L). }
  assert (i1 = items') as ->.
  { apply (items_unique s'); [apply R'|exact LA'| |]; [rewrite <- (rd_tokens _ _ _ _ R')|rewrite <- (rd_comments _ _ _ _ R')]; apply (parse_lexed _ _ _ P' _ _ _ L'). }
  assert (forall e, In e (reference tree items) -> In (e_tok e) items) as SUB.
  { intros e I. eapply drops_in; [eapply arranged_drops; exact AR|]. apply in_map. exact I. }
  assert (forall e, In e (reference tree' items') -> In (e_tok e) items') as SUB'.
  { intros e I. eapply drops_in; [eapply arranged_drops; exact AR'|]. apply in_map. exact I. }
  assert (forall t t', In t items -> In t' items' -> tidx t' = tidx t -> ttext t' = ttext t) as SAME.
  { intros t t' I I' E. apply in_split in I as (a & b & EA). apply in_split in I' as (a' & b' & EB).
    rewrite (laid_index _ _ LA a t b EA), (laid_index _ _ LA' a' t' b' EB) in E. apply Nnat.Nat2N.inj in E.
    assert (map item_of (a ++ t :: b) = map item_of (a' ++ t' :: b')) as ME by congruence. rewrite !map_app in ME. cbn [map] in ME.
    apply app_parts in ME; [|rewrite !map_length; auto]. unfold item_of at 1 3 in ME. congruence. }
  revert K SUB SUB'. clear - SAME. unfold render. induction 1 as [|e e' l l' (W & _ & _ & I) K IH]; intros S S'; [reflexivity|]. cbn [flat_map].
  rewrite W, (SAME (e_tok e) (e_tok e')) by (auto using in_eq). f_equal. apply IH; intros; [apply S|apply S']; right; assumption.
Qed.
Print Assumptions C84_same.

(** The relation [revised] holds exactly for texts with items of the same kinds and such gaps. *)
Lemma near_revised items : forall s s' c c' n items',
  lexes s (map item_of items) -> lexes s' (map item_of items') ->
  set_out c n items s -> set_out c' n items' s' ->
  near (1 + newlines c) (1 + newlines c') items items' -> revised s s' /\ (map item_of items = map item_of items' -> relaid s s').
Proof.
  induction items as [|t items IH]; intros s s' c c' n items' X X' W W' F.
  - inversion F; subst. apply lexes_inv in X. apply lexes_inv in X'. split; [apply rv_end|intros _; apply rl_end]; auto.
  - inversion F as [|? ? ? t' ? items0 I K A A' G B B' H F0]; subst.
    apply lexes_inv in X. cbn [map] in X. unfold item_of at 1 in X.
    destruct X as (sp & r & -> & S & LX & FO & X).
    apply lexes_inv in X'. cbn [map] in X'. unfold item_of at 1 in X'.
    destruct X' as (sp' & r' & -> & S' & LX' & FO' & X').
    pose proof (lexeme_starts _ _ LX) as ST. pose proof (lexeme_starts _ _ LX') as ST'.
    assert (Q : forall (w r : text), (exists c b, w = c :: b /\ ~ space c) -> exists c b, w ++ r = c :: b /\ ~ space c).
    { intros w0 r0 (x & b & -> & NS). exists x, (b ++ r0). auto. }
    apply set_out_inv in W as (g & q & E & SG & A1 & _ & A2 & _ & _ & W1).
    apply spaces_prefix in E as [-> E]; auto. apply app_inv_head in E. subst q.
    apply set_out_inv in W' as (g' & q & E & SG' & B1 & _ & B2 & _ & _ & W1').
    apply spaces_prefix in E as [-> E]; auto. apply app_inv_head in E. subst q.
    apply coords_line in A1, A2, B1, B2.
    destruct (IH _ _ _ _ (Datatypes.S n) _ X X' W1 W1') as [V1 V2]; [congruence|]. rewrite !newlines_app in *.
    assert (alike_gaps g g') as NG.
    { unfold alike_gaps. unfold close in G. rewrite A1, B1 in G.
      replace (1 + (newlines c + newlines g) - (1 + newlines c)) with (newlines g) in G by lia.
      replace (1 + (newlines c' + newlines g') - (1 + newlines c')) with (newlines g') in G by lia. exact G. }
    assert (alike_gaps (ttext t) (ttext t')) as NW.
    { unfold alike_gaps. unfold close in H. rewrite A1, A2, B1, B2 in H. match type of H with N.min 2 ?a = N.min 2 ?b => replace a with (newlines (ttext t)) in H by lia; replace b with (newlines (ttext t')) in H by lia end. exact H. }
    split.
    + rewrite K in LX', FO'. apply (rv_item g g' (tkind_of t)); auto.
    + intro E. cbn [map] in E. unfold item_of at 1 3 in E. injection E as _ E1 E2. rewrite K, <- E1 in FO'. rewrite <- E1. apply (rl_item g g' (tkind_of t)); auto.
Qed.
Theorem C84_revised_iff : forall s s' items items',
  lex s = Ok (filter plain items, filter commentary items, []) -> lex s' = Ok (filter plain items', filter commentary items', []) ->
  StronglySorted before items -> StronglySorted before items' ->
  (revised s s' <-> near 1 1 items items') /\ (relaid s s' <-> near 1 1 items items' /\ map item_of items = map item_of items').
Proof.
  intros s s' items items' L L' SS SS'.
  destruct (lex_sound _ _ _ L) as (i0 & X & CA & LA & T & C). destruct (lex_sound _ _ _ L') as (i1 & X' & CA' & LA' & T' & C').
  assert (items = i0) as ->.
  { apply sorted_same; auto. { destruct (laid_ordered _ _ _ LA); assumption. } intro t. rewrite (split_in t items), (split_in t i0), T, C. reflexivity. }
  assert (items' = i1) as ->.
  { apply sorted_same; auto. { destruct (laid_ordered _ _ _ LA'); assumption. } intro t. rewrite (split_in t items'), (split_in t i1), T', C'. reflexivity. }
  pose proof (near_revised i0 s s' [] [] 0%nat i1 X X' (laid_set _ _ LA) (laid_set _ _ LA')) as NR.
  assert (revised s s' -> near 1 1 i0 i1) as RN.
  { intro R. destruct (revised_items _ _ R) as (its & its' & Y & Y' & MV).
    pose proof (lexes_unique _ _ _ X Y) as E. pose proof (lexes_unique _ _ _ X' Y') as E'.
    apply (MV [] [] 0%nat); auto using laid_set. }
  split; split; auto.
  - apply NR.
  - intro R. split; [apply RN, relaid_revised, R|]. destruct (relaid_lexes _ _ R) as (its & Y & Y').
    rewrite (lexes_unique _ _ _ X Y), (lexes_unique _ _ _ X' Y'). reflexivity.
  - intros [N E]. apply NR; auto.
Qed.
Print Assumptions C84_revised_iff.

(** The items of a text in their order. *)
Definition in_order (ts : list token) : list token :=
  flat_map (fun i => filter (fun t => tidx t =? N.of_nat i) ts) (List.seq 0 (List.length ts)).
Definition items_of (s : text) : list token := match lex s with Ok (t, c, _) => in_order (t ++ c) | _ => [] end.
Fixpoint nearb (ln ln' : N) (l l' : list token) : bool :=
  match l, l' with
  | [], [] => true
  | t :: r, t' :: r' =>
      (tidx t' =? tidx t) && tkind_eqb (tkind_of t') (tkind_of t) &&
      (ln <=? line (tstart t)) && (ln' <=? line (tstart t')) && (N.min 2 (line (tstart t) - ln) =? N.min 2 (line (tstart t') - ln')) &&
      (line (tstart t) <=? line (tend t)) && (line (tstart t') <=? line (tend t')) &&
      (N.min 2 (line (tend t) - line (tstart t)) =? N.min 2 (line (tend t') - line (tstart t'))) && nearb (line (tend t)) (line (tend t')) r r'
  | _, _ => false
  end.
Lemma nearb_near l : forall ln ln' l', nearb ln ln' l l' = true -> near ln ln' l l'.
Proof.
  induction l as [|t l IH]; intros ln ln' [|t' l'] E; cbn [nearb] in E; try discriminate; [constructor|].
  repeat (apply andb_true_iff in E as [E ?]). repeat match goal with
  | H : (_ =? _) = true |- _ => apply N.eqb_eq in H | H : (_ <=? _) = true |- _ => apply N.leb_le in H | H : tkind_eqb _ _ = true |- _ => apply tkind_eqb_eq in H end.
  constructor; auto.
Qed.
Fixpoint sortedb (l : list token) : bool :=
  match l with [] => true | t :: r => forallb (fun u => (tidx t <? tidx u) && (line (tend t) <=? line (tstart u))) r && sortedb r end.
Lemma sortedb_sorted l : sortedb l = true -> StronglySorted before l.
Proof.
  induction l as [|t l IH]; cbn [sortedb]; intro E; constructor; apply andb_true_iff in E as [E1 E2]; auto.
  apply Forall_forall. intros u I. rewrite forallb_forall in E1. apply E1 in I. apply andb_true_iff in I as [I1 I2]. split; [apply N.ltb_lt, I1|apply N.leb_le, I2].
Qed.
Lemma relaid_check s s' : (forall x, lex s = x -> x = Ok (filter plain (items_of s), filter commentary (items_of s), [])) ->
  (forall x, lex s' = x -> x = Ok (filter plain (items_of s'), filter commentary (items_of s'), [])) ->
  sortedb (items_of s) && sortedb (items_of s') && nearb 1 1 (items_of s) (items_of s') = true ->
  revised s s' /\ (map item_of (items_of s) = map item_of (items_of s') -> relaid s s').
Proof.
  intros L L' E. apply andb_true_iff in E as [E E3]. apply andb_true_iff in E as [E1 E2].
  destruct (C84_revised_iff s s' _ _ (L _ eq_refl) (L' _ eq_refl) (sortedb_sorted _ E1) (sortedb_sorted _ E2)) as [A B].
  apply nearb_near in E3. split; [apply A, E3|intro M; apply B; auto].
Qed.
Ltac laid_out := apply relaid_check; [intros x <-; vm_compute; reflexivity|intros x <-; vm_compute; reflexivity|vm_compute; reflexivity|..].

(** A model with more empty lines, inside and between its parts. *)
Definition tight : text := lines
  ["model A // first"; ""; "  Real a(start = 1,"; "    fixed = true); /* one"; ""; "  two */"; "  /* three */"; ""; "equation"; "  a = 1;"; "end A;"]%string.
Definition airy : text := lines
  ["model A // first"; ""; ""; ""; "Real a(start = 1,"; "fixed = true); /* one"; ""; "  two */"; "/* three */"; ""; ""; "equation"; "  a = 1;"; "end A;"; ""; ""]%string.
Definition tight_out : text := lines
  ["model A // first"; ""; "  Real a("; "    start = 1,"; "    fixed = true); /* one"; ""; "  two */"; ""; "/* three */"; ""; "equation"; ""; "  a = 1;"; ""; "end A;"]%string.
Example C84_applies : relaid tight airy /\ formats tight tight_out /\ format_source (str "!") airy = format_source (str "!") tight.
Proof.
  split; [|split; [formatted|]].
  - laid_out. vm_compute. reflexivity.
  - vm_compute. reflexivity.
Qed.

(** Comments, strings and names may also have another spelling: a longer comment here. *)
Definition lofty : text := lines
  ["model Bcd //"; ""; ""; ""; "Integer x(start = 77,"; "fixed = true); /* one"; ""; ""; ""; "  two */"; "/* three */"; ""; ""; "equation"; "  x = 2;"; "end Bcd;"]%string.
Example C84_revised_applies : revised tight lofty /\ formats lofty (lines
  ["model Bcd //"; ""; "  Integer x("; "    start = 77,"; "    fixed = true); /* one"; ""; ""; ""; "  two */"; ""; "/* three */"; ""; "equation"; ""; "  x = 2;"; ""; "end Bcd;"]%string).
Proof.
  split; [|formatted].
  apply relaid_check; [intros x <-; vm_compute; reflexivity|intros x <-; vm_compute; reflexivity|vm_compute; reflexivity].
Qed.
(** None and one, and one and two line breaks are told apart. *)
Example C84_none_one : formats (lines ["model A"; "  Real a(x = 1, y = 2);"; "end A;"]%string)
    (lines ["model A"; ""; "  Real a(x = 1, y = 2);"; ""; "end A;"]%string) /\
  formats (lines ["model A"; "  Real a(x = 1,"; "    y = 2);"; "end A;"]%string)
    (lines ["model A"; ""; "  Real a("; "    x = 1,"; "    y = 2);"; ""; "end A;"]%string).
Proof. split; formatted. Qed.
Example C84_one_two : formats (lines ["model A"; "  Real a;"; "  Real b;"; "end A;"]%string)
    (lines ["model A"; ""; "  Real a;"; "  Real b;"; ""; "end A;"]%string) /\
  formats (lines ["model A"; "  Real a;"; ""; "  Real b;"; "end A;"]%string)
    (lines ["model A"; ""; "  Real a;"; ""; "  Real b;"; ""; "end A;"]%string).
Proof. split; formatted. Qed.
