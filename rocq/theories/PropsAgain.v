(** Property C120: formatting parts of files twice. *)
From Verif Require Import ProofBase Tokens Syntax Lexer SpecLex LexInv LexMain LexFacts ParserCore Grammar
  Tree Printer Formatter Lib ParserSem ParserFuel SpecGrammar Regex ParserGrammar ParserTree ParserFacts Recognise PropsParser
  SpecLanguage ParserComplete PropsLanguage
  FmtAbs FmtPlan FmtShape FmtTables FmtSound SpecLayout FmtExec FmtTop FmtFacts FmtRelex FmtNeat SpecNodes FmtTree FmtLists FmtOps
  FmtWrap SpecGaps SpecReference FmtNode FmtReference FmtSame PropsFormat PropsReference FmtBreaks FmtAgree FmtPrinted FmtStable FmtMoved
  FmtConcat SpecLevels FmtLevels SpecLocal FmtLocal SpecEntry FmtEntry PropsEntry SpecAlone PropsAlone.

Lemma partner_kind l : (forall x, In x l -> tkind_of (snd x) = tkind_of (fst x)) -> forall t, tkind_of (partner l t) = tkind_of t.
Proof.
  intros H t. unfold partner. destruct (find _ l) as [x|] eqn:E; [|reflexivity]. apply find_some in E as [I S]. unfold same_sort in S.
  rewrite !andb_true_iff in S. destruct S as [[_ S] _]. apply tkind_eqb_eq in S. rewrite (H _ I). exact S.
Qed.

(** A tree with other tokens of the same kinds. *)
Lemma retree k cs ts : conforms false (CTree k cs) -> Sorted.StronglySorted before (leaves (CTree k cs)) ->
  map tkind_of ts = map tkind_of (leaves (CTree k cs)) ->
  exists cs', conforms false (CTree k cs') /\ leaves (CTree k cs') = ts /\ ParserSem.flat (CTree k cs') = ParserSem.flat (CTree k cs).
Proof.
  intros C SO MK. set (l := combine (leaves (CTree k cs)) ts).
  assert (map fst l = leaves (CTree k cs) /\ map snd l = ts /\ forall x, In x l -> tkind_of (snd x) = tkind_of (fst x)) as (L1 & L2 & L3).
  { subst l. revert MK. generalize (leaves (CTree k cs)) as a. revert ts. clear. induction ts as [|t ts IH]; intros [|x a] MK; try discriminate.
    - cbn. tauto.
    - cbn [map] in MK. destruct (IH a) as (A & B & D); [congruence|]. cbn [combine map fst snd]. rewrite A, B. repeat split. intros y [<-|Y]; [cbn [fst snd]; congruence|auto]. }
  exists (map (tmap (partner l)) cs). change (CTree k (map (tmap (partner l)) cs)) with (tmap (partner l) (CTree k cs)).
  pose proof (partner_kind l L3) as PK. split; [apply conforms_tmap; auto|]. split; [|apply flat_tmap; exact PK].
  rewrite leaves_tmap, <- L1, partner_maps by (rewrite L1; exact SO). exact L2.
Qed.

(** ** One run *)
Lemma run_part eol k s p cs : read_whole k s p cs -> ~ In k edged -> k <> KModification -> p_tokens p <> [] -> no_lone_cr s -> is_eol eol ->
  let tree := prune (CTree k cs) in
  exists items, viewed s p items tree /\ fits tree /\ pretty_print eol p = Ok (render eol (reference tree items)) /\
    exists p' cs' items', read_whole k (render eol (reference tree items) ++ eol) p' cs' /\ no_lone_cr (render eol (reference tree items) ++ eol) /\
      p_tokens p' <> [] /\ p_events p' = p_events p /\
      laid space (render eol (reference tree items) ++ eol) items' /\ p_tokens p' = filter plain items' /\ p_comments p' = filter commentary items' /\
      printed 1 (reference tree items) items'.
Proof.
  intros RW NI NM NT NC EO tree.
  destruct (part_reference eol k s p cs RW NI NM NT) as (items & BT & LX & CA & LA & PT & PC & PP & AR). exists items.
  assert (RW' := RW). destruct RW' as (HP & Z & C & LV & EV).
  assert (exists ks, prune (CTree k cs) = CTree k ks) as [ks EK] by (rewrite prune_tree; eauto).
  pose proof (leaves_prune (CTree k cs)) as LP. rewrite LV in LP.
  assert (reference_at k (prune (CTree k cs)) items = reference tree items) as RE by (unfold tree; rewrite EK; reflexivity).
  rewrite RE in PP, AR.
  assert (fits tree) as FT.
  { unfold tree. pose proof (prune_fits _ C) as F. rewrite EK in *. destruct ks; [|exact F]. exfalso. apply NT. rewrite <- LP. reflexivity. }
  assert (toks tree = p_tokens p) as TK by (unfold tree; rewrite toks_leaves; exact LP).
  split.
  { split; auto. intros x xs EX W P. pose proof (bits_spots tree KStoredDefinition Beside 0 0%nat false false) as BS. rewrite EX in BS. cbn [map FmtBreaks.is_below] in BS.
    assert (toks tree = at_tok x :: map at_tok xs) as TT by (rewrite <- (spots_toks tree KStoredDefinition Beside 0%nat 0%nat false false), EX; reflexivity).
    pose proof (late_within _ _ _ FT TT W P false false _ _ EK) as LW. rewrite <- BS in LW. exact LW. }
  split; [exact FT|]. split; [exact PP|].
  set (l := reference tree items) in *.
  assert (forall e, In e l -> In (e_tok e) items) as SUB.
  { intros e I. eapply drops_in; [eapply arranged_drops; exact AR|]. apply in_map. exact I. }
  pose proof (PropsFormat.lexes_lexemes _ _ LX) as LM. rewrite Forall_forall in LM.
  assert (lexes (render eol l ++ eol) (map (fun e => item_of (e_tok e)) l)) as RL.
  { destruct (eol_tail eol eol EO (or_intror eq_refl)) as [T1 T2]. apply relex; auto.
    - apply Forall_forall. intros e I. apply LM. auto.
    - eapply part_apt; eauto. }
  destruct (lex_complete _ _ RL) as (its & LE & ME & LA').
  { intros w I. apply CA. apply in_map_iff in I as (e & E & I). rewrite <- E. apply in_map. auto. }
  destruct (items_filter l its) as [I1 _]; [eapply arranged_ruled; exact AR|exact ME|].
  rewrite code_tokens_codes, (arranged_codes _ _ _ _ _ _ AR), (part_codes k cs _ eq_refl), LV in I1.
  assert (map tkind_of (filter plain its) = map tkind_of (p_tokens p)) as MK.
  { apply (f_equal (map fst)) in I1. rewrite !map_map in I1. exact I1. }
  destruct (parse_inv _ _ _ HP) as (errs & perrs & _ & P1 & EE). rewrite Z in EE. symmetry in EE. apply app_eq_nil in EE as [-> ->].
  pose proof (parse_bare (filter plain its) (p_tokens p) k MK) as PB. rewrite P1 in PB.
  destruct (parse_events (filter plain its) k) as [[evs er]| |] eqn:PE; try contradiction.
  destruct PB as [-> EM]. destruct er; [|discriminate].
  destruct (retree k cs (filter plain its) C) as (cs' & C' & LV' & FL').
  { rewrite LV, PT. apply sorted_filter. apply (laid_ordered _ _ _ LA). }
  { rewrite LV. exact MK. }
  exists (mkParsed (filter plain its) (filter commentary its) (p_events p) []), cs', its. cbn [p_tokens p_events p_comments].
  split. { split; [unfold parse; rewrite LE; cbn [bind]; rewrite PE; reflexivity|]. split; [reflexivity|]. split; [exact C'|]. split; [exact LV'|]. rewrite FL'. exact EV. }
  split.
  { apply lone_app; [|destruct (white_breaks eol (WLine false 0) EO) as [_ _]; pose proof (white_lone eol (WLine false 0) EO) as WL; cbn [white_text times app] in WL; rewrite ?app_nil_r in WL; exact WL].
    apply render_lone; [exact EO|]. intros e I. apply SUB in I.
    destruct (fwd_in _ _ _ (laid_whole _ _ LA) _ I) as (u & v & -> & _). eapply text_lone; [exact NC|]. eapply lexeme_end. apply LM. exact I. }
  split. { intro E. rewrite E in MK. destruct (p_tokens p); [contradiction|discriminate]. }
  split; [reflexivity|]. split; [exact LA'|]. split; [reflexivity|]. split; [reflexivity|].
  change 1 with (1 + newlines []). eapply fwd_printed; [exact EO|apply laid_whole; exact LA'|eapply laid_ends; exact LA'|exact ME|].
  apply Forall_forall. intros e I. eauto.
Qed.

(** ** C120: formatting twice reaches a fixed point *)
Theorem C120_twice : forall eol k s p cs,
  read_whole k s p cs -> ~ In k edged -> k <> KModification -> p_tokens p <> [] -> no_lone_cr s -> is_eol eol ->
  exists p1 p2 o1 o2, pretty_print eol p = Ok o1 /\
    parse (o1 ++ eol) k = Ok p1 /\ p_errors p1 = [] /\ pretty_print eol p1 = Ok o2 /\
    parse (o2 ++ eol) k = Ok p2 /\ p_errors p2 = [] /\ pretty_print eol p2 = Ok o2.
Proof.
  intros eol k s p cs RW NI NM NT NC EO.
  destruct (run_part eol k s p cs RW NI NM NT NC EO) as (items & V0 & F0 & P0 & p1 & cs1 & i1 & RW1 & NC1 & NT1 & EV1 & L1 & T1 & C1 & PR1).
  destruct (run_part eol k _ p1 cs1 RW1 NI NM NT1 NC1 EO) as (items1 & V1 & F1 & P1 & p2 & cs2 & i2 & RW2 & NC2 & NT2 & EV2 & L2 & T2 & C2 & PR2).
  destruct (run_part eol k _ p2 cs2 RW2 NI NM NT2 NC2 EO) as (items2 & V2 & F2 & P2 & _).
  assert (i1 = items1) as -> by (apply (items_unique _ _ _ L1 (vw_laid _ _ _ _ V1)); [rewrite <- T1; apply V1|rewrite <- C1; apply V1]).
  assert (i2 = items2) as -> by (apply (items_unique _ _ _ L2 (vw_laid _ _ _ _ V2)); [rewrite <- T2; apply V2|rewrite <- C2; apply V2]).
  exists p1, p2. eexists. eexists. split; [exact P0|]. split; [apply RW1|]. split; [apply RW1|]. split; [exact P1|]. split; [apply RW2|]. split; [apply RW2|].
  rewrite P2. f_equal. exact (third_same eol _ _ _ _ _ _ _ _ _ _ _ _ V0 V1 V2 (or_intror F0) EV1 PR1 EV2 PR2).
Qed.
Print Assumptions C120_twice.

(** Here the second run changes something, and the third does not. *)
Definition C120_source : text := str "Real a ""d"", b".
Definition C120_first : text := lines ["Real a"; "  ""d"", b"]%string.
Definition C120_second : text := lines ["Real"; "  a"; "    ""d"","; "  b"]%string.
Example C120_applies :
  shown KComponentClause C120_source C120_first /\ shown KComponentClause (C120_first ++ lf) C120_second /\
  shown KComponentClause (C120_second ++ lf) C120_second /\ no_lone_cr C120_source.
Proof. split; [show|]. split; [show|]. split; [show|]. apply no_cr. reflexivity. Qed.
