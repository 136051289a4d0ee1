(** Property C119: white space in formatted parts of files. *)
From Verif Require Import ProofBase Tokens Syntax Lexer SpecLex LexInv LexMain LexFacts ParserCore Grammar
  Tree Printer Formatter Lib ParserSem SpecGrammar Regex ParserGrammar ParserTree Recognise PropsParser
  FmtAbs FmtPlan FmtShape FmtTables FmtSound SpecLayout FmtExec FmtTop FmtFacts FmtRelex FmtNeat PropsFormat SpecEntry FmtEntry PropsEntry.

Lemma item_start s items t : lexes s (map item_of items) -> In t items -> exists c b, ttext t = c :: b /\ ~ space c.
Proof.
  intros LX I. apply (lexeme_starts (tkind_of t)). revert s LX. induction items as [|y items IH]; intros s LX; [destruct I|].
  cbn [map] in LX. apply lexes_inv in LX. unfold item_of at 1 in LX. destruct LX as (sp & t' & _ & _ & X & _ & L). destruct I as [<-|I]; eauto.
Qed.

Lemma arranged_last A p ln items ds l : arranged A p ln items ds l -> forall u b, map snd ds = u ++ [b] ->
  exists l0 e, l = l0 ++ [e] /\ e_tok e = b.
Proof.
  induction 1 as [p ln cs C|p ln cs fn t items ds l C T AA R IH|p ln cs fn t items ds l C T AA R IH
                 |p ln ins cs fn t b n items ds l first N C T I1 I2 AA R IH]; intros u z E; cbn [map] in E.
  - destruct u; discriminate.
  - destruct u as [|y u]; cbn [app] in E; injection E as <- E.
    + destruct ds; [|discriminate]. inversion R; subst. eexists [], _. split; reflexivity.
    + destruct (IH _ _ E) as (l0 & e & -> & X). exists (mkE WNone (Some fn) t :: l0), e. auto.
  - destruct u as [|y u]; cbn [app] in E; injection E as <- E.
    + destruct ds; [|discriminate]. inversion R; subst. eexists [], _. split; reflexivity.
    + destruct (IH _ _ E) as (l0 & e & -> & X). exists (mkE WSpace (Some fn) t :: l0), e. auto.
  - destruct (break_shape first ins b n ln cs fn t) as (q & EQ & _). rewrite app_assoc, EQ.
    destruct u as [|y u]; cbn [app] in E; injection E as <- E.
    + destruct ds; [|discriminate]. inversion R; subst. rewrite app_nil_r. eexists q, _. split; reflexivity.
    + destruct (IH _ _ E) as (l0 & e & -> & X). rewrite app_assoc. eauto.
Qed.

(** No spaces at the end of a line and no two blank lines in a row, except inside of comments and strings; nothing comes
    after the last token. *)
Theorem C119_clean : forall eol k s p cs,
  read_whole k s p cs -> ~ In k edged -> p_tokens p <> [] -> is_eol eol ->
  exists l, pretty_print eol p = Ok (render eol l) /\ code_tokens l = p_tokens p /\
    (forall u v, render eol l = u ++ [32] ++ eol ++ v -> in_item eol l u) /\
    (forall u sp v, Forall space sp -> 2 < newlines sp -> render eol l = u ++ sp ++ v -> in_item eol l u) /\
    (forall u b, p_tokens p = u ++ [b] -> exists v, render eol l = v ++ ttext b) /\
    (forall a u, p_tokens p = a :: u -> exists w v, (w = [] \/ k = KModification /\ w = [32]) /\ render eol l = w ++ ttext a ++ v).
Proof.
  intros eol k s p cs RW NI NT EO.
  destruct (part_layout eol k s p cs RW NT (snug_unless_edged k NI)) as (items & l & LX & _ & LA & X4 & _ & PP & AR & _).
  assert (forall e, In e l -> exists c b, ttext (e_tok e) = c :: b /\ ~ space c) as ST.
  { intros e I. apply (item_start s items); auto. eapply drops_in; [eapply arranged_drops; exact AR|]. apply in_map. exact I. }
  assert (map snd (dleaves k (prune (CTree k cs))) = p_tokens p) as DS.
  { rewrite (part_codes k cs _ eq_refl). apply RW. }
  exists l. split; [exact PP|]. split; [rewrite code_tokens_codes, (arranged_codes _ _ _ _ _ _ AR); exact DS|]. split; [|split; [|split]].
  - intros u v E.
    destruct (place eol l u ([32] ++ eol ++ v) E) as [I|(l1 & e & l2 & w1 & w2 & -> & W & NE & -> & V)]; auto; [discriminate|].
    exfalso. destruct w2 as [|c w2]; [contradiction|]. cbn [app] in V. inversion V as [[VC VT]]. subst c.
    destruct (ST e) as (c & b & ET & NS); [apply in_or_app; right; left; reflexivity|].
    pose proof (white_tail eol _ _ _ EO W) as T. destruct w2 as [|d w2].
    + cbn [app] in VT. rewrite ET in VT. apply NS. pose proof space_some as (S1 & S2 & S3).
      destruct EO as [->| ->]; cbn [app] in VT; inversion VT; subst; auto.
    + apply Forall_inv in T. subst d. destruct EO as [->| ->]; cbn [app] in VT; inversion VT.
  - intros u sp v FS NL E.
    destruct (place eol l u (sp ++ v) E) as [I|(l1 & e & l2 & w1 & w2 & -> & W & NE & -> & V)]; auto.
    + destruct sp; [cbn in NL; lia|discriminate].
    + exfalso. destruct (ST e) as (c & b & ET & NS); [apply in_or_app; right; left; reflexivity|].
      destruct (spaces_within sp w2 (ttext (e_tok e) ++ render eol l2) v) as [z EZ]; auto.
      { rewrite ET. cbn [app]. eauto. }
      pose proof (white_newlines eol (e_white e) EO) as WN. rewrite W, EZ, !newlines_app in WN. lia.
  - intros u b E. rewrite <- DS in E. destruct (arranged_last _ _ _ _ _ _ AR u b E) as (l0 & e & -> & <-).
    rewrite (render_app eol). cbn [render flat_map]. rewrite app_nil_r, app_assoc. eauto.
  - intros a u E. rewrite <- DS in E. clear - AR E NI.
    assert (forall G x, near k None G x -> G = [] \/ k = KModification /\ G = [GS]) as NG.
    { intros G x J. unfold near in J. destruct k; try (vm_compute in J; intuition congruence); exfalso; apply NI; unfold edged; simpl; tauto. }
    revert AR E. generalize (dleaves k (prune (CTree k cs))). intros ds AR E.
    inversion AR as [? ? ? C|? ? ? fn t its ds' l' C T AA R|? ? ? fn t its ds' l' C T AA R|? ? ins ? fn t bb n its ds' l' first N C T I1 I2 AA R]; subst.
    + discriminate.
    + cbn [map snd] in E. injection E as -> _. exists [], (render eol l'). split; [left; reflexivity|]. reflexivity.
    + cbn [map snd] in E. injection E as -> _. exists [32], (render eol l').
      apply NG in AA as [AA|[-> _]]; [discriminate|]. split; [right; auto|reflexivity].
    + apply NG in AA as [AA|[_ AA]]; discriminate.
Qed.
Print Assumptions C119_clean.

Example C119_applies :
  shown KClassDefinition (lines ["model M  "; ""; ""; "Real  x  "; "; // c  "; ""; ""; ""; "Real y;  "; "end M  "]%string)
    (lines ["model M"; ""; "  Real x; // c  "; ""; "  Real y;"; ""; "end M"]%string).
Proof. show. Qed.
