(** Properties C20-C30, C32: formatting of accepted sources. *)
From Coq Require Import Sorted.
From Verif Require Import ProofBase Tokens Syntax Lexer SpecLex LexInv LexMain LexFacts ParserCore Grammar
  Tree Printer Formatter Lib ParserSem SpecGrammar ParserGrammar ParserTree ParserFacts PropsParser
  FmtAbs FmtPlan FmtSound SpecLayout FmtExec FmtTop FmtFacts FmtRelex FmtNeat.

(** ** C20: formatting an accepted source never crashes. *)
Theorem C20_never_crashes : forall eol s p, accepted s p -> exists out, pretty_print eol p = Ok out.
Proof.
  intros eol s p ACC. destruct (accepted_layout eol s p ACC) as (items & l & LO & _).
  exists (render eol l). apply LO.
Qed.
Print Assumptions C20_never_crashes.

(** The sample has comments of every kind, see [sample_out] for its formatted text. *)
Example C20_applies : formats sample sample_out.
Proof. exact sample_accepted. Qed.

(** ** C21: the code tokens are printed once each, in order. *)
Definition code_tokens (l : layout) : list token :=
  flat_map (fun e => match e_rule e with Some _ => [e_tok e] | None => [] end) l.

Lemma code_tokens_codes l : code_tokens l = map snd (codes l).
Proof.
  unfold code_tokens, codes. induction l as [|e l IH]; auto. cbn [flat_map]. rewrite IH, map_app.
  destruct (e_rule e); reflexivity.
Qed.

Theorem C21_tokens_preserved : forall eol s p, accepted s p ->
  exists l, layout_of eol s p l /\ code_tokens l = p_tokens p /\
    Forall (fun e => e_rule e = None -> comment (e_tok e) /\ In (e_tok e) (p_comments p)) l.
Proof.
  intros eol s p ACC. destruct (accepted_layout eol s p ACC) as (items & l & LO & _ & _ & _ & PT & PC & AR).
  exists l. split; auto. split.
  - rewrite code_tokens_codes. destruct ACC as [H Z].
    destruct (accepted_tree s p H Z) as (cs & its & C & L & E & B & _).
    destruct (lo_tree _ _ _ _ LO) as (tree & BT & ->). assert (tree = prune (CTree KStoredDefinition cs)) as -> by congruence.
    change (owners KStoredDefinition) with (dleaves KStoredDefinition).
    rewrite dleaves_leaves, leaves_prune. exact L.
  - pose proof (lo_rules _ _ _ _ LO) as RU. rewrite Forall_forall in *. intros e I R.
    assert (comment (e_tok e)) as CM by (apply RU; auto). split; auto.
    rewrite PC. apply filter_In. split; [|apply comment_of; exact CM].
    eapply drops_in; [eapply arranged_drops; eauto|]. apply in_map. exact I.
Qed.
Print Assumptions C21_tokens_preserved.

Example C21_applies : exists p, accepted sample p /\ length (p_tokens p) = 50%nat /\ length (p_comments p) = 3%nat.
Proof. eexists. split; [split; vm_compute; reflexivity|]. vm_compute. auto. Qed.

(** ** C24: comments are neither invented nor duplicated nor moved across code. *)
Theorem C24_comments_in_place : forall eol s p, accepted s p ->
  exists items l, laid space s items /\
    p_tokens p = filter plain items /\ p_comments p = filter commentary items /\
    layout_of eol s p l /\ drops comment items (map e_tok l).
Proof.
  intros eol s p ACC. destruct (accepted_layout eol s p ACC) as (items & l & LO & _ & _ & LA & PT & PC & AR).
  exists items, l. repeat split; auto; try apply LO. eapply arranged_drops; eauto.
Qed.
Print Assumptions C24_comments_in_place.

(** The comment in front of [=] is dropped, the others stay. *)
Example C24_applies : formats
  (lines ["model M /* a */"; "/* b */ Real x /* c */ = 1; // d"; "end M;"]%string)
  (lines ["model M /* a */"; ""; "  /* b */"; "  Real x = 1; // d"; ""; "end M;"]%string).
Proof. formatted. Qed.

(** ** C64: formatting invents no characters. *)
Lemma laid_chars gap s items : laid gap s items -> forall t c, In t items -> In c (ttext t) -> In c s.
Proof.
  induction 1 as [|s x items L IH G|s items t L IH]; intros u c IU IC; [destruct IU| |]; apply in_or_app.
  - left. eauto.
  - apply in_app_or in IU as [IU|[<-|[]]]; [left|right]; eauto.
Qed.
Lemma white_chars eol w c : In c (white_text eol w) -> In c eol \/ c = 32.
Proof.
  assert (forall n, In c (times n (str "  ")) -> c = 32) as T.
  { induction n as [|n IH]; cbn [times]; [intros []|]. intro I. apply in_app_or in I as [I|I]; auto. cbn in I. destruct I as [<-|[<-|[]]]; reflexivity. }
  destruct w as [| |b n]; cbn [white_text]; [intros []|intros [<-|[]]; auto|].
  intro I. apply in_app_or in I as [I|I]; [destruct b; [auto|destruct I]|]. apply in_app_or in I as [I|I]; eauto.
Qed.
Theorem C64_no_new_characters : forall eol s p out, accepted s p -> pretty_print eol p = Ok out ->
  forall c, In c out -> In c s \/ In c eol \/ c = 32.
Proof.
  intros eol s p out ACC PP c IC. destruct (C24_comments_in_place eol s p ACC) as (items & l & LA & _ & _ & LO & DR).
  pose proof (lo_text _ _ _ _ LO) as E. rewrite PP in E. injection E as ->.
  unfold render in IC. apply in_flat_map in IC as (e & IE & IC). apply in_app_or in IC as [IC|IC].
  - right. apply (white_chars eol (e_white e)), IC.
  - left. eapply laid_chars; [exact LA| |exact IC]. eapply drops_in; [exact DR|]. apply in_map, IE.
Qed.
Print Assumptions C64_no_new_characters.
(** Both texts have characters that the other one does not have. *)
Example C64_applies : exists p out, accepted (str "model M" ++ [9] ++ str "Real x /* c */; end M;") p /\
  pretty_print lf p = Ok out /\ In 10 out /\ ~ In 10 (str "model M" ++ [9] ++ str "Real x /* c */; end M;") /\ ~ In 9 out.
Proof.
  eexists _, _. split; [split; vm_compute; reflexivity|]. split; [vm_compute; reflexivity|].
  split; [vm_compute; tauto|]. split; intro I; vm_compute in I; repeat (destruct I as [I|I]; [discriminate I|]); destruct I.
Qed.

(** ** C26: exactly the comments before a line break survive. *)
Lemma laid_nodup gap s items : laid gap s items -> NoDup items.
Proof.
  intro L. apply NoDup_nth_error. intros i j H E.
  destruct (nth_error items i) as [t|] eqn:EI; [|apply nth_error_None in EI; lia].
  pose proof (laid_idx _ _ _ L _ _ EI) as X. symmetry in E. pose proof (laid_idx _ _ _ L _ _ E) as Y. lia.
Qed.

Theorem C26_survival : forall eol s p, accepted s p ->
  exists items l, laid space s items /\
    p_tokens p = filter plain items /\ p_comments p = filter commentary items /\
    layout_of eol s p l /\
    forall i1 c i2, items = i1 ++ c :: i2 -> comment c ->
      (In c (map e_tok l) <->
       exists cs t i3 e, i2 = cs ++ t :: i3 /\ Forall comment cs /\ ~ comment t /\
         In e l /\ e_tok e = t /\ is_break (e_white e) = true).
Proof.
  intros eol s p ACC. destruct (accepted_layout eol s p ACC) as (items & l & LO & _ & _ & LA & PT & PC & AR).
  exists items, l. split; auto. split; auto. split; auto. split; auto.
  intros i1 c i2 E C. apply comment_of in C.
  rewrite (arranged_survival _ _ _ _ _ _ AR (laid_nodup _ _ _ LA) i1 c i2 E C).
  split.
  - intros (t & e & (cs & i3 & -> & F & T) & I & ET & B). exists cs, t, i3, e. repeat split; auto.
    + eapply Forall_impl; [|exact F]. intros x X. apply comment_of. exact X.
    + rewrite comment_of. congruence.
  - intros (cs & t & i3 & e & -> & F & T & I & ET & B). exists t, e. repeat split; auto.
    exists cs, i3. split; auto. split.
    + eapply Forall_impl; [|exact F]. intros x X. apply comment_of. exact X.
    + rewrite comment_of in T. destruct (commentary t); congruence.
Qed.
Print Assumptions C26_survival.

(** A comment after the last token is dropped as well. *)
Example C26_applies : formats
  (lines ["model M // a"; "Real x( // b"; "y = 1); end M; // c"]%string)
  (lines ["model M // a"; ""; "  Real x( // b"; "    y = 1);"; ""; "end M;"]%string).
Proof. formatted. Qed.

(** ** C25: the expectation that no comment is lost is false. *)
Theorem C25_no_comment_lost_refuted :
  exists s p out c, accepted s p /\ pretty_print lf p = Ok out /\ In c (p_comments p) /\
    forall u v, out <> u ++ ttext c ++ v.
Proof.
  destruct (parse (str "model M Real x /* c */ = 1; end M;") KStoredDefinition) as [p| |] eqn:E;
    [|vm_compute in E; discriminate|vm_compute in E; discriminate].
  destruct (pretty_print lf p) as [out| |] eqn:EO;
    [|vm_compute in E; inversion E; subst; vm_compute in EO; discriminate ..].
  vm_compute in E. inversion E; subst p; clear E. vm_compute in EO. inversion EO; subst out; clear EO.
  eexists (str "model M Real x /* c */ = 1; end M;"), _, _, _.
  split; [split|split; [|split]]; [vm_compute; reflexivity|reflexivity|vm_compute; reflexivity|left; reflexivity|].
  cbn [ttext]. intros u v H.
  match type of H with ?o = _ => assert (In 47 o) as I end.
  { rewrite H. apply in_app_iff. right. left. reflexivity. }
  repeat (destruct I as [I|I]; [discriminate I|]). exact I.
Qed.
Print Assumptions C25_no_comment_lost_refuted.

(** ** C27: the indentation never drops below zero. *)
Definition count (m : marker -> bool) (ms : list marker) : nat := length (filter m ms).
Definition ups : list marker -> nat := count (fun m => match m with MIndent => true | _ => false end).
Definition downs : list marker -> nat := count (fun m => match m with MDedent => true | _ => false end).

Lemma print_levels eol ms : forall n r, print_loop eol n ms = Ok r ->
  forall pre post, ms = pre ++ post -> (downs pre <= n + ups pre)%nat.
Proof.
  induction ms as [|m ms IH]; intros n r H pre post E.
  - symmetry in E. apply app_eq_nil in E as [-> _]. cbn. lia.
  - destruct pre as [|m' pre]; [cbn; lia|]. cbn [app] in E. inversion E; subst m' ms; clear E.
    unfold ups, downs, count in *.
    destruct m; cbn [print_loop] in H; cbn [filter length];
      try (apply bind_ok in H as (r' & H & _); apply (IH _ _ H pre post eq_refl)).
    + pose proof (IH _ _ H pre post eq_refl). lia.
    + destruct n; [discriminate|]. pose proof (IH _ _ H pre post eq_refl). lia.
Qed.

Theorem C27_indent_nonnegative : forall s p, accepted s p ->
  exists tree ms, build_tree (p_tokens p) (p_events p) = Ok tree /\ format tree (p_comments p) = Ok ms /\
    forall pre post, ms = pre ++ post -> (downs pre <= ups pre)%nat.
Proof.
  intros s p ACC. destruct (C20_never_crashes lf s p ACC) as [out H]. unfold pretty_print in H.
  apply bind_ok in H as (tree & BT & H). apply bind_ok in H as (ms & FM & H).
  exists tree, ms. split; auto. split; auto. intros pre post E.
  pose proof (print_levels _ _ _ _ H pre post E). lia.
Qed.
Print Assumptions C27_indent_nonnegative.

Example C27_applies : exists p tree ms, accepted sample p /\ build_tree (p_tokens p) (p_events p) = Ok tree /\
  format tree (p_comments p) = Ok ms /\ ups ms = 8%nat /\ downs ms = 8%nat.
Proof. eexists _, _, _. split; [split|split; [|split; [|split]]]; vm_compute; reflexivity. Qed.

(** ** C29: no trailing white space. *)
Theorem C29_no_trailing_space : forall eol s p, accepted s p -> is_eol eol ->
  exists l, layout_of eol s p l /\
    forall u v, render eol l = u ++ [32] ++ eol ++ v -> in_item eol l u.
Proof.
  intros eol s p ACC EO. destruct (accepted_layout eol s p ACC) as (items & l & LO & LX & _ & _ & _ & _ & AR).
  exists l. split; auto. intros u v E.
  destruct (place eol l u ([32] ++ eol ++ v) E) as [I|(l1 & e & l2 & w1 & w2 & -> & W & NE & -> & V)]; auto; [discriminate|].
  exfalso. destruct w2 as [|c w2]; [contradiction|]. cbn [app] in V. inversion V as [[VC VT]]. subst c.
  assert (exists c b, ttext (e_tok e) = c :: b /\ ~ space c) as (c & b & ET & NS).
  { assert (In (e_tok e) items) as IE.
    { eapply drops_in; [eapply arranged_drops; exact AR|]. apply in_map. apply in_app_iff. right. left. reflexivity. }
    apply (lexeme_starts (tkind_of (e_tok e))). clear - LX IE. revert s LX.
    induction items as [|y items IH]; intros s LX; [destruct IE|].
    cbn [map] in LX. apply lexes_inv in LX. unfold item_of at 1 in LX. destruct LX as (sp & t' & _ & _ & X & _ & L).
    destruct IE as [<-|IE]; eauto. }
  pose proof (white_tail eol _ _ _ EO W) as T.
  destruct w2 as [|d w2].
  - cbn [app] in VT. rewrite ET in VT. apply NS. pose proof space_some as (S1 & S2 & S3).
    destruct EO as [->| ->]; cbn [app] in VT; inversion VT; subst; auto.
  - apply Forall_inv in T. subst d. destruct EO as [->| ->]; cbn [app] in VT; inversion VT.
Qed.
Print Assumptions C29_no_trailing_space.

(** Spaces in front of the line ends of the source are gone, but for those inside a comment. *)
Example C29_applies : formats
  (lines ["model M  "; " Real  x  "; "; // c  "; "end M;  "]%string)
  (lines ["model M"; ""; "  Real x; // c  "; ""; "end M;"]%string).
Proof. formatted. Qed.

(** ** C30: never two blank lines in a row. *)
Theorem C30_one_blank_line : forall eol s p, accepted s p -> is_eol eol ->
  exists l, layout_of eol s p l /\
    forall u sp v, Forall space sp -> 2 < newlines sp -> render eol l = u ++ sp ++ v ->
      in_item eol l u.
Proof.
  intros eol s p ACC EO. destruct (accepted_layout eol s p ACC) as (items & l & LO & LX & _ & _ & _ & _ & AR).
  exists l. split; auto. intros u sp v FS NL E.
  destruct (place eol l u (sp ++ v) E) as [I|(l1 & e & l2 & w1 & w2 & -> & W & NE & -> & V)]; auto.
  - destruct sp; [cbn in NL; lia|discriminate].
  - exfalso.
    assert (exists c b, ttext (e_tok e) = c :: b /\ ~ space c) as (c & b & ET & NS).
    { assert (In (e_tok e) items) as IE.
      { eapply drops_in; [eapply arranged_drops; exact AR|]. apply in_map. apply in_app_iff. right. left. reflexivity. }
      apply (lexeme_starts (tkind_of (e_tok e))). clear - LX IE. revert s LX.
      induction items as [|y items IH]; intros s LX; [destruct IE|].
      cbn [map] in LX. apply lexes_inv in LX. unfold item_of at 1 in LX. destruct LX as (sp & t' & _ & _ & X & _ & L).
      destruct IE as [<-|IE]; eauto. }
    destruct (spaces_within sp w2 (ttext (e_tok e) ++ render eol l2) v) as [z EZ]; auto.
    { rewrite ET. cbn [app]. eauto. }
    pose proof (white_newlines eol (e_white e) EO) as WN. rewrite W, EZ, !newlines_app in WN. lia.
Qed.
Print Assumptions C30_one_blank_line.

Example C30_applies : formats
  (lines ["model M"; ""; ""; ""; "Real x;"; ""; ""; ""; "Real y;"; "end M;"]%string)
  (lines ["model M"; ""; "  Real x;"; ""; "  Real y;"; ""; "end M;"]%string).
Proof. formatted. Qed.

(** ** C22: formatted text is read as the same tokens. *)
Definition comment_tokens (l : layout) : list token :=
  flat_map (fun e => match e_rule e with Some _ => [] | None => [e_tok e] end) l.

Lemma plain_comment t : plain t = negb (commentary t).
Proof. reflexivity. Qed.

Lemma item_plain a b : item_of a = item_of b -> plain a = plain b /\ commentary a = commentary b.
Proof. unfold item_of, plain, commentary. intro E. inversion E. split; reflexivity || congruence. Qed.

Lemma items_filter l : forall items,
  Forall (fun e => match e_rule e with None => commentary (e_tok e) = true | Some _ => commentary (e_tok e) = false end) l ->
  map item_of items = map (fun e => item_of (e_tok e)) l ->
  map item_of (filter plain items) = map item_of (code_tokens l) /\
  map item_of (filter commentary items) = map item_of (comment_tokens l).
Proof.
  induction l as [|e l IH]; intros [|t items] F E; try discriminate; auto.
  cbn [map] in E. assert (item_of t = item_of (e_tok e)) as E1 by congruence. injection E as _ _ E2.
  inversion F as [|? ? F1 F2]; subst. destruct (IH items F2 E2) as [P C]. destruct (item_plain t (e_tok e) E1) as [X1 X2].
  unfold code_tokens, comment_tokens. cbn [flat_map filter]. rewrite X2, X1, plain_comment.
  destruct (e_rule e); rewrite F1; cbn [negb]; fold (code_tokens l) (comment_tokens l); cbn [app map]; split; congruence.
Qed.

Lemma lexes_lexemes items : forall s, lexes s (map item_of items) ->
  Forall (fun t => lexeme (tkind_of t) (ttext t)) items.
Proof.
  induction items as [|t items IH]; intros s L; constructor.
  - cbn [map] in L. apply lexes_inv in L. unfold item_of at 1 in L. destruct L as (_ & _ & _ & _ & X & _). exact X.
  - cbn [map] in L. apply lexes_inv in L. unfold item_of at 1 in L. destruct L as (_ & t' & _ & _ & _ & _ & L). eauto.
Qed.

Lemma layout_apt s items ds l :
  lexes s (map item_of items) -> laid space s items -> no_lone_cr s ->
  arranged adjacent None 1 items ds l -> forall a e, consecutive l a e -> apt a e.
Proof.
  intros LX LA NC AR a e C. unfold apt.
  destruct (e_rule a) as [q|] eqn:Q.
  - assert (tkind_of (e_tok a) <> TLineComment) as NL.
    { pose proof (arranged_ruled _ _ _ _ _ _ AR) as RU. rewrite Forall_forall in RU.
      specialize (RU a (proj1 (consecutive_in _ _ _ C))). cbv beta in RU. rewrite Q in RU.
      intro K. unfold commentary in RU. rewrite K in RU. discriminate. }
    destruct (e_white e) as [| |b n] eqn:W; auto.
    destruct (e_rule e) as [r|] eqn:R.
    + destruct (pair_neat _ _ _ _ _ AR a e q r C Q R) as (G & N & I). unfold neat in N.
      rewrite !andb_true_iff in N. do 17 destruct N as [N _].
      destruct I as [[-> _]|[[-> W']|(b & n & -> & W')]]; try (rewrite W' in W; discriminate).
      exact N.
    + exfalso. eapply (arranged_comment_white adjacent); eauto.
  - destruct (arranged_after_comment _ _ _ _ _ _ AR a e C Q) as [B|(W & R & SL)].
    + destruct (e_white e); auto; discriminate.
    + rewrite W. intro K. pose proof (arranged_drops _ _ _ _ _ _ AR) as D.
      destruct C as (l1 & l2 & ->). rewrite map_app in D. cbn [map] in D.
      destruct (drops_order _ _ _ D _ _ _ _ eq_refl) as (i1 & i2 & EI & IE).
      assert (fwd [] items s) as F.
      { rewrite <- (app_nil_r items), <- (app_nil_r s). apply laid_fwd; auto. constructor. }
      pose proof (lines_apart _ _ _ LX F NC _ _ _ EI K) as LL. rewrite Forall_forall in LL.
      specialize (LL _ IE). lia.
Qed.

Lemma eol_tail eol tail : is_eol eol -> tail = [] \/ tail = eol ->
  lexes tail [] /\ (tail = [] \/ SpecLex.starts newline_char tail).
Proof.
  intros E [->| ->]; [split; [constructor|auto]|]. pose proof space_some as (S1 & S2 & S3).
  destruct E as [->| ->]; (split; [repeat (constructor; auto)|right]); eexists _, _; split; eauto; unfold newline_char; auto.
Qed.

Lemma relexed eol s p tail : accepted s p -> no_lone_cr s -> is_eol eol -> tail = [] \/ tail = eol ->
  exists l, layout_of eol s p l /\ code_tokens l = p_tokens p /\
    exists toks coms, lex (render eol l ++ tail) = Ok (toks, coms, []) /\
      map item_of toks = map item_of (code_tokens l) /\
      map item_of coms = map item_of (comment_tokens l).
Proof.
  intros ACC NC EO ET. destruct (accepted_layout eol s p ACC) as (items & l & LO & LX & CA & LA & PT & PC & AR).
  exists l. split; auto. split.
  { rewrite code_tokens_codes. destruct ACC as [H Z].
    destruct (accepted_tree s p H Z) as (cs & its & C & L & E & B & _).
    destruct (lo_tree _ _ _ _ LO) as (tree & BT & ->). assert (tree = prune (CTree KStoredDefinition cs)) as -> by congruence.
    change (owners KStoredDefinition) with (dleaves KStoredDefinition).
    rewrite dleaves_leaves, leaves_prune. exact L. }
  destruct (eol_tail eol tail EO ET) as [T1 T2].
  assert (forall e, In e l -> In (e_tok e) items) as SUB.
  { intros e I. eapply drops_in; [eapply arranged_drops; exact AR|]. apply in_map. exact I. }
  pose proof (lexes_lexemes _ _ LX) as LM.
  assert (lexes (render eol l ++ tail) (map (fun e => item_of (e_tok e)) l)) as RL.
  { apply relex; auto.
    - rewrite Forall_forall in *. intros e I. apply LM. auto.
    - eapply layout_apt; eauto. }
  destruct (lex_complete _ _ RL) as (its & LE & ME & _).
  { intros w I. apply CA. apply in_map_iff in I as (e & E & I). rewrite <- E. apply in_map. auto. }
  exists (filter plain its), (filter commentary its). split; auto.
  apply items_filter; auto. eapply arranged_ruled; eauto.
Qed.

Theorem C22_relex : forall eol s p tail, accepted s p -> no_lone_cr s -> is_eol eol -> tail = [] \/ tail = eol ->
  exists l, layout_of eol s p l /\
    exists toks coms, lex (render eol l ++ tail) = Ok (toks, coms, []) /\
      map item_of toks = map item_of (p_tokens p) /\
      map item_of coms = map item_of (comment_tokens l).
Proof.
  intros eol s p tail ACC NC EO ET.
  destruct (relexed eol s p tail ACC NC EO ET) as (l & LO & <- & toks & coms & H). exists l. split; auto. exists toks, coms. exact H.
Qed.
Print Assumptions C22_relex.

Lemma no_cr s : existsb (N.eqb 13) s = false -> no_lone_cr s.
Proof.
  intros H pre post ->. rewrite existsb_app in H. apply orb_false_iff in H as [_ H]. discriminate.
Qed.
Example C22_applies : exists p, accepted sample p /\ no_lone_cr sample /\ is_eol crlf.
Proof. eexists. split; [split; vm_compute; reflexivity|]. split; [apply no_cr; reflexivity|right; reflexivity]. Qed.

(** A lone carriage return ends a line comment but does not count as a line end, so that the
    comment swallows what is printed behind it. *)
Definition lone_cr : text :=
  str "model M A a; // b" ++ [13] ++ str "/* c" ++ [10] ++ str "d */ B b; end M;".
Theorem C22_relex_refuted :
  exists s p out toks coms errs, accepted s p /\ pretty_print lf p = Ok out /\
    lex out = Ok (toks, coms, errs) /\ map tkind_of toks <> map tkind_of (p_tokens p).
Proof.
  destruct (parse lone_cr KStoredDefinition) as [p| |] eqn:E; [|vm_compute in E; discriminate ..].
  vm_compute in E. inversion E; subst p; clear E.
  eexists lone_cr, _, _, _, _, _. split; [split|split; [|split]]; [vm_compute; reflexivity ..|].
  vm_compute. discriminate.
Qed.
Print Assumptions C22_relex_refuted.

(** ** C23: formatted text has the same syntax tree. *)
Theorem C23_reparse : forall eol s p tail, accepted s p -> no_lone_cr s -> is_eol eol -> tail = [] \/ tail = eol ->
  exists out p', pretty_print eol p = Ok out /\ accepted (out ++ tail) p' /\
    p_events p' = p_events p /\ map item_of (p_tokens p') = map item_of (p_tokens p).
Proof.
  intros eol s p tail ACC NC EO ET.
  destruct (relexed eol s p tail ACC NC EO ET) as (l & LO & CT & toks & coms & LE & MT & _).
  rewrite CT in MT. destruct ACC as [H Z].
  destruct (parse_inv _ _ _ H) as (errs & perrs & L1 & P1 & EE). rewrite Z in EE. symmetry in EE. apply app_eq_nil in EE as [-> ->].
  pose proof (parse_bare toks (p_tokens p) KStoredDefinition) as PB.
  assert (map tkind_of toks = map tkind_of (p_tokens p)) as MK.
  { apply (f_equal (map fst)) in MT. rewrite !map_map in MT. exact MT. }
  specialize (PB MK). rewrite P1 in PB.
  destruct (parse_events toks KStoredDefinition) as [[evs er]| |] eqn:PE; try contradiction.
  destruct PB as [-> EM]. destruct er; [|discriminate].
  exists (render eol l), (mkParsed toks coms (p_events p) []). split; [apply LO|]. split; [|split; auto].
  split; auto. unfold parse. rewrite LE. cbn [bind]. rewrite PE. reflexivity.
Qed.
Print Assumptions C23_reparse.

Example C23_applies : exists p, accepted sample p /\ no_lone_cr sample /\ length (p_events p) = 412%nat.
Proof. eexists. split; [split; vm_compute; reflexivity|]. split; [apply no_cr; reflexivity|vm_compute; reflexivity]. Qed.

Theorem C23_reparse_refuted :
  exists s p out, accepted s p /\ pretty_print lf p = Ok out /\ ~ (exists p', accepted out p').
Proof.
  destruct (parse lone_cr KStoredDefinition) as [p| |] eqn:E; [|vm_compute in E; discriminate ..].
  vm_compute in E. inversion E; subst p; clear E.
  eexists lone_cr, _, _. split; [split|split]; [vm_compute; reflexivity ..|].
  intros (p' & H & _). vm_compute in H. discriminate.
Qed.
Print Assumptions C23_reparse_refuted.

(** ** C28: the expectation that indentation is balanced is false. *)
Definition leaking : text :=
  str "model M equation a" ++ [10] ++ str "+ b = c; end M; model N end N;".
Theorem C28_balanced_refuted :
  exists s p tree ms out u v, accepted s p /\ build_tree (p_tokens p) (p_events p) = Ok tree /\
    format tree (p_comments p) = Ok ms /\ ups ms <> downs ms /\
    pretty_print lf p = Ok out /\ out = u ++ [10] ++ str "  model N" ++ v.
Proof.
  destruct (parse leaking KStoredDefinition) as [p| |] eqn:E; [|vm_compute in E; discriminate ..].
  vm_compute in E. inversion E; subst p; clear E.
  eexists leaking, _, _, _, _,
    (str "model M" ++ [10; 10] ++ str "equation" ++ [10; 10] ++ str "  a" ++ [10] ++ str "    + b = c;" ++ [10; 10] ++ str "  end M;"), _.
  split; [split|split; [|split; [|split; [|split]]]]; [vm_compute; reflexivity ..|vm_compute; discriminate|vm_compute; reflexivity|].
  vm_compute. reflexivity.
Qed.
Print Assumptions C28_balanced_refuted.

(** ** C32: the expectation that formatting twice changes nothing is false. *)
Definition unstable : text := str "model M Real a ""d"", b; end M;".
Theorem C32_idempotent_refuted :
  exists s p out p' out', accepted s p /\ pretty_print lf p = Ok out /\
    accepted (out ++ lf) p' /\ pretty_print lf p' = Ok out' /\ out' <> out.
Proof.
  destruct (parse unstable KStoredDefinition) as [p| |] eqn:E; [|vm_compute in E; discriminate ..].
  vm_compute in E. inversion E; subst p; clear E.
  eexists unstable, _, _, _, _. split; [split|split; [|split; [split|split]]]; [vm_compute; reflexivity ..|].
  vm_compute. discriminate.
Qed.
Print Assumptions C32_idempotent_refuted.
