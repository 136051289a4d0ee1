(** Property C31: white space within lines does not matter; and the tree part of C23. *)
From Verif Require Import ProofBase Tokens Syntax Lexer SpecLex LexInv LexMain LexFacts ParserCore Grammar
  Tree Printer Formatter Lib ParserSem ParserFacts PropsParser FmtPlan FmtRelex SpecLayout FmtExec FmtFacts SpecSpacing FmtSame FmtNeat PropsFormat.

(** ** C31 on tokens: only numbers, kinds, texts and lines count. *)
Definition same_place (t t' : token) : Prop :=
  tidx t = tidx t' /\ tkind_of t = tkind_of t' /\ ttext t = ttext t' /\
  line (tstart t) = line (tstart t') /\ line (tend t) = line (tend t').

Lemma same_place_level ts ts' : Forall2 same_place ts ts' -> map level ts = map level ts'.
Proof.
  induction 1 as [|t t' ts ts' (A & B & C & D & E) _ IH]; [reflexivity|].
  cbn [map]. rewrite IH. f_equal. unfold level. congruence.
Qed.

Theorem C31_lines_only : forall eol p p',
  Forall2 same_place (p_tokens p) (p_tokens p') ->
  Forall2 same_place (p_comments p) (p_comments p') ->
  p_events p = p_events p' ->
  pretty_print eol p = pretty_print eol p'.
Proof. intros eol p p' T C E. apply pretty_print_level; auto using same_place_level. Qed.
Print Assumptions C31_lines_only.

(** ** C31 on sources. *)
Theorem C31_horizontal_space : forall s s' eol,
  respaced s s' -> format_source eol s = format_source eol s'.
Proof.
  intros s s' eol R. destruct (respaced_has _ _ R) as [its RI].
  destruct (respaced_lexes _ _ _ RI) as [X X'].
  destruct (forallb (fun i => negb (tkind_eqb (fst i) TLineComment) || ends_ascii_b (snd i)) its) eqn:E.
  - assert (comments_ascii its) as CA.
    { intros w I. rewrite forallb_forall in E. specialize (E _ I). cbn [fst snd] in E.
      apply ends_ascii_iff. exact E. }
    destruct (lex_complete _ _ X CA) as (items & L & M & LA).
    destruct (lex_complete _ _ X' CA) as (items' & L' & M' & LA').
    assert (map level items = map level items') as LV.
    { apply same_level; [congruence| | | |].
      - rewrite (laid_length_idx _ _ _ LA), (laid_length_idx _ _ _ LA').
        replace (length items') with (length items); [reflexivity|].
        rewrite <- (map_length item_of items), <- (map_length item_of items'). congruence.
      - eapply (respaced_lines _ _ _ RI [] []); eauto.
        + rewrite <- (app_nil_r items), <- (app_nil_r s). eapply laid_fwd; [exact LA|constructor].
        + rewrite <- (app_nil_r items'), <- (app_nil_r s'). eapply laid_fwd; [exact LA'|constructor].
      - intros t I. exact (laid_end _ _ _ LA I).
      - intros t I. exact (laid_end _ _ _ LA' I). }
    assert (PL : forall b t, b = plain \/ b = commentary -> b (level t) = b t)
      by (intros b t [->| ->]; reflexivity).
    pose proof (filter_level plain (fun t => PL _ t (or_introl eq_refl)) _ _ LV) as LP.
    pose proof (filter_level commentary (fun t => PL _ t (or_intror eq_refl)) _ _ LV) as LC.
    unfold format_source, parse. rewrite L, L'. cbn [bind].
    assert (map tkind_of (filter plain items) = map tkind_of (filter plain items')) as MK.
    { apply (f_equal (map tkind_of)) in LP. rewrite !map_map in LP. exact LP. }
    pose proof (parse_bare _ _ KStoredDefinition MK) as PB.
    destruct (parse_events (filter plain items) KStoredDefinition) as [[e er]|x|] eqn:P1,
             (parse_events (filter plain items') KStoredDefinition) as [[e' er']|x'|] eqn:P2; try contradiction.
    + destruct PB as [-> EM]. cbn [bind p_errors app].
      destruct er, er'; try discriminate; [|reflexivity].
      erewrite pretty_print_level; [reflexivity| | |]; auto.
    + subst. reflexivity.
    + reflexivity.
  - assert (~ comments_ascii its) as CA.
    { intro CA. assert (forallb (fun i => negb (tkind_eqb (fst i) TLineComment) || ends_ascii_b (snd i)) its = true) as T.
      { apply forallb_forall. intros [k w] I. cbn [fst snd]. destruct (tkind_eqb k TLineComment) eqn:K; [|reflexivity].
        apply tkind_eqb_eq in K. subst k. apply ends_ascii_iff. apply CA, I. }
      congruence. }
    unfold format_source, parse. rewrite (lex_crash _ _ X CA), (lex_crash _ _ X' CA). reflexivity.
Qed.
Print Assumptions C31_horizontal_space.

(** The relation [respaced] holds exactly for texts with the same items on the same lines. *)
Lemma placed_respaced items : forall s s' c c' items',
  lexes s (map item_of items) -> lexes s' (map item_of items') ->
  fwd c items s -> fwd c' items' s' -> newlines c = newlines c' ->
  Forall2 same_place items items' -> respaced s s'.
Proof.
  induction items as [|t items IH]; intros s s' c c' items' X X' W W' NL F.
  - inversion F; subst. apply lexes_inv in X. apply lexes_inv in X'. apply rs_end; auto.
  - inversion F as [|? t' ? items0 SP F0]; subst. destruct SP as (_ & K & T & LS & _).
    apply lexes_inv in X. cbn [map] in X. unfold item_of at 1 in X.
    destruct X as (sp & r & -> & S & LX & FO & X).
    apply lexes_inv in X'. cbn [map] in X'. unfold item_of at 1 in X'.
    destruct X' as (sp' & r' & -> & S' & LX' & FO' & X').
    rewrite <- K, <- T in FO'. pose proof (lexeme_starts _ _ LX) as ST. pose proof (lexeme_starts _ _ LX') as ST'.
    assert (G : forall (w r : text), (exists c b, w = c :: b /\ ~ space c) -> exists c b, w ++ r = c :: b /\ ~ space c).
    { intros w0 r0 (x & b & -> & NS). exists x, (b ++ r0). auto. }
    destruct (fwd_first _ _ _ _ W) as (g & q & E & SG & LI & W1).
    apply spaces_prefix in E as [-> E]; auto. apply app_inv_head in E. subst q.
    destruct (fwd_first _ _ _ _ W') as (g' & q & E & SG' & LI' & W1').
    apply spaces_prefix in E as [-> E]; auto. apply app_inv_head in E. subst q.
    rewrite newlines_app in LI, LI'. rewrite <- T. apply rs_gap; auto; [lia|].
    apply (rs_item (tkind_of t)); auto. eapply IH; eauto. rewrite !newlines_app, T. lia.
Qed.

Lemma split_length items : length items = (length (filter plain items) + length (filter commentary items))%nat.
Proof.
  induction items as [|t items IH]; [reflexivity|]. cbn [filter]. unfold plain at 1, commentary at 1.
  destruct (is_comment_kind (tkind_of t)); cbn; lia.
Qed.

Lemma split_in t items : In t items <-> In t (filter plain items) \/ In t (filter commentary items).
Proof.
  rewrite !filter_In. unfold plain, commentary. destruct (is_comment_kind (tkind_of t)); cbn; tauto.
Qed.

Lemma forall2_in {A B} (R : A -> B -> Prop) l l' x : Forall2 R l l' -> In x l -> exists y, In y l' /\ R x y.
Proof.
  induction 1 as [|a b l l' H F IH]; intros I; [destruct I|]. destruct I as [->|I].
  - exists b. split; auto. left. reflexivity.
  - destruct (IH I) as (y & I2 & R2). exists y. split; auto. right. exact I2.
Qed.

Lemma forall2_length {A B} (R : A -> B -> Prop) l l' : Forall2 R l l' -> length l = length l'.
Proof. induction 1; cbn; auto. Qed.

Lemma forall2_nth {A B} (R : A -> B -> Prop) l : forall l', length l = length l' ->
  (forall n x, nth_error l n = Some x -> exists y, nth_error l' n = Some y /\ R x y) -> Forall2 R l l'.
Proof.
  induction l as [|a l IH]; intros [|b l'] E H; try discriminate; [constructor|]. injection E as E. constructor.
  - destruct (H 0%nat a eq_refl) as (y & Q & R1). injection Q as ->. exact R1.
  - apply IH; auto. intros n x Hn. exact (H (S n) x Hn).
Qed.

Lemma placed_items s s' items items' :
  laid space s items -> laid space s' items' ->
  Forall2 same_place (filter plain items) (filter plain items') ->
  Forall2 same_place (filter commentary items) (filter commentary items') ->
  Forall2 same_place items items'.
Proof.
  intros L L' P C. apply forall2_nth.
  - rewrite (split_length items), (split_length items').
    apply forall2_length in P. apply forall2_length in C. lia.
  - intros n x Hn.
    assert (exists y, In y items' /\ same_place x y) as (y & I & S).
    { apply nth_error_In in Hn. apply split_in in Hn as [Hn|Hn].
      - destruct (forall2_in _ _ _ _ P Hn) as (y & I & S). exists y. split; auto. apply split_in. auto.
      - destruct (forall2_in _ _ _ _ C Hn) as (y & I & S). exists y. split; auto. apply split_in. auto. }
    exists y. split; auto. apply In_nth_error in I as [m Hm].
    pose proof (laid_idx _ _ _ L _ _ Hn) as E1. pose proof (laid_idx _ _ _ L' _ _ Hm) as E2.
    destruct S as (E & _). replace n with m by lia. exact Hm.
Qed.

Lemma level_same_place ts : forall ts', map level ts = map level ts' -> Forall2 same_place ts ts'.
Proof.
  induction ts as [|t ts IH]; intros [|t' ts'] E; try discriminate; constructor; cbn [map] in E.
  - unfold level at 1 3 in E. injection E as E1 E2 E3 E4 E5 _. repeat split; auto.
  - apply IH. injection E as _ _ _ _ _ E. exact E.
Qed.

Theorem C31_respaced_iff : forall s s' toks toks' coms coms',
  lex s = Ok (toks, coms, []) -> lex s' = Ok (toks', coms', []) ->
  (respaced s s' <-> Forall2 same_place toks toks' /\ Forall2 same_place coms coms').
Proof.
  intros s s' toks toks' coms coms' L L'.
  destruct (lex_sound _ _ _ L) as (items & X & CA & LA & T & C).
  destruct (lex_sound _ _ _ L') as (items' & X' & CA' & LA' & T' & C').
  assert (W : fwd [] items s)
    by (rewrite <- (app_nil_r items), <- (app_nil_r s); eapply laid_fwd; [exact LA|constructor]).
  assert (W' : fwd [] items' s')
    by (rewrite <- (app_nil_r items'), <- (app_nil_r s'); eapply laid_fwd; [exact LA'|constructor]).
  split.
  - intro R. destruct (respaced_has _ _ R) as [its RI]. destruct (respaced_lexes _ _ _ RI) as [Y Y'].
    pose proof (lexes_unique _ _ _ X Y) as E. pose proof (lexes_unique _ _ _ X' Y') as E'.
    assert (map level items = map level items') as LV.
    { apply same_level; [congruence| | | |].
      - rewrite (laid_length_idx _ _ _ LA), (laid_length_idx _ _ _ LA').
        replace (length items') with (length items); [reflexivity|].
        rewrite <- (map_length item_of items), <- (map_length item_of items'). congruence.
      - eapply (respaced_lines _ _ _ RI [] []); eauto.
      - intros t I. exact (laid_end _ _ _ LA I).
      - intros t I. exact (laid_end _ _ _ LA' I). }
    subst. split; apply level_same_place; apply filter_level; auto.
  - intros [F1 F2]. subst. eapply placed_respaced; eauto. eapply placed_items; eauto.
Qed.
Print Assumptions C31_respaced_iff.

(** One model written in two ways. *)
Definition crammed : text :=
  str "model M Real x(start=1);//c" ++ [10] ++ str "equation der(x)=-x+2*(a-b);" ++ [10; 10] ++ str "end M;".
Definition airy_model : text :=
  str "   model  M" ++ [9] ++ str "Real x ( start = 1 ) ;   //c" ++ [13; 10] ++
  str "equation     der ( x ) = - x + 2 * ( a - b ) ;   " ++ [13; 10; 32; 13; 10] ++ str "    end M ;" ++ [10; 10; 10].
Example C31_applies :
  respaced crammed airy_model /\ crammed <> airy_model /\
  exists out, format_source lf crammed = Ok (Some out).
Proof.
  split; [|split; [discriminate|eexists; vm_compute; reflexivity]].
  destruct (lex crammed) as [[[t c] [|e1 er]]| |] eqn:E1; [|vm_compute in E1; discriminate ..].
  destruct (lex airy_model) as [[[t' c'] [|e1 er]]| |] eqn:E2; [|vm_compute in E2; discriminate ..].
  apply (C31_respaced_iff _ _ _ _ _ _ E1 E2).
  vm_compute in E1. injection E1 as <- <-. vm_compute in E2. injection E2 as <- <-.
  split; repeat (constructor; [repeat split|]); constructor.
Qed.

(** ** C23: the tree of the formatted text. *)

(** A syntax tree without positions: only kinds and texts. *)
Inductive sketch := SLeaf (k : tkind) (w : text) | SNode (k : skind) (cs : list sketch).
Fixpoint sketch_of (c : child) : sketch :=
  match c with
  | CTok t => SLeaf (tkind_of t) (ttext t)
  | CTree k cs => SNode k (map sketch_of cs)
  end.

Definition blank_tok (i : tkind * text) : token := mkTok 0 (snd i) (fst i) (mkPos 0 0 0) (mkPos 0 0 0).
Lemma sketch_map c : sketch_of (tmap (fun t => blank_tok (item_of t)) c) = sketch_of c.
Proof.
  induction c as [x|k cs IH] using child_ind2; [reflexivity|]. cbn [tmap sketch_of]. f_equal.
  rewrite map_map. induction IH as [|c cs H F IHF]; [reflexivity|]. cbn [map]. rewrite H, IHF. reflexivity.
Qed.

Theorem C23_same_tree : forall eol s p tail, accepted s p -> no_lone_cr s -> is_eol eol -> tail = [] \/ tail = eol ->
  exists out p' tree tree', pretty_print eol p = Ok out /\ accepted (out ++ tail) p' /\
    build_tree (p_tokens p) (p_events p) = Ok tree /\ build_tree (p_tokens p') (p_events p') = Ok tree' /\
    sketch_of tree = sketch_of tree'.
Proof.
  intros eol s p tail ACC NC EO ET.
  destruct (C23_reparse eol s p tail ACC NC EO ET) as (out & p' & PP & ACC' & EV & IT).
  destruct (accepted_layout eol s p ACC) as (_ & l & LO & _). destruct (lo_tree _ _ _ _ LO) as (tree & BT & _).
  pose proof (build_tree_map (fun t => blank_tok (item_of t)) (p_tokens p) (p_events p)) as B1.
  pose proof (build_tree_map (fun t => blank_tok (item_of t)) (p_tokens p') (p_events p')) as B2.
  rewrite <- map_map in B1, B2. rewrite IT, EV in B2. rewrite B1, BT in B2. cbn [rmap] in B2.
  destruct (build_tree (p_tokens p') (p_events p)) as [tree'| |] eqn:BT'; try discriminate.
  exists out, p', tree, tree'. rewrite EV. repeat split; auto; try apply ACC'.
  injection B2 as B2. rewrite <- (sketch_map tree), <- (sketch_map tree'), B2. reflexivity.
Qed.
Print Assumptions C23_same_tree.
