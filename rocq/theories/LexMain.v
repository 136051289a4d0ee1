(** Main theorems about the lexer: it recognises exactly the specified lexical grammar. *)
From Verif Require Import ProofBase Tokens Lexer SpecLex LexInv LexScan LexSpecProofs.

Definition item_of (t : token) : tkind * text := (tkind_of t, ttext t).

Record at_ (s c : text) (items : list token) (l : lexer) : Prop := {
  at_src : lsrc l = s;
  at_split : s = c ++ lrest l;
  at_off : loff l = bytes_of c;
  at_pos : pos_ok c (lcur l);
  at_bound : bytes_of c = rust_pos c;
  at_start : lstart l = lcur l;
  at_eof : lateof l = false;
  at_toks : ltoks l = rev (filter plain items);
  at_coms : lcoms l = rev (filter commentary items);
  at_count : lcount l = N.of_nat (length items);
  at_errs : lerrs l = [];
  at_laid : laid space c items
}.

Lemma at_new : forall s, at_ s [] [] (lexer_new s).
Proof.
  intro s. constructor; simpl; auto.
  - repeat split; reflexivity.
  - constructor.
Qed.

(** Consuming characters. *)
Record moved (s c : text) (l l' : lexer) : Prop := {
  mv_src : lsrc l' = lsrc l;
  mv_split : s = c ++ lrest l';
  mv_off : loff l' = bytes_of c;
  mv_pos : pos_ok c (lcur l');
  mv_start : lstart l' = lstart l;
  mv_eof : lateof l' = lateof l;
  mv_toks : ltoks l' = ltoks l;
  mv_coms : lcoms l' = lcoms l;
  mv_count : lcount l' = lcount l;
  mv_errs : lerrs l' = lerrs l
}.

Lemma moved_next : forall s c l l' x r,
  moved s c l l' -> lrest l' = x :: r -> moved s (c ++ [x]) l (next l') /\ lrest (next l') = r.
Proof.
  intros s c l l' x r [] E. unfold next. rewrite E. split; [|reflexivity].
  destruct mv_pos0 as ((P1 & P2) & P3).
  constructor; simpl; auto.
  - rewrite <- app_assoc, mv_split0, E. reflexivity.
  - rewrite bytes_app, mv_off0. simpl. lia.
  - unfold pos_ok, coords_after. rewrite newlines_snoc, columns_snoc, rust_pos_snoc.
    destruct (x =? 10); simpl; repeat split; lia.
Qed.

Lemma moved_nexts : forall w s c l l' t,
  moved s c l l' -> lrest l' = w ++ t ->
  moved s (c ++ w) l (nexts (length w) l') /\ lrest (nexts (length w) l') = t.
Proof.
  induction w as [|x w IH]; intros s c l l' t M E; simpl.
  - rewrite app_nil_r. auto.
  - destruct (moved_next _ _ _ _ _ _ M E) as [M' E'].
    destruct (IH _ _ _ _ _ M' E') as [M'' E'']. rewrite <- app_assoc in M''. auto.
Qed.

Lemma at_moved : forall s c items l, at_ s c items l -> moved s c l l.
Proof. intros s c items l []. constructor; auto. Qed.

Definition ends_ascii (w : text) : Prop := exists u x, w = u ++ [x] /\ x < 128.
Definition ends_ascii_b (w : text) : bool :=
  match rev w with [] => false | x :: _ => x <? 128 end.

Lemma ends_ascii_iff : forall w, ends_ascii_b w = true <-> ends_ascii w.
Proof.
  intro w. unfold ends_ascii_b, ends_ascii. destruct w as [|x w] using rev_ind.
  - simpl. split; [discriminate|]. intros (u & x & E & _). destruct u; discriminate.
  - clear IHw. rewrite rev_app_distr. simpl. rewrite N.ltb_lt. split.
    + intro H. exists w, x. auto.
    + intros (u & y & E & H). apply app_inj_tail in E. destruct E as [_ ->]. assumption.
Qed.

Lemma utf8_one : forall x, x < 128 <-> utf8_len x = 1.
Proof.
  intro x. unfold utf8_len. destruct (x <? 128) eqn:E.
  - apply N.ltb_lt in E. tauto.
  - apply N.ltb_ge in E. split; [lia|]. repeat destruct (_ <? _); discriminate.
Qed.

Lemma boundary_iff : forall c w, w <> [] ->
  (ends_ascii w <-> bytes_of (c ++ w) = rust_pos (c ++ w)).
Proof.
  intros c w N. destruct w as [|x w] using rev_ind; [congruence|]. clear IHw.
  rewrite app_assoc, rust_pos_snoc, !bytes_app.
  change (bytes_of [x]) with (utf8_len x + 0). split.
  - intros (u & y & E & H). apply app_inj_tail in E. destruct E as [_ ->].
    apply utf8_one in H. lia.
  - intro H. exists w, x. split; [reflexivity|]. apply utf8_one. lia.
Qed.

(** Making a token out of the consumed characters. *)
Lemma token_step : forall s c items l w t k,
  at_ s c items l -> lrest l = w ++ t -> w <> [] ->
  (ends_ascii w ->
   exists l' tok, generate_token k (nexts (length w) l) = Ok l' /\
     at_ s (c ++ w) (items ++ [tok]) l' /\ item_of tok = (k, w) /\ lrest l' = t) /\
  (~ ends_ascii w -> generate_token k (nexts (length w) l) = Panic PSlice).
Proof.
  intros s c items l w t k A E N.
  destruct (moved_nexts _ _ _ _ _ _ (at_moved _ _ _ _ A) E) as [M E'].
  destruct A. destruct M. set (l1 := nexts (length w) l) in *.
  assert (ST : pos (lstart l1) = bytes_of c).
  { rewrite mv_start0, at_start0, at_bound0. apply at_pos0. }
  destruct mv_pos0 as [W1 W2]. split.
  - intro H. apply (boundary_iff c w N) in H.
    assert (SL : slice (lsrc l1) (pos (lstart l1)) (pos (lcur l1)) = Ok w).
    { rewrite mv_src0, at_src0, mv_split0, ST, W2, <- H, <- app_assoc. apply slice_app. }
    unfold generate_token. rewrite SL. simpl bind.
    eexists. exists (mkTok (lcount l1) w k (lstart l1) (lcur l1)).
    split; [reflexivity|]. split; [|split; [reflexivity|]].
    2:{ destruct (is_comment_kind k); exact E'. }
    assert (K : lsrc l1 = s) by congruence.
    assert (D : laid space (c ++ w) (items ++ [mkTok (lcount l1) w k (lstart l1) (lcur l1)])).
    { change w with (ttext (mkTok (lcount l1) w k (lstart l1) (lcur l1))) at 1.
      constructor; simpl; auto; try congruence.
      rewrite mv_start0, at_start0. apply at_pos0. }
    unfold jump.
    constructor; simpl; auto; try (destruct (is_comment_kind k); simpl; congruence).
    + destruct (is_comment_kind k); split; assumption.
    + rewrite filter_app, rev_app_distr. simpl. unfold plain at 1. simpl.
      destruct (is_comment_kind k); simpl; congruence.
    + rewrite filter_app, rev_app_distr. simpl. unfold commentary at 1. simpl.
      destruct (is_comment_kind k); simpl; congruence.
    + rewrite app_length. cbn [length]. destruct (is_comment_kind k); cbn [lcount]; lia.
  - intro H. unfold generate_token.
    destruct (slice_cases (lsrc l1) (pos (lstart l1)) (pos (lcur l1))) as [[u SL]|SL].
    2:{ rewrite SL. reflexivity. }
    exfalso. apply H, (boundary_iff c w N). rewrite <- W2.
    apply slice_spec in SL. destruct SL as (p & q & F & B1 & B2).
    assert (X : bytes_of (c ++ w) = rust_pos (c ++ w) /\ p ++ u = c ++ w).
    { apply rust_pos_boundary with (r := lrest l1) (q := q); [|congruence].
      rewrite <- mv_split0, <- app_assoc. congruence. }
    destruct X. congruence.
Qed.

(** Skipping white space. *)
Lemma space_ascii : forall x, space x -> x < 128.
Proof. unfold space. simpl. intros. lia. Qed.

Lemma space_loop_spec : forall x l sp r,
  span is_ascii_whitespace x = (sp, r) -> space_loop x l = nexts (length sp) l.
Proof.
  induction x; simpl; intros l d r H; [inversion H; reflexivity|].
  destruct (is_ascii_whitespace a); simpl.
  - destruct (span is_ascii_whitespace x). inversion H; subst. simpl. eapply IHx. reflexivity.
  - inversion H; reflexivity.
Qed.

Lemma space_step : forall s c items l sp t,
  at_ s c items l -> lrest l = sp ++ t -> Forall space sp -> sp <> [] ->
  at_ s (c ++ sp) items (jump (nexts (length sp) l)) /\
  lrest (jump (nexts (length sp) l)) = t.
Proof.
  intros s c items l sp t A E S N.
  destruct (moved_nexts _ _ _ _ _ _ (at_moved _ _ _ _ A) E) as [M E'].
  split; [|exact E'].
  destruct A. destruct M. constructor; simpl; try congruence; auto.
  - apply boundary_iff; [assumption|]. destruct sp as [|x sp] using rev_ind; [congruence|].
    exists sp, x. split; [reflexivity|]. apply space_ascii.
    apply Forall_app in S. destruct S as [_ S]. inversion S; assumption.
  - apply laid_gaps; assumption.
Qed.

Lemma span_ws_nonspace : forall sp t,
  Forall space sp -> ~ starts space t -> span is_ascii_whitespace (sp ++ t) = (sp, t).
Proof. intros. apply (span_complete _ _ space_iff); assumption. Qed.

(** Every item other than a line comment ends with an ASCII character. *)
Lemma lexeme_nonempty : forall k w, lexeme k w -> w <> [].
Proof.
  intros k w L. destruct L; try discriminate.
  - destruct H as (s & I & ->). unfold spellings in I. simpl In in I.
    repeat destruct I as [I|I]; try (destruct I; fail); inversion I; subst; discriminate.
  - destruct (reserved_word _ _ H) as (c & b & -> & _). discriminate.
  - assumption.
  - destruct d; [congruence | discriminate].
Qed.

Lemma idchar_ascii : forall c, idchar c -> c < 128.
Proof. unfold idchar, nondigit, letter, digit. intros. lia. Qed.

Lemma forall_last : forall (P : N -> Prop) w, w <> [] -> Forall P w -> exists u x, w = u ++ [x] /\ P x.
Proof.
  intros P w N F. destruct w as [|x w] using rev_ind; [congruence|].
  exists w, x. split; [reflexivity|]. apply Forall_app in F. destruct F as [_ F].
  inversion F; assumption.
Qed.

Lemma forall_ends : forall (P : N -> Prop) w, (forall c, P c -> c < 128) -> w <> [] -> Forall P w ->
  ends_ascii w.
Proof.
  intros P w H N F. destruct (forall_last _ _ N F) as (u & x & -> & X). exists u, x. auto.
Qed.

Lemma ends_app : forall a b, ends_ascii b -> ends_ascii (a ++ b).
Proof. intros a b (u & x & -> & H). exists (a ++ u), x. rewrite app_assoc. auto. Qed.

Lemma lexeme_ends_ascii : forall k w, lexeme k w -> k <> TLineComment -> ends_ascii w.
Proof.
  intros k w L N. destruct L; try congruence.
  - destruct H as (s & I & ->). unfold spellings in I. simpl In in I.
    repeat destruct I as [I|I]; try (destruct I; fail); inversion I; subst;
      apply ends_ascii_iff; reflexivity.
  - destruct (reserved_word _ _ H) as (c & b & -> & C & B).
    apply (forall_ends idchar); [apply idchar_ascii | discriminate|].
    constructor; [left|]; assumption.
  - apply (forall_ends idchar); [apply idchar_ascii | discriminate|].
    constructor; [left|]; assumption.
  - exists (squote :: b), squote. split; [reflexivity | unfold squote; lia].
  - exists (dquote :: b), dquote. split; [reflexivity | unfold dquote; lia].
  - apply (forall_ends digit); auto. unfold digit. intros. lia.
  - destruct H2 as [->|(m & s & x & M & S & D & ->)].
    + rewrite app_nil_r. destruct H1 as [->|(g & G & ->)]; [destruct H3; congruence|].
      apply ends_app. apply (forall_ends (fun c => c < 128)); auto; [discriminate|].
      constructor; [unfold dot; lia|]. eapply Forall_impl; [|exact G]. unfold digit. intros. lia.
    + rewrite app_assoc. apply ends_app. apply (forall_ends (fun c => c < 128)); auto; [discriminate|].
      constructor; [unfold exp_mark in M; lia|]. apply Forall_app. split.
      * destruct S as [->|(c & C & ->)]; constructor; auto. unfold sign in C. lia.
      * eapply Forall_impl; [|exact D]. unfold digit. intros. lia.
  - exists (slash :: star :: x ++ [star]), slash. split; [|unfold slash; lia].
    simpl. rewrite <- app_assoc. reflexivity.
  - exists [slash; star], slash. split; [reflexivity | unfold slash; lia].
Qed.

Lemma lexeme_starts : forall k w, lexeme k w -> exists c b, w = c :: b /\ ~ space c.
Proof.
  assert (X : forall c, nondigit c \/ digit c -> ~ space c).
  { unfold nondigit, digit, letter, space. simpl. intros. lia. }
  intros k w L. destruct L.
  - destruct H as (s & I & ->). unfold spellings in I. simpl In in I.
    repeat destruct I as [I|I]; try (destruct I; fail); inversion I; subst;
      (eexists; eexists; split; [reflexivity|]); unfold space; vm_compute; intuition discriminate.
  - destruct (reserved_word _ _ H) as (c & b & -> & C & B). eauto 6.
  - eauto 6.
  - eexists; eexists; split; [reflexivity|]. unfold space, squote. simpl. lia.
  - eexists; eexists; split; [reflexivity|]. unfold space, dquote. simpl. lia.
  - destruct d; [congruence|]. inversion H0; subst. eauto 6.
  - destruct d; [congruence|]. inversion H0; subst. simpl. eauto 6.
  - eexists; eexists; split; [reflexivity|]. unfold space, slash. simpl. lia.
  - eexists; eexists; split; [reflexivity|]. unfold space, slash. simpl. lia.
  - eexists; eexists; split; [reflexivity|]. unfold space, slash. simpl. lia.
Qed.

(** One call of [lex_source] without leading white space. *)
Lemma item_step : forall s c items l x r fuel,
  at_ s c items l -> lrest l = x :: r -> ~ space x ->
  match scan_item x r with
  | Some (k, w, t) =>
      if ends_ascii_b w
      then exists l' tok, lex_source (S fuel) l = Ok l' /\
             at_ s (c ++ w) (items ++ [tok]) l' /\ item_of tok = (k, w) /\ lrest l' = t
      else lex_source (S fuel) l = Panic PSlice
  | None => exists l', lex_source (S fuel) l = Ok l' /\ lerrs l' <> []
  end.
Proof.
  intros s c items l x r fuel A E NS.
  assert (W : is_ascii_whitespace x = false).
  { destruct (is_ascii_whitespace x) eqn:W; [|reflexivity]. apply space_iff in W. contradiction. }
  assert (F : follows l (scan_item x r) (lex_source (S fuel) l)).
  { apply follows_item; auto. intros t SL.
    destruct (span is_idchar r) as [w r'] eqn:SP. simpl fst in *.
    apply span_app in SP.
    assert (E1 : lrest l = (x :: w) ++ r') by (rewrite E, SP; reflexivity).
    destruct (token_step _ _ _ _ _ _ TIdentifier A E1) as [T1 T2]; [discriminate|].
    unfold generate_token in T1, T2. simpl length in T1, T2. rewrite SL in T1, T2.
    destruct (ends_ascii_b (x :: w)) eqn:EA.
    - apply ends_ascii_iff in EA. destruct (T1 EA) as (l' & tok & Q & AT & IT & _).
      simpl bind in Q.
      (* the text of the token is [t] and also [x :: w] *)
      destruct (moved_nexts _ _ _ _ _ _ (at_moved _ _ _ _ A) E1) as [M _].
      destruct A, M. simpl length in *. destruct mv_pos0 as [_ W2].
      pose proof (proj1 (boundary_iff c (x :: w) ltac:(discriminate)) EA) as B.
      rewrite mv_src0, at_src0, mv_start0, at_start0, W2, <- B, mv_split0 in SL.
      destruct at_pos0 as [_ P]. rewrite P, <- at_bound0 in SL.
      rewrite <- app_assoc, slice_app in SL. congruence.
    - exfalso. assert (NE : ~ ends_ascii (x :: w)).
      { rewrite <- ends_ascii_iff. congruence. }
      specialize (T2 NE). discriminate. }
  destruct (scan_item x r) as [[[k w] t]|] eqn:SC; unfold follows in F.
  - destruct F as [F1 F2].
    destruct (scan_item_sound _ _ _ _ _ SC) as (S1 & S2 & S3).
    destruct (token_step _ _ _ _ _ _ k A F2 (lexeme_nonempty _ _ S2)) as [T1 T2].
    rewrite F1. destruct (ends_ascii_b w) eqn:EA.
    + apply ends_ascii_iff in EA. apply T1. assumption.
    + apply T2. rewrite <- ends_ascii_iff. congruence.
  - exact F.
Qed.

(** One call of [lex_source] in general. *)
Lemma source_step : forall s c items l fuel sp r,
  at_ s c items l -> (length (lrest l) < fuel)%nat ->
  span is_ascii_whitespace (lrest l) = (sp, r) ->
  match r with
  | [] => exists l', lex_source fuel l = Ok l' /\ lateof l' = true /\ lerrs l' = [] /\
            ltoks l' = ltoks l /\ lcoms l' = lcoms l /\ laid space s items
  | x :: r' =>
      match scan_item x r' with
      | Some (k, w, t) =>
          if ends_ascii_b w
          then exists l' tok, lex_source fuel l = Ok l' /\
                 at_ s ((c ++ sp) ++ w) (items ++ [tok]) l' /\ item_of tok = (k, w) /\ lrest l' = t
          else lex_source fuel l = Panic PSlice
      | None => exists l', lex_source fuel l = Ok l' /\ lerrs l' <> []
      end
  end.
Proof.
  intros s c items l fuel sp r A F SP.
  pose proof (span_app _ _ _ _ SP) as E.
  destruct (span_sound _ _ space_iff _ _ _ SP) as [S1 S2].
  destruct sp as [|y sp].
  - simpl in E. destruct r as [|x r].
    + destruct fuel as [|fuel]; [lia|]. cbn [lex_source]. unfold peek. rewrite E.
      eexists. split; [reflexivity|]. unfold next. rewrite E. simpl.
      destruct A. rewrite E, app_nil_r in at_split0. subst. auto 6.
    + destruct fuel as [|fuel]; [lia|]. rewrite app_nil_r.
      apply item_step with (fuel := fuel) (2 := E) (1 := A). rewrite starts_cons in S2. assumption.
  - destruct fuel as [|fuel]; [lia|]. inversion S1; subst.
    assert (Q : lex_source (S fuel) l = lex_source fuel (jump (nexts (length (y :: sp)) l))).
    { cbn [lex_source]. unfold peek. rewrite E. cbn [app].
      assert (W : is_ascii_whitespace y = true) by (apply space_iff; assumption).
      assert (L : lookup_char y single_char = None).
      { destruct (lookup_char y single_char) eqn:L; [|reflexivity]. exfalso.
        apply lookup_char_in in L. destruct L as (a & I & ->). unfold space in H1. simpl In in I, H1.
        repeat destruct I as [I|I]; try (inversion I; subst; chv; lia); destruct I. }
      assert (Z : forall a, ~ space (ch a) -> y =? ch a = false).
      { intros a N. apply N.eqb_neq. intros ->. contradiction. }
      rewrite L, !Z by (unfold space; vm_compute; intuition discriminate). rewrite W.
      f_equal. f_equal. simpl length. cbn [nexts].
      eapply space_loop_spec with (r := r). rewrite next_rest, E. cbn [app tl].
      rewrite E in SP. cbn [app span] in SP. rewrite W in SP.
      destruct (span is_ascii_whitespace (sp ++ r)) as [a b]. inversion SP; subst. reflexivity. }
    assert (NE : y :: sp <> []) by discriminate.
    destruct (space_step _ _ _ _ _ _ A E S1 NE) as [A' E'].
    rewrite Q. set (l1 := jump (nexts (length (y :: sp)) l)) in *.
    assert (F' : (length (lrest l1) < fuel)%nat).
    { rewrite E'. rewrite E, app_length in F. simpl in F. lia. }
    destruct r as [|x r].
    + destruct fuel as [|fuel]; [lia|]. cbn [lex_source]. unfold peek. rewrite E'.
      eexists. split; [reflexivity|]. unfold next. rewrite E'. simpl.
      destruct A, A'. rewrite E', app_nil_r in at_split1. subst s. split; [reflexivity|].
      repeat split; auto; try congruence; [rewrite at_toks0; exact at_toks1 | rewrite at_coms0; exact at_coms1].
    + destruct fuel as [|fuel]; [lia|].
      apply item_step with (fuel := fuel) (2 := E') (1 := A'). rewrite starts_cons in S2. assumption.
Qed.

(** ** Shape of [lexes] derivations *)
Lemma lexes_inv : forall r its, lexes r its ->
  match its with
  | [] => Forall space r
  | (k, w) :: its' => exists sp t, r = sp ++ w ++ t /\ Forall space sp /\ lexeme k w /\
                        follow_ok k w t /\ lexes t its'
  end.
Proof.
  induction 1.
  - constructor.
  - destruct items as [|[k w] its]; [constructor; assumption|].
    destruct IHlexes as (sp & t & -> & S & L & F & X).
    exists (c :: sp), t. repeat split; auto.
  - exists [], r. auto.
Qed.

Lemma lexes_spaces : forall sp r its, Forall space sp -> lexes r its -> lexes (sp ++ r) its.
Proof. induction 1; intros; simpl; [assumption|]. constructor; auto. Qed.

Lemma lexes_all_space : forall sp, Forall space sp -> lexes sp [].
Proof. intros. rewrite <- (app_nil_r sp). apply lexes_spaces; [assumption | constructor]. Qed.

Lemma spaces_span : forall sp, Forall space sp -> span is_ascii_whitespace sp = (sp, []).
Proof.
  intros sp H. rewrite <- (app_nil_r sp) at 1. apply span_ws_nonspace; [assumption | apply starts_nil].
Qed.

Lemma item_span : forall sp k w t, Forall space sp -> lexeme k w -> follow_ok k w t ->
  exists c b, w = c :: b /\ span is_ascii_whitespace (sp ++ w ++ t) = (sp, c :: b ++ t) /\
    scan_item c (b ++ t) = Some (k, w, t).
Proof.
  intros sp k w t S L F. destruct (scan_item_complete _ _ _ L F) as (c & b & -> & N & Q).
  exists c, b. split; [reflexivity|]. split; [|assumption]. cbn [app].
  apply span_ws_nonspace; [assumption|]. rewrite starts_cons. assumption.
Qed.

Definition comments_ascii (its : list (tkind * text)) : Prop :=
  forall w, In (TLineComment, w) its -> ends_ascii w.

Definition final (s : text) (items : list token) (l' : lexer) : Prop :=
  lerrs l' = [] /\ laid space s items /\
  ltoks l' = rev (filter plain items) /\ lcoms l' = rev (filter commentary items).

Lemma tokenize_sound : forall f s c items l l',
  at_ s c items l -> (length (lrest l) + 2 <= f)%nat ->
  tokenize f l = Ok l' -> lerrs l' = [] ->
  exists items', lexes (lrest l) (map item_of items') /\ comments_ascii (map item_of items') /\
    final s (items ++ items') l'.
Proof.
  induction f; intros s c items l l' A F T NE; [lia|].
  assert (F' : (length (lrest l) < S f)%nat) by lia.
  cbn [tokenize] in T. rewrite (at_eof _ _ _ _ A) in T.
  destruct (span is_ascii_whitespace (lrest l)) as [sp r] eqn:SP.
  pose proof (source_step _ _ _ _ _ _ _ A F' SP) as ST.
  pose proof (span_app _ _ _ _ SP) as E.
  destruct (span_sound _ _ space_iff _ _ _ SP) as [S1 S2].
  destruct r as [|x r].
  - destruct ST as (l1 & Q & AE & ER & T1 & T2 & D). rewrite Q in T. simpl bind in T.
    assert (l1 = l').
    { destruct f; cbn [tokenize] in T; rewrite AE in T; congruence. }
    subst l1. exists []. rewrite app_nil_r in *. rewrite E. split; [apply lexes_all_space; assumption|].
    split; [intros w []|]. destruct A. repeat split; auto; congruence.
  - destruct (scan_item x r) as [[[k w] t]|] eqn:SC.
    + destruct (scan_item_sound _ _ _ _ _ SC) as (E1 & L & FO).
      destruct (ends_ascii_b w) eqn:EA.
      2:{ rewrite ST in T. discriminate. }
      destruct ST as (l1 & tok & Q & A' & IT & ER). rewrite Q in T. simpl bind in T.
      assert (W : w <> []) by (eapply lexeme_nonempty; eauto).
      assert (F1 : (length (lrest l1) + 2 <= f)%nat).
      { rewrite ER. rewrite E, E1, !app_length in F. destruct w; [congruence|]. simpl in F. lia. }
      destruct (IHf _ _ _ _ _ A' F1 T NE) as (items' & X1 & X2 & X3).
      exists (tok :: items'). split; [|split].
      * rewrite E, E1. apply lexes_spaces; [assumption|]. cbn [map]. rewrite IT.
        constructor; auto. rewrite <- ER. assumption.
      * cbn [map]. rewrite IT. intros v [V|V]; [|apply X2; assumption].
        inversion V; subst. apply ends_ascii_iff. assumption.
      * rewrite <- app_assoc in X3. exact X3.
    + exfalso. destruct ST as (l1 & Q & ER). rewrite Q in T. simpl bind in T.
      assert (R : reach l1 (tokenize f l1)).
      { apply reach_tokenize. destruct (source_progress _ _ _ F' Q); [left; lia | right; assumption]. }
      rewrite T in R. simpl in R. apply prims_errs in R. destruct R as [e R]. rewrite NE in R.
      destruct e; simpl in R; [congruence | discriminate].
Qed.

Lemma tokenize_complete : forall its f s c items l,
  at_ s c items l -> (length (lrest l) + 2 <= f)%nat -> lexes (lrest l) its ->
  (comments_ascii its ->
   exists l' items', tokenize f l = Ok l' /\ map item_of items' = its /\
     final s (items ++ items') l') /\
  (~ comments_ascii its -> tokenize f l = Panic PSlice).
Proof.
  induction its as [|[k w] its IH]; intros f s c items l A F X.
  - apply lexes_inv in X. apply spaces_span in X.
    destruct f; [lia|]. assert (F' : (length (lrest l) < S f)%nat) by lia.
    destruct (source_step _ _ _ _ _ _ _ A F' X) as (l1 & Q & AE & ER & T1 & T2 & D).
    assert (T : tokenize (S f) l = Ok l1).
    { cbn [tokenize]. rewrite (at_eof _ _ _ _ A), Q. simpl bind.
      destruct f; cbn [tokenize]; rewrite AE; reflexivity. }
    split.
    + intros _. exists l1, []. rewrite app_nil_r. split; [assumption|]. split; [reflexivity|].
      destruct A. repeat split; auto; congruence.
    + intros N. exfalso. apply N. intros v [].
  - apply lexes_inv in X. destruct X as (sp & t & E & SS & L & FO & X).
    destruct (item_span _ _ _ _ SS L FO) as (y & b & E1 & SP & SC). rewrite <- E in SP.
    destruct f; [lia|]. assert (F' : (length (lrest l) < S f)%nat) by lia.
    pose proof (source_step _ _ _ _ _ _ _ A F' SP) as ST. cbv beta iota in ST. rewrite SC in ST.
    destruct (ends_ascii_b w) eqn:EA.
    + apply ends_ascii_iff in EA. destruct ST as (l1 & tok & Q & A' & IT & ER).
      assert (T : tokenize (S f) l = tokenize f l1).
      { cbn [tokenize]. rewrite (at_eof _ _ _ _ A), Q. reflexivity. }
      assert (F1 : (length (lrest l1) + 2 <= f)%nat).
      { rewrite ER. rewrite E, E1, !app_length in F. simpl in F. lia. }
      rewrite <- ER in X. destruct (IH _ _ _ _ _ A' F1 X) as [H1 H2]. rewrite T. split.
      * intro CA. destruct H1 as (l2 & items' & T' & M & FN).
        { intros v V. apply CA. right. assumption. }
        exists l2, (tok :: items'). split; [assumption|]. cbn [map]. rewrite IT, M.
        split; [reflexivity|]. rewrite <- app_assoc in FN. exact FN.
      * intro N. apply H2. intro CA. apply N. intros v [V|V]; [|apply CA; assumption].
        inversion V; subst. assumption.
    + assert (NA : ~ ends_ascii w) by (rewrite <- ends_ascii_iff; congruence).
      assert (k = TLineComment).
      { destruct (tkind_eq_dec k TLineComment); [assumption|]. exfalso. apply NA.
        eapply lexeme_ends_ascii; eauto. }
      subst k. split.
      * intro CA. exfalso. apply NA, CA. left. reflexivity.
      * intros _. cbn [tokenize]. rewrite (at_eof _ _ _ _ A), ST. reflexivity.
Qed.

(** ** The theorems *)
Theorem lex_sound : forall s toks coms,
  lex s = Ok (toks, coms, []) ->
  exists items,
    lexes s (map item_of items) /\ comments_ascii (map item_of items) /\
    laid space s items /\ toks = filter plain items /\ coms = filter commentary items.
Proof.
  unfold lex; intros s toks coms H.
  destruct (tokenize (length s + 2) (lexer_new s)) as [l'| |] eqn:T; simpl in H; try discriminate.
  inversion H as [[H1 H2 H3]].
  destruct (tokenize_sound _ _ _ _ _ _ (at_new s) (le_n _) T) as (items & X1 & X2 & X3).
  { rewrite <- (rev_involutive (lerrs l')), H3. reflexivity. }
  destruct X3 as (Y1 & Y2 & Y3 & Y4). exists items. simpl in *.
  rewrite Y3, Y4, !rev_involutive. auto 6.
Qed.

Theorem lex_complete : forall s its,
  lexes s its -> comments_ascii its ->
  exists items, lex s = Ok (filter plain items, filter commentary items, []) /\
    map item_of items = its /\ laid space s items.
Proof.
  intros s its X CA. unfold lex.
  destruct (tokenize_complete _ (length s + 2) _ _ _ _ (at_new s) (le_n _) X) as [H _].
  destruct (H CA) as (l' & items & T & M & Y1 & Y2 & Y3 & Y4). rewrite T. simpl bind.
  exists items. simpl in *. rewrite Y3, Y4, Y1, !rev_involutive. auto.
Qed.

Theorem lex_crash : forall s its,
  lexes s its -> ~ comments_ascii its -> lex s = Panic PSlice.
Proof.
  intros s its X CA. unfold lex.
  destruct (tokenize_complete _ (length s + 2) _ _ _ _ (at_new s) (le_n _) X) as [_ H].
  rewrite (H CA). reflexivity.
Qed.
