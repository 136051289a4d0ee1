(** Properties C01-C10: tokenizing. *)
From Verif Require Import ProofBase Tokens Lexer SpecLex LexInv LexScan LexSpecProofs LexMain LexFacts.
From Coq Require Import Permutation Sorted.

(** A concrete source with tokens of all classes, two comments and white space. *)
Definition sample : text :=
  str "model M // note" ++ [10] ++ str "  'a b' := 1.5e-3 .* x1 /* c */ ""s\""t"";" ++ [10].

(** ** C01 *)
Theorem C01_lexer_terminates : forall s, lex s <> OutOfFuel.
Proof. exact lex_terminates. Qed.
Print Assumptions C01_lexer_terminates.

(** ** C02: the source is the items in order with only white space in between. *)
Theorem C02_lossless : forall s toks coms,
  lex s = Ok (toks, coms, []) ->
  exists items,
    laid space s items /\
    toks = filter plain items /\ coms = filter commentary items.
Proof.
  intros s toks coms H. destruct (lex_sound _ _ _ H) as (items & _ & _ & L & T & C). eauto.
Qed.
Print Assumptions C02_lossless.

Example C02_applies : exists toks coms, lex sample = Ok (toks, coms, []) /\
  map item_of toks =
    [(TModel, str "model"); (TIdentifier, str "M"); (TIdentifier, str "'a b'"); (TAssign, str ":=");
     (TUReal, str "1.5e-3"); (TDotStar, str ".*"); (TIdentifier, str "x1");
     (TString, str """s\""t"""); (TSemicolon, str ";")] /\
  map item_of coms = [(TLineComment, str "// note"); (TBlockComment, str "/* c */")].
Proof. eexists; eexists; vm_compute; repeat split. Qed.

(** ** C03: with or without errors, every token and comment is where it says it is. *)
Theorem C03_positions : forall s toks coms errs t,
  lex s = Ok (toks, coms, errs) -> In t (toks ++ coms) ->
  exists pre post,
    s = pre ++ ttext t ++ post /\
    coords_after pre (tstart t) /\ pos (tstart t) = bytes_of pre /\
    coords_after (pre ++ ttext t) (tend t) /\ pos (tend t) = bytes_of (pre ++ ttext t).
Proof.
  intros s toks coms errs t H I. destruct (lex_laid _ _ _ _ H) as (items & L & T & C & _).
  eapply laid_truthful; [exact L|]. subst. apply in_app_or in I.
  destruct I as [I|I]; apply filter_In in I; tauto.
Qed.
Print Assumptions C03_positions.

Example C03_applies : exists toks coms errs t,
  lex (str "a $" ++ [10] ++ str " bc") = Ok (toks, coms, errs) /\ errs <> [] /\ In t toks /\
  ttext t = str "bc" /\ tstart t = mkPos 5 2 2.
Proof.
  eexists; eexists; eexists; eexists. split; [vm_compute; reflexivity|].
  split; [discriminate|]. split; [right; left; reflexivity|]. split; reflexivity.
Qed.

(** ** C04: indices enumerate all items; each collection is sorted. *)
Theorem C04_indices : forall s toks coms errs,
  lex s = Ok (toks, coms, errs) ->
  Permutation (map tidx (toks ++ coms)) (map N.of_nat (seq 0 (length (toks ++ coms)))) /\
  StronglySorted N.lt (map tidx toks) /\ StronglySorted N.lt (map tidx coms).
Proof.
  intros s toks coms errs H. destruct (lex_laid _ _ _ _ H) as (items & L & T & C & _).
  assert (P : Permutation items (toks ++ coms)).
  { subst. clear. induction items as [|a l IH]; simpl; [constructor|].
    unfold plain at 1, commentary at 1. destruct (is_comment_kind (tkind_of a)); simpl.
    - rewrite IH at 1. apply Permutation_middle.
    - constructor. exact IH. }
  split; [|split].
  - rewrite <- (Permutation_length P), <- (laid_length_idx _ _ _ L).
    apply Permutation_map. symmetry. exact P.
  - subst. apply filter_increasing with (n := 0). intros. rewrite (laid_idx _ _ _ L _ _ H0). lia.
  - subst. apply filter_increasing with (n := 0). intros. rewrite (laid_idx _ _ _ L _ _ H0). lia.
Qed.
Print Assumptions C04_indices.

Example C04_applies : exists toks coms,
  lex sample = Ok (toks, coms, []) /\
  map tidx toks = [0; 1; 3; 4; 5; 6; 7; 9; 10] /\ map tidx coms = [2; 8].
Proof. eexists; eexists; vm_compute; repeat split. Qed.

(** ** C05: kinds agree with the lexical grammar, and the kind is a function of the text. *)
Theorem C05_kinds : forall s toks coms,
  lex s = Ok (toks, coms, []) ->
  (forall t, In t (toks ++ coms) -> lexeme (tkind_of t) (ttext t)) /\
  (forall t u, In t (toks ++ coms) -> In u (toks ++ coms) -> ttext t = ttext u ->
     tkind_of t = tkind_of u) /\
  (forall t, In t toks -> tkind_of t <> TLineComment /\ tkind_of t <> TBlockComment) /\
  (forall t, In t coms -> tkind_of t = TLineComment \/ tkind_of t = TBlockComment).
Proof.
  intros s toks coms H. destruct (lex_sound _ _ _ H) as (items & X & _ & _ & T & C).
  assert (LX : forall r its, lexes r its -> forall k w, In (k, w) its -> lexeme k w).
  { clear. induction 1; intros; [contradiction | eauto |]. destruct H2 as [H2|H2]; [|eauto].
    inversion H2; subst. assumption. }
  assert (A : forall t, In t (toks ++ coms) -> lexeme (tkind_of t) (ttext t)).
  { intros t I. apply (LX _ _ X). change (tkind_of t, ttext t) with (item_of t).
    apply in_map. subst. apply in_app_or in I. destruct I as [I|I]; apply filter_In in I; tauto. }
  split; [exact A|]. split; [|split].
  - intros t u It Iu E. eapply lexeme_kind_unique; [apply A; exact It|]. rewrite E. apply A, Iu.
  - intros t I. subst. apply filter_In in I. destruct I as [_ I].
    split; intro E; unfold plain in I; rewrite E in I; discriminate.
  - intros t I. subst. apply filter_In in I. destruct I as [_ I].
    unfold commentary, is_comment_kind in I. apply orb_true_iff in I.
    rewrite !tkind_eqb_eq in I. exact I.
Qed.
Print Assumptions C05_kinds.

Example C05_applies : exists toks coms, lex sample = Ok (toks, coms, []) /\
  map tkind_of toks = [TModel; TIdentifier; TIdentifier; TAssign; TUReal; TDotStar; TIdentifier; TString; TSemicolon] /\
  map tkind_of coms = [TLineComment; TBlockComment].
Proof. eexists; eexists. split; [vm_compute; reflexivity|]. split; vm_compute; reflexivity. Qed.

(** ** C06 is false: a line comment ending in a non-ASCII character crashes the lexer;
    so does a byte order mark. *)
Theorem C06_lexer_never_panics_refuted :
  exists s, lex s = Panic PSlice /\ s = str "// " ++ [261].
Proof. eexists; split; [|reflexivity]. vm_compute. reflexivity. Qed.
Print Assumptions C06_lexer_never_panics_refuted.

Example C06_byte_order_mark : lex (65279 :: str "model") = Panic PSlice.
Proof. vm_compute. reflexivity. Qed.

(** The exact crash condition for lexically correct sources. *)
Theorem C06_crash_condition : forall s its,
  lexes s its ->
  (lex s = Panic PSlice <-> exists w, In (TLineComment, w) its /\ ~ ends_ascii w).
Proof.
  intros s its X. split.
  - intro H. destruct (existsb (fun i => tkind_eqb (fst i) TLineComment
                                         && negb (ends_ascii_b (snd i))) its) eqn:E.
    + apply existsb_exists in E. destruct E as ([k w] & I & E). simpl in E.
      apply andb_true_iff in E. destruct E as [E1 E2]. apply tkind_eqb_eq in E1. subst.
      apply negb_true_iff in E2. exists w. split; [exact I|]. rewrite <- ends_ascii_iff. congruence.
    + exfalso. assert (CA : comments_ascii its).
      { intros w I. apply ends_ascii_iff. destruct (ends_ascii_b w) eqn:B; [reflexivity|].
        rewrite <- E. apply existsb_exists. exists (TLineComment, w).
        split; [exact I|]. simpl. rewrite B. reflexivity. }
      destruct (lex_complete _ _ X CA) as (items & Q & _). congruence.
  - intros (w & I & N). apply (lex_crash _ _ X). intro CA. apply N, CA, I.
Qed.
Print Assumptions C06_crash_condition.

Example C06_condition_applies : exists its,
  lexes (str "a // z" ++ [261]) its /\ In (TLineComment, str "// z" ++ [261]) its /\
  ~ ends_ascii (str "// z" ++ [261]).
Proof.
  exists [(TIdentifier, str "a"); (TLineComment, str "// z" ++ [261])].
  split; [|split].
  - apply (lexes_item TIdentifier (str "a") (str " // z" ++ [261])).
    + apply (lx_ident 97 []); [left; right; lia|constructor|].
      intros k (w & I & E). unfold reserved in I. cbn [In] in I.
      repeat destruct I as [I|I]; try contradiction; inversion I; subst; discriminate.
    + right. intros (c & r & E & D). vm_compute in E. inversion E; subst c.
      unfold idchar, nondigit, letter, digit in D. lia.
    + apply lexes_space; [vm_compute; tauto|].
      apply (lexes_item TLineComment (str "// z" ++ [261]) [] []); [|left; reflexivity|constructor].
      apply (lx_line (str " z" ++ [261])). repeat constructor; vm_compute; intuition discriminate.
  - right. left. reflexivity.
  - intro H. apply ends_ascii_iff in H. discriminate.
Qed.

(** ** C07 *)
Theorem C07_ascii_never_panics : forall s p, ascii_text s -> lex s <> Panic p.
Proof. exact lex_ascii_no_panic. Qed.
Print Assumptions C07_ascii_never_panics.

Example C07_applies : ascii_text (str "model $ 'x" ++ [0; 127]).
Proof. repeat constructor. Qed.

Theorem C07_correct_sources_never_panic : forall s its p,
  lexes s its -> comments_ascii its -> lex s <> Panic p.
Proof.
  intros s its p X CA. destruct (lex_complete _ _ X CA) as (items & Q & _). congruence.
Qed.
Print Assumptions C07_correct_sources_never_panic.

Example C07_correct_applies : exists its,
  lexes (str "a ""z" ++ [261] ++ str """ // z" ++ [261] ++ str ".") its /\ comments_ascii its.
Proof.
  assert (E : exists t c, lex (str "a ""z" ++ [261] ++ str """ // z" ++ [261] ++ str ".") = Ok (t, c, []))
    by (eexists; eexists; vm_compute; reflexivity).
  destruct E as (t & c & E). destruct (lex_sound _ _ _ E) as (items & X & CA & _). eauto.
Qed.

(** ** C08 is false: slash star slash is taken as a complete comment. *)
Theorem C08_comment_delimiters_refuted :
  exists s toks c, lex s = Ok (toks, [c], []) /\ tkind_of c = TBlockComment /\
    ~ (exists body, ttext c = [slash; star] ++ body ++ [star; slash]).
Proof.
  exists (str "/*/ a"). eexists; eexists. split; [vm_compute; reflexivity|].
  split; [reflexivity|]. intros (body & E). destruct body as [|x [|y body]]; discriminate.
Qed.
Print Assumptions C08_comment_delimiters_refuted.

(** What holds: delimiters overlap only in that one spelling, and no comment contains an
    earlier end. *)
Lemma block_shape : forall w, lexeme TBlockComment w ->
  w = [slash; star; slash] \/
  exists body, w = [slash; star] ++ body ++ [star; slash] /\ ~ has_close (body ++ [star]).
Proof.
  intros w L. inversion L; subst.
  - exfalso. destruct H as (s & I & _). unfold spellings in I. simpl In in I.
    repeat destruct I as [I|I]; try (destruct I; fail); discriminate.
  - exfalso. destruct H as (s & I & _). unfold reserved in I. simpl In in I.
    repeat destruct I as [I|I]; try (destruct I; fail); discriminate.
  - right. exists x. split; [reflexivity|]. intros (u & v & E). match goal with N : ~ has_close _ |- _ => apply N end.
    exists (star :: u), v. simpl. rewrite E. reflexivity.
  - left. reflexivity.
Qed.

Theorem C08_block_comments : forall s toks coms c,
  lex s = Ok (toks, coms, []) -> In c coms -> tkind_of c = TBlockComment ->
  ttext c = [slash; star; slash] \/
  exists body, ttext c = [slash; star] ++ body ++ [star; slash] /\ ~ has_close (body ++ [star]).
Proof.
  intros s toks coms c H I K. apply block_shape. rewrite <- K.
  apply (proj1 (C05_kinds _ _ _ H)). apply in_or_app. right. exact I.
Qed.
Print Assumptions C08_block_comments.

Example C08_applies : exists toks c, lex (str "a /* * / ** */ b */") = Ok (toks, [c], []) /\
  tkind_of c = TBlockComment /\ ttext c = str "/* * / ** */".
Proof. eexists; eexists. split; [vm_compute; reflexivity|]. split; reflexivity. Qed.

(** ** C09 is false: an exponent marker without digits is accepted. *)
Theorem C09_exponent_digits_refuted :
  exists s t, lex s = Ok ([t], [], []) /\ tkind_of t = TUReal /\ ttext t = str "1e".
Proof. exists (str "1e"). eexists. vm_compute. repeat split. Qed.
Print Assumptions C09_exponent_digits_refuted.

Theorem C09_numbers : forall s toks coms t,
  lex s = Ok (toks, coms, []) -> In t toks -> tkind_of t = TUReal ->
  exists d f e, ttext t = d ++ f ++ e /\ d <> [] /\ Forall digit d /\
    (f = [] \/ exists g, Forall digit g /\ f = dot :: g) /\
    (e = [] \/ exponent e) /\ (f <> [] \/ e <> []).
Proof.
  intros s toks coms t H I K.
  assert (L : lexeme TUReal (ttext t)).
  { rewrite <- K. apply (proj1 (C05_kinds _ _ _ H)). apply in_or_app. left. exact I. }
  inversion L; subst.
  - exfalso. destruct H0 as (x & J & _). unfold spellings in J. simpl In in J.
    repeat destruct J as [J|J]; try (destruct J; fail); discriminate.
  - exfalso. destruct H0 as (x & J & _). unfold reserved in J. simpl In in J.
    repeat destruct J as [J|J]; try (destruct J; fail); discriminate.
  - exists d, f, e. auto 8.
Qed.
Print Assumptions C09_numbers.

Example C09_applies : exists t, lex (str "12.5E+07") = Ok ([t], [], []) /\ tkind_of t = TUReal.
Proof. eexists. vm_compute. split; reflexivity. Qed.

(** ** C10: no lexical error exactly if the source is a sequence of lexemes and white space;
    errors point into the source. *)
Theorem C10_errors_iff : forall s toks coms errs,
  lex s = Ok (toks, coms, errs) ->
  (errs = [] <-> exists its, lexes s its) /\
  Forall (fun e => points_at s (eline e) (ecol e)) errs.
Proof.
  intros s toks coms errs H. split.
  - split.
    + intros ->. destruct (lex_sound _ _ _ H) as (items & X & _). eauto.
    + intros (its & X).
      assert (D : comments_ascii its \/ ~ comments_ascii its).
      { destruct (forallb (fun i => negb (tkind_eqb (fst i) TLineComment)
                                    || ends_ascii_b (snd i)) its) eqn:E.
        - left. intros w I. rewrite forallb_forall in E. apply E in I. simpl in I.
          apply ends_ascii_iff. exact I.
        - right. intro CA. assert (F : forallb (fun i => negb (tkind_eqb (fst i) TLineComment)
                                    || ends_ascii_b (snd i)) its = true); [|congruence].
          apply forallb_forall. intros [k w] I. simpl.
          destruct (tkind_eqb k TLineComment) eqn:K; [|reflexivity]. simpl.
          apply tkind_eqb_eq in K. subst. apply ends_ascii_iff, CA, I. }
      destruct D as [CA|CA].
      * destruct (lex_complete _ _ X CA) as (items & Q & _). congruence.
      * pose proof (lex_crash _ _ X CA). congruence.
  - destruct (lex_laid _ _ _ _ H) as (items & _ & _ & _ & E & _). exact E.
Qed.
Print Assumptions C10_errors_iff.

Example C10_applies : exists toks coms e,
  lex (str "a" ++ [10] ++ str " ""open") = Ok (toks, coms, [e]) /\ eline e = 2 /\ ecol e = 2.
Proof. eexists; eexists; eexists. vm_compute. repeat split. Qed.

(** The decomposition into items is unique. *)
Theorem C10_items_unique : forall s its its', lexes s its -> lexes s its' -> its = its'.
Proof. intros s its its'. apply lexes_unique. Qed.
Print Assumptions C10_items_unique.

Example C10_unique_applies : exists its, lexes sample its /\ length its = 11%nat.
Proof.
  assert (E : exists t c, lex sample = Ok (t, c, [])) by (eexists; eexists; vm_compute; reflexivity).
  destruct E as (t & c & E). destruct (lex_sound _ _ _ E) as (items & X & _ & _ & T & C).
  exists (map item_of items). split; [exact X|]. rewrite map_length.
  assert (length items = length (filter plain items) + length (filter commentary items))%nat as ->.
  { clear. induction items as [|x items IH]; [reflexivity|]. cbn [filter]. unfold plain at 1.
    unfold commentary at 1. destruct (is_comment_kind (tkind_of x)); cbn [negb length]; lia. }
  rewrite <- T, <- C. vm_compute in E. injection E as <- <-. reflexivity.
Qed.
