(** The scanner recognises exactly the lexemes of the specification. *)
From Verif Require Import ProofBase Tokens Lexer SpecLex LexInv LexScan.

(** ** Character classes *)
Lemma digit_iff : forall c, is_ascii_digit c = true <-> digit c.
Proof.
  intro c. unfold is_ascii_digit, digit. rewrite andb_true_iff, !N.leb_le. reflexivity.
Qed.

Lemma alpha_iff : forall c, is_ascii_alphabetic c = true <-> letter c.
Proof.
  intro c. unfold is_ascii_alphabetic, letter.
  rewrite orb_true_iff, !andb_true_iff, !N.leb_le. reflexivity.
Qed.

Lemma nondigit_iff : forall c, is_ascii_alphabetic c || (c =? ch "_") = true <-> nondigit c.
Proof.
  intro c. unfold nondigit. rewrite orb_true_iff, alpha_iff, N.eqb_eq. reflexivity.
Qed.

Lemma idchar_iff : forall c, is_idchar c = true <-> idchar c.
Proof.
  intro c. unfold is_idchar, is_ascii_alphanumeric, idchar, nondigit.
  rewrite !orb_true_iff, alpha_iff, digit_iff, N.eqb_eq. change (ch "_") with 95. tauto.
Qed.

Lemma space_iff : forall c, is_ascii_whitespace c = true <-> space c.
Proof.
  intro c. unfold is_ascii_whitespace, space. simpl In.
  rewrite !orb_true_iff, !N.eqb_eq. intuition congruence.
Qed.

Lemma newline_iff : forall c, not_newline c = true <-> ~ newline_char c.
Proof.
  intro c. unfold not_newline, newline_char. rewrite negb_true_iff, orb_false_iff, !N.eqb_neq.
  intuition congruence.
Qed.

Lemma contains_iff : forall t c, contains_char t c = true <-> In c t.
Proof.
  intros. unfold contains_char. rewrite existsb_exists. split.
  - intros (x & I & E). apply N.eqb_eq in E. subst. assumption.
  - intro I. exists c. split; [assumption | apply N.eqb_refl].
Qed.

Lemma qchar_iff : forall c, is_qchar c = true <-> qchar c.
Proof.
  intro c. unfold is_qchar, qchar. rewrite orb_true_iff, contains_iff.
  change (is_ascii_alphanumeric c || (c =? ch "_")) with (is_idchar c).
  rewrite idchar_iff. reflexivity.
Qed.

Lemma starts_cons : forall P c r, starts P (c :: r) <-> P c.
Proof.
  intros; split.
  - intros (x & y & E & H). inversion E; subst. assumption.
  - intro H. exists c, r. auto.
Qed.

Lemma starts_nil : forall P, ~ starts P [].
Proof. intros P (x & y & E & H). discriminate. Qed.

Lemma starts_impl : forall (P Q : N -> Prop) r, (forall c, P c -> Q c) -> starts P r -> starts Q r.
Proof. intros P Q r H (c & t & E & X). exists c, t. auto. Qed.

(** ** Spans and optional characters *)
Section Spans.
  Variable p : N -> bool.
  Variable P : N -> Prop.
  Hypothesis pP : forall c, p c = true <-> P c.

  Lemma span_sound : forall r a b, span p r = (a, b) -> Forall P a /\ ~ starts P b.
  Proof.
    induction r as [|c r IH]; simpl; intros a b H.
    - inversion H; subst. split; [constructor | apply starts_nil].
    - destruct (p c) eqn:E.
      + destruct (span p r) as [x y]. inversion H; subst.
        destruct (IH x b eq_refl). split; [constructor|]; auto. apply pP. assumption.
      + inversion H; subst. split; [constructor|]. rewrite starts_cons, <- pP, E. discriminate.
  Qed.

  Lemma span_complete : forall a b, Forall P a -> ~ starts P b -> span p (a ++ b) = (a, b).
  Proof.
    induction 1; intro NB; simpl.
    - destruct b as [|c b]; [reflexivity|]. simpl. destruct (p c) eqn:E; [|reflexivity].
      exfalso. apply NB. rewrite starts_cons. apply pP. assumption.
    - apply pP in H. rewrite H, IHForall by assumption. reflexivity.
  Qed.
End Spans.

Lemma opt_char_sound : forall s r p t,
  opt_char s r = (p, t) ->
  r = p ++ t /\ ((exists c, In c s /\ p = [c]) \/ (p = [] /\ ~ starts (fun c => In c s) t)).
Proof.
  intros s r p t H. unfold opt_char in H. destruct r as [|c r].
  - inversion H; subst. split; [reflexivity|]. right. split; [reflexivity | apply starts_nil].
  - destruct (contains_char s c) eqn:E; inversion H; subst; split; try reflexivity.
    + left. exists c. rewrite <- contains_iff. auto.
    + right. split; [reflexivity|]. rewrite starts_cons, <- contains_iff, E. discriminate.
Qed.

Lemma opt_char_yes : forall s c t, In c s -> opt_char s (c :: t) = ([c], t).
Proof. intros s c t H. apply contains_iff in H. simpl. rewrite H. reflexivity. Qed.

Lemma opt_char_no : forall s t, ~ starts (fun c => In c s) t -> opt_char s t = ([], t).
Proof.
  intros s [|c t] H; [reflexivity|]. simpl. destruct (contains_char s c) eqn:E; [|reflexivity].
  exfalso. apply H. rewrite starts_cons. apply contains_iff. assumption.
Qed.

(** ** Strings, quoted identifiers and block comments *)
Lemma scan_string_sound : forall n r w t, (length r <= n)%nat ->
  scan_string r = Some (w, t) ->
  r = w ++ t /\ exists b, string_body b /\ w = b ++ [dquote].
Proof.
  induction n; intros [|c r] w t L H; simpl in L; try lia; simpl in H; try discriminate.
  destruct (c =? ch "\") eqn:E1.
  - apply N.eqb_eq in E1. destruct r as [|d r]; [discriminate|]. simpl in L.
    destruct (scan_string r) as [[w' t']|] eqn:S; [|discriminate].
    inversion H; subst. apply IHn in S; [|lia]. destruct S as (-> & b & B & ->).
    split; [reflexivity|]. exists (backslash :: d :: b). split; [constructor; assumption | reflexivity].
  - apply N.eqb_neq in E1. destruct (c =? ch """") eqn:E2.
    + apply N.eqb_eq in E2. inversion H; subst. split; [reflexivity|].
      exists []. split; [constructor | reflexivity].
    + apply N.eqb_neq in E2. destruct (scan_string r) as [[w' t']|] eqn:S; [|discriminate].
      inversion H; subst. apply IHn in S; [|lia]. destruct S as (-> & b & B & ->).
      split; [reflexivity|]. exists (c :: b). split; [constructor; assumption | reflexivity].
Qed.

Lemma scan_string_complete : forall b t,
  string_body b -> scan_string (b ++ dquote :: t) = Some (b ++ [dquote], t).
Proof.
  induction 1; simpl.
  - reflexivity.
  - apply N.eqb_neq in H, H0. change (ch "\") with backslash. change (ch """") with dquote.
    rewrite H, H0, IHstring_body. reflexivity.
  - rewrite IHstring_body. reflexivity.
Qed.

Lemma scan_qident_sound : forall n r w t, (length r <= n)%nat ->
  scan_qident r = Some (w, t) ->
  r = w ++ t /\ exists b, qident_body b /\ w = b ++ [squote].
Proof.
  induction n; intros [|c r] w t L H; simpl in L; try lia; simpl in H; try discriminate.
  destruct (c =? ch "\") eqn:E1.
  - apply N.eqb_eq in E1. destruct r as [|d r]; [discriminate|]. simpl in L.
    destruct (scan_qident r) as [[w' t']|] eqn:S; [|discriminate].
    inversion H; subst. apply IHn in S; [|lia]. destruct S as (-> & b & B & ->).
    split; [reflexivity|]. exists (backslash :: d :: b). split; [constructor; assumption | reflexivity].
  - apply N.eqb_neq in E1. destruct (c =? ch "'") eqn:E2.
    + apply N.eqb_eq in E2. inversion H; subst. split; [reflexivity|].
      exists []. split; [constructor | reflexivity].
    + apply N.eqb_neq in E2. destruct (is_qchar c) eqn:Q; [|discriminate].
      destruct (scan_qident r) as [[w' t']|] eqn:S; [|discriminate].
      inversion H; subst. apply IHn in S; [|lia]. destruct S as (-> & b & B & ->).
      split; [reflexivity|]. exists (c :: b). split; [|reflexivity].
      constructor; [apply qchar_iff|]; assumption.
Qed.

Lemma qchar_not : forall c, qchar c -> c <> 92 /\ c <> 39.
Proof.
  intros c H. unfold qchar, idchar, nondigit, letter, digit in H. simpl In in H. lia.
Qed.

Lemma scan_qident_complete : forall b t,
  qident_body b -> scan_qident (b ++ squote :: t) = Some (b ++ [squote], t).
Proof.
  induction 1; simpl.
  - reflexivity.
  - pose proof (qchar_not _ H) as [H1 H2]. apply N.eqb_neq in H1, H2.
    change (ch "\") with 92. change (ch "'") with 39.
    apply qchar_iff in H. rewrite H1, H2, H, IHqident_body. reflexivity.
  - rewrite IHqident_body. reflexivity.
Qed.

Lemma has_close_cons : forall c w,
  has_close (c :: w) <-> (c = star /\ starts (fun d => d = slash) w) \/ has_close w.
Proof.
  intros c w; split.
  - intros (u & v & E). destruct u as [|x u]; simpl in E; inversion E; subst.
    + left. split; [reflexivity|]. apply starts_cons. reflexivity.
    + right. exists u, v. reflexivity.
  - intros [(-> & d & v & -> & ->)|(u & v & ->)].
    + exists [], v. reflexivity.
    + exists (c :: u), v. reflexivity.
Qed.

Lemma has_close_short : forall c, ~ has_close [c].
Proof.
  intros c (u & v & E). destruct u as [|x [|y u]]; discriminate.
Qed.

Lemma scan_block_sound : forall r w t,
  scan_block r = Some (w, t) ->
  r = w ++ t /\ exists u, w = u ++ [star; slash] /\ ~ has_close (u ++ [star]).
Proof.
  induction r as [|c r IH]; intros w t H; simpl in H; [discriminate|].
  assert (K : scan_block r = Some (tl w, t) -> w = c :: tl w ->
              ~ (c = star /\ starts (fun d => d = slash) r) ->
              c :: r = w ++ t /\ exists u, w = u ++ [star; slash] /\ ~ has_close (u ++ [star])).
  { intros S E NS. apply IH in S. destruct S as (E1 & u & E2 & NC).
    rewrite E, E1. split; [reflexivity|]. exists (c :: u). rewrite E2. split; [reflexivity|].
    simpl. rewrite has_close_cons. intros [[-> ST]|HC]; [|auto]. apply NS. split; [reflexivity|].
    rewrite E1, E2. destruct u; simpl in *.
    - rewrite starts_cons in ST. discriminate.
    - rewrite starts_cons in *. assumption. }
  destruct (c =? ch "*") eqn:E1.
  - destruct r as [|d r]; [discriminate|]. destruct (d =? ch "/") eqn:E2.
    + apply N.eqb_eq in E1, E2. inversion H; subst. split; [reflexivity|]. exists [].
      split; [reflexivity | apply has_close_short].
    + apply N.eqb_neq in E2. destruct (scan_block (d :: r)) as [[w' t']|] eqn:S; [|discriminate].
      inversion H; subst. apply K; [reflexivity | reflexivity|].
      rewrite starts_cons. intros [_ X]. apply E2. exact X.
  - apply N.eqb_neq in E1. destruct (scan_block r) as [[w' t']|] eqn:S; [|discriminate].
    inversion H; subst. apply K; [reflexivity | reflexivity|]. intros [X _]. apply E1. exact X.
Qed.

Lemma scan_block_complete : forall u t,
  ~ has_close (u ++ [star]) -> scan_block (u ++ star :: slash :: t) = Some (u ++ [star; slash], t).
Proof.
  induction u as [|c u IH]; intros t H; simpl.
  - reflexivity.
  - simpl in H. rewrite has_close_cons in H.
    assert (IH' : scan_block (u ++ star :: slash :: t) = Some (u ++ [star; slash], t))
      by (apply IH; tauto).
    destruct (c =? ch "*") eqn:E1.
    + apply N.eqb_eq in E1. destruct u as [|d u]; simpl app in *.
      * rewrite IH'. reflexivity.
      * destruct (d =? ch "/") eqn:E2.
        -- exfalso. apply N.eqb_eq in E2. apply H. left. split; [exact E1|].
           apply starts_cons. exact E2.
        -- rewrite E2, IH'. reflexivity.
    + rewrite IH'. reflexivity.
Qed.

(** ** Numbers *)
Lemma exp_mark_iff : forall c, In c (str "eE") <-> exp_mark c.
Proof. intro c. unfold exp_mark. change (str "eE") with [101; 69]. simpl. intuition congruence. Qed.
Lemma sign_iff : forall c, In c (str "+-") <-> sign c.
Proof. intro c. unfold sign. change (str "+-") with [43; 45]. simpl. intuition congruence. Qed.
Lemma dot_iff : forall c, In c (str ".") <-> c = dot.
Proof. intro c. change (str ".") with [dot]. simpl. intuition congruence. Qed.

Lemma scan_exp_sound : forall r e t,
  scan_exp r = (e, t) ->
  r = e ++ t /\
  ((e = [] /\ ~ starts exp_mark t) \/
   (exponent e /\ ~ starts digit t /\ ((exists m, e = [m]) -> ~ starts sign t))).
Proof.
  intros r e t H. unfold scan_exp in H.
  destruct (opt_char (str "eE") r) as [m r1] eqn:M.
  apply opt_char_sound in M. destruct M as [-> [(c & I & ->)|(-> & NS)]].
  - destruct (opt_char (str "+-") r1) as [s r2] eqn:S.
    apply opt_char_sound in S. destruct S as [-> S].
    destruct (span is_ascii_digit r2) as [d r3] eqn:D.
    pose proof (span_app _ _ _ _ D) as ->.
    apply (span_sound _ _ digit_iff) in D. destruct D as [D1 D2].
    inversion H; subst. split; [simpl; rewrite <- !app_assoc; reflexivity|].
    right. split; [|split; [assumption|]].
    + exists c, s, d. apply exp_mark_iff in I. repeat split; auto.
      destruct S as [(x & X & ->)|[-> _]]; [right|left; reflexivity].
      exists x. apply sign_iff in X. auto.
    + intros (m & E). simpl in E. inversion E; subst.
      destruct s; simpl in *; [|discriminate]. subst d. simpl in S.
      destruct S as [(x & _ & X)|[_ NS]]; [discriminate|].
      intro X. apply NS. revert X. apply starts_impl. intros x. apply sign_iff.
  - inversion H; subst. split; [reflexivity|]. left. split; [reflexivity|].
    intro X. apply NS. revert X. apply starts_impl. intros x. apply exp_mark_iff.
Qed.

Lemma scan_exp_none : forall t, ~ starts exp_mark t -> scan_exp t = ([], t).
Proof.
  intros t H. unfold scan_exp. rewrite opt_char_no; [reflexivity|].
  intro X. apply H. revert X. apply starts_impl. intros x. apply exp_mark_iff.
Qed.

Lemma scan_exp_complete : forall e t,
  exponent e -> ~ starts digit t -> ((exists m, e = [m]) -> ~ starts sign t) ->
  scan_exp (e ++ t) = (e, t).
Proof.
  intros e t (m & s & d & M & S & D & ->) ND NS. unfold scan_exp. simpl app.
  rewrite opt_char_yes by (apply exp_mark_iff; assumption).
  destruct S as [->|(c & C & ->)].
  - simpl app. rewrite opt_char_no.
    + rewrite (span_complete _ _ digit_iff); auto.
    + destruct d as [|x d].
      * intro X. apply NS; [exists m; reflexivity|].
        revert X. apply starts_impl. intros x. apply sign_iff.
      * cbn [app]. rewrite starts_cons. cbv beta. rewrite sign_iff. inversion D; subst.
        unfold sign, digit in *. lia.
  - simpl app. rewrite opt_char_yes by (apply sign_iff; assumption).
    rewrite (span_complete _ _ digit_iff) by assumption. reflexivity.
Qed.

Lemma exponent_last : forall e, exponent e -> e <> [].
Proof. intros e (m & s & d & _ & _ & _ & ->). discriminate. Qed.

Lemma exponent_tail : forall e u m, exponent e -> e = u ++ [m] -> exp_mark m -> e = [m].
Proof.
  intros e u m (a & s & d & A & S & D & ->) E M.
  destruct d as [|x d] using rev_ind.
  - rewrite app_nil_r in *. destruct S as [->|(c & C & ->)].
    + destruct u as [|y [|z u]]; inversion E; subst; reflexivity.
    + change [a; c] with ([a] ++ [c]) in E. apply app_inj_tail in E. destruct E as [_ ->].
      unfold sign, exp_mark in *. lia.
  - rewrite app_assoc in E. change (a :: (s ++ d) ++ [x]) with ((a :: s ++ d) ++ [x]) in E.
    apply app_inj_tail in E. destruct E as [_ ->]. apply Forall_app in D.
    destruct D as [_ D]. inversion D; subst. unfold digit, exp_mark in *. lia.
Qed.

Lemma digits_no_tail : forall d u m, Forall digit d -> d = u ++ [m] -> exp_mark m -> False.
Proof.
  intros d u m D -> M. apply Forall_app in D. destruct D as [_ D]. inversion D; subst.
  unfold digit, exp_mark in *. lia.
Qed.


(** The tail of a real literal is a tail of its exponent, if the tail contains an exponent
    marker. *)
Lemma app_split : forall (a b u v : text), a ++ b = u ++ v ->
  (exists x, b = x ++ v /\ u = a ++ x) \/ (exists x, v = x ++ b /\ a = u ++ x).
Proof.
  induction a; intros b u v H; simpl in *.
  - left. exists u. auto.
  - destruct u as [|y u]; simpl in *.
    + right. exists (a :: a0). subst. auto.
    + inversion H; subst. destruct (IHa _ _ _ H2) as [(x & -> & ->)|(x & -> & ->)].
      * left. exists x. auto.
      * right. exists x. auto.
Qed.

Lemma snoc_split : forall (a b u : text) m, a ++ b = u ++ [m] ->
  (exists x, b = x ++ [m]) \/ (b = [] /\ a = u ++ [m]).
Proof.
  intros a b u m H. destruct (app_split _ _ _ _ H) as [(x & E & _)|(x & E & E')].
  - left. eauto.
  - destruct x as [|y x]; simpl in *.
    + left. exists []. simpl. auto.
    + inversion E as [[E1 E2]]. symmetry in E2. apply app_eq_nil in E2. destruct E2 as [-> ->].
      right. subst. auto.
Qed.

Lemma scan_numeral_sound : forall c r k w t,
  digit c -> scan_numeral r = (k, w, t) ->
  r = w ++ t /\ lexeme k (c :: w) /\ follow_ok k (c :: w) t.
Proof.
  intros c r k w t C H. unfold scan_numeral in H.
  destruct (span is_ascii_digit r) as [d r1] eqn:D.
  pose proof (span_app _ _ _ _ D) as ->.
  apply (span_sound _ _ digit_iff) in D. destruct D as [D1 D2].
  destruct (opt_char (str ".") r1) as [p r2] eqn:P.
  apply opt_char_sound in P. destruct P as [-> [(x & X & ->)|(-> & NP)]].
  - apply dot_iff in X. subst x.
    destruct (span is_ascii_digit r2) as [g r3] eqn:G.
    pose proof (span_app _ _ _ _ G) as ->.
    apply (span_sound _ _ digit_iff) in G. destruct G as [G1 G2].
    destruct (scan_exp r3) as [e r4] eqn:X. apply scan_exp_sound in X. destruct X as [-> X].
    inversion H; subst. split; [repeat (rewrite <- app_assoc; simpl); reflexivity|].
    split.
    + change (c :: d ++ dot :: g ++ e) with ((c :: d) ++ (dot :: g) ++ e).
      apply lx_real; [discriminate | constructor; assumption | right; exists g; auto | |].
      * destruct X as [[-> _]|[X _]]; auto.
      * left. discriminate.
    + simpl. split; [|split].
      * destruct X as [[-> X]|(_ & X & _)]; assumption.
      * destruct X as [[-> X]|(X & _)]; [auto|]. intros NE. exfalso. apply NE.
        exists (c :: d ++ dot :: g), e. split; [|assumption].
        simpl. rewrite <- app_assoc. reflexivity.
      * intros (u & m & E & M). destruct X as [[-> X]|(X & _ & Y)].
        -- exfalso. rewrite app_nil_r in E.
           change (c :: d ++ dot :: g) with ((c :: d) ++ dot :: g) in E.
           destruct (snoc_split _ _ _ _ E) as [(x & F)|[F _]]; [|discriminate].
           destruct x as [|y x]; inversion F; subst.
           ++ unfold exp_mark, dot in M. lia.
           ++ eapply digits_no_tail; eauto.
        -- apply Y. exists m.
           change (c :: d ++ dot :: g ++ e) with ((c :: d) ++ (dot :: g) ++ e) in E.
           rewrite app_assoc in E. destruct (snoc_split _ _ _ _ E) as [(x & F)|[F _]].
           ++ eapply exponent_tail; eauto.
           ++ exfalso. eapply exponent_last; eauto.
  - simpl app in *. destruct (scan_exp r2) as [e r3] eqn:X.
    apply scan_exp_sound in X. destruct X as [-> X].
    destruct e as [|x e].
    + inversion H; subst. split; [reflexivity|]. simpl app in *.
      destruct X as [[_ X]|[X _]]; [|exfalso; eapply exponent_last; eauto].
      split.
      * apply lx_uint; [discriminate | constructor; assumption].
      * simpl. intros (y & z & -> & Y). destruct Y as [Y|[Y|Y]].
        -- apply D2, starts_cons. assumption.
        -- apply NP, starts_cons, dot_iff. assumption.
        -- apply X, starts_cons. assumption.
    + inversion H; subst. clear H. destruct X as [[X _]|(X & X1 & X2)]; [discriminate|].
      split; [rewrite <- app_assoc; reflexivity|]. split.
      * change (c :: d ++ x :: e) with ((c :: d) ++ [] ++ x :: e).
        apply lx_real; [discriminate | constructor; assumption | auto | auto | right; discriminate].
      * simpl. split; [assumption|]. split.
        -- intro NE. exfalso. apply NE. exists (c :: d), (x :: e). auto.
        -- intros (u & m & E & M). apply X2. exists m.
           change (c :: d ++ x :: e) with ((c :: d) ++ x :: e) in E.
           destruct (snoc_split _ _ _ _ E) as [(y & F)|[F _]]; [|discriminate].
           eapply exponent_tail; eauto.
Qed.

Lemma scan_numeral_uint : forall d t,
  Forall digit d -> ~ starts (fun c => digit c \/ c = dot \/ exp_mark c) t ->
  scan_numeral (d ++ t) = (TUInt, d, t).
Proof.
  intros d t D N. unfold scan_numeral.
  rewrite (span_complete _ _ digit_iff); auto.
  2:{ intro X. apply N. revert X. apply starts_impl. tauto. }
  rewrite opt_char_no.
  2:{ intro X. apply N. revert X. apply starts_impl. intros c. rewrite dot_iff. tauto. }
  rewrite scan_exp_none; [reflexivity|].
  intro X. apply N. revert X. apply starts_impl. tauto.
Qed.

Lemma not_starts_digit_exp : forall e t, exponent e -> ~ starts digit (e ++ t).
Proof.
  intros e t (m & s & d & M & _ & _ & ->). simpl. rewrite starts_cons.
  unfold exp_mark, digit in *. lia.
Qed.

Lemma scan_numeral_real : forall d f e t,
  Forall digit d ->
  (f = [] \/ exists g, Forall digit g /\ f = dot :: g) ->
  (e = [] \/ exponent e) -> (f <> [] \/ e <> []) ->
  ~ starts digit t -> (e = [] -> ~ starts exp_mark t) ->
  ((exists m, e = [m]) -> ~ starts sign t) ->
  scan_numeral (d ++ f ++ e ++ t) = (TUReal, d ++ f ++ e, t).
Proof.
  intros d f e t D F E FE ND NE NS. unfold scan_numeral.
  assert (X : scan_exp (e ++ t) = (e, t)).
  { destruct E as [->|E]; [apply scan_exp_none; auto | apply scan_exp_complete; auto]. }
  assert (NDE : ~ starts digit (e ++ t)).
  { destruct E as [->|E]; [assumption | apply not_starts_digit_exp; assumption]. }
  destruct F as [->|(g & G & ->)].
  - simpl app. rewrite (span_complete _ _ digit_iff); auto.
    destruct E as [->|E]; [destruct FE; congruence|].
    rewrite opt_char_no.
    + rewrite X. destruct e as [|x e]; [exfalso; eapply exponent_last; eauto | reflexivity].
    + destruct E as (m & s & x & M & _ & _ & ->). cbn [app]. rewrite starts_cons. cbv beta. rewrite dot_iff.
      unfold exp_mark, dot in *. lia.
  - simpl app. rewrite (span_complete _ _ digit_iff); auto.
    2:{ rewrite starts_cons. unfold digit, dot. lia. }
    rewrite opt_char_yes by (apply dot_iff; reflexivity).
    rewrite (span_complete _ _ digit_iff); auto. rewrite X. reflexivity.
Qed.

(** ** Keywords *)
Lemma text_eqb_eq : forall a b, text_eqb a b = true <-> a = b.
Proof.
  induction a; intros [|y b]; simpl; split; intro H; try discriminate; auto.
  - apply andb_true_iff in H. destruct H as [H1 H2]. apply N.eqb_eq in H1. apply IHa in H2.
    congruence.
  - inversion H; subst. rewrite N.eqb_refl. apply IHa. reflexivity.
Qed.

Definition entry_eqb (a b : string * tkind) : bool :=
  text_eqb (str (fst a)) (str (fst b)) && tkind_eqb (snd a) (snd b).

Lemma keywords_reserved : forall s k, In (s, k) keywords -> spelled reserved (str s) k.
Proof.
  assert (H : forallb (fun e => existsb (entry_eqb e) reserved) keywords = true)
    by (vm_compute; reflexivity).
  rewrite forallb_forall in H. intros s k I. apply H in I. apply existsb_exists in I.
  destruct I as ([s' k'] & I & E). unfold entry_eqb in E. simpl in E.
  apply andb_true_iff in E. destruct E as [E1 E2]. apply text_eqb_eq in E1.
  apply tkind_eqb_eq in E2. subst. exists s'. auto.
Qed.

Lemma lookup_word_cons : forall w s k tbl,
  lookup_word w ((s, k) :: tbl) = if text_eqb w (str s) then k else lookup_word w tbl.
Proof. reflexivity. Qed.

Lemma lookup_word_cases : forall w tbl,
  (exists s, In (s, lookup_word w tbl) tbl /\ w = str s) \/
  (lookup_word w tbl = TIdentifier /\ forall s k, In (s, k) tbl -> w <> str s).
Proof.
  induction tbl as [|[s k] tbl IH]; [|rewrite lookup_word_cons].
  - right. split; [reflexivity | intros s k []].
  - destruct (text_eqb w (str s)) eqn:E.
    + apply text_eqb_eq in E. left. exists s. split; [left; reflexivity | assumption].
    + destruct IH as [(s' & I & E')|[E1 E2]].
      * left. exists s'. split; [right; assumption | assumption].
      * right. split; [assumption|]. intros s' k' [X|X].
        -- inversion X; subst. intro Y. apply text_eqb_eq in Y. congruence.
        -- eapply E2; eauto.
Qed.

Lemma reserved_lookup : forall w k, spelled reserved w k -> lookup_word w keywords = k.
Proof.
  assert (H : forallb (fun e => tkind_eqb (lookup_word (str (fst e)) keywords) (snd e)) reserved = true)
    by (vm_compute; reflexivity).
  rewrite forallb_forall in H. intros w k (s & I & ->). apply H in I.
  apply tkind_eqb_eq in I. assumption.
Qed.

Lemma lookup_word_spec : forall w,
  spelled reserved w (lookup_word w keywords) \/
  (lookup_word w keywords = TIdentifier /\ forall k, ~ spelled reserved w k).
Proof.
  intro w. destruct (lookup_word_cases w keywords) as [(s & I & E)|[E1 E2]].
  - left. apply keywords_reserved in I. rewrite E in *. assumption.
  - right. split; [assumption|]. intros k S. pose proof (reserved_lookup _ _ S) as L.
    destruct (lookup_word_cases w keywords) as [(s & I & E)|[F1 F2]].
    + eapply E2; eauto.
    + assert (R : forallb (fun e => negb (tkind_eqb (snd e) TIdentifier)) reserved = true)
        by (vm_compute; reflexivity).
      rewrite forallb_forall in R. destruct S as (s & I & ->). apply R in I. simpl in I.
      rewrite <- L, E1 in I. discriminate.
Qed.

(** The follow restriction of reserved words. *)
Lemma reserved_follow : forall w k v r,
  spelled reserved w k -> (follow_ok k v r <-> ~ starts idchar r).
Proof.
  intros w k v r (s & I & _). unfold reserved in I. simpl In in I.
  repeat destruct I as [I|I]; try (inversion I; subst; simpl; reflexivity); destruct I.
Qed.

Lemma reserved_word : forall w k, spelled reserved w k ->
  exists c b, w = c :: b /\ nondigit c /\ Forall idchar b.
Proof.
  assert (H : forallb (fun e => match str (fst e) with
                                | c :: b => (is_ascii_alphabetic c || (c =? ch "_"))
                                            && forallb is_idchar b
                                | [] => false end) reserved = true)
    by (vm_compute; reflexivity).
  rewrite forallb_forall in H. intros w k (s & I & ->). apply H in I. simpl in I.
  destruct (str s) as [|c b]; [discriminate|]. apply andb_true_iff in I. destruct I as [I1 I2].
  exists c, b. split; [reflexivity|]. split; [apply nondigit_iff; assumption|].
  rewrite forallb_forall in I2. apply Forall_forall. intros x X. apply idchar_iff, I2, X.
Qed.

(** ** Single items *)
Lemma spelled_intro : forall tbl s k w,
  existsb (entry_eqb (s, k)) tbl = true -> w = str s -> spelled tbl w k.
Proof.
  intros tbl s k w H E. apply existsb_exists in H. destruct H as ([s' k'] & I & Q).
  apply andb_true_iff in Q. destruct Q as [Q1 Q2]. apply text_eqb_eq in Q1.
  apply tkind_eqb_eq in Q2. simpl in *. subst. exists s'. auto.
Qed.

Local Ltac sym s :=
  split; [reflexivity|]; split;
  [apply lx_symbol; apply (spelled_intro _ s); [vm_compute; reflexivity | subst; reflexivity]|].

Lemma lookup_char_cons : forall c a k tbl,
  lookup_char c ((a, k) :: tbl) = if c =? ch a then Some k else lookup_char c tbl.
Proof. reflexivity. Qed.

Lemma lookup_char_in : forall c tbl k,
  lookup_char c tbl = Some k -> exists a, In (a, k) tbl /\ c = ch a.
Proof.
  induction tbl as [|[a k'] tbl IH]; intros k H; [discriminate|]. rewrite lookup_char_cons in H.
  destruct (c =? ch a) eqn:E.
  - inversion H; subst. apply N.eqb_eq in E. exists a. split; [left; reflexivity | assumption].
  - destruct (IH _ H) as (b & I & X). exists b. split; [right; assumption | assumption].
Qed.

Theorem scan_item_sound : forall c r k w t,
  scan_item c r = Some (k, w, t) ->
  c :: r = w ++ t /\ lexeme k w /\ follow_ok k w t.
Proof.
  intros c r k w t H. unfold scan_item in H.
  destruct (lookup_char c single_char) eqn:L.
  { inversion H; subst. apply lookup_char_in in L. destruct L as (a & I & ->).
    unfold single_char in I. simpl In in I.
    split; [reflexivity|].
    repeat destruct I as [I|I]; try (destruct I; fail); inversion I; subst;
      (split; [apply lx_symbol | simpl; auto]);
      match goal with |- spelled _ [ch ?a] _ =>
        apply (spelled_intro _ (String.String a EmptyString)) end;
      reflexivity. }
  destruct (c =? ch ":") eqn:E1.
  { apply N.eqb_eq in E1. subst c. destruct r as [|d r]; simpl in H.
    - inversion H; subst. sym ":"%string. apply starts_nil.
    - destruct (d =? ch "=") eqn:E2; inversion H; subst.
      + apply N.eqb_eq in E2. subst. sym ":="%string. exact I.
      + apply N.eqb_neq in E2. sym ":"%string. simpl. rewrite starts_cons. exact E2. }
  destruct (c =? ch "=") eqn:E2.
  { apply N.eqb_eq in E2. subst c. destruct r as [|d r]; simpl in H.
    - inversion H; subst. sym "="%string. apply starts_nil.
    - destruct (d =? ch "=") eqn:E3; inversion H; subst.
      + apply N.eqb_eq in E3. subst. sym "=="%string. exact I.
      + apply N.eqb_neq in E3. sym "="%string. simpl. rewrite starts_cons. exact E3. }
  destruct (c =? ch "<") eqn:E3.
  { apply N.eqb_eq in E3. subst c. destruct r as [|d r]; simpl in H.
    - inversion H; subst. sym "<"%string. apply starts_nil.
    - destruct (d =? ch ">") eqn:E4; [|destruct (d =? ch "=") eqn:E5]; inversion H; subst.
      + apply N.eqb_eq in E4. subst. sym "<>"%string. exact I.
      + apply N.eqb_eq in E5. subst. sym "<="%string. exact I.
      + apply N.eqb_neq in E4, E5. sym "<"%string. simpl. rewrite starts_cons.
        change (ch "=") with 61 in *. change (ch ">") with 62 in *. tauto. }
  destruct (c =? ch ">") eqn:E4.
  { apply N.eqb_eq in E4. subst c. destruct r as [|d r]; simpl in H.
    - inversion H; subst. sym ">"%string. apply starts_nil.
    - destruct (d =? ch "=") eqn:E5; inversion H; subst.
      + apply N.eqb_eq in E5. subst. sym ">="%string. exact I.
      + apply N.eqb_neq in E5. sym ">"%string. simpl. rewrite starts_cons. exact E5. }
  destruct (c =? ch ".") eqn:E5.
  { apply N.eqb_eq in E5. subst c. destruct r as [|d r]; simpl in H.
    - inversion H; subst. sym "."%string. apply starts_nil.
    - destruct (d =? ch "+") eqn:F1; [apply N.eqb_eq in F1; inversion H; subst; sym ".+"%string; exact I|].
      destruct (d =? ch "-") eqn:F2; [apply N.eqb_eq in F2; inversion H; subst; sym ".-"%string; exact I|].
      destruct (d =? ch "*") eqn:F3; [apply N.eqb_eq in F3; inversion H; subst; sym ".*"%string; exact I|].
      destruct (d =? ch "/") eqn:F4; [apply N.eqb_eq in F4; inversion H; subst; sym "./"%string; exact I|].
      destruct (d =? ch "^") eqn:F5; [apply N.eqb_eq in F5; inversion H; subst; sym ".^"%string; exact I|].
      inversion H; subst. sym "."%string. simpl follow_ok. rewrite starts_cons.
      apply N.eqb_neq in F1, F2, F3, F4, F5.
      change (ch "+") with 43 in *. change (ch "-") with 45 in *. change (ch "*") with 42 in *.
      change (ch "/") with 47 in *. change (ch "^") with 94 in *. simpl. intuition congruence. }
  destruct (c =? ch """") eqn:E6.
  { apply N.eqb_eq in E6. subst c. destruct (scan_string r) as [[x y]|] eqn:S; [|discriminate].
    simpl in H. inversion H; subst. apply (scan_string_sound _ _ _ _ (le_n _)) in S.
    destruct S as (-> & b & B & ->). split; [reflexivity|]. split; [|exact I].
    apply lx_string. assumption. }
  destruct (c =? ch "'") eqn:E7.
  { apply N.eqb_eq in E7. subst c. destruct (scan_qident r) as [[x y]|] eqn:S; [|discriminate].
    simpl in H. inversion H; subst. apply (scan_qident_sound _ _ _ _ (le_n _)) in S.
    destruct S as (-> & b & B & ->). split; [reflexivity|]. split.
    - apply lx_qident. assumption.
    - left. apply starts_cons. reflexivity. }
  destruct (c =? ch "/") eqn:E8.
  { apply N.eqb_eq in E8. subst c. destruct r as [|d r].
    - inversion H; subst. sym "/"%string. apply starts_nil.
    - destruct (d =? ch "/") eqn:F1.
      + apply N.eqb_eq in F1. subst d. destruct (span not_newline r) as [x' y'] eqn:S'.
        match type of H with context [span not_newline ?z] =>
          assert (S : span not_newline z = (ch "/" :: x', y')) by (simpl; rewrite S'; reflexivity)
        end.
        rewrite S in H. inversion H; subst.
        pose proof (span_app _ _ _ _ S') as ->.
        destruct (span_sound _ _ newline_iff _ _ _ S') as [X Y].
        split; [reflexivity|]. split; [apply lx_line; assumption|].
        simpl. destruct t as [|z t]; [left; reflexivity|]. right. rewrite starts_cons in *.
        destruct (not_newline z) eqn:Z.
        * exfalso. apply Y. apply newline_iff. assumption.
        * unfold not_newline in Z. apply negb_false_iff, orb_true_iff in Z.
          rewrite !N.eqb_eq in Z. unfold newline_char. tauto.
      + destruct (d =? ch "*") eqn:F2.
        * apply N.eqb_eq in F2. subst d.
          match type of H with context [scan_block ?z] =>
            destruct (scan_block z) as [[x y]|] eqn:S; [|discriminate] end.
          apply scan_block_sound in S. destruct S as (S1 & u & -> & NC).
          cbn in H. inversion H; subst. rewrite S1. split; [reflexivity|]. split; [|exact I].
          destruct u as [|z u]; [apply lx_block_short|].
          simpl in S1. inversion S1; subst. apply lx_block with (x := u). exact NC.
        * inversion H; subst. sym "/"%string. simpl. rewrite starts_cons.
          apply N.eqb_neq in F1, F2. intros [X|X]; [apply F1 | apply F2]; exact X. }
  destruct (is_ascii_digit c) eqn:E9.
  { apply digit_iff in E9. destruct (scan_numeral r) as [[k' w'] t'] eqn:S.
    inversion H; subst. destruct (scan_numeral_sound _ _ _ _ _ E9 S) as (-> & L1 & L2).
    auto. }
  destruct (is_ascii_alphabetic c || (c =? ch "_")) eqn:E10; [|discriminate].
  apply nondigit_iff in E10. destruct (span is_idchar r) as [x y] eqn:S.
  inversion H; subst. pose proof (span_app _ _ _ _ S) as ->.
  destruct (span_sound _ _ idchar_iff _ _ _ S) as [X Y].
  split; [reflexivity|]. destruct (lookup_word_spec (c :: x)) as [R|[R1 R2]].
  - split; [apply lx_keyword; assumption|]. apply (reserved_follow _ _ _ _ R). assumption.
  - rewrite R1. split; [apply lx_ident; assumption|]. right. assumption.
Qed.

Ltac chv := repeat match goal with
  | |- context [ch ?a] => let v := eval vm_compute in (ch a) in change (ch a) with v in *
  | H : context [ch ?a] |- _ => let v := eval vm_compute in (ch a) in change (ch a) with v in *
  end.

(** The first characters of words and numbers are not special. *)
Lemma word_start : forall c, nondigit c \/ digit c ->
  lookup_char c single_char = None /\ c =? ch ":" = false /\ c =? ch "=" = false /\
  c =? ch "<" = false /\ c =? ch ">" = false /\ c =? ch "." = false /\ c =? ch """" = false /\
  c =? ch "'" = false /\ c =? ch "/" = false.
Proof.
  intros c H. unfold nondigit, letter, digit in H.
  assert (L : lookup_char c single_char = None).
  { destruct (lookup_char c single_char) eqn:L; [|reflexivity]. exfalso.
    apply lookup_char_in in L. destruct L as (a & I & ->). simpl In in I.
    repeat destruct I as [I|I]; try (inversion I; subst; chv; lia); destruct I. }
  split; [exact L|]. repeat split; apply N.eqb_neq; chv; lia.
Qed.

Lemma scan_word : forall c b t,
  nondigit c -> Forall idchar b -> ~ starts idchar t ->
  scan_item c (b ++ t) = Some (lookup_word (c :: b) keywords, c :: b, t).
Proof.
  intros c b t C B T. unfold scan_item.
  destruct (word_start c (or_introl C)) as (H1 & H2 & H3 & H4 & H5 & H6 & H7 & H8 & H9).
  rewrite H1, H2, H3, H4, H5, H6, H7, H8, H9.
  destruct (is_ascii_digit c) eqn:D.
  { apply digit_iff in D. unfold nondigit, letter, digit in *. lia. }
  apply nondigit_iff in C. rewrite C, (span_complete _ _ idchar_iff) by assumption. reflexivity.
Qed.

Lemma scan_number : forall c d t k w,
  digit c -> scan_numeral (d ++ t) = (k, w, t) ->
  scan_item c (d ++ t) = Some (k, c :: w, t).
Proof.
  intros c d t k w C S. unfold scan_item.
  destruct (word_start c (or_intror C)) as (H1 & H2 & H3 & H4 & H5 & H6 & H7 & H8 & H9).
  rewrite H1, H2, H3, H4, H5, H6, H7, H8, H9.
  apply digit_iff in C. rewrite C, S. reflexivity.
Qed.

Theorem scan_item_complete : forall k w t,
  lexeme k w -> follow_ok k w t ->
  exists c b, w = c :: b /\ ~ space c /\ scan_item c (b ++ t) = Some (k, w, t).
Proof.
  intros k w t L F. destruct L.
  - (* symbols *)
    destruct H as (s & I & ->). unfold spellings in I. simpl In in I.
    repeat destruct I as [I|I]; try (destruct I; fail); inversion I; subst; clear I;
      match goal with |- context [str ?s] =>
        let v := eval vm_compute in (str s) in change (str s) with v in * end;
      (eexists; eexists; split; [reflexivity|]);
      (split; [unfold space; simpl; lia|]);
      cbn [app]; unfold scan_item;
      try reflexivity;
      match goal with |- context [lookup_char ?a ?b] =>
        let v := eval vm_compute in (lookup_char a b) in change (lookup_char a b) with v end;
      cbv iota; chv;
      repeat match goal with |- context [?a =? ?b] =>
        let v := eval vm_compute in (a =? b) in
        match v with true => idtac | false => idtac end;
        change (a =? b) with v; cbv iota end;
      try reflexivity;
      destruct t as [|d t]; try reflexivity;
      simpl in F; rewrite starts_cons in F; cbn [scan_second];
      chv;
      repeat match goal with |- context [d =? ?b] =>
        let E := fresh "E" in
        destruct (d =? b) eqn:E; [apply N.eqb_eq in E; subst d; exfalso; simpl in F; tauto|] end;
      try reflexivity.
  - destruct (reserved_word _ _ H) as (c & b & -> & C & B).
    apply (reserved_follow _ _ _ _ H) in F. exists c, b. split; [reflexivity|]. split.
    + unfold space, nondigit, letter in *. simpl. lia.
    + rewrite scan_word by assumption. rewrite (reserved_lookup _ _ H). reflexivity.
  - exists c, b. split; [reflexivity|]. split.
    + unfold space, nondigit, letter in *. simpl. lia.
    + rewrite scan_word; auto.
      * destruct (lookup_word_spec (c :: b)) as [R|[R _]]; [exfalso; eapply H1; eauto|].
        rewrite R. reflexivity.
      * simpl in F. rewrite starts_cons in F. destruct F as [->|F]; [|exact F].
        unfold nondigit, letter, squote in H. lia.
  - eexists; eexists; split; [reflexivity|]. split; [unfold space, squote; simpl; lia|].
    rewrite <- app_assoc. cbn [app]. unfold scan_item.
    change (lookup_char squote single_char) with (@None tkind). cbv iota.
    change (squote =? ch ":") with false. change (squote =? ch "=") with false.
    change (squote =? ch "<") with false. change (squote =? ch ">") with false.
    change (squote =? ch ".") with false. change (squote =? ch """") with false.
    change (squote =? ch "'") with true. cbv iota.
    rewrite scan_qident_complete by assumption. reflexivity.
  - eexists; eexists; split; [reflexivity|]. split; [unfold space, dquote; simpl; lia|].
    rewrite <- app_assoc. cbn [app]. unfold scan_item.
    change (lookup_char dquote single_char) with (@None tkind). cbv iota.
    change (dquote =? ch ":") with false. change (dquote =? ch "=") with false.
    change (dquote =? ch "<") with false. change (dquote =? ch ">") with false.
    change (dquote =? ch ".") with false. change (dquote =? ch """") with true. cbv iota.
    rewrite scan_string_complete by assumption. reflexivity.
  - destruct d as [|c d]; [congruence|]. inversion H0; subst.
    exists c, d. split; [reflexivity|]. split; [unfold space, digit in *; simpl; lia|].
    apply scan_number; [assumption|]. apply scan_numeral_uint; [assumption | exact F].
  - destruct d as [|c d]; [congruence|]. inversion H0; subst.
    exists c, (d ++ f ++ e). split; [reflexivity|].
    split; [unfold space, digit in *; simpl; lia|].
    apply scan_number; [assumption|]. rewrite <- !app_assoc.
    simpl in F. destruct F as (F1 & F2 & F3).
    apply scan_numeral_real; try assumption.
    + intros ->. apply F2. intros (u & x & E & X). rewrite app_nil_r in E.
      destruct H1 as [->|(g & G & ->)]; [destruct H3; congruence|].
      change (c :: d ++ dot :: g) with ((c :: d) ++ dot :: g) in E.
      destruct X as (m & s & y & M & S & D & ->).
      assert (IN : In m ((c :: d) ++ dot :: g)).
      { rewrite E. apply in_or_app. right. left. reflexivity. }
      apply in_app_or in IN. rewrite Forall_forall in *.
      destruct IN as [IN|[IN|IN]].
      * apply H0 in IN. unfold digit, exp_mark in *. lia.
      * subst m. unfold exp_mark, dot in M. lia.
      * apply G in IN. unfold digit, exp_mark in *. lia.
    + intros (m & ->). apply F3. exists (c :: d ++ f), m. split.
      * simpl. rewrite <- app_assoc. reflexivity.
      * destruct H2 as [H2|(m' & s & y & M & S & D & E)]; [discriminate|].
        inversion E; subst. assumption.
  - eexists; eexists; split; [reflexivity|]. split; [unfold space, slash; simpl; lia|].
    cbn [app]. unfold scan_item.
    change (lookup_char slash single_char) with (@None tkind). cbv iota.
    change (slash =? ch ":") with false. change (slash =? ch "=") with false.
    change (slash =? ch "<") with false. change (slash =? ch ">") with false.
    change (slash =? ch ".") with false. change (slash =? ch """") with false.
    change (slash =? ch "'") with false. change (slash =? ch "/") with true. cbv iota.
    change (slash :: b ++ t) with ((slash :: b) ++ t).
    rewrite (span_complete _ _ newline_iff); [reflexivity | |].
    + constructor; [unfold newline_char, slash; lia | assumption].
    + simpl in F. destruct F as [->|(c & t' & -> & N)]; [apply starts_nil|].
      rewrite starts_cons. tauto.
  - exists slash, (star :: x ++ [star; slash]). split; [reflexivity|].
    split; [unfold space, slash; simpl; lia|].
    cbn [app]. rewrite <- app_assoc. unfold scan_item.
    change (lookup_char slash single_char) with (@None tkind). cbv iota.
    change (slash =? ch ":") with false. change (slash =? ch "=") with false.
    change (slash =? ch "<") with false. change (slash =? ch ">") with false.
    change (slash =? ch ".") with false. change (slash =? ch """") with false.
    change (slash =? ch "'") with false. change (slash =? ch "/") with true. cbv iota.
    change (star =? ch "/") with false. change (star =? ch "*") with true. cbv iota.
    change (star :: x ++ [star; slash] ++ t) with ((star :: x) ++ star :: slash :: t).
    rewrite scan_block_complete by assumption. reflexivity.
  - exists slash, [star; slash]. split; [reflexivity|].
    split; [unfold space, slash; simpl; lia | reflexivity].
Qed.
