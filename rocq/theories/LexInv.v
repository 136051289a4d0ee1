(** Invariants of the lexer state machine that hold for every source text,
    including sources with lexical errors. *)
From Coq Require Import Sorted.
From Verif Require Import ProofBase Tokens Lexer SpecLex.

Global Arguments ch : simpl never.
Global Arguments contains_char : simpl never.
Global Arguments lookup_char : simpl never.
Global Arguments lookup_word : simpl never.

(** ** Primitive steps: everything the lexer does is a sequence of these. *)
Inductive prim : lexer -> lexer -> Prop :=
| prim_next l : prim l (next l)
| prim_jump l : prim l (jump l)
| prim_error m l : prim l (generate_error m l)
| prim_token k l l' : generate_token k l = Ok l' -> prim l l'.

Inductive prims : lexer -> lexer -> Prop :=
| prims_refl l : prims l l
| prims_step l1 l2 l3 : prim l1 l2 -> prims l2 l3 -> prims l1 l3.

Lemma prims_one : forall l l', prim l l' -> prims l l'.
Proof. intros. eapply prims_step; [eassumption | constructor]. Qed.

Lemma prims_trans : forall l1 l2 l3, prims l1 l2 -> prims l2 l3 -> prims l1 l3.
Proof. induction 1; intros; [assumption |]. eapply prims_step; eauto. Qed.

Lemma prims_next : forall l l', prims (next l) l' -> prims l l'.
Proof. intros. eapply prims_step; [constructor | assumption]. Qed.

(** A result is reached by primitive steps, or it is the panic of a slice
    taken in a state reached by primitive steps. *)
Definition reach (l : lexer) (r : res lexer) : Prop :=
  match r with
  | Ok l' => prims l l'
  | Panic p => p = PSlice /\ exists l1,
      prims l l1 /\ slice (lsrc l1) (pos (lstart l1)) (pos (lcur l1)) = Panic PSlice
  | OutOfFuel => False
  end.

Lemma prim_rest : forall l l', prim l l' -> (length (lrest l') <= length (lrest l))%nat.
Proof.
  intros l l' H. inversion H; subst.
  - unfold next. destruct (lrest l); simpl; lia.
  - simpl. lia.
  - simpl. lia.
  - unfold generate_token in H0. destruct (slice _ _ _); simpl in H0; try discriminate.
    inversion H0; subst. destruct (is_comment_kind k); simpl; lia.
Qed.

Lemma prims_rest : forall l l', prims l l' -> (length (lrest l') <= length (lrest l))%nat.
Proof. induction 1; [lia|]. apply prim_rest in H. lia. Qed.

Lemma reach_trans : forall l l1 r, prims l l1 -> reach l1 r -> reach l r.
Proof.
  intros l l1 [l'|p|] H; simpl; intros; auto.
  - eapply prims_trans; eauto.
  - destruct H0 as [-> (l2 & A & B)]. split; [reflexivity|].
    exists l2; split; [eapply prims_trans; eauto | assumption].
Qed.

Lemma slice_cases : forall s a b, (exists t, slice s a b = Ok t) \/ slice s a b = Panic PSlice.
Proof.
  intros. unfold slice. destruct (b <? a); [right; reflexivity|].
  destruct (drop_bytes s a); [|right; reflexivity].
  destruct (take_bytes t (b - a)); [left; eexists; reflexivity | right; reflexivity].
Qed.

Lemma reach_token : forall k l, reach l (generate_token k l).
Proof.
  intros. destruct (generate_token k l) eqn:E; simpl; auto.
  - apply prims_one. econstructor; eauto.
  - unfold generate_token in E.
    destruct (slice_cases (lsrc l) (pos (lstart l)) (pos (lcur l))) as [[t H]|H];
      rewrite H in E; simpl in E; [discriminate|].
    inversion E; subst. split; [reflexivity|]. exists l; split; [constructor|assumption].
  - unfold generate_token in E.
    destruct (slice_cases (lsrc l) (pos (lstart l)) (pos (lcur l))) as [[t H]|H];
      rewrite H in E; discriminate.
Qed.

Lemma reach_error : forall m l, reach l (Ok (generate_error m l)).
Proof. intros; simpl. apply prims_one. constructor. Qed.

Lemma reach_next : forall l r, reach (next l) r -> reach l r.
Proof. intros. eapply reach_trans; [apply prims_one; constructor | assumption]. Qed.

Lemma accept_prims : forall s l, prims l (snd (accept s l)).
Proof.
  intros. unfold accept. destruct (peek l); [|constructor].
  destruct (contains_char s c); simpl; [apply prims_one|]; constructor.
Qed.

Lemma accept_digits_prims : forall l, prims l (accept_digits l).
Proof.
  intro l. unfold accept_digits. generalize (lrest l) as r. intro r. revert l.
  induction r; simpl; intros; [constructor|].
  destruct (is_ascii_digit a); simpl; [apply prims_next, IHr | constructor].
Qed.

Lemma nondigit_prims : forall r l, prims l (nondigit_loop r l).
Proof.
  induction r; simpl; intros; [constructor|].
  match goal with |- context [negb ?b] => destruct b end; simpl;
    [apply prims_next, IHr | constructor].
Qed.

Lemma space_prims : forall r l, prims l (space_loop r l).
Proof.
  induction r; simpl; intros; [constructor|].
  destruct (is_ascii_whitespace a); [apply prims_next, IHr | constructor].
Qed.

Local Ltac acc :=
  match goal with
  | |- context [accept ?s ?l] =>
      let H := fresh in
      pose proof (accept_prims s l) as H;
      destruct (accept s l) as [? ?]; simpl in H;
      eapply reach_trans; [exact H|]; clear H
  end.

Local Ltac step_if :=
  match goal with |- reach _ (if ?b then _ else _) => destruct b end.

Lemma reach_string : forall n r l, (length r <= n)%nat -> reach l (lex_string_loop r l).
Proof.
  induction n; intros [|c r] l H; simpl in H; try lia; simpl.
  - apply prims_next, prims_one. constructor.
  - apply prims_next, prims_one. constructor.
  - step_if.
    + destruct r as [|d r]; [apply prims_next, prims_next, prims_next, prims_one; constructor|].
      apply reach_next, reach_next, IHn. simpl in H. lia.
    + step_if; apply reach_next; [apply reach_token | apply IHn; lia].
Qed.

Lemma reach_qident : forall n r l, (length r <= n)%nat -> reach l (lex_qident_loop r l).
Proof.
  induction n; intros [|c r] l H; simpl in H; try lia; simpl.
  - apply prims_next, prims_one. constructor.
  - apply prims_next, prims_one. constructor.
  - step_if.
    + destruct r as [|d r]; [apply prims_next, prims_next, prims_next, prims_one; constructor|].
      apply reach_next, reach_next, IHn. simpl in H. lia.
    + step_if; apply reach_next; [apply reach_token|].
      step_if; [apply reach_error | apply IHn; lia].
Qed.

Lemma reach_line : forall r l, reach l (lex_linecomment_loop r l).
Proof.
  induction r; intros; simpl; [apply reach_token|].
  step_if; [apply reach_token | apply reach_next, IHr].
Qed.

Lemma reach_block : forall r l, reach l (lex_blockcomment_loop r l).
Proof.
  induction r; intros; simpl.
  - apply prims_next, prims_one. constructor.
  - apply reach_next. step_if; [|apply IHr].
    destruct (peek (next l)); [|apply reach_error].
    step_if; [apply reach_next, reach_token | apply IHr].
Qed.

Lemma reach_numeral : forall l, reach l (lex_numeral l).
Proof.
  intro l. unfold lex_numeral. cbv zeta.
  eapply reach_trans; [apply accept_digits_prims|].
  acc. destruct b; simpl.
  - eapply reach_trans; [apply accept_digits_prims|].
    acc. destruct b; [|apply reach_token].
    acc. eapply reach_trans; [apply accept_digits_prims|]. apply reach_token.
  - acc. destruct b; simpl; [|apply reach_token].
    acc. eapply reach_trans; [apply accept_digits_prims|]. apply reach_token.
Qed.

Lemma reach_nondigit : forall l, reach l (lex_nondigit l).
Proof.
  intro l. unfold lex_nondigit. cbv zeta.
  eapply reach_trans; [apply nondigit_prims|].
  destruct (slice_cases (lsrc (nondigit_loop (lrest l) l))
             (pos (lstart (nondigit_loop (lrest l) l)))
             (pos (lcur (nondigit_loop (lrest l) l)))) as [[t E]|E]; rewrite E; simpl.
  - apply reach_token.
  - split; [reflexivity|]. eexists; split; [constructor | eassumption].
Qed.

Lemma reach_item : forall fuel c l,
  peek l = Some c -> (length (lrest l) <= fuel)%nat ->
  (forall l', (length (lrest l') < fuel)%nat -> reach l' (lex_source fuel l')) ->
  reach (next l) (lex_source (S fuel) l).
Proof.
  intros fuel c l PK LE IH. cbn [lex_source]. rewrite PK.
  assert (LT : (length (lrest (next l)) < fuel)%nat).
  { unfold peek in PK. unfold next. destruct (lrest l); [discriminate|]. simpl in *. lia. }
  revert LT. generalize (next l). clear l PK LE. intros l LT.
  destruct (lookup_char c single_char); [apply reach_token|].
  step_if; [unfold lex_colon; acc; step_if; apply reach_token|].
  step_if; [unfold lex_equal; acc; step_if; apply reach_token|].
  step_if.
  { unfold lex_lesser. acc; step_if; [apply reach_token|].
    acc; step_if; apply reach_token. }
  step_if; [unfold lex_greater; acc; step_if; apply reach_token|].
  step_if.
  { unfold lex_dot. acc; step_if; [apply reach_token|].
    acc; step_if; [apply reach_token|].
    acc; step_if; [apply reach_token|].
    acc; step_if; [apply reach_token|].
    acc; step_if; apply reach_token. }
  step_if; [eapply reach_string; reflexivity|].
  step_if; [eapply reach_qident; reflexivity|].
  step_if.
  { unfold lex_slash. destruct (peek l); [|apply reach_token].
    step_if; [apply reach_line|]. step_if; [apply reach_block | apply reach_token]. }
  step_if.
  { pose proof (space_prims (lrest l) l) as SP.
    eapply reach_trans; [exact SP|].
    eapply reach_trans; [apply prims_one, prim_jump|]. apply IH.
    apply prims_rest in SP. simpl. lia. }
  step_if; [apply reach_numeral|].
  step_if; [apply reach_nondigit|]. apply reach_error.
Qed.

Lemma reach_source : forall fuel l,
  (length (lrest l) < fuel)%nat -> reach l (lex_source fuel l).
Proof.
  induction fuel; intros l LT; [lia|].
  destruct (peek l) eqn:PK.
  - apply reach_next. eapply reach_item; eauto. lia.
  - cbn [lex_source]. rewrite PK. apply prims_next. constructor.
Qed.

(** One round of [tokenize] consumes a character or reaches the end. *)
Lemma source_progress : forall fuel l l',
  (length (lrest l) < fuel)%nat -> lex_source fuel l = Ok l' ->
  (length (lrest l') < length (lrest l))%nat \/ lateof l' = true.
Proof.
  intros [|fuel] l l' LT H; [lia|].
  destruct (peek l) eqn:PK.
  - left. assert (R : reach (next l) (lex_source (S fuel) l)).
    { eapply reach_item; eauto; [lia|]. intros. apply reach_source. assumption. }
    rewrite H in R. simpl in R. apply prims_rest in R.
    unfold peek in PK. unfold next in R. destruct (lrest l); [discriminate|]. simpl in *. lia.
  - right. cbn [lex_source] in H. rewrite PK in H. inversion H; subst.
    unfold peek in PK. unfold next. destruct (lrest l); [reflexivity | discriminate].
Qed.

Lemma reach_tokenize : forall fuel l,
  (length (lrest l) + 2 <= fuel)%nat \/ lateof l = true -> reach l (tokenize fuel l).
Proof.
  induction fuel; intros l LE; cbn [tokenize].
  - destruct (lateof l); simpl; [constructor|]. destruct LE; [lia | discriminate].
  - destruct (lateof l) eqn:AE; [constructor|].
    destruct LE as [LE|LE]; [|discriminate].
    assert (LT : (length (lrest l) < S fuel)%nat) by lia.
    pose proof (reach_source (S fuel) l LT) as H.
    destruct (lex_source (S fuel) l) eqn:E; simpl bind; [|exact H | exact H].
    eapply reach_trans; [exact H | apply IHfuel].
    destruct (source_progress _ _ _ LT E); [left; lia | right; assumption].
Qed.

Lemma reach_lex : forall s, reach (lexer_new s) (tokenize (length s + 2) (lexer_new s)).
Proof. intro s. apply reach_tokenize. left. simpl. lia. Qed.

(** ** Positions *)

Lemma newlines_snoc : forall t c, newlines (t ++ [c]) = newlines t + (if c =? 10 then 1 else 0).
Proof. induction t; intros; simpl; [lia | rewrite IHt; lia]. Qed.

Lemma columns_snoc : forall t c, columns (t ++ [c]) = if c =? 10 then 0 else columns t + 1.
Proof. intros. unfold columns. rewrite fold_left_app. reflexivity. Qed.

Lemma bytes_app : forall a b, bytes_of (a ++ b) = bytes_of a + bytes_of b.
Proof. induction a; intros; simpl; [reflexivity | rewrite IHa; lia]. Qed.

Lemma utf8_len_pos : forall c, 1 <= utf8_len c.
Proof. intro c. unfold utf8_len. repeat destruct (_ <? _); lia. Qed.

Lemma drop_bytes_spec : forall s n t,
  drop_bytes s n = Some t -> exists p, s = p ++ t /\ bytes_of p = n.
Proof.
  induction s; intros n t; simpl; destruct (n =? 0) eqn:E; intros H.
  - apply N.eqb_eq in E. inversion H; subst. exists []; split; reflexivity.
  - discriminate.
  - apply N.eqb_eq in E. inversion H; subst. exists []; split; reflexivity.
  - destruct (utf8_len a <=? n) eqn:L; [|discriminate]. apply N.leb_le in L.
    apply IHs in H. destruct H as (p & -> & B). exists (a :: p); split; [reflexivity|].
    simpl. lia.
Qed.

Lemma take_bytes_spec : forall s n t,
  take_bytes s n = Some t -> exists q, s = t ++ q /\ bytes_of t = n.
Proof.
  induction s; intros n t; simpl; destruct (n =? 0) eqn:E; intros H.
  - apply N.eqb_eq in E. inversion H; subst. exists []; split; reflexivity.
  - discriminate.
  - apply N.eqb_eq in E. inversion H; subst. exists (a :: s); split; reflexivity.
  - destruct (utf8_len a <=? n) eqn:L; [|discriminate]. apply N.leb_le in L.
    destruct (take_bytes s (n - utf8_len a)) eqn:T; [|discriminate].
    simpl in H. inversion H; subst.
    apply IHs in T. destruct T as (q & -> & B). exists q; split; [reflexivity|].
    simpl. lia.
Qed.

Lemma drop_bytes_app : forall p t, drop_bytes (p ++ t) (bytes_of p) = Some t.
Proof.
  induction p; intros; simpl.
  - destruct t; reflexivity.
  - pose proof (utf8_len_pos a).
    replace (utf8_len a + bytes_of p =? 0) with false by (symmetry; apply N.eqb_neq; lia).
    replace (utf8_len a <=? utf8_len a + bytes_of p) with true by (symmetry; apply N.leb_le; lia).
    replace (utf8_len a + bytes_of p - utf8_len a) with (bytes_of p) by lia. apply IHp.
Qed.

Lemma take_bytes_app : forall p t, take_bytes (p ++ t) (bytes_of p) = Some p.
Proof.
  induction p; intros; simpl.
  - destruct t; reflexivity.
  - pose proof (utf8_len_pos a).
    replace (utf8_len a + bytes_of p =? 0) with false by (symmetry; apply N.eqb_neq; lia).
    replace (utf8_len a <=? utf8_len a + bytes_of p) with true by (symmetry; apply N.leb_le; lia).
    replace (utf8_len a + bytes_of p - utf8_len a) with (bytes_of p) by lia.
    rewrite IHp. reflexivity.
Qed.

Lemma slice_spec : forall s a b t,
  slice s a b = Ok t ->
  exists p q, s = p ++ t ++ q /\ bytes_of p = a /\ bytes_of (p ++ t) = b.
Proof.
  unfold slice; intros s a b t H.
  destruct (b <? a) eqn:L; [discriminate|]. apply N.ltb_ge in L.
  destruct (drop_bytes s a) eqn:D; [|discriminate].
  destruct (take_bytes t0 (b - a)) eqn:T; [|discriminate].
  inversion H; subst. apply drop_bytes_spec in D. destruct D as (p & -> & B1).
  apply take_bytes_spec in T. destruct T as (q & -> & B2).
  exists p, q. repeat split; auto. rewrite bytes_app. lia.
Qed.

Lemma slice_app : forall p t q,
  slice (p ++ t ++ q) (bytes_of p) (bytes_of (p ++ t)) = Ok t.
Proof.
  intros. unfold slice. rewrite bytes_app.
  replace (bytes_of p + bytes_of t <? bytes_of p) with false
    by (symmetry; apply N.ltb_ge; lia).
  rewrite drop_bytes_app.
  replace (bytes_of p + bytes_of t - bytes_of p) with (bytes_of t) by lia.
  rewrite take_bytes_app. reflexivity.
Qed.

(** The byte position stored by [next]: one more than the offset of the last
    consumed character. *)
Definition rust_pos (t : text) : N :=
  match t with [] => 0 | _ => bytes_of (removelast t) + 1 end.

Definition pos_ok (t : text) (p : position) : Prop :=
  coords_after t p /\ pos p = rust_pos t.

Lemma rust_pos_snoc : forall t c, rust_pos (t ++ [c]) = bytes_of t + 1.
Proof.
  intros. unfold rust_pos. destruct (t ++ [c]) eqn:E.
  - destruct t; discriminate.
  - rewrite <- E. rewrite removelast_last. reflexivity.
Qed.

(** It is a character boundary only if the last character is one byte wide. *)
Lemma rust_pos_boundary : forall c r p q,
  c ++ r = p ++ q -> bytes_of p = rust_pos c -> bytes_of c = rust_pos c /\ p = c.
Proof.
  intros c r p q E B. destruct c as [|x c] using rev_ind.
  - destruct p as [|y p]; simpl in *; auto. pose proof (utf8_len_pos y).
    unfold rust_pos in B. lia.
  - clear IHc. rewrite rust_pos_snoc in *. rewrite bytes_app in *. simpl in *.
    rewrite <- app_assoc in E. simpl in E.
    assert (K : forall c p, c ++ x :: r = p ++ q -> bytes_of p = bytes_of c + 1 ->
                utf8_len x = 1 /\ p = c ++ [x]).
    { clear. induction c; intros p E B; destruct p as [|y p]; simpl in *.
      - lia.
      - inversion E; subst. destruct p as [|z p]; simpl in *.
        + split; [lia|]. reflexivity.
        + pose proof (utf8_len_pos y). pose proof (utf8_len_pos z). lia.
      - pose proof (utf8_len_pos a). lia.
      - inversion E; subst. destruct (IHc p) as [U ->]; auto. lia. }
    destruct (K c p E B) as [U ->]. rewrite U. split; [lia | reflexivity].
Qed.

(** The ghost list [items] holds all tokens and comments in order of creation. *)
Definition plain (t : token) : bool := negb (is_comment_kind (tkind_of t)).
Definition commentary (t : token) : bool := is_comment_kind (tkind_of t).

(** Errors, the last one first, at places that do not go back; [c] is the text before the
    current lexeme. *)
Definition coords (e : err) : N * N := (eline e, ecol e).
Definition place (p : text) : N * N := (1 + newlines p, 1 + columns p).
Definition reported (c : text) (errs : list err) : Prop :=
  exists ps, map coords errs = map place ps /\
    StronglySorted (fun a b => exists x, a = b ++ x) (c :: ps).

Lemma reported_more c x errs : reported c errs -> reported (c ++ x) errs.
Proof.
  intros (ps & F & S). exists ps. split; auto. inversion S as [|? ? S' FA]; subst. constructor; auto.
  eapply Forall_impl; [|exact FA]. intros a [y ->]. exists (y ++ x). rewrite app_assoc. reflexivity.
Qed.
Lemma reported_add c errs e : reported c errs -> coords e = place c -> reported c (e :: errs).
Proof.
  intros (ps & F & S) C. exists (c :: ps). split; [cbn [map]; congruence|].
  constructor; auto. inversion S as [|? ? S' FA]; subst. constructor; auto. exists []. rewrite app_nil_r. reflexivity.
Qed.
Lemma sorted_rev {A} (R : A -> A -> Prop) l : StronglySorted R l -> StronglySorted (fun a b => R b a) (rev l).
Proof.
  induction 1 as [|a l S IH F]; [constructor|]. cbn [rev].
  assert (forall m, StronglySorted (fun a b => R b a) m -> Forall (fun b => R a b) m -> StronglySorted (fun a b => R b a) (m ++ [a])) as X.
  { clear. induction 1 as [|b m S IH F]; intro G; cbn [app]; [repeat constructor|].
    inversion G; subst. constructor; auto. apply Forall_app. auto. }
  apply X; auto. apply Forall_rev. exact F.
Qed.
Lemma reported_order c errs s : reported c errs -> (exists x, s = c ++ x) -> in_order s (map coords (rev errs)).
Proof.
  intros (ps & E & S) [x ->]. inversion S as [|? ? S' FA]; subst. exists (rev ps). split; [|split].
  - rewrite map_rev, E, <- map_rev. reflexivity.
  - apply sorted_rev in S'. exact S'.
  - apply Forall_rev. eapply Forall_impl; [|exact FA]. intros a [y ->]. exists (y ++ x). rewrite app_assoc. reflexivity.
Qed.

Record linv (s : text) (l : lexer) (items : list token) : Prop := {
  li_src : lsrc l = s;
  li_pos : exists c1 c2,
      s = (c1 ++ c2) ++ lrest l /\ loff l = bytes_of (c1 ++ c2) /\
      pos_ok (c1 ++ c2) (lcur l) /\ pos_ok c1 (lstart l) /\
      laid (fun _ => True) c1 items /\ reported c1 (lerrs l);
  li_toks : ltoks l = rev (filter plain items);
  li_coms : lcoms l = rev (filter commentary items);
  li_count : lcount l = N.of_nat (length items);
  li_errs : Forall (fun e => points_at s (eline e) (ecol e)) (lerrs l);
}.

Lemma linv_new : forall s, linv s (lexer_new s) [].
Proof.
  intro s. constructor; simpl; auto.
  exists [], []. repeat split; simpl; auto; try (unfold columns; reflexivity); [constructor|].
  exists []. split; [reflexivity|repeat constructor].
Qed.

Lemma linv_next : forall s l i, linv s l i -> linv s (next l) i.
Proof.
  intros s l i [A (c1 & c2 & E & O & P & Q & D & RP) T C K R]. unfold next.
  destruct (lrest l) as [|c r] eqn:L.
  - constructor; simpl; auto. exists c1, c2. auto 8.
  - constructor; simpl; auto. exists c1, (c2 ++ [c]).
    destruct P as ((P1 & P2) & P3).
    rewrite app_assoc. split; [rewrite <- app_assoc; exact E|].
    split; [rewrite bytes_app, O; simpl; lia|]. split; [|split; [exact Q | split; [exact D | exact RP]]].
    unfold pos_ok, coords_after. rewrite newlines_snoc, columns_snoc, rust_pos_snoc.
    destruct (c =? 10); simpl; repeat split; lia.
Qed.

Lemma laid_gaps : forall (P : N -> Prop) x c i,
  laid P c i -> Forall P x -> laid P (c ++ x) i.
Proof.
  induction x; intros; simpl.
  - rewrite app_nil_r. assumption.
  - inversion H0; subst. change (a :: x) with ([a] ++ x). rewrite app_assoc.
    apply IHx; auto. constructor; auto.
Qed.

Lemma all_true : forall x : text, Forall (fun _ => True) x.
Proof. induction x; auto. Qed.

Lemma linv_jump : forall s l i, linv s l i -> linv s (jump l) i.
Proof.
  intros s l i [A (c1 & c2 & E & O & P & Q & D & RP) T C K R]. constructor; simpl; auto.
  exists (c1 ++ c2), []. rewrite app_nil_r. repeat (split; [assumption|]).
  split; [apply laid_gaps; [assumption | apply all_true]|apply reported_more; exact RP].
Qed.

Lemma linv_error : forall s m l i, linv s l i -> linv s (generate_error m l) i.
Proof.
  intros s m l i [A (c1 & c2 & E & O & P & Q & D & RP) T C K R]. apply linv_jump.
  constructor; simpl; auto.
  - exists c1, c2. repeat (split; [assumption|]). destruct Q as ((Q1 & Q2) & _). apply reported_add; auto. unfold coords, place. cbn [eline ecol]. congruence.
  - constructor; auto. exists c1, (c2 ++ lrest l). rewrite app_assoc.
    destruct Q as ((Q1 & Q2) & _). simpl. auto.
Qed.

Lemma linv_slice : forall s l i t,
  linv s l i -> slice (lsrc l) (pos (lstart l)) (pos (lcur l)) = Ok t ->
  exists c1, s = (c1 ++ t) ++ lrest l /\ coords_after c1 (lstart l) /\
    coords_after (c1 ++ t) (lcur l) /\ pos (lstart l) = bytes_of c1 /\
    pos (lcur l) = bytes_of (c1 ++ t) /\ laid (fun _ => True) c1 i /\ reported c1 (lerrs l) /\
    loff l = bytes_of (c1 ++ t) /\ pos (lcur l) = rust_pos (c1 ++ t).
Proof.
  intros s l i t [A (c1 & c2 & E & O & (P1 & P2) & (Q1 & Q2) & D & RP) T C K R] S.
  rewrite A in S. apply slice_spec in S. destruct S as (p & q & E1 & B1 & B2).
  assert (H1 : bytes_of (c1 ++ c2) = rust_pos (c1 ++ c2) /\ p ++ t = c1 ++ c2).
  { apply rust_pos_boundary with (r := lrest l) (q := q); [|congruence].
    rewrite <- E, E1, <- app_assoc. reflexivity. }
  assert (H2 : bytes_of c1 = rust_pos c1 /\ p = c1).
  { apply rust_pos_boundary with (r := c2 ++ lrest l) (q := t ++ q); [|congruence].
    rewrite <- E1, E, <- app_assoc. reflexivity. }
  destruct H1 as [H1 H1']. destruct H2 as [H2 ->]. apply app_inv_head in H1'. subst c2.
  exists c1. repeat split; try assumption; try apply Q1; try apply P1; congruence.
Qed.

Lemma linv_token : forall s k l l' i,
  linv s l i -> generate_token k l = Ok l' -> exists t, linv s l' (i ++ [t]).
Proof.
  intros s k l l' i I G. unfold generate_token in G.
  destruct (slice (lsrc l) (pos (lstart l)) (pos (lcur l))) eqn:S; simpl in G; try discriminate.
  destruct (linv_slice _ _ _ _ I S) as (c1 & E & W1 & W2 & W3 & W4 & D & RP & W5 & W6).
  destruct I as [A IP T C K R].
  set (t := mkTok (lcount l) a k (lstart l) (lcur l)) in *.
  exists t. inversion G; subst l'; clear G.
  assert (D' : laid (fun _ => True) (c1 ++ a) (i ++ [t])).
  { change a with (ttext t). constructor; auto; unfold t; simpl; auto. }
  unfold jump. constructor; simpl.
  - destruct (is_comment_kind k); assumption.
  - exists (c1 ++ a), []. rewrite app_nil_r.
    destruct (is_comment_kind k); simpl;
      repeat (split; [first [assumption | split; assumption]|]); apply reported_more; assumption.
  - rewrite filter_app, rev_app_distr. simpl. unfold plain at 1. simpl.
    destruct (is_comment_kind k); simpl; rewrite T; reflexivity.
  - rewrite filter_app, rev_app_distr. simpl. unfold commentary at 1. simpl.
    destruct (is_comment_kind k); simpl; rewrite C; reflexivity.
  - rewrite app_length. cbn [length]. destruct (is_comment_kind k); cbn [lcount]; lia.
  - destruct (is_comment_kind k); assumption.
Qed.

Lemma linv_prim : forall s l l' i, linv s l i -> prim l l' -> exists i', linv s l' i'.
Proof.
  intros s l l' i I H. inversion H; subst;
    eauto using linv_next, linv_jump, linv_error.
  edestruct linv_token; eauto.
Qed.

Lemma linv_prims : forall s l l', prims l l' -> forall i, linv s l i -> exists i', linv s l' i'.
Proof.
  induction 1; intros; [eauto|]. edestruct linv_prim; eauto.
Qed.

Theorem lex_laid : forall s toks coms errs,
  lex s = Ok (toks, coms, errs) ->
  exists items,
    laid (fun _ => True) s items /\
    toks = filter plain items /\ coms = filter commentary items /\
    Forall (fun e => points_at s (eline e) (ecol e)) errs /\
    in_order s (map (fun e => (eline e, ecol e)) errs).
Proof.
  unfold lex; intros s toks coms errs H.
  pose proof (reach_lex s) as RT.
  destruct (tokenize (length s + 2) (lexer_new s)); simpl in H; try discriminate.
  simpl in RT. apply (linv_prims s) with (i := []) in RT; [|apply linv_new].
  destruct RT as (i & [A (c1 & c2 & E & O & P & Q & D & RP) T C K R]).
  inversion H; subst. exists i.
  rewrite T, C, !rev_involutive. repeat split; auto using Forall_rev.
  - rewrite E, <- app_assoc. apply laid_gaps; [assumption | apply all_true].
  - apply (reported_order c1); auto. exists (c2 ++ lrest a). rewrite E at 1. rewrite <- app_assoc. reflexivity.
Qed.

(** ** ASCII sources: positions are byte-exact, so no slice can fail. *)
Definition ascii_text (s : text) : Prop := Forall (fun c => c < 128) s.


Lemma ascii_rust_pos : forall s, ascii_text s -> rust_pos s = bytes_of s.
Proof.
  intros s H. destruct s as [|x s] using rev_ind; [reflexivity|].
  rewrite rust_pos_snoc, bytes_app. apply Forall_app in H. destruct H as [_ H].
  inversion H; subst. unfold bytes_of at 3, utf8_len. cbn [fold_right].
  replace (x <? 128) with true by (symmetry; apply N.ltb_lt; assumption). lia.
Qed.

Lemma linv_ascii_slice : forall s l i,
  ascii_text s -> linv s l i ->
  slice (lsrc l) (pos (lstart l)) (pos (lcur l)) <> Panic PSlice.
Proof.
  intros s l i H [A (c1 & c2 & E & O & (P1 & P2) & (Q1 & Q2) & D & RP) T C K R].
  rewrite A, P2, Q2. rewrite E in H. apply Forall_app in H. destruct H as [H _].
  rewrite (ascii_rust_pos _ H).
  assert (H1 : ascii_text c1) by (apply Forall_app in H; tauto).
  rewrite (ascii_rust_pos _ H1), E, <- app_assoc, slice_app. discriminate.
Qed.

Theorem lex_ascii_no_panic : forall s p, ascii_text s -> lex s <> Panic p.
Proof.
  unfold lex; intros s p H E.
  pose proof (reach_lex s) as RT.
  destruct (tokenize (length s + 2) (lexer_new s)); simpl in E; try discriminate.
  simpl in RT. destruct RT as (_ & l1 & RT & F).
  apply (linv_prims s) with (i := []) in RT; [|apply linv_new].
  destruct RT as (i & I). eapply linv_ascii_slice; eauto.
Qed.

(** The lexer's only possible panic is a failed slice. *)
Theorem lex_panic_slice : forall s p, lex s = Panic p -> p = PSlice.
Proof.
  unfold lex; intros s p E.
  pose proof (reach_lex s) as RT.
  destruct (tokenize (length s + 2) (lexer_new s)); simpl in E; try discriminate.
  inversion E; subst. apply RT.
Qed.

(** ** Errors are never withdrawn *)
Lemma prims_errs : forall l l', prims l l' -> exists e, lerrs l' = e ++ lerrs l.
Proof.
  induction 1; [exists []; reflexivity|]. destruct IHprims as [e IH].
  inversion H; subst.
  - exists e. rewrite IH. unfold next. destruct (lrest l1); reflexivity.
  - exists e. exact IH.
  - simpl in IH. eexists (e ++ [_]). rewrite IH, <- app_assoc. reflexivity.
  - exists e. rewrite IH. unfold generate_token in H1.
    destruct (slice _ _ _); simpl in H1; try discriminate. inversion H1; subst.
    destruct (is_comment_kind k); reflexivity.
Qed.

(** ** Termination *)
Theorem lex_terminates : forall s, lex s <> OutOfFuel.
Proof.
  unfold lex; intros s E. pose proof (reach_lex s) as RT.
  destruct (tokenize (length s + 2) (lexer_new s)); simpl in E; try discriminate. exact RT.
Qed.
