(** Consequences of the main lexer theorems used by the property files. *)
From Coq Require Import Sorted.
From Verif Require Import ProofBase Tokens Lexer SpecLex LexInv LexScan LexSpecProofs LexMain.

Lemma follow_nil : forall k w, follow_ok k w [].
Proof.
  intros k w. destruct k; simpl; auto using starts_nil.
Qed.

Theorem lexeme_kind_unique : forall k k' w, lexeme k w -> lexeme k' w -> k = k'.
Proof.
  intros k k' w L L'.
  destruct (scan_item_complete _ _ _ L (follow_nil k w)) as (c & b & E & _ & S).
  destruct (scan_item_complete _ _ _ L' (follow_nil k' w)) as (c' & b' & E' & _ & S').
  rewrite E' in E. inversion E; subst. congruence.
Qed.

Theorem lexes_unique : forall its s its', lexes s its -> lexes s its' -> its = its'.
Proof.
  induction its as [|[k w] its IH]; intros s its' L L'.
  - apply lexes_inv in L. apply spaces_span in L. destruct its' as [|[k' w'] its']; [reflexivity|].
    apply lexes_inv in L'. destruct L' as (sp & t & E & S & LX & F & _). exfalso.
    destruct (item_span _ _ _ _ S LX F) as (c & b & _ & Q & _). rewrite <- E, L in Q. discriminate.
  - apply lexes_inv in L. destruct L as (sp & t & E & S & LX & F & L).
    destruct (item_span _ _ _ _ S LX F) as (c & b & W & Q & SC). rewrite <- E in Q.
    destruct its' as [|[k' w'] its'].
    + apply lexes_inv in L'. apply spaces_span in L'. rewrite L' in Q. discriminate.
    + apply lexes_inv in L'. destruct L' as (sp' & t' & E' & S' & LX' & F' & L').
      destruct (item_span _ _ _ _ S' LX' F') as (c' & b' & W' & Q' & SC'). rewrite <- E', Q in Q'.
      inversion Q'; subst c' sp'. rewrite H2, SC' in SC. inversion SC; subst.
      f_equal. eapply IH; eauto.
Qed.

(** Positions of single items of a layout. *)
Definition truthful (s : text) (t : token) : Prop :=
  exists pre post,
    s = pre ++ ttext t ++ post /\
    coords_after pre (tstart t) /\ pos (tstart t) = bytes_of pre /\
    coords_after (pre ++ ttext t) (tend t) /\ pos (tend t) = bytes_of (pre ++ ttext t).

Lemma truthful_app : forall s x t, truthful s t -> truthful (s ++ x) t.
Proof.
  intros s x t (pre & post & -> & H). exists pre, (post ++ x). rewrite <- !app_assoc. auto.
Qed.

Lemma laid_truthful : forall gap s items t, laid gap s items -> In t items -> truthful s t.
Proof.
  induction 1; intros I.
  - destruct I.
  - apply truthful_app. auto.
  - apply in_app_or in I. destruct I as [I|[->|[]]].
    + apply truthful_app. auto.
    + exists c, []. rewrite app_nil_r. auto.
Qed.

Lemma laid_idx : forall gap s items, laid gap s items ->
  forall n t, nth_error items n = Some t -> tidx t = N.of_nat n.
Proof.
  induction 1; intros n u H'.
  - destruct n; discriminate.
  - auto.
  - destruct (Nat.lt_ge_cases n (length items)) as [L|L].
    + rewrite nth_error_app1 in H' by assumption. auto.
    + rewrite nth_error_app2 in H' by assumption.
      destruct (n - length items)%nat as [|m] eqn:D; [|destruct m; discriminate].
      simpl in H'. inversion H'; subst. assert (n = length items) by lia. subst. assumption.
Qed.

(** Filtering a numbered list leaves the numbers strictly increasing. *)
Lemma filter_increasing : forall (f : token -> bool) l n,
  (forall i t, nth_error l i = Some t -> tidx t = n + N.of_nat i) ->
  Forall (fun i => n <= i) (map tidx (filter f l)) /\ StronglySorted N.lt (map tidx (filter f l)).
Proof.
  induction l as [|a l IH]; intros n H; simpl.
  - split; constructor.
  - destruct (IH (n + 1)) as [IH1 IH2].
    { intros i t E. rewrite (H (S i) t E). lia. }
    pose proof (H O a eq_refl) as A. simpl in A.
    destruct (f a); simpl.
    + split; constructor; auto; try lia.
      * eapply Forall_impl; [|exact IH1]. simpl. intros. lia.
      * eapply Forall_impl; [|exact IH1]. simpl. intros. lia.
    + split; [|exact IH2]. eapply Forall_impl; [|exact IH1]. simpl. intros. lia.
Qed.

Lemma laid_length_idx : forall gap s items, laid gap s items ->
  map tidx items = map N.of_nat (seq 0 (length items)).
Proof.
  intros gap s items L. pose proof (laid_idx _ _ _ L) as H. clear L.
  assert (G : forall l k, (forall n t, nth_error l n = Some t -> tidx t = N.of_nat (k + n)) ->
              map tidx l = map N.of_nat (seq k (length l))).
  { induction l as [|a l IH]; intros k X; [reflexivity|]. simpl. f_equal.
    - rewrite (X O a eq_refl). f_equal. lia.
    - apply IH. intros n t E. rewrite (X (S n) t E). f_equal. lia. }
  apply G. exact H.
Qed.
