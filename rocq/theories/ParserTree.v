(** From parser runs to trees: [build_tree] succeeds and gives the pruned forest. *)
From Verif Require Import ProofBase Tokens Syntax Lexer ParserCore Grammar Tree ParserSem
  ParserFuel SpecGrammar Regex ParserGrammar.

Definition empty_tree (c : child) : bool := match c with CTree _ [] => true | _ => false end.
Definition prunes (cs : list child) : list child :=
  filter (fun c => negb (empty_tree c)) (map prune cs).

Lemma prune_tree k cs : prune (CTree k cs) = CTree k (prunes cs).
Proof.
  simpl. f_equal. unfold prunes. induction cs as [|c cs IH]; simpl; auto.
  destruct (prune c) as [x|k' [|c' l]] eqn:E; simpl; rewrite IH; reflexivity.
Qed.

Lemma prunes_app a b : prunes (a ++ b) = prunes a ++ prunes b.
Proof. unfold prunes. rewrite map_app, filter_app. reflexivity. Qed.

(** Leaves survive pruning. *)
Lemma leaves_prune c : leaves (prune c) = leaves c.
Proof.
  induction c as [x|k cs IH] using child_ind2; auto.
  rewrite prune_tree. simpl. unfold prunes.
  induction IH as [|c cs H _ IH]; simpl; auto. rewrite <- H.
  destruct (empty_tree (prune c)) eqn:E; simpl.
  - rewrite <- IH. destruct (prune c) as [x|k' [|c' l]]; try discriminate. reflexivity.
  - rewrite <- IH. reflexivity.
Qed.


(** No inner node is empty after pruning. *)
Inductive solid : child -> Prop :=
| solid_tok x : solid (CTok x)
| solid_tree k cs : cs <> [] -> Forall solid cs -> solid (CTree k cs).

Lemma prunes_solid cs : Forall solid (prunes cs).
Proof.
  assert (forall c, match prune c with CTok _ => True | CTree _ l => Forall solid l end) as K.
  { intro c. induction c as [x|k cs' IH] using child_ind2; [exact I|].
    rewrite prune_tree. unfold prunes. apply Forall_forall. intros d I.
    apply filter_In in I as [I E]. apply in_map_iff in I as [c [<- I]].
    rewrite Forall_forall in IH. specialize (IH c I).
    destruct (prune c) as [x|k' l]; [constructor|]. constructor; auto.
    intro Z; subst; discriminate. }
  pose proof (K (CTree KError cs)) as H. rewrite prune_tree in H. exact H.
Qed.

(** The loop of [build_tree] on the events of a forest. *)
Lemma build_flats cs : forall evs toks k0 acc stack,
  build_loop (flats cs ++ evs) (yield cs ++ toks) ((k0, acc) :: stack) =
  build_loop evs toks ((k0, rev (prunes cs) ++ acc) :: stack).
Proof.
  assert (forall c evs toks k0 acc stack,
    build_loop (flat c ++ evs) (leaves c ++ toks) ((k0, acc) :: stack) =
    build_loop evs toks ((k0, rev (prunes [c]) ++ acc) :: stack)) as K.
  { intro c. induction c as [x|k cs' IH] using child_ind2; intros evs toks k0 acc stack.
    - reflexivity.
    - assert (forall acc' evs toks, 
        build_loop (flats cs' ++ evs) (yield cs' ++ toks) ((k, acc') :: (k0, acc) :: stack) =
        build_loop evs toks ((k, rev (prunes cs') ++ acc') :: (k0, acc) :: stack)) as K2.
      { clear -IH. induction IH as [|c cs H _ IH]; intros acc' evs toks; auto.
        change (c :: cs) with ([c] ++ cs).
        rewrite flats_app, yield_app, <- !app_assoc.
        assert (flats [c] = flat c) as -> by (unfold flats; simpl; apply app_nil_r).
        assert (yield [c] = leaves c) as -> by (unfold yield; simpl; apply app_nil_r).
        rewrite H, IH, prunes_app, rev_app_distr, app_assoc. reflexivity. }
      cbn [flat leaves]. rewrite <- app_comm_cons. cbn [build_loop]. rewrite <- app_assoc.
      change (flat_map flat cs') with (flats cs'). change (flat_map leaves cs') with (yield cs').
      rewrite K2, app_nil_r. cbn [build_loop app].
      assert (prunes [CTree k cs'] = filter (fun c => negb (empty_tree c)) [CTree k (prunes cs')]) as -> by (unfold prunes at 1; cbn [map]; rewrite prune_tree; reflexivity). cbn [filter].
      destruct (prunes cs') as [|d l] eqn:E; [reflexivity|].
      cbn [empty_tree negb]. pose proof (rev_involutive (d :: l)) as RI.
      destruct (rev (d :: l)) as [|d' l'] eqn:E2.
      { apply (f_equal (@rev child)) in E2. rewrite rev_involutive in E2. discriminate. }
      rewrite RI. reflexivity. }
  induction cs as [|c cs IH]; intros evs toks k0 acc stack; auto.
  change (c :: cs) with ([c] ++ cs).
  rewrite flats_app, yield_app, <- !app_assoc.
  assert (flats [c] = flat c) as -> by (unfold flats; simpl; apply app_nil_r).
  assert (yield [c] = leaves c) as -> by (unfold yield; simpl; apply app_nil_r).
  rewrite K, IH, prunes_app, rev_app_distr, app_assoc. reflexivity.
Qed.

Lemma build_flat_rest k cs rest :
  build_tree (yield cs ++ rest) (flat (CTree k cs)) =
  match rest with [] => Ok (prune (CTree k cs)) | _ => Panic PTree end.
Proof.
  unfold build_tree. cbn [flat]. rewrite app_comm_cons, rev_app_distr. cbn [rev app].
  rewrite rev_app_distr, rev_involutive. cbn [rev app build_loop].
  change (flat_map flat cs) with (flats cs).
  rewrite <- (app_nil_r (flats cs)).
  rewrite build_flats. cbn [build_loop bind].
  destruct rest; auto. rewrite app_nil_r, rev_involutive, prune_tree. reflexivity.
Qed.

Lemma build_flat k cs : build_tree (yield cs) (flat (CTree k cs)) = Ok (prune (CTree k cs)).
Proof. pose proof (build_flat_rest k cs []) as H. rewrite app_nil_r in H. exact H. Qed.

(** Any completed parse. *)
Lemma parse_events_unfold limit fuel ts k :
  k <> KError ->
  parse_events_with limit fuel ts k =
  ('(_, p) <- exec body fuel TEOF (SCall k) (parser_with limit ts) ;;
   Ok (rev (pevents p), rev (perrs p))).
Proof. destruct k; try reflexivity. contradiction. Qed.

Lemma parse_events_entry limit fuel ts k x :
  parse_events_with limit fuel ts k = Ok x -> k <> KError.
Proof. intros H Z; subst; discriminate. Qed.

Lemma exec_while_end body' fuel reg a p g p' :
  nb a = true -> exec body' fuel reg (SWhile (CNot CEof) a) p = Ok (g, p') -> prest p' = [].
Proof.
  intro N. revert p g. induction fuel as [|f IH]; intros p g H; [discriminate|].
  rewrite exec_while in H. apply bind_ok in H as [[b q] [H1 H2]].
  cbn [eval bind] in H1. inversion H1; subst. unfold p_eof in H2.
  destruct (prest q) eqn:E; cbn [negb] in H2.
  - inversion H2; subst. exact E.
  - apply bind_ok in H2 as [[g1 q1] [H2 H3]]. pose proof (exec_nb _ _ _ _ _ _ _ H2 N). subst.
    eapply IH; eauto.
Qed.

Lemma exec_stored_end fuel p g p' :
  exec body fuel TEOF body_stored_definition p = Ok (g, p') -> prest p' = [].
Proof.
  unfold body_stored_definition. destruct fuel as [|f]; [discriminate|].
  cbn [seq fold_right]. intro H. rewrite exec_seq in H.
  apply bind_ok in H as [[g1 q1] [H1 H2]].
  assert (g1 = Normal) by (eapply exec_nb; eauto). subst.
  rewrite exec_seq in H2. apply bind_ok in H2 as [[g2 q2] [H2 H3]].
  pose proof H2 as H2'. apply exec_nb in H2'; auto. subst.
  apply exec_while_end in H2; auto.
  rewrite exec_skip in H3. inversion H3; subst. exact H2.
Qed.

(** Shape of the result of a completed parse. *)
Lemma parse_shape limit fuel ts k evs er :
  parse_events_with limit fuel ts k = Ok (evs, er) ->
  exists cs rest g,
    evs = flat (CTree k cs) /\ ts = yield cs ++ rest /\
    (k = KStoredDefinition -> rest = []) /\
    (er = [] -> okr body TEOF (body k) ts g cs rest).
Proof.
  intro H. pose proof (parse_events_entry _ _ _ _ _ H) as NE.
  rewrite parse_events_unfold in H by auto.
  apply bind_ok in H as [[g p] [H1 H2]]. inversion H2; subst.
  destruct fuel as [|f]; [discriminate|]. rewrite exec_call in H1.
  destruct (p_enter (parser_with limit ts)) as [m q] eqn:E.
  apply bind_ok in H1 as [[g1 q1] [H1 H3]]. inversion H3; subst.
  pose proof H1 as H1'. apply exec_did in H1 as (cs & es & D & O).
  pose proof (enter_exit_did _ _ _ _ k _ _ E D) as D2.
  exists cs, (prest q1), g1.
  assert (prest q = ts) as Q by (inversion E; reflexivity).
  repeat split.
  - rewrite (did_ev _ _ _ _ D2). cbn [pevents parser_with].
    rewrite app_nil_r, rev_involutive. unfold flats. cbn [flat_map]. apply app_nil_r.
  - rewrite <- (did_rest _ _ _ _ D). auto.
  - intro Z; subst k. eapply exec_stored_end. exact H1'.
  - intro Z. rewrite <- Q. apply O. pose proof (did_err _ _ _ _ D2) as DE.
    cbn [perrs parser_with] in DE. rewrite app_nil_r in DE. rewrite DE in Z.
    rewrite <- (rev_involutive es), Z. reflexivity.
Qed.

(** Conforming trees. *)
Lemma conf_conforms c : conf prod_of c -> conforms false c.
Proof.
  induction c as [x|k cs IH] using child_ind2; intro H; [constructor|].
  inversion H; subst. constructor; auto.
  rewrite Forall_forall in *. auto.
Qed.

Lemma stored_conforms ts g cs rest :
  okr body TEOF (body KStoredDefinition) ts g cs rest -> conforms false (CTree KStoredDefinition cs).
Proof.
  intro H. destruct (rule_ok KStoredDefinition) as (r & s & b & T & L); [discriminate|].
  change (skind_eqb KStoredDefinition KStoredDefinition) with true in T.
  destruct (tr_sound body pre_tab prod_of body_ok _ _ _ _ _ _ H _ _ _ _ _ T) as (A & B & C).
  { split; simpl; auto; try apply full_in. discriminate. }
  { discriminate. }
  apply conf_conforms. constructor; auto. apply L. destruct g; [left; apply A|right; apply B]; auto.
Qed.

(** Entries other than [KStoredDefinition] that leave a token unread. *)
Lemma entry_conforms ts g k cs rest :
  okr body TEOF (body k) ts g cs rest -> rest <> [] -> pre_tab k = full ->
  conforms false (CTree k cs).
Proof.
  intros H NE P. destruct (body_ok k) as (r & s & b & T & L).
  { rewrite P. discriminate. }
  destruct (tr_sound body pre_tab prod_of body_ok _ _ _ _ _ _ H _ _ _ _ _ T) as (A & B & C).
  { split; simpl; auto; rewrite ?P; try apply full_in. discriminate. }
  { auto. }
  apply conf_conforms. constructor; auto. apply L. destruct g; [left; apply A|right; apply B]; auto.
Qed.

Lemma conforms_derives strict c :
  conforms strict c ->
  match c with
  | CTok _ => True
  | CTree k cs => derives strict k (map tkind_of (yield cs))
  end.
Proof.
  induction c as [x|k cs IH] using child_ind2; intro H; [exact I|].
  inversion H as [|k' cs' L F]; subst. apply d_rule with (w := map sym_of cs); auto.
  clear H L. induction cs as [|c cs IHcs]; [constructor|].
  inversion IH; inversion F; subst. cbn [map yield flat_map]. rewrite map_app.
  destruct c as [x|k' cs'].
  - cbn [sym_of leaves map app]. constructor. apply IHcs; auto.
  - cbn [sym_of]. constructor; [apply H1; auto|]. apply IHcs; auto.
Qed.
