(** Lemmas about the model of the command line tool. *)
From Verif Require Import ProofBase Tokens Syntax ParserCore Lib PropsParser FmtFacts FmtNeat PropsFormat Utf8 SpecUtf8 Utf8Facts Cli SpecCli.

Lemma text_eqb_eq a : forall b, text_eqb a b = true <-> a = b.
Proof.
  induction a as [|x a IH]; intros [|y b]; simpl; try (split; congruence).
  rewrite andb_true_iff, N.eqb_eq, IH. split; [intros [-> ->]; auto | intro E; inversion E; auto].
Qed.

Lemma andthen_inv {A B} (m : M A) (f : A -> M B) s r s' : andthen m f s = (r, s') ->
  (exists a s1, m s = (inl a, s1) /\ f a s1 = (r, s')) \/ (exists x, m s = (inr x, s') /\ r = inr x).
Proof.
  unfold andthen. destruct (m s) as [[a|x] s1]; intro H; [left; eauto|].
  inversion H; subst. right. eauto.
Qed.

(** ** Rewritten files are UTF-8 *)
Lemma rewrites_chars eol src new : rewrites eol src new -> forall c, In c new -> In c src \/ In c eol \/ c = 32.
Proof.
  intros (p & out & ACC & PP & ->) c I. apply in_app_or in I as [I|I]; auto.
  eapply C64_no_new_characters; eauto.
Qed.
Lemma rewrites_utf8 eol b src new : is_eol eol -> utf8 b src -> rewrites eol src new -> utf8 (encode new) new.
Proof.
  intros EO U RW. apply encode_utf8. apply Forall_forall. intros c I.
  destruct (rewrites_chars _ _ _ RW c I) as [I'|[I'| ->]].
  - pose proof (utf8_scalar _ _ U) as F. rewrite Forall_forall in F. auto.
  - left. destruct EO as [->| ->]; cbn in I'; intuition (subst; reflexivity).
  - left. reflexivity.
Qed.

(** ** Effects and stores *)
Definition same (s s' : store) : Prop := forall i, s i = s' i.
Lemma same_update s s' i c : same s s' -> same (update s i c) (update s' i c).
Proof. intros H j. unfold update. destruct (j =? i); auto. Qed.
Lemma same_effect s s' e : same s s' -> same (effect_on s e) (effect_on s' e).
Proof.
  intro H. destruct e; cbn [effect_on]; auto using same_update.
  rewrite <- (H i). auto using same_update.
Qed.
Lemma same_effects es : forall s s', same s s' -> same (after_effects s es) (after_effects s' es).
Proof. induction es as [|e es IH]; intros s s' H; cbn [after_effects fold_left]; auto. apply IH, same_effect, H. Qed.
Lemma after_app s a b : after_effects s (a ++ b) = after_effects (after_effects s a) b.
Proof. apply fold_left_app. Qed.

Lemma after_writes i ws : forall s t, s i = t ->
  same (after_effects s (map (EWrite i) ws)) (update s i (t ++ ws)).
Proof.
  induction ws as [|c ws IH]; intros s t H j; cbn [map after_effects fold_left].
  - rewrite app_nil_r. unfold update. destruct (j =? i) eqn:E; auto. apply N.eqb_eq in E. subst. auto.
  - cbn [effect_on]. rewrite H. unfold after_effects in IH. rewrite (IH _ (t ++ [c])).
    + rewrite <- app_assoc. unfold update. cbn [app]. destruct (j =? i) eqn:E; auto.
    + unfold update. rewrite N.eqb_refl. reflexivity.
Qed.
Lemma after_file i ws s : same (after_effects s (ETrunc i :: map (EWrite i) ws)) (update s i ws).
Proof.
  intro j. cbn [after_effects fold_left effect_on].
  pose proof (after_writes i ws (update s i []) []) as H. unfold after_effects in H. rewrite H.
  - unfold update. destruct (j =? i); auto.
  - unfold update. rewrite N.eqb_refl. reflexivity.
Qed.
Lemma after_quiet es : forall s, Forall quiet es -> after_effects s es = s.
Proof.
  induction es as [|e es IH]; intros s F; auto. inversion F as [|? ? Q F']; subst.
  cbn [after_effects fold_left]. destruct e; cbn [quiet effect_on] in *; try contradiction; apply IH; auto.
Qed.

(** ** Stories *)
Section Stories.
Variables (eol : text) (w : world) (files : list path).
Notation story := (story eol w files).

Lemma story_same s es : story s es -> forall s', same s s' -> story s' es.
Proof.
  induction 1 as [s|s e es Q S IH|s q i src new b es IQ MO ND SR RW UB S IH|s q i src new b n IQ MO ND SR RW UB]; intros s' E.
  - constructor.
  - constructor; auto.
  - econstructor; eauto; [rewrite <- E; eauto|]. apply IH, same_update, E.
  - eapply st_cut; eauto. rewrite <- E. eauto.
Qed.

(** [quiet] effects may be put in front. *)
Lemma story_quiets es : forall s es', Forall quiet es -> story s es' -> story s (es ++ es').
Proof. induction es as [|e es IH]; intros s es' F S; auto. inversion F; subst. constructor; auto. Qed.

Lemma prefix_split {A} (x : list A) : forall y a b, x ++ y = a ++ b ->
  (exists n, a = firstn n x) \/ (exists a', a = x ++ a' /\ y = a' ++ b).
Proof.
  induction x as [|c x IH]; intros y a b E.
  - right. exists a. auto.
  - destruct a as [|d a]; [left; exists O; reflexivity|]. cbn [app] in E. inversion E; subst.
    destruct (IH _ _ _ H1) as [[n ->]|(a' & -> & ->)]; [left; exists (S n); reflexivity | right; exists a'; auto].
Qed.
Lemma map_prefix {A B} (f : A -> B) l n : firstn n (map f l) = map f (firstn n l).
Proof. apply firstn_map. Qed.

(** A run killed half-way has a story as well. *)
Lemma story_prefix s es : story s es -> forall a b, es = a ++ b -> story s a.
Proof.
  induction 1 as [s|s e es Q S IH|s q i src new bs es IQ MO ND SR RW UB S IH|s q i src new bs n IQ MO ND SR RW UB]; intros a b E.
  - symmetry in E. apply app_eq_nil in E as [-> _]. constructor.
  - destruct a as [|x a]; [constructor|]. cbn [app] in E. inversion E; subst. constructor; eauto.
  - destruct a as [|x a]; [constructor|]. cbn [app] in E. inversion E; subst.
    destruct (prefix_split _ _ _ _ H1) as [[n ->]|(a' & -> & E')].
    + rewrite map_prefix. eapply st_cut; eauto.
    + eapply st_write; eauto.
  - destruct a as [|x a]; [constructor|]. cbn [app] in E. inversion E; subst.
    assert (exists m, a = firstn m (map (EWrite i) (firstn n bs))) as [m ->].
    { exists (length a). rewrite H1, firstn_app, Nat.sub_diag, firstn_all. cbn [firstn]. rewrite app_nil_r. reflexivity. }
    rewrite map_prefix, firstn_firstn. eapply st_cut; eauto.
Qed.

(** Only complete stories can be continued. *)
Inductive chapter : store -> list effect -> Prop :=
| ch_quiet s es : Forall quiet es -> chapter s es
| ch_write s q i src new b es :
    In q files -> is_modelica q = true -> w_node w q = Some (NFile i) -> utf8 (s i) src -> rewrites eol src new -> utf8 b new ->
    Forall quiet es -> chapter s (ETrunc i :: map (EWrite i) b ++ es).
Lemma chapter_story s es es' : chapter s es -> story (after_effects s es) es' -> story s (es ++ es').
Proof.
  destruct 1 as [s es F|s q i src new b es IQ MO ND SR RW UB F]; intro S.
  - apply story_quiets; auto. rewrite after_quiet in S; auto.
  - cbn [app]. rewrite <- app_assoc. eapply st_write; eauto. apply story_quiets; auto.
    apply (story_same _ _ S). intro j. change (ETrunc i :: map (EWrite i) b ++ es) with ((ETrunc i :: map (EWrite i) b) ++ es).
    rewrite after_app, after_quiet by auto. apply after_file.
Qed.

(** The contents of a file. *)
Lemma rewrites_star_front t u v : rewrites eol t u -> rewrites_star eol u v -> rewrites_star eol t v.
Proof. intros RW ST. induction ST as [x|x y z S IH R]; [econstructor; [constructor|auto]|econstructor; eauto]. Qed.
Theorem story_content s es : story s es -> forall i,
  after_effects s es i = s i \/
  exists q t src new b n, In q files /\ is_modelica q = true /\ w_node w q = Some (NFile i) /\
    utf8 (s i) t /\ rewrites_star eol t src /\ rewrites eol src new /\ utf8 b new /\
    after_effects s es i = firstn n b.
Proof.
  induction 1 as [s|s e es Q S IH|s q i0 src new b es IQ MO ND SR RW UB S IH|s q i0 src new b n IQ MO ND SR RW UB]; intro i.
  - left. reflexivity.
  - cbn [after_effects fold_left]. destruct e; cbn [quiet effect_on] in *; try contradiction; apply IH.
  - change (ETrunc i0 :: map (EWrite i0) b ++ es) with ((ETrunc i0 :: map (EWrite i0) b) ++ es).
    rewrite after_app. rewrite (same_effects es _ _ (after_file i0 b s)).
    destruct (IH i) as [E|(q' & t & src' & new' & b' & n & A1 & A2 & A3 & A4 & A5 & A6 & A7 & A8)].
    + rewrite E. unfold update. destruct (i =? i0) eqn:EI; [|left; auto]. apply N.eqb_eq in EI. subst i0.
      right. exists q, src, src, new, b, (length b). repeat split; auto; [constructor|]. rewrite firstn_all. reflexivity.
    + right. unfold update in A4. destruct (i =? i0) eqn:EI.
      * apply N.eqb_eq in EI. subst i0. rewrite (utf8_fun _ _ _ A4 UB) in A5.
        exists q', src, src', new', b', n. repeat split; auto. eapply rewrites_star_front; eauto.
      * exists q', t, src', new', b', n. repeat split; auto.
  - rewrite (after_file i0 (firstn n b) s i). unfold update. destruct (i =? i0) eqn:EI; [|left; auto].
    apply N.eqb_eq in EI. subst i0. right. exists q, src, src, new, b, n. repeat split; auto. constructor.
Qed.
End Stories.

(** ** Steps of the program *)
(** [m] only adds effects to the trace, and applies them to the store. *)
Definition adds {A} (m : M A) (P : store -> (A + stop) -> list effect -> Prop) : Prop :=
  forall s r s', m s = (r, s') ->
    exists es, s_trace s' = s_trace s ++ es /\ s_store s' = after_effects (s_store s) es /\ P (s_store s) r es.

Lemma adds_ret {A} (a : A) : adds (ret a) (fun _ r es => r = inl a /\ es = []).
Proof. intros s r s' H. inversion H; subst. exists []. rewrite app_nil_r. auto. Qed.
Lemma adds_halt {A} x : @adds A (halt x) (fun _ r es => r = inr x /\ es = []).
Proof. intros s r s' H. inversion H; subst. exists []. rewrite app_nil_r. auto. Qed.
Lemma adds_call w : adds (call w) (fun _ r es => es = [] /\ exists n, r = inl (w_fault w n)).
Proof. intros s r s' H. inversion H; subst. exists []. rewrite app_nil_r. eauto. Qed.
Lemma adds_emit e : adds (emit e) (fun _ r es => es = [e] /\ r = inl tt).
Proof. intros s r s' H. inversion H; subst. exists [e]. cbn. auto. Qed.
Lemma adds_weak {A} (m : M A) (P Q : store -> (A + stop) -> list effect -> Prop) : adds m P -> (forall s r es, P s r es -> Q s r es) -> adds m Q.
Proof. intros H W s r s' E. destruct (H _ _ _ E) as (es & E1 & E2 & E3). exists es. auto. Qed.
Lemma adds_bind {A B} (m : M A) (f : A -> M B) P (Q : A -> store -> (B + stop) -> list effect -> Prop) :
  adds m P -> (forall a, adds (f a) (Q a)) ->
  adds (andthen m f) (fun s r es =>
    (exists a e1 e2, P s (inl a) e1 /\ Q a (after_effects s e1) r e2 /\ es = e1 ++ e2) \/
    (exists x, P s (inr x) es /\ r = inr x)).
Proof.
  intros H1 H2 s r s' E. apply andthen_inv in E as [(a & s1 & E1 & E2)|(x & E1 & ->)].
  - destruct (H1 _ _ _ E1) as (e1 & T1 & S1 & P1). destruct (H2 a _ _ _ E2) as (e2 & T2 & S2 & P2).
    exists (e1 ++ e2). rewrite T2, T1, app_assoc, S2, S1, after_app. repeat split; auto.
    left. exists a, e1, e2. rewrite <- S1. auto.
  - destruct (H1 _ _ _ E1) as (e1 & T1 & S1 & P1). exists e1. repeat split; auto. right. eauto.
Qed.

Lemma adds_emit_all es : adds (emit_all es) (fun _ r es' => es' = es /\ r = inl tt).
Proof.
  induction es as [|e es IH]; cbn [emit_all].
  - eapply adds_weak; [apply adds_ret|]. intros s r es' [-> ->]. auto.
  - eapply adds_weak; [apply (adds_bind _ _ _ (fun _ => _) (adds_emit e) (fun _ => IH))|].
    intros s r es' [(a & e1 & e2 & [-> _] & [-> ->] & ->)|(x & [_ D] & _)]; [auto|discriminate].
Qed.

Lemma adds_mapM {A B} (f : A -> M B) l : (forall a, adds (f a) (fun _ _ es => es = [])) ->
  adds (mapM f l) (fun _ _ es => es = []).
Proof.
  intro H. induction l as [|a l IH]; cbn [mapM].
  - eapply adds_weak; [apply adds_ret|]. intros s r es [_ ->]. auto.
  - eapply adds_weak; [apply (adds_bind _ _ _ (fun _ _ _ es => es = []) (H a))|].
    + intro b. eapply adds_weak; [apply (adds_bind _ _ _ (fun _ _ _ es => es = []) IH)|].
      * intro bs. eapply adds_weak; [apply adds_ret|]. intros s r es [_ ->]. auto.
      * intros s r es [(a' & e1 & e2 & -> & -> & ->)|(x & -> & _)]; auto.
    + intros s r es [(a' & e1 & e2 & -> & -> & ->)|(x & -> & _)]; auto.
Qed.

Lemma adds_dir w fuel : forall d, adds (get_files_from_dir fuel w d) (fun _ _ es => es = []).
Proof.
  induction fuel as [|fuel IH]; intro d; cbn [get_files_from_dir].
  - eapply adds_weak; [apply adds_halt|]. intros s r es [_ ->]. auto.
  - eapply adds_weak; [apply (adds_bind _ _ _ (fun _ _ _ es => es = []) (adds_call w))|].
    + intro f. destruct f; try (eapply adds_weak; [apply adds_halt|]; intros s r es [_ ->]; auto).
      destruct (w_node w d) as [[i|es]|]; try (eapply adds_weak; [apply adds_halt|]; intros s r es' [_ ->]; auto).
      eapply adds_weak; [apply (adds_bind _ _ (fun _ _ es => es = []) (fun _ _ _ es => es = []))|].
      * apply adds_mapM. intro n.
        eapply adds_weak; [apply (adds_bind _ _ _ (fun _ _ _ es => es = []) (adds_call w))|].
        -- intros [| |m]; try (eapply adds_weak; [apply adds_halt|]; intros s r es' [_ ->]; auto).
           cbv zeta. destruct (is_dir w (join d n)); [apply IH|].
           destruct (is_modelica (join d n)); (eapply adds_weak; [apply adds_ret|]; intros s r es' [_ ->]; auto).
        -- intros s r es' [(a' & e1 & e2 & [-> _] & -> & ->)|(x & [-> _] & _)]; auto.
      * intro fs. eapply adds_weak; [apply adds_ret|]. intros s r es' [_ ->]. auto.
      * intros s r es' [(a' & e1 & e2 & -> & -> & ->)|(x & -> & _)]; auto.
    + intros s r es' [(a' & e1 & e2 & [-> _] & -> & ->)|(x & [-> _] & _)]; auto.
Qed.
Lemma adds_collect w fuel args : adds (collect fuel w args) (fun _ _ es => es = []).
Proof.
  unfold collect. eapply adds_weak; [apply (adds_bind _ _ (fun _ _ es => es = []) (fun _ _ _ es => es = []))|].
  - apply adds_mapM. intro p. destruct (is_dir w p); [apply adds_dir|].
    eapply adds_weak; [apply adds_ret|]. intros s r es' [_ ->]. auto.
  - intro fs. eapply adds_weak; [apply adds_ret|]. intros s r es' [_ ->]. auto.
  - intros s r es' [(a' & e1 & e2 & -> & -> & ->)|(x & -> & _)]; auto.
Qed.

Lemma adds_read w q : adds (read_file w q) (fun s r es => es = [] /\
  ((exists src, r = inl (inl src) /\ holds w s q src) \/
   (exists e, r = inl (inr e) /\ e = (if is_modelica q then w_oserr w else display q ++ str " is not a Modelica file") /\
      (calm w -> forall src, ~ holds w s q src)))).
Proof.
  unfold read_file. destruct (is_modelica q) eqn:MO; cbn [negb].
  - intros s r s' H. apply andthen_inv in H as [(f & s1 & H1 & H)|(x & H1 & _)]; [|discriminate].
    inversion H1; subst; clear H1. exists [].
    assert (forall s0 : state, s0 = mkState (s_store s) (s_trace s) (S (s_tick s)) ->
              s_trace s0 = s_trace s ++ [] /\ s_store s0 = after_effects (s_store s) []) as GO.
    { intros s0 ->. rewrite app_nil_r. auto. }
    destruct (w_fault w (s_tick s)) as [| |n] eqn:EF.
    + destruct (w_node w q) as [[i|es]|] eqn:ND.
      * apply andthen_inv in H as [(c & s1 & H1 & H)|(x & H1 & _)]; [|discriminate].
        inversion H1; subst; clear H1. cbn [s_store] in H. destruct (decode (s_store s i)) as [t|] eqn:SI; inversion H; subst.
        -- destruct (GO _ eq_refl). repeat split; auto. left. exists t. split; auto. split; auto. apply decode_iff in SI. eauto.
        -- destruct (GO _ eq_refl). repeat split; auto. right. eexists. split; [reflexivity|]. split; [reflexivity|].
           intros _ src (_ & j & NJ & SJ). apply decode_iff in SJ. congruence.
      * inversion H; subst. destruct (GO _ eq_refl). repeat split; auto. right. eexists. split; [reflexivity|]. split; [reflexivity|].
        intros _ src (_ & j & NJ & SJ). congruence.
      * inversion H; subst. destruct (GO _ eq_refl). repeat split; auto. right. eexists. split; [reflexivity|]. split; [reflexivity|].
        intros _ src (_ & j & NJ & SJ). congruence.
    + inversion H; subst. destruct (GO _ eq_refl). repeat split; auto. right. eexists. split; [reflexivity|]. split; [reflexivity|].
      intros C. rewrite C in EF. discriminate.
    + inversion H; subst. destruct (GO _ eq_refl). repeat split; auto. right. eexists. split; [reflexivity|]. split; [reflexivity|].
      intros C. rewrite C in EF. discriminate.
  - eapply adds_weak; [apply adds_ret|]. intros s r es [-> ->]. split; eauto. right. eexists. split; [reflexivity|]. split; [reflexivity|].
    intros _ src [D _]. congruence.
Qed.

(** ** Processing one file *)
Section Process.
Variables (eol : text) (w : world) (check : bool).
Hypothesis EO : check = false -> is_eol eol.

(** What processing the file [q] does. *)
Inductive processed (code : N) (q : path) (s : store) : (N + stop) -> list effect -> Prop :=
| pr_complain e : complaint w s q e -> processed code q s (inl 1) [e]
| pr_failed name src new : check = true -> holds w s q src -> rewrites eol src new -> new <> src -> shows q name ->
    processed code q s (inl 1) [EOut (name ++ str ": check failed" ++ [10])]
| pr_passed name src : check = true -> holds w s q src -> rewrites eol src src -> shows q name ->
    processed code q s (inl code) [EOut (name ++ str ": check passed" ++ [10])]
| pr_write i src new b : check = false ->
    is_modelica q = true -> w_node w q = Some (NFile i) -> utf8 (s i) src -> rewrites eol src new -> utf8 b new ->
    processed code q s (inl code) (ETrunc i :: map (EWrite i) b)
| pr_part i src new b n : ~ calm w -> check = false ->
    is_modelica q = true -> w_node w q = Some (NFile i) -> utf8 (s i) src -> rewrites eol src new -> utf8 b new ->
    processed code q s (inr SPanic) (ETrunc i :: map (EWrite i) (firstn n b))
| pr_stop : (calm w -> exists src x, holds w s q src /\ parse src KStoredDefinition = Panic x) ->
    processed code q s (inr SPanic) [].


Lemma write_steps i new (s : state) r s' :
  (_ <~ emit (ETrunc i) ;; emit_all (map (EWrite i) new)) s = (r, s') ->
  r = inl tt /\ s_trace s' = s_trace s ++ ETrunc i :: map (EWrite i) new /\
  s_store s' = after_effects (s_store s) (ETrunc i :: map (EWrite i) new).
Proof.
  intro H.
  assert (adds (_ <~ emit (ETrunc i) ;; emit_all (map (EWrite i) new))
            (fun _ r es => r = inl tt /\ es = ETrunc i :: map (EWrite i) new)) as AD.
  { eapply adds_weak; [apply (adds_bind _ _ _ (fun _ => _) (adds_emit _) (fun _ => adds_emit_all _))|].
    intros s1 r1 es [(x & e1 & e2 & [-> _] & [-> ->] & ->)|(x & [_ D] & _)]; [auto|discriminate]. }
  destruct (AD _ _ _ H) as (es & T & S & -> & ->). auto.
Qed.

Lemma adds_write q code i src new :
  check = false -> w_node w q = Some (NFile i) -> is_modelica q = true -> rewrites eol src new ->
  adds (_ <~ write_file w q new ;; ret code) (fun s r es => utf8 (s i) src -> processed code q s r es).
Proof.
  intros CK ND MO RW s r s' H.
  apply andthen_inv in H as [(a & s1 & H & H2)|(x & H & ->)]; unfold write_file in H.
  - apply andthen_inv in H as [(f & s0 & C & H)|(x & C & D)]; [|discriminate]. inversion C; subst; clear C.
    rewrite ND in H. inversion H2; subst; clear H2.
    destruct (w_fault w (s_tick s)) as [| |n] eqn:EF; [| inversion H |].
    + apply write_steps in H as (_ & T & S). cbn [s_trace s_store] in *.
      eexists. split; [exact T|]. split; [exact S|]. intros SI. eapply pr_write; eauto. eapply rewrites_utf8; eauto.
    + exfalso. apply andthen_inv in H as [(u1 & s0 & H1 & H)|(z1 & C & D)]; [|discriminate].
      apply andthen_inv in H as [(u2 & s2 & H2 & H)|(z2 & C & D)]; [|discriminate]. discriminate.
  - apply andthen_inv in H as [(f & s0 & C & H)|(y & C & D)]; [|discriminate]. inversion C; subst; clear C.
    rewrite ND in H. destruct (w_fault w (s_tick s)) as [| |n] eqn:EF.
    + apply write_steps in H as (D & _). discriminate.
    + inversion H; subst. exists []. rewrite app_nil_r. repeat split; auto. intros _. apply pr_stop.
      intro C. rewrite C in EF. discriminate.
    + assert (adds (_ <~ emit (ETrunc i) ;; _ <~ emit_all (map (EWrite i) (firstn n (encode new))) ;; halt SPanic)
                (fun _ r es => r = @inr unit _ SPanic /\ es = ETrunc i :: map (EWrite i) (firstn n (encode new)))) as AD.
      { eapply adds_weak; [apply (adds_bind _ _ _ (fun _ _ r es => r = inr SPanic /\ es = map (EWrite i) (firstn n (encode new))) (adds_emit _))|].
        - intros _. eapply adds_weak; [apply (adds_bind _ _ _ (fun _ => _) (adds_emit_all _) (fun _ => adds_halt _))|].
          intros s1 r es [(y & e1 & e2 & [-> _] & [-> ->] & ->)|(y & [_ D] & _)]; [rewrite app_nil_r; auto|discriminate].
        - intros s1 r es [(y & e1 & e2 & [-> _] & [-> ->] & ->)|(y & [_ D] & _)]; [auto|discriminate]. }
      destruct (AD _ _ _ H) as (es & T & S & E & ->). inversion E; subst. cbn [s_trace s_store] in *.
      eexists. split; [exact T|]. split; [exact S|]. intros SI. eapply pr_part; eauto using rewrites_utf8.
      intro C. rewrite C in EF. discriminate.
Qed.

Lemma lines_joined : forall ls, ls <> [] -> join_lines ls ++ [10] = concat (map (fun l => l ++ [10]) ls).
Proof.
  induction ls as [|l [|m ls] IH]; intro NE; [contradiction|cbn; rewrite app_nil_r; reflexivity|].
  change (join_lines (l :: m :: ls)) with (l ++ [10] ++ join_lines (m :: ls)). rewrite <- !app_assoc, IH by discriminate. cbn [map concat]. rewrite <- !app_assoc. reflexivity.
Qed.
Lemma adds_process code q : adds (process eol w check code q) (fun s r es => processed code q s r es).
Proof.
  unfold process. intros s r s' H. apply andthen_inv in H as [(a & s1 & H1 & H)|(x & H1 & ->)].
  2: { destruct (adds_read w q _ _ _ H1) as (es & _ & _ & _ & [(src & D & _)|(e & D & _)]); discriminate. }
  destruct (adds_read w q _ _ _ H1) as (es1 & T1 & S1 & -> & R). rewrite app_nil_r in T1. cbn [after_effects fold_left] in S1.
  assert (forall m (P : store -> (N + stop) -> list effect -> Prop), adds m P ->
            m s1 = (r, s') -> exists es, s_trace s' = s_trace s ++ es /\ s_store s' = after_effects (s_store s) es /\ P (s_store s) r es) as GO.
  { intros m P AD E. destruct (AD _ _ _ E) as (es & A1 & A2 & A3). rewrite T1, S1 in *. exists es. auto. }
  assert (forall e (b : N), (_ <~ say w e ;; ret b) s1 = (r, s') -> processed code q (s_store s) (inl b) [e] ->
            exists es, s_trace s' = s_trace s ++ es /\ s_store s' = after_effects (s_store s) es /\ processed code q (s_store s) r es) as SAY.
  { intros e b E PR. unfold say in E.
    apply andthen_inv in E as [(u & s2 & E & E2)|(x & E & ->)];
      (apply andthen_inv in E as [(f & s3 & C & E)|(y & C & D)]; [|discriminate]);
      inversion C; subst; clear C; destruct (w_fault w (s_tick s1)) eqn:EF; inversion E; subst.
    - inversion E2; subst. cbn [s_trace s_store]. rewrite T1, S1. exists [e]. auto.
    - exists []. rewrite app_nil_r, <- T1, <- S1. repeat split; auto. apply pr_stop. intro C. rewrite C in EF. discriminate.
    - exists []. rewrite app_nil_r, <- T1, <- S1. repeat split; auto. apply pr_stop. intro C. rewrite C in EF. discriminate. }
  cbv zeta in H. pose proof (display_shows q) as SH.
  destruct R as [(source & R & HO)|(e & R & ME & HO)]; injection R as ->.
  2: { eapply SAY; [exact H|]. apply pr_complain, co_unreadable; auto. }
  pose proof (C11_parse_terminates source KStoredDefinition) as NF.
  destruct (parse source KStoredDefinition) as [parsed|x|] eqn:EP; [| |contradiction].
  2: { apply andthen_inv in H as [(p & s2 & H2 & H)|(y & H2 & ->)]; [discriminate|]. inversion H2; subst.
       exists []. rewrite app_nil_r. repeat split; auto. apply pr_stop. eauto. }
  apply andthen_inv in H as [(p & s2 & H2 & H)|(y & H2 & ->)]; [|discriminate]. inversion H2; subst; clear H2.
  destruct (p_errors p) as [|er ers] eqn:EE.
  2: { eapply SAY; [exact H|]. apply pr_complain. rewrite lines_joined; [eapply co_syntax; eauto; congruence|]. unfold error_strings. rewrite EE. discriminate. }
  destruct (C20_never_crashes eol source p (conj EP EE)) as [out PP]. rewrite PP in H.
  apply andthen_inv in H as [(o & s3 & H3 & H)|(y & H3 & ->)]; [|discriminate]. inversion H3; subst; clear H3.
  cbv zeta in H.
  assert (rewrites eol source (o ++ eol)) as RW by (exists p, o; repeat split; auto).
  assert (check = true \/ check = false) as [CK|CK] by (destruct check; auto); rewrite CK in H.
  - destruct (text_eqb (o ++ eol) source) eqn:TE; cbn [negb] in H; (eapply SAY; [exact H|]).
    + apply text_eqb_eq in TE. rewrite TE in RW. eapply pr_passed; eauto.
    + eapply pr_failed; eauto. intro E. apply text_eqb_eq in E. congruence.
  - destruct HO as (MO & i & ND & SI).
    destruct (GO _ _ (adds_write q code i source (o ++ eol) CK ND MO RW) H) as (es & B1 & B2 & B3).
    exists es. repeat split; auto.
Qed.

(** ** Processing all files *)
Inductive processed_all : N -> list path -> store -> (N + stop) -> list effect -> Prop :=
| pa_nil code s : processed_all code [] s (inl code) []
| pa_cons code q qs s c e1 r e2 : processed code q s (inl c) e1 ->
    processed_all c qs (after_effects s e1) r e2 -> processed_all code (q :: qs) s r (e1 ++ e2)
| pa_stop code q qs s x e : processed code q s (inr x) e -> processed_all code (q :: qs) s (inr x) e.

Lemma adds_process_all qs : forall code,
  adds (process_all eol w check code qs) (fun s r es => processed_all code qs s r es).
Proof.
  induction qs as [|q qs IH]; intro code; cbn [process_all].
  - eapply adds_weak; [apply adds_ret|]. intros s r es [-> ->]. constructor.
  - eapply adds_weak; [apply (adds_bind _ _ _ (fun c => _) (adds_process code q) (fun c => IH c))|].
    intros s r es [(c & e1 & e2 & P1 & P2 & ->)|(x & P1 & ->)]; econstructor; eauto.
Qed.

Lemma complaint_quiet q s e : complaint w s q e -> Forall quiet [e].
Proof. intro C. repeat constructor. destruct C; exact I. Qed.
Lemma processed_quiet code q s r es : check = true -> processed code q s r es -> Forall quiet es.
Proof.
  intros CK P. inversion P; subst; try congruence; eauto using complaint_quiet; repeat constructor.
Qed.
Lemma processed_all_quiet code qs s r es : check = true -> processed_all code qs s r es -> Forall quiet es.
Proof.
  intros CK. induction 1 as [| |]; eauto using processed_quiet. apply Forall_app. eauto using processed_quiet.
Qed.

Lemma processed_chapter files code q s c es : In q files -> processed code q s (inl c) es -> chapter eol w files s es.
Proof.
  intros IQ P. inversion P; subst.
  - apply ch_quiet. eauto using complaint_quiet.
  - apply ch_quiet. repeat constructor.
  - apply ch_quiet. repeat constructor.
  - rewrite <- (app_nil_r (map (EWrite i) b)). eapply ch_write; eauto.
Qed.
Lemma processed_all_story files code qs s r es : (forall q, In q qs -> In q files) ->
  processed_all code qs s r es -> story eol w files s es.
Proof.
  intros SUB P. induction P as [code s|code q qs s c e1 r e2 P1 P2 IH|code q qs s x e P1].
  - constructor.
  - eapply chapter_story; [eapply processed_chapter; eauto; apply SUB; left; auto|].
    apply IH. intros; apply SUB; right; auto.
  - inversion P1; subst; [|constructor]. eapply st_cut; eauto. apply SUB. left. auto.
Qed.

Lemma processed_all_stop code qs s x es : processed_all code qs s (inr x) es -> x = SPanic.
Proof.
  intro P. remember (inr x) as r eqn:E. induction P as [| |code q qs s y e P1]; try discriminate; auto.
  inversion E; subst. inversion P1; auto.
Qed.

Lemma processed_code code q s c es : processed code q s (inl c) es -> c = 1 \/ (c = code /\ in_order eol w s check q).
Proof.
  intro P. inversion P; subst; auto; right; split; auto.
  - exists src, src. auto.
  - exists src, new. repeat split; eauto. congruence.
Qed.
Lemma processed_all_code code qs s c es : processed_all code qs s (inl c) es -> c = code \/ c = 1.
Proof.
  intro P. remember (inl c) as r eqn:E. induction P as [code s|code q qs s c1 e1 r e2 P1 P2 IH|]; try discriminate.
  - left. congruence.
  - destruct (IH E) as [->|]; auto. apply processed_code in P1 as [->|[-> _]]; auto.
Qed.

(** A file in order later in the run was without errors before. *)
Lemma in_order_before code q s c es p : processed code q s (inl c) es ->
  in_order eol w (after_effects s es) check p -> in_order eol w s check p.
Proof.
  clear EO. intros P IO. assert (check = true \/ check = false) as [CK|CK] by (destruct check; auto).
  { rewrite after_quiet in IO; auto. eapply processed_quiet; eauto. }
  inversion P; subst; try congruence.
  { rewrite after_quiet in IO; auto. eauto using complaint_quiet. }
  destruct IO as (src' & new' & (MO & j & ND & SJ) & RW & _).
  rewrite (after_file i b s j) in SJ. unfold update in SJ. destruct (j =? i) eqn:EJ.
  - apply N.eqb_eq in EJ. subst j. exists src, new. repeat split; eauto. congruence.
  - exists src', new'. repeat split; eauto. congruence.
Qed.
Lemma processed_all_zero code qs s es : processed_all code qs s (inl 0) es ->
  code = 0 /\ Forall (in_order eol w s check) qs.
Proof.
  intro P. remember (inl 0) as r eqn:E. induction P as [code s|code q qs s c1 e1 r e2 P1 P2 IH|]; try discriminate.
  - split; [congruence|constructor].
  - destruct (IH E) as [-> F]. pose proof (processed_code _ _ _ _ _ P1) as [D|[<- IO]]; [discriminate|].
    split; auto. constructor; auto. eapply Forall_impl; [|exact F]. intros p. eapply in_order_before; eauto.
Qed.
End Process.

(** ** Accepted texts have one formatted text *)
Lemma rewrites_fun eol src a b : rewrites eol src a -> rewrites eol src b -> a = b.
Proof. intros (p & o & [P1 _] & O & ->) (p' & o' & [P2 _] & O' & ->). congruence. Qed.
Lemma holds_fun w s q a b : holds w s q a -> holds w s q b -> a = b.
Proof. intros (_ & i & N1 & S1) (_ & j & N2 & S2). rewrite N1 in N2. injection N2 as <-. eapply utf8_fun; eauto. Qed.

Lemma complaint_not_in_order eol w s q e check : calm w -> complaint w s q e -> ~ in_order eol w s check q.
Proof.
  intros C CO (src & new & HO & (p & out & [PA PE] & _) & _). destruct CO as [name msg U|name src' p' HO' PA' PE'].
  - apply (U C _ HO).
  - rewrite (holds_fun _ _ _ _ _ HO HO') in PA. congruence.
Qed.

Lemma calm_processed eol w check code q s r es : calm w -> in_order eol w s check q ->
  processed eol w check code q s r es ->
  r = inl code /\ (check = true -> exists name, shows q name /\ es = [EOut (name ++ str ": check passed" ++ [10])]).
Proof.
  intros C IO P. destruct P as [e CO|name src new CK HO RW NE SH|name src CK HO RW SH|i src new b CK MO ND SI RW UB|i src new b n NC|ST]; try contradiction.
  - exfalso. apply (complaint_not_in_order _ _ _ _ _ _ C CO IO).
  - exfalso. destruct IO as (src' & new' & HO' & RW' & E).
    pose proof (holds_fun _ _ _ _ _ HO HO'). subst src'. rewrite (rewrites_fun _ _ _ _ RW RW') in NE. apply NE, E, CK.
  - split; eauto.
  - split; auto. congruence.
  - exfalso. destruct IO as (src' & new' & HO' & (p & out & [PA PE] & _) & E).
    destruct (ST C) as (src & x & HO & PX). pose proof (holds_fun _ _ _ _ _ HO HO'). congruence.
Qed.

(** A file is left alone or rewritten. *)
Lemma processed_shape eol w check code q s c es : processed eol w check code q s (inl c) es ->
  Forall quiet es \/
  exists i src new b, check = false /\ is_modelica q = true /\ w_node w q = Some (NFile i) /\ utf8 (s i) src /\
    rewrites eol src new /\ utf8 b new /\ es = ETrunc i :: map (EWrite i) b.
Proof.
  intro P. inversion P; subst.
  - left. eauto using complaint_quiet.
  - left. repeat constructor.
  - left. repeat constructor.
  - right. exists i, src, new, b. repeat split; auto.
Qed.

Lemma processed_keeps eol w check code q s c es p : processed eol w check code q s (inl c) es ->
  (check = true \/ w_node w p <> w_node w q) -> forall src, holds w (after_effects s es) p src <-> holds w s p src.
Proof.
  intros P D src. destruct (processed_shape _ _ _ _ _ _ _ _ P) as [Q|(i & src0 & new & b & CK & _ & ND & _ & _ & _ & ->)].
  - rewrite after_quiet by auto. reflexivity.
  - destruct D as [D|D]; [congruence|].
    split; intros (MO & j & NJ & SJ); (split; [auto|exists j; split; auto]).
    + rewrite (after_file i b s j) in SJ. unfold update in SJ. destruct (j =? i) eqn:E; auto.
      apply N.eqb_eq in E. congruence.
    + rewrite (after_file i b s j). unfold update. destruct (j =? i) eqn:E; auto.
      apply N.eqb_eq in E. congruence.
Qed.

Lemma calm_processed_all eol w check qs : calm w -> check = true \/ NoDup (map (w_node w) qs) ->
  forall code s r es, Forall (in_order eol w s check) qs -> processed_all eol w check code qs s r es -> r = inl code.
Proof.
  intros C D. induction qs as [|q qs IH]; intros code s r es F P.
  - inversion P; auto.
  - inversion F as [|? ? F1 F2]; subst.
    inversion P as [|? ? ? ? c e1 ? e2 P1 P2|? ? ? ? x e P1]; subst.
    + destruct (calm_processed _ _ _ _ _ _ _ _ C F1 P1) as [E _]. inversion E; subst c.
      eapply IH; [| |exact P2].
      * destruct D as [D|D]; auto. inversion D; auto.
      * rewrite Forall_forall in F2 |- *. intros p IP. destruct (F2 p IP) as (src & new & HO & X).
        exists src, new. split; auto. apply (processed_keeps _ _ _ _ _ _ _ _ p P1); auto.
        destruct D as [D|D]; auto. right. intro E'. inversion D; subst. apply H1. rewrite <- E'. apply in_map, IP.
    + destruct (calm_processed _ _ _ _ _ _ _ _ C F1 P1) as [E _]. discriminate.
Qed.
