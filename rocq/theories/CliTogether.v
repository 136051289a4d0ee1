(** Runs step by step: a run that is alone, and what the steps of others change. *)
From Verif Require Import ProofBase Tokens Syntax ParserCore Lib Utf8 Utf8Facts SpecUtf8 Cli SpecCli CliFacts CliFind CliSteps PropsCli SpecTogether.

(** ** A run that is alone does what [run] says. *)
Definition mirrors {A} (m : M A) (r : nat -> (A -> nat -> prog) -> prog) : Prop := forall s tr t k,
  match m (mkState s tr t) with
  | (inl a, st) => exists es, st = mkState (after_effects s es) (tr ++ es) (s_tick st) /\
      play (r t k) s = (fst (play (k a (s_tick st)) (after_effects s es)), es ++ snd (play (k a (s_tick st)) (after_effects s es)))
  | (inr x, st) => exists es, s_trace st = tr ++ es /\ play (r t k) s = (x, es)
  end.
Lemma mirrors_ret {A} (a : A) : mirrors (ret a) (fun t k => k a t).
Proof. intros s tr t k. unfold ret. exists []. cbn [s_tick app after_effects fold_left]. rewrite app_nil_r. split; [reflexivity|]. destruct (play (k a t) s); reflexivity. Qed.
Lemma mirrors_lift {A} (x : res A) : mirrors (lift x) (fun t k => lift_prog x (fun a => k a t)).
Proof.
  destruct x as [a|q|]; [apply mirrors_ret|..]; intros s tr t k; unfold lift, halt; exists []; cbn [s_trace]; rewrite app_nil_r; split; reflexivity.
Qed.
Lemma mirrors_say w e : mirrors (say w e) (fun t k => say_prog w e t (k tt)).
Proof.
  intros s tr t k. unfold say, call, andthen, say_prog. cbn [s_tick s_store s_trace]. destruct (w_fault w t); unfold emit, halt; cbn [s_store s_trace s_tick].
  - exists [e]. split; [reflexivity|]. cbn [play app after_effects fold_left]. destruct (play (k tt (S t)) (effect_on s e)); reflexivity.
  - exists []. rewrite app_nil_r. split; reflexivity.
  - exists []. rewrite app_nil_r. split; reflexivity.
Qed.
Lemma mirrors_bind {A B} (m : M A) (f : A -> M B) r g : mirrors m r -> (forall a, mirrors (f a) (g a)) -> mirrors (andthen m f) (fun t k => r t (fun a t => g a t k)).
Proof.
  intros H K s tr t k. specialize (H s tr t (fun a t => g a t k)). unfold andthen. destruct (m (mkState s tr t)) as [[a|x] st].
  - destruct H as (es & E & P). rewrite E. cbn [s_tick]. specialize (K a (after_effects s es) (tr ++ es) (s_tick st) k). rewrite E in P. cbn [s_tick] in P.
    destruct (f a (mkState (after_effects s es) (tr ++ es) (s_tick st))) as [[b|x] st'].
    + destruct K as (es' & E' & P'). exists (es ++ es'). split; [rewrite after_app, app_assoc; exact E'|]. rewrite P, P'. cbn [fst snd]. rewrite after_app, app_assoc. reflexivity.
    + destruct K as (es' & E' & P'). exists (es ++ es'). split; [rewrite app_assoc; exact E'|]. rewrite P, P'. reflexivity.
  - exact H.
Qed.
Lemma emit_all_state es : forall st, emit_all es st = (inl tt, mkState (after_effects (s_store st) es) (s_trace st ++ es) (s_tick st)).
Proof.
  induction es as [|e es IH]; intros [s tr t]; cbn [emit_all]; [unfold ret; cbn [s_store s_trace s_tick]; rewrite app_nil_r; reflexivity|].
  unfold andthen, emit. rewrite IH. cbn [s_store s_trace s_tick]. rewrite <- app_assoc. reflexivity.
Qed.
Lemma play_all es k : forall s, play (tell_all es k) s = (fst (play k (after_effects s es)), es ++ snd (play k (after_effects s es))).
Proof.
  induction es as [|e es IH]; intro s; cbn [tell_all play app after_effects fold_left]; [destruct (play k s); reflexivity|]. rewrite IH. reflexivity.
Qed.
Lemma mirrors_read w q : mirrors (read_file w q) (read_prog w q).
Proof.
  intros s tr t k. unfold read_file, read_prog. destruct (negb (is_modelica q)); [apply (mirrors_ret _ s tr t k)|].
  unfold andthen, call, peek. cbn [s_tick s_store s_trace]. destruct (w_fault w t); [|apply (mirrors_ret _ s tr (S t) k) ..].
  destruct (w_node w q) as [[i|es]|]; [|apply (mirrors_ret _ s tr (S t) k) ..]. cbn [s_store play]. destruct (decode (s i)); apply (mirrors_ret _ s tr (S t) k).
Qed.
Lemma mirrors_write w q code : mirrors (write_file w q code) (fun t k => write_prog w q code t (k tt)).
Proof.
  intros s tr t k. unfold write_file, write_prog. unfold andthen, call. cbn [s_tick s_store s_trace].
  assert (forall st, @halt unit SPanic st = (inr SPanic, st)) as HA by reflexivity.
  destruct (w_fault w t) as [| |n], (w_node w q) as [[i|es]|]; try (rewrite HA; exists []; cbn [s_trace]; rewrite app_nil_r; split; reflexivity).
  - unfold emit. rewrite emit_all_state. cbn [s_store s_trace s_tick]. exists (ETrunc i :: map (EWrite i) (encode code)). rewrite <- app_assoc. split; [reflexivity|].
    cbn [play]. rewrite play_all. reflexivity.
  - unfold emit. rewrite emit_all_state. cbn [s_store s_trace s_tick]. rewrite HA. exists (ETrunc i :: map (EWrite i) (firstn n (encode code))). cbn [s_trace]. rewrite <- app_assoc. split; [reflexivity|].
    cbn [play]. rewrite play_all. cbn [play fst snd]. rewrite app_nil_r. reflexivity.
Qed.
Lemma mirrors_then {A B} (m : M A) (b : B) r : mirrors m r -> mirrors (andthen m (fun _ => ret b)) (fun t k => r t (fun _ => k b)).
Proof. intro H. apply (mirrors_bind m (fun _ => ret b) r (fun _ t k => k b t) H). intro. apply mirrors_ret. Qed.
Lemma mirrors_process eol w check code p : mirrors (process eol w check code p) (process_prog eol w check code p).
Proof.
  unfold process, process_prog.
  refine (mirrors_bind _ _ _ (fun contents t k => _) (mirrors_read w p) _). intros [src|e].
  2: { apply (mirrors_then _ _ _ (mirrors_say w _)). }
  refine (mirrors_bind _ _ _ (fun parsed t k => _) (mirrors_lift _) _). intro parsed. destruct (p_errors parsed) as [|e es].
  2: { apply (mirrors_then _ _ _ (mirrors_say w _)). }
  refine (mirrors_bind _ _ _ (fun out t k => _) (mirrors_lift _) _). intro out. cbv zeta. destruct check.
  - destruct (negb (text_eqb (out ++ eol) src)); apply (mirrors_then _ _ _ (mirrors_say w _)).
  - apply (mirrors_then _ _ _ (mirrors_write w _ _)).
Qed.
Lemma mirrors_process_all eol w check ps : forall code, mirrors (process_all eol w check code ps) (process_all_prog eol w check code ps).
Proof.
  induction ps as [|p ps IH]; intro code; cbn [process_all process_all_prog]; [apply mirrors_ret|].
  apply (mirrors_bind _ _ _ (fun c t k => process_all_prog eol w check c ps t k) (mirrors_process _ _ _ _ _)). intro c. apply IH.
Qed.

(** The search. *)
Definition blank_of {A} (m : M A) : Prop := forall s tr t s' tr', exists r t', m (mkState s tr t) = (r, mkState s tr t') /\ m (mkState s' tr' t) = (r, mkState s' tr' t').
Lemma blank_ret {A} (a : A) : blank_of (ret a). Proof. intros s tr t s' tr'. eexists _, _. split; reflexivity. Qed.
Lemma blank_halt {A} x : blank_of (@halt A x). Proof. intros s tr t s' tr'. eexists _, _. split; reflexivity. Qed.
Lemma blank_call w : blank_of (call w). Proof. intros s tr t s' tr'. eexists _, _. split; reflexivity. Qed.
Lemma blank_bind {A B} (m : M A) (f : A -> M B) : blank_of m -> (forall a, blank_of (f a)) -> blank_of (andthen m f).
Proof.
  intros H K s tr t s' tr'. destruct (H s tr t s' tr') as ([a|x] & t' & E & E'); unfold andthen; rewrite E, E'; [apply K|]. eexists _, _. split; reflexivity.
Qed.
Lemma blank_mapM {A B} (f : A -> M B) l : (forall a, blank_of (f a)) -> blank_of (mapM f l).
Proof. intro F. induction l as [|a l IH]; [apply blank_ret|]. cbn [mapM]. apply blank_bind; [apply F|]. intro b. apply blank_bind; [exact IH|]. intro. apply blank_ret. Qed.
Lemma blank_dir w fuel : forall d, blank_of (get_files_from_dir fuel w d).
Proof.
  induction fuel as [|fuel IH]; intro d; cbn [get_files_from_dir]; [apply blank_halt|].
  apply blank_bind; [apply blank_call|]. intros []; try apply blank_halt. destruct (w_node w d) as [[i|es]|]; try apply blank_halt.
  apply blank_bind; [|intro; apply blank_ret]. apply blank_mapM. intro name. apply blank_bind; [apply blank_call|]. intros []; try apply blank_halt.
  cbv zeta. destruct (is_dir w (join d name)); [apply IH|]. destruct (is_modelica (join d name)); apply blank_ret.
Qed.
Lemma blank_collect w fuel args : blank_of (collect fuel w args).
Proof. unfold collect. apply blank_bind; [|intro; apply blank_ret]. apply blank_mapM. intro p. destruct (is_dir w p); [apply blank_dir|apply blank_ret]. Qed.

Definition ended {A} (r : (A + stop) * state) : stop * list effect := match r with (inl _, s) => (SExit 0, s_trace s) | (inr x, s) => (x, s_trace s) end.
Lemma format_alone fuel eol w args check s : play (format_prog fuel eol w args check) s = ended (format_files fuel eol w args check (mkState s [] 0)).
Proof.
  unfold format_prog, format_files, andthen. destruct (blank_collect w fuel args nothing [] 0%nat s []) as ([files|x] & t & E & E'); rewrite E, E'; [|reflexivity].
  cbn [s_tick]. pose proof (mirrors_process_all eol w check files 0 s [] t (fun code _ => Done (SExit code))) as P.
  destruct (process_all eol w check 0 files (mkState s [] t)) as [[c|x] st]; destruct P as (es & E1 & P); rewrite P; cbn [app] in *.
  - cbn [play fst snd]. rewrite app_nil_r. rewrite E1. reflexivity.
  - cbn [ended]. rewrite E1. reflexivity.
Qed.
Lemma say_alone w e c s : play (say_prog w e 0 (fun _ => Done (SExit c))) s = ended ((andthen (say w e) (fun _ => @halt unit (SExit c))) (mkState s [] 0)).
Proof. unfold say_prog, say, andthen, call. cbn [s_tick s_store s_trace]. destruct (w_fault w 0); reflexivity. Qed.
Theorem alone fuel eol w s argv : play (main_prog fuel eol w argv) s = run fuel eol w s argv.
Proof.
  unfold main_prog. change (run fuel eol w s argv) with (ended (main fuel eol w argv (mkState s [] 0))). unfold main.
  destruct (decode_all argv) as [args|]; [|reflexivity]. unfold main_with_prog, main_with. destruct args as [|p [|first rest]]; try apply say_alone.
  destruct (_ || _); [apply say_alone|]. destruct (_ || _); [apply say_alone|]. destruct (text_eqb _ _); [destruct rest; [apply say_alone|apply format_alone]|].
  destruct (starts_dash first); [apply say_alone|apply format_alone].
Qed.

(** ** Which files a run reads and writes *)
Definition writing (e : effect) (i : inode) : Prop := match e with ETrunc j | EWrite j _ => j = i | _ => False end.
Fixpoint within (R W : inode -> Prop) (q : prog) : Prop :=
  match q with
  | Done _ => True
  | Tell e k => (forall i, writing e i -> W i) /\ within R W k
  | Look i k => R i /\ forall b, within R W (k b)
  end.
Lemma within_weak (R W R' W' : inode -> Prop) : (forall i, R i -> R' i) -> (forall i, W i -> W' i) -> forall q, within R W q -> within R' W' q.
Proof. intros HR HW. induction q as [x|e k IH|i k IH]; cbn [within]; auto; intros [A B]; split; auto. Qed.

Section Reach.
Variables (w : world) (R W : inode -> Prop).
Lemma within_say e t k : (forall i, ~ writing e i) -> (forall t, within R W (k t)) -> within R W (say_prog w e t k).
Proof. intros E K. unfold say_prog. destruct (w_fault w t); cbn [within]; auto. split; auto. intros i H. destruct (E i H). Qed.
Lemma within_all es k : (forall e i, In e es -> writing e i -> W i) -> within R W k -> within R W (tell_all es k).
Proof. intros E K. induction es as [|e es IH]; cbn [tell_all within]; auto. split; [intros i; apply E; left; reflexivity|]. apply IH. intros e' i I. apply E. right. exact I. Qed.
Lemma within_process eol check code p t k :
  (forall i, is_modelica p = true -> w_node w p = Some (NFile i) -> R i) -> (check = false -> forall i, is_modelica p = true -> w_node w p = Some (NFile i) -> W i) ->
  (forall c t, within R W (k c t)) -> within R W (process_prog eol w check code p t k).
Proof.
  intros HR HW K. unfold process_prog, read_prog.
  assert (forall e t c, within R W (say_prog w (EErr e) t (k c))) as SE by (intros; apply within_say; [intros i []|auto]).
  assert (forall e t c, within R W (say_prog w (EOut e) t (k c))) as SO by (intros; apply within_say; [intros i []|auto]).
  destruct (is_modelica p) eqn:MO; cbn [negb]; [|apply SE]. destruct (w_fault w t); [|apply SE ..]. destruct (w_node w p) as [[i|es]|] eqn:NO; [|apply SE ..].
  cbn [within]. split; [auto|]. intro b. destruct (decode b) as [src|]; [|apply SE].
  unfold lift_prog. destruct (parse src KStoredDefinition) as [parsed|x|]; [|exact Logic.I ..]. destruct (p_errors parsed); [|apply SO].
  destruct (pretty_print eol parsed) as [out|x|]; [|exact Logic.I ..]. cbv zeta. destruct check.
  - destruct (negb _); apply SO.
  - assert (forall l e i', In e (map (EWrite i) l) -> writing e i' -> W i') as WR.
    { intros l e i' I H. apply in_map_iff in I as (c & <- & _). cbn in H. subst. apply HW; auto. }
    unfold write_prog. destruct (w_fault w (S t)) as [| |n]; [|exact Logic.I|]; rewrite NO; cbn [within]; (split; [intros i' H; cbn in H; subst; apply HW; auto|]);
      (apply within_all; [apply WR|]); [apply K|exact Logic.I].
Qed.
Lemma within_process_all eol check ps : forall code t k,
  (forall p i, In p ps -> is_modelica p = true -> w_node w p = Some (NFile i) -> R i /\ (check = false -> W i)) ->
  (forall c t, within R W (k c t)) -> within R W (process_all_prog eol w check code ps t k).
Proof.
  induction ps as [|p ps IH]; intros code t k H K; cbn [process_all_prog]; auto. apply within_process.
  - intros i MO NO. apply (H p i); auto. left. reflexivity.
  - intros C i MO NO. apply (H p i); auto. left. reflexivity.
  - intros c t'. apply IH; auto. intros q i I. apply H. right. exact I.
Qed.
End Reach.

(** What [main] does for each action. *)
Lemma prog_dispatch fuel eol w argv act : dispatch argv act ->
  main_prog fuel eol w argv = match act with
    | AWork check paths => format_prog fuel eol w paths check
    | AGarbled => Done SPanic
    | _ => match message act with Some (e, c) => say_prog w e 0 (fun _ => Done (SExit c)) | None => Done SPanic end
    end.
Proof.
  unfold main_prog. intros [a I N|act' F D].
  { rewrite (decode_all_garbled _ _ I N). reflexivity. }
  destruct (decode_all_readable _ F) as [ts DA]. rewrite DA. apply decode_all_some in DA.
  apply chooses_act in D. subst act'. destruct DA as [|p t1 argv ts U1 DA]; auto. destruct DA as [|first t2 rest ts U2 DA]; auto.
  cbn [main_with_prog act_of]. rewrite !(ascii_eqb first t2) by (try exact U2; apply decode_iff; vm_compute; reflexivity).
  rewrite (dash_same first t2 U2). pose proof (utf8_encode_all _ _ DA) as EN.
  destruct (text_eqb first (str "-h") || text_eqb first (str "--help")); auto.
  destruct (text_eqb first (str "-v") || text_eqb first (str "--version")); auto.
  destruct (text_eqb first (str "--check")); [destruct DA; auto; rewrite EN; reflexivity|].
  destruct (starts_dash first).
  - apply decode_iff in U2. rewrite U2. reflexivity.
  - cbn [map]. rewrite EN, <- (utf8_encode _ _ U2). reflexivity.
Qed.
Lemma main_within fuel eol w argv : within (reads w argv) (changes w argv) (main_prog fuel eol w argv).
Proof.
  destruct (dispatch_exists argv) as [act D]. rewrite (prog_dispatch _ _ _ _ _ D).
  assert (forall e c, (forall i, ~ writing e i) -> within (reads w argv) (changes w argv) (say_prog w e 0 (fun _ => Done (SExit c)))) as S.
  { intros e c H. apply within_say; auto. intro. exact Logic.I. }
  destruct act as [| | |o|check paths|]; cbn [message]; try (apply S; intros i []); [|exact Logic.I].
  unfold format_prog. destruct (collect fuel w paths (mkState nothing [] 0)) as [[files|x] st] eqn:C; [|exact Logic.I].
  apply within_process_all; [|intros; exact Logic.I]. pose proof (collect_listing _ _ _ _ _ _ C) as L. intros p i I MO NO. split.
  - exists check, paths, files, p. auto.
  - intros ->. exists paths, files, p. auto.
Qed.

(** ** Steps of others *)
Lemma nth_set_same {A} (a b : A) j : forall l, nth_error l j = Some b -> nth_error (set_nth j a l) j = Some a.
Proof. induction j as [|j IH]; intros [|x l] H; try discriminate; cbn in *; auto. Qed.
Lemma nth_set_other {A} (a : A) i : forall j l, i <> j -> nth_error (set_nth j a l) i = nth_error l i.
Proof. induction i as [|i IH]; intros [|j] [|x l] N; cbn; auto; try contradiction. Qed.
Lemma own_same j e tr : own j ((j, e) :: tr) = e :: own j tr.
Proof. unfold own. cbn [filter fst]. rewrite Nat.eqb_refl. reflexivity. Qed.
Lemma own_other i j e tr : i <> j -> own j ((i, e) :: tr) = own j tr.
Proof. intro N. unfold own. cbn [filter fst]. apply Nat.eqb_neq in N. rewrite N. reflexivity. Qed.
Lemma effect_elsewhere s e i : ~ writing e i -> effect_on s e i = s i.
Proof. destruct e as [t|t|j|j b]; cbn; auto; intro N; unfold update; destruct (i =? j) eqn:E; auto; apply N.eqb_eq in E; subst; contradiction. Qed.
Lemma effect_agree s s' e i : s i = s' i -> effect_on s e i = effect_on s' e i.
Proof. destruct e as [t|t|j|j b]; cbn; auto; intro E; unfold update; destruct (i =? j) eqn:Q; auto. apply N.eqb_eq in Q. subst. rewrite E. reflexivity. Qed.

Theorem unaffected qs s tr qs' s' : together qs s tr qs' s' -> forall j q (R : inode -> Prop), nth_error qs j = Some q -> within R (fun _ => True) q ->
  (forall i p, i <> j -> nth_error qs i = Some p -> within (fun _ => True) (fun x => ~ R x) p) -> forall sa, (forall x, R x -> sa x = s x) ->
  exists q', nth_error qs' j = Some q' /\ (forall x, R x -> after_effects sa (own j tr) x = s' x) /\
    play q sa = (fst (play q' (after_effects sa (own j tr))), own j tr ++ snd (play q' (after_effects sa (own j tr)))).
Proof.
  induction 1 as [qs s|qs s m i k tr qs' s' N T IH|qs s m e k tr qs' s' N T IH]; intros j q R J WI OT sa AG.
  - exists q. split; [exact J|]. split; [exact AG|]. cbn. destruct (play q sa); reflexivity.
  - destruct (Nat.eq_dec m j) as [->|NE].
    + rewrite N in J. injection J as <-. cbn [within] in WI. destruct WI as [RI WI]. cbn [play]. rewrite (AG _ RI).
      apply (IH j (k (s i)) R); auto. { eapply nth_set_same, N. } intros i' p N' H. rewrite nth_set_other in H by exact N'. eapply OT; eauto.
    + apply (IH j q R); auto. { rewrite nth_set_other by auto. exact J. } intros i' p N' H. destruct (Nat.eq_dec i' m) as [->|N2].
      * rewrite (nth_set_same _ _ _ _ N) in H. injection H as <-. apply (OT _ _ N' N).
      * rewrite nth_set_other in H by exact N2. eapply OT; eauto.
  - destruct (Nat.eq_dec m j) as [->|NE].
    + rewrite N in J. injection J as <-. cbn [within] in WI. destruct WI as [_ WI]. rewrite own_same. cbn [play].
      destruct (IH j k R) with (sa := effect_on sa e) as (q' & E1 & E2 & E3); auto.
      { eapply nth_set_same, N. } { intros i' p N' H. rewrite nth_set_other in H by exact N'. eapply OT; eauto. } { intros x RX. apply effect_agree, AG, RX. }
      exists q'. split; [exact E1|]. split; [exact E2|]. rewrite E3. reflexivity.
    + rewrite own_other by exact NE. apply (IH j q R); auto. { rewrite nth_set_other by auto. exact J. }
      * intros i' p N' H. destruct (Nat.eq_dec i' m) as [->|N2].
        -- rewrite (nth_set_same _ _ _ _ N) in H. injection H as <-. apply (OT _ _ N' N).
        -- rewrite nth_set_other in H by exact N2. eapply OT; eauto.
      * intros x RX. rewrite effect_elsewhere; [apply AG, RX|]. intro WX. destruct (OT _ _ NE N) as [O _]. apply (O _ WX RX).
Qed.
Lemma unchanged qs s tr qs' s' : together qs s tr qs' s' -> forall x, (forall j q, nth_error qs j = Some q -> within (fun _ => True) (fun y => y <> x) q) -> s' x = s x.
Proof.
  induction 1 as [qs s|qs s m i k tr qs' s' N T IH|qs s m e k tr qs' s' N T IH]; intros x H; auto.
  - apply IH. intros j q J. destruct (Nat.eq_dec j m) as [->|NE]; [|rewrite nth_set_other in J by exact NE; eauto].
    rewrite (nth_set_same _ _ _ _ N) in J. injection J as <-. apply (H _ _ N).
  - rewrite IH.
    + apply effect_elsewhere. intro WX. destruct (H _ _ N) as [O _]. apply (O _ WX). reflexivity.
    + intros j q J. destruct (Nat.eq_dec j m) as [->|NE]; [|rewrite nth_set_other in J by exact NE; eauto].
      rewrite (nth_set_same _ _ _ _ N) in J. injection J as <-. apply (H _ _ N).
Qed.
Lemma together_trans qs s tr qs' s' : together qs s tr qs' s' -> forall tr2 qs2 s2, together qs' s' tr2 qs2 s2 -> together qs s (tr ++ tr2) qs2 s2.
Proof. induction 1; intros; cbn [app]; eauto using together. Qed.
Lemma set_set {A} (a b : A) j : forall l, set_nth j a (set_nth j b l) = set_nth j a l.
Proof. induction j as [|j IH]; intros [|x l]; cbn; auto. f_equal. apply IH. Qed.
Lemma finish_one q : forall qs s j, nth_error qs j = Some q -> exists tr x s', together qs s tr (set_nth j (Done x) qs) s'.
Proof.
  assert (forall j q (l : list prog), nth_error l j = Some q -> set_nth j q l = l) as ID.
  { induction j as [|j IH]; intros q0 [|x l] H; try discriminate; cbn in *; [congruence|]. f_equal. auto. }
  induction q as [x|e k IH|i k IH]; intros qs s j H.
  - exists [], x, s. rewrite (ID _ _ _ H). constructor.
  - destruct (IH (set_nth j k qs) (effect_on s e) j) as (tr & x & s' & T); [eapply nth_set_same, H|]. rewrite set_set in T. exists ((j, e) :: tr), x, s'. eapply tg_tell; eauto.
  - destruct (IH (s i) (set_nth j (k (s i)) qs) s j) as (tr & x & s' & T); [eapply nth_set_same, H|]. rewrite set_set in T. exists tr, x, s'. eapply tg_look; eauto.
Qed.
Theorem can_finish qs s : exists tr qs' s', together qs s tr qs' s' /\ Forall over qs'.
Proof.
  assert (forall n, (n <= length qs)%nat -> exists tr qs' s', together qs s tr qs' s' /\ length qs' = length qs /\ forall j, (j < n)%nat -> exists q, nth_error qs' j = Some q /\ over q) as K.
  { induction n as [|n IH]; intro L.
    - exists [], qs, s. split; [constructor|]. split; [reflexivity|]. intros j H. lia.
    - destruct IH as (tr & qs1 & s1 & T & LE & H); [lia|]. destruct (nth_error qs1 n) as [q|] eqn:E; [|apply nth_error_None in E; lia].
      destruct (finish_one q qs1 s1 n E) as (tr2 & x & s2 & T2). exists (tr ++ tr2), (set_nth n (Done x) qs1), s2. split; [eapply together_trans; eauto|]. split.
      + rewrite <- LE. clear. revert n. induction qs1 as [|a l IH]; intros [|n]; cbn; auto.
      + intros j J. destruct (Nat.eq_dec j n) as [->|NE]; [exists (Done x); split; [eapply nth_set_same, E|exists x; reflexivity]|]. rewrite nth_set_other by exact NE. apply H. lia. }
  destruct (K (length qs) (le_n _)) as (tr & qs' & s' & T & L & H). exists tr, qs', s'. split; [exact T|]. apply Forall_forall. intros q I. apply In_nth_error in I as (j & J).
  destruct (H j) as (q' & E & O); [rewrite <- L; apply nth_error_Some; congruence|]. congruence.
Qed.

(** A given order of steps. *)
Fixpoint drive (sched : list nat) (qs : list prog) (s : store) : list (nat * effect) * list prog * store :=
  match sched with
  | [] => ([], qs, s)
  | j :: sched' =>
      match nth_error qs j with
      | Some (Look i k) => drive sched' (set_nth j (k (s i)) qs) s
      | Some (Tell e k) => let '(tr, qs', s') := drive sched' (set_nth j k qs) (effect_on s e) in ((j, e) :: tr, qs', s')
      | _ => ([], qs, s)
      end
  end.
Lemma driven sched : forall qs s, let '(tr, qs', s') := drive sched qs s in together qs s tr qs' s'.
Proof.
  induction sched as [|j sched IH]; intros qs s; cbn [drive]; [constructor|]. destruct (nth_error qs j) as [[x|e k|i k]|] eqn:N; try constructor.
  - specialize (IH (set_nth j k qs) (effect_on s e)). destruct (drive sched (set_nth j k qs) (effect_on s e)) as [[tr qs'] s']. eapply tg_tell; eauto.
  - specialize (IH (set_nth j (k (s i)) qs) s). destruct (drive sched (set_nth j (k (s i)) qs) s) as [[tr qs'] s']. eapply tg_look; eauto.
Qed.
