(** Which files the command line tool finds. *)
From Verif Require Import ProofBase Tokens Syntax ParserCore Lib Utf8 SpecUtf8 Cli SpecCli CliFacts.

(** ** Names *)
Lemma split_free d n : ~ In d n -> split_on d n = [n].
Proof.
  induction n as [|c n IH]; intro F; cbn [split_on]; auto.
  destruct (c =? d) eqn:E; [apply N.eqb_eq in E; exfalso; apply F; left; auto|].
  rewrite IH; auto. intro I; apply F; right; auto.
Qed.
Lemma split_app d a b : split_on d (a ++ d :: b) = split_on d a ++ split_on d b.
Proof.
  induction a as [|c a IH]; cbn [app split_on].
  - rewrite N.eqb_refl. reflexivity.
  - destruct (c =? d); [rewrite IH; reflexivity|]. rewrite IH.
    destruct (split_on d a) eqn:E; [destruct a as [|c0 a]; cbn in E; [discriminate|]|reflexivity].
    destruct (c0 =? d); [discriminate|]. destruct (split_on d a); discriminate.
Qed.
Lemma ends_slash_inv p : ends_slash p = true -> exists p', p = p' ++ [slash_ch].
Proof.
  unfold ends_slash. destruct (rev p) as [|c r] eqn:E; intro H; [discriminate|]. apply N.eqb_eq in H. subst c.
  exists (rev r). rewrite <- (rev_involutive p), E. reflexivity.
Qed.
(** What [join] puts in front of the name. *)
Definition stem (d : text) : text := if ends_slash d || text_eqb d [] then d else d ++ [slash_ch].
Lemma join_stem d n : join d n = stem d ++ n.
Proof. unfold join, stem. destruct (ends_slash d || text_eqb d []); auto. rewrite <- app_assoc. reflexivity. Qed.
Lemma stem_inv d : stem d = [] \/ exists d', stem d = d' ++ [slash_ch].
Proof.
  unfold stem. destruct (ends_slash d) eqn:E; cbn [orb].
  - right. apply ends_slash_inv, E.
  - destruct (text_eqb d []) eqn:E2; [left; apply text_eqb_eq, E2|right; eauto].
Qed.

Lemma file_name_join d n : proper_name n -> file_name (join d n) = Some n.
Proof.
  intros (NE & ND & NDD & NS). rewrite join_stem. unfold file_name.
  assert (exists l, split_on slash_ch (stem d ++ n) = l ++ [n]) as [l ->].
  { destruct (stem_inv d) as [->|[d' ->]].
    - exists []. apply split_free, NS.
    - rewrite <- app_assoc. cbn [app]. rewrite split_app, (split_free _ n NS). eauto. }
  rewrite rev_app_distr. cbn [rev app filter].
  assert (forall x, n <> x -> text_eqb n x = false) as NEQ.
  { intros x H. destruct (text_eqb n x) eqn:E; auto. apply text_eqb_eq in E. contradiction. }
  rewrite (NEQ [] NE), (NEQ _ ND). cbn [negb andb]. rewrite (NEQ _ NDD). reflexivity.
Qed.
Lemma last_dot_inv rt : forall after pre suf, last_dot rt after = Some (pre, suf) -> rev rt ++ after = pre ++ 46 :: suf.
Proof.
  induction rt as [|c rt IH]; intros after pre suf H; cbn [last_dot] in H; [discriminate|].
  cbn [rev]. rewrite <- app_assoc. cbn [app]. destruct (c =? 46) eqn:E.
  - apply N.eqb_eq in E. inversion H; subst. reflexivity.
  - apply IH, H.
Qed.
Lemma is_modelica_name p n : file_name p = Some n -> (is_modelica p = true <-> mo_name n).
Proof.
  intro F. unfold is_modelica, extension. rewrite F. split.
  - destruct (last_dot (rev n) []) as [[[|c pre] suf]|] eqn:E; try discriminate.
    intro T. apply text_eqb_eq in T. subst suf. apply last_dot_inv in E. rewrite rev_involutive, app_nil_r in E.
    exists (c :: pre). split; [discriminate|]. exact E.
  - intros (b & NE & ->). rewrite rev_app_distr. change (rev (str ".mo")) with ([111; 109; 46]%N : text).
    cbn [app last_dot N.eqb Pos.eqb]. rewrite rev_involutive. destruct b; [contradiction|]. reflexivity.
Qed.
Lemma is_modelica_join d n : proper_name n -> (is_modelica (join d n) = true <-> mo_name n).
Proof. intro P. apply is_modelica_name, file_name_join, P. Qed.

(** ** The search follows [listing] *)
Lemma mapM_inv {A B} (f : A -> M B) l : forall s bs s', mapM f l s = (inl bs, s') ->
  Forall2 (fun a b => exists s s', f a s = (inl b, s')) l bs.
Proof.
  induction l as [|a l IH]; intros s bs s' H; cbn [mapM] in H.
  - inversion H; subst. constructor.
  - apply andthen_inv in H as [(b & s1 & H1 & H)|(x & _ & D)]; [|discriminate].
    apply andthen_inv in H as [(bs' & s2 & H2 & H)|(x & _ & D)]; [|discriminate].
    inversion H; subst. constructor; eauto.
Qed.
Lemma call_inv {A} w (f : fault -> M A) s r s' : andthen (call w) f s = (r, s') ->
  f (w_fault w (s_tick s)) (mkState (s_store s) (s_trace s) (S (s_tick s))) = (r, s').
Proof. unfold andthen, call. auto. Qed.

Lemma dir_below w fuel : forall d s fs s', get_files_from_dir fuel w d s = (inl fs, s') -> below w d fs.
Proof.
  induction fuel as [|fuel IH]; intros d s fs s' H; cbn [get_files_from_dir] in H; [discriminate|].
  apply call_inv in H. destruct (w_fault w (s_tick s)); try discriminate.
  destruct (w_node w d) as [[i|es]|] eqn:ND; try discriminate.
  apply andthen_inv in H as [(bs & s1 & H1 & H)|(x & _ & D)]; [|discriminate]. inversion H; subst; clear H.
  apply mapM_inv in H1. eapply be_dir; eauto. clear ND.
  induction H1 as [|n b es bs (s0 & s0' & H) F IH2]; cbn [concat]; constructor; auto.
  apply call_inv in H. destruct (w_fault w (s_tick s0)); try discriminate. cbv zeta in H.
  destruct (is_dir w (join d n)) eqn:ED; [eapply IH; eauto|].
  destruct (is_modelica (join d n)) eqn:EM; inversion H; subst; [apply be_take|apply be_skip]; auto.
Qed.
Lemma collect_listing w fuel args s fs s' : collect fuel w args s = (inl fs, s') -> listing w args fs.
Proof.
  unfold collect. intro H.
  apply andthen_inv in H as [(bs & s1 & H1 & H)|(x & _ & D)]; [|discriminate]. inversion H; subst; clear H.
  apply mapM_inv in H1. induction H1 as [|p b args bs (s0 & s0' & H) F IH]; cbn [concat]; [constructor|].
  destruct (is_dir w p) eqn:ED.
  - apply li_dir; auto. eapply dir_below; eauto.
  - inversion H; subst. cbn [app]. apply li_file; auto.
Qed.

(** Without faults the search can only fail by running forever. *)
Lemma mapM_stop {A B} (f : A -> M B) l : (forall a s x s', In a l -> f a s = (inr x, s') -> x = SLoop) ->
  forall s x s', mapM f l s = (inr x, s') -> x = SLoop.
Proof.
  induction l as [|a l IH]; intros HF s x s' H; cbn [mapM] in H; [discriminate|].
  apply andthen_inv in H as [(b & s1 & H1 & H)|(y & H1 & E)].
  - apply andthen_inv in H as [(bs & s2 & H2 & H)|(y & H2 & E)]; [discriminate|].
    injection E as ->. eapply IH; [|exact H2]. intros; eapply HF; eauto; right; auto.
  - injection E as ->. eapply HF; [left; reflexivity|exact H1].
Qed.
Lemma dir_stop w fuel : calm w -> forall d s x s', is_dir w d = true -> get_files_from_dir fuel w d s = (inr x, s') -> x = SLoop.
Proof.
  intro C. induction fuel as [|fuel IH]; intros d s x s' ID H; cbn [get_files_from_dir] in H; [inversion H; auto|].
  apply call_inv in H. rewrite C in H. unfold is_dir in ID.
  destruct (w_node w d) as [[i|es]|] eqn:ND; try discriminate. clear ID.
  apply andthen_inv in H as [(bs & s1 & H1 & H)|(y & H1 & E)]; [discriminate|]. injection E as ->.
  eapply mapM_stop; [|exact H1]. intros n s0 z s0' IN HN. apply call_inv in HN. rewrite C in HN. cbv zeta in HN.
  destruct (is_dir w (join d n)) eqn:ED; [eapply IH; eauto|].
  destruct (is_modelica (join d n)); discriminate.
Qed.
Lemma collect_stop w fuel args s x s' : calm w -> collect fuel w args s = (inr x, s') -> x = SLoop.
Proof.
  unfold collect. intros C H. apply andthen_inv in H as [(bs & s1 & H1 & H)|(y & H1 & E)]; [discriminate|].
  injection E as ->. eapply mapM_stop; [|exact H1]. intros p s0 z s0' _ HP. cbv beta in HP.
  destruct (is_dir w p) eqn:ED; [eapply dir_stop; eauto|discriminate].
Qed.
(** With faults it may panic as well. *)
Lemma mapM_stop' {A B} (f : A -> M B) l : (forall a s x s', f a s = (inr x, s') -> x = SLoop \/ x = SPanic) ->
  forall s x s', mapM f l s = (inr x, s') -> x = SLoop \/ x = SPanic.
Proof.
  intro HF. induction l as [|a l IH]; intros s x s' H; cbn [mapM] in H; [discriminate|].
  apply andthen_inv in H as [(b & s1 & H1 & H)|(y & H1 & E)].
  - apply andthen_inv in H as [(bs & s2 & H2 & H)|(y & H2 & E)]; [discriminate|]. injection E as ->. eauto.
  - injection E as ->. eauto.
Qed.
Lemma dir_stop' w fuel : forall d s x s', get_files_from_dir fuel w d s = (inr x, s') -> x = SLoop \/ x = SPanic.
Proof.
  induction fuel as [|fuel IH]; intros d s x s' H; cbn [get_files_from_dir] in H; [inversion H; auto|].
  apply call_inv in H. destruct (w_fault w (s_tick s)); [|inversion H; auto|inversion H; auto].
  destruct (w_node w d) as [[i|es]|] eqn:ND; [inversion H; auto| |inversion H; auto].
  apply andthen_inv in H as [(bs & s1 & H1 & H)|(y & H1 & E)]; [discriminate|]. injection E as ->.
  eapply mapM_stop'; [|exact H1]. intros n s0 z s0' HN. apply call_inv in HN.
  destruct (w_fault w (s_tick s0)); [|inversion HN; auto|inversion HN; auto]. cbv zeta in HN.
  destruct (is_dir w (join d n)) eqn:ED; [eapply IH; eauto|].
  destruct (is_modelica (join d n)); discriminate.
Qed.
Lemma collect_stop' w fuel args s x s' : collect fuel w args s = (inr x, s') -> x = SLoop \/ x = SPanic.
Proof.
  unfold collect. intros H. apply andthen_inv in H as [(bs & s1 & H1 & H)|(y & H1 & E)]; [discriminate|].
  injection E as ->. eapply mapM_stop'; [|exact H1]. intros p s0 z s0' HP. cbv beta in HP.
  destruct (is_dir w p) eqn:ED; [eapply dir_stop'; eauto|discriminate].
Qed.

(** ** The search terminates where the directories are well-founded *)
Scheme below_mut := Minimality for below Sort Prop
  with below_all_mut := Minimality for below_all Sort Prop.
Definition entry_files (fuel : nat) (w : world) (d : text) (name : text) : M (list text) :=
  f <~ call w ;;
  match f with
  | FNone => let p := join d name in
             if is_dir w p then get_files_from_dir fuel w p
             else if is_modelica p then ret [p] else ret []
  | _ => halt SPanic
  end.
Lemma mapM_step {A B} (f : A -> M B) a l s b s1 bs s2 : f a s = (inl b, s1) -> mapM f l s1 = (inl bs, s2) ->
  mapM f (a :: l) s = (inl (b :: bs), s2).
Proof. intros H1 H2. cbn [mapM]. unfold andthen. rewrite H1, H2. reflexivity. Qed.

Lemma below_found w : calm w -> forall p fs, below w p fs -> is_dir w p = true ->
  exists F, forall fuel, (F <= fuel)%nat -> forall s, exists s', get_files_from_dir fuel w p s = (inl fs, s').
Proof.
  intro C.
  apply (below_mut w (fun p fs => is_dir w p = true -> exists F, forall fuel, (F <= fuel)%nat -> forall s, exists s', get_files_from_dir fuel w p s = (inl fs, s'))
    (fun d es fs => exists F, forall fuel, (F <= fuel)%nat -> forall s, exists bs s', mapM (entry_files fuel w d) es s = (inl bs, s') /\ concat bs = fs)).
  - intros p es fs ND _ [F IH] _. exists (S F). intros [|fuel] LE s; [lia|]. cbn [get_files_from_dir].
    destruct (IH fuel ltac:(lia) (mkState (s_store s) (s_trace s) (S (s_tick s)))) as (bs & s' & H & <-).
    exists s'. unfold andthen at 1. unfold call at 1. rewrite C, ND.
    change (andthen (mapM (entry_files fuel w p) es) (fun files => ret (concat files)) (mkState (s_store s) (s_trace s) (S (s_tick s))) = (inl (concat bs), s')).
    unfold andthen. rewrite H. reflexivity.
  - intros p ND _ D. congruence.
  - intros p ND _ D. congruence.
  - intros d. exists O. intros fuel _ s. exists [], s. auto.
  - intros d n es fs fs' B IH _ [F' IH'].
    assert (exists F, forall fuel, (F <= fuel)%nat -> forall s, exists s', entry_files fuel w d n s = (inl fs, s')) as [F E].
    { destruct (is_dir w (join d n)) eqn:ED.
      - destruct (IH eq_refl) as [F H]. exists F. intros fuel LE s.
        destruct (H fuel LE (mkState (s_store s) (s_trace s) (S (s_tick s)))) as [s' H'].
        exists s'. unfold entry_files, andthen, call. rewrite C, ED. exact H'.
      - exists O. intros fuel _ s. eexists. unfold entry_files, andthen, call. rewrite C, ED.
        inversion B as [? ? ? ND|? _ EM|? _ EM]; subst.
        + unfold is_dir in ED. rewrite ND in ED. discriminate.
        + rewrite EM. reflexivity.
        + rewrite EM. reflexivity. }
    exists (Nat.max F F'). intros fuel LE s.
    destruct (E fuel ltac:(lia) s) as [s1 H1]. destruct (IH' fuel ltac:(lia) s1) as (bs & s2 & H2 & <-).
    exists (fs :: bs), s2. split; [|reflexivity]. eapply mapM_step; eauto.
Qed.
Lemma listing_found w args fs : calm w -> listing w args fs ->
  exists F, forall fuel, (F <= fuel)%nat -> forall s, exists s', collect fuel w args s = (inl fs, s').
Proof.
  intros C L.
  assert (exists F, forall fuel, (F <= fuel)%nat -> forall s, exists bs s',
            mapM (fun p => if is_dir w p then get_files_from_dir fuel w p else ret [p]) args s = (inl bs, s') /\ concat bs = fs) as [F H].
  { induction L as [|p args fs ED L IH|p args fs fs' ED B L IH].
    - exists O. intros fuel _ s. exists [], s. auto.
    - destruct IH as [F IH]. exists F. intros fuel LE s. destruct (IH fuel LE s) as (bs & s' & H & <-).
      exists ([p] :: bs), s'. split; auto. eapply mapM_step; eauto. cbv beta. rewrite ED. reflexivity.
    - destruct IH as [F IH]. destruct (below_found w C _ _ B ED) as [F' HB]. exists (Nat.max F F'). intros fuel LE s.
      destruct (HB fuel ltac:(lia) s) as [s1 H1]. destruct (IH fuel ltac:(lia) s1) as (bs & s' & H & <-).
      exists (fs :: bs), s'. split; auto. eapply mapM_step; eauto. cbv beta. rewrite ED. exact H1. }
  exists F. intros fuel LE s. destruct (H fuel LE s) as (bs & s' & H' & <-). exists s'.
  unfold collect, andthen. rewrite H'. reflexivity.
Qed.

(** ** The files found are those selected *)
Lemma below_all_split w d es fs : below_all w d es fs ->
  (forall q, In q fs -> exists n fs', In n es /\ below w (join d n) fs' /\ In q fs') /\
  (forall n, In n es -> exists fs', below w (join d n) fs' /\ forall q, In q fs' -> In q fs).
Proof.
  induction 1 as [d|d n es fs fs' B A [IH1 IH2]].
  - split; intros ? [].
  - split.
    + intros q I. apply in_app_or in I as [I|I]; [exists n, fs; repeat split; auto; left; auto|].
      destruct (IH1 q I) as (m & gs & I1 & I2 & I3). exists m, gs. repeat split; auto. right. auto.
    + intros m [<-|I].
      * exists fs. split; auto. intros. apply in_or_app. auto.
      * destruct (IH2 m I) as (gs & G1 & G2). exists gs. split; auto. intros. apply in_or_app. auto.
Qed.

Lemma dirs_front w a d es n : w_node w a = Some (NDir es) -> In n es -> dirs w (join a n) d -> dirs w a d.
Proof.
  intros ND IN D. assert (is_dir w a = true) as IA by (unfold is_dir; rewrite ND; auto).
  induction D as [ID|d es' m D IH ND' IN' ID].
  - eapply di_sub; eauto. constructor. auto.
  - eapply di_sub; eauto.
Qed.

Definition found (w : world) (a q : text) : Prop :=
  exists d es n, dirs w a d /\ w_node w d = Some (NDir es) /\ In n es /\ mo_name n /\ q = join d n /\ is_dir w q = false.

Lemma below_sound w : proper w -> forall p fs, below w p fs -> is_dir w p = true -> forall q, In q fs -> found w p q.
Proof.
  intro PR.
  apply (below_mut w (fun p fs => is_dir w p = true -> forall q, In q fs -> found w p q)
    (fun d es fs => forall es0, w_node w d = Some (NDir es0) -> (forall n, In n es -> In n es0) -> forall q, In q fs -> found w d q)).
  - intros p es fs ND _ IH _ q I. eapply IH; eauto.
  - intros p ND _ D. congruence.
  - intros p ND _ D. congruence.
  - intros d es0 _ _ q [].
  - intros d n es fs fs' B IH _ IH' es0 ND SUB q I. apply in_app_or in I as [I|I].
    + assert (is_dir w d = true) as DD by (unfold is_dir; rewrite ND; auto).
      inversion B as [? es1 ? ND1|? ED EM|? ED EM]; subst.
      * assert (is_dir w (join d n) = true) as ED by (unfold is_dir; rewrite ND1; auto).
        destruct (IH ED q I) as (d' & es' & m & D & R). exists d', es', m. split; auto.
        eapply dirs_front; eauto. apply SUB. left. auto.
      * destruct I as [<-|[]]. exists d, es0, n. repeat split; auto; [constructor; auto|apply SUB; left; auto|].
        apply (is_modelica_join d n); auto. destruct (PR _ _ ND) as [F _]. rewrite Forall_forall in F. apply F, SUB. left. auto.
      * destruct I.
    + eapply IH'; eauto. intros; apply SUB; right; auto.
Qed.

Lemma below_fun w : forall p fs, below w p fs -> forall fs', below w p fs' -> fs = fs'.
Proof.
  apply (below_mut w (fun p fs => forall fs', below w p fs' -> fs = fs')
    (fun d es fs => forall fs', below_all w d es fs' -> fs = fs')).
  - intros p es fs ND _ IH fs' B. inversion B as [? es' ? ND'|? ED|? ED]; subst.
    + rewrite ND in ND'. inversion ND'; subst. auto.
    + unfold is_dir in ED. rewrite ND in ED. discriminate.
    + unfold is_dir in ED. rewrite ND in ED. discriminate.
  - intros p ED EM fs' B. inversion B as [? es' ? ND'|? ED' EM'|? ED' EM']; subst; auto; [|congruence].
    unfold is_dir in ED. rewrite ND' in ED. discriminate.
  - intros p ED EM fs' B. inversion B as [? es' ? ND'|? ED' EM'|? ED' EM']; subst; auto; [|congruence].
    unfold is_dir in ED. rewrite ND' in ED. discriminate.
  - intros d fs' B. inversion B. auto.
  - intros d n es fs fs' _ IH _ IH' gs B. inversion B; subst. f_equal; auto.
Qed.
Lemma listing_fun w args fs : listing w args fs -> forall fs', listing w args fs' -> fs = fs'.
Proof.
  induction 1 as [|p args fs ED L IH|p args fs gs ED B L IH]; intros fs' L'; inversion L'; subst; auto; try congruence.
  - f_equal. auto.
  - f_equal; auto. eapply below_fun; eauto.
Qed.

Lemma dirs_below w a d : dirs w a d -> forall fs, below w a fs -> exists gs, below w d gs /\ forall q, In q gs -> In q fs.
Proof.
  induction 1 as [ID|d es n D IH ND IN ID]; intros fs B; [exists fs; auto|].
  destruct (IH fs B) as (gs & BG & SUB). inversion BG as [? es' ? ND' BA|? ED|? ED]; subst.
  - rewrite ND in ND'. inversion ND'; subst es'. destruct (below_all_split _ _ _ _ BA) as [_ S2].
    destruct (S2 n IN) as (hs & BH & SH). exists hs. split; auto.
  - unfold is_dir in ED. rewrite ND in ED. discriminate.
  - unfold is_dir in ED. rewrite ND in ED. discriminate.
Qed.
Lemma below_complete w a fs q : proper w -> below w a fs -> found w a q -> In q fs.
Proof.
  intros PR B (d & es & n & D & ND & IN & MO & -> & ED).
  destruct (dirs_below _ _ _ D _ B) as (gs & BG & SUB). apply SUB.
  inversion BG as [? es' ? ND' BA|? ED'|? ED']; subst.
  - rewrite ND in ND'. inversion ND'; subst es'. destruct (below_all_split _ _ _ _ BA) as [_ S2].
    destruct (S2 n IN) as (hs & BH & SH). apply SH.
    inversion BH as [? es2 ? ND2|? _ EM|? _ EM]; subst.
    + unfold is_dir in ED. rewrite ND2 in ED. discriminate.
    + left. auto.
    + exfalso. destruct (PR _ _ ND) as [F _]. rewrite Forall_forall in F.
      apply (is_modelica_join d n (F n IN)) in MO. congruence.
  - unfold is_dir in ED'. rewrite ND in ED'. discriminate.
  - unfold is_dir in ED'. rewrite ND in ED'. discriminate.
Qed.

Lemma listing_selected w args fs : proper w -> listing w args fs -> forall q, In q fs <-> selected w args q.
Proof.
  intros PR L q. induction L as [|p args fs ED L IH|p args fs fs' ED B L IH].
  - split; [intros []|intros (a & [] & _)].
  - split.
    + intros [<-|I]; [exists p; split; [left; auto|left; auto]|].
      apply IH in I as (a & IA & R). exists a. split; [right; auto|auto].
    + intros (a & [<-|IA] & R); [|right; apply IH; exists a; auto].
      destruct R as [[_ ->]|(d & es & n & D & _)]; [left; auto|].
      exfalso. clear - ED D. assert (is_dir w p = true) by (induction D; auto). congruence.
  - split.
    + intro I. apply in_app_or in I as [I|I].
      * exists p. split; [left; auto|]. right. apply (below_sound w PR _ _ B ED q I).
      * apply IH in I as (a & IA & R). exists a. split; [right; auto|auto].
    + intros (a & [<-|IA] & R); apply in_or_app; [left|right; apply IH; exists a; auto].
      destruct R as [[D _]|R]; [congruence|]. eapply below_complete; eauto.
Qed.

(** ** No file is found twice in a directory *)
Definition under (p q : text) : Prop := q = p \/ exists r, q = p ++ slash_ch :: r.
Lemma stem_plain p : p <> [] -> ends_slash p = false -> stem p = p ++ [slash_ch].
Proof.
  intros NE E. unfold stem. rewrite E. cbn [orb]. destruct (text_eqb p []) eqn:T; auto. apply text_eqb_eq in T. contradiction.
Qed.
Lemma join_plain d n : proper_name n -> join d n <> [] /\ ends_slash (join d n) = false.
Proof.
  intros (NE & _ & _ & NS). rewrite join_stem. destruct (rev n) as [|c r] eqn:R.
  { exfalso. apply NE. rewrite <- (rev_involutive n), R. reflexivity. }
  assert (In c n) as IC by (apply in_rev; rewrite R; left; auto). split.
  - intro E. apply app_eq_nil in E as [_ E]. contradiction.
  - unfold ends_slash. rewrite rev_app_distr, R. cbn [app]. apply N.eqb_neq. intros ->. contradiction.
Qed.
Lemma below_under w : proper w -> forall p fs, below w p fs -> (p <> [] /\ ends_slash p = false) -> forall q, In q fs -> under p q.
Proof.
  intro PR.
  apply (below_mut w (fun p fs => (p <> [] /\ ends_slash p = false) -> forall q, In q fs -> under p q)
    (fun d es fs => Forall proper_name es -> d <> [] /\ ends_slash d = false -> forall q, In q fs -> under d q)).
  - intros p es fs ND _ IH NE q I. apply IH; auto. apply (PR _ _ ND).
  - intros p _ _ _ q [<-|[]]. left. auto.
  - intros p _ _ _ q [].
  - intros d _ _ q [].
  - intros d n es fs fs' _ IH _ IH' F NE q I. inversion F as [|? ? F1 F2]; subst.
    apply in_app_or in I as [I|I]; [|auto].
    destruct (IH (join_plain d n F1) q I) as [->|[r ->]]; right; rewrite join_stem, (stem_plain d) by apply NE.
    + exists n. rewrite <- app_assoc. reflexivity.
    + exists (n ++ slash_ch :: r). rewrite <- !app_assoc. reflexivity.
Qed.
Lemma slash_free_eq n : forall m x y, ~ In slash_ch n -> ~ In slash_ch m ->
  (x = [] \/ exists r, x = slash_ch :: r) -> (y = [] \/ exists r, y = slash_ch :: r) -> n ++ x = m ++ y -> n = m.
Proof.
  induction n as [|c n IH]; intros [|d m] x y Fn Fm X Y E; auto; cbn [app] in E.
  - exfalso. destruct X as [->|[r ->]]; [discriminate|]. inversion E; subst. apply Fm. left. auto.
  - exfalso. destruct Y as [->|[r ->]]; [discriminate|]. inversion E; subst. apply Fn. left. auto.
  - injection E as -> E. f_equal. apply (IH m x y); auto; intro I; [apply Fn|apply Fm]; right; auto.
Qed.
Lemma under_sibling d n m q : proper_name n -> proper_name m -> under (join d n) q -> under (join d m) q -> n = m.
Proof.
  intros (_ & _ & _ & Fn) (_ & _ & _ & Fm) U V. rewrite !join_stem in *.
  assert (exists x, q = stem d ++ n ++ x /\ (x = [] \/ exists r, x = slash_ch :: r)) as (x & E & X).
  { destruct U as [->|[r ->]]; [exists []|exists (slash_ch :: r)]; rewrite ?app_nil_r, <- ?app_assoc; eauto. }
  assert (exists x, q = stem d ++ m ++ x /\ (x = [] \/ exists r, x = slash_ch :: r)) as (y & E' & Y).
  { destruct V as [->|[r ->]]; [exists []|exists (slash_ch :: r)]; rewrite ?app_nil_r, <- ?app_assoc; eauto. }
  rewrite E in E'. apply app_inv_head in E'. exact (slash_free_eq n m x y Fn Fm X Y E').
Qed.
Lemma NoDup_app_intro {A} (a b : list A) : NoDup a -> NoDup b -> (forall x, In x a -> ~ In x b) -> NoDup (a ++ b).
Proof.
  intros Na Nb D. induction Na as [|x a NI Na IH]; auto. cbn [app]. constructor.
  - intro I. apply in_app_or in I as [I|I]; [contradiction|]. apply (D x); auto. left. auto.
  - apply IH. intros y I. apply D. right. auto.
Qed.
Lemma below_nodup w : proper w -> forall p fs, below w p fs -> NoDup fs.
Proof.
  intro PR.
  apply (below_mut w (fun p fs => NoDup fs) (fun d es fs => Forall proper_name es -> NoDup es -> NoDup fs)).
  - intros p es fs ND _ IH. destruct (PR _ _ ND). auto.
  - intros p _ _. repeat constructor. intros [].
  - intros p _ _. constructor.
  - intros d _ _. constructor.
  - intros d n es fs fs' B IH BA IH' F NDe. inversion F as [|? ? F1 F2]; subst. inversion NDe as [|? ? NI N2]; subst.
    apply NoDup_app_intro; auto. intros q I I'.
    destruct (below_all_split _ _ _ _ BA) as [S1 _]. destruct (S1 q I') as (m & gs & IM & BG & IG).
    assert (proper_name m) as PM by (rewrite Forall_forall in F2; auto).
    apply NI. rewrite (under_sibling d n m q F1 PM); auto.
    + eapply below_under; eauto. apply join_plain, F1.
    + eapply below_under; eauto. apply join_plain, PM.
Qed.
