(** Runs in which no system call fails: files are dealt with one by one. *)
From Coq Require Import Permutation.
From Verif Require Import ProofBase Tokens Syntax ParserCore Lib PropsParser FmtFacts FmtNeat PropsFormat Utf8 SpecUtf8 Utf8Facts Cli SpecCli CliFacts CliFind PropsCli SpecOrder.

Section Calm.
Variables (eol : text) (w : world).
Hypothesis C : calm w.

(** ** One file *)
Definition look (s : store) (q : path) : text + text :=
  if negb (is_modelica q) then inr (display q ++ str " is not a Modelica file")
  else match w_node w q with
       | Some (NFile i) => match decode (s i) with Some t => inl t | None => inr (w_oserr w) end
       | _ => inr (w_oserr w)
       end.
Definition visit (check : bool) (s : store) (q : path) : option (bool * list effect) :=
  match look s q with
  | inl source =>
      match parse source KStoredDefinition with
      | Ok parsed =>
          match p_errors parsed with
          | _ :: _ => Some (true, [EOut (str "Syntax errors detected:" ++ [10] ++ join_lines (error_strings (display q) parsed) ++ [10])])
          | [] =>
              match pretty_print eol parsed with
              | Ok out =>
                  if check then
                    if negb (text_eqb (out ++ eol) source) then Some (true, [EOut (display q ++ str ": check failed" ++ [10])])
                    else Some (false, [EOut (display q ++ str ": check passed" ++ [10])])
                  else match w_node w q with
                       | Some (NFile i) => Some (false, ETrunc i :: map (EWrite i) (encode (out ++ eol)))
                       | _ => None
                       end
              | _ => None
              end
          end
      | _ => None
      end
  | inr e => Some (true, [EErr (display q ++ str ": error: " ++ e ++ [10])])
  end.
Lemma emit_all_run es : forall st, emit_all es st = (inl tt, mkState (after_effects (s_store st) es) (s_trace st ++ es) (s_tick st)).
Proof.
  induction es as [|e es IH]; intro st; [destruct st as [s t k]; cbn [emit_all ret s_trace s_store s_tick]; rewrite app_nil_r; reflexivity|].
  cbn [emit_all]. unfold andthen, emit. rewrite IH. cbn [s_store s_trace s_tick after_effects fold_left]. rewrite <- app_assoc. reflexivity.
Qed.
Lemma call_calm st : call w st = (inl FNone, mkState (s_store st) (s_trace st) (S (s_tick st))).
Proof. unfold call. rewrite C. reflexivity. Qed.
Lemma say_calm e st : say w e st = (inl tt, mkState (effect_on (s_store st) e) (s_trace st ++ [e]) (S (s_tick st))).
Proof. unfold say, andthen. rewrite call_calm. reflexivity. Qed.
Lemma read_calm q st : exists n, read_file w q st = (inl (look (s_store st) q), mkState (s_store st) (s_trace st) n).
Proof.
  unfold read_file, look. destruct (negb (is_modelica q)); [exists (s_tick st); destruct st; reflexivity|].
  unfold andthen. rewrite call_calm. destruct (w_node w q) as [[i|es]|]; [|eexists; reflexivity|eexists; reflexivity].
  unfold peek. cbn [s_store]. destruct (decode (s_store st i)); eexists; reflexivity.
Qed.
Lemma and_l {A B} (m : M A) (f : A -> M B) st a st' : m st = (inl a, st') -> andthen m f st = f a st'.
Proof. unfold andthen. intros ->. reflexivity. Qed.
Lemma and_r {A B} (m : M A) (f : A -> M B) st x st' : m st = (inr x, st') -> andthen m f st = (inr x, st').
Proof. unfold andthen. intros ->. reflexivity. Qed.
Lemma process_calm check code q st :
  match visit check (s_store st) q with
  | Some (b, es) => exists n, process eol w check code q st = (inl (if b then 1 else code), mkState (after_effects (s_store st) es) (s_trace st ++ es) n)
  | None => exists x st', process eol w check code q st = (inr x, st') /\ forall c, x <> SExit c
  end.
Proof.
  unfold process, visit. destruct (read_calm q st) as (n & R). rewrite (and_l _ _ _ _ _ R). cbv zeta.
  destruct (look (s_store st) q) as [source|e].
  2: { rewrite (and_l _ _ _ _ _ (say_calm _ _)). eexists. reflexivity. }
  destruct (parse source KStoredDefinition) as [p|x|]; cbn [lift].
  2: { do 2 eexists. split; [apply and_r; reflexivity|discriminate]. }
  2: { do 2 eexists. split; [apply and_r; reflexivity|discriminate]. }
  rewrite (and_l (ret p) _ _ p _ eq_refl). destruct (p_errors p) as [|er ers].
  2: { rewrite (and_l _ _ _ _ _ (say_calm _ _)). eexists. reflexivity. }
  destruct (pretty_print eol p) as [out|x|]; cbn [lift].
  2: { do 2 eexists. split; [apply and_r; reflexivity|discriminate]. }
  2: { do 2 eexists. split; [apply and_r; reflexivity|discriminate]. }
  rewrite (and_l (ret out) _ _ out _ eq_refl). destruct check.
  - destruct (negb (text_eqb (out ++ eol) source)); rewrite (and_l _ _ _ _ _ (say_calm _ _)); eexists; reflexivity.
  - destruct (w_node w q) as [[i|es]|] eqn:NQ.
    + assert (forall st, exists n, write_file w q (out ++ eol) st =
        (inl tt, mkState (after_effects (s_store st) (ETrunc i :: map (EWrite i) (encode (out ++ eol)))) (s_trace st ++ ETrunc i :: map (EWrite i) (encode (out ++ eol))) n)) as W.
      { intro st2. unfold write_file. rewrite (and_l _ _ _ _ _ (call_calm _)), NQ. rewrite (and_l (emit (ETrunc i)) _ _ tt _ eq_refl), emit_all_run. cbn [s_store s_trace s_tick]. rewrite <- app_assoc. eexists. reflexivity. }
      destruct (W (mkState (s_store st) (s_trace st) n)) as (m & E). rewrite (and_l _ _ _ _ _ E). eexists. reflexivity.
    + do 2 eexists. split; [apply and_r; unfold write_file; rewrite (and_l _ _ _ _ _ (call_calm _)), NQ; reflexivity|discriminate].
    + do 2 eexists. split; [apply and_r; unfold write_file; rewrite (and_l _ _ _ _ _ (call_calm _)), NQ; reflexivity|discriminate].
Qed.

(** ** Several files *)
Fixpoint visits (check : bool) (s : store) (qs : list path) : option (bool * list effect) :=
  match qs with
  | [] => Some (false, [])
  | q :: qs' =>
      match visit check s q with
      | Some (b, es) =>
          match visits check (after_effects s es) qs' with
          | Some (b', es') => Some (b || b', es ++ es')
          | None => None
          end
      | None => None
      end
  end.
Lemma process_all_calm check qs : forall code st,
  match visits check (s_store st) qs with
  | Some (b, es) => exists n, process_all eol w check code qs st = (inl (if b then 1 else code), mkState (after_effects (s_store st) es) (s_trace st ++ es) n)
  | None => exists x st', process_all eol w check code qs st = (inr x, st') /\ forall c, x <> SExit c
  end.
Proof.
  induction qs as [|q qs IH]; intros code st; cbn [visits process_all].
  - exists (s_tick st). destruct st as [s0 t0 k0]. cbn [s_store s_trace s_tick]. rewrite app_nil_r. reflexivity.
  - pose proof (process_calm check code q st) as P. destruct (visit check (s_store st) q) as [[b es]|].
    + destruct P as (n & P). rewrite (and_l _ _ _ _ _ P).
      specialize (IH (if b then 1 else code) (mkState (after_effects (s_store st) es) (s_trace st ++ es) n)). cbn [s_store s_trace] in IH.
      destruct (visits check (after_effects (s_store st) es) qs) as [[b' es']|].
      * destruct IH as (m & IH). exists m. rewrite IH, after_app, <- app_assoc. destruct b, b'; reflexivity.
      * exact IH.
    + destruct P as (x & st' & P & N). exists x, st'. rewrite (and_r _ _ _ _ _ P). auto.
Qed.

(** ** The search *)
Definition blind {A} (m : M A) : Prop := exists r, forall st, exists n, m st = (r, mkState (s_store st) (s_trace st) n).
Lemma blind_ret {A} (a : A) : blind (ret a).
Proof. exists (inl a). intros []. eexists. reflexivity. Qed.
Lemma blind_halt {A} x : blind (@halt A x).
Proof. exists (inr x). intros []. eexists. reflexivity. Qed.
Lemma blind_call : blind (call w).
Proof. exists (inl FNone). intro st. rewrite call_calm. eexists. reflexivity. Qed.
Lemma blind_bind {A B} (m : M A) (f : A -> M B) : blind m -> (forall a, blind (f a)) -> blind (andthen m f).
Proof.
  intros [[a|x] M] F.
  - destruct (F a) as [r F']. exists r. intro st. destruct (M st) as (n & E). unfold andthen. rewrite E. destruct (F' (mkState (s_store st) (s_trace st) n)) as (n' & E'). rewrite E'. eexists. reflexivity.
  - exists (inr x). intro st. destruct (M st) as (n & E). unfold andthen. rewrite E. eexists. reflexivity.
Qed.
Lemma blind_mapM {A B} (f : A -> M B) l : (forall a, blind (f a)) -> blind (mapM f l).
Proof. intro F. induction l as [|a l IH]; [apply blind_ret|]. cbn [mapM]. apply blind_bind; [apply F|]. intro b. apply blind_bind; [exact IH|]. intro. apply blind_ret. Qed.
Lemma blind_dir fuel : forall d, blind (get_files_from_dir fuel w d).
Proof.
  induction fuel as [|fuel IH]; intro d; cbn [get_files_from_dir]; [apply blind_halt|].
  apply blind_bind; [apply blind_call|]. intros []; try apply blind_halt. destruct (w_node w d) as [[i|es]|]; try apply blind_halt.
  apply blind_bind; [|intro; apply blind_ret]. apply blind_mapM. intro name. apply blind_bind; [apply blind_call|]. intros []; try apply blind_halt.
  cbv zeta. destruct (is_dir w (join d name)); [apply IH|]. destruct (is_modelica (join d name)); apply blind_ret.
Qed.
Definition seek (fuel : nat) (p : path) : M (list path) := if is_dir w p then get_files_from_dir fuel w p else ret [p].
Lemma blind_seek fuel p : blind (seek fuel p).
Proof. unfold seek. destruct (is_dir w p); [apply blind_dir|apply blind_ret]. Qed.
Definition finds {A} (m : M A) (a : A) : Prop := forall st, exists n, m st = (inl a, mkState (s_store st) (s_trace st) n).
Lemma blind_finds {A} (m : M A) a st st' : blind m -> m st = (inl a, st') -> finds m a.
Proof. intros [r B] E st2. destruct (B st) as (n & E1). rewrite E1 in E. injection E as -> _. apply B. Qed.
Lemma mapM_finds {A B} (f : A -> M B) l bs : (forall a, blind (f a)) -> (finds (mapM f l) bs <-> Forall2 (fun a b => finds (f a) b) l bs).
Proof.
  intro F. revert bs. induction l as [|a l IH]; intro bs.
  - split; [|intro H; inversion H; subst; intros []; eexists; reflexivity]. intro H. destruct (H (mkState (fun _ => []) [] 0%nat)) as (n & E). cbn in E. injection E as <- _. constructor.
  - cbn [mapM]. split.
    + intro H. destruct (H (mkState (fun _ => []) [] 0%nat)) as (n & E). apply andthen_inv in E as [(b & s1 & E1 & E)|(x & _ & X)]; [|discriminate].
      apply andthen_inv in E as [(bs' & s2 & E2 & E)|(x & _ & X)]; [|discriminate]. unfold ret in E. injection E as <- _. constructor; [eapply blind_finds; eauto|].
      apply IH. eapply blind_finds; [|exact E2]. apply blind_mapM, F.
    + intro H. inversion H as [|? b ? bs' H1 H2]; subst. apply IH in H2. intro st. destruct (H1 st) as (n & E1). unfold andthen. rewrite E1.
      destruct (H2 (mkState (s_store st) (s_trace st) n)) as (n' & E2). rewrite E2. unfold ret. eexists. reflexivity.
Qed.
Lemma collect_finds fuel args fs : finds (collect fuel w args) fs <-> exists gs, Forall2 (fun p g => finds (seek fuel p) g) args gs /\ fs = concat gs.
Proof.
  assert (blind (mapM (seek fuel) args)) as B by (apply blind_mapM; intro; apply blind_seek). split.
  - intro H. destruct (H (mkState (fun _ => []) [] 0%nat)) as (n & E). unfold collect in E. apply andthen_inv in E as [(gs & s1 & E1 & E)|(x & _ & X)]; [|discriminate].
    unfold ret in E. injection E as <- _. exists gs. split; [|reflexivity]. apply mapM_finds; [intro; apply blind_seek|]. eapply blind_finds; [exact B|exact E1].
  - intros (gs & F & ->). apply mapM_finds in F; [|intro; apply blind_seek]. intro st. destruct (F st) as (n & E). unfold collect, andthen. unfold seek in E. rewrite E. unfold ret. eexists. reflexivity.
Qed.

(** ** Whole runs *)
Lemma blind_collect fuel paths : blind (collect fuel w paths).
Proof. unfold collect. apply blind_bind; [apply blind_mapM; intro p; apply (blind_seek fuel p)|intro; apply blind_ret]. Qed.
Lemma run_calm fuel s0 argv check paths c es : dispatch argv (AWork check paths) ->
  (run fuel eol w s0 argv = (SExit c, es) <-> exists fs b, finds (collect fuel w paths) fs /\ visits check s0 fs = Some (b, es) /\ c = (if b : bool then 1 else 0)).
Proof.
  intro D. unfold run. rewrite (main_dispatch _ _ _ _ _ D). unfold format_files. split.
  - destruct ((files <~ collect fuel w paths;; code <~ process_all eol w check 0 files;; halt (SExit code)) (mkState s0 [] 0)) as [r s'] eqn:E. intro R.
    apply andthen_inv in E as [(fs & s1 & E1 & E)|(x & E1 & ->)].
    + pose proof (adds_collect _ _ _ _ _ _ E1) as (e1 & T1 & S1 & ->).
      exists fs. apply (blind_finds _ _ _ _ (blind_collect _ _)) in E1. cbn [s_store s_trace app after_effects fold_left] in T1, S1.
      pose proof (process_all_calm check fs 0 s1) as P. rewrite S1 in P. destruct (visits check s0 fs) as [[b es']|].
      * destruct P as (n & P). rewrite (and_l _ _ _ _ _ P) in E. unfold halt in E. injection E as <- <-. injection R as <- <-. cbn [s_trace]. rewrite T1. exists b. auto.
      * destruct P as (x & st' & P & N). rewrite (and_r _ _ _ _ _ P) in E. injection E as <- <-. injection R as -> _. destruct (N c eq_refl).
    + pose proof (collect_stop _ _ _ _ _ _ C E1) as ->. discriminate.
  - intros (fs & b & F & V & ->). destruct (F (mkState s0 [] 0)) as (n & E). rewrite (and_l _ _ _ _ _ E).
    pose proof (process_all_calm check fs 0 (mkState (s_store (mkState s0 [] 0)) (s_trace (mkState s0 [] 0)) n)) as P. cbn [s_store s_trace] in P. rewrite V in P. destruct P as (m & P). cbn [s_store s_trace]. rewrite (and_l _ _ _ _ _ P). reflexivity.
Qed.

(** ** The order of the files *)
Definition settles (r r' : option (bool * list effect)) (s : store) : Prop :=
  match r with Some (b, es) => exists es', r' = Some (b, es') /\ same (after_effects s es) (after_effects s es') | None => True end.
Lemma look_same s s' q : (forall i, w_node w q = Some (NFile i) -> s i = s' i) -> look s q = look s' q.
Proof. intro H. unfold look. destruct (negb (is_modelica q)); [reflexivity|]. destruct (w_node w q) as [[i|]|]; auto. rewrite (H i eq_refl). reflexivity. Qed.
Lemma visit_same check s s' q : (forall i, w_node w q = Some (NFile i) -> s i = s' i) -> visit check s q = visit check s' q.
Proof. intro H. unfold visit. rewrite (look_same _ _ _ H). reflexivity. Qed.
Lemma visits_same check qs : forall s s', same s s' -> visits check s qs = visits check s' qs.
Proof.
  induction qs as [|q qs IH]; intros s s' S; [reflexivity|]. cbn [visits]. rewrite (visit_same check s s' q (fun i _ => S i)). destruct (visit check s' q) as [[b es]|]; [|reflexivity].
  rewrite (IH _ _ (same_effects es _ _ S)). reflexivity.
Qed.
(** What a visit does: nothing to the files, or new contents for the one visited. *)
Lemma visit_shape check s q b es : visit check s q = Some (b, es) -> Forall quiet es \/
  exists i t, b = false /\ check = false /\ w_node w q = Some (NFile i) /\ es = ETrunc i :: map (EWrite i) t.
Proof.
  unfold visit. destruct (look s q) as [src|e]; [|intro E; injection E as <- <-; left; repeat constructor].
  destruct (parse src KStoredDefinition) as [p|x|]; try discriminate. destruct (p_errors p); [|intro E; injection E as <- <-; left; repeat constructor].
  destruct (pretty_print eol p) as [out|x|]; try discriminate. destruct check; [destruct (negb _); intro E; injection E as <- <-; left; repeat constructor|].
  destruct (w_node w q) as [[i|]|]; try discriminate. intro E. injection E as <- <-. right. eauto 8.
Qed.
Lemma visits_check qs : forall s, match visits true s qs with
  | Some (b, es) => Forall quiet es /\ Forall2 (fun q e => exists b', visit true s q = Some (b', [e])) qs es
  | None => True end.
Proof.
  induction qs as [|q qs IH]; intro s; cbn [visits]; [auto|]. destruct (visit true s q) as [[b es]|] eqn:V; [|trivial].
  destruct (visit_shape _ _ _ _ _ V) as [Q|(i & t & _ & X & _)]; [|discriminate]. rewrite (after_quiet _ _ Q). specialize (IH s).
  destruct (visits true s qs) as [[b' es']|]; [|trivial]. destruct IH as [Q' F].
  assert (exists e, es = [e]) as (e & ->).
  { clear - V. unfold visit in V. destruct (look s q); [|injection V as _ <-; eauto]. destruct (parse _ _) as [p|x|]; try discriminate. destruct (p_errors p); [|injection V as _ <-; eauto].
    destruct (pretty_print eol p); try discriminate. destruct (negb _); injection V as _ <-; eauto. }
  split; [apply Forall_app; auto|]. constructor; eauto.
Qed.
Lemma same_refl (s : store) : same s s. Proof. intro i. reflexivity. Qed.
Lemma same_trans (a b c : store) : same a b -> same b c -> same a c. Proof. intros H K i. rewrite H. apply K. Qed.
Lemma visit_foreign check s s' q : is_modelica q = false -> visit check s q = visit check s' q.
Proof. intro M. unfold visit, look. rewrite M. reflexivity. Qed.
Lemma visit_twin check s p q : is_modelica p = true -> is_modelica q = true -> w_node w p = w_node w q -> settles (visit check s p) (visit check s q) s.
Proof.
  intros P Q N. unfold visit, look. rewrite P, Q, N. cbn [negb]. unfold settles.
  destruct (w_node w q) as [[i|es]|]; try (eexists; split; [reflexivity|apply same_refl]).
  destruct (decode (s i)) as [src|]; [|eexists; split; [reflexivity|apply same_refl]].
  destruct (parse src KStoredDefinition) as [pa|x|]; auto. destruct (p_errors pa); [|eexists; split; [reflexivity|apply same_refl]].
  destruct (pretty_print eol pa) as [out|x|]; auto. destruct check; [|eexists; split; [reflexivity|apply same_refl]].
  destruct (negb _); eexists; (split; [reflexivity|apply same_refl]).
Qed.
Lemma writes_modelica check s q b i t : visit check s q = Some (b, ETrunc i :: t) -> is_modelica q = true.
Proof. unfold visit, look. destruct (is_modelica q); [reflexivity|]. cbn [negb]. discriminate. Qed.
Lemma not_quiet i t : ~ Forall quiet (ETrunc i :: t). Proof. intro F. inversion F as [|? ? Q _]. exact Q. Qed.
Lemma visit_swap check s p q : settles (visits check s [p; q]) (visits check s [q; p]) s.
Proof.
  cbn [visits]. destruct (visit check s p) as [[b1 e1]|] eqn:P; [|exact Logic.I]. destruct (visit check (after_effects s e1) q) as [[b2 e2]|] eqn:Q; [|exact Logic.I].
  unfold settles. destruct (visit_shape _ _ _ _ _ P) as [Z1|(i & t & -> & -> & NP & ->)].
  - rewrite (after_quiet _ _ Z1) in Q. rewrite Q. destruct (visit_shape _ _ _ _ _ Q) as [Z2|(j & t & -> & -> & NQ & ->)].
    + rewrite (after_quiet _ _ Z2), P. exists (e2 ++ e1 ++ []). split; [destruct b1, b2; reflexivity|]. rewrite !app_nil_r, !after_app, (after_quiet _ _ Z1), !(after_quiet _ _ Z2), (after_quiet _ _ Z1). apply same_refl.
    + assert (visit false (after_effects s (ETrunc j :: map (EWrite j) t)) p = visit false s p) as E.
      { destruct (is_modelica p) eqn:MP; [|apply visit_foreign, MP]. apply visit_same. intros k NK. rewrite (after_file j t s k). unfold update. destruct (k =? j) eqn:KJ; [|reflexivity]. apply N.eqb_eq in KJ. subst k.
        exfalso. pose proof (visit_twin false s q p (writes_modelica _ _ _ _ _ _ Q) MP) as T. rewrite NQ, NK in T. specialize (T eq_refl). rewrite Q, P in T. cbn [settles] in T. destruct T as (es' & E & S). injection E as -> ->.
        pose proof (writes_modelica _ _ _ _ _ _ Q) as MQ. unfold visit in P, Q. unfold look in P, Q. rewrite MP, NK in P. rewrite MQ, NQ in Q. cbn [negb] in P, Q.
        destruct (decode (s j)); [|discriminate]. destruct (parse _ _); try discriminate. destruct (p_errors _); [|discriminate]. destruct (pretty_print _ _); try discriminate. injection P as <-. exact (not_quiet _ _ Z1). }
      rewrite E, P. eexists. split; [destruct b1; reflexivity|]. rewrite !app_nil_r, !after_app, (after_quiet _ _ Z1), (after_quiet _ _ Z1). apply same_refl.
  - destruct (is_modelica q) eqn:MQ.
    + pose proof (writes_modelica _ _ _ _ _ _ P) as MP.
      assert (w_node w q = Some (NFile i) \/ w_node w q <> Some (NFile i)) as [NQ|NQ].
      { destruct (w_node w q) as [[k|]|]; [|right; discriminate|right; discriminate]. destruct (N.eq_dec k i) as [->|]; [left; reflexivity|right; congruence]. }
      * pose proof (visit_twin false s p q MP MQ (eq_trans NP (eq_sym NQ))) as T. rewrite P in T. destruct T as (e' & -> & S1).
        pose proof (visit_twin false (after_effects s e') q p MQ MP (eq_trans NQ (eq_sym NP))) as T.
        rewrite <- (visit_same false _ _ q (fun k _ => S1 k)), Q in T. destruct T as (e'' & -> & S2). exists (e' ++ e'' ++ []). split; [reflexivity|]. rewrite !app_nil_r, !after_app.
        eapply same_trans; [|exact S2]. apply same_effects, S1.
      * rewrite (visit_same false _ s q) in Q.
        2: { intros k NK. rewrite (after_file i t s k). unfold update. destruct (k =? i) eqn:KI; [|reflexivity]. apply N.eqb_eq in KI. subst k. contradiction. }
        rewrite Q. destruct (visit_shape _ _ _ _ _ Q) as [Z2|(j & t2 & -> & _ & NQ2 & ->)].
        -- rewrite (after_quiet _ _ Z2), P. eexists. split; [destruct b2; reflexivity|]. rewrite !app_nil_r, !after_app, (after_quiet _ _ Z2), (after_quiet _ _ Z2). apply same_refl.
        -- assert (i <> j) as IJ by congruence.
           rewrite (visit_same false _ s p), P.
           2: { intros k NK. assert (k = i) by congruence. subst k. rewrite (after_file j t2 s i). unfold update. destruct (i =? j) eqn:KI; [|reflexivity]. apply N.eqb_eq in KI. contradiction. }
           eexists. split; [reflexivity|]. rewrite !app_nil_r, !after_app. intro k. rewrite (after_file j t2 _ k), (after_file i t _ k). unfold update.
           destruct (k =? j) eqn:KJ, (k =? i) eqn:KI; try (apply N.eqb_eq in KJ; apply N.eqb_eq in KI; subst; contradiction).
           ++ rewrite (after_file j t2 s k). unfold update. rewrite KJ. reflexivity.
           ++ rewrite (after_file i t s k). unfold update. rewrite KI. reflexivity.
           ++ rewrite (after_file j t2 s k), (after_file i t s k). unfold update. rewrite KJ, KI. reflexivity.
    + rewrite (visit_foreign false _ s q MQ) in Q. rewrite Q. destruct (visit_shape _ _ _ _ _ Q) as [Z2|(j & t2 & _ & _ & _ & ->)].
      * rewrite (after_quiet _ _ Z2), P. eexists. split; [destruct b2; reflexivity|]. rewrite !app_nil_r, !after_app, (after_quiet _ _ Z2), (after_quiet _ _ Z2). apply same_refl.
      * apply writes_modelica in Q. congruence.
Qed.
Lemma visits_app check a : forall s b, visits check s (a ++ b) =
  match visits check s a with
  | Some (x, es) => match visits check (after_effects s es) b with Some (y, fs) => Some (x || y, es ++ fs) | None => None end
  | None => None end.
Proof.
  induction a as [|q a IH]; intros s b; cbn [app visits].
  - change (after_effects s []) with s. destruct (visits check s b) as [[y fs]|]; reflexivity.
  - destruct (visit check s q) as [[x es]|]; [|reflexivity]. rewrite IH. destruct (visits check (after_effects s es) a) as [[x' es']|]; [|reflexivity].
    rewrite after_app. destruct (visits check (after_effects (after_effects s es) es') b) as [[y fs]|]; [|reflexivity]. rewrite orb_assoc, app_assoc. reflexivity.
Qed.
Lemma settles_trans r1 r2 r3 s : settles r1 r2 s -> settles r2 r3 s -> settles r1 r3 s.
Proof.
  unfold settles. destruct r1 as [[b es]|]; [|auto]. intros (es' & -> & S) (es'' & -> & S'). exists es''. split; [reflexivity|]. eapply same_trans; eauto.
Qed.
Theorem visits_order check qs qs' : Permutation qs qs' -> forall s, settles (visits check s qs) (visits check s qs') s.
Proof.
  induction 1 as [|q qs qs' _ IH|p q qs|a b c _ IH1 _ IH2]; intro s.
  - exists []. split; [reflexivity|apply same_refl].
  - cbn [visits]. destruct (visit check s q) as [[b es]|]; [|exact Logic.I]. specialize (IH (after_effects s es)). destruct (visits check (after_effects s es) qs) as [[b' es']|]; [|exact Logic.I].
    destruct IH as (e2 & -> & S). exists (es ++ e2). split; [reflexivity|]. rewrite !after_app. exact S.
  - change (q :: p :: qs) with ([q; p] ++ qs). change (p :: q :: qs) with ([p; q] ++ qs). rewrite !visits_app. pose proof (visit_swap check s q p) as W.
    destruct (visits check s [q; p]) as [[b es]|]; [|exact Logic.I]. destruct W as (es' & -> & S). rewrite (visits_same check qs _ _ S).
    destruct (visits check (after_effects s es') qs) as [[b2 e2]|]; [|exact Logic.I]. exists (es' ++ e2). split; [reflexivity|]. rewrite !after_app. apply same_effects, S.
  - eapply settles_trans; [apply IH1|apply IH2].
Qed.
End Calm.

(** ** Two worlds *)
Lemma forall2_order {A B} (R : A -> B -> Prop) l l' : Permutation l l' -> forall g, Forall2 R l g -> exists g', Forall2 R l' g' /\ Permutation g g'.
Proof.
  induction 1 as [|x l l' _ IH|x y l|a b c _ IH1 _ IH2]; intros g F.
  - inversion F. exists []. split; constructor.
  - inversion F as [|? y ? g0 F1 F2]; subst. destruct (IH _ F2) as (g' & F' & P). exists (y :: g'). split; constructor; assumption.
  - inversion F as [|? u ? g0 F1 F2]; subst. inversion F2 as [|? v ? g1 F3 F4]; subst. exists (v :: u :: g1). split; [repeat constructor; assumption|constructor].
  - destruct (IH1 _ F) as (g1 & F1 & P1). destruct (IH2 _ F1) as (g2 & F2 & P2). exists g2. split; [exact F2|eapply perm_trans; eauto].
Qed.
Lemma perm_concat {A} (g g' : list (list A)) : Permutation g g' -> Permutation (concat g) (concat g').
Proof.
  induction 1 as [|x l l' _ IH|x y l|a b c _ IH1 _ IH2]; cbn [concat].
  - constructor.
  - apply Permutation_app_head, IH.
  - rewrite !app_assoc. apply Permutation_app_tail, Permutation_app_comm.
  - eapply perm_trans; eauto.
Qed.
Lemma forall2_concat {A B} (R R' : A -> list B -> Prop) l : (forall a g, In a l -> R a g -> exists g', R' a g' /\ Permutation g g') ->
  forall gs, Forall2 R l gs -> exists gs', Forall2 R' l gs' /\ Permutation (concat gs) (concat gs').
Proof.
  induction l as [|a l IH]; intros H gs F; inversion F as [|? g ? gs0 F1 F2]; subst.
  - exists []. split; constructor.
  - destruct (H a g (or_introl eq_refl) F1) as (g' & G & P). destruct (IH (fun a g I => H a g (or_intror I)) _ F2) as (gs' & G' & P'). exists (g' :: gs'). split; [constructor; assumption|]. cbn [concat]. apply Permutation_app; assumption.
Qed.
Definition entry (w : world) (fuel : nat) (d : path) (name : text) : M (list path) :=
  f <~ call w ;;
  match f with
  | FNone => let p := join d name in if is_dir w p then get_files_from_dir fuel w p else if is_modelica p then ret [p] else ret []
  | _ => halt SPanic
  end.
Lemma blind_entry w (C : calm w) fuel d name : blind (entry w fuel d name).
Proof.
  apply blind_bind; [apply blind_call, C|]. intros []; try apply blind_halt. cbv zeta. destruct (is_dir w (join d name)); [apply blind_dir, C|]. destruct (is_modelica (join d name)); apply blind_ret.
Qed.
Lemma dir_finds w (C : calm w) fuel d fs : finds (get_files_from_dir (S fuel) w d) fs <->
  exists es gs, w_node w d = Some (NDir es) /\ Forall2 (fun name g => finds (entry w fuel d name) g) es gs /\ fs = concat gs.
Proof.
  cbn [get_files_from_dir]. split.
  - intro H. destruct (H (mkState (fun _ => []) [] 0%nat)) as (n & E). apply andthen_inv in E as [(f & s1 & E1 & E)|(x & _ & X)]; [|discriminate].
    rewrite call_calm in E1 by exact C. injection E1 as <- <-. destruct (w_node w d) as [[i|es]|]; try discriminate. exists es.
    apply andthen_inv in E as [(gs & s2 & E2 & E)|(x & _ & X)]; [|discriminate]. unfold ret in E. injection E as <- _. exists gs. split; [reflexivity|]. split; [|reflexivity].
    apply mapM_finds; [intro; apply blind_entry, C|]. eapply blind_finds; [|exact E2]. apply blind_mapM. intro. apply blind_entry, C.
  - intros (es & gs & N & F & ->) st. apply mapM_finds in F; [|intro; apply blind_entry, C].
    pose proof (call_calm w C st) as K. rewrite (and_l _ _ _ _ _ K), N.
    destruct (F (mkState (s_store st) (s_trace st) (S (s_tick st)))) as (n & E). unfold entry in E. cbv zeta in E |- *. rewrite (and_l _ _ _ _ _ E). eexists. reflexivity.
Qed.
Section Two.
Variables w w' : world.
Hypothesis C : calm w.
Hypothesis C' : calm w'.
Hypothesis R : reordered w w'.
Lemma same_dir p : is_dir w' p = is_dir w p.
Proof. destruct R as [_ N]. specialize (N p). unfold is_dir. destruct (w_node w p) as [[i|es]|], (w_node w' p) as [[j|es']|]; try discriminate N; reflexivity. Qed.
Lemma entry_finds v (V : calm v) fuel d name g : finds (entry v fuel d name) g <->
  finds (if is_dir v (join d name) then get_files_from_dir fuel v (join d name) else if is_modelica (join d name) then ret [join d name] else ret []) g.
Proof.
  unfold entry. split; intros H st.
  - destruct (H st) as (n & E). rewrite (and_l _ _ _ _ _ (call_calm v V st)) in E.
    assert (blind (if is_dir v (join d name) then get_files_from_dir fuel v (join d name) else if is_modelica (join d name) then ret [join d name] else ret [])) as B.
    { destruct (is_dir v (join d name)); [apply blind_dir, V|]. destruct (is_modelica (join d name)); apply blind_ret. }
    exact (blind_finds _ _ _ _ B E st).
  - destruct (H (mkState (s_store st) (s_trace st) (S (s_tick st)))) as (n & E). exists n. rewrite (and_l _ _ _ _ _ (call_calm v V st)). exact E.
Qed.
Lemma dir_order fuel : forall d fs, finds (get_files_from_dir fuel w d) fs -> exists fs', finds (get_files_from_dir fuel w' d) fs' /\ Permutation fs fs'.
Proof.
  induction fuel as [|fuel IH]; intros d fs H; [destruct (H (mkState (fun _ => []) [] 0%nat)) as (n & E); discriminate|].
  apply (dir_finds w C) in H as (es & gs & N & F & ->). destruct R as [_ RN]. specialize (RN d). rewrite N in RN. destruct (w_node w' d) as [[i|es']|] eqn:N'; try discriminate RN.
  destruct (forall2_order _ _ _ RN _ F) as (g1 & F1 & P1).
  edestruct (forall2_concat (fun name g => finds (entry w fuel d name) g) (fun name g => finds (entry w' fuel d name) g) es') as (g2 & F2 & P2); [|exact F1|].
  { cbv beta. intros name g _ E. apply (entry_finds w C) in E. setoid_rewrite (entry_finds w' C'). rewrite same_dir. destruct (is_dir w (join d name)); [apply IH, E|].
       exists g. split; [exact E|apply Permutation_refl]. }
  exists (concat g2). split; [apply (dir_finds w' C'); eauto|]. eapply perm_trans; [apply perm_concat, P1|exact P2].
Qed.
Lemma collect_order fuel paths paths' fs : Permutation paths paths' -> finds (collect fuel w paths) fs -> exists fs', finds (collect fuel w' paths') fs' /\ Permutation fs fs'.
Proof.
  intros P H. apply (collect_finds w C) in H as (gs & F & ->). destruct (forall2_order _ _ _ P _ F) as (g1 & F1 & P1).
  edestruct (forall2_concat (fun p g => finds (seek w fuel p) g) (fun p g => finds (seek w' fuel p) g) paths') as (g2 & F2 & P2); [|exact F1|].
  { cbv beta. intros name g _. unfold seek. rewrite same_dir. destruct (is_dir w name); [apply dir_order|]. intro E. exists g. split; [exact E|apply Permutation_refl]. }
  exists (concat g2). split; [apply (collect_finds w' C'); eauto|]. eapply perm_trans; [apply perm_concat, P1|exact P2].
Qed.
Lemma look_order s q : look w' s q = look w s q.
Proof.
  destruct R as [O N]. unfold look. destruct (negb (is_modelica q)); [reflexivity|]. specialize (N q).
  destruct (w_node w q) as [[i|es]|], (w_node w' q) as [[j|es']|]; try discriminate N; rewrite O; [|reflexivity|reflexivity]. injection N as <-. reflexivity.
Qed.
Lemma visit_order eol check s q : visit eol w' check s q = visit eol w check s q.
Proof.
  unfold visit. rewrite look_order. unfold look. destruct (is_modelica q); [|reflexivity]. cbn [negb].
  destruct R as [O N]. specialize (N q). destruct (w_node w q) as [[i|es]|], (w_node w' q) as [[j|es']|]; try discriminate N; try reflexivity. injection N as <-. reflexivity.
Qed.
Lemma visits_two eol check qs : forall s, visits eol w' check s qs = visits eol w check s qs.
Proof. induction qs as [|q qs IH]; intro s; [reflexivity|]. cbn [visits]. rewrite visit_order. destruct (visit eol w check s q) as [[b es]|]; [|reflexivity]. rewrite IH. reflexivity. Qed.
Theorem run_order fuel eol s0 check argv argv' paths paths' c es :
  dispatch argv (AWork check paths) -> dispatch argv' (AWork check paths') -> Permutation paths paths' ->
  run fuel eol w s0 argv = (SExit c, es) ->
  exists es', run fuel eol w' s0 argv' = (SExit c, es') /\ same (after_effects s0 es) (after_effects s0 es') /\ (check = true -> Permutation es es').
Proof.
  intros D D' P H. apply (run_calm eol w C _ _ _ _ _ _ _ D) in H as (fs & b & F & V & ->). destruct (collect_order _ _ _ _ P F) as (fs' & F' & PF).
  pose proof (visits_order eol w check _ _ PF s0) as T. rewrite V in T. destruct T as (es' & V' & S). exists es'. rewrite <- (visits_two eol check fs' s0) in V'.
  split; [apply (run_calm eol w' C' _ _ _ _ _ _ _ D'); eauto|]. split; [exact S|]. intros ->. rewrite visits_two in V'.
  pose proof (visits_check eol w fs s0) as K. rewrite V in K. destruct K as [_ K]. pose proof (visits_check eol w fs' s0) as K'. rewrite V' in K'. destruct K' as [_ K'].
  destruct (forall2_order _ _ _ PF _ K) as (g & G & PG). enough (g = es') as -> by exact PG. clear - G K'. revert es' K'.
  induction G as [|q e fs' g (b & E) _ IH]; intros es' K'; inversion K' as [|? e' ? es'' (b' & E') K'']; subst; [reflexivity|]. rewrite E' in E. injection E as -> ->. f_equal. apply IH, K''.
Qed.
End Two.
Theorem run_split eol w (C : calm w) fuel s0 check argv argv1 argv2 a b :
  dispatch argv (AWork check (a ++ b)) -> dispatch argv1 (AWork check a) -> dispatch argv2 (AWork check b) ->
  forall c es, run fuel eol w s0 argv = (SExit c, es) <->
    exists c1 e1 c2 e2, run fuel eol w s0 argv1 = (SExit c1, e1) /\ run fuel eol w (after_effects s0 e1) argv2 = (SExit c2, e2) /\ c = N.max c1 c2 /\ es = e1 ++ e2.
Proof.
  intros D D1 D2 c es. rewrite (run_calm eol w C _ _ _ _ _ _ _ D). split.
  - intros (fs & x & F & V & ->). apply (collect_finds w C) in F as (gs & F & ->). apply Forall2_app_inv_l in F as (g1 & g2 & F1 & F2 & ->).
    rewrite concat_app, visits_app in V. destruct (visits eol w check s0 (concat g1)) as [[x1 e1]|] eqn:V1; [|discriminate].
    destruct (visits eol w check (after_effects s0 e1) (concat g2)) as [[x2 e2]|] eqn:V2; [|discriminate]. injection V as <- <-.
    exists (if x1 then 1 else 0), e1, (if x2 then 1 else 0), e2. split.
    { apply (run_calm eol w C _ _ _ _ _ _ _ D1). exists (concat g1), x1. split; [apply (collect_finds w C); eauto|auto]. }
    split. { apply (run_calm eol w C _ _ _ _ _ _ _ D2). exists (concat g2), x2. split; [apply (collect_finds w C); eauto|auto]. }
    split; [destruct x1, x2; reflexivity|reflexivity].
  - intros (c1 & e1 & c2 & e2 & H1 & H2 & -> & ->). apply (run_calm eol w C _ _ _ _ _ _ _ D1) in H1 as (f1 & x1 & F1 & V1 & ->). apply (run_calm eol w C _ _ _ _ _ _ _ D2) in H2 as (f2 & x2 & F2 & V2 & ->).
    exists (f1 ++ f2), (x1 || x2). split.
    { apply (collect_finds w C) in F1 as (g1 & F1 & ->). apply (collect_finds w C) in F2 as (g2 & F2 & ->). apply (collect_finds w C). exists (g1 ++ g2). split; [apply Forall2_app; assumption|symmetry; apply concat_app]. }
    split; [|destruct x1, x2; reflexivity]. rewrite visits_app, V1, V2. reflexivity.
Qed.
