(** Properties of the command line tool (C38-C45, C50, C51). *)
From Verif Require Import ProofBase Tokens Syntax ParserCore Lib PropsParser FmtFacts FmtNeat PropsFormat Utf8 SpecUtf8 Utf8Facts Cli SpecCli CliFacts CliFind.

(** ** C45: options *)
Lemma readable_dec b : {readable b} + {~ readable b}.
Proof.
  destruct (decode b) as [t|] eqn:E; [left; exists t; apply decode_iff, E|right; apply decode_none, E].
Qed.
Lemma chooses_exists argv : Forall readable argv -> exists act, chooses argv act.
Proof.
  intro RE. destruct argv as [|p [|o rest]]; [eexists; constructor|eexists; constructor|].
  destruct (in_dec (list_eq_dec N.eq_dec) o help_options) as [I|NH]; [eexists; apply ds_help; auto|].
  destruct (in_dec (list_eq_dec N.eq_dec) o version_options) as [I|NV]; [eexists; apply ds_version; auto|].
  destruct (list_eq_dec N.eq_dec o (str "--check")) as [->|NC].
  - destruct rest; [eexists; apply ds_check_none|eexists; apply ds_check; discriminate].
  - destruct o as [|c o]; [eexists; apply ds_format; discriminate|].
    destruct (N.eq_dec c 45) as [->|N].
    + inversion RE as [|? ? _ R1]; subst. inversion R1 as [|? ? [t U] _]; subst.
      eexists. apply (ds_unknown p o rest t); [|exact U]. intros [E|I]; [apply NC; symmetry; exact E|]. apply in_app_or in I as [I|I]; contradiction.
    + eexists. apply ds_format. intros o' E. inversion E. contradiction.
Qed.
Lemma dispatch_exists argv : exists act, dispatch argv act.
Proof.
  destruct (Forall_Exists_dec _ readable_dec argv) as [F|E].
  - destruct (chooses_exists argv F) as [act C]. exists act. apply dp_chooses; auto.
  - apply Exists_exists in E as (a & I & N). exists AGarbled. eapply dp_garbled; eauto.
Qed.
Lemma in_options o a b : In o [a; b] <-> text_eqb o a || text_eqb o b = true.
Proof. rewrite orb_true_iff, !text_eqb_eq. cbn [In]. intuition congruence. Qed.
Lemma not_options o a b : ~ In o [a; b] -> text_eqb o a || text_eqb o b = false.
Proof. intro H. destruct (text_eqb o a || text_eqb o b) eqn:E; auto. apply in_options in E. contradiction. Qed.

Definition act_of (argv : list bytes) : action :=
  match argv with
  | [] | [_] => AUsage
  | _ :: first :: rest =>
      if text_eqb first (str "-h") || text_eqb first (str "--help") then AHelp
      else if text_eqb first (str "-v") || text_eqb first (str "--version") then AVersion
      else if text_eqb first (str "--check") then match rest with [] => AUsage | _ => AWork true rest end
      else if starts_dash first then match decode first with Some t => AUnknown t | None => AGarbled end
      else AWork false (first :: rest)
  end.
Lemma chooses_act argv act : chooses argv act -> act = act_of argv.
Proof.
  destruct 1 as [|p|p o rest I|p o rest I|p paths NE|p|p o rest t NI U|p a rest NI]; cbn [act_of]; auto.
  - apply in_options in I. rewrite I. reflexivity.
  - assert (~ In o help_options) as NH.
    { destruct I as [<-|[<-|[]]]; intros [E|[E|[]]]; discriminate. }
    rewrite (not_options _ _ _ NH). apply in_options in I. rewrite I. reflexivity.
  - change (text_eqb (str "--check") (str "-h") || text_eqb (str "--check") (str "--help")) with false.
    change (text_eqb (str "--check") (str "-v") || text_eqb (str "--check") (str "--version")) with false.
    change (text_eqb (str "--check") (str "--check")) with true. cbv iota. destruct paths; [contradiction|reflexivity].
  - rewrite not_options, not_options.
    + assert (text_eqb (str "-" ++ o) (str "--check") = false) as ->.
      { destruct (text_eqb (str "-" ++ o) (str "--check")) eqn:E; auto. apply text_eqb_eq in E. exfalso. apply NI. left. auto. }
      apply decode_iff in U. rewrite U. reflexivity.
    + intro I. apply NI. right. apply in_or_app. right. exact I.
    + intro I. apply NI. right. apply in_or_app. left. exact I.
  - assert (starts_dash a = false) as SD.
    { destruct a as [|c a]; auto. cbn [starts_dash]. apply N.eqb_neq. intros ->. apply (NI a). reflexivity. }
    assert (forall x, starts_dash x = true -> text_eqb a x = false) as NE.
    { intros x X. destruct (text_eqb a x) eqn:E; auto. apply text_eqb_eq in E. congruence. }
    rewrite !NE by reflexivity. cbn [orb]. rewrite SD. reflexivity.
Qed.
Lemma dispatch_fun argv a b : dispatch argv a -> dispatch argv b -> a = b.
Proof.
  intros [x I N|x F C] [y I' N'|y F' C']; auto.
  - rewrite Forall_forall in F'. destruct (N (F' _ I)).
  - rewrite Forall_forall in F. destruct (N' (F _ I')).
  - rewrite (chooses_act _ _ C). symmetry. apply chooses_act, C'.
Qed.
Lemma dispatch_work argv check paths : dispatch argv (AWork check paths) -> Forall readable argv /\ chooses argv (AWork check paths).
Proof. inversion 1; auto. Qed.

(** The arguments as texts. *)
Lemma decode_all_some argv : forall ts, decode_all argv = Some ts -> Forall2 utf8 argv ts.
Proof.
  induction argv as [|a argv IH]; cbn [decode_all]; intros ts E; [injection E as <-; constructor|].
  destruct (decode a) as [t|] eqn:EA; [|discriminate]. destruct (decode_all argv) as [ts'|]; [|discriminate].
  injection E as <-. constructor; [apply decode_iff, EA|auto].
Qed.
Lemma decode_all_readable argv : Forall readable argv -> exists ts, decode_all argv = Some ts.
Proof.
  induction 1 as [|a argv [t U] F [ts IH]]; [eexists; reflexivity|]. cbn [decode_all].
  apply decode_iff in U. rewrite U, IH. eauto.
Qed.
Lemma decode_all_garbled argv a : In a argv -> ~ readable a -> decode_all argv = None.
Proof.
  intros I N. destruct (decode_all argv) as [ts|] eqn:E; auto. exfalso. apply decode_all_some in E. apply N. clear N.
  induction E as [|x t xs ts U F IH]; [destruct I|]. destruct I as [->|I]; [exists t; exact U|auto].
Qed.
Lemma utf8_encode_all argv ts : Forall2 utf8 argv ts -> map encode ts = argv.
Proof. induction 1 as [|b t bs ts U F IH]; cbn [map]; auto. rewrite IH, <- (utf8_encode _ _ U). reflexivity. Qed.
(** Options are ASCII. *)
Lemma ascii_eqb b t o : utf8 b t -> utf8 o o -> text_eqb t o = text_eqb b o.
Proof.
  intros U A. apply eq_true_iff_eq. rewrite !text_eqb_eq. split; intros ->.
  - rewrite (utf8_encode _ _ U). symmetry. apply utf8_encode, A.
  - apply (utf8_fun o); auto.
Qed.
Lemma dash_same b t : utf8 b t -> starts_dash t = starts_dash b.
Proof.
  destruct 1 as [|c b bs t C U]; auto. cbn [starts_dash]. destruct C; cbn [app starts_dash]; auto;
    match goal with |- (?a =? 45) = (?b =? 45) => transitivity false; [|symmetry]; apply N.eqb_neq; lia end.
Qed.

(** What [main] does for each action. *)
Lemma main_dispatch fuel eol w argv act : dispatch argv act ->
  main fuel eol w argv = match act with
    | AWork check paths => format_files fuel eol w paths check
    | AGarbled => halt SPanic
    | _ => match message act with Some (e, c) => _ <~ say w e ;; halt (SExit c) | None => ret tt end
    end.
Proof.
  unfold main. intros [a I N|act' F D].
  { rewrite (decode_all_garbled _ _ I N). reflexivity. }
  destruct (decode_all_readable _ F) as [ts DA]. rewrite DA. apply decode_all_some in DA.
  apply chooses_act in D. subst act'. destruct DA as [|p t1 argv ts U1 DA]; auto. destruct DA as [|first t2 rest ts U2 DA]; auto.
  cbn [main_with act_of]. rewrite !(ascii_eqb first t2) by (try exact U2; apply decode_iff; vm_compute; reflexivity).
  rewrite (dash_same first t2 U2). pose proof (utf8_encode_all _ _ DA) as EN.
  destruct (text_eqb first (str "-h") || text_eqb first (str "--help")); auto.
  destruct (text_eqb first (str "-v") || text_eqb first (str "--version")); auto.
  destruct (text_eqb first (str "--check")); [destruct DA; auto; rewrite EN; reflexivity|].
  destruct (starts_dash first).
  - apply decode_iff in U2. rewrite U2. reflexivity.
  - cbn [map]. rewrite EN, <- (utf8_encode _ _ U2). reflexivity.
Qed.

Theorem C45_options :
  (forall argv, exists act, dispatch argv act /\ forall act', dispatch argv act' -> act' = act) /\
  (forall fuel eol w s0 argv act e c, dispatch argv act -> message act = Some (e, c) ->
     run fuel eol w s0 argv = (SExit c, [e]) \/ (run fuel eol w s0 argv = (SPanic, []) /\ ~ calm w)) /\
  (forall fuel eol w s0 argv, dispatch argv AGarbled -> run fuel eol w s0 argv = (SPanic, [])).
Proof.
  split; [|split].
  - intro argv. destruct (dispatch_exists argv) as [act D]. exists act. split; auto. intros. eapply dispatch_fun; eauto.
  - intros fuel eol w s0 argv act e c D ME. unfold run. rewrite (main_dispatch _ _ _ _ _ D).
    assert ((_ <~ say w e;; halt (SExit c)) (mkState s0 [] 0) =
              match w_fault w 0 with
              | FNone => (@inr unit _ (SExit c), mkState (effect_on s0 e) [e] 1)
              | _ => (inr SPanic, mkState s0 [] 1) end) as E.
    { unfold say, andthen, call. cbn [s_tick s_store s_trace]. destruct (w_fault w 0); reflexivity. }
    replace (match act with AWork check paths => format_files fuel eol w paths check | AGarbled => _ | _ => _ end)
      with (_ <~ say w e ;; @halt unit (SExit c)).
    2: { destruct act; try discriminate ME; rewrite ME; reflexivity. }
    rewrite E. destruct (w_fault w 0) eqn:EF; auto; right; split; auto; intro C; rewrite C in EF; discriminate.
  - intros fuel eol w s0 argv D. unfold run. rewrite (main_dispatch _ _ _ _ _ D). reflexivity.
Qed.
Print Assumptions C45_options.

(** ** Runs that work on files *)
Lemma run_work fuel eol w s0 argv check paths x es :
  (check = false -> is_eol eol) -> dispatch argv (AWork check paths) -> run fuel eol w s0 argv = (x, es) ->
  (es = [] /\ (x = SLoop \/ (x = SPanic /\ ~ calm w))) \/
  (exists files, listing w paths files /\
     ((exists c, x = SExit c /\ processed_all eol w check 0 files s0 (inl c) es) \/
      processed_all eol w check 0 files s0 (inr x) es)).
Proof.
  intros EO D R. unfold run in R. rewrite (main_dispatch _ _ _ _ _ D) in R.
  destruct (format_files fuel eol w paths check (mkState s0 [] 0)) as [r s'] eqn:FF.
  unfold format_files in FF. apply andthen_inv in FF as [(files & s1 & H1 & H)|(y & H1 & ->)].
  - pose proof (collect_listing _ _ _ _ _ _ H1) as L.
    destruct (adds_collect _ _ _ _ _ _ H1) as (es1 & T1 & S1 & ->). cbn [s_trace s_store after_effects fold_left] in T1, S1.
    apply andthen_inv in H as [(c & s2 & H2 & H)|(y & H2 & ->)].
    + destruct (adds_process_all _ _ _ EO _ _ _ _ _ H2) as (es2 & T2 & S2 & P2). rewrite S1 in P2. rewrite T1 in T2. cbn [app] in T2.
      injection H as <- <-. injection R as <- <-. rewrite T2.
      right. exists files. split; auto. left. eauto.
    + destruct (adds_process_all _ _ _ EO _ _ _ _ _ H2) as (es2 & T2 & S2 & P2). rewrite S1 in P2. rewrite T1 in T2. cbn [app] in T2.
      injection R as <- <-. rewrite T2.
      right. exists files. split; auto.
  - inversion R; subst. left. destruct (adds_collect _ _ _ _ _ _ H1) as (es1 & T1 & S1 & ->). cbn [s_trace app] in T1.
    rewrite T1. split; auto. destruct (collect_stop' _ _ _ _ _ _ H1) as [->| ->]; auto. right. split; auto.
    intro C. pose proof (collect_stop _ _ _ _ _ _ C H1). discriminate.
Qed.
Lemma run_message fuel eol w s0 argv act x es : dispatch argv act -> (forall c p, act <> AWork c p) ->
  run fuel eol w s0 argv = (x, es) -> Forall quiet es.
Proof.
  intros D NW R. destruct C45_options as (_ & O & G).
  destruct (message act) as [[e c]|] eqn:ME.
  2: { destruct act; try discriminate; [exfalso; eapply NW; eauto|]. rewrite (G fuel eol w s0 argv D) in R. injection R as _ <-. constructor. }
 destruct (O fuel eol w s0 argv act e c D ME) as [E|[E _]]; rewrite R in E; inversion E; subst; auto.
  constructor; auto. destruct act; try discriminate ME; injection ME as <- _; exact I.
Qed.

Lemma run_exit fuel eol w s0 argv c es : run fuel eol w s0 argv = (SExit c, es) -> Forall readable argv.
Proof.
  intro R. destruct (dispatch_exists argv) as [act [a I N|act' F C]]; auto. exfalso.
  destruct C45_options as (_ & _ & G). rewrite (G fuel eol w s0 argv (dp_garbled _ _ I N)) in R. discriminate.
Qed.

Lemma checking eol : true = false -> is_eol eol. Proof. discriminate. Qed.

(** ** C38: check mode modifies nothing, wherever it is interrupted *)
Lemma check_dispatch prog rest act : dispatch (prog :: str "--check" :: rest) act ->
  act = AGarbled \/ act = AUsage \/ act = AWork true rest.
Proof. intros [a _ _|act' _ C]; auto. apply chooses_act in C. subst act'. destruct rest; auto. Qed.
Lemma quiet_prefix s es a b i : Forall quiet es -> es = a ++ b -> after_effects s a i = s i.
Proof. intros F ->. apply Forall_app in F as [F _]. rewrite (after_quiet _ _ F). reflexivity. Qed.
Theorem C38_check_modifies_nothing : forall fuel eol w s0 prog rest x es a b,
  run fuel eol w s0 (prog :: str "--check" :: rest) = (x, es) -> es = a ++ b ->
  forall i, after_effects s0 a i = s0 i.
Proof.
  intros fuel eol w s0 prog rest x es a b R E i. apply (quiet_prefix s0 es a b); auto.
  destruct (dispatch_exists (prog :: str "--check" :: rest)) as [act D].
  destruct (check_dispatch _ _ _ D) as [->|[->| ->]].
  - eapply run_message; [exact D| |exact R]. discriminate.
  - eapply run_message; [exact D| |exact R]. discriminate.
  - destruct (run_work _ _ _ _ _ _ _ _ _ (checking _) D R) as [[-> _]|(files & _ & [(c & _ & P)|P])]; [constructor| |]; eapply processed_all_quiet; eauto.
Qed.
Print Assumptions C38_check_modifies_nothing.

(** ** C39: only error-free Modelica files are written *)
Theorem C39_only_correct_files_written : forall fuel eol w s0 argv x es a b i, is_eol eol ->
  run fuel eol w s0 argv = (x, es) -> es = a ++ b ->
  after_effects s0 a i = s0 i \/
  exists paths files q t src new c n,
    dispatch argv (AWork false paths) /\ listing w paths files /\ In q files /\
    is_modelica q = true /\ w_node w q = Some (NFile i) /\
    utf8 (s0 i) t /\ rewrites_star eol t src /\ rewrites eol src new /\ utf8 c new /\
    after_effects s0 a i = firstn n c.
Proof.
  intros fuel eol w s0 argv x es a b i EO R E. destruct (dispatch_exists argv) as [act D].
  destruct act as [| | |o|[|] paths|].
  7: { left. apply (quiet_prefix s0 es a b); [|exact E]. eapply run_message; [exact D| |exact R]; discriminate. }
  - left. apply (quiet_prefix s0 es a b); [|exact E]. eapply run_message; [exact D| |exact R]; discriminate.
  - left. apply (quiet_prefix s0 es a b); [|exact E]. eapply run_message; [exact D| |exact R]; discriminate.
  - left. apply (quiet_prefix s0 es a b); [|exact E]. eapply run_message; [exact D| |exact R]; discriminate.
  - left. apply (quiet_prefix s0 es a b); [|exact E]. eapply run_message; [exact D| |exact R]; discriminate.
  - left. apply (quiet_prefix s0 es a b); [|exact E].
    destruct (run_work _ _ _ _ _ _ _ _ _ (fun _ => EO) D R) as [[-> _]|(files & _ & [(c & _ & P)|P])]; [constructor| |];
      eapply processed_all_quiet; eauto.
  - destruct (run_work _ _ _ _ _ _ _ _ _ (fun _ => EO) D R) as [[-> _]|(files & L & P)].
    + left. symmetry in E. apply app_eq_nil in E as [-> _]. reflexivity.
    + assert (story eol w files s0 es) as ST.
      { destruct P as [(c & _ & P)|P]; (eapply processed_all_story; [|exact P]); auto. }
      destruct (story_content _ _ _ _ _ (story_prefix _ _ _ _ _ ST _ _ E) i) as [H|(q & t & src & new & c & n & H)]; auto.
      right. exists paths, files, q, t, src, new, c, n. tauto.
Qed.
Print Assumptions C39_only_correct_files_written.

(** In particular a file that is not UTF-8 or not accepted is left alone. *)
Theorem C39_others_unchanged : forall fuel eol w s0 argv x es a b i, is_eol eol ->
  run fuel eol w s0 argv = (x, es) -> es = a ++ b ->
  (forall src p, utf8 (s0 i) src -> ~ accepted src p) ->
  after_effects s0 a i = s0 i.
Proof.
  intros fuel eol w s0 argv x es a b i EO R E NA.
  destruct (C39_only_correct_files_written _ _ _ _ _ _ _ _ _ i EO R E) as [H|(paths & files & q & t & src & new & c & n & _ & _ & _ & _ & _ & ST & RS & RW & _)]; auto.
  exfalso. assert (exists v, rewrites eol t v) as (v & p & out & AC & _).
  { clear - RS RW. revert new RW. induction RS as [u|u v z RS IH R]; intros new RW; eauto. }
  apply (NA t p ST AC).
Qed.
Print Assumptions C39_others_unchanged.

(** A run that ends with an exit code leaves no file half-written. *)
Lemma complete_content eol w code qs s c es : processed_all eol w false code qs s (inl c) es -> forall i,
  after_effects s es i = s i \/
  exists q t src new, In q qs /\ is_modelica q = true /\ w_node w q = Some (NFile i) /\
    utf8 (s i) t /\ rewrites_star eol t src /\ rewrites eol src new /\ utf8 (after_effects s es i) new.
Proof.
  intro P. remember (inl c) as r eqn:ER. induction P as [code s|code q qs s c1 e1 r e2 P1 P2 IH|]; intro i; try discriminate.
  - left. reflexivity.
  - rewrite after_app. specialize (IH ER i).
    destruct (processed_shape _ _ _ _ _ _ _ _ P1) as [Q|(j & src & new & b & _ & MO & ND & SJ & RW & UB & ->)].
    + rewrite (after_quiet _ _ Q) in IH |- *. destruct IH as [IH|(q' & t & src & new & I & R)]; auto.
      right. exists q', t, src, new. split; [right; auto|auto].
    + rewrite (after_file j b s i) in IH. unfold update in IH. destruct (i =? j) eqn:EI.
      * apply N.eqb_eq in EI. subst j. right.
        destruct IH as [IH|(q' & t & src' & new' & I & MO' & ND' & E' & RS & RW' & IH)].
        -- exists q, src, src, new. rewrite IH. repeat split; auto; [left; auto|constructor].
        -- pose proof (utf8_fun _ _ _ E' UB). subst t. exists q', src, src', new'. repeat split; auto; [right; auto|].
           clear - RW RS. induction RS as [x|x y z RS IH R]; [econstructor; [constructor|auto]|econstructor; eauto].
      * destruct IH as [IH|(q' & t & src' & new' & I & R)]; auto.
        right. exists q', t, src', new'. split; [right; auto|auto].
Qed.
Theorem C39_complete_contents : forall fuel eol w s0 argv c es i, is_eol eol ->
  run fuel eol w s0 argv = (SExit c, es) ->
  after_effects s0 es i = s0 i \/
  exists paths files q t src new,
    dispatch argv (AWork false paths) /\ listing w paths files /\ In q files /\
    is_modelica q = true /\ w_node w q = Some (NFile i) /\
    utf8 (s0 i) t /\ rewrites_star eol t src /\ rewrites eol src new /\
    utf8 (after_effects s0 es i) new.
Proof.
  intros fuel eol w s0 argv c es i EO R.
  destruct (C39_only_correct_files_written _ _ _ _ _ _ _ es [] i EO R (eq_sym (app_nil_r es))) as [H|(paths & files & q & t & src & new & b & n & D & L & _)]; auto.
  destruct (run_work _ _ _ _ _ _ _ _ _ (fun _ => EO) D R) as [[-> _]|(files' & L' & [(c' & E & P)|P])]; auto.
  - destruct (complete_content _ _ _ _ _ _ _ P i) as [H|(q' & t' & src' & new' & H)]; auto.
    right. exists paths, files', q', t', src', new'. tauto.
  - exfalso. apply processed_all_stop in P. discriminate.
Qed.
Print Assumptions C39_complete_contents.

(** ** C40: the exit code *)
Theorem C40_exit_code :
  (* the possible ends of a run *)
  (forall fuel eol w s0 argv x es, is_eol eol -> run fuel eol w s0 argv = (x, es) ->
     x = SExit 0 \/ x = SExit 1 \/ x = SPanic \/ x = SLoop) /\
  (* code 0: every file was in order *)
  (forall fuel eol w s0 argv check paths es, is_eol eol ->
     dispatch argv (AWork check paths) -> run fuel eol w s0 argv = (SExit 0, es) ->
     exists files, listing w paths files /\ Forall (in_order eol w s0 check) files) /\
  (* every file in order and no faults: code 0 *)
  (forall eol w s0 argv check paths files, is_eol eol -> calm w ->
     dispatch argv (AWork check paths) -> listing w paths files ->
     Forall (in_order eol w s0 check) files ->
     check = true \/ NoDup (map (w_node w) files) ->
     exists F, forall fuel, (F <= fuel)%nat -> exists es, run fuel eol w s0 argv = (SExit 0, es)) /\
  (* without faults a panic is one of the parser, on the contents of a file *)
  (forall fuel eol w s0 argv check paths es, is_eol eol -> calm w ->
     dispatch argv (AWork check paths) -> run fuel eol w s0 argv = (SPanic, es) ->
     exists files q t src x, listing w paths files /\ In q files /\ holds w s0 q t /\
       rewrites_star eol t src /\ (check = true -> src = t) /\ parse src KStoredDefinition = Panic x).
Proof.
  split; [|split; [|split]].
  - intros fuel eol w s0 argv x es EO R. destruct (dispatch_exists argv) as [act D]. destruct C45_options as (_ & O & G).
    destruct (message act) as [[e c]|] eqn:ME.
    + assert (c = 0 \/ c = 1) as HC by (destruct act; try discriminate ME; injection ME as _ <-; auto).
      destruct (O fuel eol w s0 argv act e c D ME) as [E|[E _]]; rewrite R in E; injection E as -> _; auto.
      destruct HC as [->| ->]; auto.
    + destruct act as [| | | |check paths|]; try discriminate.
      2: { rewrite (G fuel eol w s0 argv D) in R. injection R as <- _. auto. }
      destruct (run_work _ _ _ _ _ _ _ _ _ (fun _ => EO) D R) as [[_ [H|[H _]]]|(files & L & [(c & -> & P)|P])]; auto.
      * destruct (processed_all_code _ _ _ _ _ _ _ _ P) as [->| ->]; auto.
      * rewrite (processed_all_stop _ _ _ _ _ _ _ _ P). auto.
  - intros fuel eol w s0 argv check paths es EO D R.
    destruct (run_work _ _ _ _ _ _ _ _ _ (fun _ => EO) D R) as [[_ [H|[H _]]]|(files & L & [(c & E & P)|P])]; try discriminate.
    + injection E as <-. exists files. split; auto. apply (processed_all_zero _ _ _ _ _ _ _ P).
    + apply processed_all_stop in P. discriminate.
  - intros eol w s0 argv check paths files EO C D L F ND.
    destruct (listing_found w paths files C L) as [F0 HF]. exists F0. intros fuel LE.
    unfold run. rewrite (main_dispatch _ _ _ _ _ D). unfold format_files, andthen.
    destruct (HF fuel LE (mkState s0 [] 0)) as [s1 H1]. rewrite H1.
    destruct (adds_collect _ _ _ _ _ _ H1) as (es1 & T1 & S1 & ->). cbn [s_store after_effects fold_left] in S1.
    destruct (process_all eol w check 0 files s1) as [r s2] eqn:H2.
    destruct (adds_process_all _ _ _ (fun _ => EO) _ _ _ _ _ H2) as (es2 & T2 & S2 & P2). rewrite S1 in P2.
    rewrite (calm_processed_all _ _ _ _ C ND _ _ _ _ F P2). cbn. eauto.
  - intros fuel eol w s0 argv check paths es EO C D R.
    destruct (run_work _ _ _ _ _ _ _ _ _ (fun _ => EO) D R) as [[_ [H|[_ H]]]|(files & L & [(c & E & P)|P])]; try discriminate; [contradiction|].
    assert (exists q t src x, In q files /\ holds w s0 q t /\ rewrites_star eol t src /\ (check = true -> src = t) /\
              parse src KStoredDefinition = Panic x) as (q & t & src & x & H).
    2: { exists files, q, t, src, x. tauto. }
    clear R D L. remember 0 as code. clear Heqcode. remember (inr SPanic) as r eqn:ER.
    induction P as [code s|code q qs s c e1 r e2 P1 P2 IH|code q qs s y e P1]; try discriminate.
    + destruct (IH ER) as (p & t & src & x & IP & (MO & i & ND & SI) & RS & CK & PX).
      destruct (processed_shape _ _ _ _ _ _ _ _ P1) as [Q|(j & old & new & b & CF & _ & _ & SJ & RW & UB & ->)].
      * rewrite (after_quiet _ _ Q) in SI. exists p, t, src, x. repeat split; eauto. right. auto.
      * rewrite (after_file j b s i) in SI. unfold update in SI. destruct (i =? j) eqn:EI.
        -- apply N.eqb_eq in EI. subst j. pose proof (utf8_fun _ _ _ SI UB). subst t. exists p, old, src, x. repeat split; eauto.
           ++ right. auto.
           ++ clear - RW RS. induction RS as [u|u v z RS IH R]; [econstructor; [constructor|auto]|econstructor; eauto].
           ++ congruence.
        -- exists p, t, src, x. repeat split; eauto. right. auto.
    + inversion P1 as [| | | |? ? ? ? ? NC|ST]; subst; [contradiction|]. destruct (ST C) as (src & x & HO & PX).
      exists q, src, src, x. repeat split; auto; try apply HO; [left; auto|constructor].
Qed.
Print Assumptions C40_exit_code.

(** ** C50: check mode reports on every file, in order *)
Definition passed (q : path) (e : effect) : Prop :=
  exists name, shows q name /\ e = EOut (name ++ str ": check passed" ++ [10]).
Definition not_passed (w : world) (s : store) (q : path) (e : effect) : Prop :=
  complaint w s q e \/ exists name, shows q name /\ e = EOut (name ++ str ": check failed" ++ [10]).
Lemma checked_all eol w qs : forall code s c es, processed_all eol w true code qs s (inl c) es ->
  Forall2 (report eol w s) qs es /\
  ((c = code /\ Forall2 passed qs es) \/ (c = 1 /\ exists q e, In (q, e) (combine qs es) /\ not_passed w s q e) \/
   (c = code /\ c = 1)).
Proof.
  induction qs as [|q qs IH]; intros code s c es P; inversion P as [|? ? ? ? c1 e1 ? e2 P1 P2|]; subst.
  - split; [constructor|left; split; [auto|constructor]].
  - rewrite after_quiet in P2 by (eapply processed_quiet; eauto).
    destruct (IH _ _ _ _ P2) as [F G].
    assert (exists e, e1 = [e] /\ report eol w s q e /\ ((c1 = code /\ passed q e) \/ (c1 = 1 /\ not_passed w s q e))) as (e & -> & RP & CASE).
    { inversion P1; subst; try discriminate; eexists; (split; [reflexivity|]).
      - split; [apply rp_complaint; auto|right; split; auto; left; auto].
      - split; [eapply rp_failed; eauto|right; split; auto; right; eauto].
      - split; [eapply rp_passed; eauto|left; split; auto; eexists; eauto]. }
    cbn [app combine]. split; [constructor; auto|].
    destruct CASE as [[-> PA]|[-> NP]].
    + destruct G as [[-> G]|[(-> & p & e3 & I & G)|[-> E]]]; auto.
      right. left. split; auto. exists p, e3. split; [right; auto|auto].
    + assert (c = 1) as -> by (destruct G as [[G _]|[[G _]|[G _]]]; auto).
      right. left. split; auto. exists q, e. split; [left; auto|auto].
Qed.
Theorem C50_check_reports : forall fuel eol w s0 prog paths c es,
  paths <> [] -> run fuel eol w s0 (prog :: str "--check" :: paths) = (SExit c, es) ->
  exists files, listing w paths files /\ Forall2 (report eol w s0) files es /\
    ((c = 0 /\ Forall2 passed files es) \/
     (c = 1 /\ exists q e, In (q, e) (combine files es) /\ not_passed w s0 q e)).
Proof.
  intros fuel eol w s0 prog paths c es NE R.
  pose proof (dp_chooses _ _ (run_exit _ _ _ _ _ _ _ R) (ds_check prog paths NE)) as D.
  destruct (run_work _ _ _ _ _ _ _ _ _ (checking _) D R) as [[_ [H|[H _]]]|(files & L & [(c' & E & P)|P])]; try discriminate.
  2: { apply processed_all_stop in P. discriminate. }
  injection E as <-. exists files. split; auto. destruct (checked_all _ _ _ _ _ _ _ P) as [F [G|[G|[-> G]]]]; auto. discriminate.
Qed.
Print Assumptions C50_check_reports.

(** ** C79: formatting mode reports on every file, in order *)
Lemma handled_files eol w qs : forall code s c es, processed_all eol w false code qs s (inl c) es ->
  exists bad, handled_all eol w s qs bad es /\ c = (if bad then 1 else code).
Proof.
  induction qs as [|q qs IH]; intros code s c es P; inversion P as [|? ? ? ? c1 e1 ? e2 P1 P2|]; subst.
  - exists false. split; [constructor|reflexivity].
  - destruct (IH _ _ _ _ P2) as (bad & H & ->).
    assert (exists b1, handled eol w s q b1 e1 /\ c1 = (if b1 then 1 else code)) as (b1 & H1 & ->).
    { inversion P1; subst; try discriminate; [exists true|exists false]; (split; [econstructor; eauto|reflexivity]). }
    exists (b1 || bad). split; [econstructor; eauto|]. destruct b1, bad; reflexivity.
Qed.
Theorem C79_format_reports : forall fuel eol w s0 argv paths c es, is_eol eol ->
  dispatch argv (AWork false paths) -> run fuel eol w s0 argv = (SExit c, es) ->
  exists files bad, listing w paths files /\ handled_all eol w s0 files bad es /\ c = (if bad then 1 else 0).
Proof.
  intros fuel eol w s0 argv paths c es EO D R.
  destruct (run_work _ _ _ _ _ _ _ _ _ (fun _ => EO) D R) as [[_ [H|[H _]]]|(files & L & [(c' & E & P)|P])]; try discriminate.
  2: { apply processed_all_stop in P. discriminate. }
  injection E as <-. destruct (handled_files _ _ _ _ _ _ _ P) as (bad & H & ->). exists files, bad. auto.
Qed.
Print Assumptions C79_format_reports.

(** ** C43: files with errors do not keep others from being formatted *)
Lemma kept eol w check code p q s c es i : processed eol w check code p s (inl c) es ->
  w_node w q <> w_node w p -> w_node w q = Some (NFile i) -> after_effects s es i = s i.
Proof.
  intros P NP NQ. destruct (processed_shape _ _ _ _ _ _ _ _ P) as [Q|(j & src & new & b & _ & _ & ND & _ & _ & _ & ->)].
  - rewrite (after_quiet _ _ Q). reflexivity.
  - rewrite (after_file j b s i). unfold update. destruct (i =? j) eqn:E; auto. apply N.eqb_eq in E. subst j. congruence.
Qed.
Lemma formatted_all eol w qs : calm w -> NoDup (map (w_node w) qs) ->
  forall code s c es, processed_all eol w false code qs s (inl c) es ->
  forall q, In q qs -> forall src i, holds w s q src -> w_node w q = Some (NFile i) ->
    (forall new, rewrites eol src new -> utf8 (after_effects s es i) new) /\
    ((forall new, ~ rewrites eol src new) -> after_effects s es i = s i /\
      exists e, In e es /\ complaint w s q e).
Proof.
  intros C. induction qs as [|p qs IH]; intros ND code s c es P q IQ src i HO NQ; [destruct IQ|].
  inversion P as [|? ? ? ? c1 e1 ? e2 P1 P2|]; subst. inversion ND as [|? ? NI ND']; subst.
  rewrite after_app. destruct IQ as [->|IQ].
  - assert (after_effects (after_effects s e1) e2 i = after_effects s e1 i) as K.
    { destruct (story_content _ _ _ _ _ (processed_all_story _ _ _ qs _ _ _ _ _ (fun x I => I) P2) i) as [H|(q' & t & _ & _ & _ & _ & I & _ & NN & _)]; auto.
      exfalso. apply NI. rewrite NQ, <- NN. apply in_map, I. }
    rewrite K. destruct HO as (MO & j & NJ & SJ). assert (j = i) by congruence. subst j. split.
    + intros new RW. assert (in_order eol w s false q) as IO.
      { exists src, new. repeat split; eauto. discriminate. }
      inversion P1; subst; try discriminate.
      * exfalso. match goal with H : complaint _ _ _ _ |- _ => apply (complaint_not_in_order _ _ _ _ _ _ C H IO) end.
      * assert (i0 = i) by congruence. subst i0. rewrite (after_file i b s i). unfold update. rewrite N.eqb_refl.
        assert (src0 = src) by (eapply utf8_fun; eauto). subst src0.
        rewrite (rewrites_fun eol src new new0); auto.
    + intros NR. inversion P1; subst; try discriminate.
      * rewrite after_quiet by (eauto using complaint_quiet). split; auto. exists e. split; auto. left. auto.
      * exfalso. assert (i0 = i) by congruence. subst i0. assert (src0 = src) by (eapply utf8_fun; eauto). subst src0. eapply NR; eauto.
  - assert (w_node w q <> w_node w p) as NP by (intro E; apply NI; rewrite <- E; apply in_map, IQ).
    pose proof (processed_keeps _ _ _ _ _ _ _ _ q P1 (or_intror NP)) as K.
    destruct (IH ND' _ _ _ _ P2 q IQ src i (proj2 (K src) HO) NQ) as [A B]. split; auto.
    intro NR. destruct (B NR) as (B1 & e & B2 & B3). split; [rewrite B1; exact (kept _ _ _ _ _ _ _ _ _ _ P1 NP NQ)|]. exists e. split; [apply in_or_app; auto|].
    destruct B3 as [name msg U ? ?|name src' p' HO' PA PE]; [apply co_unreadable; auto|].
    + intros CW u HU. apply (U CW u). apply K, HU.
    + apply (co_syntax w s q name src' p'); auto. apply K, HO'.
Qed.
Theorem C43_others_formatted : forall fuel eol w s0 argv paths files c es, is_eol eol -> calm w ->
  dispatch argv (AWork false paths) -> listing w paths files -> NoDup (map (w_node w) files) ->
  run fuel eol w s0 argv = (SExit c, es) ->
  forall q, In q files -> forall src i, holds w s0 q src -> w_node w q = Some (NFile i) ->
    (forall new, rewrites eol src new -> utf8 (after_effects s0 es i) new) /\
    ((forall new, ~ rewrites eol src new) -> after_effects s0 es i = s0 i /\
      exists e, In e es /\ complaint w s0 q e).
Proof.
  intros fuel eol w s0 argv paths files c es EO C D L ND R q IQ src i HO NQ.
  destruct (run_work _ _ _ _ _ _ _ _ _ (fun _ => EO) D R) as [[_ [H|[H _]]]|(files' & L' & [(c' & E & P)|P])]; try discriminate.
  2: { apply processed_all_stop in P. discriminate. }
  rewrite (listing_fun _ _ _ L' _ L) in P. eapply formatted_all; eauto.
Qed.
Print Assumptions C43_others_formatted.

(** ** C41: the search for files *)
Theorem C41_search :
  (* directory entries are taken if their names end in .mo *)
  (forall d n, proper_name n -> (is_modelica (join d n) = true <-> mo_name n)) /\
  (* the order of visits covers exactly the selected files *)
  (forall w paths files, proper w -> listing w paths files -> forall q, In q files <-> selected w paths q) /\
  (forall w paths files files', listing w paths files -> listing w paths files' -> files' = files) /\
  (* each file below a directory is found once *)
  (forall w d files, proper w -> below w d files -> NoDup files) /\
  (* the search ends if the listing is finite, and only then, and follows it *)
  (forall w args files, calm w -> listing w args files ->
     exists F, forall fuel, (F <= fuel)%nat -> forall s, exists s', collect fuel w args s = (inl files, s')) /\
  (forall fuel w args s files s', collect fuel w args s = (inl files, s') -> listing w args files) /\
  (* a check reports on exactly the selected files *)
  (forall fuel eol w s0 prog paths c es, proper w -> paths <> [] ->
     run fuel eol w s0 (prog :: str "--check" :: paths) = (SExit c, es) ->
     exists files, (forall q, In q files <-> selected w paths q) /\ Forall2 (report eol w s0) files es).
Proof.
  split; [exact is_modelica_join|]. split; [|split; [|split; [|split; [|split]]]].
  - intros w paths files PR L. apply listing_selected; auto.
  - intros. eapply listing_fun; eauto.
  - intros w d files PR B. eapply below_nodup; eauto.
  - exact listing_found.
  - intros. eapply collect_listing; eauto.
  - intros fuel eol w s0 prog paths c es PR NE R.
    destruct (C50_check_reports _ _ _ _ _ _ _ _ NE R) as (files & L & F & _). exists files. split; auto.
    apply listing_selected; auto.
Qed.
Print Assumptions C41_search.

(** ** C51: formatting leaves files that pass the check as they are *)
Theorem C51_passed_unchanged : forall fuel eol w s0 argv paths files c es, is_eol eol ->
  dispatch argv (AWork false paths) -> listing w paths files ->
  Forall (in_order eol w s0 true) files ->
  run fuel eol w s0 argv = (SExit c, es) ->
  forall i, after_effects s0 es i = s0 i.
Proof.
  intros fuel eol w s0 argv paths files c es EO D L F R i.
  destruct (C39_complete_contents _ _ _ _ _ _ _ i EO R) as [H|(paths' & files' & q & t & src & new & D' & L' & IQ & MO & ND & ST & RS & RW & UB)]; auto.
  pose proof (dispatch_fun _ _ _ D D') as E. injection E as <-. rewrite (listing_fun _ _ _ L' _ L) in IQ.
  rewrite Forall_forall in F. destruct (F q IQ) as (t' & n' & (_ & j & NJ & SJ) & RW' & E). specialize (E eq_refl). subst n'.
  rewrite ND in NJ. injection NJ as <-. pose proof (utf8_fun _ _ _ SJ ST). subst t'.
  rewrite (utf8_encode _ _ ST), (utf8_encode _ _ UB). f_equal.
  assert (src = t) as ->.
  { clear - RS RW'. induction RS as [u|u v z RS IH R]; auto. specialize (IH RW'). subst v. eapply rewrites_fun; eauto. }
  eapply rewrites_fun; eauto.
Qed.
Print Assumptions C51_passed_unchanged.

(** ** Concrete worlds *)
(** A directory [src] with [a.mo], [notes.txt] and a directory [sub] with [b.mo], and two
    files outside. *)
Definition demo_node (p : path) : option node :=
  if text_eqb p (str "src") then Some (NDir [str "a.mo"; str "notes.txt"; str "sub"])
  else if text_eqb p (str "src/sub") then Some (NDir [str "b.mo"; str ".mo"])
  else if text_eqb p (str "src/a.mo") then Some (NFile 1)
  else if text_eqb p (str "src/notes.txt") then Some (NFile 2)
  else if text_eqb p (str "src/sub/b.mo") then Some (NFile 3)
  else if text_eqb p (str "src/sub/.mo") then Some (NFile 4)
  else if text_eqb p (str "c.mo") then Some (NFile 5)
  else if text_eqb p (str "bad.mo") then Some (NFile 6)
  else None.
Definition demo : world := mkWorld demo_node (fun _ => FNone) (str "No such file or directory (os error 2)").
Definition neat_text : text := str "model A" ++ [10; 10] ++ str "end A;" ++ [10].
Definition messy_text : text := str "model   A end A;".
Definition demo_store (i : inode) : bytes :=
  if i =? 1 then messy_text else if i =? 3 then neat_text
  else if i =? 5 then str "model A" else if i =? 6 then str "model A ) end A;" else [255].
Ltac ascii := apply decode_iff; vm_compute; reflexivity.
Lemma demo_calm : calm demo. Proof. intro n. reflexivity. Qed.
Lemma demo_messy : rewrites lf messy_text neat_text.
Proof. eexists _, _. split; [split; [vm_compute; reflexivity|vm_compute; reflexivity]|]. split; vm_compute; reflexivity. Qed.
Lemma demo_neat : rewrites lf neat_text neat_text.
Proof. eexists _, _. split; [split; [vm_compute; reflexivity|vm_compute; reflexivity]|]. split; vm_compute; reflexivity. Qed.
Lemma demo_proper : proper demo.
Proof.
  assert (forall n, (negb (text_eqb n []) && negb (text_eqb n dot_part) && negb (text_eqb n dotdot_part) &&
                     forallb (fun c => negb (c =? slash_ch)) n = true) -> proper_name n) as PN.
  { intros n H. apply andb_true_iff in H as [H H4]. apply andb_true_iff in H as [H H3]. apply andb_true_iff in H as [H1 H2].
    rewrite negb_true_iff in H1, H2, H3. repeat split.
    - intros ->. discriminate.
    - intros ->. discriminate.
    - intros ->. discriminate.
    - intro I. rewrite forallb_forall in H4. specialize (H4 _ I). rewrite N.eqb_refl in H4. discriminate. }
  intros d es H. cbn [w_node demo] in H. unfold demo_node in H.
  repeat match type of H with (if ?b then _ else _) = _ => destruct b end; try discriminate H; injection H as <-;
    (split; [repeat constructor; apply PN; reflexivity|]);
    repeat constructor; cbn; intuition discriminate.
Qed.
Lemma demo_listing : listing demo [str "src"; str "c.mo"] [str "src/a.mo"; str "src/sub/b.mo"; str "c.mo"].
Proof. eapply (collect_listing demo 5 _ (mkState demo_store [] 0)). vm_compute. reflexivity. Qed.

(** Check mode: one report per file; only [src/sub/b.mo] passes. *)
Definition demo_check := run 5 lf demo demo_store [str "mofmt"; str "--check"; str "src"; str "c.mo"].
Example C38_C50_applies : demo_check =
  (SExit 1, [EOut (str "src/a.mo: check failed" ++ [10]);
             EOut (str "src/sub/b.mo: check passed" ++ [10]);
             EOut (str "Syntax errors detected:" ++ [10] ++ str "c.mo:1:7: expected 'end', found EOF" ++ [10] ++
                   str "c.mo:1:7: expected IDENTIFIER, found EOF" ++ [10] ++ str "c.mo:1:7: expected ';', found EOF" ++ [10])]).
Proof. vm_compute. reflexivity. Qed.
Example C41_applies : forall q, In q [str "src/a.mo"; str "src/sub/b.mo"; str "c.mo"] <-> selected demo [str "src"; str "c.mo"] q.
Proof. apply (listing_selected demo _ _ demo_proper demo_listing). Qed.

(** Formatting mode: [src/a.mo] is rewritten although [c.mo] has errors. *)
Definition demo_argv : list bytes := [str "mofmt"; str "src"; str "c.mo"].
Definition demo_format := run 5 lf demo demo_store demo_argv.
Lemma demo_dispatch : dispatch demo_argv (AWork false [str "src"; str "c.mo"]).
Proof. apply dp_chooses; [repeat constructor; eexists; ascii|]. apply ds_format. intros o E. discriminate. Qed.
Example C39_C43_applies :
  fst demo_format = SExit 1 /\
  after_effects demo_store (snd demo_format) 1 = neat_text /\
  after_effects demo_store (snd demo_format) 3 = neat_text /\
  after_effects demo_store (snd demo_format) 5 = (str "model A") /\
  NoDup (map (w_node demo) [str "src/a.mo"; str "src/sub/b.mo"; str "c.mo"]).
Proof. repeat (split; [vm_compute; reflexivity|]). repeat constructor; cbn; intuition discriminate. Qed.
(** Nothing is printed about the two files that are written, and the file with errors is
    complained about; so is a file of another kind. *)
Example C79_applies :
  filter (fun e => match e with EOut _ | EErr _ => true | _ => false end)
    (snd (run 5 lf demo demo_store [str "mofmt"; str "src"; str "src/notes.txt"; str "none.mo"; str "c.mo"])) =
  [EErr (str "src/notes.txt: error: src/notes.txt is not a Modelica file" ++ [10]);
   EErr (str "none.mo: error: No such file or directory (os error 2)" ++ [10]);
   EOut (str "Syntax errors detected:" ++ [10] ++ str "c.mo:1:7: expected 'end', found EOF" ++ [10] ++
         str "c.mo:1:7: expected IDENTIFIER, found EOF" ++ [10] ++ str "c.mo:1:7: expected ';', found EOF" ++ [10])].
Proof. vm_compute. reflexivity. Qed.
(** Without [c.mo] the exit code is 0. *)
Example C40_applies : fst (run 5 lf demo demo_store [str "mofmt"; str "src"]) = SExit 0.
Proof. vm_compute. reflexivity. Qed.
Example C51_applies : Forall (in_order lf demo demo_store true) [str "src/sub/b.mo"] /\
  fst (run 5 lf demo demo_store [str "mofmt"; str "src/sub/b.mo"]) = SExit 0.
Proof.
  split; [|vm_compute; reflexivity]. repeat constructor. exists neat_text, neat_text. repeat split; auto.
  - exists 3. split; [reflexivity|ascii].
  - apply demo_neat.
Qed.
Example C45_applies :
  run 5 lf demo demo_store [str "mofmt"; str "--version"; str "src"] = (SExit 0, [EOut (str "mofmt, 0.6.0" ++ [10])]) /\
  dispatch [str "mofmt"; str "-check"; str "src"] (AUnknown (str "-check")) /\
  dispatch [str "mofmt"; str "src"; str "--check"] (AWork false [str "src"; str "--check"]).
Proof.
  split; [vm_compute; reflexivity|]. split; (apply dp_chooses; [repeat constructor; eexists; ascii|]).
  - apply (ds_unknown _ (str "check")); [cbn; intuition discriminate|ascii].
  - apply ds_format. intros o E. discriminate.
Qed.

(** ** C42: an interrupted run can destroy a file *)
Theorem C42_interrupted_write_refuted :
  exists fuel w s0 argv es a b i old new,
    calm w /\ run fuel lf w s0 argv = (SExit 0, es) /\ es = a ++ b /\
    utf8 (s0 i) old /\ utf8 (after_effects s0 es i) new /\ rewrites lf old new /\
    after_effects s0 a i = [] /\ old <> [] /\ new <> [].
Proof.
  exists 5%nat, demo, demo_store, [str "mofmt"; str "src/a.mo"], (ETrunc 1 :: map (EWrite 1) neat_text), [ETrunc 1],
    (map (EWrite 1) neat_text), 1, messy_text, neat_text.
  split; [apply demo_calm|]. split; [vm_compute; reflexivity|]. split; [reflexivity|]. split; [ascii|].
  split; [ascii|]. split; [apply demo_messy|]. split; [reflexivity|]. split; discriminate.
Qed.
Print Assumptions C42_interrupted_write_refuted.

(** ** C43: a file that crashes the parser stops the run *)
Theorem C43_one_bad_file_refuted :
  exists fuel w s0 argv es i old new,
    calm w /\ run fuel lf w s0 argv = (SPanic, es) /\
    In (str "src/a.mo") argv /\ w_node w (str "src/a.mo") = Some (NFile i) /\
    utf8 (s0 i) old /\ rewrites lf old new /\ new <> old /\ after_effects s0 es i = s0 i.
Proof.
  exists 5%nat, demo, demo_store, [str "mofmt"; str "bad.mo"; str "src/a.mo"], [], 1, messy_text, neat_text.
  split; [apply demo_calm|]. split; [vm_compute; reflexivity|]. split; [cbn; auto|]. split; [reflexivity|].
  split; [ascii|]. split; [apply demo_messy|]. split; [discriminate|reflexivity].
Qed.
Print Assumptions C43_one_bad_file_refuted.

(** ** C44: a freshly formatted file can fail the check *)
Definition lone : world := mkWorld (fun p => if text_eqb p (str "f.mo") then Some (NFile 0) else None) (fun _ => FNone) [].
Theorem C44_format_then_check_refuted :
  exists fuel s0 es es',
    run fuel lf lone s0 [str "mofmt"; str "f.mo"] = (SExit 0, es) /\
    run fuel lf lone (after_effects s0 es) [str "mofmt"; str "--check"; str "f.mo"] = (SExit 1, es') /\
    es' = [EOut (str "f.mo: check failed" ++ [10])].
Proof.
  exists 5%nat, (fun _ => unstable), (snd (run 5 lf lone (fun _ => unstable) [str "mofmt"; str "f.mo"])),
    [EOut (str "f.mo: check failed" ++ [10])].
  split; [vm_compute; reflexivity|]. split; [vm_compute; reflexivity|reflexivity].
Qed.
Print Assumptions C44_format_then_check_refuted.

(** What a check after formatting is worth: it passes exactly if formatting the formatted text
    changes nothing. *)
Theorem C44_passes_iff_stable : forall eol w s0 prog q es es' x fuel fuel',
  is_eol eol -> calm w -> (forall o, q <> str "-" ++ o) -> is_dir w q = false ->
  run fuel eol w s0 [prog; q] = (SExit 0, es) ->
  run fuel' eol w (after_effects s0 es) [prog; str "--check"; q] = (x, es') ->
  (x = SExit 0 <-> exists src new, holds w s0 q src /\ rewrites eol src new /\ rewrites eol new new).
Proof.
  intros eol w s0 prog q es es' x fuel fuel' EO C NO ND R R'.
  assert (listing w [q] [q]) as L by (apply li_file; [auto|constructor]).
  pose proof (run_exit _ _ _ _ _ _ _ R) as RE.
  assert (dispatch [prog; q] (AWork false [q])) as D by (apply dp_chooses, ds_format; auto).
  assert (dispatch [prog; str "--check"; q] (AWork true [q])) as D'.
  { apply dp_chooses; [|apply ds_check; discriminate]. inversion RE as [|? ? RP RQ]; subst. constructor; auto.
    constructor; auto. eexists. ascii. }
  destruct C40_exit_code as (_ & Z & A & _).
  destruct (Z _ _ _ _ _ _ _ _ EO D R) as (fs & L1 & F). rewrite (listing_fun _ _ _ L1 _ L) in F. clear fs L1.
  inversion F as [|? ? (src & new & HO & RW & _) _]; subst. pose proof HO as (MO & i & NI & SI).
  assert (utf8 (after_effects s0 es i) new) as AF.
  { apply (proj1 (C43_others_formatted _ _ _ _ _ _ [q] _ _ EO C D L ltac:(cbn; repeat constructor; intros []) R q (or_introl eq_refl) src i HO NI) new RW). }
  assert (holds w (after_effects s0 es) q new) as HN by (split; eauto).
  split.
  - intros ->. destruct (Z _ _ _ _ _ _ _ _ EO D' R') as (fs & L1 & F1). rewrite (listing_fun _ _ _ L1 _ L) in F1. clear fs L1.
    inversion F1 as [|? ? (s2 & n2 & HO2 & RW2 & E) _]; subst. rewrite (E eq_refl) in RW2.
    rewrite (holds_fun _ _ _ _ _ HO2 HN) in RW2. eauto.
  - intros (src' & new' & HO' & RW' & ST). rewrite (holds_fun _ _ _ _ _ HO' HO) in RW'. rewrite (rewrites_fun _ _ _ _ RW' RW) in ST.
    assert (Forall (in_order eol w (after_effects s0 es) true) [q]) as IO.
    { constructor; [|constructor]. exists new, new. auto. }
    destruct (A eol w _ _ _ _ _ EO C D' L IO (or_introl eq_refl)) as [F0 H].
    destruct (run_work _ _ _ _ _ _ _ _ _ (checking _) D' R') as [[_ [H1|[_ H1]]]|(files & L1 & [(c & E & P)|P])].
    + exfalso. subst x. unfold run in R'. rewrite (main_dispatch _ _ _ _ _ D') in R'.
      assert (forall f s, collect f w [q] s = (inl [q], s)) as CO.
      { intros f s. unfold collect, andthen. cbn [mapM]. rewrite ND. reflexivity. }
      unfold format_files in R'. unfold andthen in R'. rewrite CO in R'.
      destruct (process_all eol w true 0 [q] (mkState (after_effects s0 es) [] 0)) as [[c|y] s2] eqn:PA.
      * cbn in R'. discriminate.
      * cbn in R'. injection R' as -> _. destruct (adds_process_all _ _ _ (checking _) _ _ _ _ _ PA) as (e & _ & _ & P). apply processed_all_stop in P. discriminate.
    + contradiction.
    + rewrite (listing_fun _ _ _ L1 _ L) in P. pose proof (calm_processed_all _ _ _ _ C (or_introl eq_refl) _ _ _ _ IO P) as E2. congruence.
    + rewrite (listing_fun _ _ _ L1 _ L) in P. pose proof (calm_processed_all _ _ _ _ C (or_introl eq_refl) _ _ _ _ IO P) as E2. discriminate.
Qed.
Print Assumptions C44_passes_iff_stable.

(** The file of the refutation fails the check, an ordinary one passes it. *)
Example C44_applies : forall s0, In s0 [fun _ => messy_text; fun _ => unstable] ->
  calm lone /\ is_dir lone (str "f.mo") = false /\
  fst (run 5 lf lone s0 [str "mofmt"; str "f.mo"]) = SExit 0.
Proof.
  intros s0 I. split; [intro n; reflexivity|]. split; [reflexivity|].
  destruct I as [<-|[<-|[]]]; vm_compute; reflexivity.
Qed.
Example C44_applies_passed :
  fst (run 5 lf lone (after_effects (fun _ => messy_text) (snd (run 5 lf lone (fun _ => messy_text) [str "mofmt"; str "f.mo"])))
    [str "mofmt"; str "--check"; str "f.mo"]) = SExit 0.
Proof. vm_compute. reflexivity. Qed.
