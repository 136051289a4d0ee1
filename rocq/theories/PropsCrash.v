(** Runs that stop half-way (C106). *)
From Verif Require Import ProofBase Tokens Syntax Lexer ParserCore Lib PropsParser FmtFacts FmtRelex FmtNeat FmtStable PropsFormat Utf8 SpecUtf8 Utf8Facts Cli SpecCli CliFacts CliFind PropsCli PropsTwice SpecCrash.

Lemma processed_all_cut eol w check code qs s x es : processed_all eol w check code qs s (inr x) es ->
  exists a q b c e1 e2, qs = a ++ q :: b /\ processed_all eol w check code a s (inl c) e1 /\
    processed eol w check c q (after_effects s e1) (inr x) e2 /\ es = e1 ++ e2.
Proof.
  intro P. remember (inr x) as r eqn:E. induction P as [|code q qs s c e1 r e2 P1 P2 IH|code q qs s y e P1]; [discriminate| |].
  - destruct (IH E) as (a & p & b & d & f1 & f2 & -> & A & B & ->). exists (q :: a), p, b, d, (e1 ++ f1), f2.
    split; [reflexivity|]. split; [econstructor; eauto|]. split; [rewrite after_app; exact B|apply app_assoc].
  - injection E as ->. exists [], q, qs, code, [], e. split; [reflexivity|]. split; [constructor|]. split; [exact P1|reflexivity].
Qed.
Lemma processed_all_finished eol w check code qs s c es : processed_all eol w check code qs s (inl c) es -> finished eol w check s qs es.
Proof.
  unfold finished. destruct check; intro P; [apply (checked_all _ _ _ _ _ _ _ P)|]. destruct (handled_files _ _ _ _ _ _ _ P) as (bad & H & _). eauto.
Qed.

(** Contents that crash the parser stay as they are, as long as the run goes on. *)
Lemma fatal_stays eol w check code q s c es p : processed eol w check code q s (inl c) es -> fatal w s p -> fatal w (after_effects s es) p.
Proof.
  intros P F. destruct (processed_shape _ _ _ _ _ _ _ _ P) as [Q|(i & src & new & b & _ & _ & _ & U & (pp & o & (A & _) & _) & _ & ->)].
  - rewrite (after_quiet _ _ Q). exact F.
  - destruct F as (t & x & (MO & j & NJ & SJ) & X). exists t, x. split; [|exact X]. split; [exact MO|]. exists j. split; [exact NJ|].
    rewrite (after_file i b s j). unfold update. destruct (j =? i) eqn:E; [|exact SJ]. apply N.eqb_eq in E. subst j.
    rewrite (utf8_fun _ _ _ SJ U) in X. congruence.
Qed.
Lemma fatal_stops eol w check code q s c es : calm w -> processed eol w check code q s (inl c) es -> ~ fatal w s q.
Proof.
  intros C P (t & x & H & X).
  assert (forall src new, holds w s q src -> rewrites eol src new -> False) as K.
  { intros src new H' (pp & o & (A & _) & _). rewrite (holds_fun _ _ _ _ _ H' H) in A. congruence. }
  inversion P as [e CO| | |i src new b CK MO ND U RW UB| |]; subst; eauto.
  - destruct CO as [name msg U _ _|name src pp HO A _ _]; [exact (U C t H)|]. rewrite (holds_fun _ _ _ _ _ HO H) in A. congruence.
  - apply (K src new); [|exact RW]. split; [exact MO|eauto].
Qed.
Lemma fatal_all eol w check code qs s c es : calm w -> processed_all eol w check code qs s (inl c) es -> forall q, In q qs -> ~ fatal w s q.
Proof.
  intros C P. remember (inl c) as r eqn:E. induction P as [|code q qs s d e1 r e2 P1 P2 IH|]; [intros q []| |discriminate].
  intros p [->|I] F; [exact (fatal_stops _ _ _ _ _ _ _ _ C P1 F)|]. exact (IH E p I (fatal_stays _ _ _ _ _ _ _ _ p P1 F)).
Qed.

(** ** C106: where a run stops *)
Theorem C106_where_it_stops : forall fuel eol w s0 argv check paths es, is_eol eol ->
  dispatch argv (AWork check paths) -> run fuel eol w s0 argv = (SPanic, es) ->
  (es = [] /\ ~ calm w) \/
  exists a q b e1 e2, listing w paths (a ++ q :: b) /\ es = e1 ++ e2 /\ finished eol w check s0 a e1 /\
    (e2 = [] \/ (check = false /\ cut_short eol w (after_effects s0 e1) q e2)) /\
    (calm w -> e2 = [] /\ fatal w (after_effects s0 e1) q /\ forall p, In p a -> ~ fatal w s0 p).
Proof.
  intros fuel eol w s0 argv check paths es EO D R.
  destruct (run_work _ _ _ _ _ _ _ _ _ (fun _ => EO) D R) as [[-> [X|[_ X]]]|(files & L & [(c & X & _)|P])]; try discriminate; [left; auto|].
  right. destruct (processed_all_cut _ _ _ _ _ _ _ _ P) as (a & q & b & c & e1 & e2 & -> & PA & PQ & ->).
  exists a, q, b, e1, e2. split; [exact L|]. split; [reflexivity|]. split; [eapply processed_all_finished; eauto|].
  inversion PQ as [| | | |i src new bs n NC CK MO ND U RW UB|ST]; subst.
  - split; [right; split; [reflexivity|]; exists i, src, new, bs, n; auto 10|]. intro C. destruct (NC C).
  - split; [left; reflexivity|]. intro C. split; [reflexivity|]. split; [exact (ST C)|]. eapply fatal_all; eauto.
Qed.
Print Assumptions C106_where_it_stops.

(** ** When a run stops half-way *)
(** Nothing that was formatted before is read again, or nothing gets worse by formatting. *)
Definition untroubled (w : world) (s : store) (check : bool) (files : list path) : Prop :=
  check = true \/ NoDup (map (w_node w) files) \/ forall q src, In q files -> holds w s q src -> no_lone_cr src.

Lemma star_neat eol t u : is_eol eol -> no_lone_cr t -> rewrites_star eol t u -> no_lone_cr u.
Proof. intros EO N S. induction S as [|t u v S IH R]; [exact N|]. exact (rewrites_neat eol u v EO (IH N) R). Qed.
Lemma rewritten_parses eol t u : is_eol eol -> no_lone_cr t -> rewrites eol t u -> exists p, parse u KStoredDefinition = Ok p.
Proof.
  intros EO N (p & out & A & PP & ->). destruct (C23_reparse eol t p eol A N EO (or_intror eq_refl)) as (o & p' & PP' & (A' & _) & _).
  assert (o = out) as -> by congruence. eauto.
Qed.
Lemma fatal_before eol w check code a s c es q : is_eol eol -> processed_all eol w check code a s (inl c) es ->
  check = true \/ ~ In (w_node w q) (map (w_node w) a) \/ (forall p src, In p (a ++ [q]) -> holds w s p src -> no_lone_cr src) ->
  fatal w (after_effects s es) q -> fatal w s q.
Proof.
  intros EO P U (src & x & (MO & i & ND & SI) & X). destruct check.
  { rewrite (after_quiet es s (processed_all_quiet _ _ _ _ _ _ _ _ eq_refl P)) in SI. exists src, x. split; [|exact X]. split; [exact MO|eauto]. }
  destruct (complete_content _ _ _ _ _ _ _ P i) as [E|G].
  { rewrite E in SI. exists src, x. split; [|exact X]. split; [exact MO|eauto]. }
  exfalso.
  destruct G as (p & t & mid & new & IP & MP & NP & UT & ST & RW & UN). rewrite (utf8_fun _ _ _ SI UN) in X.
  destruct U as [U|[U|U]]; [discriminate U| |].
  - apply U. rewrite ND, <- NP. apply in_map, IP.
  - assert (no_lone_cr t) as N by (apply (U p t); [apply in_or_app; left; exact IP|]; split; [exact MP|eauto]).
    destruct (rewritten_parses eol mid new EO (star_neat _ _ _ EO N ST) RW) as (pp & A). congruence.
Qed.

Theorem C106_exactly_when : forall eol w s0 argv check paths files, is_eol eol -> calm w ->
  dispatch argv (AWork check paths) -> listing w paths files -> untroubled w s0 check files ->
  exists enough, forall fuel, (enough <= fuel)%nat ->
    ((exists es, run fuel eol w s0 argv = (SPanic, es)) <-> exists q, In q files /\ fatal w s0 q) /\
    ((exists c es, run fuel eol w s0 argv = (SExit c, es)) <-> forall q, In q files -> ~ fatal w s0 q).
Proof.
  intros eol w s0 argv check paths files EO C D L UT. destruct (listing_found _ _ _ C L) as (F & FO). exists F. intros fuel LE.
  assert ((exists c es, run fuel eol w s0 argv = (SExit c, es) /\ forall q, In q files -> ~ fatal w s0 q) \/
          (exists es q, run fuel eol w s0 argv = (SPanic, es) /\ In q files /\ fatal w s0 q)) as CASES.
  { destruct (run fuel eol w s0 argv) as [x es] eqn:R.
    destruct (run_work _ _ _ _ _ _ _ _ _ (fun _ => EO) D R) as [[_ [X|[_ X]]]|(fs & L' & [(c & -> & P)|P])]; [| destruct (X C)| |].
    - exfalso. subst x. destruct (FO fuel LE (mkState s0 [] 0)) as (s' & CO). unfold run in R. rewrite (main_dispatch _ _ _ _ _ D) in R.
      unfold format_files in R. unfold andthen at 1 in R. rewrite CO in R.
      destruct ((code <~ process_all eol w check 0 files;; halt (SExit code)) s') as [[u|y] s2] eqn:E; [discriminate|]. injection R as -> _.
      apply andthen_inv in E as [(c & s3 & _ & E)|(y & E & X)]; [discriminate|]. injection X as <-.
      destruct (adds_process_all _ _ _ (fun _ => EO) _ _ _ _ _ E) as (e2 & _ & _ & P). apply processed_all_stop in P. discriminate.
    - left. rewrite (listing_fun _ _ _ L' _ L) in P. exists c, es. split; [reflexivity|]. eapply fatal_all; eauto.
    - right. rewrite (listing_fun _ _ _ L' _ L) in P. pose proof (processed_all_stop _ _ _ _ _ _ _ _ P) as ->.
      destruct (processed_all_cut _ _ _ _ _ _ _ _ P) as (a & q & b & c & e1 & e2 & -> & PA & PQ & ->).
      exists (e1 ++ e2), q. split; [reflexivity|]. split; [apply in_or_app; right; left; reflexivity|].
      inversion PQ as [| | | |i src new bs n NC|ST]; subst; [destruct (NC C)|].
      eapply (fatal_before _ _ _ _ _ _ _ _ _ EO PA); [|exact (ST C)]. destruct UT as [U|[U|U]]; [left; exact U|right; left|right; right].
      + rewrite map_app in U. cbn [map] in U. apply NoDup_remove_2 in U. intro I. apply U, in_or_app. left. exact I.
      + intros p src I. apply U. apply in_app_iff in I as [I|[->|[]]]; apply in_or_app; [left; exact I|right; left; reflexivity]. }
  destruct CASES as [(c & es & R & NF)|(es & q & R & IQ & FA)]; rewrite R; split; split; intros H.
  - destruct H as (? & H). discriminate.
  - destruct H as (q & I & FA). destruct (NF q I FA).
  - exact NF.
  - eauto.
  - eauto.
  - eauto.
  - destruct H as (? & ? & H). discriminate.
  - destruct (H q IQ FA).
Qed.
Print Assumptions C106_exactly_when.

(** Directories without end: the program never gets beyond the search. *)
Theorem C106_endless_search : forall eol w s0 argv check paths, is_eol eol -> calm w ->
  dispatch argv (AWork check paths) -> (forall files, ~ listing w paths files) ->
  forall fuel, run fuel eol w s0 argv = (SLoop, []).
Proof.
  intros eol w s0 argv check paths EO C D NL fuel. destruct (run fuel eol w s0 argv) as [x es] eqn:R.
  destruct (run_work _ _ _ _ _ _ _ _ _ (fun _ => EO) D R) as [[-> [->|[_ X]]]|(fs & L & _)]; [reflexivity|destruct (X C)|destruct (NL fs L)].
Qed.
Print Assumptions C106_endless_search.

(** ** Concrete cases *)
(** The second file crashes the parser: the first one has been formatted, the third one is left alone, nothing is printed. *)
Definition crash_argv : list bytes := [str "mofmt"; str "src/a.mo"; str "bad.mo"; str "src/sub/b.mo"].
Lemma crash_listing : listing demo (List.tl crash_argv) (List.tl crash_argv).
Proof. eapply (collect_listing demo 5 _ (mkState demo_store [] 0)). vm_compute. reflexivity. Qed.
Lemma crash_dispatch : dispatch crash_argv (AWork false (List.tl crash_argv)).
Proof. apply dp_chooses; [repeat constructor; eexists; ascii|]. apply ds_format. intros o E. discriminate. Qed.
Lemma crash_fatal : fatal demo demo_store (str "bad.mo").
Proof.
  exists (str "model A ) end A;"). eexists. split; [|vm_compute; reflexivity]. split; [vm_compute; reflexivity|]. exists 6. split; [reflexivity|ascii].
Qed.
Example C106_crash : run 5 lf demo demo_store crash_argv = (SPanic, ETrunc 1 :: map (EWrite 1) (encode neat_text)) /\
  untroubled demo demo_store false (List.tl crash_argv).
Proof.
  split; [vm_compute; reflexivity|]. right. left. cbn. repeat constructor; cbn; intuition discriminate.
Qed.
Example C106_crash_checked : run 5 lf demo demo_store (str "mofmt" :: str "--check" :: List.tl crash_argv) = (SPanic, [EOut (str "src/a.mo: check failed" ++ [10])]).
Proof. vm_compute. reflexivity. Qed.
(** The disk is full: the third call (the one that writes the first file) stops after five bytes. *)
Definition full_disk : world := mkWorld demo_node (fun n => if Nat.eqb n 1 then FPartial 5 else FNone) [].
Example C106_full : exists es, run 5 lf full_disk demo_store crash_argv = (SPanic, es) /\ ~ calm full_disk /\
  cut_short lf full_disk demo_store (str "src/a.mo") es /\ after_effects demo_store es 1 = str "model".
Proof.
  exists (ETrunc 1 :: map (EWrite 1) (firstn 5 (encode neat_text))). split; [vm_compute; reflexivity|]. split; [intro C; specialize (C 1%nat); discriminate|].
  split; [|vm_compute; reflexivity]. exists 1, messy_text, neat_text, (encode neat_text), 5%nat.
  split; [vm_compute; reflexivity|]. split; [reflexivity|]. split; [ascii|]. split; [apply demo_messy|]. split; [ascii|reflexivity].
Qed.
(** Every directory contains another one. *)
Definition endless : world := mkWorld (fun _ => Some (NDir [str "x"])) (fun _ => FNone) [].
Fixpoint endless_below p fs (B : below endless p fs) {struct B} : False.
Proof.
  destruct B as [p es fs N BA|p X|p X]; [|discriminate X ..]. cbn in N. injection N as <-. inversion BA as [|d n es f1 f2 B1 B2]; subst.
  exact (endless_below _ _ B1).
Qed.
Example C106_endless : calm endless /\ (forall files, ~ listing endless [str "d"] files) /\ run 7 lf endless demo_store [str "mofmt"; str "d"] = (SLoop, []).
Proof.
  split; [intro; reflexivity|]. split; [|vm_compute; reflexivity]. intros files L. inversion L as [|p args fs X|p args f1 f2 _ B _]; subst; [discriminate X|].
  exact (endless_below _ _ B).
Qed.
