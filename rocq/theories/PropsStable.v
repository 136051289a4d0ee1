(** Properties C57 to C59: formatting a text repeatedly. *)
From Coq Require Import Sorted.
From Verif Require Import ProofBase Tokens Syntax Lexer SpecLex LexMain ParserCore Grammar Tree Printer Formatter Lib SpecLayout
  FmtFacts FmtRelex FmtNeat SpecNodes FmtTree FmtSame PropsFormat SpecReference PropsReference FmtBreaks FmtAgree FmtPrinted FmtStable FmtOnce
  Cli SpecCli CliFacts CliFind PropsCli.

(** ** C57: formatting twice reaches a fixed point *)
Theorem C57_twice : forall eol s p, accepted s p -> no_lone_cr s -> is_eol eol ->
  exists p1 p2 o1 o2, pretty_print eol p = Ok o1 /\ accepted (o1 ++ eol) p1 /\
    pretty_print eol p1 = Ok o2 /\ accepted (o2 ++ eol) p2 /\ pretty_print eol p2 = Ok o2.
Proof. exact twice_stable. Qed.
Print Assumptions C57_twice.
(** Here the second run changes something. *)
Example C57_applies : exists p o1 p1 o2, accepted unstable p /\ no_lone_cr unstable /\
  pretty_print lf p = Ok o1 /\ accepted (o1 ++ lf) p1 /\ pretty_print lf p1 = Ok o2 /\ o2 <> o1.
Proof.
  eexists. eexists. eexists. eexists. split; [split; vm_compute; reflexivity|]. split; [apply no_cr; reflexivity|].
  split; [vm_compute; reflexivity|]. split; [split; vm_compute; reflexivity|]. split; [vm_compute; reflexivity|]. vm_compute. discriminate.
Qed.

(** ** C58: after formatting twice the check passes *)
Lemma rewrites_twice eol s new : is_eol eol -> no_lone_cr s -> rewrites eol s new -> exists new2, rewrites eol new new2 /\ rewrites eol new2 new2.
Proof.
  intros EO NC (p & out & ACC & PP & ->). destruct (C57_twice eol s p ACC NC EO) as (p1 & p2 & o1 & o2 & P1 & A1 & P2 & A2 & P3).
  assert (out = o1) as -> by congruence. exists (o2 ++ eol). split; [exists p1, o2|exists p2, o2]; auto.
Qed.
Theorem C58_check_after_two : forall eol w s0 argv paths files fuel es,
  is_eol eol -> calm w -> dispatch argv (AWork false paths) -> listing w paths files -> NoDup (map (w_node w) files) ->
  (forall q src, In q files -> holds w s0 q src -> no_lone_cr src) ->
  run fuel eol w s0 argv = (SExit 0, es) ->
  exists F, forall fuel', (F <= fuel')%nat -> exists es',
    run fuel' eol w (after_effects s0 es) argv = (SExit 0, es') /\
    forall argv2, dispatch argv2 (AWork true paths) ->
      exists F2, forall fuel2, (F2 <= fuel2)%nat -> exists es2,
        run fuel2 eol w (after_effects (after_effects s0 es) es') argv2 = (SExit 0, es2).
Proof.
  intros eol w s0 argv paths files fuel es EO C D L ND NC R.
  destruct C40_exit_code as (_ & Z & A & _).
  assert (forall s f e, run f eol w s argv = (SExit 0, e) -> forall q src new, In q files -> holds w s q src -> rewrites eol src new -> holds w (after_effects s e) q new) as STEP.
  { intros s f e R1 q src new IQ HO RW. pose proof HO as (MO & i & NI & SI). split; [exact MO|]. exists i. split; [exact NI|].
    apply (proj1 (C43_others_formatted _ _ _ _ _ _ _ _ _ EO C D L ND R1 q IQ src i HO NI) new RW). }
  destruct (Z _ _ _ _ _ _ _ _ EO D R) as (fs & L1 & F). rewrite (listing_fun _ _ _ L1 _ L) in F. clear fs L1. rewrite Forall_forall in F.
  assert (forall q, In q files -> exists new new2, holds w (after_effects s0 es) q new /\ rewrites eol new new2 /\ rewrites eol new2 new2) as ONE.
  { intros q IQ. destruct (F q IQ) as (src & new & HO & RW & _). destruct (rewrites_twice eol src new EO (NC q src IQ HO) RW) as (new2 & R1 & R2).
    exists new, new2. split; [eapply STEP; eauto|auto]. }
  destruct (A eol w (after_effects s0 es) argv false paths files EO C D L) as (F1 & HF1); [|auto|].
  { apply Forall_forall. intros q IQ. destruct (ONE q IQ) as (new & new2 & H1 & H2 & _). exists new, new2. split; [exact H1|]. split; [exact H2|discriminate]. }
  exists F1. intros fuel' LF. destruct (HF1 fuel' LF) as (es' & R'). exists es'. split; [exact R'|]. intros argv2 D2.
  apply (A eol w _ argv2 true paths files EO C D2 L); [|auto].
  apply Forall_forall. intros q IQ. destruct (ONE q IQ) as (new & new2 & H1 & H2 & H3). exists new2, new2. split; [eapply STEP; eauto|auto].
Qed.
Print Assumptions C58_check_after_two.
(** Here the check after one run fails. *)
Example C58_applies : exists es es' es2,
  run 5 lf lone (fun _ => unstable) [str "mofmt"; str "f.mo"] = (SExit 0, es) /\
  run 5 lf lone (after_effects (fun _ => unstable) es) [str "mofmt"; str "--check"; str "f.mo"] = (SExit 1, es2) /\
  run 5 lf lone (after_effects (fun _ => unstable) es) [str "mofmt"; str "f.mo"] = (SExit 0, es') /\
  run 5 lf lone (after_effects (after_effects (fun _ => unstable) es) es') [str "mofmt"; str "--check"; str "f.mo"] = (SExit 0, [EOut (str "f.mo: check passed" ++ [10])]) /\
  dispatch [str "mofmt"; str "f.mo"] (AWork false [str "f.mo"]) /\ listing lone [str "f.mo"] [str "f.mo"].
Proof.
  exists (snd (run 5 lf lone (fun _ => unstable) [str "mofmt"; str "f.mo"])),
    (snd (run 5 lf lone (after_effects (fun _ => unstable) (snd (run 5 lf lone (fun _ => unstable) [str "mofmt"; str "f.mo"]))) [str "mofmt"; str "f.mo"])),
    [EOut (str "f.mo: check failed" ++ [10])].
  repeat (split; [vm_compute; reflexivity|]). split.
  - apply dp_chooses; [repeat constructor; eexists; ascii|]. apply ds_format. intros o E. discriminate.
  - apply li_file; [reflexivity|constructor].
Qed.

(** ** C59: formatting a formatted text joins no lines *)
Definition broken_after (ts : list token) (i : nat) : Prop :=
  exists a b, nth_error ts i = Some a /\ nth_error ts (S i) = Some b /\ line (tend a) < line (tstart b).
Theorem C59_lines_stay : forall eol s p, accepted s p -> no_lone_cr s -> is_eol eol ->
  exists p1 p2 o1 o2, pretty_print eol p = Ok o1 /\ accepted (o1 ++ eol) p1 /\
    pretty_print eol p1 = Ok o2 /\ accepted (o2 ++ eol) p2 /\
    forall i, broken_after (p_tokens p1) i -> broken_after (p_tokens p2) i.
Proof.
  intros eol s p ACC NC EO. destruct (reading_of s p ACC) as (items & tree & R0).
  destruct (FmtStable.run eol _ _ _ _ R0 NC EO) as (P0 & p1 & items1 & tree1 & R1 & NC1 & EV1 & PR1).
  destruct (FmtStable.run eol _ _ _ _ R1 NC1 EO) as (P1 & p2 & items2 & tree2 & R2 & NC2 & EV2 & PR2).
  exists p1, p2, (render eol (reference tree items)), (render eol (reference tree1 items1)).
  split; [exact P0|]. split; [apply R1|]. split; [exact P1|]. split; [apply R2|].
  destruct (run_lines _ _ _ _ _ _ _ _ R0 R1 EV1 PR1) as (g & G & ET1 & L1 & N1).
  destruct (run_lines _ _ _ _ _ _ _ _ R1 R2 EV2 PR2) as (h & H & ET2 & L2 & N2).
  rewrite <- (rd_toks _ _ _ _ R1), <- (rd_toks _ _ _ _ R2).
  intros i (a & b & A & B & LT).
  pose proof (proj1 (lined_apart _ _ _ L1 i a b A B) LT) as K.
  assert (Forall2 grows (bits false false tree) (bits false false tree1)) as GR.
  { destruct (rd_fits _ _ _ _ R0) as (cs & E & [F|F]).
    - rewrite ET1, E, F. constructor.
    - subst tree1. apply line_breaks_stay; auto. eapply lined_from_lined. exact L1. }
  apply (grows_nth _ _ GR) in K.
  destruct (nth_error (toks tree2) i) as [a'|] eqn:A'; [|apply nth_error_None in A'; rewrite <- N2 in A'; apply nth_error_None in A'; congruence].
  destruct (nth_error (toks tree2) (S i)) as [b'|] eqn:B'; [|apply nth_error_None in B'; rewrite <- N2 in B'; apply nth_error_None in B'; congruence].
  exists a', b'. split; [exact A'|]. split; [exact B'|]. apply (lined_apart _ _ _ L2 i a' b' A' B'). exact K.
Qed.
Print Assumptions C59_lines_stay.
(** Here there are line breaks before and after, and the second run adds one. *)
Example C59_applies : exists p o1 p1 o2 p2, accepted unstable p /\ no_lone_cr unstable /\
  pretty_print lf p = Ok o1 /\ accepted (o1 ++ lf) p1 /\ pretty_print lf p1 = Ok o2 /\ accepted (o2 ++ lf) p2 /\
  broken_after (p_tokens p1) 1 /\ broken_after (p_tokens p2) 1 /\
  ~ broken_after (p_tokens p1) 5 /\ broken_after (p_tokens p2) 5.
Proof.
  eexists. eexists. eexists. eexists. eexists. split; [split; vm_compute; reflexivity|]. split; [apply no_cr; reflexivity|].
  split; [vm_compute; reflexivity|]. split; [split; vm_compute; reflexivity|]. split; [vm_compute; reflexivity|]. split; [split; vm_compute; reflexivity|].
  assert (forall ts i a b, nth_error ts i = Some a -> nth_error ts (S i) = Some b -> (line (tend a) <? line (tstart b)) = true -> broken_after ts i) as Y.
  { intros ts i a b A B C. exists a, b. apply N.ltb_lt in C. auto. }
  split; [eapply Y; vm_compute; reflexivity|]. split; [eapply Y; vm_compute; reflexivity|].
  split; [|eapply Y; vm_compute; reflexivity]. intros (a & b & A & B & C). vm_compute in A, B. injection A as <-. injection B as <-. vm_compute in C. discriminate.
Qed.

(** ** C83: a run that moves no line break is the last one *)
(** Nothing begins on the line on which a comment of several lines ends. *)
Definition comments_end_lines (p : parsed) : Prop :=
  forall c t, In c (p_comments p) -> In t (p_tokens p ++ p_comments p) -> line (tstart c) < line (tend c) -> line (tstart t) <> line (tend c).
Theorem C83_once : forall eol s p o1 p1, accepted s p -> no_lone_cr s -> is_eol eol -> comments_end_lines p ->
  pretty_print eol p = Ok o1 -> accepted (o1 ++ eol) p1 ->
  (forall i, broken_after (p_tokens p) i <-> broken_after (p_tokens p1) i) ->
  pretty_print eol p1 = Ok o1.
Proof.
  intros eol s p o1 p1 A NC EO CM P A1 B. apply (once_stable eol s p A NC EO CM o1 p1 P A1).
  intros i x y x' y' X Y X' Y'. split; intro L.
  - destruct (proj1 (B i)) as (a & b & E1 & E2 & E3); [exists x, y; auto|]. assert (a = x' /\ b = y') as [-> ->] by (split; congruence). exact E3.
  - destruct (proj2 (B i)) as (a & b & E1 & E2 & E3); [exists x', y'; auto|]. assert (a = x /\ b = y) as [-> ->] by (split; congruence). exact E3.
Qed.
Print Assumptions C83_once.
Definition broken_afterb (ts : list token) (i : nat) : bool :=
  match nth_error ts i, nth_error ts (S i) with Some a, Some b => line (tend a) <? line (tstart b) | _, _ => false end.
Lemma broken_by ts us : length ts = length us -> forallb (fun i => Bool.eqb (broken_afterb ts i) (broken_afterb us i)) (List.seq 0 (length ts)) = true ->
  forall i, broken_after ts i <-> broken_after us i.
Proof.
  intros N F i. assert (forall l, broken_after l i <-> broken_afterb l i = true) as K.
  { intro l. unfold broken_afterb. split.
    - intros (a & b & -> & -> & L). apply N.ltb_lt. exact L.
    - destruct (nth_error l i) as [a|] eqn:A; [|discriminate]. destruct (nth_error l (S i)) as [b|] eqn:B; [|discriminate]. intro L. exists a, b. apply N.ltb_lt in L. auto. }
  rewrite !K. destruct (Nat.ltb_spec i (length ts)) as [L|L].
  - rewrite forallb_forall in F. specialize (F i). rewrite in_seq in F. specialize (F ltac:(lia)). apply Bool.eqb_prop in F. rewrite F. reflexivity.
  - unfold broken_afterb. rewrite !(proj2 (nth_error_None _ i)) by lia. reflexivity.
Qed.
(** The text is spread over lines, but neither indented nor spaced as the formatter does it. *)
Definition once : text := lines ["model M // a"; " Real x=f("; "a,"; "      b,"; "c+d)   ; /* one"; "   two */"; "   // three"; ""; ""; "Real y  ;"; "end M;"]%string.
Example C83_applies : exists p o1 p1, accepted once p /\ no_lone_cr once /\ comments_end_lines p /\
  pretty_print lf p = Ok o1 /\ accepted (o1 ++ lf) p1 /\
  (forall i, broken_after (p_tokens p) i <-> broken_after (p_tokens p1) i) /\ length (p_comments p) = 3%nat /\
  o1 = lines ["model M // a"; ""; "  Real x = f("; "    a,"; "    b,"; "    c + d); /* one"; "   two */"; ""; "  // three"; ""; "  Real y;"; ""; "end M;"]%string /\
  broken_after (p_tokens p) 6.
Proof.
  eexists. eexists. eexists. split; [split; vm_compute; reflexivity|]. split; [apply no_cr; reflexivity|]. split.
  { match goal with |- comments_end_lines ?p => assert (forallb (fun c => forallb (fun t => (line (tend c) <=? line (tstart c)) || negb (line (tstart t) =? line (tend c))) (p_tokens p ++ p_comments p)) (p_comments p) = true) as F by (vm_compute; reflexivity) end.
    intros c t C T L. rewrite forallb_forall in F. specialize (F c C). rewrite forallb_forall in F. specialize (F t T).
    apply orb_true_iff in F as [F|F]; [apply N.leb_le in F; lia|]. apply negb_true_iff, N.eqb_neq in F. exact F. }
  split; [vm_compute; reflexivity|]. split; [split; vm_compute; reflexivity|]. split; [apply broken_by; vm_compute; reflexivity|].
  split; [vm_compute; reflexivity|]. split; [vm_compute; reflexivity|]. eexists. eexists. split; [vm_compute; reflexivity|]. split; [vm_compute; reflexivity|].
  vm_compute. reflexivity.
Qed.
(** The condition on comments is needed: here no line break moves, but the second run adds an empty line. *)
Definition twice : text := lines ["model M"; "Real x; /* one"; "   two */ Real y;"; "end M;"]%string.
Example C83_comments_needed : exists p o1 p1 o2, accepted twice p /\ no_lone_cr twice /\
  pretty_print lf p = Ok o1 /\ accepted (o1 ++ lf) p1 /\
  (forall i, broken_after (p_tokens p) i <-> broken_after (p_tokens p1) i) /\ pretty_print lf p1 = Ok o2 /\ o2 <> o1.
Proof.
  eexists. eexists. eexists. eexists. split; [split; vm_compute; reflexivity|]. split; [apply no_cr; reflexivity|].
  split; [vm_compute; reflexivity|]. split; [split; vm_compute; reflexivity|]. split; [apply broken_by; vm_compute; reflexivity|].
  split; [vm_compute; reflexivity|]. vm_compute. discriminate.
Qed.
