(** Property C93: exactly when one run is enough, whatever the comments are. *)
From Coq Require Import Sorted.
From Verif Require Import ProofBase Tokens Syntax Lexer SpecLex LexMain ParserCore Grammar Tree Printer Formatter Lib ParserSem SpecLayout
  FmtFacts FmtRelex FmtNeat SpecNodes FmtTree FmtSame PropsFormat SpecReference PropsReference PropsTree FmtStable
  SpecSettled FmtFixed SpecHang FmtHang Cli SpecCli CliFacts CliFind PropsCli PropsStable PropsSettled.

(** ** C93: the second run changes nothing exactly if the source is settled and no comment of two lines hangs behind code *)
Theorem C93_exactly : forall eol s p items tree, reading s p items tree -> no_lone_cr s -> is_eol eol ->
  exists o1 p1 o2, layout_of eol s p (reference tree items) /\
    pretty_print eol p = Ok o1 /\ accepted (o1 ++ eol) p1 /\ pretty_print eol p1 = Ok o2 /\
    (settled tree -> (exists l2, layout_of eol (o1 ++ eol) p1 l2 /\ Forall2 grown l2 (reference tree items)) /\ (o2 = o1 \/ hanging (keeps tree) (reference tree items))) /\
    (o2 = o1 <-> settled tree /\ ~ hanging (keeps tree) (reference tree items)).
Proof. exact hanging_exactly. Qed.
Print Assumptions C93_exactly.

(** In words: one run is enough. *)
Definition steady (s : text) : Prop :=
  forall p items tree, reading s p items tree -> settled tree /\ ~ hanging (keeps tree) (reference tree items).
Theorem C93_text : forall eol s p, accepted s p -> no_lone_cr s -> is_eol eol ->
  exists o1 p1, pretty_print eol p = Ok o1 /\ accepted (o1 ++ eol) p1 /\ (pretty_print eol p1 = Ok o1 <-> steady s).
Proof.
  intros eol s p A NC EO. destruct (reading_of s p A) as (items & tree & RD).
  destruct (C93_exactly eol s p items tree RD NC EO) as (o1 & p1 & o2 & _ & P1 & A1 & P2 & _ & K). exists o1, p1. split; [exact P1|]. split; [exact A1|].
  split; intro H.
  - intros p' items' tree' RD'. assert (p' = p) as -> by (destruct (rd_accepted _ _ _ _ RD') as [X _], A as [Y _]; congruence).
    destruct (C93_exactly eol s p items' tree' RD' NC EO) as (o1' & p1' & o2' & _ & P1' & A1' & P2' & _ & K').
    assert (o1' = o1) as -> by congruence. assert (p1' = p1) as -> by (destruct A1' as [X _], A1 as [Y _]; congruence). apply K'. congruence.
  - rewrite P2. f_equal. apply K. apply (H p items tree RD).
Qed.
Print Assumptions C93_text.

(** A comment of two lines behind code, with code on its last line, makes the second run add an empty line;
    the same comment on lines of its own, or in front of a description, does not. *)
Definition hangs : text := lines ["model M"; "Real x; /* one"; "   two */ Real y;"; "end M;"]%string.
Definition stands : text := lines
  ["model M"; "Real x;"; "/* one"; "   two */ Real y /* three"; " four */ ""d""; /* five"; ""; " six */ Real z;"; "end M;"]%string.
Example C93_applies :
  (exists p items tree o1 p1 o2, reading hangs p items tree /\ no_lone_cr hangs /\ settled tree /\ hanging (keeps tree) (reference tree items) /\
    pretty_print lf p = Ok o1 /\ accepted (o1 ++ lf) p1 /\ pretty_print lf p1 = Ok o2 /\
    o1 = lines ["model M"; ""; "  Real x; /* one"; "   two */"; "  Real y;"; ""; "end M;"]%string /\
    o2 = lines ["model M"; ""; "  Real x; /* one"; "   two */"; ""; "  Real y;"; ""; "end M;"]%string) /\
  (exists p items tree o1 p1, reading stands p items tree /\ no_lone_cr stands /\ ~ comments_end_lines p /\
    settled tree /\ ~ hanging (keeps tree) (reference tree items) /\
    pretty_print lf p = Ok o1 /\ accepted (o1 ++ lf) p1 /\ pretty_print lf p1 = Ok o1 /\
    o1 = lines ["model M"; ""; "  Real x;"; "  /* one"; "   two */"; "  Real y /* three"; " four */"; "    ""d""; /* five"; ""; " six */"; ""; "  Real z;"; ""; "end M;"]%string).
Proof.
  assert (forall s p tree o1 p1 o2, accepted s p -> no_lone_cr s -> build_tree (p_tokens p) (p_events p) = Ok tree -> existsb unsettled_node (nodes tree) = false ->
    pretty_print lf p = Ok o1 -> accepted (o1 ++ lf) p1 -> pretty_print lf p1 = Ok o2 ->
    exists items, reading s p items tree /\ settled tree /\ (o2 = o1 <-> ~ hanging (keeps tree) (reference tree items)) /\ (o2 = o1 \/ hanging (keeps tree) (reference tree items))) as USE.
  { intros s p tree o1 p1 o2 A NC B U P1 A1 P2. destruct (reading_of s p A) as (items & tree' & RD).
    assert (tree' = tree) as -> by (pose proof (rd_tree _ _ _ _ RD); congruence). exists items. split; [exact RD|].
    assert (settled tree) as ST by (apply settled_by; exact U). split; [exact ST|].
    destruct (C93_exactly lf s p items tree RD NC (or_introl eq_refl)) as (o1' & p1' & o2' & _ & P1' & A1' & P2' & K' & K).
    assert (o1' = o1) as -> by congruence. assert (p1' = p1) as -> by (destruct A1' as [X _], A1 as [Y _]; congruence).
    assert (o2' = o2) as -> by congruence. tauto. }
  split.
  - assert (exists p tree o1 p1 o2, accepted hangs p /\ build_tree (p_tokens p) (p_events p) = Ok tree /\ existsb unsettled_node (nodes tree) = false /\
      pretty_print lf p = Ok o1 /\ accepted (o1 ++ lf) p1 /\ pretty_print lf p1 = Ok o2 /\
      o1 = lines ["model M"; ""; "  Real x; /* one"; "   two */"; "  Real y;"; ""; "end M;"]%string /\
      o2 = lines ["model M"; ""; "  Real x; /* one"; "   two */"; ""; "  Real y;"; ""; "end M;"]%string) as (p & tree & o1 & p1 & o2 & A & B & U & P1 & A1 & P2 & E1 & E2).
    { eexists. eexists. eexists. eexists. eexists. split; [split; vm_compute; reflexivity|]. split; [vm_compute; reflexivity|]. split; [vm_compute; reflexivity|].
      split; [vm_compute; reflexivity|]. split; [split; vm_compute; reflexivity|]. split; [vm_compute; reflexivity|]. split; vm_compute; reflexivity. }
    assert (no_lone_cr hangs) as NC by (apply no_cr; reflexivity).
    destruct (USE _ _ _ _ _ _ A NC B U P1 A1 P2) as (items & RD & ST & K & K').
    exists p, items, tree, o1, p1, o2. split; [exact RD|]. split; [exact NC|]. split; [exact ST|]. split; [|auto 10].
    destruct K' as [K'|K']; [|exact K']. exfalso. subst o1 o2. vm_compute in K'. discriminate.
  - assert (exists p tree o1 p1 o2, accepted stands p /\ build_tree (p_tokens p) (p_events p) = Ok tree /\ existsb unsettled_node (nodes tree) = false /\
      pretty_print lf p = Ok o1 /\ accepted (o1 ++ lf) p1 /\ pretty_print lf p1 = Ok o2 /\ o2 = o1 /\
      forallb (fun c => forallb (fun t => (line (tend c) <=? line (tstart c)) || negb (line (tstart t) =? line (tend c))) (p_tokens p ++ p_comments p)) (p_comments p) = false /\
      o1 = lines ["model M"; ""; "  Real x;"; "  /* one"; "   two */"; "  Real y /* three"; " four */"; "    ""d""; /* five"; ""; " six */"; ""; "  Real z;"; ""; "end M;"]%string)
      as (p & tree & o1 & p1 & o2 & A & B & U & P1 & A1 & P2 & E & CM & E1).
    { eexists. eexists. eexists. eexists. eexists. split; [split; vm_compute; reflexivity|]. split; [vm_compute; reflexivity|]. split; [vm_compute; reflexivity|].
      split; [vm_compute; reflexivity|]. split; [split; vm_compute; reflexivity|]. split; [vm_compute; reflexivity|]. split; [vm_compute; reflexivity|]. split; vm_compute; reflexivity. }
    assert (no_lone_cr stands) as NC by (apply no_cr; reflexivity).
    destruct (USE _ _ _ _ _ _ A NC B U P1 A1 P2) as (items & RD & ST & K & K').
    exists p, items, tree, o1, p1. split; [exact RD|]. split; [exact NC|]. split.
    { intro C. apply not_true_iff_false in CM. apply CM. apply forallb_forall. intros c IC. apply forallb_forall. intros t IT. specialize (C c t IC IT).
      destruct (N.leb_spec (line (tend c)) (line (tstart c))); [reflexivity|]. cbn [orb]. apply negb_true_iff, N.eqb_neq. apply C. assumption. }
    split; [exact ST|]. split; [apply K; exact E|]. subst o2. auto 10.
Qed.

(** ** On the command line: the check after one run passes exactly if all files were steady *)
Theorem C93_check_after_one : forall eol w s0 argv paths files fuel es argv2,
  is_eol eol -> calm w -> dispatch argv (AWork false paths) -> listing w paths files -> NoDup (map (w_node w) files) ->
  (forall q src, In q files -> holds w s0 q src -> no_lone_cr src) ->
  run fuel eol w s0 argv = (SExit 0, es) -> dispatch argv2 (AWork true paths) ->
  ((forall q src, In q files -> holds w s0 q src -> steady src) <->
   (exists F, forall fuel2, (F <= fuel2)%nat -> exists es2, run fuel2 eol w (after_effects s0 es) argv2 = (SExit 0, es2))).
Proof.
  intros eol w s0 argv paths files fuel es argv2 EO C D L ND NC R D2.
  destruct C40_exit_code as (_ & Z & A & _).
  assert (forall q src new, In q files -> holds w s0 q src -> rewrites eol src new -> holds w (after_effects s0 es) q new) as STEP.
  { intros q src new IQ HO RW. pose proof HO as (MO & i & NI & SI). split; [exact MO|]. exists i. split; [exact NI|].
    apply (proj1 (C43_others_formatted _ _ _ _ _ _ _ _ _ EO C D L ND R q IQ src i HO NI) new RW). }
  destruct (Z _ _ _ _ _ _ _ _ EO D R) as (fs & L1 & F). rewrite (listing_fun _ _ _ L1 _ L) in F. clear fs L1. rewrite Forall_forall in F.
  assert (forall src new, no_lone_cr src -> rewrites eol src new -> (rewrites eol new new <-> steady src)) as ONE.
  { intros src new NS (p & out & ACC & PP & ->). split.
    - intros (p' & out' & ACC' & PP' & E) p0 items tree RD. apply app_inv_tail in E. subst out'.
      destruct (C93_exactly eol src p0 items tree RD NS EO) as (o1 & p1 & o2 & _ & P1 & A1 & P2 & _ & K).
      assert (p0 = p) as -> by (destruct (rd_accepted _ _ _ _ RD) as [X _], ACC as [Y _]; congruence). assert (o1 = out) as -> by congruence.
      assert (p' = p1) as -> by (destruct ACC' as [X _], A1 as [Y _]; congruence). apply K. congruence.
    - intro ST. destruct (reading_of src p ACC) as (items & tree & RD).
      destruct (C93_exactly eol src p items tree RD NS EO) as (o1 & p1 & o2 & _ & P1 & A1 & P2 & _ & K).
      assert (o1 = out) as -> by congruence. exists p1, out. split; [exact A1|]. split; [|reflexivity]. rewrite P2. f_equal. apply K. apply (ST p items tree RD). }
  split.
  - intro ST. apply (A eol w _ argv2 true paths files EO C D2 L); [|auto].
    apply Forall_forall. intros q IQ. destruct (F q IQ) as (src & new & HO & RW & _). pose proof (NC q src IQ HO) as N1.
    exists new, new. split; [eapply STEP; eauto|]. split; [|auto]. apply (ONE src new N1 RW). eapply ST; eauto.
  - intros (F2 & H) q src IQ HO. destruct (H F2 (le_n F2)) as (es2 & R2).
    destruct (Z _ _ _ _ _ _ _ _ EO D2 R2) as (fs & L1 & F'). rewrite (listing_fun _ _ _ L1 _ L) in F'. clear fs L1. rewrite Forall_forall in F'.
    destruct (F q IQ) as (src0 & new & HO0 & RW & _). assert (src0 = src) as -> by (eapply holds_fun; eauto).
    destruct (F' q IQ) as (src1 & new1 & HO1 & RW1 & EQ). specialize (EQ eq_refl). pose proof (STEP q src new IQ HO RW) as HN.
    assert (src1 = new) as -> by (eapply holds_fun; eauto). subst new1. pose proof (NC q src IQ HO) as N1. apply (ONE src new N1 RW). exact RW1.
Qed.
Print Assumptions C93_check_after_one.
