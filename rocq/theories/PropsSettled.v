(** Property C91: exactly when one run is enough. *)
From Coq Require Import Sorted.
From Verif Require Import ProofBase Tokens Syntax Lexer SpecLex LexMain ParserCore Grammar Tree Printer Formatter Lib ParserSem SpecLayout
  FmtFacts FmtRelex FmtNeat SpecNodes FmtTree FmtSame PropsFormat SpecReference PropsReference PropsTree FmtStable
  SpecSettled FmtFixed Cli SpecCli CliFacts CliFind PropsCli PropsStable.

(** ** C91: the second run changes something exactly if a list on one line has something in it that must start a line *)
Theorem C91_exactly : forall eol s p, accepted s p -> no_lone_cr s -> is_eol eol -> comments_end_lines p ->
  exists tree o1 p1, build_tree (p_tokens p) (p_events p) = Ok tree /\
    pretty_print eol p = Ok o1 /\ accepted (o1 ++ eol) p1 /\ (pretty_print eol p1 = Ok o1 <-> settled tree).
Proof.
  intros eol s p A NC EO CM. destruct (C57_twice eol s p A NC EO) as (p1 & _ & o1 & _ & P1 & A1 & _).
  destruct (reading_of s p A) as (items & tree & R). pose proof (rd_tree _ _ _ _ R) as B. exists tree, o1, p1.
  split; [exact B|]. split; [exact P1|]. split; [exact A1|]. split; intro H.
  - exact (stable_settled eol s p A NC EO o1 p1 tree P1 A1 B H).
  - exact (settled_stable eol s p A NC EO CM o1 p1 tree P1 A1 B H).
Qed.
Print Assumptions C91_exactly.
(** Comments do not matter in one direction. *)
Theorem C91_needed : forall eol s p tree o1 p1, accepted s p -> no_lone_cr s -> is_eol eol ->
  build_tree (p_tokens p) (p_events p) = Ok tree -> pretty_print eol p = Ok o1 -> accepted (o1 ++ eol) p1 ->
  pretty_print eol p1 = Ok o1 -> settled tree.
Proof. intros eol s p tree o1 p1 A NC EO B P A1 H. exact (stable_settled eol s p A NC EO o1 p1 tree P A1 B H). Qed.
Print Assumptions C91_needed.

Lemma inside_nodes t : forall c, inside c t -> In c (nodes t).
Proof.
  induction t as [x|k cs IH] using child_ind2; intros c I; inversion I as [|? ? ? d ID I']; subst; cbn [nodes]; [left; reflexivity|left; reflexivity|right].
  apply in_flat_map. exists d. split; [exact ID|]. rewrite Forall_forall in IH. apply IH; auto.
Qed.
Definition unsettled_node (c : child) : bool :=
  match c with CTree k cs => crowded k cs && existsb bears cs && negb (spans c) | CTok _ => false end.
Lemma settled_by tree : settled tree <-> existsb unsettled_node (nodes tree) = false.
Proof.
  split.
  - intro ST. apply not_true_iff_false. intro E. apply existsb_exists in E as (c & I & U). destruct c as [t|k cs]; [discriminate|].
    cbn [unsettled_node] in U. apply andb_true_iff in U as [U S]. apply andb_true_iff in U as [U1 U2]. apply nodes_inside in I. rewrite (ST k cs I U1 U2) in S. discriminate.
  - intros E k cs I U1 U2. apply inside_nodes in I. destruct (spans (CTree k cs)) eqn:S; [reflexivity|].
    assert (existsb unsettled_node (nodes tree) = true); [|congruence]. apply existsb_exists. exists (CTree k cs). split; [exact I|].
    cbn [unsettled_node]. rewrite U1, U2, S. reflexivity.
Qed.
Definition settled_text (s : text) : Prop :=
  forall p tree, accepted s p -> build_tree (p_tokens p) (p_events p) = Ok tree -> settled tree.

(** Lists of every kind; the first run wraps those that have to be wrapped. *)
Definition settled_sample : text := lines
  ["model M"; "Real a"; """d"", b, c;"; "A e(x=1 ""d"", y=2), f(z = 3, replaceable"; "B g constrainedby"; "C);";
   "extends D(break h, i=j+"; "k);"; "type E = enumeration(l ""d"", m);"; "Real n=if o then"; "p else q;"; "import R.{s, t}; Real u, v; end M;"]%string.
Definition unsettled_sample : text := lines
  ["model M"; "extends D(break h, replaceable B g constrainedby C);"; "A f(z = 3, replaceable B g constrainedby C);"; "end M;"]%string.
Example C91_applies :
  (exists p tree o1 p1, accepted settled_sample p /\ no_lone_cr settled_sample /\ comments_end_lines p /\
    build_tree (p_tokens p) (p_events p) = Ok tree /\ settled tree /\
    existsb (fun c => match c with CTree k cs => crowded k cs && existsb bears cs | _ => false end) (nodes tree) = true /\
    pretty_print lf p = Ok o1 /\ accepted (o1 ++ lf) p1 /\ pretty_print lf p1 = Ok o1) /\
  (exists p tree o1 p1 o2, accepted unsettled_sample p /\ no_lone_cr unsettled_sample /\ comments_end_lines p /\
    build_tree (p_tokens p) (p_events p) = Ok tree /\ ~ settled tree /\
    pretty_print lf p = Ok o1 /\ accepted (o1 ++ lf) p1 /\ pretty_print lf p1 = Ok o2 /\
    o1 = lines ["model M"; ""; "  extends D(break h, replaceable B g"; "      constrainedby C);"; "  A f(z = 3, replaceable B g"; "      constrainedby C);"; ""; "end M;"]%string /\
    o2 = lines ["model M"; ""; "  extends D("; "    break h,"; "    replaceable B g"; "      constrainedby C);"; "  A f("; "    z = 3,"; "    replaceable B g"; "      constrainedby C);"; ""; "end M;"]%string).
Proof.
  split.
  - eexists. eexists. eexists. eexists. split; [split; vm_compute; reflexivity|]. split; [apply no_cr; reflexivity|].
    split; [intros c t I; vm_compute in I; contradiction|]. split; [vm_compute; reflexivity|].
    split; [apply settled_by; vm_compute; reflexivity|]. split; [vm_compute; reflexivity|]. split; [vm_compute; reflexivity|].
    split; [split; vm_compute; reflexivity|]. vm_compute. reflexivity.
  - eexists. eexists. eexists. eexists. eexists. split; [split; vm_compute; reflexivity|]. split; [apply no_cr; reflexivity|].
    split; [intros c t I; vm_compute in I; contradiction|]. split; [vm_compute; reflexivity|].
    split; [rewrite settled_by; vm_compute; discriminate|]. split; [vm_compute; reflexivity|]. split; [split; vm_compute; reflexivity|].
    split; [vm_compute; reflexivity|]. split; vm_compute; reflexivity.
Qed.

(** ** On the command line: the check after one run passes exactly if all files were settled *)
Theorem C91_check_after_one : forall eol w s0 argv paths files fuel es argv2,
  is_eol eol -> calm w -> dispatch argv (AWork false paths) -> listing w paths files -> NoDup (map (w_node w) files) ->
  (forall q src, In q files -> holds w s0 q src -> no_lone_cr src /\ forall p, accepted src p -> comments_end_lines p) ->
  run fuel eol w s0 argv = (SExit 0, es) -> dispatch argv2 (AWork true paths) ->
  ((forall q src, In q files -> holds w s0 q src -> settled_text src) <->
   (exists F, forall fuel2, (F <= fuel2)%nat -> exists es2, run fuel2 eol w (after_effects s0 es) argv2 = (SExit 0, es2))).
Proof.
  intros eol w s0 argv paths files fuel es argv2 EO C D L ND NC R D2.
  destruct C40_exit_code as (_ & Z & A & _).
  assert (forall q src new, In q files -> holds w s0 q src -> rewrites eol src new -> holds w (after_effects s0 es) q new) as STEP.
  { intros q src new IQ HO RW. pose proof HO as (MO & i & NI & SI). split; [exact MO|]. exists i. split; [exact NI|].
    apply (proj1 (C43_others_formatted _ _ _ _ _ _ _ _ _ EO C D L ND R q IQ src i HO NI) new RW). }
  destruct (Z _ _ _ _ _ _ _ _ EO D R) as (fs & L1 & F). rewrite (listing_fun _ _ _ L1 _ L) in F. clear fs L1. rewrite Forall_forall in F.
  assert (forall src new, no_lone_cr src -> (forall p, accepted src p -> comments_end_lines p) -> rewrites eol src new -> (rewrites eol new new <-> settled_text src)) as ONE.
  { intros src new NS CM (p & out & ACC & PP & ->). destruct (C91_exactly eol src p ACC NS EO (CM p ACC)) as (tree & o1 & p1 & B & P1 & A1 & K).
    assert (out = o1) as -> by congruence. split.
    - intros (p' & out' & ACC' & PP' & E). apply app_inv_tail in E. subst out'. assert (p' = p1) as -> by (destruct ACC' as [X _], A1 as [Y _]; congruence).
      intros p2 tree2 A2 B2. assert (p2 = p) as -> by (destruct A2 as [X _], ACC as [Y _]; congruence). assert (tree2 = tree) as -> by congruence. apply K. exact PP'.
    - intro ST. exists p1, o1. split; [exact A1|]. split; [|reflexivity]. apply K. apply (ST p tree ACC B). }
  split.
  - intro ST. apply (A eol w _ argv2 true paths files EO C D2 L); [|auto].
    apply Forall_forall. intros q IQ. destruct (F q IQ) as (src & new & HO & RW & _). destruct (NC q src IQ HO) as [N1 N2].
    exists new, new. split; [eapply STEP; eauto|]. split; [|auto]. apply (ONE src new N1 N2 RW). eapply ST; eauto.
  - intros (F2 & H) q src IQ HO. destruct (H F2 (le_n F2)) as (es2 & R2).
    destruct (Z _ _ _ _ _ _ _ _ EO D2 R2) as (fs & L1 & F'). rewrite (listing_fun _ _ _ L1 _ L) in F'. clear fs L1. rewrite Forall_forall in F'.
    destruct (F q IQ) as (src0 & new & HO0 & RW & _). assert (src0 = src) as -> by (eapply holds_fun; eauto).
    destruct (F' q IQ) as (src1 & new1 & HO1 & RW1 & EQ). specialize (EQ eq_refl). pose proof (STEP q src new IQ HO RW) as HN.
    assert (src1 = new) as -> by (eapply holds_fun; eauto). subst new1. destruct (NC q src IQ HO) as [N1 N2]. apply (ONE src new N1 N2 RW). exact RW1.
Qed.
Print Assumptions C91_check_after_one.
(** C58_applies shows a run after which the check fails; here it passes. *)
Example C91_passes : exists es es2,
  run 5 lf lone (fun _ => settled_sample) [str "mofmt"; str "f.mo"] = (SExit 0, es) /\
  run 5 lf lone (after_effects (fun _ => settled_sample) es) [str "mofmt"; str "--check"; str "f.mo"] = (SExit 0, es2) /\
  dispatch [str "mofmt"; str "f.mo"] (AWork false [str "f.mo"]) /\ dispatch [str "mofmt"; str "--check"; str "f.mo"] (AWork true [str "f.mo"]) /\
  listing lone [str "f.mo"] [str "f.mo"].
Proof.
  exists (snd (run 5 lf lone (fun _ => settled_sample) [str "mofmt"; str "f.mo"])), [EOut (str "f.mo: check passed" ++ [10])].
  split; [vm_compute; reflexivity|]. split; [vm_compute; reflexivity|]. split; [|split].
  - apply dp_chooses; [repeat constructor; eexists; ascii|]. apply ds_format. intros o E. discriminate.
  - apply dp_chooses; [repeat constructor; eexists; ascii|]. apply ds_check; discriminate.
  - apply li_file; [reflexivity|constructor].
Qed.
