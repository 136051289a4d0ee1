(** White space around operators and signs. *)
From Verif Require Import ProofBase Tokens Syntax Lexer SpecLex LexInv LexMain LexFacts ParserCore Grammar
  Tree Printer Formatter Lib ParserSem ParserFuel SpecGrammar Regex ParserGrammar ParserTree ParserFacts Recognise PropsParser
  FmtAbs FmtPlan FmtShape FmtTables FmtSound SpecLayout FmtExec FmtTop FmtFacts FmtRelex FmtNeat SpecNodes FmtTree FmtLists.

Definition bare_head (k : skind) : bool := forallb (fun h => match fst h with [] => true | _ => false end) (t_heads k).
Definition bare_tail (k : skind) : bool := forallb (fun h => match snd h with [] => true | _ => false end) (t_tails k).
Definition bare_label (f : skind -> bool) (x : sym) : bool := match x with Rule k => f k | Term _ => true end.

Lemma bare_head_gap c G : bare_label bare_head (sym_of c) = true -> head_gap c G -> G = [].
Proof.
  destruct c as [t|k cs]; cbn [sym_of bare_label head_gap]; auto. intros B [d I].
  unfold bare_head in B. rewrite forallb_forall in B. specialize (B _ I). cbn in B. destruct G; auto. discriminate.
Qed.
Lemma bare_tail_gap c G : bare_label bare_tail (sym_of c) = true -> tail_gap c G -> G = [].
Proof.
  destruct c as [t|k cs]; cbn [sym_of bare_label tail_gap]; auto. intros B [d I].
  unfold bare_tail in B. rewrite forallb_forall in B. specialize (B _ I). cbn in B. destruct G; auto. discriminate.
Qed.

(** The labels of operators and operands. *)
Definition op_label (k : skind) : option sym :=
  match k with
  | KLogicalExpression => Some (Term TOr)
  | KLogicalTerm => Some (Term TAnd)
  | KRelation => Some (Rule KRelationalOperator)
  | KArithmeticExpression => Some (Rule KAddOperator)
  | KTerm => Some (Rule KMulOperator)
  | _ => None
  end.
Definition operand (k : skind) : skind :=
  match k with
  | KLogicalExpression => KLogicalTerm
  | KLogicalTerm => KLogicalFactor
  | KRelation => KArithmeticExpression
  | KArithmeticExpression => KTerm
  | KTerm => KFactor
  | _ => KPrimary
  end.
Definition operation (k : skind) : bool :=
  match k with
  | KLogicalExpression | KLogicalTerm | KRelation | KArithmeticExpression | KTerm | KFactor => true
  | _ => false
  end.
Definition operations_ok : bool :=
  forallb (fun k => negb (operation k) ||
    forallb (fun p => bare_label bare_tail (fst p) && bare_label bare_head (snd p) &&
                      (sym_eqb (fst p) (Rule (operand k)) && negb (sym_eqb (snd p) (Rule (operand k))) ||
                       negb (sym_eqb (fst p) (Rule (operand k))) && sym_eqb (snd p) (Rule (operand k))))
            (pairs (pruned (production false k))) &&
    forallb (fun x => sym_eqb x (Rule (operand k))) (lasts (pruned (production false k)))) all_skinds.
Lemma operations_true : operations_ok = true.
Proof. vm_compute. reflexivity. Qed.

Lemma operator_operation k o t : operator k o = Some t -> operation k = true.
Proof. destruct k; cbn [operator]; intro H; try discriminate; reflexivity. Qed.
Lemma operator_ends k o t : operator k o = Some t -> start_of o = Some t /\ end_of o = Some t.
Proof.
  destruct k; cbn [operator]; intro H; try discriminate; destruct o as [x|k2 [|[y|] [|]]]; try discriminate;
    try destruct k2; try discriminate; injection H as ->; auto.
Qed.
Lemma operator_label k o t : operator k o = Some t -> sym_of o <> Rule (operand k).
Proof.
  destruct k; cbn [operator]; intro H; try discriminate; destruct o as [x|k2 [|[y|] [|]]]; try discriminate;
    try destruct k2; try discriminate.
Qed.

Lemma operation_pair k u c1 c2 v : operation k = true ->
  lang (pruned (production false k)) (map sym_of (u ++ c1 :: c2 :: v)) ->
  bare_label bare_tail (sym_of c1) = true /\ bare_label bare_head (sym_of c2) = true /\
  (sym_of c1 = Rule (operand k) <-> sym_of c2 <> Rule (operand k)).
Proof.
  intros K L. pose proof (skind_all _ operations_true k) as H. cbv beta in H. rewrite K in H. cbn [negb orb] in H.
  apply andb_true_iff in H as [H _]. rewrite forallb_forall in H. apply neighbours in L. specialize (H _ L).
  cbn [fst snd] in H. apply andb_true_iff in H as [H H3]. apply andb_true_iff in H as [H1 H2].
  split; auto. split; auto.
  destruct (sym_eqb (sym_of c1) (Rule (operand k))) eqn:E1; destruct (sym_eqb (sym_of c2) (Rule (operand k))) eqn:E2;
    cbn in H3; try discriminate.
  - apply sym_eqb_eq in E1. split; auto. intros _ E. rewrite E in E2.
    assert (sym_eqb (Rule (operand k)) (Rule (operand k)) = true) by (apply sym_eqb_eq; auto). congruence.
  - apply sym_eqb_eq in E2. split; [|contradiction]. intros E. rewrite E in E1.
    assert (sym_eqb (Rule (operand k)) (Rule (operand k)) = true) by (apply sym_eqb_eq; auto). congruence.
Qed.
Lemma operation_last k u c : operation k = true ->
  lang (pruned (production false k)) (map sym_of (u ++ [c])) -> sym_of c = Rule (operand k).
Proof.
  intros K L. pose proof (skind_all _ operations_true k) as H. cbv beta in H. rewrite K in H. cbn [negb orb] in H.
  apply andb_true_iff in H as [_ H]. rewrite forallb_forall in H. apply final_child in L. specialize (H _ L).
  apply sym_eqb_eq in H. exact H.
Qed.

(** Actions for operands: nothing but the call. *)
Lemma operand_acts k l c v j pv ln : operation k = true -> sym_of c = Rule (operand k) ->
  exists k2 w, fst (step k l (view_at pv ln j c v)) = [call_w k2 w false true].
Proof.
  intros K S. apply label_rule in S as [ds ->].
  destruct k; try discriminate K; cbv [step operand].
  all: match goal with |- exists k2 w, fst (?f ?x ?y) = _ => unfold f end; open_view.
  all: repeat match goal with |- context [skind_eqb ?a ?b] => let x := eval vm_compute in (skind_eqb a b) in change (skind_eqb a b) with x end.
  all: cbn [fst]; eauto.
Qed.
(** Actions for operators. *)
Lemma operator_acts k o t l c2 v j pv ln : operator k o = Some t -> sym_of c2 = Rule (operand k) -> 1 <= j ->
  forall t2, start_of c2 = Some t2 ->
  apre (fst (step k l (view_at pv ln j o (c2 :: v)))) = [if ln <? line (tstart t2) then GB Illegal else GS] /\
  apost (fst (step k l (view_at pv ln j o (c2 :: v)))) = [GS].
Proof.
  intros OP S J t2 ST. apply label_rule in S as [ds ->].
  destruct k; cbn [operator] in OP; try discriminate OP; destruct o as [x|k2 [|[y|] [|]]]; try discriminate OP;
    try (destruct k2; try discriminate OP); cbv [step operand].
  all: match goal with |- apre (fst (?f ?x ?y)) = _ /\ _ => unfold f end; unfold op_break; open_view.
  all: repeat match goal with |- context [skind_eqb ?a ?b] => let x := eval vm_compute in (skind_eqb a b) in change (skind_eqb a b) with x end.
  all: cbn [operand] in *; rewrite ?ST.
  all: destruct (ln <? line (tstart t2)), (l_w l); cbn [andb negb bos app fst apre apost agap flat_map]; auto.
  all: destruct (N.eqb_spec (if j <? 3 then j else 3) 0) as [Z|Z];
    [exfalso; destruct (N.ltb_spec j 3); lia|cbn [fst app bos apre apost agap flat_map]; auto].
Qed.

(** ** Joints at operators *)
Lemma op_before k u c0 o c2 v t l1 l2 pv1 ln1 t1 t2 G :
  operator k o = Some t -> lang (pruned (production false k)) (map sym_of (u ++ c0 :: o :: c2 :: v)) ->
  joint k c0 o (c2 :: v) (N.of_nat (length u)) l1 l2 pv1 ln1 t1 t2 G ->
  forall s2, start_of c2 = Some s2 ->
  t2 = t /\ G = [if line (tend t1) <? line (tstart s2) then GB Illegal else GS].
Proof.
  intros OP L (E1 & E2 & G1 & G2 & T1 & H2 & ->) s2 ST. pose proof (operator_operation _ _ _ OP) as K.
  destruct (operator_ends _ _ _ OP) as [S _]. split; [congruence|].
  destruct (operation_pair _ _ _ _ _ K L) as (B1 & B2 & I1).
  rewrite (bare_tail_gap _ _ B1 T1), (bare_head_gap _ _ B2 H2).
  assert (sym_of c0 = Rule (operand k)) as S0 by (apply I1; eapply operator_label; eauto).
  replace (u ++ c0 :: o :: c2 :: v) with ((u ++ [c0]) ++ o :: c2 :: v) in L by (rewrite <- app_assoc; reflexivity).
  destruct (operation_pair _ _ _ _ _ K L) as (_ & _ & I2).
  assert (sym_of c2 = Rule (operand k)) as S2.
  { destruct (sym_eqb (sym_of c2) (Rule (operand k))) eqn:E; [apply sym_eqb_eq; exact E|].
    exfalso. apply (operator_label _ _ _ OP). apply I2. intro E'. rewrite E' in E.
    assert (sym_eqb (Rule (operand k)) (Rule (operand k)) = true) by (apply sym_eqb_eq; auto). congruence. }
  destruct (operand_acts k l1 c0 (o :: c2 :: v) (N.of_nat (length u)) pv1 ln1 K S0) as (k2 & w & ->).
  destruct (operator_acts k o t l2 c2 v (N.of_nat (length u) + 1) (tkind_of t1) (line (tend t1)) OP S2 ltac:(lia) s2 ST) as [-> _].
  reflexivity.
Qed.

Lemma op_after k u o c2 v t l1 l2 pv1 ln1 t1 t2 G :
  operator k o = Some t -> u <> [] -> lang (pruned (production false k)) (map sym_of (u ++ o :: c2 :: v)) ->
  joint k o c2 v (N.of_nat (length u)) l1 l2 pv1 ln1 t1 t2 G ->
  t1 = t /\ G = [GS].
Proof.
  intros OP U L (E1 & E2 & G1 & G2 & T1 & H2 & ->). pose proof (operator_operation _ _ _ OP) as K.
  destruct (operator_ends _ _ _ OP) as [_ S]. split; [congruence|].
  destruct (operation_pair _ _ _ _ _ K L) as (B1 & B2 & I2).
  rewrite (bare_tail_gap _ _ B1 T1), (bare_head_gap _ _ B2 H2).
  assert (sym_of c2 = Rule (operand k)) as S2.
  { destruct (sym_eqb (sym_of c2) (Rule (operand k))) eqn:E; [apply sym_eqb_eq; exact E|].
    exfalso. apply (operator_label _ _ _ OP). apply I2. intro E'. rewrite E' in E.
    assert (sym_eqb (Rule (operand k)) (Rule (operand k)) = true) by (apply sym_eqb_eq; auto). congruence. }
  assert (1 <= N.of_nat (length u)) as JU by (destruct u; [contradiction|cbn [length]; lia]).
  destruct (operator_acts k o t l1 c2 v _ pv1 ln1 OP S2 JU t2 E2) as [_ ->].
  destruct (operand_acts k l2 c2 v (N.of_nat (length u) + 1) (tkind_of t1) (line (tend t1)) K S2) as (k2 & w & ->).
  reflexivity.
Qed.

(** Signs *)
Lemma sign_after c2 v t l1 l2 pv1 ln1 t1 t2 G :
  lang (pruned (production false KArithmeticExpression)) (map sym_of (CTree KAddOperator [CTok t] :: c2 :: v)) ->
  joint KArithmeticExpression (CTree KAddOperator [CTok t]) c2 v 0 l1 l2 pv1 ln1 t1 t2 G ->
  t1 = t /\ G = [].
Proof.
  intros L (E1 & E2 & G1 & G2 & T1 & H2 & ->). cbn in E1. split; [congruence|].
  destruct (operation_pair KArithmeticExpression [] _ _ _ eq_refl L) as (B1 & B2 & I2).
  rewrite (bare_tail_gap _ _ B1 T1), (bare_head_gap _ _ B2 H2).
  assert (sym_of c2 = Rule KTerm) as S2.
  { destruct (sym_eqb (sym_of c2) (Rule KTerm)) eqn:E; [apply sym_eqb_eq; exact E|].
    exfalso. cbn [operand sym_of] in I2. destruct I2 as [_ I2].
    assert (Rule KAddOperator = Rule KTerm) as X; [|discriminate].
    apply I2. intro E'. rewrite E' in E. discriminate. }
  destruct (operand_acts KArithmeticExpression l2 c2 v (0 + 1) (tkind_of t1) (line (tend t1)) eq_refl S2) as (k2 & w & ->).
  reflexivity.
Qed.

(** ** Source lines of nodes *)
Lemma toks_leaves c : toks c = leaves c.
Proof.
  induction c as [t|k cs IH] using child_ind2; [reflexivity|]. cbn [toks leaves].
  induction IH as [|c cs E _ IH]; [reflexivity|]. cbn [flat_map]. rewrite E, IH. reflexivity.
Qed.
Lemma first_line_start c t : fits c -> start_of c = Some t -> first_line c = line (tstart t).
Proof.
  intros F S. destruct (fits_start c F) as (t' & r & S' & L). unfold first_line. rewrite toks_leaves, L. congruence.
Qed.
Lemma last_line_end c t : fits c -> end_of c = Some t -> last_line c = line (tend t).
Proof.
  intros F S. destruct (fits_end c F) as (t' & r & S' & L). unfold last_line.
  rewrite toks_leaves, L, rev_app_distr. cbn [rev app]. congruence.
Qed.

(** ** Where the tokens of a tree are *)
Lemma inside_parent c t : inside c t -> c = t \/ exists k u v, inside (CTree k (u ++ c :: v)) t.
Proof.
  induction 1 as [c|c k cs d I IN IH]; [left; reflexivity|right].
  apply in_split in I as (u & v & ->). destruct IH as [->|(k' & u' & v' & IH)].
  - exists k, u, v. apply in_here.
  - exists k', u', v'. eapply in_below; [|exact IH]. apply in_or_app. right. left. reflexivity.
Qed.
Lemma toks_inside t x : In x (toks t) -> inside (CTok x) t.
Proof.
  induction t as [y|k cs IH] using child_ind2; cbn [toks]; intro I.
  - destruct I as [->|[]]. apply in_here.
  - apply in_flat_map in I as [d [ID I]]. rewrite Forall_forall in IH. eapply in_below; eauto.
Qed.

Definition sign (k : tkind) : bool := memk k [TPlus; TMinus; TDotPlus; TDotMinus].
Definition sign_sym (x : sym) : bool :=
  match x with Term k => sign k | Rule k => skind_eqb k KAddOperator end.
Definition signs_ok : bool :=
  forallb (fun k => skind_eqb k KAddOperator || skind_eqb k KDescriptionString || skind_eqb k KArithmeticExpression ||
    forallb (fun x => negb (sign_sym x)) (letters (pruned (production false k)))) all_skinds &&
  forallb (fun x => negb (sym_eqb x (Rule KAddOperator))) (letters (pruned (production false KAddOperator)) ++ letters (pruned (production false KDescriptionString))) &&
  forallb (fun x => match x with Term _ => false | _ => true end) (letters (pruned (production false KArithmeticExpression))) &&
  match pairs (pruned (production false KAddOperator)) with [] => true | _ => false end.
Lemma signs_true : signs_ok = true.
Proof. vm_compute. reflexivity. Qed.

Lemma sign_places tree items l t : planned tree items l -> (forall x, tree <> CTok x) -> (forall cs, tree <> CTree KAddOperator cs) ->
  In t (toks tree) -> sign (tkind_of t) = true ->
  (exists u v, inside (CTree KArithmeticExpression (u ++ CTree KAddOperator [CTok t] :: v)) tree) \/
  (exists u v, inside (CTree KDescriptionString (u ++ CTok t :: v)) tree).
Proof.
  intros PL NT NA I S. pose proof signs_true as H. unfold signs_ok in H.
  apply andb_true_iff in H as [H H4]. apply andb_true_iff in H as [H H3]. apply andb_true_iff in H as [H1 H2].
  rewrite forallb_forall in H2, H3.
  assert (forall k u c v, inside (CTree k (u ++ c :: v)) tree -> In (sym_of c) (letters (pruned (production false k)))) as LE.
  { intros k u c v IN. destruct (node_word _ _ _ _ _ PL (fun E => app_cons_not_nil _ _ _ (eq_sym E)) IN) as [LA _].
    eapply letters_complete; eauto. apply in_map. apply in_or_app. right. left. reflexivity. }
  assert (forall k u c v, inside (CTree k (u ++ c :: v)) tree -> sign_sym (sym_of c) = true ->
    k = KAddOperator \/ k = KDescriptionString \/ k = KArithmeticExpression) as KI.
  { intros k u c v IN SC. pose proof (skind_all _ H1 k) as HK. cbv beta in HK.
    apply orb_true_iff in HK as [HK|HK].
    - apply orb_true_iff in HK as [HK|HK]; [apply orb_true_iff in HK as [HK|HK]|]; apply skind_eqb_eq in HK; auto.
    - rewrite forallb_forall in HK. specialize (HK _ (LE _ _ _ _ IN)). rewrite SC in HK. discriminate. }
  destruct (inside_parent _ _ (toks_inside _ _ I)) as [E|(k & u & v & IN)]; [exfalso; apply (NT t); auto|].
  destruct (KI _ _ _ _ IN S) as [-> | [-> | ->]].
  - left. assert (u = [] /\ v = []) as [-> ->].
    { destruct (node_word _ _ _ _ _ PL (fun E => app_cons_not_nil _ _ _ (eq_sym E)) IN) as [LA _].
      destruct (pairs (pruned (production false KAddOperator))) eqn:PE; [|discriminate].
      destruct v as [|c2 v]; [|apply neighbours in LA; rewrite PE in LA; destruct LA].
      destruct u as [|c0 u _] using rev_ind; auto. rewrite <- app_assoc in LA.
      apply neighbours in LA. rewrite PE in LA. destruct LA. }
    cbn [app] in IN. destruct (inside_parent _ _ IN) as [E|(k & u & v & IN2)]; [exfalso; apply (NA [CTok t]); auto|].
    destruct (KI _ _ _ _ IN2 eq_refl) as [-> | [-> | ->]]; [exfalso|exfalso|eauto].
    + specialize (H2 _ (in_or_app _ _ _ (or_introl (LE _ _ _ _ IN2)))). discriminate.
    + specialize (H2 _ (in_or_app _ _ _ (or_intror (LE _ _ _ _ IN2)))). discriminate.
  - right. eauto.
  - exfalso. specialize (H3 _ (LE _ _ _ _ IN)). discriminate.
Qed.
