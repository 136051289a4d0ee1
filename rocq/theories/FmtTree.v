(** From tree nodes to the white space between their tokens. *)
From Coq Require Import Sorted.
From Verif Require Import ProofBase Tokens Syntax Lexer SpecLex LexInv LexMain LexFacts ParserCore Grammar
  Tree Printer Formatter Lib ParserSem SpecGrammar Regex ParserGrammar ParserTree ParserFacts Recognise PropsParser
  FmtAbs FmtPlan FmtShape FmtTables FmtSound SpecLayout FmtExec FmtTop FmtFacts FmtRelex FmtNeat SpecNodes.

(** ** Neighbours in the words of a regular expression *)
Definition adj {A} (w : list A) (x y : A) : Prop := exists u v, w = u ++ x :: y :: v.

Lemma adj_app {A} (a : list A) : forall b x y, adj (a ++ b) x y ->
  adj a x y \/ adj b x y \/ (exists a' b', a = a' ++ [x] /\ b = y :: b').
Proof.
  induction a as [|z a IH]; intros b x y (u & v & E); [right; left; exists u, v; exact E|].
  destruct u as [|u0 u]; cbn [app] in E; injection E as -> E.
  - destruct a as [|z a]; cbn [app] in E.
    + right. right. exists [], v. auto.
    + injection E as -> E. left. exists [], a. reflexivity.
  - destruct (IH b x y) as [(u' & v' & ->)|[H|(a' & b' & -> & ->)]]; [exists u, v; auto| | |].
    + left. exists (u0 :: u'), v'. reflexivity.
    + auto.
    + right. right. exists (u0 :: a'), b'. auto.
Qed.

Fixpoint lasts (r : rx) : list sym :=
  match r with
  | Void | Eps => []
  | Sy x => [x]
  | Cat a b => lasts b ++ (if nullable b then lasts a else [])
  | Alt a b => lasts a ++ lasts b
  | Star a => lasts a
  end.
Fixpoint pairs (r : rx) : list (sym * sym) :=
  match r with
  | Void | Eps | Sy _ => []
  | Cat a b => pairs a ++ pairs b ++ list_prod (lasts a) (firsts b)
  | Alt a b => pairs a ++ pairs b
  | Star a => pairs a ++ list_prod (lasts a) (firsts a)
  end.

Lemma app_last {A} (u v w : list A) x : u ++ v = w ++ [x] ->
  (v = [] /\ u = w ++ [x]) \/ exists v', v = v' ++ [x].
Proof.
  revert v w. induction v as [|y v IH] using rev_ind; intros w E.
  - left. rewrite app_nil_r in E. auto.
  - right. rewrite app_assoc in E. apply app_inj_tail in E as [_ ->]. exists v. reflexivity.
Qed.

Lemma lasts_complete r w : lang r w -> forall u x, w = u ++ [x] -> In x (lasts r).
Proof.
  induction 1; intros u' y E; cbn [lasts].
  all: try (destruct u'; discriminate).
  all: try (apply in_or_app; eauto; fail).
  - destruct u' as [|? [|]]; inversion E; subst. left; reflexivity.
  - apply in_or_app. apply app_last in E as [[-> ->]|[v' ->]].
    + right. apply nullable_spec in H0. rewrite H0. eauto.
    + left. eauto.
  - apply app_last in E as [[-> ->]|[v' ->]]; eauto.
Qed.

Lemma pairs_complete r w : lang r w -> forall x y, adj w x y -> In (x, y) (pairs r).
Proof.
  induction 1; intros x' y' A; cbn [pairs].
  - destruct A as (u & v & E). destruct u; discriminate.
  - destruct A as (u & v & E). destruct u as [|? [|]]; discriminate.
  - apply adj_app in A as [A|[A|(a' & b' & -> & ->)]].
    + apply in_or_app. auto.
    + apply in_or_app. right. apply in_or_app. auto.
    + apply in_or_app. right. apply in_or_app. right. apply in_prod.
      * eapply lasts_complete; eauto.
      * eapply firsts_complete; eauto.
  - apply in_or_app. auto.
  - apply in_or_app. auto.
  - destruct A as (u & v & E). destruct u; discriminate.
  - apply adj_app in A as [A|[A|(a' & b' & -> & ->)]].
    + apply in_or_app. auto.
    + apply IHlang2. exact A.
    + apply in_or_app. right. apply in_prod.
      * eapply lasts_complete; eauto.
      * apply (firsts_complete y' (Star a) b'). exact H0.
Qed.

(** ** White space at the two ends of a plan *)
Fixpoint lead (os : list op) : gap :=
  match os with
  | [] | PTok _ _ :: _ => []
  | PBrk _ b :: os' => GB b :: lead os'
  | PMark MSpace :: os' => GS :: lead os'
  | PMark _ :: os' => lead os'
  end.
Definition trail (os : list op) : gap := snd (after (None, []) os).

Lemma lead_app a b : ptoks a = [] -> lead (a ++ b) = lead a ++ lead b.
Proof.
  induction a as [|o a IH]; intro E; auto. destruct o as [|t bl|[]]; cbn [ptoks] in E; try discriminate;
    cbn [app lead]; rewrite IH; auto.
Qed.
Lemma lead_front a b : ptoks a <> [] -> lead (a ++ b) = lead a.
Proof.
  induction a as [|o a IH]; intro E; [contradiction|]. destruct o as [|t bl|[]]; cbn [ptoks] in E; cbn [app lead];
    rewrite ?IH; auto.
Qed.
Lemma after_lead a : forall st, ptoks a = [] -> after st a = (fst st, snd st ++ lead a).
Proof.
  induction a as [|o a IH]; intros [p G] E; cbn [after lead fst snd].
  - rewrite app_nil_r. reflexivity.
  - destruct o as [|t bl|[]]; cbn [ptoks] in E; try discriminate; rewrite IH by auto; cbn [fst snd];
      rewrite <- ?app_assoc; reflexivity.
Qed.
Lemma after_any os : forall st st', ptoks os <> [] -> after st os = after st' os.
Proof.
  induction os as [|o os IH]; intros st st' E; [contradiction|].
  destruct o as [fn t|t bl|[]]; cbn [ptoks] in E; cbn [after]; auto.
Qed.

(** The symbols before the first token are among the heads, those after the last one among
    the tails. *)
Definition first_of (k : skind) (ko : option dk) (G : gap) (k2 : dk) : Prop :=
  match ko with None => In (G, k2) (t_heads k) | Some _ => True end.

Lemma runs_lead k os : ptoks os <> [] -> forall G, runs (first_of k) (None, G) os ->
  exists d, In (G ++ lead os, d) (t_heads k).
Proof.
  induction os as [|o os IH]; intros E G R; [contradiction|].
  destruct o as [fn t|t b|m]; cbn [ptoks] in E; cbn [runs fst snd lead] in *.
  - destruct R as [R _]. exists (fn, tkind_of t). rewrite app_nil_r. exact R.
  - destruct (IH E _ R) as [d I]. exists d. rewrite <- app_assoc in I. exact I.
  - destruct m; try contradiction; auto.
    destruct (IH E _ R) as [d I]. exists d. rewrite <- app_assoc in I. exact I.
Qed.

Notation wholes := (whole t_pcls).
Notation loops := (loop_of t_pcls).
Notation actions := (run_of t_pcls).

Lemma dleaves_some p c : fits c -> dleaves p c <> [].
Proof. intro F. destruct (dleaves_first p c F) as (t & r & _ & E). rewrite E. discriminate. Qed.

Lemma whole_facts ml w oel k cs pv ln r os :
  wholes ml w oel (CTree k cs) pv ln r os ->
  fits (CTree k cs) /\ ptoks os = dleaves k (CTree k cs) /\
  (exists d, In (lead os, d) (t_heads k)) /\ (exists d, In (d, trail os) (t_tails k)).
Proof.
  intro W. inversion W as [? ? ? ? ? ? ? ms l l' os' F IA PC EP PR LO]; subst. split; [exact F|].
  destruct (plan_good t_heads t_tails t_pcls t_outs t_sites (first_of k)
    (fun _ _ _ _ _ _ _ _ _ _ => I)
    (check_closed _ _ _ _ _ tables_checked) _ F ml w oel IA (None, []) 0%nat pv ln PC)
    as (r & os & n' & net & P & T & A & R & (k1 & g1 & K1 & K2 & K3) & D & O & L & _).
  { intros g d I. exact I. }
  rewrite EP in P. injection P as <- <-.
  set (os := map PMark ms ++ os' ++ map PMark (epilogue k l')) in *.
  assert (ptoks os <> []) as NE by (rewrite T; apply dleaves_some; auto).
  split; [exact T|]. split.
  - destruct (runs_lead k os NE [] R) as [d I]. exists d. exact I.
  - exists k1. unfold trail. rewrite K2. exact K1.
Qed.

(** ** Neighbouring tokens of a plan *)
Definition follow (os : list op) (t : token) (G : gap) (t2 : token) : Prop :=
  exists o1 f o2 f2 o3, os = o1 ++ PTok f t :: o2 ++ PTok f2 t2 :: o3 /\ ptoks o2 = [] /\ lead o2 = G.

Lemma follow_in a os b t G t2 : follow os t G t2 -> follow (a ++ os ++ b) t G t2.
Proof.
  intros (o1 & f & o2 & f2 & o3 & -> & E & L). exists (a ++ o1), f, o2, f2, (o3 ++ b).
  split; auto. rewrite <- !app_assoc. cbn [app]. rewrite <- !app_assoc. reflexivity.
Qed.
Lemma follow_l a os t G t2 : follow os t G t2 -> follow (a ++ os) t G t2.
Proof. intro F. apply (follow_in a os []) in F. rewrite app_nil_r in F. exact F. Qed.
Lemma follow_r b os t G t2 : follow os t G t2 -> follow (os ++ b) t G t2.
Proof. intro F. apply (follow_in [] os b) in F. exact F. Qed.

(** First and last token of a plan. *)
Lemma split_first os f t ts : ptoks os = (f, t) :: ts ->
  exists a b, os = a ++ PTok f t :: b /\ ptoks a = [] /\ lead os = lead a /\ ptoks b = ts.
Proof.
  induction os as [|o os IH]; intro E; [discriminate|].
  destruct o as [fn x|x bl|m]; cbn [ptoks] in E.
  - injection E as -> -> E. exists [], os. auto.
  - destruct (IH E) as (a & b & -> & A & L & B). exists (PBrk x bl :: a), b. cbn [ptoks lead app]. rewrite L. auto.
  - destruct (IH E) as (a & b & -> & A & L & B). exists (PMark m :: a), b.
    cbn [ptoks lead app]. rewrite L. destruct m; auto.
Qed.
Lemma split_last os f t ts : ptoks os = ts ++ [(f, t)] ->
  exists a b, os = a ++ PTok f t :: b /\ ptoks b = [] /\ trail os = lead b /\ ptoks a = ts.
Proof.
  revert ts. induction os as [|o os IH] using rev_ind; intros ts E; [destruct ts; discriminate|].
  rewrite ptoks_app in E. destruct o as [fn x|x bl|m]; cbn [ptoks] in E.
  - apply app_inj_tail in E as [<- E]. injection E as -> ->. exists os, []. repeat split; auto.
    unfold trail. rewrite after_app. reflexivity.
  - rewrite app_nil_r in E. destruct (IH _ E) as (a & b & -> & B & L & A). exists a, (b ++ [PBrk x bl]).
    rewrite <- app_assoc. cbn [app]. rewrite ptoks_app, B. repeat split; auto.
    rewrite lead_app by auto. rewrite <- L. unfold trail.
    change (a ++ PTok f t :: b ++ [PBrk x bl]) with (a ++ (PTok f t :: b) ++ [PBrk x bl]).
    rewrite app_assoc, after_app. reflexivity.
  - rewrite app_nil_r in E. destruct (IH _ E) as (a & b & -> & B & L & A). exists a, (b ++ [PMark m]).
    rewrite <- app_assoc. cbn [app]. rewrite ptoks_app, B. repeat split; auto.
    rewrite lead_app by auto. rewrite <- L. unfold trail.
    change (a ++ PTok f t :: b ++ [PMark m]) with (a ++ (PTok f t :: b) ++ [PMark m]).
    rewrite app_assoc, after_app. destruct m; cbn [after lead snd]; rewrite ?app_nil_r; reflexivity.
Qed.

(** Where two plans meet. *)
Lemma follow_meet os1 os2 f t ts f2 t2 ts2 :
  ptoks os1 = ts ++ [(f, t)] -> ptoks os2 = (f2, t2) :: ts2 ->
  follow (os1 ++ os2) t (trail os1 ++ lead os2) t2.
Proof.
  intros E1 E2. destruct (split_last _ _ _ _ E1) as (a & b & -> & B & L & _).
  destruct (split_first _ _ _ _ E2) as (c & d & -> & C & L2 & _).
  exists a, f, (b ++ c), f2, d. split; [rewrite <- !app_assoc; cbn [app]; rewrite <- ?app_assoc; reflexivity|].
  rewrite ptoks_app, B, C. split; auto. rewrite lead_app by auto. congruence.
Qed.

(** ** What is done for one child *)
Definition agap (acts : list action) : gap :=
  flat_map (fun a => match a with AMark MSpace => [GS] | ABreak _ b => [GB b] | _ => [] end) acts.

(** White space before and after the action that prints the child. *)
Fixpoint apre (acts : list action) : gap :=
  match acts with
  | [] | AHandle :: _ | ACall _ _ _ _ _ :: _ => []
  | a :: acts' => agap [a] ++ apre acts'
  end.
Fixpoint apost (acts : list action) : gap :=
  match acts with
  | [] => []
  | AHandle :: acts' | ACall _ _ _ _ _ :: acts' => agap acts'
  | _ :: acts' => apost acts'
  end.

(** Action [x] prints child [c], as operations [o]. *)
Inductive prints (fn : skind) : action -> child -> tkind -> N -> list op -> Prop :=
| pr_tok t pv ln : prints fn AHandle (CTok t) pv ln [PTok fn t]
| pr_call k ds ml w oel keep pv ln r o : wholes ml w oel (CTree k ds) pv ln r o ->
    prints fn (ACall k ml w oel keep) (CTree k ds) pv ln o.

Lemma actions_quiet fn c cs acts l pv ln l' os : fits c ->
  actions fn c cs acts l pv ln l' os -> ptoks os = [] -> lead os = agap acts.
Proof.
  intros F H. induction H; intro E; cbn [ptoks lead agap flat_map] in *; try discriminate; auto.
  - destruct m; cbn [app]; rewrite IHrun_of; auto.
  - cbn [app]. rewrite IHrun_of; auto.
  - exfalso. rewrite ptoks_app in E. apply app_eq_nil in E as [E _].
    apply whole_facts in H as (_ & T & _). rewrite E in T. symmetry in T. revert T. apply dleaves_some. exact F.
Qed.

Lemma one_child fn c cs acts l pv ln l' os : fits c ->
  actions fn c cs acts l pv ln l' os -> ptoks os = dleaves fn c ->
  exists a o b x,
    os = a ++ o ++ b /\ In x acts /\ prints fn x c pv ln o /\
    ptoks a = [] /\ ptoks b = [] /\ lead a = apre acts /\ lead b = apost acts /\
    ptoks o = dleaves fn c.
Proof.
  intros F H. induction H; intro E; cbn [ptoks] in E.
  - symmetry in E. apply dleaves_some in E; [contradiction|auto].
  - destruct (IHrun_of F E) as (a & o & b & x & -> & I & P & A & B & LA & LB & O).
    exists (PMark m :: a), o, b, x. repeat (split; auto); [right; auto|].
    cbn [lead apre agap flat_map]. destruct m; cbn [app]; congruence.
  - destruct (IHrun_of F E) as (a & o & bb & x & -> & I & P & A & B & LA & LB & O).
    exists (PBrk tok b :: a), o, bb, x. repeat (split; auto); [right; auto|].
    cbn [lead apre agap flat_map]. cbn [app]; congruence.
  - cbn [dleaves] in E. assert (ptoks os = []) as E2 by congruence.
    exists [], [PTok fn tok], os, AHandle. repeat (split; auto).
    + left. reflexivity.
    + constructor.
    + eapply actions_quiet; eauto.
  - pose proof (whole_facts _ _ _ _ _ _ _ _ _ H) as (_ & T & _).
    rewrite ptoks_app, T in E. cbn [dleaves] in E. rewrite <- app_nil_r in E. apply app_inv_head in E.
    exists [], o, os, (ACall k ml w oel keep). repeat (split; auto).
    + left. reflexivity.
    + econstructor; eauto.
    + eapply actions_quiet; eauto.
Qed.

Definition head_gap (c : child) (G : gap) : Prop :=
  match c with CTok _ => G = [] | CTree k _ => exists d, In (G, d) (t_heads k) end.
Definition tail_gap (c : child) (G : gap) : Prop :=
  match c with CTok _ => G = [] | CTree k _ => exists d, In (d, G) (t_tails k) end.

Lemma prints_ends fn x c pv ln o : prints fn x c pv ln o -> head_gap c (lead o) /\ tail_gap c (trail o).
Proof. intros [t|k ds ml w oel keep pv' ln' r o' W]; cbn; auto. apply whole_facts in W. tauto. Qed.

Lemma pv_after_quiet os : forall pv, ptoks os = [] -> pv_after pv os = pv.
Proof. induction os as [|[] os IH]; intros pv E; cbn in *; auto. discriminate. Qed.
Lemma ln_after_quiet os : forall ln, ptoks os = [] -> ln_after ln os = ln.
Proof. induction os as [|[] os IH]; intros ln E; cbn in *; auto. discriminate. Qed.
Lemma after_last os f t ts pv ln : ptoks os = ts ++ [(f, t)] ->
  pv_after pv os = tkind_of t /\ ln_after ln os = line (tend t).
Proof.
  intro E. destruct (split_last _ _ _ _ E) as (a & b & -> & B & _ & _).
  rewrite pv_after_app, ln_after_app. cbn [pv_after ln_after].
  rewrite pv_after_quiet, ln_after_quiet by auto. auto.
Qed.

Lemma dleaves_last p c : fits c -> exists f t r, end_of c = Some t /\ dleaves p c = r ++ [(f, t)].
Proof.
  intro F. destruct (fits_end c F) as (t & r & E & L). pose proof (dleaves_leaves c p) as M. rewrite L in M.
  destruct (dleaves p c) as [|x d] using rev_ind; [destruct r; discriminate|]. clear IHd.
  rewrite map_app in M. cbn [map] in M. apply app_inj_tail in M as [_ M]. destruct x as [f t']. cbn in M. subst t'.
  exists f, t, d. auto.
Qed.

(** One iteration of a loop: [acts] are the actions. *)
Record iteration (fn : skind) (c : child) (cs : list child) (i : N) (l : locals) (pv : tkind) (ln : N)
    (acts : list action) (os : list op) : Prop := {
  it_step : fst (step fn l (view_at pv ln i c cs)) = acts;
  it_ops : exists a o b x, os = a ++ o ++ b /\ In x acts /\ prints fn x c pv ln o /\
    ptoks a = [] /\ ptoks b = [] /\
    lead a = apre acts /\ lead b = apost acts /\ ptoks o = dleaves fn c
}.

Lemma iteration_lead fn c cs i l pv ln acts os : fits c ->
  iteration fn c cs i l pv ln acts os ->
  exists G, head_gap c G /\ lead os = apre acts ++ G /\ ptoks os = dleaves fn c.
Proof.
  intros F [_ (a & o & b & x & -> & I & P & A & B & LA & LB & O)]. exists (lead o).
  split; [eapply prints_ends; eauto|]. rewrite lead_app, LA by auto. rewrite lead_front.
  - split; auto. rewrite !ptoks_app, A, B, app_nil_r. exact O.
  - rewrite O. apply dleaves_some; auto.
Qed.
Lemma trail_app a b : ptoks b = [] -> trail (a ++ b) = trail a ++ lead b.
Proof. intro B. unfold trail. rewrite after_app, (after_lead b) by auto. reflexivity. Qed.
Lemma trail_back a b : ptoks b <> [] -> trail (a ++ b) = trail b.
Proof. intro B. unfold trail. rewrite after_app. erewrite after_any; eauto. Qed.
Lemma iteration_trail fn c cs i l pv ln acts os : fits c ->
  iteration fn c cs i l pv ln acts os ->
  exists G, tail_gap c G /\ trail os = G ++ apost acts.
Proof.
  intros F [_ (a & o & b & x & -> & I & P & A & B & LA & LB & O)]. exists (trail o).
  split; [eapply prints_ends; eauto|]. rewrite trail_back.
  - rewrite trail_app by auto. congruence.
  - rewrite ptoks_app, B, app_nil_r, O. apply dleaves_some; auto.
Qed.

Lemma loop_iteration fn c cs i l pv ln l' os : Forall fits (c :: cs) ->
  loops fn (c :: cs) i l pv ln l' os ->
  exists acts o os' l2, os = o ++ os' /\ iteration fn c cs i l pv ln acts o /\
    loops fn cs (i + 1) l2 (pv_after pv o) (ln_after ln o) l' os' /\
    (l_ml (snd (step fn l (view_at pv ln i c cs))) = l_ml l2 /\
     l_cnt (snd (step fn l (view_at pv ln i c cs))) = l_cnt l2).
Proof.
  intros F H. inversion F as [|? ? F1 F2]; subst.
  inversion H as [|? ? ? ? ? ? ? acts l1 l2 l3 o os' ES R T LO]; subst. clear H.
  destruct (one_child _ _ _ _ _ _ _ _ _ F1 R T) as (a & o' & b & x & E & I & P & A & B & LA & LB & O).
  exists acts, o, os', l2. split; auto. split.
  - split; [rewrite ES; reflexivity|]. exists a, o', b, x. repeat (split; auto).
  - split; auto. rewrite ES. cbn [snd]. clear - R. induction R; auto.
    destruct IHR as [<- <-]. destruct keep; split; reflexivity.
Qed.

Definition keeps_ml (fn : skind) : Prop := forall l v, l_ml (snd (step fn l v)) = l_ml l.

(** The same for the steps on some children only. *)
Definition keeps_over (fn : skind) (u : list child) : Prop :=
  forall d, In d u -> forall l v, v_child v = label_of d -> l_ml (snd (step fn l v)) = l_ml l.
Lemma keeps_all fn u : keeps_ml fn -> keeps_over fn u.
Proof. intros K d _ l v _. apply K. Qed.

(** No step changes the flag for the number of children. *)
Lemma op_break_cnt l v : l_cnt (snd (op_break l v)) = l_cnt l.
Proof. unfold op_break. destruct (v_peek v) as [[]|]; reflexivity. Qed.
Lemma keeps_cnt fn l v : l_cnt (snd (step fn l v)) = l_cnt l.
Proof.
  destruct fn; cbv [step]; try reflexivity.
  all: match goal with |- l_cnt (snd (?f ?x ?y)) = _ => unfold f end.
  all: repeat match goal with |- context [match ?x with _ => _ end] => destruct x eqn:? end; cbn [snd]; try (reflexivity || congruence).
  all: match goal with H : op_break ?a ?b = _ |- _ => pose proof (op_break_cnt a b) as E; rewrite H in E; exact E end.
Qed.

(** A loop reaches every child. *)
Lemma loop_reaches fn u : forall c v i l pv ln l' os, Forall fits (u ++ c :: v) ->
  loops fn (u ++ c :: v) i l pv ln l' os ->
  exists l1 pv1 ln1 os0 os1, os = os0 ++ os1 /\
    loops fn (c :: v) (i + N.of_nat (length u)) l1 pv1 ln1 l' os1 /\
    pv1 = pv_after pv os0 /\ ln1 = ln_after ln os0 /\ ptoks os0 = flat_map (dleaves fn) u /\
    (keeps_over fn u -> l_ml l1 = l_ml l) /\ l_cnt l1 = l_cnt l.
Proof.
  induction u as [|d u IH]; intros c v i l pv ln l' os F H; cbn [app] in *.
  - exists l, pv, ln, [], os. cbn [length]. rewrite N.add_0_r. repeat (split; auto).
  - destruct (loop_iteration _ _ _ _ _ _ _ _ _ F H) as (acts & o & os' & l2 & -> & IT & LO & ML & MC).
    inversion F as [|? ? F1 F2]; subst.
    destruct (IH c v _ _ _ _ _ _ F2 LO) as (l1 & pv1 & ln1 & os0 & os1 & -> & L1 & E1 & E2 & E3 & E4 & E5).
    exists l1, pv1, ln1, (o ++ os0), os1. rewrite app_assoc. split; auto. split.
    { replace (i + N.of_nat (length (d :: u))) with (i + 1 + N.of_nat (length u)) by (cbn [length]; lia). exact L1. }
    rewrite pv_after_app, ln_after_app, ptoks_app. split; auto. split; auto. split; [|split].
    + cbn [flat_map]. f_equal; auto. destruct (iteration_lead _ _ _ _ _ _ _ _ _ F1 IT) as (G & _ & _ & T). exact T.
    + intro K. rewrite E4, <- ML by (intros x I; apply K; right; exact I). apply (K d (or_introl eq_refl)). reflexivity.
    + rewrite E5, <- MC. apply keeps_cnt.
Qed.

(** Two neighbouring children. *)
Definition joint (fn : skind) (c1 c2 : child) (v : list child) (j : N) (l1 l2 : locals) (pv1 : tkind) (ln1 : N)
    (t1 t2 : token) (G : gap) : Prop :=
  end_of c1 = Some t1 /\ start_of c2 = Some t2 /\
  exists G1 G2, tail_gap c1 G1 /\ head_gap c2 G2 /\
    G = G1 ++ apost (fst (step fn l1 (view_at pv1 ln1 j c1 (c2 :: v))))
           ++ apre (fst (step fn l2 (view_at (tkind_of t1) (line (tend t1)) (j + 1) c2 v))) ++ G2.

Lemma loop_joint fn u c1 c2 v i l pv ln l' os : Forall fits (u ++ c1 :: c2 :: v) ->
  loops fn (u ++ c1 :: c2 :: v) i l pv ln l' os ->
  exists l1 l2 pv1 ln1 t1 t2 G, joint fn c1 c2 v (i + N.of_nat (length u)) l1 l2 pv1 ln1 t1 t2 G /\
    follow os t1 G t2 /\ (keeps_over fn (u ++ [c1]) -> l_ml l1 = l_ml l /\ l_ml l2 = l_ml l).
Proof.
  intros F H. destruct (loop_reaches _ _ _ _ _ _ _ _ _ _ F H) as (l1 & pv1 & ln1 & os0 & os1 & -> & L1 & _ & _ & _ & K1 & KC).
  apply Forall_app in F as [_ F].
  destruct (loop_iteration _ _ _ _ _ _ _ _ _ F L1) as (acts1 & o1 & os2 & l2 & -> & IT1 & L2 & ML1 & _).
  inversion F as [|? ? F1 F']; subst.
  destruct (loop_iteration _ _ _ _ _ _ _ _ _ F' L2) as (acts2 & o2 & os3 & l3 & -> & IT2 & L3 & ML2 & _).
  inversion F' as [|? ? F2 F3]; subst.
  destruct (dleaves_last fn c1 F1) as (f & t1 & r1 & E1 & D1).
  destruct (dleaves_first fn c2 F2) as (t2 & r2 & E2 & D2).
  destruct (iteration_lead _ _ _ _ _ _ _ _ _ F1 IT1) as (_ & _ & _ & T1).
  destruct (iteration_trail _ _ _ _ _ _ _ _ _ F1 IT1) as (G1 & TG & TR).
  destruct (iteration_lead _ _ _ _ _ _ _ _ _ F2 IT2) as (G2 & HG & LE & T2).
  rewrite D1 in T1. rewrite D2 in T2.
  destruct (after_last _ _ _ _ pv1 ln1 T1) as [PV LN]. rewrite PV, LN in IT2.
  exists l1, l2, pv1, ln1, t1, t2, (G1 ++ apost acts1 ++ apre acts2 ++ G2). split; [|split].
  - split; auto. split; auto. exists G1, G2. split; auto. split; auto.
    rewrite (it_step _ _ _ _ _ _ _ _ _ IT1), (it_step _ _ _ _ _ _ _ _ _ IT2). reflexivity.
  - apply follow_l. rewrite app_assoc. apply follow_r.
    replace (G1 ++ apost acts1 ++ apre acts2 ++ G2) with (trail o1 ++ lead o2) by (rewrite TR, LE, <- !app_assoc; reflexivity).
    eapply follow_meet; eauto.
  - intro K. assert (keeps_over fn u) as KU by (intros x I; apply K, in_or_app; auto).
    rewrite <- ML1, (K c1) by (try reflexivity; apply in_or_app; right; left; reflexivity). rewrite K1 by auto. auto.
Qed.

(** The call for an inner child. *)
Lemma loop_call fn u k ds v i l pv ln l' os : Forall fits (u ++ CTree k ds :: v) ->
  loops fn (u ++ CTree k ds :: v) i l pv ln l' os ->
  exists l1 pv1 ln1 ml w oel keep r a o b,
    In (ACall k ml w oel keep) (fst (step fn l1 (view_at pv1 ln1 (i + N.of_nat (length u)) (CTree k ds) v))) /\
    os = a ++ o ++ b /\ wholes ml w oel (CTree k ds) pv1 ln1 r o /\ (keeps_over fn u -> l_ml l1 = l_ml l) /\ l_cnt l1 = l_cnt l.
Proof.
  intros F H. destruct (loop_reaches _ _ _ _ _ _ _ _ _ _ F H) as (l1 & pv1 & ln1 & os0 & os1 & -> & L1 & _ & _ & _ & K1 & KC).
  apply Forall_app in F as [_ F].
  destruct (loop_iteration _ _ _ _ _ _ _ _ _ F L1) as (acts1 & o1 & os2 & l2 & -> & IT1 & L2 & ML1 & _).
  destruct IT1 as [S (a & o & b & x & -> & I & P & _)].
  inversion P as [t pv2 ln2 E1 E2 E3 E4|k2 ds2 ml2 w2 oel2 keep2 pv2 ln2 r2 o2 W2]; subst.
  exists l1, pv1, ln1, ml2, w2, oel2, keep2, r2, (os0 ++ a), o, (b ++ os2). repeat (split; auto).
  rewrite <- !app_assoc. reflexivity.
Qed.

(** ** Inner nodes *)
Lemma whole_child ml w oel k cs pv ln r os : wholes ml w oel (CTree k cs) pv ln r os ->
  exists ms l l' os', prologue k ml w oel (CTree k cs) cs = Ok (ms, l) /\
    os = map PMark ms ++ os' ++ map PMark (epilogue k l') /\ loops k cs 0 l pv ln l' os' /\
    Forall fits cs /\ lang (pruned (production false k)) (map sym_of cs).
Proof.
  intro W. inversion W as [? ? ? ? ? ? ? ms l l' os' F IA PC EP PR LO]; subst.
  inversion F; subst. exists ms, l, l', os'. repeat (split; auto).
Qed.

Lemma inside_whole c t : inside c t -> forall k cs, c = CTree k cs ->
  forall ml w oel pv ln r os, wholes ml w oel t pv ln r os ->
  exists ml' w' oel' pv' ln' r' a o b, os = a ++ o ++ b /\ wholes ml' w' oel' c pv' ln' r' o.
Proof.
  induction 1 as [c|c k' cs' d I IN IH]; intros k cs E ml w oel pv ln r os W.
  - exists ml, w, oel, pv, ln, r, [], os, []. rewrite app_nil_r. auto.
  - destruct (whole_child _ _ _ _ _ _ _ _ _ W) as (ms & l & l' & os' & _ & -> & LO & F & _).
    apply in_split in I as (u & v & ->).
    destruct d as [t|k2 ds]; [subst c; inversion IN|].
    destruct (loop_call _ _ _ _ _ _ _ _ _ _ _ F LO) as (l1 & pv1 & ln1 & ml2 & w2 & oel2 & keep & r2 & a & o & b & _ & -> & W2 & _).
    destruct (IH _ _ E _ _ _ _ _ _ _ W2) as (ml' & w' & oel' & pv' & ln' & r' & a' & o' & b' & -> & W').
    exists ml', w', oel', pv', ln', r', (map PMark ms ++ a ++ a'), o', (b' ++ b ++ map PMark (epilogue k' l')).
    split; auto. rewrite <- !app_assoc. reflexivity.
Qed.

(** ** From plans to layouts *)
Lemma score_app a : forall G m n b, exists m' n',
  score G m n (a ++ b) = score G m n a ++ score (snd (after (None, G) a)) m' n' b.
Proof.
  induction a as [|o a IH]; intros G m n b; [exists m, n; reflexivity|].
  destruct o as [fn t|t bl|[]]; cbn [app score after fst snd]; try apply IH.
  destruct (IH [] O n b) as (m' & n' & E). exists m', n'. rewrite E. cbn [app].
  assert (forall p q, snd (after (p, []) a) = snd (after (q, []) a)) as AF.
  { intros p q. generalize (@nil gsym). clear. induction a as [|o a IH]; intro G; auto.
    destruct o as [fn t|t bl|[]]; cbn [after fst snd]; auto. }
  refine (f_equal (fun G1 => (G, m, (fn, t)) :: score [] O n a ++ score G1 m' n' b) _). apply AF.
Qed.

Lemma quiet_after a G : ptoks a = [] -> snd (after (None, G) a) = G ++ lead a.
Proof. intro Q. rewrite after_lead by exact Q. reflexivity. Qed.

Lemma follow_score os t G t2 G0 m n : follow os t G t2 ->
  exists d1 g1 m1 f f2 m2 d3, score G0 m n os = d1 ++ (g1, m1, (f, t)) :: (G, m2, (f2, t2)) :: d3.
Proof.
  intros (o1 & f & o2 & f2 & o3 & -> & Q & L).
  destruct (score_app o1 G0 m n (PTok f t :: o2 ++ PTok f2 t2 :: o3)) as (m' & n' & ->). cbn [score].
  destruct (score_app o2 [] O n' (PTok f2 t2 :: o3)) as (m2 & n2 & ->). cbn [score].
  rewrite (quiet_after o2 [] Q), L. cbn [app].
  assert (score [] O n' o2 = []) as ->.
  { clear - Q. generalize (@nil gsym) O n'. induction o2 as [|o o2 IH]; intros G m n; auto.
    destruct o as [fn t|t bl|[]]; cbn [ptoks] in Q; try discriminate; cbn [score]; auto. }
  do 7 eexists. reflexivity.
Qed.

Definition by_gap (G : gap) (n : nat) (w : white) : Prop :=
  (G = [] /\ w = WNone) \/ (G = [GS] /\ w = WSpace) \/ (exists b x, G = [GB b] /\ w = WLine x n).

Lemma above_unruled b n ln cs : Forall (fun e => e_rule e = None) (above b n ln cs).
Proof.
  assert (forall ln, Forall (fun e => e_rule e = None) (stack n ln cs)) as S.
  { induction cs; intro; cbn [stack]; constructor; auto. }
  destruct b, cs; cbn [above]; auto. constructor; auto. specialize (S ln). inversion S; subst.
  clear - cs. generalize (line (tend t)). induction cs; intro; cbn [stack]; constructor; auto.
Qed.
Lemma beside_unruled first cs : Forall (fun e => e_rule e = None) (beside first cs).
Proof.
  destruct cs; cbn [beside]; constructor; auto. induction cs; cbn [map]; constructor; auto.
Qed.

Definition unbroken (G : gap) : Prop := G = [] \/ G = [GS].

Lemma placed_head st ln items G m f t ds l : placed st ln items ((G, m, (f, t)) :: ds) l ->
  exists q w l2 items', l = q ++ mkE w (Some f) t :: l2 /\ Forall (fun e => e_rule e = None) q /\
    by_gap G m w /\ placed false (line (tend t)) items' ds l2 /\ (unbroken G -> q = []).
Proof.
  intro P. inversion P; subst.
  - exists [], WNone, l0, items0. unfold by_gap. repeat (split; auto).
  - exists [], WSpace, l0, items0. unfold by_gap. repeat (split; auto).
  - exists (beside st ins ++ above b m ln cs), (WLine (own_line b ln cs t) m), l0, items0. split.
    { unfold broken. rewrite <- !app_assoc. reflexivity. }
    split; [apply Forall_app; split; [apply beside_unruled|apply above_unruled]|].
    split; [right; right; eauto|]. split; auto. intros [U|U]; discriminate.
Qed.

Lemma placed_pair d1 : forall st ln items g1 m1 f t G m2 f2 t2 d3 l,
  placed st ln items (d1 ++ (g1, m1, (f, t)) :: (G, m2, (f2, t2)) :: d3) l ->
  exists l1 w1 q w2 l2, l = l1 ++ mkE w1 (Some f) t :: q ++ mkE w2 (Some f2) t2 :: l2 /\
    Forall (fun e => e_rule e = None) q /\ by_gap G m2 w2 /\ (unbroken G -> q = []).
Proof.
  induction d1 as [|[[g m] [f0 t0]] d1 IH]; intros st ln items g1 m1 f t G m2 f2 t2 d3 l P; cbn [app] in P.
  - apply placed_head in P as (q1 & w1 & l1 & it1 & -> & Q1 & B1 & P & _).
    apply placed_head in P as (q2 & w2 & l2 & it2 & -> & Q2 & B2 & P & U).
    exists q1, w1, q2, w2, l2. auto.
  - apply placed_head in P as (q1 & w1 & l1 & it1 & -> & Q1 & B1 & P & _).
    destruct (IH _ _ _ _ _ _ _ _ _ _ _ _ _ P) as (l2 & w2 & q & w3 & l3 & -> & Q & B).
    exists (q1 ++ mkE w1 (Some f0) t0 :: l2), w2, q, w3, l3. rewrite <- app_assoc. auto.
Qed.

Lemma nodup_split {A} (t : A) l1 : forall l2 m1 m2, NoDup (l1 ++ t :: l2) ->
  l1 ++ t :: l2 = m1 ++ t :: m2 -> l1 = m1 /\ l2 = m2.
Proof.
  induction l1 as [|x l1 IH]; intros l2 m1 m2 N E; destruct m1 as [|y m1]; cbn [app] in *; inversion E; subst; auto.
  - inversion N as [|? ? NI _]. exfalso. apply NI. apply in_or_app. right. left. reflexivity.
  - inversion N as [|? ? NI _]. exfalso. apply NI. apply in_or_app. right. left. reflexivity.
  - inversion N as [|? ? NI N']; subst. destruct (IH _ _ _ N' H1) as [-> ->]. auto.
Qed.
Lemma entry_split l1 a l2 m1 b m2 : NoDup (map e_tok (l1 ++ a :: l2)) -> e_tok a = e_tok b ->
  l1 ++ a :: l2 = m1 ++ b :: m2 -> l1 = m1 /\ a = b /\ l2 = m2.
Proof.
  intros N E H. pose proof (f_equal (map e_tok) H) as M. rewrite !map_app in M. cbn [map] in M.
  rewrite map_app in N. cbn [map] in N. rewrite <- E in M. destruct (nodup_split _ _ _ _ _ N M) as [M1 M2].
  apply (f_equal (@length token)) in M1. rewrite !map_length in M1.
  assert (l1 = m1) as ->.
  { clear - H M1. revert m1 H M1. induction l1 as [|x l1 IH]; intros [|y m1] H L; cbn in L; try discriminate; auto.
    cbn [app] in H. inversion H; subst. f_equal. apply IH; auto. }
  apply app_inv_head in H. inversion H; subst. auto.
Qed.
Lemma next_unique l t e e' : NoDup (map e_tok l) -> next_code l t e -> next_code l t e' -> e = e'.
Proof.
  intros N (l1 & a & q & l2 & -> & T & Q & R) (m1 & b & q' & m2 & E & T' & Q' & R').
  apply entry_split in E as (_ & _ & E); auto; [|congruence]. clear - Q R Q' R' E.
  revert q' Q' E. induction Q as [|x q X Q IH]; intros q' Q' E.
  - destruct q' as [|y q']; cbn [app] in E; inversion E; subst; auto. inversion Q'; subst. congruence.
  - destruct q' as [|y q']; cbn [app] in E; inversion E; subst; [congruence|]. inversion Q'; subst. eauto.
Qed.

Lemma ordered_nodup ln items : ordered ln items -> NoDup items.
Proof.
  intros [S _ _]. induction S as [|x items S IH F]; constructor; auto.
  intro I. rewrite Forall_forall in F. destruct (F _ I) as [H _]. lia.
Qed.
Lemma drops_nodup {A} (p : A -> Prop) l l' : SpecLayout.drops p l l' -> NoDup l -> NoDup l'.
Proof.
  induction 1 as [|x l l' D IH|x l l' P D IH]; intro N; auto; inversion N; subst; auto.
  constructor; auto. intro I. apply H1. clear - D I.
  induction D; auto; [destruct I; [left|right]|right]; auto.
Qed.
Lemma layout_nodup eol s p l : layout_of eol s p l -> NoDup (map e_tok l).
Proof.
  intros [_ _ (items & LA & _ & _ & D) _]. eapply drops_nodup; eauto.
  eapply ordered_nodup. eapply laid_ordered; eauto.
Qed.

(** The white space after a token of the plan, and before one. *)
Lemma follow_next os items l t G t2 : NoDup (map e_tok l) ->
  placed true 1 items (score [] O O os) l -> follow os t G t2 ->
  exists n, (forall e, next_code l t e -> e_tok e = t2 /\ by_gap G n (e_white e)) /\
            (forall e, In e l -> e_tok e = t2 -> by_gap G n (e_white e)) /\
            (forall a e, consecutive l a e -> e_tok a = t -> unbroken G -> e_tok e = t2 /\ by_gap G n (e_white e)).
Proof.
  intros N P F. destruct (follow_score _ _ _ _ [] O O F) as (d1 & g1 & m1 & f & f2 & m2 & d3 & E).
  rewrite E in P. apply placed_pair in P as (l1 & w1 & q & w2 & l2 & -> & Q & B & U).
  exists m2. split; [|split].
  - intros e NC.
    assert (e = mkE w2 (Some f2) t2) as ->; [|auto].
    eapply next_unique; eauto. exists l1, (mkE w1 (Some f) t), q, l2. repeat split; auto. discriminate.
  - intros e I T. apply in_split in I as (u & v & EQ).
    replace (l1 ++ mkE w1 (Some f) t :: q ++ mkE w2 (Some f2) t2 :: l2)
      with ((l1 ++ mkE w1 (Some f) t :: q) ++ mkE w2 (Some f2) t2 :: l2) in * by (rewrite <- app_assoc; reflexivity).
    apply entry_split in EQ as (_ & <- & _); auto.
  - intros a e (u & v & EQ) T UG. specialize (U UG). subst q. cbn [app] in *.
    apply entry_split in EQ as (_ & _ & EQ); auto. injection EQ as <- _. auto.
Qed.

(** ** Joints of the nodes of a formatted file *)
Theorem node_joint eol s p tree items l k u c1 c2 v :
  layout_of eol s p l -> planned tree items l ->
  inside (CTree k (u ++ c1 :: c2 :: v)) tree ->
  exists ml w oel ms l0 l1 l2 pv1 ln1 t1 t2 G n,
    prologue k ml w oel (CTree k (u ++ c1 :: c2 :: v)) (u ++ c1 :: c2 :: v) = Ok (ms, l0) /\
    joint k c1 c2 v (N.of_nat (length u)) l1 l2 pv1 ln1 t1 t2 G /\
    (keeps_over k (u ++ [c1]) -> l_ml l1 = l_ml l0 /\ l_ml l2 = l_ml l0) /\
    lang (pruned (production false k)) (map sym_of (u ++ c1 :: c2 :: v)) /\
    Forall fits (u ++ c1 :: c2 :: v) /\
    (forall e, next_code l t1 e -> e_tok e = t2 /\ by_gap G n (e_white e)) /\
    (forall e, In e l -> e_tok e = t2 -> by_gap G n (e_white e)) /\
    (forall a e, consecutive l a e -> e_tok a = t1 -> unbroken G -> e_tok e = t2 /\ by_gap G n (e_white e)).
Proof.
  intros LO [->|(r & os & n' & W & T & A & I & P)] IN.
  { exfalso. inversion IN as [c E|c k' cs d ID _ E1 E2]; subst; [destruct u; discriminate|destruct ID]. }
  destruct (inside_whole _ _ IN _ _ eq_refl _ _ _ _ _ _ _ W) as (ml & w & oel & pv & ln & r' & a & o & b & -> & W').
  destruct (whole_child _ _ _ _ _ _ _ _ _ W') as (ms & l0 & l' & os' & PR & -> & LP & F & LA).
  destruct (loop_joint _ _ _ _ _ _ _ _ _ _ _ F LP) as (l1 & l2 & pv1 & ln1 & t1 & t2 & G & J & FO & K).
  assert (follow (a ++ (map PMark ms ++ os' ++ map PMark (epilogue k l')) ++ b) t1 G t2) as FO'
    by (apply follow_in, follow_in; exact FO).
  destruct (follow_next _ _ _ _ _ _ (layout_nodup _ _ _ _ LO) P FO') as (n & N1 & N2 & N3).
  exists ml, w, oel, ms, l0, l1, l2, pv1, ln1, t1, t2, G, n. repeat (split; auto).
Qed.
