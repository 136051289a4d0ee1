(** White space in lists, and around signs and operators. *)
From Verif Require Import ProofBase Tokens Syntax Lexer SpecLex LexInv LexMain LexFacts ParserCore Grammar
  Tree Printer Formatter Lib ParserSem ParserFuel SpecGrammar Regex ParserGrammar ParserTree ParserFacts Recognise PropsParser
  FmtAbs FmtPlan FmtShape FmtTables FmtSound SpecLayout FmtExec FmtTop FmtFacts FmtRelex FmtNeat SpecNodes FmtTree.

(** ** Gaps *)
Definition is_gb (g : gsym) : bool := match g with GB _ => true | GS => false end.
Definition brk (G : gap) : bool := existsb is_gb G.
Lemma brk_app a b : brk (a ++ b) = brk a || brk b.
Proof. apply existsb_app. Qed.
Lemma by_gap_brk G n w : by_gap G n w -> is_break w = brk G.
Proof. intros [[-> ->]|[[-> ->]|(b & x & -> & ->)]]; reflexivity. Qed.

Definition plain_heads (k : skind) : bool := forallb (fun h => negb (brk (fst h))) (t_heads k).
Lemma plain_head k G d : plain_heads k = true -> In (G, d) (t_heads k) -> brk G = false.
Proof.
  unfold plain_heads. rewrite forallb_forall. intros H I. specialize (H _ I). cbn in H.
  apply negb_true_iff in H. exact H.
Qed.

(** ** Symbols that follow each other in a node *)
Lemma neighbours k u c1 c2 v :
  lang (pruned (production false k)) (map sym_of (u ++ c1 :: c2 :: v)) ->
  In (sym_of c1, sym_of c2) (pairs (pruned (production false k))).
Proof.
  intro L. eapply pairs_complete; [exact L|]. rewrite map_app. cbn [map].
  exists (map sym_of u), (map sym_of v). reflexivity.
Qed.
Lemma final_child k u c :
  lang (pruned (production false k)) (map sym_of (u ++ [c])) ->
  In (sym_of c) (lasts (pruned (production false k))).
Proof.
  intro L. eapply lasts_complete; [exact L|]. rewrite map_app. reflexivity.
Qed.
Lemma initial_child k c v :
  lang (pruned (production false k)) (map sym_of (c :: v)) ->
  In (sym_of c) (firsts (pruned (production false k))).
Proof. intro L. eapply firsts_complete. exact L. Qed.

Fixpoint letters (r : rx) : list sym :=
  match r with
  | Void | Eps => []
  | Sy x => [x]
  | Cat a b | Alt a b => letters a ++ letters b
  | Star a => letters a
  end.
Lemma letters_complete r w : lang r w -> forall x, In x w -> In x (letters r).
Proof.
  induction 1; intros y I; cbn [letters]; auto; try contradiction; try (apply in_or_app; auto; fail);
    apply in_app_or in I as [I|I]; auto; apply in_or_app; auto.
Qed.

(** What can follow a separator in the nodes of lists. *)
Definition after_sep (k : skind) : list sym :=
  match k with
  | KFunctionArguments | KFunctionArgumentsNonFirst => [Rule KFunctionArgumentsNonFirst]
  | KArrayArguments | KArrayArgumentsNonFirst => [Rule KArrayArgumentsNonFirst]
  | KNamedArguments => [Rule KNamedArguments]
  | KPrimary => [Rule KExpressionList]
  | KArraySubscripts => [Rule KSubscript]
  | KExpressionList => [Rule KExpression]
  | KArgumentList => [Rule KArgument]
  | KArgumentOrInheritanceModificationList => [Rule KArgument; Rule KInheritanceModification]
  | KEnumList => [Rule KEnumerationLiteral]
  | KImportList | KDerClassSpecifier => [Term TIdentifier]
  | KForIndices => [Rule KForIndex]
  | KComponentList => [Rule KComponentDeclaration]
  | KConnectEquation => [Rule KComponentReference]
  | _ => []
  end.
Definition sep_kind (k : skind) : tkind := match k with KPrimary => TSemicolon | _ => TComma end.
Definition sep_sym (x : sym) : bool :=
  match x with Term TComma | Term TSemicolon => true | _ => false end.
Definition sep_followers_ok : bool :=
  forallb (fun k => negb (list_node k || list_rest k) ||
    forallb (fun p => negb (sep_sym (fst p)) ||
                      sym_eqb (fst p) (Term (sep_kind k)) && existsb (sym_eqb (snd p)) (after_sep k))
            (pairs (pruned (production false k))) &&
    forallb (fun x => negb (sep_sym x))
      (lasts (pruned (production false k)) ++ firsts (pruned (production false k)))) all_skinds.
Lemma sep_followers_true : sep_followers_ok = true.
Proof. vm_compute. reflexivity. Qed.

Lemma sep_followed k u t v : list_node k || list_rest k = true -> is_sep t = true ->
  lang (pruned (production false k)) (map sym_of (u ++ CTok t :: v)) ->
  u <> [] /\ tkind_of t = sep_kind k /\ exists c2 v', v = c2 :: v' /\ In (sym_of c2) (after_sep k).
Proof.
  intros K S L. pose proof (skind_all _ sep_followers_true k) as H. cbv beta in H. rewrite K in H.
  cbn [negb orb] in H. apply andb_true_iff in H as [H1 H2]. rewrite forallb_forall in H1, H2.
  assert (sep_sym (sym_of (CTok t)) = true) as SS.
  { cbn [sym_of sep_sym]. unfold is_sep in S. destruct (tkind_of t); auto. }
  split.
  - intros ->. apply initial_child in L.
    specialize (H2 _ (in_or_app _ _ _ (or_intror L))). rewrite SS in H2. discriminate.
  - destruct v as [|c2 v].
    + apply final_child in L. specialize (H2 _ (in_or_app _ _ _ (or_introl L))). rewrite SS in H2. discriminate.
    + apply neighbours in L. specialize (H1 _ L). cbn [fst snd] in H1.
      rewrite SS in H1. cbn [negb orb] in H1. apply andb_true_iff in H1 as [H0 H1].
      apply sym_eqb_eq in H0. split; [cbn [sym_of] in H0; congruence|].
      exists c2, v. split; auto. apply existsb_exists in H1 as [x [I E]].
      apply sym_eqb_eq in E. subst. exact I.
Qed.

(** ** One separator *)
Lemma label_rule c k : sym_of c = Rule k -> exists ds, c = CTree k ds.
Proof. destruct c as [t|k' ds]; intro E; inversion E; subst. eauto. Qed.
Lemma label_term c k : sym_of c = Term k -> exists t, c = CTok t /\ tkind_of t = k.
Proof. destruct c as [t|k' ds]; intro E; inversion E; subst. eauto. Qed.

(** Whether the separators of a node of kind [k] are followed by line breaks. *)
Definition breaks (k : skind) (l : locals) : bool :=
  match k with KForIndices => false | _ => l_ml l end.

Ltac open_view :=
  unfold view_at, view_of;
  cbn [v_child v_peek v_prev v_idx v_nl v_mlif v_desc v_empty v_idxpos label_of fprev fline fst snd].

Lemma sep_plain : forallb plain_heads
  (flat_map (fun k => flat_map (fun x => match x with Rule k' => [k'] | _ => [] end) (after_sep k)) all_skinds) = true.
Proof. vm_compute. reflexivity. Qed.
Lemma sep_head k c2 G : In (sym_of c2) (after_sep k) -> head_gap c2 G -> brk G = false.
Proof.
  intros I H. destruct c2 as [t|k2 ds]; cbn [head_gap] in H; [subst; reflexivity|].
  destruct H as [d H]. eapply plain_head; [|exact H]. pose proof sep_plain as P. rewrite forallb_forall in P. apply P.
  apply in_flat_map. exists k. split; [destruct k; clear; vm_compute; tauto|].
  apply in_flat_map. exists (Rule k2). split; auto. left. reflexivity.
Qed.


Lemma sep_gap k t c2 v j l1 l2 pv1 ln1 t1 t2 G b :
  tkind_of t = sep_kind k -> In (sym_of c2) (after_sep k) -> 1 <= j -> (k = KConnectEquation -> 2 <= j) ->
  l_ml l1 = b -> l_ml l2 = b ->
  joint k (CTok t) c2 v j l1 l2 pv1 ln1 t1 t2 G ->
  t1 = t /\ brk G = match k with KForIndices => false | _ => b end.
Proof.
  intros TK I J JC M1 M2 (E1 & E2 & G1 & G2 & T1 & H2 & ->).
  cbn [end_of] in E1. injection E1 as E1. split; [congruence|]. cbn [tail_gap] in T1. subst G1 t1. cbn [app].
  rewrite !brk_app, (sep_head _ _ _ I H2), orb_false_r.
  destruct k; cbn [after_sep In] in I; try contradiction; cbn [sep_kind] in TK.
  all: repeat match goal with H : _ \/ _ |- _ => destruct H end; try contradiction.
  all: match goal with
       | H : Rule _ = sym_of _ |- _ => symmetry in H; apply label_rule in H as [ds ->]
       | H : Term _ = sym_of _ |- _ => symmetry in H; apply label_term in H as (tk & -> & TK2)
       end.
  all: cbv [step]; match goal with |- context [fst (?f ?x _)] => unfold f end; open_view.
  all: rewrite ?TK, ?TK2, ?M1, ?M2; cbn [tkind_eqb memk existsb skind_eqb orb andb fst].
  all: try (cbn [app apost apre agap flat_map]; destruct b; reflexivity).
  - (* import lists: the token after a comma is not the first one *)
    replace (1 <? (if j + 1 <? 3 then j + 1 else 3)) with true.
    + cbn [app apost apre agap flat_map]. destruct b; reflexivity.
    + symmetry. destruct (N.ltb_spec (j + 1) 3); apply N.ltb_lt; lia.
  - (* connections: the reference after the comma is the second one *)
    specialize (JC eq_refl).
    replace ((if j + 1 <? 3 then j + 1 else 3) =? 2) with false.
    + cbn [app apost apre agap flat_map]. destruct b; reflexivity.
    + symmetry. destruct (N.ltb_spec (j + 1) 3); apply N.eqb_neq; lia.
Qed.

(** The comma of a connection is not one of the first two children. *)
Lemma connect_comma u t v : is_sep t = true ->
  lang (pruned (production false KConnectEquation)) (map sym_of (u ++ CTok t :: v)) -> 2 <= N.of_nat (length u).
Proof.
  intros S L. destruct u as [|d [|d2 u]]; [| |cbn [length]; lia]; exfalso.
  - apply initial_child in L. remember (sym_of (CTok t)) as x eqn:X. vm_compute in L. destruct L as [L|[]]. unfold is_sep in S.
    rewrite <- L in X. injection X as X. rewrite <- X in S. discriminate.
  - pose proof (neighbours _ [] _ _ _ L) as NB. apply initial_child in L.
    remember (sym_of (CTok t)) as x eqn:X. remember (sym_of d) as y. vm_compute in L. destruct L as [L|[]].
    unfold is_sep in S. rewrite <- L in NB. vm_compute in NB.
    repeat match goal with H : _ \/ _ |- _ => destruct H as [NB|H] end; try contradiction; try discriminate.
    injection NB as NB. rewrite <- NB in X. injection X as X. rewrite <- X in S. discriminate.
Qed.

(** ** Lists *)
Lemma list_keeps k : list_node k || list_rest k = true -> keeps_ml k.
Proof.
  intros K l v. destruct k; try discriminate K; cbv [step].
  all: match goal with |- l_ml (snd (?f ?x ?y)) = _ => unfold f end.
  all: repeat match goal with |- context [match ?x with _ => _ end] => destruct x eqn:? end; cbn [snd]; congruence.
Qed.

Lemma rest_called k l v k2 ml w oel keep : list_node k || list_rest k = true -> list_rest k2 = true ->
  In (ACall k2 ml w oel keep) (fst (step k l v)) -> ml = l_ml l.
Proof.
  intros K K2. destruct k; try discriminate K; cbv [step].
  all: match goal with |- In _ (fst (?f ?x ?y)) -> _ => unfold f end.
  all: unfold call, call_ml, call_w, unreachable, bos.
  all: repeat match goal with |- context [match ?x with _ => _ end] => destruct x eqn:? end.
  all: cbn [fst app In]; intro I;
       repeat match goal with H : _ \/ _ |- _ => destruct H end; try contradiction; try discriminate.
  all: match goal with H : ACall _ _ _ _ _ = _ |- _ => injection H; intros; subst end; try discriminate K2; congruence.
Qed.

Lemma rest_prologue k ml w oel c cs ms l : list_rest k = true ->
  prologue k ml w oel c cs = Ok (ms, l) -> l_ml l = ml.
Proof. destruct k; try discriminate; intros _ H; cbn in H; injection H as <- <-; reflexivity. Qed.

Lemma seps_in t k cs : In t (seps (CTree k cs)) ->
  (In (CTok t) cs /\ is_sep t = true) \/ (exists k2 ds, In (CTree k2 ds) cs /\ list_rest k2 = true /\ In t (seps (CTree k2 ds))).
Proof.
  intro I. cbn [seps] in I. apply in_flat_map in I as [d [ID I]]. destruct d as [t'|k2 ds].
  - destruct (is_sep t') eqn:S; [|destruct I]. destruct I as [->|[]]. auto.
  - destruct (list_rest k2) eqn:R; [|destruct I]. right. exists k2, ds. auto.
Qed.

Lemma list_gaps c : forall k cs ml w oel pv ln r os ms l, c = CTree k cs ->
  list_node k || list_rest k = true ->
  wholes ml w oel c pv ln r os -> prologue k ml w oel c cs = Ok (ms, l) ->
  forall t, In t (seps c) -> exists G t2, follow os t G t2 /\ brk G = breaks k l.
Proof.
  induction c as [t0|k0 cs0 IH] using child_ind2; intros k cs ml w oel pv ln r os ms l E K W PR t I; [discriminate|].
  injection E as -> ->.
  destruct (whole_child _ _ _ _ _ _ _ _ _ W) as (ms' & l' & l2 & os' & PR' & -> & LO & F & LA).
  rewrite PR in PR'. injection PR' as <- <-. pose proof (list_keeps _ K) as KM.
  destruct (seps_in _ _ _ I) as [[IT S]|(k2 & ds & ID & R & I2)].
  - apply in_split in IT as (u & v & ->).
    destruct (sep_followed _ _ _ _ K S LA) as (U & TK & c2 & v' & -> & IC).
    destruct (loop_joint _ _ _ _ _ _ _ _ _ _ _ F LO) as (l1 & l3 & pv1 & ln1 & t1 & t2 & G & J & FO & M).
    destruct (M (keeps_all _ _ KM)) as [M1 M2].
    assert (1 <= 0 + N.of_nat (length u)) as JU by (destruct u; [contradiction|cbn [length]; lia]).
    assert (k = KConnectEquation -> 2 <= 0 + N.of_nat (length u)) as JC by (intros ->; eapply connect_comma; eauto).
    destruct (sep_gap _ _ _ _ _ _ _ _ _ _ _ _ _ TK IC JU JC M1 M2 J) as [-> B].
    exists G, t2. split; [apply follow_in; exact FO|]. rewrite B. destruct k; reflexivity.
  - assert (k <> KForIndices) as NF.
    { intros ->. clear - LA ID R. pose proof (in_map sym_of _ _ ID) as IS.
      cbn [sym_of] in IS. assert (forall x, In x (map sym_of cs) -> list_rest (match x with Rule y => y | _ => KError end) = false) as A.
      { intros x IX. pose proof (letters_complete _ _ LA x IX) as SY. clear - SY. vm_compute in SY.
        repeat match goal with H : _ \/ _ |- _ => destruct H as [<-|H] end; try reflexivity; contradiction. }
      specialize (A _ IS). cbn in A. congruence. }
    apply in_split in ID as (u & v & ->).
    destruct (loop_call _ _ _ _ _ _ _ _ _ _ _ F LO) as (l1 & pv1 & ln1 & ml2 & w2 & oel2 & keep & r2 & a & o & b & IA & -> & W2 & M & _).
    apply rest_called in IA; auto. rewrite (M (keeps_all _ _ KM)) in IA. subst ml2.
    destruct (whole_child _ _ _ _ _ _ _ _ _ W2) as (ms2 & l4 & _ & _ & PR2 & _).
    rewrite Forall_forall in IH. assert (In (CTree k2 ds) (u ++ CTree k2 ds :: v)) as ID by (apply in_or_app; right; left; reflexivity).
    assert (list_node k2 || list_rest k2 = true) as K2 by (rewrite R; apply orb_true_r).
    destruct (IH _ ID k2 ds _ _ _ _ _ _ _ _ _ eq_refl K2 W2 PR2 t I2) as (G & t2 & FO & B).
    exists G, t2. split.
    + apply follow_in, follow_in. exact FO.
    + rewrite B. pose proof (rest_prologue _ _ _ _ _ _ _ _ R PR2) as PM.
      destruct k2; try discriminate R; destruct k; try exact PM; contradiction.
Qed.

(** ** The lists of a formatted file *)
Lemma node_whole tree items l k cs : planned tree items l -> cs <> [] -> inside (CTree k cs) tree ->
  exists ml w oel pv ln r a o b, wholes ml w oel (CTree k cs) pv ln r o /\
    placed true 1 items (score [] O O (a ++ o ++ b)) l.
Proof.
  intros [->|(r & os & n' & W & T & A & I & P)] NE IN.
  { exfalso. inversion IN as [c E|c k' cs' d ID _ E1 E2]; subst; [contradiction|destruct ID]. }
  destruct (inside_whole _ _ IN _ _ eq_refl _ _ _ _ _ _ _ W) as (ml & w & oel & pv & ln & r' & a & o & b & -> & W').
  exists ml, w, oel, pv, ln, r', a, o, b. auto.
Qed.
Lemma node_word tree items l k cs : planned tree items l -> cs <> [] -> inside (CTree k cs) tree ->
  lang (pruned (production false k)) (map sym_of cs) /\ Forall fits cs.
Proof.
  intros PL NE IN. destruct (node_whole _ _ _ _ _ PL NE IN) as (ml & w & oel & pv & ln & r & a & o & b & W & _).
  destruct (whole_child _ _ _ _ _ _ _ _ _ W) as (ms & l0 & l' & os' & PR & _ & LP & F & LA). auto.
Qed.

Lemma list_white eol s p tree items l k cs :
  layout_of eol s p l -> planned tree items l -> list_node k || list_rest k = true -> cs <> [] -> inside (CTree k cs) tree ->
  exists ml w oel ms l0, prologue k ml w oel (CTree k cs) cs = Ok (ms, l0) /\
    forall t e, In t (seps (CTree k cs)) -> next_code l t e -> is_break (e_white e) = breaks k l0.
Proof.
  intros LO PL K NE IN. destruct (node_whole _ _ _ _ _ PL NE IN) as (ml & w & oel & pv & ln & r & a & o & b & W & P).
  destruct (whole_child _ _ _ _ _ _ _ _ _ W) as (ms & l0 & _ & _ & PR & _).
  exists ml, w, oel, ms, l0. split; auto. intros t e I N.
  destruct (list_gaps _ _ _ _ _ _ _ _ _ _ _ _ eq_refl K W PR t I) as (G & t2 & FO & B).
  destruct (follow_next _ _ _ _ _ _ (layout_nodup _ _ _ _ LO) P (follow_in _ _ _ _ _ _ FO)) as (n & N1 & _).
  destruct (N1 e N) as [_ BG]. rewrite (by_gap_brk _ _ _ BG). exact B.
Qed.
