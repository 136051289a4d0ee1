(** Properties C53 and C54: which lists are wrapped. *)
From Coq Require Import Sorted.
From Verif Require Import ProofBase Tokens Syntax Lexer SpecLex LexInv LexMain LexFacts ParserCore Grammar
  Tree Printer Formatter Lib ParserSem ParserFuel SpecGrammar Regex ParserGrammar
  FmtAbs FmtPlan FmtShape FmtTables FmtSound SpecLayout FmtExec FmtTop FmtFacts FmtRelex FmtNeat SpecNodes FmtTree FmtLists FmtOps
  FmtWrap PropsTree.

(** ** C53: a list in brackets is wrapped, after the opening bracket and after every separator, exactly if its
    brackets stand on different lines of the source or it holds descriptions. *)
Theorem C53_wrapping : forall eol s p, accepted s p ->
  exists tree l, laid_tree eol s p tree l /\
    (* separators of lists in brackets *)
    (forall n c, inside n tree -> held n c ->
       forall t e, In t (seps c) -> next_code l t e -> (is_break (e_white e) = true <-> wrapped n)) /\
    (* the opening bracket of a list that is not empty *)
    (forall k u o k2 ds v, holder k = true -> opens k o = true ->
       inside (CTree k (u ++ CTok o :: CTree k2 ds :: v)) tree ->
       forall e, next_code l o e ->
         (is_break (e_white e) = true <-> wrapped (CTree k (u ++ CTok o :: CTree k2 ds :: v)))) /\
    (* rows of matrices: a row is wrapped if it spans lines, a single row also with its brackets *)
    (forall cs ds, inside (CTree KPrimary cs) tree -> In (CTree KExpressionList ds) cs ->
       forall t e, In t (seps (CTree KExpressionList ds)) -> next_code l t e ->
         (is_break (e_white e) = true <->
            first_line (CTree KExpressionList ds) < last_line (CTree KExpressionList ds) \/
            (wrapped (CTree KPrimary cs) /\ forall t', In (CTok t') cs -> is_sep t' = false))) /\
    (* the components of one declaration *)
    (forall cs, inside (CTree KComponentList cs) tree ->
       forall t e, In t (seps (CTree KComponentList cs)) -> next_code l t e ->
         (is_break (e_white e) = true <->
            first_line (CTree KComponentList cs) < last_line (CTree KComponentList cs))) /\
    (* loop indices are never wrapped *)
    (forall cs, inside (CTree KForIndices cs) tree ->
       forall t e, In t (seps (CTree KForIndices cs)) -> next_code l t e -> is_break (e_white e) = false).
Proof.
  intros eol s p ACC. destruct (accepted_plan eol s p ACC) as (tree & items & l & LO & _ & _ & _ & _ & _ & _ & BT & PL & ROOT).
  exists tree, l. split; [split; auto|]. split; [|split; [|split; [|split]]].
  - intros n c IN HE t e I NC. destruct HE as [k cs O|k cs k' ds B ID].
    + eapply own_list; eauto.
    + eapply below_list; eauto.
  - intros k u o k2 ds v H O IN e NC. eapply open_list; eauto.
  - intros cs ds IN ID t e I NC. eapply row_list; eauto.
  - intros cs IN t e I NC. eapply component_list; eauto.
  - intros cs IN t e I NC. eapply index_list; eauto.
Qed.
Print Assumptions C53_wrapping.

Definition wrapping_sample : text :=
  lines ["model M type E=enumeration(a,b); type F=enumeration(a ""d"",b);"; "Real x(start=1,max=2), y(start=1,"; "max=f(2,3));";
         "equation x=f(1,"; "{1,2}); y=[1,2;3,"; "4]; connect(a,"; "b); for i in {1,2}, j in 1"; ":2 loop end for; end M;"]%string.
Example C53_applies : formats wrapping_sample
  (lines ["model M"; ""; "  type E = enumeration(a, b);"; "  type F = enumeration("; "    a"; "      ""d"","; "    b);"; 
          "  Real"; "    x(start = 1, max = 2),"; "    y("; "      start = 1,"; "      max = f(2, 3));"; "";
          "equation"; ""; "  x = f("; "    1,"; "    {1, 2});"; "  y = ["; "    1, 2;"; "    3,"; "    4];"; "  connect("; "    a,"; "    b);";
          "  for i in {1, 2}, j in 1 : 2 loop"; "  end for;"; ""; "end M;"]%string).
Proof. formatted. Qed.
Example C53_nodes :
  has_node wrapping_sample (fun c => match c with
    | CTree KFunctionCallArgs [CTok o; CTree _ _; CTok c] =>
        opens KFunctionCallArgs o && closes KFunctionCallArgs c && (line (tstart o) <? line (tstart c)) &&
        Nat.eqb (length (seps (CTree KFunctionCallArgs [CTok o; CTree KFunctionArguments []; CTok c]))) 0
    | _ => false end) /\
  has_node wrapping_sample (fun c => match c with
    | CTree KClassModification [CTok o; CTree KArgumentList cs; CTok c] =>
        (line (tstart o) =? line (tstart c)) && Nat.eqb (length (seps (CTree KArgumentList cs))) 1
    | _ => false end) /\
  has_node wrapping_sample (fun c => match c with
    | CTree KShortClassSpecifier cs => contains KDescription c && existsb (fun d => match d with CTree KEnumList _ => true | _ => false end) cs
    | _ => false end) /\
  has_node wrapping_sample (fun c => match c with CTree KConnectEquation _ => first_line c <? last_line c | _ => false end) /\
  has_node wrapping_sample (fun c => match c with CTree KForIndices _ => Nat.eqb (length (seps c)) 1 | _ => false end).
Proof. repeat split; apply find_has; vm_compute; reflexivity. Qed.

(** ** C54: if the brackets of a list stand on different lines, then every list in brackets around it is wrapped, too. *)
Lemma line_order ts a b : sound_tokens ts -> In a ts -> In b ts -> tidx a < tidx b -> line (tend a) <= line (tstart b).
Proof.
  intros [S _ _] IA IB L. apply in_split in IA as (u & v & ->). apply in_app_or in IB as [IB|[<-|IB]]; [|lia|].
  - pose proof (sorted_split _ _ _ S b a IB (or_introl eq_refl)) as [X _]. lia.
  - rewrite <- (app_nil_r v), app_comm_cons in S. apply sorted_mid in S. inversion S as [|? ? _ F]; subst.
    rewrite Forall_forall in F. apply F, IB.
Qed.
Lemma spread_brackets k cs o c : holder k = true -> lang (pruned (production false k)) (map sym_of cs) ->
  In (CTok o) cs -> In (CTok c) cs -> opens k o = true -> closes k c = true ->
  (spread k cs <-> line (tstart o) < line (tstart c)).
Proof.
  intros H L IO IC O C. destruct (bracket_shape _ _ H L) as [Q|(u & x & m & y & v & -> & P & QU & QV & QM)].
  - exfalso. rewrite Forall_forall in Q. destruct (quiet_token _ _ (Q _ IO)). congruence.
  - rewrite (spread_shape _ _ _ _ _ _ P QU QV QM).
    destruct (shape_tokens _ _ _ _ _ _ _ P QU QV QM IO) as [EO _]. destruct (shape_tokens _ _ _ _ _ _ _ P QU QV QM IC) as [_ EC].
    rewrite (EO O), (EC C). reflexivity.
Qed.
Lemma token_inside t k cs tree : In (CTok t) cs -> inside (CTree k cs) tree -> In t (toks tree).
Proof.
  intros I IN. destruct (inside_toks _ _ IN) as (a & b & ->). apply in_or_app. right. apply in_or_app. left.
  cbn [toks]. apply in_flat_map. exists (CTok t). split; auto. left. reflexivity.
Qed.
Lemma lines_order c a b : fits c -> sound_tokens (toks c) -> In a (toks c) -> In b (toks c) ->
  line (tstart a) < line (tstart b) -> first_line c < last_line c.
Proof.
  intros F S IA IB L. destruct (fits_start c F) as (x & rx & SX & LX). destruct (fits_end c F) as (y & ry & EY & LY).
  rewrite (first_line_start _ _ F SX), (last_line_end _ _ F EY). rewrite toks_leaves in *.
  assert (line (tstart x) <= line (tstart a)) as A.
  { destruct S as [S U _]. rewrite LX in *. inversion S as [|? ? _ FO]; subst. inversion U as [|? ? [_ UX] _]; subst. destruct IA as [<-|IA]; [lia|].
    rewrite Forall_forall in FO. destruct (FO _ IA). lia. }
  assert (line (tstart b) <= line (tend y)) as B.
  { destruct S as [S U _]. rewrite LY in *. apply in_app_or in IB as [IB|[<-|[]]].
    - destruct (sorted_split _ _ _ S b y IB (or_introl eq_refl)) as [_ X]. rewrite Forall_forall in U.
      destruct (U b (in_or_app _ _ _ (or_introl IB))). destruct (U y (in_or_app ry [y] y (or_intror (or_introl eq_refl)))). lia.
    - rewrite Forall_forall in U. destruct (U y (in_or_app ry [y] y (or_intror (or_introl eq_refl)))). lia. }
  lia.
Qed.

Theorem C54_nesting : forall s p tree, accepted s p -> build_tree (p_tokens p) (p_events p) = Ok tree ->
  (* brackets o ... c around brackets o' ... c' *)
  (forall k cs o c k' cs' o' c', inside (CTree k cs) tree -> inside (CTree k' cs') tree -> holder k = true -> holder k' = true ->
     In (CTok o) cs -> opens k o = true -> In (CTok c) cs -> closes k c = true ->
     In (CTok o') cs' -> opens k' o' = true -> In (CTok c') cs' -> closes k' c' = true ->
     tidx o < tidx o' -> tidx c' < tidx c -> spread k' cs' -> wrapped (CTree k cs)) /\
  (* brackets inside a row of a matrix or inside a list of components *)
  (forall k ds k' cs', (k = KExpressionList \/ k = KComponentList) -> inside (CTree k ds) tree ->
     inside (CTree k' cs') (CTree k ds) -> spread k' cs' ->
     first_line (CTree k ds) < last_line (CTree k ds)).
Proof.
  intros s p tree ACC BT0. destruct (accepted_plan [] s p ACC) as (tree' & items & l & LO & _ & _ & _ & _ & _ & _ & BT & PL & ROOT).
  assert (tree' = tree) as -> by congruence. clear BT0. pose proof (tree_sound _ _ _ ACC BT) as SND. split.
  - intros k cs o c k' cs' o' c' IN IN' H H' IO O IC C IO' O' IC' C' L1 L2 S.
    assert (forall k cs x, inside (CTree k cs) tree -> In (CTok x) cs -> lang (pruned (production false k)) (map sym_of cs)) as LG.
    { intros k0 cs0 x I0 I1. eapply node_word; eauto. intros ->. destruct I1. }
    pose proof (LG _ _ _ IN IO) as LA. pose proof (LG _ _ _ IN' IO') as LA'.
    rewrite (spread_brackets _ _ _ _ H' LA' IO' IC' O' C') in S.
    pose proof (token_inside _ _ _ _ IO IN) as TO. pose proof (token_inside _ _ _ _ IC IN) as TC.
    pose proof (token_inside _ _ _ _ IO' IN') as TO'. pose proof (token_inside _ _ _ _ IC' IN') as TC'.
    pose proof (line_order _ _ _ SND TO TO' L1) as A. pose proof (line_order _ _ _ SND TC' TC L2) as B.
    pose proof (so_upright _ SND) as U. rewrite Forall_forall in U. destruct (U _ TO) as [_ UO]. destruct (U _ TC') as [_ UC].
    assert (line (tstart o) < line (tstart c)) as LT by lia.
    assert (spread k cs) as SP by (apply (spread_brackets _ _ _ _ H LA IO IC O C); exact LT).
    destruct k; try discriminate H; cbn [wrapped]; auto.
    eapply (lines_order (CTree KConnectEquation cs) o c); [|eapply node_sound; eauto| | |exact LT].
    + eapply node_fits; eauto. intros ->. destruct IO.
    + eapply token_inside; [exact IO|apply in_here].
    + eapply token_inside; [exact IC|apply in_here].
  - intros k ds k' cs' K IN IN' (o & c & IO & IC & O & C & LT).
    assert (ds <> []) as NE.
    { intros ->. inversion IN'; subst; [destruct IO|contradiction]. }
    eapply (lines_order (CTree k ds) o c); [eapply node_fits; eauto|eapply node_sound; eauto| | |exact LT].
    + eapply token_inside; eauto.
    + eapply token_inside; eauto.
Qed.
Print Assumptions C54_nesting.

Definition nesting_sample : text :=
  lines ["model M Real x(a(b={f(1,"; "2),3}),c=4); equation y=g(1,[2,h("; ");3,4]); end M;"]%string.
Example C54_applies : formats nesting_sample
  (lines ["model M"; ""; "  Real x("; "    a("; "      b = {"; "        f("; "          1,"; "          2),"; "        3}),"; "    c = 4);"; "";
          "equation"; ""; "  y = g("; "    1,"; "    ["; "      2,"; "      h();"; "      3, 4]);"; ""; "end M;"]%string).
Proof. formatted. Qed.

(** The lists on the left-hand side of a call with several results are exempt. *)
Theorem C54_every_outer_list_refuted : exists s out, formats s out /\
  s = lines ["function F algorithm (a,f(b,"; "c)):=g(d); end F;"]%string /\
  out = lines ["function F"; ""; "algorithm"; ""; "  (a, f("; "    b,"; "    c)) := g(d);"; ""; "end F;"]%string.
Proof. eexists. eexists. split; [|split; reflexivity]. formatted. Qed.
Print Assumptions C54_every_outer_list_refuted.
