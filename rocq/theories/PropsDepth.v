(** Property C85: how deep the recursion of the parser and of the formatter goes. *)
From Verif Require Import ProofBase Tokens Syntax Lexer SpecLex LexInv LexMain LexFacts ParserCore Grammar
  Tree Printer Formatter Lib ParserSem ParserFuel SpecGrammar Regex ParserGrammar ParserTree ParserFacts Recognise PropsParser
  SpecLanguage ParserComplete PropsLanguage
  FmtAbs FmtPlan FmtShape FmtTables FmtSound SpecLayout FmtExec FmtTop FmtFacts FmtNeat PropsFormat FmtSame FmtConcat SpecDepth ParserDepth.

(** ** C85: linear in the number of tokens *)
Theorem C85_linear : forall s entry p, parse s entry = Ok p -> (nesting 0 (p_events p) <= 505 * (length (p_tokens p) + 1))%nat.
Proof.
  intros s entry p H. apply parse_inv in H as (l & e & L & H & E). exact (run_depth _ _ _ _ H).
Qed.
Print Assumptions C85_linear.

Theorem C85_accepted : forall s p, accepted s p ->
  (nesting 0 (p_events p) <= 13 * length (p_tokens p) + 1)%nat /\
  exists tree, build_tree (p_tokens p) (p_events p) = Ok tree /\ (depth tree <= nesting 0 (p_events p))%nat.
Proof.
  intros s p [H Z]. destruct (accepted_tree s p H Z) as (cs & items & C & L & E & B & _). rewrite E, nesting_tree. split.
  - pose proof (tree_depth _ C) as D. rewrite L in D. change (rank KStoredDefinition) with 0%nat in D. lia.
  - rewrite E in B. eexists. split; [exact B|]. apply depth_prune.
Qed.
Print Assumptions C85_accepted.

(** ** Lists make it deep *)
Definition long_list (n : nat) : text :=
  lines ["model M Real x = {1"; ""]%string ++ concat (repeat (lines [", 1"; ""]%string) n) ++ lines ["}; end M;"; ""]%string.

Definition leaf (k : tkind) (w : string) : child := CTok (mkTok 0 (str w) k (mkPos 0 0 0) (mkPos 0 0 0)).
Fixpoint chain (ks : list skind) (cs : list child) : child :=
  match ks with [] => CTree KError cs | [k] => CTree k cs | k :: ks => CTree k [chain ks cs] end.
Definition expression (cs : list child) : child :=
  chain [KExpression; KSimpleExpression; KLogicalExpression; KLogicalTerm; KLogicalFactor; KRelation; KArithmeticExpression; KTerm; KFactor; KPrimary] cs.
Definition one : child := expression [leaf TUInt "1"].
Fixpoint more (n : nat) : list child :=
  match n with O => [] | S n => [leaf TComma ","; CTree KArrayArgumentsNonFirst (one :: more n)] end.
Definition list_tree (n : nat) : child :=
  CTree KStoredDefinition
   [CTree KClassDefinition
     [CTree KClassPrefixes [leaf TModel "model"];
      CTree KClassSpecifier
       [CTree KLongClassSpecifier
         [leaf TIdentifier "M"; CTree KDescriptionString [];
          CTree KComposition
           [CTree KElementList
             [CTree KElement
               [CTree KComponentClause
                 [CTree KTypePrefix []; CTree KTypeSpecifier [CTree KName [leaf TIdentifier "Real"]];
                  CTree KComponentList
                   [CTree KComponentDeclaration
                     [CTree KDeclaration
                       [leaf TIdentifier "x";
                        CTree KModification
                         [leaf TEqual "=";
                          CTree KModificationExpression
                           [expression [leaf TLCurly "{"; CTree KArrayArguments (one :: more n); leaf TRCurly "}"]]]];
                      CTree KDescription [CTree KDescriptionString []]]]]];
              leaf TSemicolon ";"]];
          leaf TEnd "end"; leaf TIdentifier "M"]]];
    leaf TSemicolon ";"].

Lemma allowed_most parent k cs : k <> KEquation -> allowed parent (CTree k cs).
Proof. intro N. unfold allowed. destruct (leaves (CTree k cs)); [exact Logic.I|]. destruct k; try (intros []). contradiction. Qed.
Lemma parsable_tree k cs : matchb (production false k) (map sym_of cs) = true -> ~ In KEquation (map (fun c => match c with CTree k _ => k | CTok _ => KError end) cs) ->
  Forall parsable cs -> parsable (CTree k cs).
Proof.
  intros M N F. split; constructor.
  - apply matchb_sound, M.
  - eapply Forall_impl; [|exact F]. intros c [C _]. exact C.
  - apply Forall_forall. intros [x|k' ds] I; [unfold allowed; exact Logic.I|]. apply allowed_most. intros ->. apply N. apply in_map_iff. eexists. split; [|exact I]. reflexivity.
  - eapply Forall_impl; [|exact F]. intros c [_ C]. exact C.
Qed.
Lemma more_parsable n : parsable one -> Forall parsable (more n).
Proof.
  intro P. induction n as [|n IH]; [constructor|]. cbn [more]. constructor; [split; constructor|]. constructor; [|constructor].
  apply parsable_tree.
  - destruct n; vm_compute; reflexivity.
  - destruct n; cbn; intuition discriminate.
  - constructor; auto.
Qed.
Lemma list_tree_parsable n : parsable (list_tree n).
Proof.
  assert (parsable one) as P.
  { split; [apply conformsb_sound; vm_compute; reflexivity|apply unbarredb_ok; vm_compute; reflexivity]. }
  assert (parsable (CTree KArrayArguments (one :: more n))) as PA.
  { apply parsable_tree.
    - destruct n; vm_compute; reflexivity.
    - destruct n; cbn; intuition discriminate.
    - constructor; auto using more_parsable. }
  unfold list_tree, expression. cbn [chain].
  repeat (first [exact PA | solve [split; constructor] | apply parsable_tree; [vm_compute; reflexivity|cbn; intuition discriminate|] | constructor]).
Qed.

Lemma deep_in k cs c : In c cs -> (depth c < depth (CTree k cs))%nat.
Proof.
  intro I. cbn [depth]. pose proof (proj1 (list_max_le (map depth cs) _) (le_n _)) as F. rewrite Forall_forall in F. apply Nat.lt_succ_r, F, in_map, I.
Qed.
Lemma prunes_in cs c : In c cs -> leaves c <> [] -> In (prune c) (prunes cs).
Proof.
  intros I N. apply filter_In. split; [apply in_map, I|]. pose proof (leaves_prune c) as L. destruct (prune c) as [x|k [|e es]]; [reflexivity|cbn in L; congruence|reflexivity].
Qed.
Lemma deep_nth i k cs c : nth_error cs i = Some c -> leaves c <> [] -> (depth (prune c) < depth (prune (CTree k cs)))%nat.
Proof. intros I N. rewrite prune_tree. apply deep_in, prunes_in; [|exact N]. apply nth_error_In in I. exact I. Qed.
Lemma more_deep n : (n <= depth (prune (CTree KArrayArgumentsNonFirst (one :: more n))))%nat.
Proof.
  induction n as [|n IH]; [lia|]. apply Nat.le_succ_l, (Nat.le_lt_trans _ _ _ IH). apply (deep_nth 2); [reflexivity|discriminate].
Qed.
Lemma list_tree_deep n : (n < depth (prune (list_tree n)))%nat.
Proof.
  assert (n <= depth (prune (CTree KArrayArguments (one :: more n))))%nat as D.
  { destruct n as [|n]; [lia|]. apply Nat.le_succ_l, (Nat.le_lt_trans _ _ _ (more_deep n)). apply (deep_nth 2); [reflexivity|discriminate]. }
  apply (Nat.le_lt_trans _ _ _ D). unfold list_tree, expression. cbn [chain].
  eapply Nat.lt_trans; [|apply (deep_nth 0); [reflexivity|discriminate]]. eapply Nat.lt_trans; [|apply (deep_nth 1); [reflexivity|discriminate]]. eapply Nat.lt_trans; [|apply (deep_nth 0); [reflexivity|discriminate]]. eapply Nat.lt_trans; [|apply (deep_nth 2); [reflexivity|discriminate]]. eapply Nat.lt_trans; [|apply (deep_nth 0); [reflexivity|discriminate]]. eapply Nat.lt_trans; [|apply (deep_nth 0); [reflexivity|discriminate]]. eapply Nat.lt_trans; [|apply (deep_nth 0); [reflexivity|discriminate]]. eapply Nat.lt_trans; [|apply (deep_nth 2); [reflexivity|discriminate]]. eapply Nat.lt_trans; [|apply (deep_nth 0); [reflexivity|discriminate]]. eapply Nat.lt_trans; [|apply (deep_nth 0); [reflexivity|discriminate]]. eapply Nat.lt_trans; [|apply (deep_nth 1); [reflexivity|discriminate]]. eapply Nat.lt_trans; [|apply (deep_nth 1); [reflexivity|discriminate]]. eapply Nat.lt_trans; [|apply (deep_nth 0); [reflexivity|discriminate]]. eapply Nat.lt_trans; [|apply (deep_nth 0); [reflexivity|discriminate]]. eapply Nat.lt_trans; [|apply (deep_nth 0); [reflexivity|discriminate]]. eapply Nat.lt_trans; [|apply (deep_nth 0); [reflexivity|discriminate]]. eapply Nat.lt_trans; [|apply (deep_nth 0); [reflexivity|discriminate]]. eapply Nat.lt_trans; [|apply (deep_nth 0); [reflexivity|discriminate]]. eapply Nat.lt_trans; [|apply (deep_nth 0); [reflexivity|discriminate]]. eapply Nat.lt_trans; [|apply (deep_nth 0); [reflexivity|discriminate]]. eapply Nat.lt_trans; [|apply (deep_nth 0); [reflexivity|discriminate]]. eapply Nat.lt_trans; [|apply (deep_nth 0); [reflexivity|discriminate]]. apply (deep_nth 1); [reflexivity|discriminate].
Qed.
Definition item (x : token) : tkind * text := (tkind_of x, ttext x).
Lemma lexed_alone s t its : lex s = Ok (t, [], []) -> map item t = its -> lexes s its.
Proof.
  intros L <-. destruct (lex_sound _ _ _ L) as (items & X & CA & LA & T & C).
  assert (forall l, filter commentary l = [] -> filter plain l = l) as K.
  { clear. induction l as [|x l IH]; intro E; [reflexivity|]. cbn [filter] in *. destruct (commentary x) eqn:C; [discriminate|].
    assert (plain x = true) as -> by (unfold plain, commentary in *; rewrite C; reflexivity). f_equal. auto. }
  rewrite K in T by auto. subst t. exact X.
Qed.
Definition first_items : list (tkind * text) :=
  [(TModel, str "model"); (TIdentifier, str "M"); (TIdentifier, str "Real"); (TIdentifier, str "x"); (TEqual, str "="); (TLCurly, str "{"); (TUInt, str "1")].
Definition next_items : list (tkind * text) := [(TComma, str ","); (TUInt, str "1")].
Definition last_items : list (tkind * text) :=
  [(TRCurly, str "}"); (TSemicolon, str ";"); (TEnd, str "end"); (TIdentifier, str "M"); (TSemicolon, str ";")].
Lemma long_lexes n : lexes (long_list n) (first_items ++ concat (repeat next_items n) ++ last_items).
Proof.
  unfold long_list. apply lexes_join.
  - eapply lexed_alone; vm_compute; reflexivity.
  - right. exists (str "model M Real x = {1"). vm_compute. reflexivity.
  - induction n as [|n IH].
    + eapply lexed_alone; vm_compute; reflexivity.
    + cbn [repeat concat]. rewrite <- !app_assoc. apply lexes_join; [eapply lexed_alone; vm_compute; reflexivity| |exact IH].
      right. exists (str ", 1"). vm_compute. reflexivity.
Qed.
Lemma list_leaves n : map item (leaves (list_tree n)) = first_items ++ concat (repeat next_items n) ++ last_items.
Proof.
  assert (map item (flat_map leaves (more n)) = concat (repeat next_items n)) as M.
  { induction n as [|n IH]; [reflexivity|]. cbn [more flat_map leaves map repeat concat]. rewrite ?app_nil_r, ?map_app. cbn [flat_map]. 
    change (map item (leaves one)) with [(TUInt, str "1")]. change (flat_map leaves (one :: more n)) with (leaves one ++ flat_map leaves (more n)). rewrite ?map_app.
    rewrite IH. reflexivity. }
  rewrite <- M. unfold list_tree, expression. cbn [chain leaves flat_map]. change (leaves one) with [mkTok 0 (str "1") TUInt (mkPos 0 0 0) (mkPos 0 0 0)].
  rewrite ?app_nil_r, ?map_app, <- ?app_assoc. reflexivity.
Qed.

Lemma depth_tmap g c : depth (tmap g c) = depth c.
Proof.
  induction c as [x|k cs IH] using child_ind2; [reflexivity|]. cbn [tmap depth]. f_equal. f_equal. rewrite map_map.
  induction IH as [|c cs H F IH]; [reflexivity|]. cbn [map]. congruence.
Qed.
Lemma no_comments n : forallb (fun i => negb (is_comment_kind (fst i))) (first_items ++ concat (repeat next_items n) ++ last_items) = true.
Proof.
  rewrite !forallb_app. change (forallb _ first_items) with true. change (forallb _ last_items) with true. rewrite andb_true_r. cbn [andb].
  induction n as [|n IH]; [reflexivity|]. cbn [repeat concat]. rewrite forallb_app, IH. reflexivity.
Qed.
Lemma list_brackets n : brackets 0 (map fst (first_items ++ concat (repeat next_items n) ++ last_items)) = 1%nat.
Proof.
  rewrite !map_app. change (brackets 0 (map fst first_items ++ map fst (concat (repeat next_items n)) ++ map fst last_items))
    with (brackets 1 (map fst (concat (repeat next_items n)) ++ map fst last_items)).
  induction n as [|n IH]; [reflexivity|]. exact IH.
Qed.
Lemma list_length n : length (first_items ++ concat (repeat next_items n) ++ last_items) = (2 * n + 12)%nat.
Proof.
  rewrite !app_length. assert (length (concat (repeat next_items n)) = (2 * n)%nat) as ->; [|cbn [first_items last_items length]; lia].
  induction n as [|n IH]; [reflexivity|]. cbn [repeat concat]. rewrite app_length, IH. cbn [next_items length]. lia.
Qed.

Theorem C85_lists_refuted : forall n, exists p tree, accepted (long_list n) p /\
  length (p_tokens p) = (2 * n + 12)%nat /\ brackets 0 (map tkind_of (p_tokens p)) = 1%nat /\
  build_tree (p_tokens p) (p_events p) = Ok tree /\ (n < depth tree)%nat /\ (n < nesting 0 (p_events p))%nat.
Proof.
  intro n. pose proof (long_lexes n) as LX. pose proof (list_leaves n) as LL. pose proof (no_comments n) as NC.
  pose proof (list_brackets n) as BR. pose proof (list_length n) as LN.
  remember (first_items ++ concat (repeat next_items n) ++ last_items) as its eqn:EI. clear EI.
  rewrite forallb_forall in NC.
  destruct (lex_complete _ _ LX) as (items & L & M & LA).
  { intros w I. apply NC in I. discriminate. }
  assert (forall t, In t items -> is_comment_kind (tkind_of t) = false) as NT.
  { intros t I. assert (In (item_of t) its) as J by (rewrite <- M; apply in_map, I). apply NC in J. cbn in J. destruct (is_comment_kind (tkind_of t)); [discriminate|reflexivity]. }
  assert (filter plain items = items /\ filter commentary items = []) as [FP FC].
  { clear - NT. induction items as [|t l IH]; [auto|]. destruct IH as [A B]; [intros; apply NT; right; assumption|]. cbn [filter]. unfold plain at 1, commentary at 1.
    rewrite (NT t (or_introl eq_refl)). cbn [negb]. rewrite A, B. auto. }
  rewrite FP, FC in L.
  assert (map tkind_of items = map fst its) as K1 by (rewrite <- M, map_map; apply map_ext; reflexivity).
  assert (map tkind_of (leaves (list_tree n)) = map fst its) as K2 by (rewrite <- LL, map_map; apply map_ext; reflexivity).
  assert (length items = length its) as N1 by (rewrite <- M; symmetry; apply map_length).
  assert (length (leaves (list_tree n)) = length its) as N2 by (rewrite <- LL; symmetry; apply map_length).
  destruct (C60_finds_tree _ (list_tree_parsable n)) as [P B]. fold (list_tree n) in P, B.
  pose proof (list_tree_deep n) as DP. revert K2 N2 P B DP. generalize (list_tree n). clear LL. intros T K2 N2 P B DP.
  pose proof (parse_bare (leaves T) items KStoredDefinition ltac:(congruence)) as PB. rewrite P in PB.
  destruct (parse_events items KStoredDefinition) as [[e er]|x|] eqn:PE; try contradiction. destruct PB as [<- EM].
  destruct er; [|discriminate]. clear EM.
  set (g := fun _ : token => mkTok 0 [] TEOF (mkPos 0 0 0) (mkPos 0 0 0)).
  assert (map g items = map g (leaves T)) as MG.
  { assert (forall a b : list token, length a = length b -> map g a = map g b) as Q; [|apply Q; congruence].
    clear. induction a as [|x a IH]; intros [|y b] E; try discriminate; [reflexivity|]. cbn [map]. f_equal. auto. }
  pose proof (build_tree_map g items (flat T)) as B1. rewrite MG, build_tree_map, B in B1. cbn [rmap] in B1.
  destruct (build_tree items (flat T)) as [tree|x|] eqn:BT; [|discriminate B1|discriminate B1]. cbn [rmap] in B1. injection B1 as B1.
  assert (n < depth tree)%nat as D.
  { rewrite <- (depth_tmap g tree), <- B1, depth_tmap. exact DP. }
  exists (mkParsed items [] (flat T) []), tree. cbn [p_tokens p_events].
  split; [|split; [congruence|split; [congruence|split; [exact BT|split; [exact D|]]]]].
  - split; [|reflexivity]. unfold parse. rewrite L. cbn [bind]. rewrite PE. reflexivity.
  - rewrite nesting_tree. pose proof (depth_prune T). lia.
Qed.
Print Assumptions C85_lists_refuted.

Example C85_applies : exists p, parse (long_list 20) KStoredDefinition = Ok p /\ p_errors p = [] /\ nesting 0 (p_events p) = 54%nat /\ length (p_tokens p) = 52%nat.
Proof. eexists. split; [vm_compute; reflexivity|]. split; [reflexivity|]. split; vm_compute; reflexivity. Qed.
(** Lists of expressions in square brackets are read by a loop: their length does not matter. *)
Definition long_row (n : nat) : text := lines ["model M Real x = [1"; ""]%string ++ concat (repeat (lines [", 1"; ""]%string) n) ++ lines ["]; end M;"; ""]%string.
Example C85_loop : forall n, In n [0; 1; 20; 40]%nat -> exists p, parse (long_row n) KStoredDefinition = Ok p /\ p_errors p = [] /\ nesting 0 (p_events p) = 34%nat.
Proof. intros n I. repeat (destruct I as [<-|I]; [eexists; split; [vm_compute; reflexivity|]; split; [reflexivity|vm_compute; reflexivity]|]). destruct I. Qed.
