(** When the second run asks for the layout of the first one. *)
From Coq Require Import Sorted.
From Verif Require Import ProofBase Tokens Syntax Lexer SpecLex LexInv LexMain LexFacts ParserCore Grammar
  Tree Printer Formatter Lib ParserSem ParserFuel SpecGrammar Regex ParserGrammar ParserTree ParserFacts Recognise PropsParser
  FmtAbs FmtPlan FmtShape FmtTables FmtSound SpecLayout FmtExec FmtTop FmtFacts FmtRelex FmtNeat SpecNodes FmtTree FmtLists FmtOps
  FmtWrap SpecGaps SpecReference FmtNode FmtReference FmtSame PropsFormat PropsReference FmtBreaks FmtAgree SpecSettled.

(** ** What the grammar says *)
Definition syms_of (k : skind) : list sym := firsts (prod k) ++ map snd (pairs (prod k)).
Lemma child_sym k cs d : fits (CTree k cs) -> In d cs -> In (sym_of d) (syms_of k).
Proof.
  intros F I. inversion F as [|? ? NE L FC]; subst. apply in_split in I as (x & y & E). unfold syms_of. apply in_or_app. rewrite E in L.
  destruct x as [|z x]; [left; apply (initial_child _ _ _ L)|right].
  destruct (@exists_last _ (z :: x)) as (l & a & EL); [discriminate|]. rewrite EL, <- app_assoc in L. cbn [app] in L.
  pose proof (neighbours _ _ _ _ _ L) as N. apply (in_map snd) in N. exact N.
Qed.
Definition among (k : skind) (l : list skind) : bool := existsb (skind_eqb k) l.
Definition among_sym (l : list skind) (x : sym) : bool := match x with Rule k => among k l | Term _ => true end.

(** Nodes that can be wrapped and what stands in them. *)
Definition inner_kinds : list skind :=
[KDerClassSpecifier; KExternalFunctionCall; KImportClause;
 KClassOrInheritanceModification; KComponentList; KImportList;
 KArgumentOrInheritanceModificationList; KComponentDeclaration;
 KInheritanceModification; KConditionAttribute; KConnectEquation;
 KElementModificationOrReplaceable; KElementRedeclaration;
 KConstrainingClause; KEnumerationLiteral; KModification; KDescriptionString;
 KAnnotationClause; KArgumentList; KModificationExpression; KEnumList;
 KBasePrefix; KDeclaration; KDescription; KClassModification; KClassPrefixes;
 KShortClassSpecifier; KTypePrefix; KComponentDeclaration1; KArgument;
 KElementModification; KShortClassDefinition; KComponentClause1;
 KElementReplaceable; KName; KTypeSpecifier; KNamedArgument;
 KFunctionArgument; KFunctionPartialApplication; KNamedArguments;
 KFunctionArgumentsNonFirst; KForIndex; KFunctionArguments; KSubscript;
 KArrayArgumentsNonFirst; KForIndices; KComponentReference;
 KFunctionCallArgs; KArraySubscripts; KOutputExpressionList; KExpressionList;
 KArrayArguments; KPrimary; KFactor; KMulOperator; KAddOperator; KTerm;
 KArithmeticExpression; KRelationalOperator; KRelation; KLogicalFactor;
 KLogicalTerm; KLogicalExpression; KSimpleExpression; KExpression].
Definition inner_sym : sym -> bool := among_sym inner_kinds.
Definition inner_ok (k : skind) : bool :=
  implb (among k inner_kinds)
    (forallb inner_sym (syms_of k) &&
     forallb (fun p => implb (always_below k (Some (fst p)) (snd p) true) (trailing (snd p))) (pairs (prod k)) &&
     forallb (fun x => negb (always_below k None x true)) (firsts (prod k))) &&
  implb (widable k || operator k || value_kind k) (among k inner_kinds).
Lemma inner_checked : forallb inner_ok all_skinds = true.
Proof. vm_compute. reflexivity. Qed.

(** Nodes without descriptions, annotations and constraining clauses. *)
Definition free_kinds : list skind :=
[KError; KClassPrefixes; KBasePrefix; KLanguageSpecification;
 KExternalFunctionCall; KImportList; KInheritanceModification; KTypePrefix;
 KConditionAttribute; KModificationExpression; KForIndices; KForIndex;
 KConnectEquation; KExpression; KSimpleExpression; KLogicalExpression;
 KLogicalTerm; KLogicalFactor; KRelation; KRelationalOperator;
 KArithmeticExpression; KAddOperator; KTerm; KMulOperator; KFactor; KPrimary;
 KTypeSpecifier; KName; KComponentReference; KResultReference;
 KFunctionCallArgs; KFunctionArguments; KFunctionArgumentsNonFirst;
 KArrayArguments; KArrayArgumentsNonFirst; KNamedArguments; KNamedArgument;
 KFunctionArgument; KFunctionPartialApplication; KOutputExpressionList;
 KExpressionList; KArraySubscripts; KSubscript].
Definition free_sym : sym -> bool := among_sym free_kinds.
Definition free_ok (k : skind) : bool :=
  implb (among k free_kinds) (forallb free_sym (syms_of k) && negb (trailing (Rule k))).
Lemma free_checked : forallb free_ok all_skinds = true.
Proof. vm_compute. reflexivity. Qed.

Lemma bears_tree k cs : bears (CTree k cs) = trailing (Rule k) || existsb bears cs.
Proof.
  unfold bears. cbn [holds].
  assert (forall f1 f2 f3 f4 : child -> bool, existsb (fun c => f1 c || f2 c || f3 c || f4 c) cs = existsb f1 cs || existsb f2 cs || existsb f3 cs || existsb f4 cs) as K.
  { intros. induction cs as [|c cs IH]; [reflexivity|]. cbn [existsb]. rewrite IH.
    repeat match goal with |- context [existsb ?f cs] => destruct (existsb f cs) end; destruct (f1 c), (f2 c), (f3 c), (f4 c); reflexivity. }
  rewrite K.
  repeat match goal with |- context [existsb ?f cs] => destruct (existsb f cs) end; destruct k; reflexivity.
Qed.
Definition laden (c : child) : bool := match c with CTok _ => false | CTree _ cs => existsb bears cs end.
Lemma laden_bears c : laden c = true -> bears c = true.
Proof. destruct c as [t|k cs]; [discriminate|]. cbn [laden]. intro L. rewrite bears_tree, L. apply orb_true_r. Qed.
Lemma free_bears c : fits c -> free_sym (sym_of c) = true -> bears c = false.
Proof.
  induction c as [t|k cs IH] using child_ind2; intros F S; [reflexivity|]. rewrite bears_tree.
  pose proof (skind_all _ free_checked k) as K. unfold free_ok in K. cbn [sym_of free_sym among_sym] in S. rewrite S in K. cbn [implb] in K.
  apply andb_true_iff in K as [K1 K2]. apply negb_true_iff in K2. rewrite K2. cbn [orb]. rewrite forallb_forall in K1.
  apply not_true_iff_false. intro E. apply existsb_exists in E as (d & I & B). rewrite Forall_forall in IH.
  assert (fits d) as FD by (inversion F as [|? ? ? ? FC]; subst; rewrite Forall_forall in FC; auto).
  rewrite (IH d I FD (K1 _ (child_sym _ _ _ F I))) in B. discriminate.
Qed.
Lemma free_kids k cs : fits (CTree k cs) -> forallb free_sym (syms_of k) = true -> existsb bears cs = false.
Proof.
  intros F K. apply not_true_iff_false. intro E. apply existsb_exists in E as (d & I & B). rewrite forallb_forall in K.
  assert (fits d) as FD by (inversion F as [|? ? ? ? FC]; subst; rewrite Forall_forall in FC; auto).
  rewrite (free_bears d FD (K _ (child_sym _ _ _ F I))) in B. discriminate.
Qed.

(** An enumeration with descriptions. *)
Lemma enum_bears cs : fits (CTree KEnumList cs) -> existsb bears cs = true -> holds KDescription (CTree KEnumList cs) = true.
Proof.
  intros F E. cbn [holds]. apply existsb_exists in E as (d & I & B). assert (fits d) as FD by (inversion F as [|? ? ? ? FC]; subst; rewrite Forall_forall in FC; auto).
  apply existsb_exists. exists d. split; [exact I|]. pose proof (child_sym _ _ _ F I) as S.
  destruct d as [t|k ds]; [discriminate|]. cbn [sym_of] in S.
  assert (k = KEnumerationLiteral) as -> by (revert S; clear; intro S; vm_compute in S; intuition congruence).
  rewrite bears_tree in B. cbn [trailing orb] in B. apply existsb_exists in B as (e & J & C). cbn [holds skind_eqb orb].
  apply existsb_exists. exists e. split; [exact J|]. pose proof (child_sym _ _ _ FD J) as T.
  destruct e as [t|k es]; [discriminate|]. cbn [sym_of] in T.
  assert (k = KDescription) as -> by (revert T; clear; intro T; vm_compute in T; intuition congruence). reflexivity.
Qed.

(** ** Line breaks of the first run *)
Lemma tmap_id c : tmap (fun t => t) c = c.
Proof.
  induction c as [t|k cs IH] using child_ind2; [reflexivity|]. cbn [tmap]. f_equal.
  induction IH as [|c cs E _ IHcs]; [reflexivity|]. cbn [map]. rewrite E, IHcs. reflexivity.
Qed.
Lemma tmaps_id cs : map (tmap (fun t => t)) cs = cs.
Proof. induction cs as [|c cs IH]; [reflexivity|]. cbn [map]. rewrite IH, tmap_id. reflexivity. Qed.

(** A flag is set for a child or inside it. *)
Lemma bits_part k w all b x : forall u y, Forall fits x -> (u <> [] \/ b = false) -> exists a,
  length a = length (flat_map toks x) /\ bits_in k w all b u (x ++ y) = a ++ bits_in k w all b (rev x ++ u) y /\
  (existsb (fun z => z) a = true -> exists x1 d x2, x = x1 ++ d :: x2 /\
     (below_at k w (rev x1 ++ u) d (x2 ++ y) = true \/ existsb (fun z => z) (bits false (bequeathed k w all d) d) = true)).
Proof.
  induction x as [|d x IH]; intros u y F U; [exists []; split; [reflexivity|]; split; [reflexivity|discriminate]|].
  inversion F as [|? ? FD FX]; subst. cbn [app bits_in flat_map rev]. destruct (IH (d :: u) y FX) as (a & E & -> & H); [left; discriminate|].
  eexists. split; [|split; [rewrite app_assoc, <- app_assoc with (l := rev x); reflexivity|]].
  - rewrite !app_length, E, bits_toks. reflexivity.
  - intro A. rewrite existsb_app in A. apply orb_true_iff in A as [A|A].
    + exists [], d, x. split; [reflexivity|]. cbn [rev app]. rewrite bits_flag in A by exact FD.
      destruct (bits false (bequeathed k w all d) d) as [|z r] eqn:EB; [discriminate|]. cbn [flagged existsb] in *.
      replace (first_bit u b (below_at k w u d (x ++ y))) with (below_at k w u d (x ++ y)) in A
        by (destruct u as [|? ?]; [destruct U as [U|U]; [contradiction|rewrite U; reflexivity]|reflexivity]).
      destruct (below_at k w u d (x ++ y)); auto.
    + destruct (H A) as (x1 & e & x2 & -> & K). exists (d :: x1), e, x2. split; [reflexivity|]. cbn [rev]. rewrite <- app_assoc. exact K.
Qed.

(** A child on several lines. *)
Lemma child_spans k cs bs d : fits (CTree k cs) -> lined bs (toks (CTree k cs)) -> In d cs -> spans d = true -> spans (CTree k cs) = true.
Proof.
  intros F L I S. assert (fits d) as FD by (inversion F as [|? ? ? ? FC]; subst; rewrite Forall_forall in FC; auto).
  unfold spans in S. apply N.ltb_lt in S.
  destruct (first_line_in (fun t => t) d FD) as (x & IX & EX & _). destruct (last_line_in (fun t => t) d FD) as (y & IY & EY & _). rewrite EX, EY in S.
  assert (forall z, In z (toks d) -> In z (toks (CTree k cs))) as IN by (intros z Z; cbn [toks]; apply in_flat_map; eauto).
  apply (spans_of bs _ x y L (IN _ IX) (IN _ IY) S).
Qed.
Lemma child_lined k cs bs d : lined bs (toks (CTree k cs)) -> In d cs -> exists bs', lined bs' (toks d).
Proof.
  intros L I. apply in_split in I as (x & y & ->). cbn [toks] in L. rewrite flat_map_app in L. cbn [flat_map] in L.
  pose proof (lined_length _ _ L) as N. rewrite !app_length in N.
  rewrite <- (firstn_skipn (length (flat_map toks x)) bs) in L. apply lined_app in L as [_ L]; [|apply firstn_length_le; lia].
  rewrite <- (firstn_skipn (length (toks d)) (skipn _ bs)) in L. apply lined_app in L as [L _]; [exists (firstn (length (toks d)) (skipn (length (flat_map toks x)) bs)); exact L|].
  apply firstn_length_le. rewrite skipn_length. lia.
Qed.
Lemma apart_spans_here k cs bs : lined bs (toks (CTree k cs)) -> brackets_apart k cs = true -> spans (CTree k cs) = true.
Proof.
  intros L A. pose proof (apart_spans (fun t => t) k cs bs) as K. rewrite tmap_id, tmaps_id, map_id in K. apply K; auto.
Qed.

Definition caused (inh : bool) (c : child) : Prop := spans c = true \/ (inheriting c && inh) = true \/ laden c = true.
Lemma always_laden k cs : fits (CTree k cs) -> always_wide k cs = true -> existsb bears cs = true.
Proof.
  intros F A. destruct k; try discriminate A; cbn [always_wide] in A.
  - apply existsb_exists in A as (d & I & D). apply existsb_exists. exists d. split; [exact I|]. unfold bears.
    destruct d as [|[]]; try discriminate D. rewrite D. reflexivity.
  - cbn [holds skind_eqb orb] in A. apply orb_true_iff in A as [A|A]; apply existsb_exists in A as (d & I & D); apply existsb_exists; exists d; split; auto; unfold bears; rewrite D, ?orb_true_r; reflexivity.
Qed.
Lemma wide_caused k cs inh bs : fits (CTree k cs) -> lined bs (toks (CTree k cs)) -> wide k cs inh = true -> caused inh (CTree k cs).
Proof.
  intros F L W. rewrite wide_why, !orb_true_iff in W. unfold caused. cbn [inheriting laden]. destruct W as [[[W|W]|W]|W]; auto.
  - right. right. eapply always_laden; eauto.
  - apply andb_true_iff in W as [_ W]. left. eapply apart_spans_here; eauto.
  - apply andb_true_iff in W as [_ W]. auto.
Qed.
Lemma bequeathed_wide k w cs d : bequeathed k w cs d = true -> w = true.
Proof. unfold bequeathed. destruct k; auto. destruct d as [|[]]; auto. intro E. apply andb_true_iff in E as [E _]. exact E. Qed.

Theorem breaks_caused c : fits c -> inner_sym (sym_of c) = true -> forall bs inh, lined bs (toks c) ->
  existsb (fun x => x) (bits false inh c) = true -> caused inh c.
Proof.
  induction c as [t|k cs IH] using child_ind2; intros F S bs inh L E; [discriminate|].
  cbn [sym_of inner_sym among_sym] in S. pose proof (skind_all _ inner_checked k) as K. unfold inner_ok in K. rewrite S in K. cbn [implb] in K.
  apply andb_true_iff in K as [K _]. apply andb_true_iff in K as [K K3]. apply andb_true_iff in K as [K1 K2]. rewrite forallb_forall in K1, K2, K3.
  inversion F as [|? ? NE LG FC]; subst. rewrite bits_tree in E.
  destruct (bits_part k (wide k cs inh) cs false cs [] [] FC) as (a & LA & EA & HA); [auto|]. rewrite !app_nil_r in EA.
  rewrite EA in E. destruct (HA E) as (x & d & y & EX & [B|B]).
  - rewrite !app_nil_r in B. assert (In d cs) as I by (rewrite EX; apply in_or_app; right; left; reflexivity).
    rewrite below_why in B. apply orb_true_iff in B as [B|B].
    + right. right. cbn [laden]. apply existsb_exists. exists d. split; [exact I|].
      destruct (always_below k (kind_last (rev x)) (kind_of d) true) eqn:AB; [|rewrite (late_less _ _ _ _ AB) in B; discriminate].
      assert (trailing (sym_of d) = true) as T.
      { destruct (rev x) as [|z r] eqn:R.
        - cbn [kind_last] in AB. rewrite kind_sym in AB. assert (x = []) as -> by (apply (f_equal (@rev _)) in R; rewrite rev_involutive in R; exact R).
          rewrite EX in LG. specialize (K3 _ (initial_child _ _ _ LG)). rewrite AB in K3. discriminate.
        - cbn [kind_last] in AB. rewrite (kind_sym d) in AB. rewrite ?(kind_sym z) in AB. assert (x = rev r ++ [z]) as -> by (apply (f_equal (@rev _)) in R; rewrite rev_involutive in R; exact R).
          rewrite EX, <- app_assoc in LG. specialize (K2 _ (neighbours _ _ _ _ _ LG)). cbn [fst snd] in K2. rewrite AB in K2. exact K2. }
      destruct d as [t|k' ds]; [discriminate|]. rewrite bears_tree. cbn [sym_of] in T. rewrite T. reflexivity.
    + apply andb_true_iff in B as [_ B]. rewrite !orb_true_iff in B. destruct B as [[B|B]|B].
      * apply andb_true_iff in B as [_ B]. unfold multi_if in B. apply andb_true_iff in B as [B _]. left. eapply child_spans; eauto.
      * left. unfold turns in B. destruct (rev x) as [|z r] eqn:R; [discriminate|]. destruct y as [|e y]; [discriminate|]. cbn [last_of] in B.
        apply andb_true_iff in B as [_ B]. apply N.ltb_lt in B. assert (x = rev r ++ [z]) as -> by (apply (f_equal (@rev _)) in R; rewrite rev_involutive in R; exact R).
        assert (In z cs) as IZ by (rewrite EX; apply in_or_app; left; apply in_or_app; right; left; reflexivity).
        assert (In e cs) as IE by (rewrite EX; apply in_or_app; right; right; left; reflexivity).
        rewrite Forall_forall in FC. destruct (last_line_in (fun t => t) z (FC z IZ)) as (p & IP & EP & _). destruct (first_line_in (fun t => t) e (FC e IE)) as (q & IQ & EQ & _).
        assert (forall m n, In n cs -> In m (toks n) -> In m (toks (CTree k cs))) as IN by (intros m n Z1 Z2; cbn [toks]; apply in_flat_map; eauto).
        rewrite EP, EQ in B. pose proof (lined_in _ _ _ L (IN _ _ IZ IP)). pose proof (lined_in _ _ _ L (IN _ _ IE IQ)).
        apply (spans_of bs _ p q L (IN _ _ IZ IP) (IN _ _ IE IQ)). lia.
      * apply andb_true_iff in B as [B _]. eapply wide_caused; eauto.
  - assert (In d cs) as I by (rewrite EX; apply in_or_app; right; left; reflexivity).
    rewrite Forall_forall in IH, FC. destruct (child_lined _ _ _ _ L I) as (bs' & LD).
    destruct (IH d I (FC d I) (K1 _ (child_sym _ _ _ F I)) bs' _ LD B) as [C|[C|C]].
    + left. eapply child_spans; eauto.
    + apply andb_true_iff in C as [_ C]. apply bequeathed_wide in C. eapply wide_caused; eauto.
    + right. right. cbn [laden]. apply existsb_exists. exists d. split; [exact I|]. apply laden_bears. exact C.
Qed.

(** ** Brackets *)
Definition between_sym (k : skind) (x : sym) : bool :=
  match k with
  | KShortClassSpecifier => match x with Rule KEnumList | Term TColon => true | _ => false end
  | KImportClause => match x with Rule KImportList => true | _ => false end
  | _ => match x with Term t => negb (closing k t) && negb (tkind_eqb t TWithin) | Rule _ => free_sym x end
  end.
Definition between_ok (k : skind) : bool :=
  implb (by_apart k)
    (forallb (fun p => implb (match fst p with Term o => opening k o | Rule _ => false end || between_sym k (fst p))
                        (match snd p with Term c => closing k c | Rule _ => false end || between_sym k (snd p))) (pairs (prod k))).
Lemma between_checked : forallb between_ok all_skinds = true.
Proof. vm_compute. reflexivity. Qed.
Lemma between_brackets k u o x c y : by_apart k = true -> lang (prod k) (map sym_of (u ++ CTok o :: x ++ CTok c :: y)) ->
  opens k o = true -> closes k c = true -> forall d, In d x -> between_sym k (sym_of d) = true.
Proof.
  intros B L O C. pose proof (skind_all _ brackets_checked k) as K. unfold brackets_ok in K. rewrite B in K. cbn [implb] in K.
  apply andb_true_iff in K as [K _]. destruct (words (bracket k) (prod k)) as [ws|] eqn:W; [|discriminate].
  pose proof (words_complete _ _ _ L _ W) as IN. rewrite forallb_forall in K. specialize (K _ IN). clear IN W ws.
  rewrite !map_app, !filter_app in K. cbn [map sym_of] in K. rewrite map_app in K. cbn [map sym_of filter] in K. rewrite filter_app in K. cbn [filter] in K. cbn [bracket] in K.
  unfold opens in O. unfold closes in C. rewrite O, C in K. cbn [orb] in K. rewrite orb_true_r in K.
  assert (filter (bracket k) (map sym_of x) = []) as FX.
  { destruct (filter (bracket k) (map sym_of u)) as [|a [|a' fu]]; cbn [app] in K.
    - destruct (filter (bracket k) (map sym_of x)) as [|a [|a' fx]]; [reflexivity|cbn in K; destruct a; discriminate|cbn in K; destruct a; discriminate].
    - destruct (filter (bracket k) (map sym_of x)) as [|b fx]; cbn [app one_pair] in K; destruct a; discriminate.
    - cbn [one_pair] in K. destruct a; [|discriminate]. destruct a'; [|discriminate]. destruct fu; discriminate. }
  clear K. pose proof (skind_all _ between_checked k) as K. unfold between_ok in K. rewrite B in K. cbn [implb] in K. rewrite forallb_forall in K.
  assert (forall x u p, lang (prod k) (map sym_of (u ++ p :: x ++ CTok c :: y)) -> filter (bracket k) (map sym_of x) = [] ->
    match sym_of p with Term o => opening k o | Rule _ => false end || between_sym k (sym_of p) = true -> forall d, In d x -> between_sym k (sym_of d) = true) as Z.
  { clear x u FX L. induction x as [|e x IH]; intros u p L FX P d I; [contradiction|].
    assert (between_sym k (sym_of e) = true) as BE.
    { cbn [app] in L. specialize (K _ (neighbours _ _ _ _ _ L)). cbn [fst snd] in K. rewrite P in K. cbn [implb] in K.
      apply orb_true_iff in K as [K|K]; [|exact K]. destruct (sym_of e) as [t|] eqn:SE; [|discriminate].
      cbn [map filter] in FX. rewrite SE in FX. cbn [bracket] in FX. rewrite K, orb_true_r in FX. discriminate. }
    destruct I as [<-|I]; [exact BE|]. apply (IH (u ++ [p]) e); auto.
    - rewrite <- app_assoc. exact L.
    - cbn [map filter] in FX. destruct (bracket k (sym_of e)); [discriminate|exact FX].
    - rewrite BE. apply orb_true_r. }
  apply (Z x u (CTok o) L FX). cbn [sym_of]. rewrite O. reflexivity.
Qed.
Lemma between_beside k p x w m l s : by_apart k = true -> between_sym k x = true \/ (exists c, x = Term c /\ closing k c = true) -> value k x && m = false ->
  is_below (position_of k w false m l s p x) = true -> w = true.
Proof.
  intros B X V. unfold position_of. rewrite V.
  assert (fixed_position k p x = None) as -> by (destruct k; try discriminate B; reflexivity).
  assert (trailing x = false) as ->.
  { destruct X as [X|(c & -> & _)]; [|reflexivity]. destruct x as [t|r]; [reflexivity|].
    destruct k; try discriminate B; cbn [between_sym] in X; try (pose proof (skind_all _ free_checked r) as K; unfold free_ok in K; cbn [free_sym among_sym] in X; rewrite X in K; cbn [implb] in K; apply andb_true_iff in K as [_ K]; apply negb_true_iff in K; exact K);
      destruct r; try discriminate X; reflexivity. }
  assert (match x with Term TWithin => true | _ => false end = false) as ->.
  { destruct X as [X|(c & -> & X)]; [|destruct c; try reflexivity; destruct k; discriminate X].
    destruct x as [t|r]; [|reflexivity]. destruct t; try reflexivity. destruct k; try discriminate B; discriminate X. }
  rewrite andb_false_r, !orb_false_r. cbn [andb orb]. destruct w; [reflexivity|]. cbn [andb].
  destruct p as [[?|[]]|]; try discriminate. destruct s; discriminate.
Qed.

Lemma order_here bs k p q t e : lined bs (toks (CTree k (p ++ q))) -> In t (flat_map toks p) -> In e (flat_map toks q) -> line (tend t) <= line (tstart e).
Proof.
  intros L T E. cbn [toks] in L. rewrite flat_map_app in L. pose proof (lined_length _ _ L) as N. rewrite app_length in N.
  rewrite <- (firstn_skipn (length (flat_map toks p)) bs) in L.
  refine (proj1 (lined_order _ _ _ _ t e _ L T E)). apply firstn_length_le. lia.
Qed.

Section First.
Variable g : token -> token.
Hypothesis G : relined g.
Notation tg := (tmap g).

Section Node.
Variables (k : skind) (cs : list child) (inh inh' : bool) (bs : list bool).
Hypothesis F : fits (CTree k cs).
Hypothesis L0 : lined bs (toks (CTree k cs)).
Hypothesis L1 : lined (bits false inh (CTree k cs)) (toks (tg (CTree k cs))).
Hypothesis I1 : inherits k = true -> inh' = inh.
Hypothesis I2 : inherits k = true -> existsb bears cs = true -> inh = true.
Hypothesis ST : crowded k cs = true -> existsb bears cs = true -> spans (CTree k cs) = true.
Notation w0 := (wide k cs inh).
Notation w1 := (wide k (map tg cs) inh').

Lemma inner_kid d : In d cs -> among k inner_kinds = true -> inner_sym (sym_of d) = true.
Proof.
  intros I K. pose proof (skind_all _ inner_checked k) as C. unfold inner_ok in C. rewrite K in C. cbn [implb] in C.
  apply andb_true_iff in C as [C _]. apply andb_true_iff in C as [C _]. apply andb_true_iff in C as [C _]. rewrite forallb_forall in C.
  apply C. eapply child_sym; eauto.
Qed.
Lemma inner_here : widable k || operator k || value_kind k = true -> among k inner_kinds = true.
Proof.
  intro K. pose proof (skind_all _ inner_checked k) as C. unfold inner_ok in C. apply andb_true_iff in C as [_ C]. rewrite K in C. exact C.
Qed.
Lemma kid_fits d : In d cs -> fits d.
Proof. intro I. inversion F as [|? ? ? ? FC]; subst. rewrite Forall_forall in FC. auto. Qed.

Lemma apart_back : by_apart k = true -> brackets_apart k (map tg cs) = true -> w0 = true.
Proof.
  intros B A. assert (lang (prod k) (map sym_of cs)) as LG by (inversion F; assumption).
  destruct (apart_split k cs B LG g (re_kind g G) A) as (u & o & x & c & y & E & O & C & LT).
  assert (among k inner_kinds = true) as INN by (apply inner_here; unfold widable; rewrite B, orb_true_r; reflexivity).
  assert (line (tstart o) < line (tstart c) -> w0 = true) as DONE.
  { intro LT0. rewrite wide_why, B. cbn [andb].
    pose proof (split_apart k u o x c y (fun t => t) (fun t => eq_refl) O C LT0) as K. rewrite tmaps_id, <- E in K. rewrite K, orb_true_r. reflexivity. }
  assert (forall t e, (t = o \/ In t (flat_map toks x)) -> (e = o \/ In e (flat_map toks x)) -> line (tstart t) < line (tend e) -> line (tstart o) < line (tstart c)) as ORD.
  { intros t e T EE LL.
    assert (In o (toks (CTree k cs))) as IO by (cbn [toks]; rewrite E, flat_map_app; apply in_or_app; right; left; reflexivity).
    pose proof (lined_in _ _ _ L0 IO) as OO.
    assert (line (tstart o) <= line (tstart t)) as P1.
    { destruct T as [->|T]; [lia|]. assert (line (tend o) <= line (tstart t)); [|lia].
      assert (L := L0). rewrite E in L. replace (rev u ++ CTok o :: x ++ CTok c :: y) with ((rev u ++ [CTok o]) ++ x ++ CTok c :: y) in L by (rewrite <- app_assoc; reflexivity).
      apply (order_here _ _ _ _ _ _ L); [rewrite flat_map_app; apply in_or_app; right; left; reflexivity|rewrite flat_map_app; apply in_or_app; left; exact T]. }
    assert (line (tend e) <= line (tstart c)) as P2.
    { assert (L := L0). rewrite E in L. replace (rev u ++ CTok o :: x ++ CTok c :: y) with ((rev u ++ CTok o :: x) ++ CTok c :: y) in L by (rewrite <- app_assoc; reflexivity).
      apply (order_here _ _ _ _ _ _ L); [rewrite flat_map_app; apply in_or_app; right; cbn [flat_map toks app]|left; reflexivity].
      destruct EE as [->|EE]; [left; reflexivity|right; exact EE]. }
    lia. }
  assert (forall d, In d x -> spans d = true -> w0 = true) as SP.
  { intros d I S. apply DONE. assert (fits d) as FD by (apply kid_fits; rewrite E; apply in_or_app; right; right; apply in_or_app; auto).
    unfold spans in S. apply N.ltb_lt in S.
    destruct (first_line_in (fun t => t) d FD) as (p & IP & EP & _). destruct (last_line_in (fun t => t) d FD) as (q & IQ & EQ & _). rewrite EP, EQ in S.
    apply (ORD p q); [right; apply in_flat_map; eauto|right; apply in_flat_map; eauto|exact S]. }
  assert (E2 : cs = rev (CTok o :: u) ++ (x ++ [CTok c]) ++ y) by (rewrite E; cbn [rev]; rewrite <- !app_assoc; reflexivity).
  destruct (bits_part k w0 cs false (x ++ [CTok c]) (CTok o :: u) y) as (a & LA & EA & HA).
  { inversion F as [|? ? ? ? FC]; subst k0 cs0. rewrite E2 in FC. apply Forall_app in FC as [_ FC]. apply Forall_app in FC as [FC _]. exact FC. }
  { left. discriminate. }
  pose proof (between_bits k w0 cs false u o x c y g a _ E (flat_lines g _ _ _ L1) EA LA) as B1. apply B1 in LT. clear B1.
  destruct LT as [LT|LT].
  2:{ rewrite (tall_map g G) in LT. apply DONE. apply existsb_exists in LT as (t & IT & TT). unfold tall in TT. apply N.ltb_lt in TT.
      apply (ORD t t); auto; destruct IT as [<-|IT]; auto. }
  destruct w0 eqn:W; [reflexivity|exfalso]. assert (BET := between_brackets k (rev u) o x c y B). rewrite <- E in BET. specialize (BET LG O C).
  destruct (HA LT) as (x1 & d & x2 & EX & H).
  assert (In d x \/ d = CTok c) as ID.
  { assert (In d (x ++ [CTok c])) as K by (rewrite EX; apply in_or_app; right; left; reflexivity). apply in_app_or in K as [K|[K|[]]]; auto. }
  destruct H as [H|H].
  - destruct (value k (kind_of d) && multi_if d) eqn:V.
    + destruct ID as [ID| ->]; [|cbn [kind_of] in V; destruct k; discriminate]. apply andb_true_iff in V as [_ V]. unfold multi_if in V. apply andb_true_iff in V as [V _].
      discriminate (SP d ID V).
    + unfold below_at in H.
      assert (turns k (last_of (rev x1 ++ CTok o :: u)) d (x2 ++ y) = false) as T.
      { unfold turns. destruct (last_of (rev x1 ++ CTok o :: u)); [|reflexivity]. destruct (x2 ++ y); [reflexivity|]. destruct k; try discriminate B; reflexivity. }
      rewrite T in H. apply between_beside in H; auto; [discriminate|]. rewrite kind_sym. destruct ID as [ID| ->]; [left; auto|right].
      exists (tkind_of c). auto.
  - destruct ID as [ID| ->]; [|discriminate].
    assert (In d cs) as IC by (rewrite E; apply in_or_app; right; right; apply in_or_app; auto).
    destruct (child_lined _ _ _ _ L0 IC) as (bs' & LD).
    destruct (breaks_caused d (kid_fits d IC) (inner_kid d IC INN) bs' _ LD H) as [K|[K|K]].
    + discriminate (SP d ID K).
    + apply andb_true_iff in K as [_ K]. apply bequeathed_wide in K. discriminate.
    + specialize (BET d ID). assert (FD := kid_fits d IC). destruct d as [t|kd ds]; [discriminate|]. cbn [laden sym_of] in K, BET.
      assert (free_sym (Rule kd) = true \/ (k = KShortClassSpecifier /\ kd = KEnumList)) as [FR|[-> ->]].
      { clear - BET B. destruct k; try discriminate B; cbn [between_sym] in BET; auto; destruct kd; try discriminate BET; auto. }
      * pose proof (free_bears _ FD FR) as Z. rewrite bears_tree, K, orb_true_r in Z. discriminate.
      * assert (always_wide KShortClassSpecifier cs = true) as AW.
        { cbn [always_wide]. apply existsb_exists. exists (CTree KEnumList ds). split; [exact IC|]. apply enum_bears; auto. }
        rewrite wide_why, AW, orb_true_r in W. discriminate.
Qed.

Lemma spans_back : among k inner_kinds = true -> spans (tg (CTree k cs)) = true -> caused inh (CTree k cs).
Proof.
  intros INN S. destruct (bits false inh (CTree k cs)) as [|b r] eqn:EB; [apply (bits_some _ _ _ F) in EB; contradiction|].
  rewrite (spans_bits b r _ L1) in S. destruct S as [S|S].
  - apply (breaks_caused _ F INN bs inh L0). rewrite EB. cbn [existsb]. rewrite S. apply orb_true_r.
  - rewrite (toks_map g), (tall_map g G) in S. left. destruct bs as [|z bs']; [destruct (toks (CTree k cs)) eqn:ET; [apply toks_some in F; contradiction|contradiction]|].
    apply (spans_bits z bs' _ L0). auto.
Qed.

Lemma wide_back : w1 = true -> w0 = true.
Proof.
  intro W. rewrite wide_why, !orb_true_iff in W. destruct W as [[[W|W]|W]|W].
  - apply andb_true_iff in W as [W1 W2]. rewrite wide_why, W1, <- (I1 W1), W2. reflexivity.
  - rewrite (always_wide_map g) in W. rewrite wide_why, W, orb_true_r. reflexivity.
  - apply andb_true_iff in W as [W1 W2]. apply apart_back; auto.
  - apply andb_true_iff in W as [W1 W2]. apply andb_true_iff in W1 as [BS LE].
    assert (long_enough k cs = true) as LE0 by (unfold long_enough in *; destruct k; rewrite ?map_length in LE; exact LE).
    assert (spans (CTree k cs) = true -> w0 = true) as SW by (intro S; rewrite wide_why, BS, LE0, S, !orb_true_r; reflexivity).
    assert (among k inner_kinds = true) as INN by (apply inner_here; unfold widable; rewrite BS, !orb_true_r; reflexivity).
    destruct (spans_back INN W2) as [K|[K|K]]; [auto|cbn [inheriting] in K; rewrite wide_why, K; reflexivity|]. cbn [laden] in K.
    destruct (inherits k) eqn:IN; [rewrite wide_why, IN, (I2 eq_refl K); reflexivity|].
    destruct (forallb free_sym (syms_of k)) eqn:FS; [rewrite (free_kids _ _ F FS) in K; discriminate|].
    destruct k; try discriminate BS; try discriminate IN; try (vm_compute in FS; discriminate FS).
    + apply SW. apply ST; auto.
    + apply SW. apply ST; auto.
    + destruct (always_wide KClassModification cs) eqn:AW; [rewrite wide_why, AW, orb_true_r; reflexivity|].
      apply SW. apply ST; [|exact K]. cbn [crowded]. apply negb_true_iff. apply not_true_iff_false. intro X. apply existsb_exists in X as (d & I & D).
      unfold always_wide in AW. apply orb_true_iff in D as [D|D].
      * assert (holds KDescription (CTree KClassModification cs) = true) as X by (cbn [holds skind_eqb orb]; apply existsb_exists; eauto). rewrite X in AW. discriminate.
      * assert (holds KDescriptionString (CTree KClassModification cs) = true) as X by (cbn [holds skind_eqb orb]; apply existsb_exists; eauto). rewrite X, orb_true_r in AW. discriminate.
Qed.

Lemma wide_loss : w1 = w0 \/ (w0 = true /\ w1 = false /\ ~ spread_child k cs).
Proof.
  destruct w1 eqn:W1; [left; symmetry; apply wide_back; exact W1|]. destruct w0 eqn:W0; [right|left; reflexivity].
  split; [reflexivity|]. split; [reflexivity|]. intro S.
  rewrite (wide_stays g G k cs inh inh' F L1 W0 S) in W1; [discriminate|]. intros IN E. rewrite (I1 IN). exact E.
Qed.

Lemma kid_lines u d v : cs = rev u ++ d :: v -> lined (bits false (bequeathed k w0 cs d) d) (toks (tg d)).
Proof.
  intro E. apply (node_child g k w0 cs false (rev u) d v); [apply kid_fits; rewrite E; apply in_or_app; right; left; reflexivity|].
  pose proof (flat_lines g _ _ _ L1) as L. rewrite E in L at 3 4. exact L.
Qed.
(** A child that spans lines in the output, but has nothing in it that must start a line. *)
Lemma kid_back u d v : cs = rev u ++ d :: v -> inner_sym (sym_of d) = true -> inheriting d = false -> laden d = false ->
  spans (tg d) = true -> spans d = true.
Proof.
  intros E INN NI NL S. pose proof (kid_lines u d v E) as L. assert (In d cs) as I by (rewrite E; apply in_or_app; right; left; reflexivity).
  assert (FD := kid_fits d I). destruct (child_lined _ _ _ _ L0 I) as (bs' & LD).
  destruct (bits false (bequeathed k w0 cs d) d) as [|b r] eqn:EB; [apply (bits_some _ _ _ FD) in EB; contradiction|].
  rewrite (spans_bits b r _ L) in S. destruct S as [S|S].
  - destruct (breaks_caused d FD INN bs' (bequeathed k w0 cs d) LD) as [K|[K|K]]; [rewrite EB; cbn [existsb]; rewrite S; apply orb_true_r|exact K|rewrite NI in K; discriminate|congruence].
  - rewrite (toks_map g), (tall_map g G) in S. destruct bs' as [|z bs']; [destruct (toks d) eqn:ET; [apply toks_some in FD; contradiction|contradiction]|].
    apply (spans_bits z bs' _ LD). auto.
Qed.
Definition value_free (k : skind) : bool := implb (value_kind k) (forallb free_sym (syms_of k) && negb (inherits k)).
Lemma values_checked : forallb value_free all_skinds = true.
Proof. vm_compute. reflexivity. Qed.
Lemma multi_same u d v : cs = rev u ++ d :: v -> value k (kind_of d) = true -> multi_if (tg d) = multi_if d.
Proof.
  intros E V. assert (In d cs) as I by (rewrite E; apply in_or_app; right; left; reflexivity). assert (FD := kid_fits d I).
  rewrite multi_map by auto. unfold multi_if at 1. destruct (match toks d with [] => false | t :: _ => tkind_eqb (tkind_of t) TIf end) eqn:T; [|rewrite !andb_false_r; reflexivity].
  rewrite !andb_true_r. apply eq_true_iff_eq. split; intro S.
  - assert (V' := V). apply value_kinds in V' as (kd & ds & -> & VK).
    pose proof (skind_all _ values_checked kd) as C. unfold value_free in C. rewrite VK in C. cbn [implb] in C. apply andb_true_iff in C as [C1 C2]. apply negb_true_iff in C2.
    apply (kid_back u _ v E); auto.
    + pose proof (skind_all _ inner_checked kd) as C. unfold inner_ok in C. apply andb_true_iff in C as [_ C]. rewrite VK, orb_true_r in C. exact C.
    + cbn [laden]. apply (free_kids kd ds FD C1).
  - pose proof (kid_lines u d v E) as L.
    assert (multi_if d = true) as M by (unfold multi_if; rewrite S, T; reflexivity).
    pose proof (multi_breaks d (bequeathed k w0 cs d) k FD V M) as MB.
    destruct (bits false _ d) as [|x r]; [discriminate|]. apply (spans_bits x r _ L). left. exact MB.
Qed.
Definition operands_free (k : skind) : bool := implb (operator k) (forallb free_sym (syms_of k)).
Lemma operands_checked : forallb operands_free all_skinds = true.
Proof. vm_compute. reflexivity. Qed.
Lemma turns_back u d v : cs = rev u ++ d :: v -> turns k (last_of (map tg u)) (tg d) (map tg v) = turns k (last_of u) d v.
Proof.
  intro E. apply eq_true_iff_eq. split; intro T.
  2:{ apply (turn_breaks g G k w0 cs false u d v F E (flat_lines g _ _ _ L1) T). }
  destruct (turns k (last_of u) d v) eqn:T1; [reflexivity|exfalso].
  destruct u as [|a u]; [discriminate|]. destruct v as [|e v]; [discriminate|]. unfold turns in T. cbn [map last_of] in T.
  apply andb_true_iff in T as [O LT]. rewrite (kind_map g G) in O. apply N.ltb_lt in LT.
  assert (T1' := T1). unfold turns in T1'. cbn [last_of] in T1'. rewrite O in T1'. cbn [andb] in T1'. apply N.ltb_ge in T1'.
  assert (operator k = true) as OK by (destruct k; try discriminate O; reflexivity).
  pose proof (skind_all _ operators_checked k) as C. unfold operators_ok in C. rewrite OK in C. cbn [implb] in C.
  apply andb_true_iff in C as [C C3]. apply andb_true_iff in C as [C1 C2]. apply negb_true_iff in C1.
  assert (w0 = false) as W by (destruct w0 eqn:W; [apply wide_widable in W; congruence|reflexivity]).
  rewrite forallb_forall in C2, C3. assert (lang (prod k) (map sym_of cs)) as LG by (inversion F; assumption).
  assert (In (sym_of a, sym_of d) (pairs (prod k))) as P1.
  { eapply pairs_complete; [exact LG|]. exists (map sym_of (rev u)), (map sym_of (e :: v)). rewrite E. cbn [rev]. rewrite <- app_assoc, map_app. reflexivity. }
  assert (In (sym_of d, sym_of e) (pairs (prod k))) as P2.
  { eapply pairs_complete; [exact LG|]. exists (map sym_of (rev (a :: u))), (map sym_of v). rewrite E, map_app. reflexivity. }
  specialize (C2 _ P2). specialize (C3 _ P1). cbn [fst snd] in C2, C3. rewrite <- (kind_sym d), <- (kind_sym e) in C2. rewrite <- (kind_sym d), <- (kind_sym a) in C3. rewrite O in C2, C3. cbn [implb] in C2, C3.
  repeat (apply andb_true_iff in C2 as [C2 ?Q]). apply andb_true_iff in C3 as [C3 V3].
  repeat match goal with K : negb _ = true |- _ => apply negb_true_iff in K end.
  assert (E' : cs = rev (d :: a :: u) ++ e :: v) by (rewrite E; cbn [rev]; rewrite <- !app_assoc; reflexivity).
  assert (In d cs) as ID by (rewrite E; apply in_or_app; right; left; reflexivity).
  assert (In e cs) as IE by (rewrite E; apply in_or_app; right; right; left; reflexivity).
  assert (In a cs) as IA by (rewrite E; cbn [rev]; rewrite <- app_assoc; apply in_or_app; right; left; reflexivity).
  assert (FD := kid_fits d ID). assert (FE := kid_fits e IE). assert (FA := kid_fits a IA).
  pose proof (flat_lines g _ _ _ L1) as L.
  assert (last_line (tg a) = first_line (tg d)) as J1.
  { apply (node_join g k w0 cs false u a d (e :: v) FA FD).
    - rewrite <- E. exact L.
    - rewrite below_why. cbn [kind_last]. rewrite W, (late_less _ _ _ _ C3), V3, T1. cbn [andb orb]. apply andb_false_r.
    - apply (calm_first d FD). rewrite <- kind_sym. exact C2. }
  assert (last_line (tg d) = first_line (tg e)) as J2.
  { apply (node_join g k w0 cs false (a :: u) d e v FD FE).
    - rewrite <- E'. exact L.
    - rewrite below_why. cbn [kind_last]. rewrite W, (late_less _ _ _ _ Q0), Q.
      unfold turns. cbn [last_of]. destruct v; rewrite ?Q1; cbn [andb orb]; apply andb_false_r.
    - apply (calm_first e FE). rewrite <- kind_sym. exact Q2. }
  assert (spans (tg d) = true) as S by (unfold spans; apply N.ltb_lt; lia).
  assert (among k inner_kinds = true) as INN by (apply inner_here; rewrite OK, orb_true_r; reflexivity).
  pose proof (skind_all _ operands_checked k) as FR. unfold operands_free in FR. rewrite OK in FR. cbn [implb] in FR. rewrite forallb_forall in FR.
  apply (kid_back (a :: u) d (e :: v) E (inner_kid d ID INN)) in S.
  - unfold spans in S. apply N.ltb_lt in S.
    destruct (first_line_in (fun t => t) d FD) as (p & IP & EP & _). destruct (last_line_in (fun t => t) d FD) as (q & IQ & EQ & _).
    destruct (last_line_in (fun t => t) a FA) as (p' & IP' & EP' & _). destruct (first_line_in (fun t => t) e FE) as (q' & IQ' & EQ' & _).
    rewrite EP, EQ in S. rewrite EP', EQ' in T1'.
    assert (line (tend p') <= line (tstart p)) as R1.
    { assert (L' := L0). rewrite E in L'. apply (order_here _ _ _ _ _ _ L').
      - cbn [rev]. rewrite flat_map_app. cbn [flat_map]. rewrite app_nil_r. apply in_or_app. auto.
      - cbn [flat_map]. apply in_or_app. auto. }
    assert (line (tend q) <= line (tstart q')) as R2.
    { assert (L' := L0). rewrite E' in L'. apply (order_here _ _ _ _ _ _ L').
      - cbn [rev]. rewrite flat_map_app. cbn [flat_map]. rewrite app_nil_r. apply in_or_app. auto.
      - cbn [flat_map]. apply in_or_app. auto. }
    lia.
  - rewrite <- inherits_of, <- kind_sym. exact Q3.
  - apply not_true_iff_false. intro LD. apply laden_bears in LD. rewrite (free_bears d FD (FR _ (child_sym _ _ _ F ID))) in LD. discriminate.
Qed.

(** The wrapping of the node does not matter where it changes. *)
Lemma spread_loss u d v : cs = rev u ++ d :: v -> w0 = true -> ~ spread_child k cs -> spread_free k (kind_last u) (kind_of d) = false.
Proof.
  intros E W N. apply not_true_iff_false. intro S. apply N. assert (lang (prod k) (map sym_of cs)) as LG by (inversion F; assumption).
  eapply spread_any; eauto.
Qed.
Lemma heir_loss u d v : cs = rev u ++ d :: v -> w0 = true -> w1 = false -> ~ spread_child k cs -> inheriting d = false.
Proof.
  intros E W0 W1 N. apply not_true_iff_false. intro S. assert (lang (prod k) (map sym_of cs)) as LG by (inversion F; assumption).
  destruct u as [|a u].
  - assert (passes k = true) as P by (eapply inheriting_first; [|exact W0|exact S]; rewrite E in LG; exact LG).
    assert (inherits k = true) as IN by (destruct k; try discriminate P; reflexivity). specialize (I1 IN).
    rewrite wide_why in *. clear I2 ST L1 L0 F. destruct k; try discriminate P; cbn in *; rewrite ?orb_false_r in *; congruence.
  - apply N. exists u, a, d, v. split; [exact E|]. eapply inheriting_next; eauto.
Qed.
Lemma position_loss u d v turn m l s : cs = rev u ++ d :: v ->
  position_of k w1 turn m l s (kind_last u) (kind_of d) = position_of k w0 turn m l s (kind_last u) (kind_of d).
Proof.
  intro E. destruct wide_loss as [->|(W0 & W1 & N)]; [reflexivity|]. pose proof (spread_loss u d v E W0 N) as S.
  rewrite W0, W1. unfold position_of. unfold spread_free, fixed_none in S. destruct (fixed_position k (kind_last u) (kind_of d)); [reflexivity|].
  cbn [andb] in S. rewrite S. reflexivity.
Qed.
Lemma deeper_loss u d v m : cs = rev u ++ d :: v -> deeper k w1 m (kind_last u) (kind_of d) = deeper k w0 m (kind_last u) (kind_of d).
Proof.
  intro E. destruct wide_loss as [->|(W0 & W1 & N)]; [reflexivity|]. pose proof (heir_loss u d v E W0 W1 N) as S.
  assert (k <> KComponentList) as NK.
  { intros ->. assert (lang (prod KComponentList) (map sym_of cs)) as LG by (inversion F; assumption).
    destruct cs as [|c r]; [inversion F; contradiction|]. apply N. apply (spread_any KComponentList [] c r inh (c :: r)); auto.
    pose proof (initial_child _ _ _ LG) as I0. cbn [kind_last].
    assert (sym_of c = Rule KComponentDeclaration) as -> by (revert I0; generalize (sym_of c); clear; intros x I0; vm_compute in I0; intuition congruence). reflexivity. }
  rewrite W0, W1. unfold deeper. assert (indented k false = indented k true) as -> by (destruct k; try reflexivity; contradiction).
  destruct d as [t|kd ds]; cbn [kind_of]; [destruct k; reflexivity|]. cbn [inheriting] in S. destruct kd; try discriminate S; destruct k; reflexivity.
Qed.
Lemma heirs_same u d v : cs = rev u ++ d :: v -> inheriting d = true -> bequeathed k w1 (map tg cs) (tg d) = bequeathed k w0 cs d.
Proof.
  intros E S. rewrite (bequeathed_map g). destruct wide_loss as [->|(W0 & W1 & N)]; [reflexivity|].
  rewrite (heir_loss u d v E W0 W1 N) in S. discriminate.
Qed.
Definition heirs_ok (k : skind) : bool :=
  forallb (fun x => implb (inherits_sym x)
     (match x with
      | Rule KArgumentList => skind_eqb k KClassModification
      | Rule KArgumentOrInheritanceModificationList => skind_eqb k KClassOrInheritanceModification
      | Rule KEnumList => skind_eqb k KShortClassSpecifier
      | Rule r => forallb free_sym (syms_of r)
      | Term _ => true
      end)) (syms_of k).
Lemma heirs_checked : forallb heirs_ok all_skinds = true.
Proof. vm_compute. reflexivity. Qed.
Lemma heirs_wide u d v : cs = rev u ++ d :: v -> inheriting d = true -> laden d = true -> bequeathed k w0 cs d = true.
Proof.
  intros E IN LD. assert (In d cs) as ID by (rewrite E; apply in_or_app; right; left; reflexivity). assert (FD := kid_fits d ID).
  pose proof (skind_all _ heirs_checked k) as C. unfold heirs_ok in C. rewrite forallb_forall in C. specialize (C _ (child_sym _ _ _ F ID)).
  rewrite inherits_of, IN in C. cbn [implb] in C. destruct d as [t|kd ds]; [discriminate|]. cbn [sym_of laden inheriting] in *.
  assert (existsb bears cs = true) as LC by (apply existsb_exists; exists (CTree kd ds); split; [exact ID|]; rewrite bears_tree, LD; apply orb_true_r).
  assert (crowded k cs = true -> by_span k = true -> long_enough k cs = true -> w0 = true) as CR.
  { intros C1 C2 C3. rewrite wide_why, C2, C3, (ST C1 LC), !orb_true_r. reflexivity. }
  assert (forall r, kd = r -> forallb free_sym (syms_of r) = true -> False) as FR.
  { intros r -> Z. rewrite (free_kids _ _ FD Z) in LD. discriminate. }
  destruct kd; try discriminate IN; try (exfalso; eapply FR; [reflexivity|exact C]).
  - apply skind_eqb_eq in C. assert (always_wide k cs = true) as AW.
    { rewrite C. cbn [always_wide]. apply existsb_exists. exists (CTree KEnumList ds). split; [exact ID|]. apply enum_bears; auto. }
    unfold bequeathed. rewrite wide_why, AW, orb_true_r. cbn [orb]. destruct k; reflexivity.
  - apply skind_eqb_eq in C. assert (crowded k cs = true) as CC.
    { rewrite C. cbn [crowded]. apply Nat.ltb_lt. rewrite E. rewrite C in F. inversion F as [|? ? NE LG FC]; subst k0 cs0. rewrite E in LG.
      destruct u as [|a u]; [exfalso; cbn [rev app] in LG; pose proof (initial_child _ _ _ LG) as Z; clear - Z; vm_compute in Z; intuition congruence|].
      destruct v as [|e v]; [exfalso; pose proof (final_child _ _ _ LG) as Z; clear - Z; vm_compute in Z; intuition congruence|].
      cbn [rev]. rewrite !app_length. cbn [length]. lia. }
    assert (long_enough k cs = true) as LE by (rewrite C in CC |- *; exact CC).
    unfold bequeathed. rewrite CR by (auto; rewrite C; reflexivity). rewrite C. reflexivity.
  - apply skind_eqb_eq in C. assert (w0 = true) as W.
    { destruct (always_wide k cs) eqn:AW; [rewrite wide_why, AW, orb_true_r; reflexivity|]. apply CR; [|rewrite C; reflexivity|rewrite C; reflexivity].
      rewrite C in AW |- *. cbn [crowded]. apply negb_true_iff. apply not_true_iff_false. intro X. apply existsb_exists in X as (e & I & D).
      unfold always_wide in AW. apply orb_true_iff in D as [D|D].
      * assert (holds KDescription (CTree KClassModification cs) = true) as X by (cbn [holds skind_eqb orb]; apply existsb_exists; eauto). rewrite X in AW. discriminate.
      * assert (holds KDescriptionString (CTree KClassModification cs) = true) as X by (cbn [holds skind_eqb orb]; apply existsb_exists; eauto). rewrite X, orb_true_r in AW. discriminate. }
    unfold bequeathed. rewrite W. rewrite C. reflexivity.
Qed.
End Node.

(** ** Both runs ask for the same *)
Inductive alike2 : bool -> bool -> child -> Prop :=
| alike_tok inh inh' t : alike2 inh inh' (CTok t)
| alike_tree inh inh' k cs :
    (forall u d v, cs = rev u ++ d :: v ->
       turns k (last_of (map tg u)) (tg d) (map tg v) = turns k (last_of u) d v /\
       (forall turn s, position_of k (wide k (map tg cs) inh') turn (multi_if (tg d)) (is_late (tg d)) s (kind_last u) (kind_of d) =
                       position_of k (wide k cs inh) turn (multi_if d) (is_late d) s (kind_last u) (kind_of d)) /\
       deeper k (wide k (map tg cs) inh') (multi_if (tg d)) (kind_last u) (kind_of d) =
       deeper k (wide k cs inh) (multi_if d) (kind_last u) (kind_of d) /\
       alike2 (bequeathed k (wide k cs inh) cs d) (bequeathed k (wide k (map tg cs) inh') (map tg cs) (tg d)) d) ->
    alike2 inh inh' (CTree k cs).

Theorem first_agrees c : fits c -> forall inh inh' bs, lined bs (toks c) -> lined (bits false inh c) (toks (tg c)) ->
  (inheriting c = true -> inh' = inh) -> (inheriting c = true -> laden c = true -> inh = true) -> settled c -> alike2 inh inh' c.
Proof.
  induction c as [t|k cs IH] using child_ind2; intros F inh inh' bs L0 L1 I1 I2 ST; [constructor|]. cbn [inheriting laden] in I1, I2.
  assert (crowded k cs = true -> existsb bears cs = true -> spans (CTree k cs) = true) as ST0 by (apply ST; constructor).
  constructor. intros u d v E. assert (In d cs) as ID by (rewrite E; apply in_or_app; right; left; reflexivity).
  assert (value k (kind_of d) = true -> multi_if (tg d) = multi_if d) as M by (eapply multi_same; eauto).
  split; [eapply turns_back; eauto|]. split; [|split].
  - intros turn s. rewrite (position_loss k cs inh inh' bs F L0 L1 I1 I2 ST0 u d v) by exact E.
    apply position_same; [exact M|apply (late_map g G)].
  - rewrite (deeper_loss k cs inh inh' bs F L0 L1 I1 I2 ST0 u d v) by exact E. apply deeper_same. exact M.
  - rewrite Forall_forall in IH. destruct (child_lined _ _ _ _ L0 ID) as (bs' & LD). apply (IH d ID) with (bs := bs').
    + inversion F as [|? ? ? ? FC]; subst k0 cs0. rewrite Forall_forall in FC. auto.
    + exact LD.
    + eapply kid_lines; eauto.
    + intro IN. eapply heirs_same; eauto.
    + intros IN LA. eapply heirs_wide; eauto.
    + intros k' ds IS. apply ST. econstructor; eauto.
Qed.

Lemma alike_wraps c : forall inh inh', alike2 inh inh' c -> wraps (tg c) = wraps c.
Proof.
  induction c as [t|k cs IH] using child_ind2; intros inh inh' A; [reflexivity|]. inversion A as [|? ? ? ? P]; subst.
  change (tg (CTree k cs)) with (CTree k (map tg cs)). rewrite !wraps_tree.
  assert (forall v u, cs = rev u ++ v -> wraps_in k (last_of (map tg u)) (map tg v) = wraps_in k (last_of u) v) as K; [|apply (K cs []); reflexivity].
  induction v as [|d v IHv]; intros u E; [reflexivity|]. cbn [map wraps_in]. destruct (P u d v E) as (T & _ & _ & AD).
  rewrite T, (continues_map g). rewrite Forall_forall in IH.
  rewrite (IH d ltac:(rewrite E; apply in_or_app; right; left; reflexivity) _ _ AD).
  f_equal. apply (IHv (d :: u)). rewrite E. cbn [rev]. rewrite <- app_assoc. reflexivity.
Qed.
Lemma alike_keeps k d inh inh' : alike2 inh inh' d -> keeps_level k (tg d) = keeps_level k d.
Proof.
  intro A. apply alike_wraps in A. destruct d as [t|k' ds]; [reflexivity|]. change (tg (CTree k' ds)) with (CTree k' (map tg ds)) in *.
  rewrite !keeps_leaks, A. reflexivity.
Qed.
Lemma alike_leak c : forall inh inh', alike2 inh inh' c -> leak (tg c) = leak c.
Proof.
  induction c as [t|k cs IH] using child_ind2; intros inh inh' A; [reflexivity|]. inversion A as [|? ? ? ? P]; subst.
  change (tg (CTree k cs)) with (CTree k (map tg cs)). rewrite !leak_tree.
  assert (forall v u, cs = rev u ++ v -> leak_in k (map tg v) = leak_in k v) as K; [|apply (K cs []); reflexivity].
  induction v as [|d v IHv]; intros u E; [reflexivity|]. cbn [map leak_in]. destruct (P u d v E) as (T & _ & _ & AD).
  rewrite (alike_keeps _ _ _ _ AD), (IHv (d :: u)) by (rewrite E; cbn [rev]; rewrite <- app_assoc; reflexivity).
  rewrite Forall_forall in IH. rewrite (IH d ltac:(rewrite E; apply in_or_app; right; left; reflexivity) _ _ AD).
  reflexivity.
Qed.
Theorem alike_spots c : forall inh inh', alike2 inh inh' c -> forall q pos first n on,
  map strip (spots q pos first n on inh' (tg c)) = map strip (spots q pos first n on inh c).
Proof.
  induction c as [t|k cs IH] using child_ind2; intros inh inh' A q pos first n on; [reflexivity|]. inversion A as [|? ? ? ? P]; subst.
  change (tg (CTree k cs)) with (CTree k (map tg cs)). rewrite !spots_tree.
  assert (forall v u n on, cs = rev u ++ v ->
    map strip (children k (wide k (map tg cs) inh') (map tg cs) pos first (map tg u) n on (map tg v)) =
    map strip (children k (wide k cs inh) cs pos first u n on v)) as K; [|apply (K cs []); reflexivity].
  induction v as [|d v IHv]; intros u m o E; [reflexivity|]. cbn [map children]. destruct (P u d v E) as (T & PO & DE & AD).
  rewrite T, (continues_map g), (alike_keeps _ _ _ _ AD), (alike_wraps _ _ _ AD), (alike_leak _ _ _ AD), (kind_map g G), (kind_last_map g G), after_first_map.
  rewrite PO, DE. rewrite !map_app. f_equal.
  - rewrite Forall_forall in IH. rewrite (IH d ltac:(rewrite E; apply in_or_app; right; left; reflexivity) _ _ AD).
    destruct u; reflexivity.
  - apply (IHv (d :: u)). rewrite E. cbn [rev]. rewrite <- app_assoc. reflexivity.
Qed.
End First.
