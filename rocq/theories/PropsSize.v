(** Property C96: the size of the output. *)
From Verif Require Import ProofBase Tokens Syntax Lexer SpecLex SpecPieces LexInv LexMain LexFacts LexAll ParserCore Grammar
  Tree Printer Formatter Lib ParserSem ParserFuel SpecGrammar Regex ParserGrammar ParserTree ParserFacts Recognise PropsParser
  SpecLanguage ParserComplete PropsLanguage
  FmtAbs FmtPlan FmtShape FmtTables FmtSound SpecLayout FmtExec FmtTop FmtFacts FmtNeat SpecNodes FmtTree FmtWrap SpecGaps SpecReference FmtReference
  PropsFormat FmtSame FmtConcat FmtAgree FmtStable PropsDepth PropsCount SpecSize FmtSize.

(** ** C96: no line is indented by more levels than there are code tokens above it *)
Theorem C96_levels : forall eol s p, accepted s p -> exists l, layout_of eol s p l /\ pays_levels l.
Proof.
  intros eol s p ACC. destruct (reading_of s p ACC) as (items & tree & R). exists (reference tree items). split; [apply (reading_reference eol _ _ _ _ R)|].
  pose proof (reference_paced _ _ _ _ R) as P. intros l1 e l2 b n E W. rewrite E in P. apply level_paced_split in P. rewrite W in P. exact P.
Qed.
Print Assumptions C96_levels.

Theorem C96_size : forall eol s p out, accepted s p -> eol <> [] -> pretty_print eol p = Ok out ->
  (length out <= length s + (length (p_tokens p) + length (p_comments p)) * (2 * length eol + 2 * length (p_tokens p)))%nat.
Proof.
  intros eol s p out ACC NE PP. destruct (C96_levels eol s p ACC) as (l & LO & PL).
  pose proof (lo_text _ _ _ _ LO) as E. rewrite PP in E. injection E as ->.
  destruct (lo_items _ _ _ _ LO) as (items & LA & PT & PC & DR). apply drops_sum in DR as [D1 D2]. apply laid_sum in LA.
  assert (length items = length (p_tokens p) + length (p_comments p))%nat as LI.
  { rewrite PT, PC. clear. induction items as [|t items IH]; [reflexivity|]. cbn [filter]. unfold plain at 1, commentary at 1. destruct (is_comment_kind (tkind_of t)); cbn [negb length]; lia. }
  rewrite map_length in D2.
  assert (length (codes l) = length (p_tokens p)) as LC.
  { destruct (lo_tree _ _ _ _ LO) as (tree & BT & CO). destruct (reading_of s p ACC) as (items' & tree' & R). pose proof (rd_tree _ _ _ _ R) as BT'.
    assert (tree' = tree) as -> by congruence. rewrite <- (rd_toks _ _ _ _ R), CO. clear.
    generalize KStoredDefinition. induction tree as [t|k cs IH] using child_ind2; intro q; [reflexivity|]. cbn [owners toks].
    induction IH as [|c cs H _ IH]; [reflexivity|]. cbn [flat_map]. rewrite !app_length, H, IH. reflexivity. }
  pose proof (render_length eol l (length (p_tokens p)) NE) as RL. etransitivity; [apply RL|].
  - intros e I. apply in_split in I as (l1 & l2 & El). destruct (e_white e) eqn:W; auto. rewrite <- LC. specialize (PL _ _ _ _ _ El W). rewrite El, codes_app, app_length. lia.
  - nia.
Qed.
Print Assumptions C96_size.
Theorem C96_quadratic : forall eol s p out, accepted s p -> eol <> [] -> pretty_print eol p = Ok out ->
  (length out <= length s * (1 + 2 * length eol + 2 * length s))%nat.
Proof.
  intros eol s p out ACC NE PP. pose proof (C96_size eol s p out ACC NE PP) as S. destruct ACC as [H Z]. apply parse_inv in H as (l & e & L & _ & _). apply lex_size in L. nia.
Qed.
Print Assumptions C96_quadratic.
Theorem C96_lines : forall eol s p out, accepted s p -> eol = lf \/ eol = crlf -> pretty_print eol p = Ok out ->
  newlines out <= newlines s + 2 * N.of_nat (length (p_tokens p) + length (p_comments p)).
Proof.
  intros eol s p out ACC EO PP. destruct (C24_comments_in_place eol s p ACC) as (items & l & LA & PT & PC & LO & DR).
  pose proof (lo_text _ _ _ _ LO) as E. rewrite PP in E. injection E as ->.
  pose proof (drops_lines _ _ _ DR) as D1. apply drops_sum in DR as [_ D2]. apply laid_lines in LA. rewrite map_length in D2.
  assert (length items = length (p_tokens p) + length (p_comments p))%nat as LI.
  { rewrite PT, PC. clear. induction items as [|t items IH]; [reflexivity|]. cbn [filter]. unfold plain at 1, commentary at 1. destruct (is_comment_kind (tkind_of t)); cbn [negb length]; lia. }
  assert (newlines eol = 1) as NE by (destruct EO as [-> | ->]; reflexivity). pose proof (render_lines eol l NE). lia.
Qed.
Print Assumptions C96_lines.

(** ** No linear bound: packages in packages *)
Definition packages (n : nat) : text := concat (repeat (lines ["package P"; ""]%string) (S n)) ++ concat (repeat (lines ["end P;"; ""]%string) (S n)).
Definition package_with (es : list child) : child :=
  CTree KClassDefinition
   [CTree KClassPrefixes [leaf TPackage "package"];
    CTree KClassSpecifier
     [CTree KLongClassSpecifier
       [leaf TIdentifier "P"; CTree KDescriptionString []; CTree KComposition [CTree KElementList es]; leaf TEnd "end"; leaf TIdentifier "P"]]].
Fixpoint package_tree (n : nat) : child :=
  package_with (match n with O => [] | S n => [CTree KElement [package_tree n]; leaf TSemicolon ";"] end).
Definition packages_tree (n : nat) : child := CTree KStoredDefinition [package_tree n; leaf TSemicolon ";"].
Lemma package_with_parsable es : parsable (CTree KElementList es) -> parsable (package_with es).
Proof.
  intro P. unfold package_with.
  repeat (first [exact P | solve [split; constructor] | apply parsable_tree; [vm_compute; reflexivity|cbn; intuition discriminate|] | constructor]).
Qed.
Lemma package_sym n : exists cs, package_tree n = CTree KClassDefinition cs.
Proof. destruct n; eexists; reflexivity. Qed.
Lemma package_parsable n : parsable (package_tree n).
Proof.
  induction n as [|n IH]; apply package_with_parsable.
  - apply parsable_tree; [vm_compute; reflexivity|cbn; tauto|constructor].
  - fold package_tree. destruct (package_sym n) as [cs E]. rewrite E in *.
    apply parsable_tree; [vm_compute; reflexivity|cbn; intuition discriminate|]. constructor; [|constructor; [split; constructor|constructor]].
    apply parsable_tree; [vm_compute; reflexivity|cbn; intuition discriminate|]. constructor; [exact IH|constructor].
Qed.
Lemma packages_parsable n : parsable (packages_tree n).
Proof.
  unfold packages_tree. pose proof (package_parsable n) as P. destruct (package_sym n) as [cs E]. rewrite E in *.
  apply parsable_tree; [vm_compute; reflexivity|cbn; intuition discriminate|]. constructor; [exact P|constructor; [split; constructor|constructor]].
Qed.
Definition open_items : list (tkind * text) := [(TPackage, str "package"); (TIdentifier, str "P")].
Definition close_items : list (tkind * text) := [(TEnd, str "end"); (TIdentifier, str "P"); (TSemicolon, str ";")].
Definition package_items (n : nat) : list (tkind * text) := concat (repeat open_items n) ++ concat (repeat close_items n).
Lemma concat_last {A} n (x : list A) : concat (repeat x (S n)) = concat (repeat x n) ++ x.
Proof. induction n as [|n IH]; [cbn; apply app_nil_r|]. change (x ++ concat (repeat x (S n)) = (x ++ concat (repeat x n)) ++ x). rewrite IH, app_assoc. reflexivity. Qed.
Lemma lexes_many a its n b itsb : lexes a its -> finished a -> lexes b itsb -> lexes (concat (repeat a n) ++ b) (concat (repeat its n) ++ itsb).
Proof. intros A F B. induction n as [|n IH]; [exact B|]. cbn [repeat concat]. rewrite <- !app_assoc. apply lexes_join; auto. Qed.
Lemma packages_lexes n : lexes (packages n) (package_items (S n)).
Proof.
  unfold packages, package_items. apply lexes_many.
  - eapply lexed_alone; vm_compute; reflexivity.
  - right. exists (str "package P"). reflexivity.
  - rewrite <- (app_nil_r (concat _)), <- (app_nil_r (concat (repeat close_items (S n)))). apply lexes_many; [eapply lexed_alone; vm_compute; reflexivity| |constructor].
    right. exists (str "end P;"). reflexivity.
Qed.
Lemma package_leaves n : map item (leaves (package_tree n)) ++ [(TSemicolon, str ";")] = package_items (S n).
Proof.
  induction n as [|n IH]; [reflexivity|]. cbn [package_tree]. unfold package_with. cbn [leaves flat_map leaf]. rewrite ?app_nil_r. cbn [app].
  rewrite <- !app_assoc. cbn [map app]. rewrite !map_app. cbn [map]. unfold item at 1 2. cbn [tkind_of ttext].
  unfold package_items in *. rewrite (concat_last (S n) close_items). change (concat (repeat open_items (S (S n)))) with (open_items ++ concat (repeat open_items (S n))).
  rewrite <- (app_assoc open_items), (app_assoc _ _ close_items), <- IH. rewrite <- !app_assoc. reflexivity.
Qed.
Lemma packages_leaves n : map item (leaves (packages_tree n)) = package_items (S n).
Proof. rewrite <- package_leaves. unfold packages_tree. cbn [leaves flat_map leaf]. rewrite map_app. reflexivity. Qed.

(** A text of the items of a tree has that tree. *)
Definition same_item (t : token) : token := mkTok 0 (ttext t) (tkind_of t) (mkPos 0 0 0) (mkPos 0 0 0).
Lemma tree_found s cs its : parsable (CTree KStoredDefinition cs) -> lexes s its -> map item (leaves (CTree KStoredDefinition cs)) = its ->
  (forall i, In i its -> is_comment_kind (fst i) = false) ->
  exists p tree, accepted s p /\ build_tree (p_tokens p) (p_events p) = Ok tree /\ tmap same_item tree = tmap same_item (prune (CTree KStoredDefinition cs)).
Proof.
  intros PA LX LL NC. destruct (lex_complete _ _ LX) as (items & L & M & LA).
  { intros w I. apply NC in I. discriminate. }
  assert (forall t, In t items -> is_comment_kind (tkind_of t) = false) as NT.
  { intros t I. assert (In (item_of t) its) as J by (rewrite <- M; apply in_map, I). apply NC in J. exact J. }
  assert (filter plain items = items /\ filter commentary items = []) as [FP FC].
  { clear - NT. induction items as [|t l IH]; [auto|]. destruct IH as [A B]; [intros; apply NT; right; assumption|]. cbn [filter]. unfold plain at 1, commentary at 1.
    rewrite (NT t (or_introl eq_refl)). cbn [negb]. rewrite A, B. auto. }
  rewrite FP, FC in L.
  destruct (C60_finds_tree _ PA) as [P B]. revert LL P B. generalize (CTree KStoredDefinition cs). intros T LL P B.
  assert (map same_item items = map same_item (leaves T)) as MG.
  { assert (forall a b : list token, map item a = map item b -> map same_item a = map same_item b) as Q.
    { clear. induction a as [|x a IH]; intros [|y b] E; try discriminate; [reflexivity|]. cbn [map] in *. injection E as K W E. unfold same_item at 1 3. rewrite K, W. f_equal. auto. }
    apply Q. rewrite LL, <- M. reflexivity. }
  assert (map tkind_of items = map tkind_of (leaves T)) as K.
  { apply (f_equal (map tkind_of)) in MG. rewrite !map_map in MG. exact MG. }
  pose proof (parse_bare (leaves T) items KStoredDefinition ltac:(congruence)) as PB. rewrite P in PB.
  destruct (parse_events items KStoredDefinition) as [[e er]|x|] eqn:PE; try contradiction. destruct PB as [<- EM].
  destruct er; [|discriminate]. clear EM.
  pose proof (build_tree_map same_item items (ParserSem.flat T)) as B1. rewrite MG, build_tree_map, B in B1. cbn [rmap] in B1.
  destruct (build_tree items (ParserSem.flat T)) as [tree|x|] eqn:BT; [|discriminate B1|discriminate B1]. cbn [rmap] in B1. injection B1 as B1.
  exists (mkParsed items [] (ParserSem.flat T) []), tree. cbn [p_tokens p_events]. split; [|split; [exact BT|congruence]].
  split; [|reflexivity]. unfold parse. rewrite L. cbn [bind]. rewrite PE. reflexivity.
Qed.

(** The levels of all lines. *)
Definition level_sum (xs : list spot) : nat := list_sum (map (fun x => match at_pos x with Below _ => at_level x | _ => 0%nat end) xs).
Definition layout_sum (l : layout) : nat := list_sum (map (fun e => match e_white e with WLine _ n => n | _ => 0%nat end) l).
Lemma level_sum_app a b : level_sum (a ++ b) = (level_sum a + level_sum b)%nat.
Proof. unfold level_sum. rewrite map_app. apply list_sum_app. Qed.
Lemma layout_sum_app a b : layout_sum (a ++ b) = (layout_sum a + layout_sum b)%nat.
Proof. unfold layout_sum. rewrite map_app. apply list_sum_app. Qed.
Lemma rows_sum n r t cs : forall b ln, (n <= layout_sum (rows b n ln cs r t))%nat.
Proof. induction cs as [|c cs IH]; intros b ln; cbn [rows]; unfold layout_sum; cbn [map list_sum fold_right e_white]; lia. Qed.
Lemma weave_sum items : forall p ln cs xs, length xs = length (filter plain items) -> (level_sum xs <= layout_sum (weave p ln cs items xs))%nat.
Proof.
  induction items as [|t items IH]; intros p ln cs xs LN; [destruct xs; [cbn; lia|discriminate]|]. cbn [weave filter] in *.
  assert (plain t = negb (is_comment t)) as E by (unfold plain, is_comment; destruct (tkind_of t); reflexivity). rewrite E in LN.
  destruct (is_comment t); cbn [negb] in LN; [apply IH, LN|]. destruct xs as [|x xs]; [discriminate|]. injection LN as LN.
  rewrite layout_sum_app. specialize (IH (Some (at_rule x, tkind_of t)) (line (tend t)) [] xs LN).
  assert ((match at_pos x with Below _ => at_level x | _ => 0 end) <= layout_sum (put p ln cs x))%nat.
  { unfold put. destruct (at_pos x); try lia. rewrite layout_sum_app. match goal with |- (_ <= _ + layout_sum (rows ?b ?n ?l ?c ?r ?t))%nat => pose proof (rows_sum n r t c b l) end. lia. }
  unfold level_sum in *. cbn [map list_sum fold_right]. unfold list_sum in *. lia.
Qed.
Lemma render_sum eol l : (2 * layout_sum l <= length (render eol l))%nat.
Proof.
  unfold render, layout_sum. induction l as [|e l IH]; [cbn; lia|]. cbn [flat_map map list_sum fold_right]. rewrite !app_length. unfold list_sum in IH.
  assert (2 * (match e_white e with WLine _ n => n | _ => 0 end) <= length (white_text eol (e_white e)))%nat; [|lia].
  destruct (e_white e); cbn [white_text]; try lia. rewrite !app_length, times_length. change (length (str "  ")) with 2%nat. lia.
Qed.

Fixpoint bare_tree (n : nat) : child :=
  CTree KClassDefinition
   [CTree KClassPrefixes [leaf TPackage "package"];
    CTree KClassSpecifier
     [CTree KLongClassSpecifier
       (leaf TIdentifier "P" :: match n with O => [] | S n => [CTree KComposition [CTree KElementList [CTree KElement [bare_tree n]; leaf TSemicolon ";"]]] end ++
        [leaf TEnd "end"; leaf TIdentifier "P"])]].
Lemma prune_package n : prune (package_tree n) = bare_tree n.
Proof.
  induction n as [|n IH]; [reflexivity|]. destruct (package_sym n) as [cs E]. 
  assert (exists d ds, bare_tree n = CTree KClassDefinition (d :: ds)) as (d & ds & D) by (destruct n; eexists; eexists; reflexivity).
  cbn [package_tree bare_tree app]. rewrite D in *. unfold package_with. cbn [prune map leaf filter]. rewrite IH. reflexivity.
Qed.
Fixpoint tri (n : nat) : nat := match n with O => 0%nat | S n => (n + tri n)%nat end.
Ltac open_tree :=
  repeat match goal with
  | H : tmap same_item ?c = CTree _ _ |- _ => destruct c as [?t|?k ?cs]; cbn [tmap] in H; [discriminate H|]; injection H as ?Hk H; subst
  | H : tmap same_item ?c = CTok _ |- _ => destruct c as [?t|?k ?cs]; [apply (f_equal kind_of) in H; cbn [tmap kind_of same_item tkind_of] in H; injection H as ?Hkk|discriminate H]
  | H : map (tmap same_item) ?cs = [] |- _ => destruct cs; [clear H|discriminate H]
  | H : map (tmap same_item) ?cs = _ :: _ |- _ => destruct cs as [|?d ?ds]; cbn [map] in H; [discriminate H|]; injection H as ?Hd H
  end.
Lemma packages_low n : forall c, tmap same_item c = tmap same_item (bare_tree n) -> forall q pos first m inh,
  (n * m + tri n <= level_sum (spots q pos first m false inh c))%nat.
Proof.
  induction n as [|n IH]; intros c E q pos first m inh; [apply Nat.le_0_l|].
  assert (exists x xs, bare_tree n = CTree KClassDefinition (x :: xs)) as (x & xs & D) by (destruct n; eexists; eexists; reflexivity).
  cbn [bare_tree app leaf] in E. remember (bare_tree n) as T eqn:ET. cbn [tmap map] in E. set (TT := tmap same_item T) in *. open_tree.
  assert (kind_of d = Rule KClassDefinition) as KD by (destruct d; subst TT; rewrite D in Hd1; cbn [tmap] in Hd1; [discriminate|injection Hd1 as -> _; reflexivity]).
  cbn -[level_sum tri Nat.mul multi_if is_late leak Nat.add N.ltb N.leb N.eqb spans brackets_apart].
  rewrite ?Hkk0, ?Hkk1, ?Hkk2, ?Hkk3, ?Hkk, ?KD. cbn -[level_sum tri Nat.mul multi_if is_late leak Nat.add N.ltb N.leb N.eqb spans brackets_apart].
  match goal with |- context [spots ?q ?p ?f ?m' false ?i d] => pose proof (IH d Hd1 q p f m' i) as I; assert (S m <= m')%nat as M by (unfold deeper; cbn -[leak]; lia);
    generalize dependent (spots q p f m' false i d); generalize dependent m' end.
  intros m' M xs1 I. rewrite ?app_nil_r. unfold level_sum in *. repeat (rewrite ?map_app, ?list_sum_app; cbn [map app list_sum fold_right at_pos at_level]).
  pose proof (Nat.mul_le_mono_l _ _ n M) as MM. rewrite Nat.mul_succ_r in MM. rewrite Nat.mul_succ_l. change (tri (S n)) with (n + tri n)%nat. unfold list_sum in *. lia.
Qed.
Lemma tri_square n : (2 * tri n + n = n * n)%nat.
Proof. induction n as [|n IH]; [reflexivity|]. cbn [tri]. nia. Qed.
Lemma packages_length n : length (packages n) = (17 * S n)%nat.
Proof.
  unfold packages. rewrite app_length. assert (forall (x : text) m, length (concat (repeat x m)) = (m * length x)%nat) as K.
  { intros x m. induction m as [|m IH]; [reflexivity|]. cbn [repeat concat]. rewrite app_length, IH. reflexivity. }
  rewrite !K. change (length (lines ["package P"; ""]%string)) with 10%nat. change (length (lines ["end P;"; ""]%string)) with 7%nat. lia.
Qed.
Theorem C96_packages : forall n, exists p, accepted (packages n) p /\ forall eol, exists out, pretty_print eol p = Ok out /\ (n * n <= length out + n)%nat.
Proof.
  intro n. destruct (tree_found (packages n) [package_tree n; leaf TSemicolon ";"] _ (packages_parsable n) (packages_lexes n) (packages_leaves n)) as (p & tree & ACC & BT & SM).
  { intros i I. unfold package_items in I. apply in_app_or in I.
    assert (forall (x : list (tkind * text)) m, In i (concat (repeat x m)) -> In i x) as K.
    { clear. intros x m I. apply in_concat in I as (y & Y & I). apply repeat_spec in Y. subst. exact I. }
    destruct I as [I|I]; apply K in I; cbn in I; intuition subst; reflexivity. }
  exists p. split; [exact ACC|]. intro eol. destruct (reading_of _ _ ACC) as (items & tree' & R). assert (tree' = tree) as -> by (pose proof (rd_tree _ _ _ _ R); congruence).
  destruct (reading_reference eol _ _ _ _ R) as [LO _]. eexists. split; [apply (lo_text _ _ _ _ LO)|].
  pose proof (render_sum eol (reference tree items)) as RS. unfold reference in *.
  pose proof (weave_sum items None 1 [] (spots KStoredDefinition Beside 0 0 false false tree)) as WS.
  rewrite spots_length, (rd_toks _ _ _ _ R), (rd_tokens _ _ _ _ R) in WS. specialize (WS eq_refl).
  assert (tri n <= level_sum (spots KStoredDefinition Beside 0 0 false false tree))%nat as LS.
  { assert (exists d ds, bare_tree n = CTree KClassDefinition (d :: ds)) as (d & ds & D) by (destruct n; eexists; eexists; reflexivity).
    cbn [prune map leaf filter] in SM. rewrite prune_package in SM. pose proof (packages_low n) as PL. rewrite D in SM, PL. cbn [tmap map] in SM. change (CTree KClassDefinition (tmap same_item d :: map (tmap same_item) ds)) with (tmap same_item (CTree KClassDefinition (d :: ds))) in SM.
    set (TT := tmap same_item (CTree KClassDefinition (d :: ds))) in *. destruct tree as [t|k cs]; [discriminate|]. cbn [tmap] in SM. injection SM as -> SM.
    destruct cs as [|a cs]; [discriminate|]. cbn [map] in SM. injection SM as A SM. rewrite spots_tree. cbn [children]. cbv zeta. rewrite level_sum_app.
    etransitivity; [|apply Nat.le_add_r]. cbn [last_of turns orb]. match goal with |- (_ <= level_sum (spots ?q ?p ?f ?m ?on ?i a))%nat => replace on with false by (destruct a; reflexivity); specialize (PL a A q p f m i) end. lia. }
  pose proof (tri_square n). lia.
Qed.
Print Assumptions C96_packages.

(** No multiple of the length of the source is enough. *)
Theorem C96_not_linear : forall c, exists s p out, accepted s p /\ pretty_print lf p = Ok out /\ (c * length s < length out)%nat.
Proof.
  intro c. set (n := (17 * c + 35 + c)%nat). destruct (C96_packages n) as (p & ACC & H). destruct (H lf) as (out & PP & L).
  exists (packages n), p, out. split; [exact ACC|]. split; [exact PP|]. rewrite packages_length. subst n. nia.
Qed.
Print Assumptions C96_not_linear.

Example C96_applies : exists p out, accepted (packages 20) p /\ pretty_print lf p = Ok out /\ (length (packages 20), length out, newlines out) = (357%nat, 1237%nat, 82) /\
  (length (p_tokens p), length (p_comments p)) = (105%nat, 0%nat).
Proof. eexists. eexists. split; [split; vm_compute; reflexivity|]. split; [vm_compute; reflexivity|]. split; vm_compute; reflexivity. Qed.
