(** Property C99: line breaks that do not matter. *)
From Coq Require Import Sorted.
From Verif Require LexSpecProofs.
From Verif Require Import ProofBase Tokens Syntax Lexer SpecLex LexInv LexMain LexFacts ParserCore Grammar
  Tree Printer Formatter Lib ParserSem ParserFuel SpecGrammar Regex ParserGrammar ParserTree ParserFacts Recognise PropsParser
  FmtAbs FmtPlan FmtShape FmtTables FmtSound SpecLayout FmtExec FmtTop FmtFacts FmtRelex FmtNeat SpecNodes FmtTree FmtLists FmtOps
  FmtWrap SpecGaps SpecReference FmtNode FmtReference FmtSame PropsFormat PropsReference FmtBreaks FmtAgree FmtPrinted FmtStable FmtOnce FmtNear
  SpecLanguage ParserComplete PropsLanguage PropsSame FmtMoved FmtConcat SpecTold PropsModular PropsVertical SpecFree FmtFree.

(** The tokens and comments of a text, in order. *)
Definition itemized (s : text) (items : list token) : Prop :=
  lex s = Ok (filter plain items, filter commentary items, []) /\ StronglySorted before items.

Lemma itemized_laid s items : itemized s items -> lexes s (map item_of items) /\ laid space s items.
Proof.
  intros [L SS]. destruct (lex_sound _ _ _ L) as (i0 & X & CA & LA & T & C).
  assert (items = i0) as ->; [|auto].
  apply sorted_same; auto. { destruct (laid_ordered _ _ _ LA); assumption. } intro t. rewrite (split_in t items), (split_in t i0), T, C. reflexivity.
Qed.
Lemma loose_items z z' bs l l' : loose z z' bs l l' -> map item_of l' = map item_of l.
Proof. induction 1; cbn [map]; auto; f_equal; auto; unfold item_of; congruence. Qed.
Lemma loosely_items bs l l' : loosely bs l l' -> map item_of l' = map item_of l.
Proof. intros [|? ? ? ? ? ? K T _ L|? ? ? ? ? ? ? K T _ L]; cbn [map]; auto; f_equal; try (unfold item_of; congruence); eapply loose_items; eauto. Qed.
Lemma numbered_same s s' items items' : laid space s items -> laid space s' items' -> map item_of items' = map item_of items -> numbered items items'.
Proof.
  intros L L' M. apply forall2_nth.
  - apply (f_equal (@length _)) in M. rewrite !map_length in M. auto.
  - intros n t E. destruct (nth_error items' n) as [t'|] eqn:E'.
    + exists t'. split; [reflexivity|]. rewrite (laid_idx _ _ _ L _ _ E), (laid_idx _ _ _ L' _ _ E'). reflexivity.
    + exfalso. apply nth_error_None in E'. assert (nth_error items n <> None) as N by congruence. apply nth_error_Some in N.
      apply (f_equal (@length _)) in M. rewrite !map_length in M. lia.
Qed.

(** ** C99 *)
Lemma loosely_first bs l l' : loosely bs l l' -> match l, l' with t :: _, t' :: _ => close (line (tstart t) - 1) (line (tstart t') - 1) | _, _ => True end.
Proof. intros [|? ? ? ? ? _ _ _ G _|? ? ? ? ? ? _ _ _ G _]; auto; unfold close; lia. Qed.
Lemma numbered_filter l l' : numbered l l' -> map item_of l' = map item_of l ->
  Forall2 (fun t t' => tidx t' = tidx t /\ item_of t' = item_of t) (filter plain l) (filter plain l').
Proof.
  induction 1 as [|t t' l l' I _ IH]; intro M; [constructor|]. cbn [map] in M. injection M as M1 M2 M3. cbn [filter].
  replace (plain t') with (plain t) by (unfold plain; rewrite M1; reflexivity). destruct (plain t); auto. constructor; auto. split; [exact I|]. unfold item_of. congruence.
Qed.
Lemma loose_core s p items tree s' p' items' tree' : reading s p items tree -> reading s' p' items' tree' ->
  p_events p' = p_events p -> loosely (tied false false tree) items items' -> Forall2 kept (reference tree items) (reference tree' items').
Proof.
  intros R R' EV LO. pose proof (loosely_items _ _ _ LO) as M.
  pose proof (numbered_same _ _ _ _ (rd_laid _ _ _ _ R) (rd_laid _ _ _ _ R') M) as NB.
  pose proof (laid_downward _ _ (rd_laid _ _ _ _ R)) as D. pose proof (laid_downward _ _ (rd_laid _ _ _ _ R')) as D'.
  pose proof (loosely_grouped _ _ _ TEnd LO D D' NB) as GR. pose proof (numbered_filter _ _ NB M) as NF.
  assert (length (filter plain items) = length (filter plain items')) as LEN by (clear - NF; induction NF; cbn [length]; congruence).
  destruct (near_combine _ _ LEN) as [C1 C2]. set (g := partner (combine (filter plain items) (filter plain items'))).
  pose proof (laid_ordered _ _ _ (rd_laid _ _ _ _ R)) as [S0 _ _].
  assert (map g (filter plain items) = filter plain items') as MG.
  { pose proof (partner_maps (combine (filter plain items) (filter plain items'))) as PM. rewrite C1, C2 in PM. apply PM, sorted_filter, S0. }
  assert (relined g) as G.
  { apply partner_relined. assert (Forall (fun t => line (tend t) = line (tstart t) + height t) (filter plain items)) as E1.
    { pose proof (laid_ends _ _ (rd_laid _ _ _ _ R)) as LE. rewrite Forall_forall in *. intros t I. apply filter_In in I as [I _]. auto. }
    assert (Forall (fun t => line (tend t) = line (tstart t) + height t) (filter plain items')) as E2.
    { pose proof (laid_ends _ _ (rd_laid _ _ _ _ R')) as LE. rewrite Forall_forall in *. intros t I. apply filter_In in I as [I _]. auto. }
    clear - NF E1 E2. induction NF as [|t t' l l' (I & M) _ IH]; [constructor|]. inversion E1 as [|? ? H1 E1']; subst. inversion E2 as [|? ? H2 E2']; subst. cbn [combine]. constructor; auto.
    unfold item_of in M. injection M as M1 M2. unfold paired. cbn [fst snd]. split; [exact M1|]. split; [|intros _; rewrite I; reflexivity].
    unfold tall. rewrite H1, H2. unfold height. rewrite M2. apply eq_true_iff_eq. rewrite !N.ltb_lt. lia. }
  assert (tree' = tmap g tree) as ET.
  { pose proof (rd_tree _ _ _ _ R') as B'. rewrite (rd_tokens _ _ _ _ R'), <- MG, EV, build_tree_map in B'. rewrite <- (rd_tokens _ _ _ _ R), (rd_tree _ _ _ _ R) in B'. cbn [rmap] in B'. apply ok_same in B'. auto. }
  assert (toks tree = filter plain items) as TT by (rewrite (rd_toks _ _ _ _ R); apply (rd_tokens _ _ _ _ R)).
  unfold reference. destruct (rd_fits _ _ _ _ R) as (cs & E & [F|F]).
  - assert (filter plain items = []) as Z by (rewrite <- TT, E, F; reflexivity).
    eapply (weave_loose _ _ _ _ _ _ GR None _ _ (mkTok 0 [] TEnd (mkPos 0 1 1) (mkPos 0 1 1))); auto using (reading_spots _ _ _ _ R), (reading_spots _ _ _ _ R').
    + rewrite ET, E, F. reflexivity.
    + left. rewrite E, F. exact I.
  - assert (downward 1 (toks tree)) as DT by (rewrite TT; apply downward_filter, D).
    assert (downward 1 (map g (toks tree))) as DT' by (rewrite TT, MG; apply downward_filter, D').
    eapply (weave_loose _ _ _ _ _ _ GR None _ _ (mkTok 0 [] TEnd (mkPos 0 1 1) (mkPos 0 1 1))); auto using (reading_spots _ _ _ _ R), (reading_spots _ _ _ _ R').
    + rewrite ET. apply agree_spots; [exact G|]. eapply tied_agrees; eauto. rewrite TT. eapply fine2_fine. rewrite MG. eapply grouped_fine, GR.
    + right. split; [|eapply loosely_first; exact LO]. apply spots_chain; [exact F|discriminate].
Qed.
(** Texts with the same tokens and comments whose line breaks differ only where it does not matter have the same result. *)
Theorem C99_free : forall eol s s' p tree items items',
  accepted s p -> build_tree (p_tokens p) (p_events p) = Ok tree -> itemized s items -> itemized s' items' ->
  loosely (tied false false tree) items items' ->
  exists p', accepted s' p' /\ pretty_print eol p' = pretty_print eol p.
Proof.
  intros eol s s' p tree items items' ACC B IT IT' LO. pose proof (loosely_items _ _ _ LO) as M.
  destruct (itemized_laid _ _ IT) as [X LA]. destruct (itemized_laid _ _ IT') as [X' LA']. destruct IT as [L _], IT' as [L' _].
  pose proof (numbered_filter _ _ (numbered_same _ _ _ _ LA LA' M) M) as NF.
  assert (map tkind_of (filter plain items) = map tkind_of (filter plain items')) as MK.
  { clear - NF. induction NF as [|t t' l l' (_ & E) _ IH]; [reflexivity|]. cbn [map]. unfold item_of in E. congruence. }
  pose proof (parse_bare _ _ KStoredDefinition MK) as PB. destruct ACC as [P Z].
  assert (exists p', accepted s' p' /\ p_events p' = p_events p) as (p' & ACC' & EV).
  { unfold accepted. unfold parse in P |- *. rewrite L in P. rewrite L'. cbn [bind] in *.
    destruct (parse_events (filter plain items) KStoredDefinition) as [[e er]|y|]; try discriminate. destruct (parse_events (filter plain items') KStoredDefinition) as [[e' er']|y'|]; try contradiction.
    cbn [bind] in *. injection P as <-. cbn [p_errors p_events app] in *. destruct PB as [-> PB]. rewrite Z in PB. destruct er'; [|discriminate].
    eexists. split; [split; [reflexivity|reflexivity]|reflexivity]. }
  exists p'. split; [exact ACC'|]. destruct (reading_of s p (conj P Z)) as (i0 & t0 & R). destruct (reading_of s' p' ACC') as (i1 & t1 & R').
  assert (t0 = tree) as -> by (pose proof (rd_tree _ _ _ _ R); congruence).
  assert (i0 = items) as ->.
  { apply (items_unique s); [apply R|exact LA| |]; [rewrite <- (rd_tokens _ _ _ _ R)|rewrite <- (rd_comments _ _ _ _ R)]; apply (parse_lexed _ _ _ P _ _ _ L). }
  assert (i1 = items') as ->.
  { apply (items_unique s'); [apply R'|exact LA'| |]; [rewrite <- (rd_tokens _ _ _ _ R')|rewrite <- (rd_comments _ _ _ _ R')]; destruct ACC' as [P' _]; apply (parse_lexed _ _ _ P' _ _ _ L'). }
  pose proof (loose_core _ _ _ _ _ _ _ _ R R' EV LO) as K.
  destruct (reading_reference eol _ _ _ _ R) as [LO1 AR]. destruct (reading_reference eol _ _ _ _ R') as [LO' AR'].
  rewrite (lo_text _ _ _ _ LO1), (lo_text _ _ _ _ LO'). f_equal.
  assert (forall e, In e (reference tree items) -> In (e_tok e) items) as SUB.
  { intros e I. eapply drops_in; [eapply arranged_drops; exact AR|]. apply in_map. exact I. }
  assert (forall e, In e (reference t1 items') -> In (e_tok e) items') as SUB'.
  { intros e I. eapply drops_in; [eapply arranged_drops; exact AR'|]. apply in_map. exact I. }
  assert (forall t t', In t items -> In t' items' -> tidx t' = tidx t -> ttext t' = ttext t) as SAME.
  { intros t t' I I' E. apply in_split in I as (a & b & EA). apply in_split in I' as (a' & b' & EB).
    rewrite (laid_index _ _ LA a t b EA), (laid_index _ _ LA' a' t' b' EB) in E. apply Nnat.Nat2N.inj in E.
    assert (map item_of (a ++ t :: b) = map item_of (a' ++ t' :: b')) as ME by congruence. rewrite !map_app in ME. cbn [map] in ME.
    apply app_parts in ME; [|rewrite !map_length; auto]. unfold item_of at 1 3 in ME. congruence. }
  revert K SUB SUB'. clear - SAME. unfold render. induction 1 as [|e e' l l' (W & _ & _ & I) K IH]; intros S S'; [reflexivity|]. cbn [flat_map].
  rewrite W, (SAME (e_tok e) (e_tok e')) by (auto using in_eq). f_equal. apply IH; intros; [apply S|apply S']; right; assumption.
Qed.
Print Assumptions C99_free.

(** ** Examples *)
Definition same_item (y y' : token) : bool := tkind_eqb (tkind_of y') (tkind_of y) && text_eqb (ttext y') (ttext y).
Fixpoint looseb (x x' : token) (bs : list bool) (l l' : list token) : bool :=
  match l, l' with
  | [], [] => match bs with [] => true | _ => false end
  | y :: r, y' :: r' =>
      same_item y y' &&
      if remark y then (N.min 2 (breaks x y) =? N.min 2 (breaks x' y')) && looseb y y' bs r r'
      else match bs with
           | [] => false
           | b :: bs' =>
               (if remark x then N.min 2 (breaks x y) =? N.min 2 (breaks x' y') else true) &&
               (if b then Bool.eqb (0 <? breaks x y) (0 <? breaks x' y')
                else if ending (tkind_of x) then Bool.eqb (1 <? breaks x y) (1 <? breaks x' y') else true) &&
               looseb y y' bs' r r'
           end
  | _, _ => false
  end.
Definition looselyb (bs : list bool) (l l' : list token) : bool :=
  match l, l' with
  | [], [] => match bs with [] => true | _ => false end
  | y :: r, y' :: r' =>
      same_item y y' && (N.min 3 (line (tstart y)) =? N.min 3 (line (tstart y'))) &&
      if remark y then looseb y y' bs r r' else match bs with [] => false | _ :: bs' => looseb y y' bs' r r' end
  | _, _ => false
  end.
Lemma same_item_sound y y' : same_item y y' = true -> tkind_of y' = tkind_of y /\ ttext y' = ttext y.
Proof. unfold same_item. intro E. apply andb_true_iff in E as [E1 E2]. split; [apply tkind_eqb_eq, E1|apply LexSpecProofs.text_eqb_eq, E2]. Qed.
Lemma looseb_sound l : forall x x' bs l', looseb x x' bs l l' = true -> loose x x' bs l l'.
Proof.
  induction l as [|y l IH]; intros x x' bs [|y' l'] E; cbn [looseb] in E; try discriminate; [destruct bs; [constructor|discriminate]|].
  apply andb_true_iff in E as [S E]. apply same_item_sound in S as [S1 S2]. destruct (remark y) eqn:R.
  - apply andb_true_iff in E as [E1 E2]. apply N.eqb_eq in E1. constructor; auto.
  - destruct bs as [|b bs]; [discriminate|]. apply andb_true_iff in E as [E E3]. apply andb_true_iff in E as [E1 E2]. apply loose_token; auto.
    + intro X. rewrite X in E1. apply N.eqb_eq, E1.
    + intros ->. apply Bool.eqb_prop, E2.
    + intros -> X. rewrite X in E2. apply Bool.eqb_prop, E2.
Qed.
Lemma looselyb_sound bs l l' : looselyb bs l l' = true -> loosely bs l l'.
Proof.
  destruct l as [|y l], l' as [|y' l']; cbn [looselyb]; intro E; try discriminate; [destruct bs; [constructor|discriminate]|].
  apply andb_true_iff in E as [E E1]. apply andb_true_iff in E as [S E]. apply same_item_sound in S as [S1 S2]. apply N.eqb_eq in E. destruct (remark y) eqn:R.
  - constructor; auto using looseb_sound.
  - destruct bs as [|b bs]; [discriminate|]. apply loosely_token; auto using looseb_sound.
Qed.
(** A model, and the same with line breaks at odd places and other indentation. *)
Definition straight : text := lines
  ["model M ""d"" extends A; // c"; "parameter Real x = 1 annotation(a); type E = enumeration(a, b);"; ""; "equation if a then b = f(1,"; "2); end if; /* e */ der(x) = 1; end M;"]%string.
Definition crooked : text := lines
  ["model"; "M"; ""; """d"""; "  extends"; "A; // c"; "parameter"; "Real"; "x"; "="; "1"; "annotation"; "(a)"; ";"; "type E"; "="; "enumeration"; ""; "(a, b)"; ";";
   ""; ""; "equation"; "if"; "a"; "then b"; "= f(1,"; ""; "2)"; "; end"; "if; /* e */ der(x)"; "="; "1"; "; end"; "M"; ";"]%string.
Definition straight_out : text := lines
  ["model M"; "  ""d"""; ""; "  extends A; // c"; "  parameter Real x = 1"; "    annotation (a);"; "  type E = enumeration(a, b);"; ""; "equation"; ""; "  if a then"; "    b = f("; "      1,"; "      2);"; "  end if; /* e */"; "  der(x) = 1;"; ""; "end M;"]%string.
Example C99_applies : formats straight straight_out /\
  exists p tree, accepted straight p /\ build_tree (p_tokens p) (p_events p) = Ok tree /\
    itemized straight (items_of straight) /\ itemized crooked (items_of crooked) /\ loosely (tied false false tree) (items_of straight) (items_of crooked).
Proof.
  split; [formatted|]. do 2 eexists. split; [split; vm_compute; reflexivity|]. split; [vm_compute; reflexivity|].
  split; [split; [vm_compute; reflexivity|apply sortedb_sorted; vm_compute; reflexivity]|].
  split; [split; [vm_compute; reflexivity|apply sortedb_sorted; vm_compute; reflexivity]|].
  apply looselyb_sound. vm_compute. reflexivity.
Qed.
(** One line break more in a list, in an expression, next to a comment, or behind a semicolon with a line break, is not the same. *)
Example C99_matters :
  (formats (lines ["model M Real x = f(a, b); end M;"]%string) (lines ["model M"; ""; "  Real x = f(a, b);"; ""; "end M;"]%string) /\
   formats (lines ["model M Real x = f(a,"; "b); end M;"]%string) (lines ["model M"; ""; "  Real x = f("; "    a,"; "    b);"; ""; "end M;"]%string)) /\
  (formats (lines ["model M Real x = a + b; end M;"]%string) (lines ["model M"; ""; "  Real x = a + b;"; ""; "end M;"]%string) /\
   formats (lines ["model M Real x = a +"; "b; end M;"]%string) (lines ["model M"; ""; "  Real x = a"; "    + b;"; ""; "end M;"]%string)) /\
  (formats (lines ["model M Real x; // c"; "Real y; end M;"]%string) (lines ["model M"; ""; "  Real x; // c"; "  Real y;"; ""; "end M;"]%string) /\
   formats (lines ["model M Real x;"; "// c"; "Real y; end M;"]%string) (lines ["model M"; ""; "  Real x;"; "  // c"; "  Real y;"; ""; "end M;"]%string)) /\
  (formats (lines ["model M Real x;"; "Real y; end M;"]%string) (lines ["model M"; ""; "  Real x;"; "  Real y;"; ""; "end M;"]%string) /\
   formats (lines ["model M Real x;"; ""; "Real y; end M;"]%string) (lines ["model M"; ""; "  Real x;"; ""; "  Real y;"; ""; "end M;"]%string)).
Proof. repeat split; formatted. Qed.
