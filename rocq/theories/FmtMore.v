(** More line breaks in the source give more line breaks in the output. *)
From Coq Require Import Sorted.
From Verif Require Import ProofBase Tokens Syntax Lexer SpecLex LexInv LexMain LexFacts LexCut ParserCore Grammar
  Tree Printer Formatter Lib ParserSem ParserFuel SpecGrammar Regex ParserGrammar ParserTree ParserFacts Recognise PropsParser
  SpecLanguage ParserComplete PropsLanguage
  FmtAbs FmtPlan FmtShape FmtTables FmtSound SpecLayout FmtExec FmtTop FmtFacts FmtRelex FmtNeat SpecNodes FmtTree FmtLists FmtOps
  FmtWrap SpecGaps SpecReference FmtNode FmtReference FmtSame PropsFormat PropsReference PropsSame FmtBreaks FmtAgree FmtPrinted FmtStable
  FmtMoved FmtConcat SpecTold PropsModular FmtOnce FmtNear PropsVertical FmtLocal SpecCode FmtCode SpecMore.

(** ** Tokens with more line breaks *)
Section Rank.
Variable g : token -> token.
Hypothesis G : relined g.
Notation tm := (tmap g).
Definition below (ts : list token) : Prop := exists bs bs', lined bs ts /\ lined bs' (map g ts) /\ Forall2 grows bs bs'.
Lemma below_app a b : below (a ++ b) -> below a /\ below b.
Proof.
  intros (bs & bs' & L1 & L2 & GR). rewrite map_app in L2. pose proof (lined_length _ _ L1) as N. pose proof (lined_length _ _ L2) as N'.
  rewrite app_length in N, N'. rewrite !map_length in N'.
  rewrite <- (firstn_skipn (length a) bs) in L1, GR. rewrite <- (firstn_skipn (length a) bs') in L2, GR.
  assert (length (firstn (length a) bs) = length a) as N1 by (rewrite List.firstn_length; lia).
  assert (length (firstn (length a) bs') = length a) as N2 by (rewrite List.firstn_length; lia).
  apply lined_app in L1 as [A1 B1]; [|exact N1]. apply lined_app in L2 as [A2 B2]; [|rewrite map_length; exact N2].
  apply both_app in GR as [G1 G2]; [|congruence].
  split; eexists; eexists; eauto.
Qed.
Lemma grows_firstn n a b : Forall2 grows a b -> Forall2 grows (firstn n a) (firstn n b).
Proof. intro F. revert n. induction F as [|x y a b H _ IH]; intros [|n]; cbn [firstn]; constructor; auto. Qed.
Lemma grows_tail x a y b : Forall2 grows (x :: a) (y :: b) -> Forall2 grows a b.
Proof. intro F. inversion F; assumption. Qed.
Lemma below_start ts t e : below (t :: ts ++ [e]) -> line (tstart t) < line (tstart e) -> line (tstart (g t)) < line (tstart (g e)).
Proof.
  intros (bs & bs' & L1 & L2 & GR) LT. destruct bs as [|b bs]; [contradiction|]. destruct bs' as [|b' bs']; [inversion GR|]. cbn [map] in L2. rewrite map_app in L2. cbn [map] in L2.
  apply lined_start in L1 as [_ L1]. apply lined_start in L2 as [_ L2]. rewrite map_length in L2. change (g t :: map g ts) with (map g (t :: ts)) in L2.
  rewrite (tall_kin g G) in L2. apply L2. apply L1 in LT. destruct LT as [LT|LT]; [left|right; exact LT].
  eapply grows_any; [|exact LT]. apply grows_firstn. eapply grows_tail. exact GR.
Qed.
Lemma below_end ts t e : below (t :: ts ++ [e]) -> line (tend t) < line (tstart e) -> line (tend (g t)) < line (tstart (g e)).
Proof.
  intros K LT. destruct ts as [|m ts].
  - destruct K as (bs & bs' & L1 & L2 & GR). destruct bs as [|b [|c bs]]; try contradiction; [destruct L1 as (_ & _ & [])|].
    destruct bs' as [|b' [|c' bs']]; try contradiction; [destruct L2 as (_ & _ & [])|]. apply grows_tail in GR. inversion GR as [|? ? ? ? GC _]; subst. cbn [map app lined] in *.
    destruct L1 as (_ & L1 & _), L2 as (_ & L2 & _). destruct c; [rewrite (GC eq_refl) in L2; exact L2|lia].
  - pose proof K as K1. change (t :: (m :: ts) ++ [e]) with ([t] ++ m :: ts ++ [e]) in K1. apply below_app in K1 as [_ K1]. pose proof (below_start _ _ _ K1) as K2.
    destruct K as (bs & bs' & L1 & L2 & GR). destruct bs as [|b [|c bs]]; try contradiction; [destruct L1 as (_ & _ & [])|].
    destruct bs' as [|b' [|c' bs']]; try contradiction; [destruct L2 as (_ & _ & [])|]. apply grows_tail in GR. inversion GR as [|? ? ? ? GC _]; subst.
    assert (forall x y z (f : token -> token), lined (x :: y :: z) (map f (t :: m :: ts ++ [e])) -> line (tstart (f m)) <= line (tstart (f e)) /\ if y : bool then line (tend (f t)) < line (tstart (f m)) else line (tend (f t)) = line (tstart (f m))) as Z.
    { intros x y z f L. cbn [map] in L. rewrite map_app in L. cbn [map] in L. destruct L as (_ & A & L). apply lined_start in L as [L _]. split; [exact L|exact A]. }
    destruct (Z b c bs (fun x => x)) as [Z1 Z2]; [rewrite map_id; exact L1|]. destruct (Z _ _ _ g L2) as [Y1 Y2]. destruct c; [rewrite (GC eq_refl) in Y2; lia|].
    destruct c'; lia.
Qed.
Lemma below_spans c : below (toks c) -> spans c = true -> spans (tm c) = true.
Proof.
  intros (bs & bs' & L1 & L2 & GR) S. destruct bs as [|b bs].
  - destruct (toks c) eqn:E; [|contradiction]. unfold spans, first_line, last_line in *. rewrite (toks_map g), E in *. exact S.
  - destruct bs' as [|b' bs']; [inversion GR|]. apply (spans_bits b bs c L1) in S. apply (spans_bits b' bs'); [rewrite (toks_map g); exact L2|].
    rewrite (toks_map g), (tall_kin g G). destruct S as [S|S]; [left|right; exact S]. eapply grows_any; [|exact S]. eapply grows_tail. exact GR.
Qed.
Lemma below_child k u d v : below (toks (CTree k (rev u ++ d :: v))) -> below (toks d).
Proof.
  intro K. cbn [toks] in K. rewrite flat_map_app in K. apply below_app in K as [_ K]. cbn [flat_map] in K. apply below_app in K as [K _]. exact K.
Qed.
Lemma below_apart k cs : by_apart k = true -> fits (CTree k cs) -> below (toks (CTree k cs)) -> brackets_apart k cs = true -> brackets_apart k (map tm cs) = true.
Proof.
  intros B F K A. assert (lang (prod k) (map sym_of cs)) as L by (inversion F; assumption).
  assert (map (tmap (fun t => t)) cs = cs) as ID.
  { clear. assert (forall c, tmap (fun t => t) c = c) as H.
    { clear. induction c as [t|k cs IH] using child_ind2; [reflexivity|]. cbn [tmap]. f_equal. induction IH as [|d r D _ I]; [reflexivity|]. cbn [map]. rewrite D, I. reflexivity. }
    induction cs as [|c cs IH]; [reflexivity|]. cbn [map]. rewrite H, IH. reflexivity. }
  rewrite <- ID in A. apply (apart_split k cs B L (fun t => t) (fun t => eq_refl)) in A as (u & o & x & c & y & E & O & C & LT).
  rewrite E. apply split_apart; auto; [apply (re_kind g G)|].
  apply (below_start (flat_map toks x)); [|exact LT]. cbn [toks] in K. rewrite E, flat_map_app in K. apply below_app in K as [_ K].
  cbn [flat_map toks app] in K. rewrite flat_map_app in K. cbn [flat_map toks app] in K.
  replace (o :: flat_map toks x ++ c :: flat_map toks y) with ((o :: flat_map toks x ++ [c]) ++ flat_map toks y) in K by (cbn [app]; rewrite <- app_assoc; reflexivity).
  apply below_app in K as [K _]. exact K.
Qed.
Lemma below_wide k cs inh inh' : fits (CTree k cs) -> below (toks (CTree k cs)) -> grows inh inh' -> wide k cs inh = true -> wide k (map tm cs) inh' = true.
Proof.
  intros F K I W. rewrite wide_why in *. rewrite (always_wide_map g). rewrite !orb_true_iff, !andb_true_iff in W. rewrite !orb_true_iff, !andb_true_iff.
  destruct W as [[[(W1 & W2)|W]|(W1 & W2)]|((W1 & W2) & W3)].
  - left. left. left. split; [exact W1|apply I, W2].
  - left. left. right. exact W.
  - left. right. split; [exact W1|apply below_apart; auto].
  - right. split; [split; [exact W1|]|apply (below_spans _ K) in W3; exact W3]. unfold long_enough in *. destruct k; rewrite ?map_length; exact W2.
Qed.
Lemma below_turns k u d v : Forall fits (rev u ++ d :: v) -> below (toks (CTree k (rev u ++ d :: v))) ->
  turns k (last_of u) d v = true -> turns k (last_of (map tm u)) (tm d) (map tm v) = true.
Proof.
  intros F K T. destruct u as [|a u]; [discriminate|]. destruct v as [|b v]; [cbn [map last_of turns] in *; exact T|]. unfold turns in *. cbn [map last_of] in *. rewrite (kind_map g G).
  apply andb_true_iff in T as [T1 T2]. rewrite T1. cbn [andb]. apply N.ltb_lt in T2. apply N.ltb_lt.
  cbn [rev] in *. rewrite <- app_assoc in *. cbn [app] in *. apply Forall_app in F as [_ F]. inversion F as [|? ? FA F1]; subst. inversion F1 as [|? ? _ F2]; subst. inversion F2 as [|? ? FB _]; subst.
  cbn [toks] in K. rewrite flat_map_app in K. apply below_app in K as [_ K]. cbn [flat_map] in K.
  destruct (@exists_last _ (toks a)) as (ra & t & EA); [apply toks_some; exact FA|].
  destruct (toks b) as [|e rb] eqn:EB; [apply toks_some in FB; contradiction|].
  unfold last_line, first_line in *. rewrite !(toks_map g), EA, EB, !map_app, !rev_app_distr in *. cbn [map rev app] in *.
  apply (below_end (toks d)); [|exact T2].
  assert (below (ra ++ (t :: toks d ++ [e]) ++ rb ++ flat_map toks v)) as K' by (cbn [app] in *; rewrite <- !app_assoc in *; cbn [app] in *; exact K).
  apply below_app in K' as [_ K']. apply below_app in K' as [K' _]. exact K'.
Qed.
Theorem more_breaks c : fits c -> below (toks c) -> forall inh inh', grows inh inh' -> Forall2 grows (bits false inh c) (bits false inh' (tm c)).
Proof.
  induction c as [t|k cs IH] using child_ind2; intros F K inh inh' I; [constructor; [intro; auto|constructor]|].
  assert (Forall fits cs) as FC by (inversion F; assumption).
  change (tm (CTree k cs)) with (CTree k (map tm cs)). rewrite !bits_tree.
  assert (wide k cs inh = true -> wide k (map tm cs) inh' = true) as W by (apply below_wide; auto).
  apply (node_rel g G grows k _ _ cs FC) with (u := []); [| | |reflexivity].
  - unfold grows. intros b b' x x' H1 H2 H. apply orb_true_iff in H as [H|H]; apply orb_true_iff; auto.
  - intros u d v E. rewrite Forall_forall in IH, FC. assert (In d cs) as ID by (rewrite E; apply in_or_app; right; left; reflexivity).
    rewrite (bequeathed_map g). apply (IH d ID); auto.
    + rewrite E in K. eapply below_child, K.
    + intro BQ. unfold bequeathed in *. destruct k; auto. destruct d as [t|[]]; auto. apply andb_true_iff in BQ as [B1 B2]. rewrite (W B1), B2. reflexivity.
  - intros u d v E H. rewrite below_why in *. rewrite (always_below_map g G). rewrite !orb_true_iff, !andb_true_iff, !orb_true_iff, !andb_true_iff in *.
    destruct H as [H|(H1 & H)]; [left; exact H|right]. rewrite (kind_last_map g G), (kind_map g G). split; [exact H1|]. rewrite E in K, FC.
    destruct H as [[(H2 & H3)|H]|(H2 & H3)].
    + left. left. split; [exact H2|]. unfold multi_if in *. apply andb_true_iff in H3 as [H3 H4]. rewrite (below_spans d (below_child _ _ _ _ K) H3).
      rewrite (toks_map g). destruct (toks d); [discriminate|]. cbn [map andb]. rewrite (re_kind g G). exact H4.
    + left. right. eapply below_turns; eauto.
    + right. split; [apply W, H2|exact H3].
Qed.
End Rank.

Lemma more_rows_both l l' : more_rows l l' -> Forall2 same_token l l'.
Proof. induction 1; constructor; auto. Qed.
Lemma more_rows_kinds l l' : more_rows l l' -> map tkind_of l = map tkind_of l'.
Proof. intro S. apply more_rows_both in S. induction S as [|t t' l l' (K & _) _ IH]; [reflexivity|]. cbn [map]. congruence. Qed.
Lemma more_rows_marks l l' : more_rows l l' -> Forall2 grows (marks l) (marks l').
Proof.
  induction 1 as [|t t' _|a a' b b' r r' _ C S IH]; [constructor|constructor|].
  change (Forall2 grows ((line (tend a) <? line (tstart b)) :: marks (b :: r)) ((line (tend a') <? line (tstart b')) :: marks (b' :: r'))).
  constructor; [|exact IH]. unfold grows. rewrite !N.ltb_lt. exact C.
Qed.
Lemma same_tokens_paired l l' : Forall2 same_token l l' -> Forall paired (combine l l').
Proof.
  induction 1 as [|t t' l l' (K & T & W) _ IH]; cbn [combine]; constructor; [|exact IH]. unfold paired. cbn [fst snd]. split; [exact K|]. split; [unfold tall; apply eq_true_iff_eq; rewrite !N.ltb_lt; symmetry; exact T|].
  intro X. specialize (W X). destruct (N.eq_dec (tidx t) 0), (N.eq_dec (tidx t') 0); apply eq_true_iff_eq; rewrite !N.ltb_lt; lia.
Qed.

(** The code of a layout has line breaks where the spots say so. *)
Lemma spelled_bits xs : forall p, map (fun e => is_break (e_white e)) (spelled p xs) = map (fun x => is_below (at_pos x)) xs.
Proof.
  induction xs as [|x xs IH]; intro p; [reflexivity|]. cbn [spelled map]. rewrite IH. f_equal. cbn [e_white].
  destruct (at_pos x); try reflexivity. destruct p as [[? a]|]; [destruct (SpecGaps.tight a (at_rule x) (tkind_of (at_tok x)))|]; reflexivity.
Qed.
Lemma code_bits items xs p ln : filter plain items = map at_tok xs ->
  map (fun e => is_break (e_white e)) (filter code (weave p ln [] items xs)) = map (fun x => is_below (at_pos x)) xs.
Proof.
  intro F. rewrite <- (spelled_bits xs p). pose proof (code_weave items p ln [] xs F) as W. induction W as [|e e' a b (E & _) _ IH]; [reflexivity|].
  cbn [map]. rewrite IH. f_equal. unfold same_white in E. destruct (e_white e), (e_white e'); cbn; congruence.
Qed.
Theorem reading_more s p items tree s' p' items' tree' : reading s p items tree -> reading s' p' items' tree' ->
  p_events p' = p_events p -> more_rows (filter plain items) (filter plain items') ->
  Forall2 grows (map (fun e => is_break (e_white e)) (filter code (reference tree items))) (map (fun e => is_break (e_white e)) (filter code (reference tree' items'))).
Proof.
  intros R R' EV NP. unfold reference.
  rewrite (code_bits _ _ _ _ (reading_spots _ _ _ _ R)), (code_bits _ _ _ _ (reading_spots _ _ _ _ R')), !bits_spots. cbn [is_below].
  pose proof (more_rows_both _ _ NP) as NB.
  assert (length (filter plain items) = length (filter plain items')) as LEN by (apply near_length in NB; exact NB).
  destruct (near_combine _ _ LEN) as [C1 C2]. set (g := partner (combine (filter plain items) (filter plain items'))).
  pose proof (laid_ordered _ _ _ (rd_laid _ _ _ _ R)) as [S0 _ _].
  assert (map g (filter plain items) = filter plain items') as MG.
  { pose proof (partner_maps (combine (filter plain items) (filter plain items'))) as PM. rewrite C1, C2 in PM. apply PM, sorted_filter, S0. }
  assert (relined g) as G by (eapply partner_relined, same_tokens_paired; exact NB).
  assert (tree' = tmap g tree) as ET.
  { pose proof (rd_tree _ _ _ _ R') as B'. rewrite (rd_tokens _ _ _ _ R'), <- MG, EV, build_tree_map in B'. rewrite <- (rd_tokens _ _ _ _ R), (rd_tree _ _ _ _ R) in B'. cbn [rmap] in B'. apply ok_same in B'. auto. }
  rewrite ET. destruct (rd_fits _ _ _ _ R) as (cs & E & [F|F]).
  - rewrite E, F. constructor.
  - apply more_breaks; auto; [|intro; assumption]. pose proof (toks_some _ F) as NE. rewrite (rd_toks _ _ _ _ R), (rd_tokens _ _ _ _ R) in *.
    exists (false :: marks (filter plain items)), (false :: marks (filter plain items')). rewrite MG. split; [|split].
    + apply (downward_lined _ _ 1); [|exact NE]. apply downward_filter. apply (laid_downward _ _ (rd_laid _ _ _ _ R)).
    + apply (downward_lined _ _ 1).
      * apply downward_filter. apply (laid_downward _ _ (rd_laid _ _ _ _ R')).
      * intro K. rewrite K in LEN. destruct (filter plain items); [contradiction|discriminate].
    + constructor; [intro; assumption|]. apply more_rows_marks, NP.
Qed.
