(** Property C118: parts of files that are cut out and formatted on their own. *)
From Verif Require Import ProofBase Tokens Syntax Lexer SpecLex LexInv LexMain LexFacts ParserCore Grammar
  Tree Printer Formatter Lib ParserSem ParserFuel SpecGrammar Regex ParserGrammar ParserTree ParserFacts Recognise PropsParser
  SpecLanguage ParserComplete PropsLanguage
  FmtAbs FmtPlan FmtShape FmtTables FmtSound SpecLayout FmtExec FmtTop FmtFacts FmtRelex FmtNeat SpecNodes FmtTree FmtLists FmtOps
  FmtWrap SpecGaps SpecReference FmtNode FmtReference FmtSame PropsFormat PropsReference FmtBreaks FmtAgree FmtPrinted FmtStable FmtMoved
  FmtConcat SpecLevels FmtLevels PropsTree PropsLevels SpecLocal FmtLocal PropsLocal SpecEntry FmtEntry PropsEntry ParserStart PropsStart SpecAlone PropsAlone.

(** ** The first token of a part *)
Lemma first_spot c : fits c -> forall q pos first n on inh, exists x xs, spots q pos first n on inh c = x :: xs /\
  (at_pos x = pos /\ at_level x = first \/ exists b, at_pos x = Below b).
Proof.
  induction c as [t|k cs IH] using child_ind2; intros F q pos first n on inh.
  - cbn [spots]. eexists. eexists. split; [reflexivity|]. left. auto.
  - inversion F as [|? ? NE _ FC]; subst. destruct cs as [|d v]; [congruence|]. cbn [spots].
    inversion IH as [|? ? ID _]; subst. inversion FC as [|? ? FD _]; subst.
    cbn [last_of kind_last after_first].
    match goal with |- context [position_of ?a ?b ?c ?d ?e ?f ?g ?h] => destruct (position_of a b c d e f g h) as [| | |bb] eqn:EP end; cbv iota;
      match goal with |- context [spots k ?pp ?f ?m ?o ?i d] => destruct (ID FD k pp f m o i) as (x & xs & E & P); rewrite E end;
      (eexists; eexists; split; [reflexivity|]; destruct P as [[P1 P2]|P]; eauto).
Qed.

Lemma numbered_behind i A a B : numbered i (A ++ a :: B) -> forall t, In t B -> tidx a < tidx t.
Proof.
  intros NU t I. apply in_split in I as (u & v & ->). pose proof (NU A a _ eq_refl) as E1.
  pose proof (NU (A ++ a :: u) t v) as E2. rewrite <- app_assoc in E2. specialize (E2 eq_refl). rewrite app_length in E2. cbn [length] in E2. lia.
Qed.
Lemma filter_numbered i its f t t' : numbered i its -> In t (filter f its) -> In t' (filter f its) -> tidx t = tidx t' -> t = t'.
Proof. intros NU I I' E. apply filter_In in I as [I _]. apply filter_In in I' as [I' _]. apply (numbered_inj i its); auto. Qed.

Lemma part_first k s items ds l :
  flush k = true -> laid space s items -> arranged (near k) None 1 items ds l ->
  forall a u v b, filter plain items = a :: u -> filter plain items = v ++ [b] ->
  exists fn r, l = mkE WNone (Some fn) a :: r /\ excerpt a b l = l.
Proof.
  intros FL LA AR a u v b EA EB. pose proof (laid_numbered _ _ LA) as NU.
  assert (forall G x, near k None G x -> G = []) as NG.
  { intros G x J. unfold flush in FL. rewrite forallb_forall in FL. specialize (FL _ J). cbn [fst] in FL. destruct G; [reflexivity|discriminate]. }
  assert (forall cs, Forall (fun c => commentary c = true) cs -> filter plain cs = []) as FP.
  { intros cs C. apply filter_none. rewrite Forall_forall in C. intros x I. specialize (C x I). unfold plain, commentary in *. rewrite C. reflexivity. }
  assert (forall t, commentary t = false -> plain t = true) as PL by (intros t C; unfold plain, commentary in *; rewrite C; reflexivity).
  inversion AR as [? ? cs C|? ? cs fn t its ds' l' C T AA R|? ? cs fn t its ds' l' C T AA R|? ? ins cs fn t bb n its ds' l' first N C T I1 I2 AA R]; subst.
  - rewrite FP in EA by assumption. discriminate.
  - assert (t = a) as ->.
    { rewrite filter_app, FP in EA by assumption. cbn [app filter] in EA. rewrite PL in EA by assumption. congruence. }
    exists fn, l'. split; [reflexivity|]. unfold excerpt. apply filter_all. intros e I.
    assert (forall x, In x (filter plain (cs ++ a :: its)) -> tidx x <= tidx b) as LB.
    { intros x X. assert (In b (filter plain (cs ++ a :: its))) as Y by (rewrite EB; apply in_or_app; right; left; reflexivity).
      assert (forall f (ts : list token) i, numbered i ts -> forall w z, filter f ts = w ++ [z] -> forall x, In x (filter f ts) -> tidx x <= tidx z) as H.
      { clear. intros f ts i NU w z E x X. rewrite E in X. apply in_app_or in X as [X|[->|[]]]; [|lia].
        apply in_split in X as (w1 & w2 & ->). rewrite <- app_assoc in E. cbn [app] in E.
        destruct (filter_split _ _ _ _ _ E) as (t1 & t2 & -> & E1 & E2 & _). apply N.lt_le_incl. eapply numbered_behind; [exact NU|].
        assert (In z (filter f t2)) as Z by (rewrite E2; apply in_or_app; right; left; reflexivity). apply filter_In in Z. apply Z. }
      eapply H; eauto. }
    assert (tidx a <= tidx (e_tok e)) as GA.
    { destruct I as [<-|I]; [cbn [e_tok]; lia|]. apply N.lt_le_incl. eapply numbered_behind; [exact NU|].
      eapply drops_in; [eapply arranged_drops; exact R|]. apply in_map. exact I. }
    assert (In (e_tok e) (cs ++ a :: its)) as IE.
    { eapply drops_in; [eapply arranged_drops; exact AR|]. apply in_map. exact I. }
    unfold ranged. apply andb_true_iff. split; apply N.leb_le; [exact GA|].
    destruct (commentary (e_tok e)) eqn:CE; [|apply LB; apply filter_In; auto].
    assert (IE' := IE). apply in_split in IE' as (i1 & i2 & EI).
    destruct (proj1 (arranged_survival _ _ _ _ _ _ AR (laid_nodup _ _ _ LA) i1 (e_tok e) i2 EI CE)) as (t & e2 & (cs2 & i3 & E3 & F3 & T3) & _).
    { apply in_map. exact I. }
    transitivity (tidx t); [apply N.lt_le_incl; rewrite EI in NU; eapply numbered_behind; [exact NU|]; rewrite E3; apply in_or_app; right; left; reflexivity|].
    apply LB. apply filter_In. split; [|apply PL; exact T3]. rewrite EI, E3. apply in_or_app. right. right. apply in_or_app. right. left. reflexivity.
  - apply NG in AA. discriminate.
  - apply NG in AA. discriminate.
Qed.

(** ** The tree of the part *)
Definition regraft (a a' : token) (ts : list token) (t : token) : token :=
  match find (fun t' => (tidx t' + tidx a =? tidx t + tidx a') && tkind_eqb (tkind_of t') (tkind_of t)) ts with
  | Some t' => t' | None => t
  end.
Lemma regraft_kind a a' ts t : tkind_of (regraft a a' ts t) = tkind_of t.
Proof.
  unfold regraft. destruct (find _ ts) as [t'|] eqn:E; [|reflexivity]. apply find_some in E as [_ E].
  apply andb_true_iff in E as [_ E]. apply tkind_eqb_eq in E. exact E.
Qed.
Lemma regraft_map a a' i its ts : numbered i its -> (forall t, In t ts -> In t its) -> forall l l',
  (forall t, In t l' -> In t ts) -> Forall2 (likewise a a') l l' -> map (regraft a a' ts) l = l'.
Proof.
  intros NU S l l' S'. induction 1 as [|t t' l l' L F IH]; [reflexivity|]. cbn [map]. rewrite IH by (intros; apply S'; right; assumption). f_equal.
  unfold regraft. destruct L as (K & I & _). destruct (find _ ts) as [t2|] eqn:E.
  - apply find_some in E as [E1 E2]. apply andb_true_iff in E2 as [E2 _]. apply N.eqb_eq in E2.
    apply (numbered_inj i its); auto; [apply S, S'; left; reflexivity|]. lia.
  - exfalso. pose proof (find_none _ _ E t' (S' _ (or_introl eq_refl))) as N. cbv beta in N.
    apply andb_false_iff in N as [N|N]; [apply N.eqb_neq in N; lia|]. rewrite K in N.
    assert (tkind_eqb (tkind_of t) (tkind_of t) = true) as X by (apply tkind_eqb_eq; reflexivity). congruence.
Qed.
Lemma error_fits cs : ~ fits (CTree KError cs).
Proof. intro F. inversion F as [|? ? NE L _]; subst. vm_compute in L. inversion L; subst. Qed.

Lemma filter_between a b (items : list token) : between a b (filter plain items) = filter plain (between a b items).
Proof.
  unfold between. induction items as [|q l IH]; [reflexivity|]. cbn [filter]. destruct (plain q) eqn:P, (ranged a b q) eqn:Q; cbn [filter]; rewrite ?P, ?Q, IH; reflexivity.
Qed.

Lemma in_sorted (t : token) l : In t l -> In t (filter plain l ++ filter commentary l).
Proof.
  intro I. apply in_or_app. destruct (plain t) eqn:P; [left; apply filter_In; auto|]. right. apply filter_In. split; [exact I|].
  revert P. unfold plain, commentary. destruct (tkind_of t); intro; try discriminate; reflexivity.
Qed.

(** ** C118 *)
Theorem C118_cut : forall eol s p, accepted s p -> exists tree l, laid_tree eol s p tree l /\
  forall k cs a u b v s' ts coms a' u' b' v',
  inside (CTree k cs) tree -> self_contained k = true -> ~ In k edged -> k <> KModification ->
  toks (CTree k cs) = a :: u -> toks (CTree k cs) = v ++ [b] ->
  lex s' = Ok (ts, coms, []) -> ts = a' :: u' -> ts = v' ++ [b'] ->
  Forall2 (likewise a a') (toks (CTree k cs)) ts ->
  Forall2 (likewise a a') (between a b (p_comments p)) (between a' b' coms) ->
  exists p' n e r r',
    parse s' k = Ok p' /\ p_errors p' = [] /\ p_tokens p' = ts /\
    pretty_print eol p' = Ok (render eol (mkE WNone (e_rule e) a' :: r')) /\
    excerpt a b l = e :: r /\ e_tok e = a /\ (forall x m, e_white e = WLine x m -> m = n) /\
    Forall2 (fun x y => e_rule y = e_rule x /\ likewise a a' (e_tok x) (e_tok y) /\ same_white n 0%nat (e_white x) (e_white y)) r r' /\
    (forall x, In x r -> In (e_tok x) (p_tokens p ++ p_comments p)) /\ (forall y, In y r' -> In (e_tok y) (ts ++ coms)).
Proof.
  intros eol s p ACC. destruct (reading_of s p ACC) as (items & tree & R). exists tree, (reference tree items).
  split; [split; [apply R|apply (reading_reference eol _ _ _ _ R)]|].
  intros k cs a u b v s' ts coms a' u' b' v' I SC NI NM TA TB LX EA EB LT LC.
  pose proof (reading_fits _ _ _ _ _ _ R I SC) as FT. pose proof (inside_fits _ _ FT I) as F.
  assert (k <> KError) as NE. { intros ->. exact (error_fits _ F). }
  assert (k <> KOutputExpressionList) as NO. { intros ->. apply NI. unfold edged. simpl. tauto. }
  destruct (node_parsable _ _ _ _ _ _ _ _ R I TA) as (c0 & P0 & E0).
  destruct c0 as [t0|k0 cs0]; [discriminate|]. assert (k0 = k) as -> by (rewrite prune_tree in E0; congruence).
  destruct (lex_sound _ _ _ LX) as (its & _ & _ & X3 & X4 & X5). pose proof (laid_numbered _ _ X3) as NU.
  set (g := regraft a a' ts). assert (forall t, tkind_of (g t) = tkind_of t) as GK by (intro t; apply regraft_kind).
  assert (leaves (tmap g (CTree k cs0)) = ts) as LV.
  { rewrite leaves_tmap, <- leaves_prune, E0, <- toks_leaves. apply (regraft_map a a' 0 its ts); auto.
    intros t T. rewrite X4 in T. apply filter_In in T. apply T. }
  assert (parsable (tmap g (CTree k cs0))) as PG.
  { destruct P0 as [C U]. split; [apply conforms_tmap; auto|apply unbarred_tmap; auto]. }
  cbn [tmap] in LV, PG. set (ds := map (tmap g) cs0) in *.
  rewrite <- LV in LX. destruct (C116_finds_tree k ds s' coms NE NO PG LX) as (p' & RW & PC' & _).
  assert (p_tokens p' = ts) as PT' by (destruct RW as (_ & _ & _ & <- & _); exact LV).
  assert (p_tokens p' <> []) as NT by (rewrite PT', EA; discriminate).
  destruct (part_reference eol k s' p' ds RW NI NM NT) as (items' & _ & _ & _ & LA' & PI' & CI' & PP & AR).
  assert (exists cs', prune (CTree k ds) = CTree k cs') as [cs' EK] by (rewrite prune_tree; eauto). rewrite EK in PP, AR.
  assert (toks (CTree k cs') = ts) as TK by (rewrite <- EK, toks_leaves, leaves_prune; exact LV).
  assert (fits (CTree k cs')) as F'.
  { destruct RW as (_ & _ & C & _). pose proof (prune_fits _ C) as F'. rewrite EK in F'. destruct cs'; [|exact F']. rewrite EA in TK. discriminate. }
  set (l' := reference_at k (CTree k cs') items') in *.
  assert (filter plain items' = a' :: u') as EA' by congruence. assert (filter plain items' = v' ++ [b']) as EB' by congruence.
  destruct (part_first k s' items' _ l' (flush_unless k NI NM) LA' AR a' u' v' b' EA' EB') as (fn & r' & EL & EE).
  destruct (first_spot _ F' k Beside 0%nat 0%nat false false) as (x' & xs' & EO & PX).
  assert (own (CTree k cs') = x' :: xs') as EO' by exact EO.
  assert (map at_tok (x' :: xs') = toks (CTree k cs')) as TX by (rewrite <- EO; apply spots_toks).
  assert (at_tok x' = a') as AX by (rewrite TK, EA in TX; cbn [map] in TX; congruence).
  assert (excerpted items' l' k cs' a' b' 0%nat) as X'.
  { apply (weave_excerpt s' items' k cs' a' u' b' v' 0%nat x' xs' x' [] []); auto; try congruence.
    cbn [app]. rewrite app_nil_r, EO. f_equal. clear. induction xs' as [|y l IH]; [reflexivity|]. cbn [map]. rewrite <- IH. destruct y. reflexivity. }
  assert (at_level x' = 0%nat) as LV0.
  { destruct PX as [[_ PX]|(bb & PX)]; [exact PX|]. exfalso.
    destruct (filter_split plain items' [] a' u' EA') as (A & A2 & EI & FA & _ & PA).
    destruct (weave_pass A None 1 [] [] x' a' A2 xs' FA PA AX) as (L & w & EW & WA & IL).
    assert (l' = L ++ mkE w (Some (at_rule x')) a' :: weave (Some (at_rule x', tkind_of a')) (line (tend a')) [] A2 xs') as E2.
    { subst l'. unfold reference_at. rewrite EO, EI. exact EW. }
    rewrite EL in E2. destruct L as [|e0 L].
    - cbn [app] in E2. injection E2 as E2 _ _. rewrite <- E2 in WA. unfold white_at in WA. rewrite PX in WA. destruct WA as (? & WA). discriminate.
    - cbn [app] in E2. injection E2 as E2 _. assert (In a' A) as IA.
      { pose proof (IL e0 (or_introl eq_refl)) as J. rewrite <- E2 in J. exact J. }
      assert (In a' (filter plain A)) as J by (apply filter_In; auto). rewrite FA in J. destruct J. }
  destruct (reading_excerpt _ _ _ _ _ _ _ _ _ _ R I SC TA TB) as (n & X).
  assert (between a b (p_tokens p) = toks (CTree k cs)) as TT.
  { destruct X as (A & B & C & x & xs & w & _ & _ & _ & FB & _ & BT & _). rewrite (rd_tokens _ _ _ _ R), filter_between, BT. exact FB. }
  assert (between a' b' (p_tokens p') = toks (CTree k cs')) as TT'.
  { destruct X' as (A & B & C & x & xs & w & _ & _ & _ & FB & _ & BT & _). rewrite PI', filter_between, BT. exact FB. }
  assert (map tkind_of (toks (CTree k cs)) = map tkind_of (toks (CTree k cs')) -> tmap bare (CTree k cs) = tmap bare (CTree k cs')) as SH.
  { intro MK. rewrite EA in TK. exact (nodes_shaped _ _ _ _ _ _ _ _ _ _ _ _ R I TA PG EK TK MK). }
  assert (exists e r e' r', excerpt a b (reference tree items) = e :: r /\ excerpt a' b' l' = e' :: r' /\
    e_tok e = a /\ e_tok e' = a' /\ e_rule e' = e_rule e /\ Forall2 (same_entry n 0%nat a a') r r' /\
    (forall y ys, own (CTree k cs) = y :: ys -> at_level y = 0%nat)) as (e & r & e' & r2 & E1 & E2 & E3 & E4 & E5 & E6 & E7).
  { rewrite <- TK in EA, EB. rewrite <- TK, <- TT, <- TT' in LT. rewrite <- PC' in LC.
    destruct (N.le_ge_cases (line (tstart a)) (line (tstart a'))) as [LE|LE].
    - destruct (excerpts_down s p items (reference tree items) s' p' items' l' k cs cs' a b u v a' b' u' v' n 0%nat) as (e & r & e' & r2 & E); auto; try apply R.
      exists e, r, e', r2. destruct E as (E1 & E2 & E3 & E4 & E5 & _ & E7 & E8). do 6 (split; [assumption|]). intros y ys Y. rewrite <- (E8 _ _ _ _ Y EO'). exact LV0.
    - destruct (excerpts_down s' p' items' l' s p items (reference tree items) k cs' cs a' b' u' v' a b u v 0%nat n) as (e & r & e' & r2 & E1 & E2 & E3 & E4 & E5 & _ & E7 & E8); auto; try apply R.
      { intro MK. symmetry. apply SH. auto. }
      { apply (forall2_swap _ _ _ _ (likewise_sym a a') LT). }
      { apply (forall2_swap _ _ _ _ (likewise_sym a a') LC). }
      exists e', r2, e, r. do 4 (split; [assumption|]). split; [congruence|]. split; [|intros y ys Y; rewrite (E8 _ _ _ _ EO' Y); exact LV0]. revert E7. apply forall2_swap. intros x y (Y1 & Y2 & Y3). split; [congruence|]. split; [apply likewise_sym, Y2|].
      unfold same_white in *. destruct (e_white x), (e_white y); try congruence; try discriminate. destruct Y3. split; [congruence|lia]. }
  rewrite EE, EL in E2. injection E2 as <- <-. cbn [e_tok e_rule] in E4, E5.
  exists p', n, e, r, r'. split; [apply RW|]. split; [apply RW|]. split; [exact PT'|]. rewrite <- E5, <- EL. split; [exact PP|]. split; [exact E1|]. split; [exact E3|].
  split.
  { intros x m W. destruct X as (A & B & C & y & ys & w & _ & YO & _ & _ & _ & _ & EX & WW). rewrite EX in E1. injection E1 as <- _. cbn [e_white] in W.
    rewrite (WW _ _ W), (E7 _ _ YO). lia. }
  split; [exact E6|]. split; intros y Y.
  - assert (In y (reference tree items)) as J by (apply (or_intror (A := e = y)) in Y; change (In y (e :: r)) in Y; rewrite <- E1 in Y; apply filter_In in Y; apply Y).
    apply weave_in in J; [|apply (reading_spots _ _ _ _ R)]. rewrite (rd_tokens _ _ _ _ R), (rd_comments _ _ _ _ R). apply in_sorted, J.
  - assert (In y l') as J by (rewrite EL; right; exact Y). apply weave_in in J; [|rewrite EO, TX, TK, <- PT'; symmetry; exact PI'].
    rewrite <- PT', <- PC', PI', CI'. apply in_sorted, J.
Qed.
Print Assumptions C118_cut.

(** An if-equation in a model in a package, and the same equation cut out. *)
Definition C118_file : text := lines
  ["package P"; "model M Real x; equation"; "y=2; if x>1 then // c"; "x=f(a,"; "b); "; ""; "// d"; "z=3; end if;"; "end M; end P;"]%string.
Definition C118_part : text := lines ["if y>2 then // b"; "  w=f(u,"; "v); "; ""; "// e"; "t=7; end if"]%string.
Example C118_formats :
  formats C118_file (lines
    ["package P"; ""; "  model M"; ""; "    Real x;"; ""; "  equation"; ""; "    y = 2;"; "    if x > 1 then // c"; "      x = f("; "        a,"; "        b);"; "";
     "      // d"; "      z = 3;"; "    end if;"; ""; "  end M;"; ""; "end P;"]%string) /\
  shown KEquation C118_part (lines
    ["if y > 2 then // b"; "  w = f("; "    u,"; "    v);"; ""; "  // e"; "  t = 7;"; "end if"]%string).
Proof. split; [formatted|show]. Qed.
Example C118_meets : exists p tree ts coms, accepted C118_file p /\ build_tree (p_tokens p) (p_events p) = Ok tree /\ lex C118_part = Ok (ts, coms, []) /\
  exists cs a u b v a' u' b' v', inside (CTree KEquation cs) tree /\ toks (CTree KEquation cs) = a :: u /\ toks (CTree KEquation cs) = v ++ [b] /\
    ts = a' :: u' /\ ts = v' ++ [b'] /\
    Forall2 (likewise a a') (toks (CTree KEquation cs)) ts /\
    Forall2 (likewise a a') (between a b (p_comments p)) (between a' b' coms) /\
    length u = 19%nat /\ length (between a' b' coms) = 2%nat.
Proof.
  eexists. eexists. eexists. eexists. split; [split; vm_compute; reflexivity|]. split; [vm_compute; reflexivity|]. split; [vm_compute; reflexivity|]. cbn [p_tokens p_comments].
  do 9 eexists. split; [apply nodes_inside; vm_compute; right; left; reflexivity|].
  split; [vm_compute; reflexivity|].
  split; [match goal with |- ?l = _ => let l' := eval vm_compute in (removelast l) in let z := eval vm_compute in (last l (mkTok 0 [] TEOF (mkPos 0 0 0) (mkPos 0 0 0))) in instantiate (1 := z); instantiate (1 := l') end; vm_compute; reflexivity|].
  split; [reflexivity|].
  split; [match goal with |- ?l = _ => let l' := eval vm_compute in (removelast l) in let z := eval vm_compute in (last l (mkTok 0 [] TEOF (mkPos 0 0 0) (mkPos 0 0 0))) in instantiate (1 := z); instantiate (1 := l') end; vm_compute; reflexivity|].
  match goal with |- Forall2 ?q ?x ?y /\ Forall2 _ ?x2 ?y2 /\ _ =>
    let x' := eval vm_compute in x in change x with x';
    let x3 := eval vm_compute in x2 in let y3 := eval vm_compute in y2 in change x2 with x3; change y2 with y3 end.
  split; [repeat (constructor; [repeat split|]); constructor|]. split; [repeat (constructor; [repeat split|]); constructor|]. split; reflexivity.
Qed.
