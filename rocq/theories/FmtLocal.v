(** Nodes are laid out in the same way wherever they stand. *)
From Verif Require Import ProofBase Tokens Syntax Lexer SpecLex LexInv LexMain LexFacts ParserCore Grammar
  Tree Printer Formatter Lib ParserSem ParserFuel SpecGrammar Regex ParserGrammar ParserTree ParserFacts Recognise PropsParser
  SpecLanguage ParserComplete PropsLanguage
  FmtAbs FmtPlan FmtShape FmtTables FmtSound SpecLayout FmtExec FmtTop FmtFacts FmtRelex FmtNeat SpecNodes FmtTree FmtLists FmtOps
  FmtWrap SpecGaps SpecReference FmtNode FmtReference FmtSame PropsFormat PropsReference FmtBreaks FmtAgree FmtPrinted FmtStable FmtMoved
  FmtConcat SpecLevels FmtLevels SpecLocal.

(** ** Trees with the same tokens *)
Definition bare (t : token) : token := mkTok 0 [] (tkind_of t) (mkPos 0 0 0) (mkPos 0 0 0).
Definition plug (x : list (skind * list child * list child)) (c : child) : child :=
  fold_right (fun y c => CTree (fst (fst y)) (snd (fst y) ++ c :: snd y)) c x.

Lemma inside_plug c t : inside c t -> exists x, t = plug x c.
Proof.
  induction 1 as [c|c k cs d ID I (x & IH)]; [exists []; reflexivity|]. apply in_split in ID as (u & v & ->).
  exists ((k, u, v) :: x). cbn [plug fold_right fst snd]. unfold plug in IH. rewrite <- IH. reflexivity.
Qed.
Lemma plug_inj x c c' : plug x c = plug x c' -> c = c'.
Proof.
  induction x as [|[[k u] v] x IH]; cbn [plug fold_right fst snd]; intro E; [exact E|]. apply IH. injection E as E.
  apply app_inv_head in E. injection E as E. exact E.
Qed.
Lemma plug_tmap g x c : tmap g (plug x c) = plug (map (fun y => (fst (fst y), map (tmap g) (snd (fst y)), map (tmap g) (snd y))) x) (tmap g c).
Proof.
  induction x as [|[[k u] v] x IH]; cbn [plug fold_right fst snd map]; [reflexivity|]. cbn [tmap]. rewrite map_app. cbn [map].
  unfold plug in IH. rewrite IH. reflexivity.
Qed.
Definition exchangeable (c c' : child) : Prop := sym_of c = sym_of c' /\ map tkind_of (leaves c) = map tkind_of (leaves c').
Lemma plug_leaves x c c' : exchangeable c c' -> exchangeable (plug x c) (plug x c').
Proof.
  intros [S L]. induction x as [|[[k u] v] x IH]; cbn [plug fold_right fst snd]; [split; auto|]. unfold plug in IH. destruct IH as [S' L']. split; [reflexivity|].
  cbn [leaves]. rewrite !flat_map_app, !map_app. cbn [flat_map]. rewrite !map_app, L'. reflexivity.
Qed.
Lemma parsable_inside c t : inside c t -> parsable t -> parsable c.
Proof.
  induction 1 as [c|c k cs d ID I IH]; intros [C U]; [split; assumption|]. apply conforms_kids in C as [_ C]. apply unbarred_kids in U as [_ U].
  rewrite Forall_forall in *. apply IH. split; auto.
Qed.
Lemma plug_parsable x c c' : exchangeable c c' -> parsable c' -> parsable (plug x c) -> parsable (plug x c').
Proof.
  intros X PC. induction x as [|[[k u] v] x IH]; cbn [plug fold_right fst snd]; intro P; [exact PC|]. pose proof (plug_leaves x c c' X) as [S L].
  destruct P as [C U]. apply conforms_kids in C as [LA C]. apply unbarred_kids in U as [A U]. unfold plug in *.
  set (d := fold_right (fun y c => CTree (fst (fst y)) (snd (fst y) ++ c :: snd y)) c x) in *.
  set (d' := fold_right (fun y c => CTree (fst (fst y)) (snd (fst y) ++ c :: snd y)) c' x) in *.
  apply Forall_app in C as [C1 C2]. apply Forall_app in U as [U1 U2]. apply Forall_app in A as [A1 A2]. inversion C2; inversion U2; inversion A2; subst.
  destruct IH as [CD UD]; [split; assumption|]. split; constructor; try (apply Forall_app; split; auto; constructor; auto; fail).
  - unfold syms in *. rewrite map_app in *. cbn [map] in *. rewrite <- S. exact LA.
  - apply Forall_app. split; auto. constructor; auto. unfold allowed in *. destruct d as [t|q ds], d' as [t'|q' ds']; cbn [sym_of] in S; try exact Logic.I; try discriminate.
    assert (q' = q) as -> by congruence. destruct (leaves (CTree q ds)), (leaves (CTree q ds')); try discriminate; auto.
    cbn [map] in L. replace (tkind_of t0) with (tkind_of t); auto. congruence.
Qed.
Lemma flat_tmap g c : (forall t, tkind_of (g t) = tkind_of t) -> ParserSem.flat (tmap g c) = ParserSem.flat c.
Proof.
  intro G. induction c as [t|k cs IH] using child_ind2; [reflexivity|]. cbn [tmap ParserSem.flat]. f_equal. f_equal. induction IH as [|c cs C _ IHc]; [reflexivity|].
  cbn [map flat_map]. rewrite C, IHc. reflexivity.
Qed.
Theorem node_unique cs c c' : parsable (CTree KStoredDefinition cs) -> inside c (CTree KStoredDefinition cs) -> parsable c' ->
  exchangeable c c' -> tmap bare c = tmap bare c'.
Proof.
  intros P I P' X. apply inside_plug in I as (x & E). destruct x as [|y x].
  - cbn [plug fold_right] in E. subst c. destruct X as [S L]. destruct c' as [t|k cs']; [discriminate|]. cbn [sym_of] in S. injection S as <-.
    apply tree_unique; [rewrite !flat_tmap by reflexivity; apply (C61_unambiguous _ _ P P'); exact L|].
    rewrite !leaves_tmap. unfold bare. rewrite <- (map_map tkind_of (fun k => mkTok 0 [] k (mkPos 0 0 0) (mkPos 0 0 0))), L, map_map. reflexivity.
  - assert (exists cs', plug (y :: x) c' = CTree KStoredDefinition cs') as (cs' & E').
    { cbn [plug fold_right] in *. injection E as E _. rewrite <- E. eauto. }
    pose proof (plug_leaves (y :: x) c c' X) as [_ L]. pose proof (plug_parsable (y :: x) c c' X P') as PP. rewrite <- E, E' in *. specialize (PP P).
    assert (tmap bare (plug (y :: x) c) = tmap bare (plug (y :: x) c')) as T.
    { rewrite <- E, E'. apply tree_unique; [rewrite !flat_tmap by reflexivity; apply (C61_unambiguous _ _ P PP); exact L|].
      rewrite !leaves_tmap. unfold bare. rewrite <- (map_map tkind_of (fun k => mkTok 0 [] k (mkPos 0 0 0) (mkPos 0 0 0))), L, map_map. reflexivity. }
    rewrite !plug_tmap in T. apply plug_inj in T. exact T.
Qed.
Lemma inside_prune c t : inside c (prune t) -> empty_tree c = false -> exists c0, inside c0 t /\ prune c0 = c.
Proof.
  revert c. induction t as [t|k cs IH] using child_ind2; intros c I NE.
  - cbn [prune] in I. inversion I; subst. exists (CTok t). split; [constructor|reflexivity].
  - rewrite prune_tree in I. inversion I as [|? ? ? d ID IN]; subst.
    + exists (CTree k cs). split; [constructor|apply prune_tree].
    + unfold prunes in ID. apply filter_In in ID as [ID _]. apply in_map_iff in ID as (d0 & <- & ID). rewrite Forall_forall in IH.
      destruct (IH d0 ID c IN NE) as (c0 & I0 & E). exists c0. split; auto. econstructor; eauto.
Qed.
Lemma shape_moved R d c : forall c', tmap bare c = tmap bare c' -> Forall2 (moved R d) (toks c) (toks c') -> tree_moved R d c c'.
Proof.
  induction c as [t|k cs IH] using child_ind2; intros c' E M; destruct c' as [t'|k' cs']; try discriminate; cbn [tmap] in E.
  - cbn [toks] in M. inversion M; subst. constructor; assumption.
  - injection E as <- E. constructor. cbn [toks] in M. revert cs' E M. induction IH as [|c cs C _ IHc]; intros [|c' cs'] E M; try discriminate; constructor; cbn [map flat_map] in *.
    + injection E as E1 E2. apply C; auto. assert (length (toks c) = length (toks c')) as LE.
      { apply (f_equal (fun x => length (leaves x))) in E1. rewrite !leaves_tmap, !map_length in E1. rewrite !toks_leaves. exact E1. }
      revert M LE. generalize (toks c) (toks c') (flat_map toks cs) (flat_map toks cs'). clear. induction l as [|x l IH]; intros [|x' l'] m m' M LE; try discriminate; constructor.
      * cbn [app] in M. inversion M; assumption.
      * cbn [app] in M. inversion M; subst. cbn [length] in LE. eauto.
    + injection E as E1 E2. apply IHc; auto. assert (length (toks c) = length (toks c')) as LE.
      { apply (f_equal (fun x => length (leaves x))) in E1. rewrite !leaves_tmap, !map_length in E1. rewrite !toks_leaves. exact E1. }
      revert M LE. generalize (toks c) (toks c') (flat_map toks cs) (flat_map toks cs'). clear. induction l as [|x l IH]; intros [|x' l'] m m' M LE; try discriminate; auto.
      cbn [app] in M. inversion M; subst. cbn [length] in LE. eauto.
Qed.

(** ** Levels *)
Definition raise (n : nat) (x : spot) : spot := mkAt (at_rule x) (at_tok x) (at_pos x) (n + at_level x).
Lemma children_raise e k w all v :
  Forall (fun c => forall q pos first n on inh, spots q pos (e + first) (e + n) on inh c = map (raise e) (spots q pos first n on inh c)) v ->
  forall pos first u n on, children k w all pos (e + first) u (e + n) on v = map (raise e) (children k w all pos first u n on v).
Proof.
  induction 1 as [|c v C _ IH]; intros pos first u n on; [reflexivity|]. cbn [children]. cbv zeta. rewrite map_app. f_equal.
  - rewrite <- C. f_equal.
    + match goal with |- (if ?b then _ else _) = _ => destruct b end; lia.
    + destruct (continues k c); lia.
  - rewrite <- IH. f_equal. lia.
Qed.
Lemma spots_raise e c : forall q pos first n on inh, spots q pos (e + first) (e + n) on inh c = map (raise e) (spots q pos first n on inh c).
Proof.
  induction c as [t|k cs IH] using child_ind2; intros; [reflexivity|]. rewrite !spots_tree. apply children_raise. exact IH.
Qed.

(** Of what is around a node, only its level and the white space in front of it matter. *)
Definition own (c : child) : list spot := spots KStoredDefinition Beside 0 0 false false c.
Lemma children_place k w all n on pos pos' first v :
  Forall (fun c => fits c -> forall q n on inh, exists x x' xs,
    spots q pos first n on inh c = x :: xs /\ spots q pos' first n on inh c = x' :: xs /\
    at_rule x' = at_rule x /\ at_tok x' = at_tok x /\ at_level x' = at_level x) v -> Forall fits v -> v <> [] ->
  exists x x' xs, children k w all pos first [] n on v = x :: xs /\ children k w all pos' first [] n on v = x' :: xs /\
    at_rule x' = at_rule x /\ at_tok x' = at_tok x /\ at_level x' = at_level x.
Proof.
  intros H F NE. destruct v as [|c v]; [contradiction|]. inversion H as [|? ? HC _]; inversion F as [|? ? FC _]; subst. cbn [children]. cbv zeta.
  rewrite (children_rest k w all pos first pos' first v) by discriminate.
  match goal with |- context [position_of ?a1 ?a2 ?a3 ?a4 ?a5 ?a6 ?a7 ?a8] => set (P := position_of a1 a2 a3 a4 a5 a6 a7 a8) end.
  match goal with |- context [children k w all pos' first [c] ?a ?b v] => set (REST := children k w all pos' first [c] a b v) end.
  assert ((match P with Below _ => true | _ => false end) = false \/ exists b, P = Below b) as [EP|(b & EP)] by (destruct P; eauto).
  { rewrite EP. match goal with |- context [spots k pos first ?a ?b ?d c] => destruct (HC FC k a b d) as (x & x' & xs & E1 & E2 & R) end.
    exists x, x', (xs ++ REST). rewrite E1, E2. auto. }
  rewrite EP.
  match goal with |- context [spots k (Below b) ?f ?a ?o ?i c] =>
    destruct (spots k (Below b) f a o i c) as [|x xs] eqn:E end.
  - exfalso. pose proof (toks_some c FC) as T. apply (f_equal (map at_tok)) in E. rewrite spots_toks in E. auto.
  - exists x, x, (xs ++ REST). auto.
Qed.
Lemma spots_place c : fits c -> forall q n on inh pos pos' first, exists x x' xs,
  spots q pos first n on inh c = x :: xs /\ spots q pos' first n on inh c = x' :: xs /\
  at_rule x' = at_rule x /\ at_tok x' = at_tok x /\ at_level x' = at_level x.
Proof.
  intros F q n on inh pos pos' first. revert F q n on inh. induction c as [t|k cs IH] using child_ind2; intros F q n on inh.
  - cbn [spots]. eexists. eexists. exists []. split; [reflexivity|]. split; [reflexivity|]. auto.
  - inversion F as [|? ? NE _ FC]; subst. rewrite !spots_tree. apply children_place; auto.
Qed.
Lemma self_wide k cs inh : self_contained k = true -> wide k cs inh = wide k cs false.
Proof. destruct k; intro H; try discriminate; reflexivity. Qed.
Lemma spots_inherit k cs q q' pos first n on inh : self_contained k = true -> spots q pos first n on inh (CTree k cs) = spots q' pos first n on false (CTree k cs).
Proof. intro S. rewrite !spots_tree, (self_wide k cs inh S). reflexivity. Qed.
Lemma self_continues q k cs : self_contained k = true -> continues q (CTree k cs) = false.
Proof. destruct q, k; intro H; try discriminate; reflexivity. Qed.

Section Seats.
Variables (tree : child) (items : list token).
Hypothesis Hfits : fits tree.
Lemma seat_off c a k cs : seat tree root_args c a -> c = CTree k cs -> self_contained k = true -> a_on a = false.
Proof.
  intros S. destruct S as [|q u d v a S]; intros -> C; [reflexivity|]. unfold next, call. cbn [a_on]. rewrite self_continues by exact C. reflexivity.
Qed.
Lemma seat_own k cs a : seat tree root_args (CTree k cs) a -> self_contained k = true ->
  exists x x' xs, spots_at a (CTree k cs) = x :: xs /\ map (raise (a_n a)) (own (CTree k cs)) = x' :: xs /\
    at_rule x' = at_rule x /\ at_tok x' = at_tok x /\ at_level x' = at_level x.
Proof.
  intros S C. pose proof (seat_off _ _ _ _ S eq_refl C) as OFF.
  assert (a_first a = base a) as B by (apply (base_first tree Hfits k cs a S); intros ->; discriminate).
  unfold base in B. rewrite OFF in B. cbn [one_if] in B. rewrite Nat.add_0_r in B.
  unfold spots_at, own. rewrite B, OFF, (spots_inherit k cs _ KStoredDefinition _ _ _ _ _ C), <- spots_raise, !Nat.add_0_r.
  apply spots_place. apply (inside_fits tree); auto. eapply seat_inside. exact S.
Qed.
End Seats.

(** ** Layouts *)
Definition lift_white (n : nat) (w : white) : white := match w with WLine b m => WLine b (n + m) | _ => w end.
Definition lift (n : nat) (e : entry) : entry := mkE (lift_white n (e_white e)) (e_rule e) (e_tok e).

Lemma put_raise n p ln cs x : put p ln cs (raise n x) = map (lift n) (put p ln cs x).
Proof.
  unfold put. cbn [raise at_rule at_tok at_pos at_level]. destruct (at_pos x) as [| | |b]; try reflexivity.
  - cbn [map lift e_white e_rule e_tok]. destruct p as [[q a]|]; [destruct (tight _ _ _)|]; reflexivity.
  - rewrite map_app. f_equal.
    + generalize (match p with Some _ => false | None => true end). intro f. destruct (filter _ cs) as [|c l]; [reflexivity|]. cbn [behind map]. f_equal; [destruct f; reflexivity|].
      rewrite map_map. reflexivity.
    + generalize (filter (fun c => negb (line (tstart c) =? ln)) cs). intro l. revert b ln. induction l as [|c l IH]; intros b ln; cbn [rows map]; [reflexivity|]. f_equal. apply IH.
Qed.
Lemma weave_raise n items : forall p ln cs xs, weave p ln cs items (map (raise n) xs) = map (lift n) (weave p ln cs items xs).
Proof.
  induction items as [|t items IH]; intros p ln cs xs; [reflexivity|]. cbn [weave]. destruct (is_comment t); [apply IH|]. destruct xs as [|x xs]; [reflexivity|].
  cbn [map]. rewrite put_raise, IH, map_app. reflexivity.
Qed.
Lemma put_last p ln cs x : exists L w, put p ln cs x = L ++ [mkE w (Some (at_rule x)) (at_tok x)] /\ white_at x w /\ forall e, In e L -> In (e_tok e) cs.
Proof.
  unfold put, white_at. destruct (at_pos x) as [| | |b].
  - exists []. eexists. split; [reflexivity|]. split; [destruct p as [[q a]|]; [destruct (tight _ _ _)|]; reflexivity|]. intros e [].
  - exists []. eexists. split; [reflexivity|]. split; [reflexivity|]. intros e [].
  - exists []. eexists. split; [reflexivity|]. split; [reflexivity|]. intros e [].
  - assert (forall l b ln, exists L w, rows b (at_level x) ln l (at_rule x) (at_tok x) = L ++ [mkE w (Some (at_rule x)) (at_tok x)] /\
      (exists b, w = WLine b (at_level x)) /\ forall e, In e L -> In (e_tok e) l) as R.
    { induction l as [|c l IH]; intros b0 ln0; cbn [rows].
      - exists []. eexists. split; [reflexivity|]. split; [eauto|]. intros e [].
      - destruct (IH (match b0 with Always => Kept | _ => b0 end) (line (tend c))) as (L & w & E & W & I). rewrite E.
        eexists (_ :: L), w. split; [reflexivity|]. split; [exact W|]. intros e [<-|J]; [left; reflexivity|right; auto]. }
    destruct (R (filter (fun c => negb (line (tstart c) =? ln)) cs) b ln) as (L & w & E & W & I). rewrite E, app_assoc.
    eexists (_ ++ L), w. split; [reflexivity|]. split; [exact W|]. intros e J. apply in_app_or in J as [J|J].
    + destruct (filter (fun c => line (tstart c) =? ln) cs) as [|c l] eqn:F; [destruct J|]. cbn [behind] in J.
      assert (In (e_tok e) (c :: l)) as K.
      { destruct J as [<-|J]; [left; reflexivity|]. apply in_map_iff in J as (c0 & <- & J). right. exact J. }
      rewrite <- F in K. apply filter_In in K. apply K.
    + apply I in J. apply filter_In in J. apply J.
Qed.
Lemma plain_comment t : plain t = negb (is_comment t).
Proof. rewrite is_commentary. reflexivity. Qed.
Lemma weave_pass A : forall p ln cs X x t0 rest xs, filter plain A = map at_tok X -> plain t0 = true -> at_tok x = t0 ->
  exists L w, weave p ln cs (A ++ t0 :: rest) (X ++ x :: xs) =
    L ++ mkE w (Some (at_rule x)) t0 :: weave (Some (at_rule x, tkind_of t0)) (line (tend t0)) [] rest xs /\
    white_at x w /\ forall e, In e L -> In (e_tok e) (cs ++ A).
Proof.
  induction A as [|t A IH]; intros p ln cs X x t0 rest xs E P T.
  - destruct X; [|discriminate]. cbn [app weave]. assert (is_comment t0 = false) as -> by (rewrite plain_comment in P; destruct (is_comment t0); auto; discriminate).
    destruct (put_last p ln cs x) as (L & w & EP & W & I). exists L, w. rewrite EP, <- app_assoc, T. split; [reflexivity|]. split; [exact W|].
    rewrite app_nil_r. exact I.
  - cbn [app weave filter] in *. rewrite plain_comment in E. destruct (is_comment t) eqn:C; cbn [negb] in E.
    + destruct (IH p ln (cs ++ [t]) X x t0 rest xs E P T) as (L & w & EL & W & I). exists L, w. split; [exact EL|]. split; [exact W|].
      intros e J. apply I in J. rewrite <- app_assoc in J. exact J.
    + destruct X as [|y X]; [discriminate|]. cbn [map] in E. assert (t = at_tok y) as TY by congruence. apply (f_equal (@List.tl _)) in E. cbn [List.tl] in E.
      cbn [app]. destruct (IH (Some (at_rule y, tkind_of t)) (line (tend t)) [] X x t0 rest xs E P T) as (L & w & EL & W & I).
      destruct (put_last p ln cs y) as (L0 & w0 & EP & _ & I0). rewrite EL, app_assoc. do 2 eexists. split; [reflexivity|]. split; [exact W|].
      intros e J. apply in_app_or in J as [J|J]; [|apply I in J; cbn [app] in J; apply in_or_app; right; right; exact J].
      rewrite EP in J. apply in_app_or in J as [J|[<-|[]]]; [apply in_or_app; left; auto|]. apply in_or_app. right. left. exact TY.
Qed.
Lemma weave_in items : forall p ln cs xs e, filter plain items = map at_tok xs -> In e (weave p ln cs items xs) -> In (e_tok e) (cs ++ items).
Proof.
  induction items as [|t items IH]; intros p ln cs xs e E I; [destruct I|]. cbn [weave filter] in *. rewrite plain_comment in E. destruct (is_comment t); cbn [negb] in E.
  - apply IH in I; auto. rewrite <- app_assoc in I. exact I.
  - destruct xs as [|x xs]; [destruct I|]. cbn [map] in E. assert (t = at_tok x) as TX by congruence. apply (f_equal (@List.tl _)) in E. cbn [List.tl] in E.
    apply in_app_or in I as [I|I].
    + destruct (put_last p ln cs x) as (L & w & EP & _ & J). rewrite EP in I. apply in_app_or in I as [I|[<-|[]]]; apply in_or_app; [left; auto|right; left; exact TX].
    + apply IH in I; auto. apply in_or_app. right. right. exact I.
Qed.
Lemma weave_split B C xs ys p ln : filter plain B = map at_tok xs -> filter plain C = map at_tok ys -> (B = [] \/ exists B0 b, B = B0 ++ [b] /\ plain b = true) ->
  exists L, weave p ln [] (B ++ C) (xs ++ ys) = weave p ln [] B xs ++ L /\ forall e, In e L -> In (e_tok e) C.
Proof.
  intros EB EC [->|(B0 & b & -> & P)].
  - destruct xs; [|discriminate]. exists (weave p ln [] C ys). split; [reflexivity|]. intros e I. apply weave_in in I; auto.
  - destruct (weave_app B0 b P p ln [] xs EB) as (r & H). rewrite H. eexists. split; [reflexivity|]. intros e I. apply weave_in in I; auto.
Qed.

(** ** Items *)
Definition numbered (i : N) (its : list token) : Prop := forall u t v, its = u ++ t :: v -> tidx t = i + N.of_nat (length u).
Lemma numbered_app i u v : numbered i (u ++ v) -> numbered i u /\ numbered (i + N.of_nat (length u)) v.
Proof.
  intro H. split; intros x t y E.
  - apply (H x t (y ++ v)). rewrite E, <- app_assoc. reflexivity.
  - rewrite (H (u ++ x) t y); [rewrite app_length; lia|]. rewrite E, <- app_assoc. reflexivity.
Qed.
Lemma numbered_in i its t : numbered i its -> In t its -> i <= tidx t < i + N.of_nat (length its).
Proof. intros H I. apply in_split in I as (u & v & ->). rewrite (H u t v eq_refl), app_length. cbn [length]. lia. Qed.
Lemma numbered_inj i its t t' : numbered i its -> In t its -> In t' its -> tidx t = tidx t' -> t = t'.
Proof.
  intros H I I' E. apply in_split in I as (u & v & ->). rewrite (H u t v eq_refl) in E. apply in_split in I' as (u' & v' & E').
  rewrite (H u' t' v' E') in E. assert (length u = length u') as L by lia.
  revert E' L. clear. revert u'. induction u as [|x u IH]; intros [|x' u'] E L; try discriminate; cbn [app] in E; [congruence|].
  injection E as _ E. cbn [length] in L. eapply IH; [exact E|lia].
Qed.
Lemma laid_numbered s items : laid space s items -> numbered 0 items.
Proof. intros L u t v E. rewrite (laid_index s items L u t v E). lia. Qed.
Lemma pair_up (Q : token -> token -> Prop) i i' big' seg : numbered 0 big' -> forall seg' k k', numbered k seg -> numbered k' seg' -> k' + i = k + i' ->
  (forall t, In t seg' -> In t big') -> length seg' = length seg ->
  (forall t, In t seg -> exists t', In t' big' /\ tidx t' + i = tidx t + i' /\ Q t t') -> Forall2 Q seg seg'.
Proof.
  intros NB. induction seg as [|t seg IH]; intros [|t' seg'] k k' N1 N2 K S L H; try discriminate; constructor.
  - destruct (H t (or_introl eq_refl)) as (t2 & I2 & X & Y). replace t' with t2; [exact Y|].
    apply (numbered_inj 0 big'); auto; [apply S; left; reflexivity|]. pose proof (N1 [] t seg eq_refl) as E1. pose proof (N2 [] t' seg' eq_refl) as E2.
    cbn [length] in *. lia.
  - apply (IH seg' (k + 1) (k' + 1)); auto; try lia.
    + apply (numbered_app k [t] seg) in N1. apply N1.
    + apply (numbered_app k' [t'] seg') in N2. apply N2.
    + intros x X. apply S. right. exact X.
    + intros x X. apply H. right. exact X.
Qed.

(** ** Parts of files *)
Lemma filter_split {A} (f : A -> bool) l : forall u a v, filter f l = u ++ a :: v ->
  exists l1 l2, l = l1 ++ a :: l2 /\ filter f l1 = u /\ filter f l2 = v /\ f a = true.
Proof.
  induction l as [|x l IH]; intros u a v E; [destruct u; discriminate|]. cbn [filter] in E. destruct (f x) eqn:F.
  - destruct u as [|y u]; cbn [app] in E; injection E as -> E.
    + exists [], l. auto.
    + destruct (IH _ _ _ E) as (l1 & l2 & -> & E1 & E2 & E3). exists (y :: l1), l2. cbn [filter]. rewrite F, E1. auto.
  - destruct (IH _ _ _ E) as (l1 & l2 & -> & E1 & E2 & E3). exists (x :: l1), l2. cbn [filter]. rewrite F. auto.
Qed.
Lemma filter_all {A} (f : A -> bool) l : (forall x, In x l -> f x = true) -> filter f l = l.
Proof. induction l as [|x l IH]; intro H; [reflexivity|]. cbn [filter]. rewrite H by (left; reflexivity). f_equal. apply IH. intros y I. apply H. right. exact I. Qed.
Lemma filter_none {A} (f : A -> bool) l : (forall x, In x l -> f x = false) -> filter f l = [].
Proof. induction l as [|x l IH]; intro H; [reflexivity|]. cbn [filter]. rewrite H by (left; reflexivity). apply IH. intros y I. apply H. right. exact I. Qed.

Lemma inside_root k cs : inside (CTree k cs) (CTree KStoredDefinition []) -> k = KStoredDefinition.
Proof. intro I. inversion I as [|? ? ? ? ID]; subst; [reflexivity|destruct ID]. Qed.
Lemma reading_fits s p items tree k cs : reading s p items tree -> inside (CTree k cs) tree -> self_contained k = true -> fits tree.
Proof.
  intros R I C. destruct (rd_fits _ _ _ _ R) as (ds & -> & [->|F]); [|exact F]. apply inside_root in I. subst. discriminate.
Qed.

(** The part of the layout from [a] to [b], the tokens of a node, at level [n]. *)
Definition excerpted (items : list token) (l : layout) (k : skind) (cs : list child) (a b : token) (n : nat) : Prop :=
  exists A B C x xs w, items = A ++ (a :: B) ++ C /\ own (CTree k cs) = x :: xs /\ at_tok x = a /\ filter plain (a :: B) = toks (CTree k cs) /\
    tidx b = tidx a + N.of_nat (length B) /\ between a b items = a :: B /\
    excerpt a b l =
      mkE w (Some (at_rule x)) a :: map (lift n) (weave (Some (at_rule x, tkind_of a)) (line (tend a)) [] B xs) /\
    (forall l m, w = WLine l m -> m = (n + at_level x)%nat).
Lemma weave_excerpt s items k cs a u b u0 n x xs x1 X Y ps : laid space s items ->
  toks (CTree k cs) = a :: u -> toks (CTree k cs) = u0 ++ [b] -> own (CTree k cs) = x :: xs ->
  ps = X ++ (x1 :: map (raise n) xs) ++ Y -> at_rule x = at_rule x1 -> at_tok x = at_tok x1 -> at_level (raise n x) = at_level x1 ->
  filter plain items = map at_tok ps -> excerpted items (weave None 1 [] items ps) k cs a b n.
Proof.
  intros LA TA TB EO EI R1 R2 R3 SP. cbn [raise at_level] in R3.
  assert (map at_tok (x :: xs) = toks (CTree k cs)) as TX by (rewrite <- EO; apply spots_toks).
  assert (at_tok x = a) as AX by (rewrite TA in TX; cbn [map] in TX; congruence).
  assert (map at_tok (map (raise n) xs) = map at_tok xs) as MX by (rewrite map_map; reflexivity).
  assert (map at_tok xs = u) as TXU by (rewrite TA in TX; cbn [map] in TX; congruence).
  rewrite EI in SP. rewrite map_app in SP. cbn [app map] in SP. rewrite map_app, MX, <- R2, AX in SP.
  destruct (filter_split _ _ _ _ _ SP) as (A & A2 & EA & FA & FA2 & PA).
  assert (exists B C, A2 = B ++ C /\ filter plain B = map at_tok xs /\ filter plain C = map at_tok Y /\ (B = [] \/ exists B0 b, B = B0 ++ [b] /\ plain b = true) /\
    exists Z, a :: B = Z ++ [b]) as (B & C & EB & FB & FC & LB & Z & EZ).
  { destruct (@exists_last _ (a :: u)) as (v & z & EV); [discriminate|]. assert (z = b) as -> by (rewrite TA, EV in TB; apply app_inj_tail in TB; tauto).
    destruct u as [|y u]; [|].
    - exists [], A2. rewrite TXU in *. split; [reflexivity|]. split; [reflexivity|]. split; [exact FA2|]. split; [left; reflexivity|]. exists []. destruct v as [|? [|]]; try discriminate. cbn [app] in *. congruence.
    - destruct v as [|v0 v]; [discriminate|]. cbn [app] in EV. injection EV as <- EV. rewrite TXU, EV, <- app_assoc in FA2. cbn [app] in FA2.
      destruct (filter_split _ _ _ _ _ FA2) as (l1 & l2 & -> & G1 & G2 & G3). exists (l1 ++ [b]), l2. split; [rewrite <- app_assoc; reflexivity|].
      split; [rewrite filter_app; cbn [filter]; rewrite G1, G3, TXU, EV; reflexivity|]. split; [exact G2|]. split; [right; eauto|]. exists (a :: l1). reflexivity. }
  subst A2. pose proof (laid_numbered _ _ LA) as NU. rewrite EA in NU. change (A ++ a :: B ++ C) with (A ++ (a :: B) ++ C) in NU.
  apply numbered_app in NU as [NA NU]. apply numbered_app in NU as [NB NC]. rewrite N.add_0_l in *.
  assert (tidx a = N.of_nat (length A)) as IA by (rewrite (NB [] a B eq_refl); cbn [length]; lia).
  assert (tidx b = tidx a + N.of_nat (length B)) as IB.
  { rewrite (NB Z b [] EZ), IA. apply (f_equal (@length _)) in EZ. rewrite app_length in EZ. cbn [length] in EZ. lia. }
  assert (forall t, In t A -> ranged a b t = false) as RA.
  { intros t T. apply (numbered_in _ _ _ NA) in T. unfold ranged. apply andb_false_iff. left. apply N.leb_gt. lia. }
  assert (forall t, In t (a :: B) -> ranged a b t = true) as RB.
  { intros t T. apply (numbered_in _ _ _ NB) in T. cbn [length] in T. unfold ranged. apply andb_true_iff. split; apply N.leb_le; lia. }
  assert (forall t, In t C -> ranged a b t = false) as RC.
  { intros t T. apply (numbered_in _ _ _ NC) in T. cbn [length] in T. unfold ranged. apply andb_false_iff. right. apply N.leb_gt. lia. }
  destruct (weave_pass A None 1 [] X x1 a (B ++ C) (map (raise n) xs ++ Y) FA PA ltac:(congruence)) as (L & w & EW & WA & IL).
  assert (filter plain B = map at_tok (map (raise n) xs)) as FB' by congruence.
  destruct (weave_split B C _ Y (Some (at_rule x1, tkind_of a)) (line (tend a)) FB' FC LB) as (L3 & EW3 & IL3).
  exists A, B, C, x, xs, w. split; [exact EA|]. split; [exact EO|]. split; [exact AX|]. split; [cbn [filter]; rewrite PA, FB, TXU, TA; reflexivity|]. split; [exact IB|].
  split.
  { rewrite EA. unfold between. change (A ++ a :: B ++ C) with (A ++ (a :: B) ++ C). rewrite !filter_app, (filter_none _ A), (filter_none _ C), (filter_all _ (a :: B)), app_nil_r by auto. reflexivity. }
  split.
  { rewrite EI, EA. cbn [app]. rewrite EW, EW3, R1, weave_raise.
    unfold excerpt. rewrite filter_app, (filter_none _ L), app_nil_l.
    2:{ intros e E. apply RA. apply IL in E. exact E. }
    cbn [filter e_tok]. rewrite (RB a (or_introl eq_refl)). f_equal. rewrite filter_app, (filter_none _ L3), app_nil_r by auto. apply filter_all.
    intros e E. apply in_map_iff in E as (e0 & <- & E). cbn [lift e_tok]. apply weave_in in E; auto. apply RB. right. exact E. }
  intros l0 m ->. unfold white_at in WA. destruct (at_pos x1); try discriminate. destruct WA as (bb & WA). injection WA as _ ->. congruence.
Qed.

Lemma reading_excerpt s p items tree k cs a u b u0 : reading s p items tree -> inside (CTree k cs) tree -> self_contained k = true ->
  toks (CTree k cs) = a :: u -> toks (CTree k cs) = u0 ++ [b] -> exists n, excerpted items (reference tree items) k cs a b n.
Proof.
  intros R I SC TA TB. pose proof (reading_fits _ _ _ _ _ _ R I SC) as F.
  destruct (inside_seat tree root_args _ I) as (ar & S). destruct (seat_own tree F k cs ar S SC) as (x1 & x1' & xs1 & E1 & E2 & R1 & R2 & R3).
  destruct (seat_infix _ _ _ _ S) as (X & Y & EI). rewrite E1 in EI.
  destruct (own (CTree k cs)) as [|x xs] eqn:EO; [discriminate|]. cbn [map] in E2. assert (raise (a_n ar) x = x1') as <- by congruence.
  assert (map (raise (a_n ar)) xs = xs1) as <- by congruence. exists (a_n ar).
  exact (weave_excerpt s items k cs a u b u0 (a_n ar) x xs x1 X Y _ (rd_laid _ _ _ _ R) TA TB EO EI R1 R2 R3 (reading_spots _ _ _ _ R)).
Qed.

(** [within] stands at the beginning of files only. *)
Lemma within_checked : forallb (fun k => skind_eqb k KStoredDefinition ||
  forallb (fun x => match x with Term TWithin | Rule KStoredDefinition => false | _ => true end) (symbols (pruned (production false k)))) all_skinds = true.
Proof. vm_compute. reflexivity. Qed.
Lemma no_within c : fits c -> sym_of c <> Term TWithin -> sym_of c <> Rule KStoredDefinition -> forall t, In t (toks c) -> tkind_of t <> TWithin.
Proof.
  induction c as [t|k cs IH] using child_ind2; intros F N1 N2 x I.
  - destruct I as [<-|[]]. cbn [sym_of] in N1. congruence.
  - cbn [toks] in I. apply in_flat_map in I as (d & D & I). rewrite Forall_forall in IH. assert (F' := F). inversion F' as [|? ? _ _ FC]; subst. rewrite Forall_forall in FC.
    assert (In (sym_of d) (symbols (pruned (production false k)))) as A by (apply in_split in D as (u & v & ->); eapply child_symbol; exact F).
    pose proof (proj1 (forallb_forall _ _) within_checked k (all_skinds_complete k)) as K. apply orb_true_iff in K as [K|K].
    + apply skind_eqb_eq in K. subst k. contradiction N2. reflexivity.
    + rewrite forallb_forall in K. specialize (K _ A). apply (IH d D (FC d D)); auto.
      * intro E. rewrite E in K. discriminate.
      * intro E. rewrite E in K. discriminate.
Qed.

Definition likely (a a' : token) (t t' : token) : Prop := tidx t' + tidx a = tidx t + tidx a'.
Definition same_entry (n n' : nat) (a a' : token) (e e' : entry) : Prop :=
  e_rule e' = e_rule e /\ likewise a a' (e_tok e) (e_tok e') /\ same_white n n' (e_white e) (e_white e').

Lemma same_white_lift n n' w : same_white n n' (lift_white n w) (lift_white n' w).
Proof. destruct w; cbn; try reflexivity. split; [reflexivity|lia]. Qed.

Lemma excerpts_down s p items lay s' p' items' lay' k cs cs' a b u u0 a' b' u' u0' n n' :
  laid space s items -> p_tokens p = filter plain items -> p_comments p = filter commentary items ->
  laid space s' items' -> p_tokens p' = filter plain items' -> p_comments p' = filter commentary items' ->
  fits (CTree k cs) -> excerpted items lay k cs a b n -> excerpted items' lay' k cs' a' b' n' -> self_contained k = true ->
  (map tkind_of (toks (CTree k cs)) = map tkind_of (toks (CTree k cs')) -> tmap bare (CTree k cs) = tmap bare (CTree k cs')) ->
  toks (CTree k cs) = a :: u -> toks (CTree k cs) = u0 ++ [b] -> toks (CTree k cs') = a' :: u' -> toks (CTree k cs') = u0' ++ [b'] ->
  Forall2 (likewise a a') (between a b (p_tokens p)) (between a' b' (p_tokens p')) ->
  Forall2 (likewise a a') (between a b (p_comments p)) (between a' b' (p_comments p')) ->
  line (tstart a) <= line (tstart a') ->
  exists e r e' r', excerpt a b lay = e :: r /\ excerpt a' b' lay' = e' :: r' /\
    e_tok e = a /\ e_tok e' = a' /\ e_rule e' = e_rule e /\
    (forall l m l' m', e_white e = WLine l m -> e_white e' = WLine l' m' -> (m' + n = m + n')%nat) /\
    Forall2 (same_entry n n' a a') r r' /\
    (forall x xs x' xs', own (CTree k cs) = x :: xs -> own (CTree k cs') = x' :: xs' -> at_level x' = at_level x).
Proof.
  intros LA PT PC LA' PT' PC' F (A & B & C & x & xs & w & EI & EO & AX & FB & IB & BT & EX & W)
    (A' & B' & C' & x' & xs' & w' & EI' & EO' & AX' & FB' & IB' & BT' & EX' & W') SC SH TA TB TA' TB' LT LC LE.
  pose proof (laid_numbered _ _ LA) as NU. pose proof (laid_numbered _ _ LA') as NU'. assert (NX' := NU').
  assert (forall x y, filter (ranged x y) (filter plain items) = filter plain (between x y items)) as SW.
  { intros y z. unfold between. generalize items. induction items0 as [|q l IH]; [reflexivity|]. cbn [filter]. destruct (plain q) eqn:P, (ranged y z q) eqn:Q; cbn [filter]; rewrite ?P, ?Q, IH; reflexivity. }
  assert (forall x y, filter (ranged x y) (filter plain items') = filter plain (between x y items')) as SW'.
  { intros y z. unfold between. generalize items'. induction items'0 as [|q l IH]; [reflexivity|]. cbn [filter]. destruct (plain q) eqn:P, (ranged y z q) eqn:Q; cbn [filter]; rewrite ?P, ?Q, IH; reflexivity. }
  assert (between a b (p_tokens p) = toks (CTree k cs)) as TT by (unfold between at 1; rewrite PT, SW, BT; exact FB).
  assert (between a' b' (p_tokens p') = toks (CTree k cs')) as TT' by (unfold between at 1; rewrite PT', SW', BT'; exact FB').
  assert (likewise a a' b b') as LB.
  { rewrite TT, TT', TB, TB' in LT. apply moved_rev in LT. rewrite !rev_unit in LT. inversion LT; assumption. }
  assert (length (a' :: B') = length (a :: B)) as LEN by (destruct LB as (_ & LB & _); cbn [length]; lia).
  rewrite EI in NU. rewrite EI' in NU'. apply numbered_app in NU as [_ NU]. apply numbered_app in NU as [NU _]. apply numbered_app in NU' as [_ NU']. apply numbered_app in NU' as [NU' _].
  rewrite N.add_0_l in *.
  assert (Forall2 (likewise a a') (a :: B) (a' :: B')) as LS.
  { apply (pair_up (likewise a a') (tidx a) (tidx a') items' (a :: B) NX' (a' :: B') (N.of_nat (length A)) (N.of_nat (length A'))); auto.
    - rewrite (NU [] a B eq_refl), (NU' [] a' B' eq_refl). cbn [length]. lia.
    - intros t T. rewrite EI'. apply in_or_app. right. apply in_or_app. left. exact T.
    - intros t T. assert (exists t', In t' items' /\ likewise a a' t t') as (t' & T1 & T2).
      { assert (In t (between a b items)) as TI by (rewrite BT; exact T). unfold between in TI. apply filter_In in TI as [TI RG].
        assert (forall l l', Forall2 (likewise a a') l l' -> In t l -> exists t', In t' l' /\ likewise a a' t t') as FI.
        { clear. induction 1 as [|y y' l l' Y L IH]; intro J; [destruct J|]. destruct J as [->|J]; [exists y'; split; [left; reflexivity|exact Y]|].
          destruct (IH J) as (t' & J' & K). exists t'. split; [right; exact J'|exact K]. }
        destruct (plain t) eqn:P.
        - destruct (FI _ _ LT) as (t' & J & K).
          + unfold between. apply filter_In. split; [|exact RG]. rewrite PT. apply filter_In. auto.
          + exists t'. split; [|exact K]. unfold between in J. apply filter_In in J as [J _]. rewrite PT' in J. apply filter_In in J. apply J.
        - destruct (FI _ _ LC) as (t' & J & K).
          + unfold between. apply filter_In. split; [|exact RG]. rewrite PC. apply filter_In. split; [exact TI|].
            unfold plain, commentary in *. destruct (is_comment_kind (tkind_of t)); auto; discriminate.
          + exists t'. split; [|exact K]. unfold between in J. apply filter_In in J as [J _]. rewrite PC' in J. apply filter_In in J. apply J. }
      exists t'. split; [exact T1|]. split; [|exact T2]. apply T2. }
  set (d := line (tstart a') - line (tstart a)).
  assert (forall t, In t (a :: B) -> tkind_of t <> TWithin) as NW.
  { intros t T E. assert (In t (toks (CTree k cs))) as TI.
    { rewrite <- FB. apply filter_In. split; [exact T|]. unfold plain. rewrite E. reflexivity. }
    revert E. apply (no_within (CTree k cs)); auto; try discriminate; cbn [sym_of]. intro E. injection E as ->. discriminate. }
  assert (Forall2 (moved (likewise a a') d) (a :: B) (a' :: B')) as MV.
  { assert (forall l l', Forall2 (likewise a a') l l' -> (forall t, In t l -> tkind_of t <> TWithin) -> Forall2 (moved (likewise a a') d) l l') as G; [|apply G; auto].
    clear - LE. induction 1 as [|t t' l l' T L IH]; intro N; constructor; [|apply IH; intros; apply N; right; assumption].
    assert (T0 := T). destruct T0 as (T1 & T2 & T3 & T4). split; [exact T|]. split; [exact T1|]. subst d. split; [lia|]. split; [lia|]. intro X. exfalso. apply (N t); [left; reflexivity|exact X]. }
  assert (Forall2 (moved (likewise a a') d) (toks (CTree k cs)) (toks (CTree k cs'))) as MT.
  { rewrite <- FB, <- FB'. apply moved_filter; auto. intros t t' (_ & K & _). unfold plain. rewrite K. reflexivity. }
  assert (tree_moved (likewise a a') d (CTree k cs) (CTree k cs')) as TM.
  { apply shape_moved; auto. apply SH.
    revert MT. generalize (toks (CTree k cs)) (toks (CTree k cs')). clear. intros m m' MT. induction MT as [|t t' l l' (_ & K & _) L IH]; [reflexivity|]. cbn [map]. rewrite K, IH. reflexivity. }
  pose proof (moved_spots (likewise a a') d (CTree k cs) (CTree k cs') F TM KStoredDefinition Beside 0 0 false false) as SS.
  fold (own (CTree k cs)) in SS. fold (own (CTree k cs')) in SS. rewrite EO, EO' in SS. cbn [map] in SS.
  assert (strip x' = strip x) as SX by congruence. apply (f_equal (@List.tl _)) in SS. cbn [List.tl] in SS.
  assert (at_rule x' = at_rule x) as RX by (unfold strip in SX; congruence). assert (at_level x' = at_level x) as VX by (unfold strip in SX; congruence).
  inversion MV as [|? ? ? ? MA MB]; subst.
  assert (Forall2 (moved (likewise (at_tok x) (at_tok x')) d) (map at_tok xs) (map at_tok xs')) as MX.
  { assert (map at_tok (x :: xs) = toks (CTree k cs)) as E1 by (rewrite <- EO; apply spots_toks). assert (map at_tok (x' :: xs') = toks (CTree k cs')) as E2 by (rewrite <- EO'; apply spots_toks).
    rewrite <- E1, <- E2 in MT. cbn [map] in MT. inversion MT; assumption. }
  pose proof (weave_moved _ d B B' MB (Some (at_rule x, tkind_of (at_tok x))) (line (tend (at_tok x))) [] [] xs xs' ltac:(constructor) SS MX) as WM.
  eexists. eexists. eexists. eexists. split; [exact EX|]. split; [exact EX'|]. cbn [e_tok e_rule e_white]. split; [reflexivity|]. split; [reflexivity|]. split; [congruence|]. split.
  { intros l m l' m' E E'. apply W in E. apply W' in E'. rewrite VX in E'. lia. }
  split.
  2:{ intros y ys y' ys' Y Y'. congruence. }
  assert (MA0 := MA). destruct MA0 as (_ & K1 & _ & K2 & _). rewrite RX, K1, K2.
  revert WM. generalize (weave (Some (at_rule x, tkind_of (at_tok x))) (line (tend (at_tok x))) [] B xs) (weave (Some (at_rule x, tkind_of (at_tok x))) (line (tend (at_tok x)) + d) [] B' xs').
  intros l l' WM. induction WM as [|e e' l l' (E1 & E2 & E3) L IH]; [constructor|]. cbn [map]. constructor; [|exact IH].
  split; [exact E2|]. split; [apply E3|]. cbn [lift e_white]. rewrite E1. apply same_white_lift.
Qed.

Lemma nodes_shaped s p items tree k cs c0' ds t v t' v' : reading s p items tree -> inside (CTree k cs) tree ->
  toks (CTree k cs) = t :: v -> parsable c0' -> prune c0' = CTree k ds -> toks (CTree k ds) = t' :: v' ->
  map tkind_of (toks (CTree k cs)) = map tkind_of (toks (CTree k ds)) -> tmap bare (CTree k cs) = tmap bare (CTree k ds).
Proof.
  intros R I TA P0 E0' TA' MK. destruct (reading_cs _ _ _ _ R) as (f & PF & _ & TF). rewrite TF in I.
  assert (empty_tree (CTree k cs) = false) as NE by (destruct cs; [discriminate|reflexivity]).
  destruct (inside_prune _ _ I NE) as (c0 & I0 & E0).
  rewrite <- E0, <- E0', <- !prune_tmap. f_equal. apply (node_unique f); auto. split.
  - destruct c0 as [|k0 ?], c0' as [|k0' ?]; try discriminate. rewrite prune_tree in E0, E0'. cbn [sym_of]. congruence.
  - rewrite <- (leaves_prune c0), <- (leaves_prune c0'), E0, E0', <- (toks_leaves (CTree k cs)), <- (toks_leaves (CTree k ds)). exact MK.
Qed.
Lemma node_parsable s p items tree k cs t v : reading s p items tree -> inside (CTree k cs) tree -> toks (CTree k cs) = t :: v ->
  exists c0, parsable c0 /\ prune c0 = CTree k cs.
Proof.
  intros R I TA. destruct (reading_cs _ _ _ _ R) as (f & PF & _ & TF). rewrite TF in I.
  assert (empty_tree (CTree k cs) = false) as NE by (destruct cs; [discriminate|reflexivity]).
  destruct (inside_prune _ _ I NE) as (c0 & I0 & E0). exists c0. split; [exact (parsable_inside _ _ I0 PF)|exact E0].
Qed.

Lemma local_down s p items tree s' p' items' tree' k cs cs' a b u u0 a' b' u' u0' :
  reading s p items tree -> reading s' p' items' tree' ->
  inside (CTree k cs) tree -> inside (CTree k cs') tree' -> self_contained k = true ->
  toks (CTree k cs) = a :: u -> toks (CTree k cs) = u0 ++ [b] -> toks (CTree k cs') = a' :: u' -> toks (CTree k cs') = u0' ++ [b'] ->
  Forall2 (likewise a a') (between a b (p_tokens p)) (between a' b' (p_tokens p')) ->
  Forall2 (likewise a a') (between a b (p_comments p)) (between a' b' (p_comments p')) ->
  line (tstart a) <= line (tstart a') ->
  exists n n' e r e' r', excerpt a b (reference tree items) = e :: r /\ excerpt a' b' (reference tree' items') = e' :: r' /\
    e_tok e = a /\ e_tok e' = a' /\ e_rule e' = e_rule e /\
    (forall l m l' m', e_white e = WLine l m -> e_white e' = WLine l' m' -> (m' + n = m + n')%nat) /\
    Forall2 (same_entry n n' a a') r r'.
Proof.
  intros R R' I I' SC TA TB TA' TB' LT LC LE.
  destruct (reading_excerpt _ _ _ _ _ _ _ _ _ _ R I SC TA TB) as (n & X). destruct (reading_excerpt _ _ _ _ _ _ _ _ _ _ R' I' SC TA' TB') as (n' & X').
  exists n, n'. destruct (node_parsable _ _ _ _ _ _ _ _ R' I' TA') as (c0' & P0 & E0).
  destruct (excerpts_down s p items (reference tree items) s' p' items' (reference tree' items') k cs cs' a b u u0 a' b' u' u0' n n')
    as (e & r & e' & r' & E1 & E2 & E3 & E4 & E5 & E6 & E7 & _); auto; try apply R; try apply R'; [| |exists e, r, e', r'; tauto].
  - apply (inside_fits tree); auto. exact (reading_fits _ _ _ _ _ _ R I SC).
  - exact (nodes_shaped _ _ _ _ _ _ _ _ _ _ _ _ R I TA P0 E0 TA').
Qed.
