(** Entries of a list in the place of others. *)
From Verif Require Import ProofBase Tokens Syntax Lexer SpecLex LexInv LexMain LexFacts ParserCore Grammar
  Tree Printer Formatter Lib ParserSem ParserFuel SpecGrammar Regex ParserGrammar ParserTree ParserFacts Recognise PropsParser
  SpecLanguage ParserComplete PropsLanguage
  FmtAbs FmtPlan FmtShape FmtTables FmtSound SpecLayout FmtExec FmtTop FmtFacts FmtRelex FmtNeat SpecNodes FmtTree FmtLists FmtOps
  FmtWrap SpecGaps SpecReference FmtNode FmtReference FmtSame PropsFormat PropsReference FmtBreaks FmtAgree FmtPrinted FmtStable FmtMoved
  FmtConcat SpecLevels FmtLevels SpecLocal FmtLocal SpecEdit LexSplice.

(** ** Words *)
Definition after (w : list sym) (l : list rx) : list rx := fold_left (fun l x => pds x l) w l.
Lemma langs_after w : forall l v, langs l (w ++ v) <-> langs (after w l) v.
Proof. induction w as [|x w IH]; intros l v; [reflexivity|]. cbn [app after fold_left]. rewrite langs_cons. apply IH. Qed.
Fixpoint states (fuel : nat) (todo seen : list rx) : list rx :=
  match fuel with
  | O => seen
  | S f => match todo with
           | [] => seen
           | r :: todo' => if mem_rx r seen then states f todo' seen else states f (flat_map (fun x => pd x r) (firsts r) ++ todo') (r :: seen)
           end
  end.
Definition one (e : skind) : list sym := [Rule e; Term TSemicolon].
Definition repeats (e : skind) (l : list rx) : bool :=
  forallb (fun r =>
    forallb (fun x => forallb (fun q => mem_rx q l) (pd x r)) (firsts r) &&
    forallb (fun q => mem_rx q (after (one e ++ one e) [r])) (after (one e) [r]) &&
    forallb (fun q => mem_rx q (after (one e) [r])) (after (one e ++ one e) [r])) l.
Lemma repeats_swap e l : repeats e l = true -> forall u r v, In r l -> lang r (u ++ one e ++ v) <-> lang r (u ++ one e ++ one e ++ v).
Proof.
  intro H. unfold repeats in H. rewrite forallb_forall in H. induction u as [|x u IH]; intros r v I.
  - apply H in I. apply andb_true_iff in I as [I D]. apply andb_true_iff in I as [_ U]. rewrite forallb_forall in D, U. cbn [app].
    assert (forall w, lang r w <-> langs [r] w) as L.
    { intro w. split; [intro A; exists r; split; [left; reflexivity|exact A]|intros (q & [<-|[]] & A); exact A]. }
    change (Rule e :: Term TSemicolon :: v) with (one e ++ v). change (Rule e :: Term TSemicolon :: Rule e :: Term TSemicolon :: v) with ((one e ++ one e) ++ v).
    rewrite !L, !langs_after. split; intros (q & Q & A); exists q; (split; [|exact A]); apply mem_rx_in; auto.
  - pose proof (H _ I) as J. apply andb_true_iff in J as [J _]. apply andb_true_iff in J as [J _]. rewrite forallb_forall in J. cbn [app].
    assert (forall q, In x (firsts r) -> In q (pd x r) -> In q l) as M by (intros q FX Q; apply J in FX; rewrite forallb_forall in FX; apply mem_rx_in; auto).
    split; intro L; pose proof (firsts_complete _ _ _ L) as FX; apply pd_complete in L as (q & Q & L); apply (pd_sound x r q); auto.
    + apply (IH q v); eauto.
    + apply (IH q v); eauto.
Qed.
Fixpoint words (e : skind) (n : nat) : list sym := match n with O => [] | S m => one e ++ words e m end.
Definition list_ok (k : skind) : bool :=
  match entry_kind k with
  | None => true
  | Some e => let l := states 100 [production false k] [] in mem_rx (production false k) l && repeats e l
  end.
Lemma lists_checked : forallb list_ok all_skinds = true.
Proof. vm_compute. reflexivity. Qed.
Lemma words_swap k e u v : entry_kind k = Some e -> forall n m, lang (production false k) (u ++ words e (S n) ++ v) -> lang (production false k) (u ++ words e (S m) ++ v).
Proof.
  intro E. pose proof (skind_all _ lists_checked k) as C. unfold list_ok in C. rewrite E in C. cbv zeta in C. apply andb_true_iff in C as [C1 C2]. apply mem_rx_in in C1.
  assert (forall n, lang (production false k) (u ++ words e (S n) ++ v) <-> lang (production false k) (u ++ words e 1 ++ v)) as K.
  { induction n as [|n IH]; [reflexivity|]. rewrite <- IH. cbn [words]. rewrite <- !app_assoc. symmetry. apply (repeats_swap e _ C2 u _ (words e n ++ v)); exact C1. }
  intros n m A. apply (proj2 (K m)), (proj1 (K n)), A.
Qed.
Lemma entries_words e cs : entries e cs -> exists n, map sym_of cs = words e (S n).
Proof.
  induction 1 as [ds t T|ds t cs T _ (n & IH)]; cbn [map sym_of]; rewrite T; [exists O; reflexivity|]. exists (S n). rewrite IH. reflexivity.
Qed.

(** ** Nodes around lists of entries *)
Definition frame (k : skind) : bool :=
  match entry_kind k with
  | Some _ => true
  | None => match k with
            | KElement | KEquation | KStatement | KComposition | KLongClassSpecifier | KClassSpecifier | KClassDefinition | KStoredDefinition => true
            | _ => false
            end
  end.
Definition frame_ok (k : skind) : bool :=
  forallb (fun x => match x with
                    | Rule q => (negb (frame q) || frame k) && (negb (skind_eqb q KElementList) || skind_eqb k KComposition)
                    | Term _ => true end) (atoms (pruned (production false k))).
Lemma frames_checked : forallb frame_ok all_skinds = true.
Proof. vm_compute. reflexivity. Qed.
Lemma frame_up k u q ds v : fits (CTree k (u ++ CTree q ds :: v)) -> (frame q = true -> frame k = true) /\ (q = KElementList -> k = KComposition).
Proof.
  intro F. inversion F as [|? ? _ L _]; subst. assert (In (Rule q) (atoms (pruned (production false k)))) as A.
  { eapply atoms_complete; [exact L|]. rewrite map_app. apply in_elt. }
  pose proof (skind_all _ frames_checked k) as C. unfold frame_ok in C. rewrite forallb_forall in C. apply C in A. apply andb_true_iff in A as [A1 A2]. split.
  - intro Q. rewrite Q in A1. exact A1.
  - intros ->. cbn in A2. apply skind_eqb_eq. exact A2.
Qed.
Lemma frame_facts k : frame k = true ->
  (forall cs inh, wide k cs inh = false) /\ (forall a d v, turns k a d v = false) /\ (forall d, continues k d = false) /\ (forall cs d, bequeathed k false cs d = false) /\
  (forall q ds, frame q = true -> keeps_level k (CTree q ds) = false /\ value k (Rule q) = false).
Proof.
  intro F. split; [destruct k; try discriminate; reflexivity|]. split.
  { intros a d v. apply quiet_turns. destruct k; try discriminate; reflexivity. }
  split; [destruct k; try discriminate; reflexivity|]. split; [destruct k; try discriminate; reflexivity|].
  intros q ds Q. destruct k; try discriminate; destruct q; try discriminate; split; reflexivity.
Qed.

Fixpoint kids (k : skind) (pos : position) (first : nat) (prev : option sym) (second : bool) (n : nat) (v : list child) : list spot :=
  match v with
  | [] => []
  | d :: v' =>
      let p := position_of k false false (multi_if d) (is_late d) second prev (kind_of d) in
      let lvl := (n + deeper k false (multi_if d) prev (kind_of d))%nat in
      let new := match prev, p with None, Below _ => true | None, _ => false | _, _ => true end in
      spots k (if new then p else pos) (if new then lvl else first) lvl false false d
      ++ kids k pos first (Some (kind_of d)) (match prev with None => true | Some _ => false end) (n + leak d + one_if (keeps_level k d))%nat v'
  end.
Lemma children_kids k all pos first : frame k = true -> forall v u n,
  children k false all pos first u n false v = kids k pos first (kind_last u) (after_first u) n v.
Proof.
  intro F. destruct (frame_facts k F) as (_ & T & C & B & _). induction v as [|d v IH]; intros u n; [reflexivity|]. cbn [children kids]. cbv zeta.
  rewrite T, C, B, IH. cbn [orb andb one_if]. rewrite Nat.add_0_r.
  replace (after_first (d :: u)) with (match kind_last u with None => true | Some _ => false end) by (destruct u; reflexivity). cbn [kind_last].
  destruct u; reflexivity.
Qed.
Lemma spots_kids q k cs pos first n inh : frame k = true -> spots q pos first n false inh (CTree k cs) = kids k pos first None false n cs.
Proof. intro F. destruct (frame_facts k F) as (W & _). rewrite spots_tree, W. apply (children_kids k cs pos first F cs []). Qed.

(** What a row of children leaves behind. *)
Definition prev_after (prev : option sym) (a : list child) : option sym := match rev a with [] => prev | d :: _ => Some (kind_of d) end.
Definition second_after (prev : option sym) (second : bool) (a : list child) : bool :=
  match a with [] => second | [_] => match prev with None => true | Some _ => false end | _ => false end.
Lemma prev_after_cons prev d a : prev_after prev (d :: a) = prev_after (Some (kind_of d)) a.
Proof. unfold prev_after. cbn [rev]. destruct (rev a); reflexivity. Qed.
Lemma kids_app k pos first a : forall prev second n b,
  kids k pos first prev second n (a ++ b) = kids k pos first prev second n a ++ kids k pos first (prev_after prev a) (second_after prev second a) (n + leak_in k a) b.
Proof.
  induction a as [|d a IH]; intros prev second n b; [cbn [app kids leak_in]; rewrite Nat.add_0_r; reflexivity|]. cbn [app kids]. cbv zeta. rewrite IH, <- app_assoc, prev_after_cons.
  cbn [leak_in]. f_equal. f_equal. f_equal; [|lia]. destruct a as [|d' [|]]; reflexivity.
Qed.
Lemma kids_moved R m k pos first v v' : Forall2 (tree_moved R m) v v' -> Forall fits v -> forall prev second n,
  map strip (kids k pos first prev second n v') = map strip (kids k pos first prev second n v).
Proof.
  induction 1 as [|d d' v v' D V IH]; intros F prev second n; [reflexivity|]. inversion F as [|? ? FD FV]; subst. cbn [kids]. cbv zeta.
  rewrite (moved_kind R m d d' D), (moved_multi R m d d' FD D), (moved_leak R m d d' FD D), (moved_keeps R m k d d' FD D), !map_app, IH by exact FV. f_equal.
  rewrite (position_same k false false (multi_if d) (multi_if d) (is_late d') (is_late d)) by (auto; eapply moved_late, D).
  apply (moved_spots R m d d' FD D).
Qed.
Lemma leak_in_moved R m k v v' : Forall2 (tree_moved R m) v v' -> Forall fits v -> leak_in k v' = leak_in k v.
Proof.
  induction 1 as [|d d' v v' D V IH]; intros F; [reflexivity|]. inversion F as [|? ? FD FV]; subst. cbn [leak_in]. rewrite IH by exact FV.
  rewrite (moved_leak R m d d' FD D), (moved_keeps R m k d d' FD D). reflexivity.
Qed.

(** ** Trees that differ in the entries of one list *)
Definition kin (Q : list spot -> list spot -> Prop) (c c' : child) : Prop :=
  kind_of c' = kind_of c /\ leak c' = leak c /\
  forall q pos first n, (kind_of c = Rule KElementList -> exists b, pos = Below b) ->
    exists S1 X X' S2 S2',
      spots q pos first n false false c = S1 ++ X ++ S2 /\ spots q pos first n false false c' = S1 ++ X' ++ S2' /\
      map strip S2' = map strip S2 /\ Q X X'.
Definition ahead (b : blanks) (lvl : nat) (X : list spot) : Prop := exists x xs, X = x :: xs /\ at_pos x = Below b /\ at_level x = lvl.
Definition akin (M M' : list token) : child -> child -> Prop :=
  kin (fun X X' => map at_tok X = M /\ map at_tok X' = M' /\ exists b lvl, ahead b lvl X /\ ahead b lvl X').
Lemma kids_toks k pos first v : forall prev second n, map at_tok (kids k pos first prev second n v) = flat_map toks v.
Proof. induction v as [|d v IH]; intros prev second n; [reflexivity|]. cbn [kids flat_map]. cbv zeta. rewrite map_app, IH, spots_toks. reflexivity. Qed.

Lemma entries_last e cs : entries e cs -> exists u t, cs = u ++ [CTok t] /\ tkind_of t = TSemicolon /\ u <> [].
Proof.
  induction 1 as [ds t T|ds t cs T _ (u & t' & -> & T' & _)]; [exists [CTree e ds], t; split; [reflexivity|]; split; [exact T|discriminate]|].
  exists (CTree e ds :: CTok t :: u), t'. split; [reflexivity|]. split; [exact T'|discriminate].
Qed.
Lemma entries_after e cs prev second : entries e cs -> prev_after prev cs = Some (Term TSemicolon) /\ second_after prev second cs = false.
Proof.
  intro E. split.
  - apply entries_last in E as (u & t & -> & T & _). unfold prev_after. rewrite rev_app_distr. cbn [rev app kind_of]. rewrite T. reflexivity.
  - destruct E; reflexivity.
Qed.
Lemma entries_first e cs : entries e cs -> exists ds v, cs = CTree e ds :: v.
Proof. destruct 1; eauto. Qed.
Lemma entry_plain k e : entry_kind k = Some e -> frame k = true /\ frame e = true /\ e <> KElementList.
Proof. intro E. destruct k; cbn in E; try discriminate; injection E as <-; repeat split; discriminate. Qed.
(** The first token of an entry stands at the beginning of a line. *)
Lemma entry_position k e prev second multi late : entry_kind k = Some e ->
  position_of k false false multi late second prev (Rule e) = position_of k false false false false second prev (Rule e) /\
  deeper k false multi prev (Rule e) = deeper k false false prev (Rule e) /\
  ((exists b, position_of k false false false false second prev (Rule e) = Below b) \/ (k = KElementList /\ prev = None /\ position_of k false false false false second prev (Rule e) = Beside)).
Proof.
  intro E. unfold position_of. destruct k; cbn in E; try discriminate; injection E as <-; cbn [fixed_position statement orb andb value trailing];
    (split; [destruct prev; try reflexivity; rewrite ?andb_false_r; reflexivity|]); (split; [reflexivity|]); try (left; eexists; reflexivity).
  destruct prev; [left; eexists; reflexivity|]. right. auto.
Qed.
Lemma entry_kids k e prev second n pos first : entry_kind k = Some e -> (k = KElementList -> exists b, pos = Below b) ->
  exists b lvl, forall ds v, fits (CTree e ds) -> exists x xs,
    kids k pos first prev second n (CTree e ds :: v) = x :: xs /\ at_pos x = Below b /\ at_level x = lvl.
Proof.
  intros E P. set (p := position_of k false false false false second prev (Rule e)). set (l := (n + deeper k false false prev (Rule e))%nat).
  set (new := match prev, p with None, Below _ => true | None, _ => false | _, _ => true end).
  assert (exists b, (if new then p else pos) = Below b) as (b & EB).
  { unfold new. destruct (entry_position k e prev second false false E) as (_ & _ & [(b & B)|(K & N & B)]); fold p in B; rewrite B.
    - exists b. destruct prev; reflexivity.
    - rewrite N. exact (P K). }
  exists b, (if new then l else first). intros ds v F. cbn [kids]. cbv zeta. cbn [kind_of].
  destruct (entry_position k e prev second (multi_if (CTree e ds)) (is_late (CTree e ds)) E) as (-> & -> & _). fold p. fold l. fold new. rewrite EB.
  assert (is_opener (CTree e ds) = false) as NO by (destruct k; cbn in E; try discriminate; injection E as <-; reflexivity).
  destruct (head_spot (CTree e ds) (mkA k (Below b) (if new then l else first) l false false) F NO) as (x & xs & EX & XP & XL & _).
  unfold spots_at in EX. cbn [a_rule a_pos a_first a_n a_on a_inh] in *. rewrite EX. exists x. eexists. split; [reflexivity|]. auto.
Qed.
Lemma akin_core R m k e u w w' v v' : entry_kind k = Some e -> entries e w -> entries e w' -> Forall fits w -> Forall fits w' -> leak_in k w' = leak_in k w ->
  Forall2 (tree_moved R m) v v' -> Forall fits v ->
  akin (flat_map toks w) (flat_map toks w') (CTree k (u ++ w ++ v)) (CTree k (u ++ w' ++ v')).
Proof.
  intros K E E' F F' L V FV. destruct (entry_plain k e K) as (FK & _). split; [reflexivity|]. split.
  { rewrite !leak_tree, !leak_in_app, L, (leak_in_moved R m k v v' V FV). reflexivity. }
  intros q pos first n P. rewrite !(spots_kids q k _ pos first n false FK), !kids_app.
  destruct (entries_after e w (prev_after None u) (second_after None false u) E) as [-> ->]. destruct (entries_after e w' (prev_after None u) (second_after None false u) E') as [-> ->].
  rewrite L.
  destruct (entry_kids k e (prev_after None u) (second_after None false u) (n + leak_in k u)%nat pos first K) as (b & lvl & H); [intros ->; apply P; reflexivity|].
  do 5 eexists. split; [reflexivity|]. split; [reflexivity|]. split; [apply (kids_moved R m); auto|]. split; [apply kids_toks|]. split; [apply kids_toks|]. exists b, lvl.
  destruct (entries_first e w E) as (ds & r & ->). destruct (entries_first e w' E') as (ds' & r' & ->). inversion F; inversion F'; subst. split; apply H; assumption.
Qed.
Lemma composition_place multi late second prev : position_of KComposition false false multi late second prev (Rule KElementList) = Below Always.
Proof. reflexivity. Qed.
Lemma kin_up R m Q k u q ds ds' v v' : frame q = true -> fits (CTree k (u ++ CTree q ds :: v)) ->
  kin Q (CTree q ds) (CTree q ds') -> Forall2 (tree_moved R m) v v' ->
  kin Q (CTree k (u ++ CTree q ds :: v)) (CTree k (u ++ CTree q ds' :: v')).
Proof.
  intros FQ F (_ & L & S) V. destruct (frame_up _ _ _ _ _ F) as [FK EK]. specialize (FK FQ). destruct (frame_facts k FK) as (_ & _ & _ & _ & KV).
  destruct (KV q ds FQ) as [KL VL]. destruct (KV q ds' FQ) as [KL' _].
  assert (Forall fits v) as FV by (inversion F as [|? ? _ _ FC]; subst; apply Forall_app in FC as [_ FC]; inversion FC; auto).
  split; [reflexivity|]. split.
  { rewrite !leak_tree, !leak_in_app. cbn [leak_in]. rewrite L, KL, KL', (leak_in_moved R m k v v' V FV). reflexivity. }
  intros r pos first n P. rewrite !(spots_kids r k _ pos first n false FK), !kids_app.
  cbn [kids]. cbv zeta. rewrite L, KL, KL'. cbn [kind_of is_late].
  set (p0 := prev_after None u). set (s0 := second_after None false u).
  assert (forall multi, position_of k false false multi false s0 p0 (Rule q) = position_of k false false false false s0 p0 (Rule q)) as PP.
  { intro multi. apply position_same; [rewrite VL; discriminate|reflexivity]. }
  assert (forall multi, deeper k false multi p0 (Rule q) = deeper k false false p0 (Rule q)) as DD.
  { intro multi. unfold deeper. rewrite VL. reflexivity. }
  rewrite (PP (multi_if (CTree q ds))), (PP (multi_if (CTree q ds'))), (DD (multi_if (CTree q ds))), (DD (multi_if (CTree q ds'))).
  set (p := position_of k false false false false s0 p0 (Rule q)). set (new := match p0, p with None, Below _ => true | None, _ => false | _, _ => true end).
  set (l := (n + leak_in k u + deeper k false false p0 (Rule q))%nat).
  destruct (S k (if new then p else pos) (if new then l else first) l) as (S1 & X & X' & S2 & S2' & E1 & E2 & ES & HQ).
  { intro EQ. cbn [kind_of] in EQ. injection EQ as EQ. subst q. pose proof (EK eq_refl) as EC. subst k. exists Always. unfold new, p. rewrite composition_place. destruct p0; reflexivity. }
  rewrite E1, E2. rewrite <- !app_assoc. rewrite !(app_assoc _ S1). do 5 eexists. split; [reflexivity|]. split; [reflexivity|]. split; [|exact HQ].
  rewrite !map_app, ES. f_equal. apply (kids_moved R m); auto.
Qed.

Definition frame_moved (R : token -> token -> Prop) (m : N) (y y' : skind * list child * list child) : Prop :=
  fst (fst y') = fst (fst y) /\ snd (fst y') = snd (fst y) /\ Forall2 (tree_moved R m) (snd y) (snd y').
Lemma kin_plug R m Q F F' : Forall2 (frame_moved R m) F F' -> forall q ds ds', frame q = true -> kin Q (CTree q ds) (CTree q ds') -> fits (plug F (CTree q ds)) ->
  kin Q (plug F (CTree q ds)) (plug F' (CTree q ds')).
Proof.
  induction 1 as [|[[k u] v] [[k' u'] v'] F F' (E1 & E2 & V) _ IH]; intros q ds ds' FQ A FT; [exact A|]. cbn [fst snd] in *. subst k' u'.
  cbn [plug fold_right fst snd] in *. fold (plug F (CTree q ds)) in *. fold (plug F' (CTree q ds')).
  assert (fits (plug F (CTree q ds))) as FP by (inversion FT as [|? ? _ _ FC]; subst; apply Forall_app in FC as [_ FC]; inversion FC; auto).
  assert (forall G q0 x, exists q1 ds1, plug G (CTree q0 x) = CTree q1 ds1) as SH by (intros [|[[? ?] ?] ?] ? ?; cbn [plug fold_right]; eauto).
  assert (forall G, frame q = true -> fits (plug G (CTree q ds)) -> forall q1 ds1, plug G (CTree q ds) = CTree q1 ds1 -> frame q1 = true) as FR.
  { clear - SH. induction G as [|[[k0 u0] v0] G IHG]; intros FQ FT q1 ds1 E; cbn [plug fold_right fst snd] in E; [congruence|]. fold (plug G (CTree q ds)) in E. injection E as <- _.
    cbn [plug fold_right fst snd] in FT. fold (plug G (CTree q ds)) in FT. destruct (SH G q ds) as (q2 & ds2 & E2).
    assert (fits (plug G (CTree q ds))) as FP by (inversion FT as [|? ? _ _ FC]; subst; apply Forall_app in FC as [_ FC]; inversion FC; auto).
    rewrite E2 in FT. apply frame_up in FT as [FT _]. apply FT. eapply IHG; eauto. }
  specialize (IH q ds ds' FQ A FP). destruct (SH F q ds) as (q1 & ds1 & E1). destruct (SH F' q ds') as (q2 & ds2 & E2).
  pose proof (FR F FQ FP q1 ds1 E1) as Q1. rewrite E1, E2 in *. assert (q2 = q1) as -> by (destruct IH as (KK & _); cbn [kind_of] in KK; congruence).
  apply (kin_up R m); auto.
Qed.

(** ** Layouts *)
Lemma rows_same b n r r' t t' cs : line (tstart t') = line (tstart t) -> forall b0 ln, b0 = b ->
  exists L w, rows b n ln cs r t = L ++ [mkE w (Some r) t] /\ rows b n ln cs r' t' = L ++ [mkE w (Some r') t'].
Proof.
  intros E b0 ln _. clear b0. revert b ln. induction cs as [|c cs IH]; intros b ln; cbn [rows].
  - rewrite E. exists []. eexists. split; reflexivity.
  - destruct (IH (match b with Always => Kept | _ => b end) (line (tend c))) as (L & w & -> & ->). eexists (_ :: L), w. split; reflexivity.
Qed.
Lemma put_same p ln cs x x' b : at_pos x = Below b -> at_pos x' = Below b -> at_level x' = at_level x -> line (tstart (at_tok x')) = line (tstart (at_tok x)) ->
  exists L w, put p ln cs x = L ++ [mkE w (Some (at_rule x)) (at_tok x)] /\ put p ln cs x' = L ++ [mkE w (Some (at_rule x')) (at_tok x')].
Proof.
  intros P P' V E. unfold put. rewrite P, P', V.
  destruct (rows_same b (at_level x) (at_rule x) (at_rule x') (at_tok x) (at_tok x') (filter (fun c => negb (line (tstart c) =? ln)) cs) E b ln eq_refl) as (L & w & -> & ->).
  rewrite !app_assoc. eexists. eexists. split; reflexivity.
Qed.
Lemma weave_same A : forall p ln cs Y x x' t t' rest rest' xs xs' b, filter plain A = map at_tok Y -> plain t = true -> plain t' = true -> at_tok x = t -> at_tok x' = t' ->
  at_pos x = Below b -> at_pos x' = Below b -> at_level x' = at_level x -> line (tstart t') = line (tstart t) ->
  exists L w,
    weave p ln cs (A ++ t :: rest) (Y ++ x :: xs) = L ++ mkE w (Some (at_rule x)) t :: weave (Some (at_rule x, tkind_of t)) (line (tend t)) [] rest xs /\
    weave p ln cs (A ++ t' :: rest') (Y ++ x' :: xs') = L ++ mkE w (Some (at_rule x')) t' :: weave (Some (at_rule x', tkind_of t')) (line (tend t')) [] rest' xs' /\
    forall e, In e L -> In (e_tok e) (cs ++ A).
Proof.
  induction A as [|a A IH]; intros p ln cs Y x x' t t' rest rest' xs xs' b E P P' T T' Q Q' V LN.
  - destruct Y; [|discriminate]. cbn [app weave]. rewrite plain_comment in P, P'. apply negb_true_iff in P, P'. rewrite P, P'.
    destruct (put_same p ln cs x x' b Q Q' V) as (L & w & E1 & E2); [congruence|]. rewrite E1, E2, <- !app_assoc, T, T'. exists L, w. split; [reflexivity|]. split; [reflexivity|].
    intros e I. rewrite app_nil_r. destruct (put_last p ln cs x) as (L0 & w0 & E0 & _ & I0). rewrite E1 in E0. apply app_inj_tail in E0 as [<- _]. auto.
  - cbn [app weave filter] in *. rewrite plain_comment in E. destruct (is_comment a) eqn:C; cbn [negb] in E.
    + destruct (IH p ln (cs ++ [a]) Y x x' t t' rest rest' xs xs' b E P P' T T' Q Q' V LN) as (L & w & E1 & E2 & I). exists L, w. split; [exact E1|]. split; [exact E2|].
      intros e J. apply I in J. rewrite <- app_assoc in J. exact J.
    + destruct Y as [|y Y]; [discriminate|]. cbn [map] in E. assert (a = at_tok y) as TY by congruence. apply (f_equal (@List.tl _)) in E. cbn [List.tl] in E. cbn [app].
      destruct (IH (Some (at_rule y, tkind_of a)) (line (tend a)) [] Y x x' t t' rest rest' xs xs' b E P P' T T' Q Q' V LN) as (L & w & -> & -> & I).
      destruct (put_last p ln cs y) as (L0 & w0 & EP & _ & I0). rewrite !app_assoc. do 2 eexists. split; [reflexivity|]. split; [reflexivity|].
      intros e J. apply in_app_or in J as [J|J]; [|apply I in J; cbn [app] in J; apply in_or_app; right; right; exact J].
      rewrite EP in J. apply in_app_or in J as [J|[<-|[]]]; [apply in_or_app; left; auto|]. apply in_or_app. right. left. exact TY.
Qed.

Lemma parts_of (S1 X S2 : list spot) (A B C : list token) x : NoDup (A ++ B ++ C) -> map at_tok (S1 ++ X ++ S2) = A ++ B ++ C -> map at_tok X = B -> In x B ->
  map at_tok S1 = A /\ map at_tok S2 = C.
Proof.
  intros ND E EB I. rewrite !map_app, EB in E. apply in_split in I as (b1 & b2 & ->). rewrite <- !app_assoc in *. cbn [app] in *.
  rewrite (app_assoc A) in ND, E. rewrite (app_assoc (map at_tok S1)) in E. symmetry in E. apply nodup_split in E as [E1 E2]; auto.
  apply app_inv_tail in E1. apply app_inv_head in E2. auto.
Qed.
Theorem edit_layout m F F' k e u w w' v v' IA IX IX' IB IB' t0 mid z t0' mid' z' :
  let c := CTree k (u ++ w ++ v) in let c' := CTree k (u ++ w' ++ v') in
  Forall2 (frame_moved same_text m) F F' -> Forall2 (tree_moved same_text m) v v' -> fits (plug F c) -> Forall fits w' ->
  entry_kind k = Some e -> entries e w -> entries e w' -> leak_in k w' = leak_in k w -> (exists a b cs, F = (KStoredDefinition, a, b) :: cs) ->
  toks (plug F c) = filter plain (IA ++ IX ++ IB) -> toks (plug F' c') = filter plain (IA ++ IX' ++ IB') ->
  NoDup (IA ++ IX ++ IB) -> NoDup (IA ++ IX' ++ IB') -> filter plain IX = flat_map toks w -> filter plain IX' = flat_map toks w' ->
  IX = t0 :: mid ++ [z] -> IX' = t0' :: mid' ++ [z'] -> plain t0 = true -> plain z = true -> plain t0' = true -> plain z' = true -> tkind_of z' = tkind_of z ->
  line (tstart t0') = line (tstart t0) -> line (tend z') = line (tend z) + m -> Forall2 (moved same_text m) IB IB' ->
  exists la lx lx' lb lb' wh r r',
    reference (plug F c) (IA ++ IX ++ IB) = la ++ (mkE wh (Some r) t0 :: lx) ++ lb /\
    reference (plug F' c') (IA ++ IX' ++ IB') = la ++ (mkE wh (Some r') t0' :: lx') ++ lb' /\
    Forall2 (entry_moved same_text m) lb lb' /\
    (forall x, In x la -> In (e_tok x) IA) /\ (forall x, In x lx -> In (e_tok x) IX) /\ (forall x, In x lx' -> In (e_tok x) IX') /\
    (forall x, In x lb -> In (e_tok x) IB) /\ (forall x, In x lb' -> In (e_tok x) IB').
Proof.
  intros c c' FF VV FT FW EK EW EW' LK ROOT TK TK' ND ND' TW TW' EX EX' P0 PZ P0' PZ' KZ L0 LZ MB.
  destruct (entry_plain k e EK) as (FK & _).
  assert (fits c) as FC.
  { clear - FT. revert FT. induction F as [|[[q a] b] F IH]; intro FT; [exact FT|]. apply IH. cbn [plug fold_right fst snd] in FT. inversion FT as [|? ? _ _ G]; subst.
    apply Forall_app in G as [_ G]. inversion G; auto. }
  assert (Forall fits w /\ Forall fits v) as [FW0 FV].
  { inversion FC as [|? ? _ _ G]; subst. apply Forall_app in G as [_ G]. apply Forall_app in G. exact G. }
  pose proof (akin_core same_text m k e u w w' v v' EK EW EW' FW0 FW LK VV FV) as AC.
  pose proof (kin_plug same_text m _ F F' FF k _ _ FK AC FT) as (_ & _ & AK).
  destruct (AK KStoredDefinition Beside 0%nat 0%nat) as (S1 & X & X' & S2 & S2' & E1 & E2 & ES & T1 & T2 & b & lvl & (x & xs & XE & XP & XL) & (x' & xs' & XE' & XP' & XL')).
  { destruct ROOT as (a0 & b0 & cs & ->). cbn [plug fold_right fst snd kind_of]. discriminate. }
  assert (In t0 (filter plain IX)) as I0 by (rewrite EX; cbn [filter]; rewrite P0; left; reflexivity).
  assert (In t0' (filter plain IX')) as I0' by (rewrite EX'; cbn [filter]; rewrite P0'; left; reflexivity).
  assert (map at_tok (S1 ++ X ++ S2) = filter plain IA ++ filter plain IX ++ filter plain IB) as M1 by (rewrite <- E1, spots_toks; fold c; rewrite TK, !filter_app; reflexivity).
  assert (map at_tok (S1 ++ X' ++ S2') = filter plain IA ++ filter plain IX' ++ filter plain IB') as M2 by (rewrite <- E2, spots_toks; fold c'; rewrite TK', !filter_app; reflexivity).
  assert (NoDup (filter plain IA ++ filter plain IX ++ filter plain IB)) as N1 by (rewrite <- !filter_app; apply NoDup_filter, ND).
  assert (NoDup (filter plain IA ++ filter plain IX' ++ filter plain IB')) as N2 by (rewrite <- !filter_app; apply NoDup_filter, ND').
  destruct (parts_of S1 X S2 _ _ _ t0 N1 M1) as [A1 A2]; [congruence|exact I0|]. destruct (parts_of S1 X' S2' _ _ _ t0' N2 M2) as [_ A2']; [congruence|exact I0'|].
  assert (map at_tok X = t0 :: filter plain (mid ++ [z])) as B1 by (rewrite T1, <- TW, EX; cbn [filter]; rewrite P0; reflexivity).
  assert (map at_tok X' = t0' :: filter plain (mid' ++ [z'])) as B1' by (rewrite T2, <- TW', EX'; cbn [filter]; rewrite P0'; reflexivity).
  rewrite XE in B1. rewrite XE' in B1'. cbn [map] in B1, B1'. assert (at_tok x = t0) as TX by congruence. assert (at_tok x' = t0') as TX' by congruence.
  apply (f_equal (@List.tl _)) in B1, B1'. cbn [List.tl] in B1, B1'.
  unfold reference. fold c c' in E1, E2. rewrite E1, E2, XE, XE', EX, EX'. cbn [app].
  destruct (weave_same IA None 1 [] S1 x x' t0 t0' ((mid ++ [z]) ++ IB) ((mid' ++ [z']) ++ IB') (xs ++ S2) (xs' ++ S2') b) as (L & wh & W1 & W2 & WI); auto; [congruence|].
  rewrite W1, W2.
  destruct (weave_app mid z PZ (Some (at_rule x, tkind_of t0)) (line (tend t0)) [] xs (eq_sym B1)) as (r & H). rewrite H.
  destruct (weave_app mid' z' PZ' (Some (at_rule x', tkind_of t0')) (line (tend t0')) [] xs' (eq_sym B1')) as (r' & H'). rewrite H'.
  assert (forall p1 p2 kz ln its ys, weave (Some (p1, kz)) ln [] its ys = weave (Some (p2, kz)) ln [] its ys) as PR.
  { intros p1 p2 kz. assert (forall its ys ln cs, weave (Some (p1, kz)) ln cs its ys = weave (Some (p2, kz)) ln cs its ys) as G; [|intros; apply G].
    induction its as [|t its IH]; intros ys ln cs; [reflexivity|]. cbn [weave]. destruct (is_comment t); [apply IH|]. destruct ys; reflexivity. }
  rewrite (PR r' r), KZ, LZ.
  assert (Forall2 (moved same_text m) (map at_tok S2) (map at_tok S2')) as MS.
  { rewrite A2, A2'. apply moved_filter; auto. intros t t' (_ & K & _). unfold plain. rewrite K. reflexivity. }
  pose proof (weave_moved same_text m IB IB' MB (Some (r, tkind_of z)) (line (tend z)) [] [] S2 S2' ltac:(constructor) ES MS) as WM.
  exists L. do 4 eexists. exists wh, (at_rule x), (at_rule x'). split; [reflexivity|]. split; [reflexivity|]. split; [exact WM|].
  split; [exact WI|].
  split; [intros y I; apply weave_in in I; [right; exact I|auto]|]. split; [intros y I; apply weave_in in I; [right; exact I|auto]|].
  split; intros y I; apply weave_in in I; auto.
Qed.

(** ** Entries behind others *)
Lemma kin_insert R m k e u0 w wc v v' : entry_kind k = Some e -> entries e w -> entries e wc -> leak_in k wc = 0%nat ->
  Forall2 (tree_moved R m) v v' -> Forall fits v ->
  kin (fun X X' => X = [] /\ map at_tok X' = flat_map toks wc) (CTree k ((u0 ++ w) ++ v)) (CTree k ((u0 ++ w) ++ wc ++ v')).
Proof.
  intros K E E' L V FV. destruct (entry_plain k e K) as (FK & _). split; [reflexivity|]. split.
  { rewrite !leak_tree, !leak_in_app, L, (leak_in_moved R m k v v' V FV). reflexivity. }
  intros q pos first n P. rewrite !(spots_kids q k _ pos first n false FK). set (u := u0 ++ w). rewrite !(kids_app k pos first u), (kids_app k pos first wc).
  assert (prev_after None u = Some (Term TSemicolon) /\ second_after None false u = false) as [EP ES].
  { unfold u. destruct (entries_last e w E) as (r & t & -> & T & NR). split.
    - unfold prev_after. rewrite !rev_app_distr. cbn [rev app kind_of]. rewrite T. reflexivity.
    - destruct u0 as [|a [|b u0]]; cbn [app]; [destruct r as [|a [|b r]]; [contradiction|reflexivity|reflexivity]|destruct r; [contradiction|reflexivity]|reflexivity]. }
  rewrite EP, ES. destruct (entries_after e wc (Some (Term TSemicolon)) false E') as [-> ->]. rewrite L.
  exists (kids k pos first None false n u), [], (kids k pos first (Some (Term TSemicolon)) false (n + leak_in k u) wc). do 2 eexists.
  split; [reflexivity|]. split; [reflexivity|]. split; [rewrite Nat.add_0_r; apply (kids_moved R m); auto|]. split; [reflexivity|]. apply kids_toks.
Qed.
Theorem insert_layout m F F' k e u0 w wc v v' IA z mid z' IB IB' :
  let c := CTree k ((u0 ++ w) ++ v) in let c' := CTree k ((u0 ++ w) ++ wc ++ v') in let I1 := IA ++ [z] in let IX := mid ++ [z'] in
  Forall2 (frame_moved same_text m) F F' -> Forall2 (tree_moved same_text m) v v' -> fits (plug F c) ->
  entry_kind k = Some e -> entries e w -> entries e wc -> leak_in k wc = 0%nat -> (exists a b cs, F = (KStoredDefinition, a, b) :: cs) ->
  toks (plug F c) = filter plain (I1 ++ IB) -> toks (plug F' c') = filter plain (I1 ++ IX ++ IB') ->
  NoDup (I1 ++ IX ++ IB') -> filter plain IX = flat_map toks wc ->
  plain z = true -> plain z' = true -> tkind_of z' = tkind_of z ->
  line (tend z') = line (tend z) + m -> Forall2 (moved same_text m) IB IB' ->
  exists la lx lb lb',
    reference (plug F c) (I1 ++ IB) = la ++ lb /\ reference (plug F' c') (I1 ++ IX ++ IB') = la ++ lx ++ lb' /\
    Forall2 (entry_moved same_text m) lb lb' /\
    (forall x, In x la -> In (e_tok x) I1) /\ (forall x, In x lx -> In (e_tok x) IX) /\ (forall x, In x lb -> In (e_tok x) IB) /\ (forall x, In x lb' -> In (e_tok x) IB').
Proof.
  intros c c' I1 IX FF VV FT EK EW EC LK ROOT TK TK' ND TX PZ PZ' KZ LZ MB.
  destruct (entry_plain k e EK) as (FK & _).
  assert (fits c) as FC.
  { clear - FT. revert FT. induction F as [|[[q a] b] F IH]; intro FT; [exact FT|]. apply IH. cbn [plug fold_right fst snd] in FT. inversion FT as [|? ? _ _ G]; subst.
    apply Forall_app in G as [_ G]. inversion G; auto. }
  assert (Forall fits v) as FV by (inversion FC as [|? ? _ _ G]; subst; apply Forall_app in G; apply G).
  pose proof (kin_insert same_text m k e u0 w wc v v' EK EW EC LK VV FV) as AC.
  pose proof (kin_plug same_text m _ F F' FF k _ _ FK AC FT) as (_ & _ & AK).
  destruct (AK KStoredDefinition Beside 0%nat 0%nat) as (S1 & X & X' & S2 & S2' & E1 & E2 & ES & -> & T2).
  { destruct ROOT as (a0 & b0 & cs & ->). cbn [plug fold_right fst snd kind_of]. discriminate. }
  cbn [app] in E1.
  assert (map at_tok (S1 ++ X' ++ S2') = filter plain I1 ++ filter plain IX ++ filter plain IB') as M2 by (rewrite <- E2, spots_toks; fold c'; rewrite TK', !filter_app; reflexivity).
  assert (NoDup (filter plain I1 ++ filter plain IX ++ filter plain IB')) as N2 by (rewrite <- !filter_app; apply NoDup_filter, ND).
  assert (In z' (filter plain IX)) as IZ by (unfold IX; rewrite filter_app; cbn [filter]; rewrite PZ'; apply in_or_app; right; left; reflexivity).
  destruct (parts_of S1 X' S2' _ _ _ z' N2 M2) as [A1 A2]; [congruence|exact IZ|].
  assert (map at_tok S2 = filter plain IB) as A3.
  { assert (map at_tok (S1 ++ S2) = filter plain I1 ++ filter plain IB) as M1 by (rewrite <- E1, spots_toks; fold c; rewrite TK, !filter_app; reflexivity).
    rewrite map_app, A1 in M1. apply app_inv_head in M1. exact M1. }
  unfold reference. fold c c' in E1, E2. rewrite E1, E2. unfold I1, IX.
  destruct (weave_app IA z PZ None 1 [] S1) as (r & H); [unfold I1 in A1; congruence|]. rewrite !H.
  destruct (weave_app mid z' PZ' (Some (r, tkind_of z)) (line (tend z)) [] X') as (r' & H'); [fold IX; congruence|]. rewrite H'.
  assert (forall p1 p2 kz ln its ys, weave (Some (p1, kz)) ln [] its ys = weave (Some (p2, kz)) ln [] its ys) as PR.
  { intros p1 p2 kz. assert (forall its ys ln cs, weave (Some (p1, kz)) ln cs its ys = weave (Some (p2, kz)) ln cs its ys) as G; [|intros; apply G].
    induction its as [|t its IH]; intros ys ln cs; [reflexivity|]. cbn [weave]. destruct (is_comment t); [apply IH|]. destruct ys; reflexivity. }
  rewrite (PR r' r), KZ, LZ.
  assert (Forall2 (moved same_text m) (map at_tok S2) (map at_tok S2')) as MS.
  { rewrite A3, A2. apply moved_filter; auto. intros t t' (_ & K & _). unfold plain. rewrite K. reflexivity. }
  pose proof (weave_moved same_text m IB IB' MB (Some (r, tkind_of z)) (line (tend z)) [] [] S2 S2' ltac:(constructor) ES MS) as WM.
  do 4 eexists. split; [reflexivity|]. split; [reflexivity|]. split; [exact WM|].
  assert (forall its ys, map at_tok ys = filter plain its -> forall p ln y, In y (weave p ln [] its ys) -> In (e_tok y) its) as WI.
  { intros its ys E p ln y I. apply weave_in in I; auto. }
  split; [intros y I; apply WI in I; [exact I|exact A1]|]. split; [intros y I; apply WI in I; [exact I|fold IX; congruence]|].
  split; intros y I; apply WI in I; auto.
Qed.
