(** Property C114: the size of the syntax tree and the number of events are linear in the number of tokens. *)
From Coq Require Import ZArith.
From Verif Require Import ProofBase Tokens Syntax Lexer SpecLex LexInv LexMain LexFacts ParserCore Grammar
  Tree Printer Formatter Lib ParserSem ParserFuel SpecGrammar Regex ParserGrammar ParserTree ParserFacts Recognise PropsParser
  SpecLanguage ParserComplete PropsLanguage
  FmtAbs FmtPlan FmtShape FmtTables FmtSound SpecLayout FmtExec FmtTop FmtFacts FmtNeat SpecNodes FmtTree PropsFormat FmtSame FmtBreaks FmtStable FmtConcat SpecDepth ParserDepth SpecCensus.

(** ** The tree: chains of single children are short *)
Fixpoint ones (r : rx) : list sym :=
  match r with
  | Void | Eps => [] | Sy x => [x] | Star a => ones a
  | Cat a b => (if nullable a then ones b else []) ++ (if nullable b then ones a else [])
  | Alt a b => ones a ++ ones b
  end.
Lemma ones_word r w : lang r w -> forall x, w = [x] -> In x (ones r).
Proof.
  induction 1 as [|y|a b u v LA IA LB IB|a b u L IH|a b u L IH|a|a u v LA IA LB IB]; intros x E; cbn [ones]; try discriminate.
  - injection E as ->. left. reflexivity.
  - apply in_or_app. destruct u as [|y u].
    + left. apply nullable_spec in LA. rewrite LA. apply IB, E.
    + injection E as -> E. apply app_eq_nil in E as [-> ->]. right. apply nullable_spec in LB. rewrite LB. apply IA. reflexivity.
  - apply in_or_app. auto.
  - apply in_or_app. auto.
  - destruct u as [|y u]; [apply IB, E|]. injection E as -> E. apply app_eq_nil in E as [-> ->]. apply IA. reflexivity.
Qed.
Lemma ones_checked : forallb (fun k => forallb (fun x => match x with Rule k' => Nat.ltb (rank k') (rank k) | _ => true end) (ones (pruned (production false k)))) all_skinds = true.
Proof. vm_compute. reflexivity. Qed.
Lemma single_rank k k' : lang (pruned (production false k)) [Rule k'] -> (rank k' < rank k)%nat.
Proof.
  intro L. pose proof ones_checked as H. rewrite forallb_forall in H. specialize (H k (all_skinds_complete k)). rewrite forallb_forall in H.
  specialize (H (Rule k') (ones_word _ _ L _ eq_refl)). apply Nat.ltb_lt, H.
Qed.

Definition top (c : child) : nat := match c with CTok _ => 0 | CTree k _ => S (rank k) end.
Lemma top_le c : (top c <= 13)%nat.
Proof. destruct c as [|k cs]; cbn [top]; [lia|]. pose proof (proj1 (proj2 (rank_facts k))). lia. Qed.
Lemma census_fits c : fits c -> (census c + 26 <= 26 * length (toks c) + top c)%nat.
Proof.
  induction c as [x|k cs IH] using child_ind2; intro F; [cbn; lia|]. assert (F' := F). inversion F' as [|? ? NE L FS]; subst. cbn [census toks].
  destruct cs as [|d [|e r]]; [contradiction| |].
  - inversion IH as [|? ? I _]; subst. inversion FS as [|? ? FD _]; subst. specialize (I FD). cbn [map list_sum fold_right flat_map]. rewrite app_nil_r.
    assert (top d <= rank k)%nat as T. { destruct d as [x|k' ds]; cbn [top]; [lia|]. cbn [map sym_of] in L. apply single_rank in L. lia. }
    unfold list_sum. cbn [fold_right top]. lia.
  - assert (list_sum (map census (d :: e :: r)) + 13 * length (d :: e :: r) <= 26 * length (flat_map toks (d :: e :: r)))%nat as S.
    { clear - IH FS. induction IH as [|c l H _ IH]; [cbn; lia|]. inversion FS as [|? ? FC FL]; subst. specialize (H FC). specialize (IH FL). pose proof (top_le c).
      cbn [map flat_map length list_sum fold_right]. rewrite app_length. unfold list_sum in *. cbn [fold_right] in *. lia. }
    cbn [length] in S |- *. cbn [top]. lia.
Qed.

Theorem C114_tree : forall s p, accepted s p -> exists tree, build_tree (p_tokens p) (p_events p) = Ok tree /\
  (census tree <= 26 * length (p_tokens p) + 1)%nat.
Proof.
  intros s p A. destruct (reading_of s p A) as (items & tree & R). exists tree. split; [exact (rd_tree _ _ _ _ R)|]. rewrite <- (rd_toks _ _ _ _ R).
  destruct (rd_fits _ _ _ _ R) as (cs & -> & [->|F]); [cbn; lia|]. pose proof (census_fits _ F). pose proof (top_le (CTree KStoredDefinition cs)). lia.
Qed.
Print Assumptions C114_tree.

(** ** The events: few rules are empty *)
Definition spare (k : skind) : nat := match k with KComposition | KDescription => 1 | _ => 0 end.
Definition void_count (w : list sym) : Z := Z.of_nat (length (filter void_sym w)).
Definition full_count (w : list sym) : Z := Z.of_nat (length (filter (fun x => negb (void_sym x)) w)).
Fixpoint excess (r : rx) : option Z :=
  match r with
  | Void => None
  | Eps | Star _ => Some 0%Z
  | Sy x => Some (if void_sym x then 1 else -1)%Z
  | Cat a b => match excess a, excess b with Some x, Some y => Some (x + y)%Z | _, _ => None end
  | Alt a b => match excess a, excess b with Some x, Some y => Some (Z.max x y) | x, None => x | None, y => y end
  end.
Fixpoint balanced (r : rx) : bool :=
  match r with
  | Star a => balanced a && match excess a with Some x => (x <=? 0)%Z | None => true end
  | Cat a b | Alt a b => balanced a && balanced b
  | _ => true
  end.
Lemma excess_word r w : lang r w -> balanced r = true -> exists x, excess r = Some x /\ (void_count w - full_count w <= x)%Z.
Proof.
  assert (forall a b, void_count (a ++ b) = void_count a + void_count b /\ full_count (a ++ b) = full_count a + full_count b)%Z as APP.
  { intros a b. unfold void_count, full_count. rewrite !filter_app, !app_length. lia. }
  induction 1 as [|y|a b u v LA IA LB IB|a b u L IH|a b u L IH|a|a u v LA IA LB IB]; intro B; cbn [excess balanced] in *.
  - exists 0%Z. split; [reflexivity|]. cbn. lia.
  - exists (if void_sym y then 1 else -1)%Z. split; [reflexivity|]. unfold void_count, full_count. cbn [filter]. destruct (void_sym y); cbn; lia.
  - apply andb_true_iff in B as [B1 B2]. destruct (IA B1) as (x & -> & X). destruct (IB B2) as (y & -> & Y). exists (x + y)%Z. split; [reflexivity|].
    destruct (APP u v). lia.
  - apply andb_true_iff in B as [B1 B2]. destruct (IH B1) as (x & -> & X). destruct (excess b) as [y|]; eexists; (split; [reflexivity|]); lia.
  - apply andb_true_iff in B as [B1 B2]. destruct (IH B2) as (x & -> & X). destruct (excess a) as [y|]; eexists; (split; [reflexivity|]); lia.
  - exists 0%Z. split; [reflexivity|]. cbn. lia.
  - assert (B' := B). apply andb_true_iff in B as [B1 B2]. destruct (IA B1) as (x & E & X). rewrite E in B2. apply Z.leb_le in B2. destruct (IB B') as (y & EY & Y). injection EY as <-.
    exists 0%Z. split; [reflexivity|]. destruct (APP u v). lia.
Qed.
Lemma excess_checked : forallb (fun k => balanced (production false k) &&
  match excess (production false k) with Some x => (x <=? Z.of_nat (spare k))%Z | None => true end && forallb (fun k' => implb (void_sym (Rule k')) (Nat.eqb (spare k') 0)) (units (production false k))) all_skinds = true.
Proof. vm_compute. reflexivity. Qed.

Lemma excess_facts k : (forall w, lang (production false k) w -> (length (filter void_sym w) <= length (filter (fun x => negb (void_sym x)) w) + spare k)%nat) /\
  (forall k', In k' (units (production false k)) -> void_sym (Rule k') = true -> spare k' = 0%nat).
Proof.
  pose proof excess_checked as H. rewrite forallb_forall in H. specialize (H k (all_skinds_complete k)).
  apply andb_true_iff in H as [H H3]. apply andb_true_iff in H as [H1 H2]. split.
  - intros w L. destruct (excess_word _ _ L H1) as (x & E & X). rewrite E in H2. apply Z.leb_le in H2. unfold void_count, full_count in X. lia.
  - intros k' I V. rewrite forallb_forall in H3. specialize (H3 k' I). rewrite V in H3. apply Nat.eqb_eq, H3.
Qed.
Lemma spare_le k : (spare k <= 1)%nat.
Proof. destruct k; cbn; lia. Qed.

Definition hollow_child (c : child) : bool := match leaves c with [] => true | _ => false end.
Lemma hollow_void c : conforms false c -> hollow_child c = true -> void_sym (sym_of c) = true.
Proof. intros C H. apply empty_voids; [exact C|]. unfold hollow_child in H. destruct (leaves c); [reflexivity|discriminate]. Qed.
Lemma hollow_few k cs : conforms false (CTree k cs) ->
  (length (filter hollow_child cs) <= length (filter (fun c => negb (hollow_child c)) cs) + spare k)%nat.
Proof.
  intro C. inversion C as [|? ? L F]; subst. apply (proj1 (excess_facts k)) in L. clear C.
  assert (length (filter hollow_child cs) <= length (filter void_sym (map sym_of cs)) /\
          length (filter (fun x => negb (void_sym x)) (map sym_of cs)) <= length (filter (fun c => negb (hollow_child c)) cs))%nat as [A B]; [|lia].
  clear L. induction F as [|c cs FC F [A B]]; [cbn; lia|]. cbn [map filter]. pose proof (hollow_void c FC) as V.
  destruct (hollow_child c); [rewrite (V eq_refl); cbn [negb length]; lia|]. destruct (void_sym (sym_of c)); cbn [negb length]; lia.
Qed.

(** Rules without tokens. *)
Lemma census_hollow c : conforms false c -> leaves c = [] -> (census c <= match c with CTok _ => 0 | CTree k _ => 1 + spare k end)%nat.
Proof.
  induction c as [x|k cs IH] using child_ind2; intros C E; [discriminate|]. pose proof (hollow_few k cs C) as H. inversion C as [|? ? L F]; subst. cbn [leaves] in E.
  assert (forall d, In d cs -> leaves d = []) as LE.
  { intros d I. apply in_split in I as (u & v & ->). rewrite flat_map_app in E. cbn [flat_map] in E. apply app_eq_nil in E as [_ E]. apply app_eq_nil in E as [E _]. exact E. }
  assert (filter hollow_child cs = cs /\ filter (fun c => negb (hollow_child c)) cs = []) as [E1 E2].
  { clear - LE. induction cs as [|d cs IH]; [auto|]. cbn [filter]. assert (hollow_child d = true) as HD by (unfold hollow_child; rewrite (LE d (or_introl eq_refl)); reflexivity). rewrite HD. cbn [negb].
    destruct IH as [I1 I2]; [intros x I; apply LE; right; exact I|]. rewrite I1, I2. auto. }
  rewrite E1, E2 in H. cbn [length] in H. cbn [census]. pose proof (spare_le k). destruct cs as [|d [|e r]]; cbn [length] in H; [cbn; lia| |lia].
  inversion IH as [|? ? ID _]; subst. inversion F as [|? ? FD _]; subst. specialize (ID FD (LE d (or_introl eq_refl))). destruct d as [x|k' ds]; [discriminate (LE _ (or_introl eq_refl))|].
  assert (void_sym (Rule k') = true) as V by (apply (empty_voids (CTree k' ds)); [exact FD|apply LE; left; reflexivity]).
  assert (spare k' = 0%nat) as S0 by (apply (proj2 (excess_facts k) k'); [apply (units_word _ _ L [] k' []); reflexivity|exact V]).
  rewrite S0 in ID. cbn [map list_sum fold_right]. unfold list_sum. cbn [fold_right]. lia.
Qed.
Lemma census_empty c : conforms false c -> leaves c = [] -> (census c <= 2)%nat.
Proof. intros C E. pose proof (census_hollow c C E). destruct c as [|k cs]; [lia|]. pose proof (spare_le k). lia. Qed.

Lemma census_conforms c : conforms false c -> leaves c <> [] -> (census c + 136 <= 136 * length (leaves c) + 5 * top c)%nat.
Proof.
  induction c as [x|k cs IH] using child_ind2; intros C NE; [cbn; lia|]. pose proof (hollow_few k cs C) as H. pose proof (spare_le k) as SP. inversion C as [|? ? L F]; subst.
  cbn [census leaves top] in *. set (m := length (filter (fun c => negb (hollow_child c)) cs)) in *. set (z := length (filter hollow_child cs)) in *.
  (* the children that are not empty *)
  destruct (Nat.eq_dec m 1) as [M1|M1].
  - assert (exists u d v, cs = u ++ d :: v /\ leaves d <> [] /\ Forall (fun c => leaves c = []) (u ++ v)) as (u & d & v & -> & LD & E).
    { clear - M1. unfold m in M1. clear m. induction cs as [|c cs IH]; [discriminate|]. cbn [filter] in M1. unfold hollow_child at 1 in M1. destruct (leaves c) as [|t r] eqn:LC; cbn [negb] in M1.
      - destruct (IH M1) as (u & d & v & -> & LD & E). exists (c :: u), d, v. split; [reflexivity|]. split; [exact LD|]. constructor; assumption.
      - exists [], c, cs. split; [reflexivity|]. split; [congruence|]. cbn [length] in M1. injection M1 as M1. cbn [app]. apply Forall_forall. intros x I.
        destruct (leaves x) as [|y q] eqn:LX; [reflexivity|]. exfalso. assert (In x (filter (fun c => negb (hollow_child c)) cs)) as J by (apply filter_In; split; [exact I|unfold hollow_child; rewrite LX; reflexivity]).
        destruct (filter (fun c => negb (hollow_child c)) cs); [destruct J|discriminate]. }
    assert (forall l, Forall (fun c => leaves c = []) l -> Forall (conforms false) l -> flat_map leaves l = [] /\ (list_sum (map census l) <= 2 * length l)%nat /\ length (filter hollow_child l) = length l) as EM.
    { clear. induction l as [|c l IH]; intros E F; [cbn; auto|]. inversion E as [|? ? EC EL]; inversion F as [|? ? FC FL]; subst. destruct (IH EL FL) as (I1 & I2 & I3). pose proof (census_empty c FC EC).
      cbn [flat_map map list_sum fold_right filter]. unfold hollow_child at 1. rewrite EC. unfold list_sum in *. cbn [app length fold_right]. split; [exact I1|]. split; lia. }
    apply Forall_app in E as [EU EV]. apply Forall_app in F as [FU FV]. inversion FV as [|? ? FD FV']; subst. destruct (EM u EU FU) as (U1 & U2 & U3). destruct (EM v EV FV') as (V1 & V2 & V3).
    unfold z in H. rewrite filter_app in H. cbn [filter] in H. assert (hollow_child d = false) as HD by (unfold hollow_child; destruct (leaves d); [contradiction|reflexivity]). rewrite HD, app_length, U3, V3 in H.
    rewrite flat_map_app, map_app, list_sum_app. cbn [flat_map map]. rewrite U1, V1, app_nil_r. cbn [app]. rewrite Forall_forall in IH. pose proof (IH d ltac:(apply in_or_app; right; left; reflexivity) FD LD) as ID.
    assert (top d <= rank k)%nat as TD.
    { destruct d as [x|k' ds]; cbn [top]; [lia|]. assert (rank k' < rank k)%nat; [|lia]. apply (proj1 (rank_facts k)). apply (units_word _ _ L (map sym_of u) k' (map sym_of v)).
      - rewrite map_app. reflexivity.
      - apply forallb_forall. intros y I. apply in_map_iff in I as (c & <- & I). rewrite Forall_forall in FU, EU. apply empty_voids; auto.
      - apply forallb_forall. intros y I. apply in_map_iff in I as (c & <- & I). rewrite Forall_forall in FV', EV. apply empty_voids; auto. }
    unfold list_sum at 2. cbn [fold_right]. fold (list_sum (map census v)). lia.
  - assert (list_sum (map census cs) + 71 * m <= 136 * length (flat_map leaves cs) + 2 * z)%nat as S.
    { subst m z. clear - IH F. induction IH as [|c l I _ IHl]; [cbn; lia|]. inversion F as [|? ? FC FL]; subst. specialize (IHl FL). pose proof (top_le c).
      cbn [map flat_map filter]. rewrite app_length. unfold list_sum in *. cbn [fold_right]. destruct (leaves c) as [|t r] eqn:LC.
      - assert (hollow_child c = true) as -> by (unfold hollow_child; rewrite LC; reflexivity). cbn [negb length]. pose proof (census_empty c FC LC). lia.
      - assert (hollow_child c = false) as -> by (unfold hollow_child; rewrite LC; reflexivity). cbn [negb length]. specialize (I FC ltac:(discriminate)). cbn [length] in I. lia. }
    assert (m <> 0)%nat as M0.
    { intro M0. apply NE. clear - M0. subst m. induction cs as [|c cs IH]; [reflexivity|]. cbn [filter flat_map] in *. unfold hollow_child at 1 in M0. destruct (leaves c); cbn [negb] in M0; [apply IH, M0|discriminate]. }
    lia.
Qed.

Lemma flat_length c : length (flat c) = (2 * census c + length (leaves c))%nat.
Proof.
  induction c as [x|k cs IH] using child_ind2; [reflexivity|]. cbn [flat census leaves length]. rewrite app_length. cbn [length].
  assert (length (flat_map flat cs) = 2 * list_sum (map census cs) + length (flat_map leaves cs))%nat as E.
  { induction IH as [|c l H _ IH]; [reflexivity|]. cbn [flat_map map]. rewrite !app_length, H, IH. unfold list_sum. cbn [fold_right]. lia. }
  lia.
Qed.
Theorem C114_events : forall s p, accepted s p -> (length (p_events p) <= 273 * length (p_tokens p) + 2)%nat.
Proof.
  intros s p [H Z]. destruct (accepted_tree s p H Z) as (cs & items & C & L & E & B & _). rewrite E, flat_length, L.
  destruct (leaves (CTree KStoredDefinition cs)) as [|t r] eqn:LE.
  - pose proof (census_hollow _ C LE) as K. cbn [spare] in K. lia.
  - assert (leaves (CTree KStoredDefinition cs) <> []) as N by congruence. pose proof (census_conforms _ C N) as K. rewrite LE, L in K. change (top (CTree KStoredDefinition cs)) with 1%nat in K. lia.
Qed.
Print Assumptions C114_events.

(** ** A concrete case: 81 nodes and 198 events for 26 tokens *)
Definition counted : text := lines ["model M ""text"""; "  input Real x(min = 1), y = f(a, b) + c;"; "end M;"]%string.
Example C114_applies : exists p tree, accepted counted p /\ build_tree (p_tokens p) (p_events p) = Ok tree /\
  (length (p_tokens p), census tree, length (p_events p)) = (26, 81, 198)%nat.
Proof.
  eexists. eexists. split; [split; [vm_compute; reflexivity|reflexivity]|]. split; [vm_compute; reflexivity|]. vm_compute. reflexivity.
Qed.
