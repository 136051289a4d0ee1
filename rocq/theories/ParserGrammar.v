(** Error-free runs of the parser follow the grammar: every function body is translated
    to a regular expression over its children, keeping track of the possible kinds of the
    next two tokens, and the expression is compared with the production. *)
From Verif Require Import ProofBase Tokens Syntax Lexer ParserCore Grammar Tree ParserSem
  SpecGrammar Regex.

Record abs := mkA { a0 : list tkind; a1 : list tkind; areg : list tkind; alive : bool }.

Record sat (reg : tkind) (ts : list token) (s : abs) : Prop := mkSat {
  sat0 : In (kind_at ts 0) (a0 s);
  sat1 : In (kind_at ts 1) (a1 s);
  satr : In reg (areg s);
  satl : alive s = true -> reg = kind_at ts 0
}.

Definition meet (l ts : list tkind) : list tkind := filter (fun k => memk k ts) l.
Definition minus (l ts : list tkind) : list tkind := filter (fun k => negb (memk k ts)) l.
Definition join_l (l m : list tkind) : list tkind := l ++ minus m l.
Definition full : list tkind := all_tkinds.

Definition top (s : abs) : abs := mkA full full (areg s) false.
Definition step1 (s : abs) : abs := mkA (a1 s) full (areg s) false.
Definition join (s u : abs) : abs :=
  mkA (join_l (a0 s) (a0 u)) (join_l (a1 s) (a1 u)) (join_l (areg s) (areg u))
      (alive s && alive u).

Definition with0 (f : list tkind -> list tkind) (s : abs) : abs :=
  mkA (f (a0 s)) (a1 s) (if alive s then f (areg s) else areg s) (alive s).
Definition with1 (f : list tkind -> list tkind) (s : abs) : abs :=
  mkA (a0 s) (f (a1 s)) (areg s) (alive s).
Definition withr (f : list tkind -> list tkind) (s : abs) : abs :=
  mkA (if alive s then f (a0 s) else a0 s) (a1 s) (f (areg s)) (alive s).

Definition alt2 (a b : rx) : rx :=
  match a with Void => b | _ => match b with Void => a | _ => Alt a b end end.

(** [e = false]: there is a token left at the end. *)
Fixpoint cab (e : bool) (s : abs) (c : cond) : list (bool * rx * abs) :=
  match c with
  | CNth O ts => [(true, Eps, with0 (fun l => meet l ts) s); (false, Eps, with0 (fun l => minus l ts) s)]
  | CNth (S O) ts => [(true, Eps, with1 (fun l => meet l ts) s); (false, Eps, with1 (fun l => minus l ts) s)]
  | CNth _ _ => [(true, Eps, s); (false, Eps, s)]
  | CReg ts => [(true, Eps, withr (fun l => meet l ts) s); (false, Eps, withr (fun l => minus l ts) s)]
  | CConsume t => [(true, if memk t (a0 s) then Sy (Term t) else Void, step1 s);
                   (false, Eps, if tkind_eqb TEOF t then s else with0 (fun l => minus l [t]) s)]
  | CEof => if e then [(true, Eps, s); (false, Eps, s)] else [(false, Eps, s)]
  | CNot c => map (fun o => match o with (b, x, s') => (negb b, x, s') end) (cab e s c)
  | CAnd a b =>
      flat_map (fun o => match o with
        | (true, x, s') => map (fun o' => match o' with (b', y, s'') => (b', cat x y, s'') end) (cab e s' b)
        | (false, x, s') => [(false, x, s')]
        end) (cab e s a)
  | COr a b =>
      flat_map (fun o => match o with
        | (true, x, s') => [(true, x, s')]
        | (false, x, s') => map (fun o' => match o' with (b', y, s'') => (b', cat x y, s'') end) (cab e s' b)
        end) (cab e s a)
  end.

Definition starts_adv (s : stmt) : bool :=
  match s with
  | SExpect _ | SAdvance => true
  | SSeq (SExpect _) _ | SSeq SAdvance _ => true
  | _ => false
  end.

Fixpoint no_break (s : stmt) : bool :=
  match s with
  | SBreak => false
  | SSeq a b | SIf _ a b => no_break a && no_break b
  | SLet _ a => no_break a
  | _ => true
  end.

Definition subset (l m : list tkind) : bool := forallb (fun k => memk k m) l.

Section Tr.
(** Kinds of the next token required at calls. *)
Variable pre : skind -> list tkind.

Definition add_out (o : option (rx * abs * rx)) (x : rx) (acc : option (rx * abs * rx))
  : option (rx * abs * rx) :=
  match o, acc with
  | Some (r, s, b), Some (r', s', b') =>
      Some (alt2 (cat x r) r', join s s', alt2 (cat x b) b')
  | _, _ => None
  end.

Fixpoint tr (e : bool) (s : abs) (p : stmt) : option (rx * abs * rx) :=
  match p with
  | SSkip => Some (Eps, s, Void)
  | SSeq a b =>
      match tr (e && negb (starts_adv b && no_break a)) s a with
      | Some (ra, s1, ba) =>
          match tr e s1 b with
          | Some (rb, s2, bb) => Some (cat ra rb, s2, alt2 ba (cat ra bb))
          | None => None
          end
      | None => None
      end
  | SDo c =>
      fold_right (fun o acc => match o with (_, x, s') => add_out (Some (Eps, s', Void)) x acc end)
        (Some (Void, mkA [] [] [] true, Void)) (cab e s c)
  | SExpect t => Some (Sy (Term t), step1 s, Void)
  | SAdvance => Some (alt (map (fun k => Sy (Term k)) (a0 s)), step1 s, Void)
  | SAdvErr _ _ _ => Some (Void, s, Void)
  | SCall k => if e then None
               else if subset (a0 s) (pre k) then Some (Sy (Rule k), top s, Void) else None
  | SIf c a b =>
      fold_right (fun o acc => match o with (x, y, s') =>
          add_out (tr e s' (if x : bool then a else b)) y acc end)
        (Some (Void, mkA [] [] [] true, Void)) (cab e s c)
  | SWhile c a =>
      let outs := cab e (top s) c in
      let body := fold_right (fun o acc => match o with (x, y, s') =>
          if x : bool then add_out (tr e s' a) y acc else acc end)
        (Some (Void, mkA [] [] [] true, Void)) outs in
      let exit := fold_right (fun o acc => match o with (x, y, _) =>
          if x : bool then acc else alt2 y acc end) Void outs in
      match body with
      | Some (r, _, b) => Some (cat (Star r) (alt2 exit b), top s, Void)
      | None => None
      end
  | SLet n a =>
      let s1 := match n with
                | O => mkA (a0 s) (a1 s) (a0 s) true
                | S O => mkA (a0 s) (a1 s) (a1 s) false
                | _ => mkA (a0 s) (a1 s) full false
                end in
      match tr e s1 a with
      | Some (r, s2, b) => Some (r, mkA (a0 s2) (a1 s2) (areg s) false, b)
      | None => None
      end
  | SBreak => Some (Void, s, Eps)
  end.
End Tr.

(** The three operator rules just advance: their callers check the token. [KError] and
    [KStoredDefinition] are never called. *)
Definition pre_tab (k : skind) : list tkind :=
  match k with
  | KRelationalOperator => relops
  | KAddOperator => addops
  | KMulOperator => mulops
  | KError | KStoredDefinition => []
  | _ => full
  end.

Definition start_tab (k : skind) : list tkind :=
  match k with KStoredDefinition => full | _ => pre_tab k end.

Definition check_rule (k : skind) : bool :=
  match tr pre_tab (skind_eqb k KStoredDefinition) (mkA (start_tab k) full [TEOF] false) (body k) with
  | Some (r, _, b) => included 400 (alt2 r b) (production false k)
  | None => false
  end.

Definition check_rules : bool := forallb (fun k => skind_eqb k KError || check_rule k) all_skinds.

(** Soundness. *)
Lemma memk_in k l : memk k l = true <-> In k l.
Proof.
  unfold memk. rewrite existsb_exists. split.
  - intros [x [I E]]. apply tkind_eqb_eq in E. subst; auto.
  - intro I. exists k. split; auto. apply tkind_eqb_refl.
Qed.
Lemma meet_in k l m : In k (meet l m) <-> In k l /\ memk k m = true.
Proof. unfold meet. apply filter_In. Qed.
Lemma minus_in k l m : In k (minus l m) <-> In k l /\ memk k m = false.
Proof. unfold minus. rewrite filter_In, negb_true_iff. reflexivity. Qed.
Lemma join_l_in k l m : In k l \/ In k m -> In k (join_l l m).
Proof.
  unfold join_l. rewrite in_app_iff, minus_in. intros [H|H]; auto.
  destruct (memk k l) eqn:E; auto. apply memk_in in E; auto.
Qed.
Lemma full_in k : In k full.
Proof. apply all_tkinds_complete. Qed.

Lemma lang_alt2 a b w : lang (alt2 a b) w <-> lang a w \/ lang b w.
Proof.
  assert (forall x, lang Void x -> False) as V by (intros x H; inversion H).
  assert (lang (Alt a b) w <-> lang a w \/ lang b w) as G.
  { split; [apply alt_inv|]. intros [H|H]; [apply l_altl|apply l_altr]; auto. }
  destruct a; simpl; try (destruct b; simpl; try exact G; try tauto);
    split; intro H; auto; try (destruct H as [H|H]; auto; inversion H; fail).
  all: try (destruct H as [H|H]; [exact H|inversion H]).
  all: try (destruct H as [H|H]; [inversion H|exact H]).
Qed.

Lemma sat_join_r reg ts s u : sat reg ts u -> sat reg ts (join s u).
Proof.
  intros [A B C D]. split; simpl; try (apply join_l_in; auto).
  intro H. apply andb_true_iff in H as [_ H]. auto.
Qed.
Lemma sat_top reg ts s : In reg (areg s) -> sat reg ts (top s).
Proof. split; simpl; try apply full_in; auto. discriminate. Qed.
Lemma sat_step1 reg x ts s : sat reg (x :: ts) s -> sat reg ts (step1 s).
Proof. intros [A B C D]. split; simpl; auto; try apply full_in. discriminate. Qed.

Definition syms (cs : list child) : list sym := map sym_of cs.
Lemma syms_app a b : syms (a ++ b) = syms a ++ syms b.
Proof. apply map_app. Qed.

Lemma lang_cat2 a b u v : lang a u -> lang b v -> lang (cat a b) (u ++ v).
Proof. intros. apply lang_cat. constructor; auto. Qed.

Lemma cab_sound e reg c : forall s ts b cs r,
  ceval reg c ts = (b, cs, r) -> sat reg ts s -> (e = false -> r <> []) ->
  exists x s', In (b, x, s') (cab e s c) /\ lang x (syms cs) /\ sat reg r s'.
Proof.
  induction c as [m l|l|k| |c IHc|c1 IHc1 c2 IHc2|c1 IHc1 c2 IHc2]; intros s ts b cs r H S E;
    cbn [ceval] in H; cbn [cab].
  - inversion H; subst. destruct m as [|[|m]].
    + destruct (memk (kind_at r 0) l) eqn:M.
      * exists Eps, (with0 (fun q => meet q l) s). split; [left; auto|]. split; [constructor|].
        destruct S as [A B C D]. split; simpl; auto.
        -- apply meet_in; auto.
        -- destruct (alive s); auto. apply meet_in. split; auto. rewrite D; auto.
      * exists Eps, (with0 (fun q => minus q l) s). split; [right; left; auto|]. split; [constructor|].
        destruct S as [A B C D]. split; simpl; auto.
        -- apply minus_in; auto.
        -- destruct (alive s); auto. apply minus_in. split; auto. rewrite D; auto.
    + destruct (memk (kind_at r 1) l) eqn:M.
      * exists Eps, (with1 (fun q => meet q l) s). split; [left; auto|]. split; [constructor|].
        destruct S as [A B C D]. split; simpl; auto. apply meet_in; auto.
      * exists Eps, (with1 (fun q => minus q l) s). split; [right; left; auto|]. split; [constructor|].
        destruct S as [A B C D]. split; simpl; auto. apply minus_in; auto.
    + exists Eps, s. split; [|split; [constructor|auto]].
      destruct (memk (kind_at r (Datatypes.S (Datatypes.S m))) l); [left|right; left]; auto.
  - inversion H; subst. destruct (memk reg l) eqn:M.
    + exists Eps, (withr (fun q => meet q l) s). split; [left; auto|]. split; [constructor|].
      destruct S as [A B C D]. split; simpl; auto.
      * destruct (alive s); auto. apply meet_in. split; auto. rewrite <- D; auto.
      * apply meet_in; auto.
    + exists Eps, (withr (fun q => minus q l) s). split; [right; left; auto|]. split; [constructor|].
      destruct S as [A B C D]. split; simpl; auto.
      * destruct (alive s); auto. apply minus_in. split; auto. rewrite <- D; auto.
      * apply minus_in; auto.
  - assert (forall ts, sat reg ts s -> kind_at ts 0 <> k ->
      sat reg ts (with0 (fun q => minus q [k]) s)) as N.
    { intros q [A B C D] NE. split; simpl; auto.
      - apply minus_in. split; auto. destruct (memk (kind_at q 0) [k]) eqn:M; auto.
        apply memk_in in M as [M|[]]. congruence.
      - destruct (alive s); auto. apply minus_in. split; auto. rewrite D by auto.
        destruct (memk (kind_at q 0) [k]) eqn:M; auto.
        apply memk_in in M as [M|[]]. congruence. }
    destruct ts as [|x ts].
    + inversion H; subst. destruct (tkind_eqb TEOF k) eqn:M.
      * exists Eps, s. split; [right; left; auto|]. split; [constructor|auto].
      * exists Eps, (with0 (fun q => minus q [k]) s). split; [right; left; auto|].
        split; [constructor|]. apply N; auto. intro Z. change (TEOF = k) in Z.
        subst. rewrite tkind_eqb_refl in M. discriminate.
    + destruct (tkind_eqb (tkind_of x) k) eqn:M; inversion H; subst.
      * apply tkind_eqb_eq in M. eexists. eexists. split; [left; reflexivity|].
        assert (memk k (a0 s) = true) as ->.
        { apply memk_in. rewrite <- M. apply (sat0 _ _ _ S). }
        split.
        -- simpl. rewrite M. constructor.
        -- eapply sat_step1; eauto.
      * destruct (tkind_eqb TEOF k).
        { exists Eps, s. split; [right; left; auto|]. split; [constructor|auto]. }
        exists Eps, (with0 (fun q => minus q [k]) s). split; [right; left; auto|].
        split; [constructor|]. apply N; auto. intro Z. change (tkind_of x = k) in Z.
        subst. rewrite tkind_eqb_refl in M. discriminate.
  - inversion H; subst. destruct e.
    + exists Eps, s. split; [|split; [constructor|auto]]. destruct r; simpl; auto.
    + destruct r as [|x r]; [exfalso; apply E; auto|]. exists Eps, s. simpl.
      split; auto. split; auto. constructor.
  - destruct (ceval reg c ts) as [[x l] r1] eqn:F. inversion H; subst.
    destruct (IHc _ _ _ _ _ F S E) as (y & s' & I & L & S').
    exists y, s'. split; auto. apply in_map_iff. exists (x, y, s'). auto.
  - destruct (ceval reg c1 ts) as [[x l] r1] eqn:F. destruct x.
    + destruct (ceval reg c2 r1) as [[y l2] r2] eqn:F2. inversion H; subst.
      assert (e = false -> r1 <> []) as E1.
      { intros Z Q. apply ceval_yield in F2. rewrite Q in F2. symmetry in F2.
        apply app_eq_nil in F2 as [_ F2]. exact (E Z F2). }
      destruct (IHc1 _ _ _ _ _ F S E1) as (x1 & s1 & I1 & L1 & S1).
      destruct (IHc2 _ _ _ _ _ F2 S1 E) as (x2 & s2 & I2 & L2 & S2).
      exists (cat x1 x2), s2. split; [|split; auto; rewrite syms_app; apply lang_cat2; auto].
      apply in_flat_map. exists (true, x1, s1). split; auto.
      apply in_map_iff. exists (b, x2, s2). auto.
    + inversion H; subst. destruct (IHc1 _ _ _ _ _ F S E) as (x1 & s1 & I1 & L1 & S1).
      exists x1, s1. split; auto. apply in_flat_map. exists (false, x1, s1). split; auto.
      left; auto.
  - destruct (ceval reg c1 ts) as [[x l] r1] eqn:F. destruct x.
    + inversion H; subst. destruct (IHc1 _ _ _ _ _ F S E) as (x1 & s1 & I1 & L1 & S1).
      exists x1, s1. split; auto. apply in_flat_map. exists (true, x1, s1). split; auto.
      left; auto.
    + destruct (ceval reg c2 r1) as [[y l2] r2] eqn:F2. inversion H; subst.
      assert (e = false -> r1 <> []) as E1.
      { intros Z Q. apply ceval_yield in F2. rewrite Q in F2. symmetry in F2.
        apply app_eq_nil in F2 as [_ F2]. exact (E Z F2). }
      destruct (IHc1 _ _ _ _ _ F S E1) as (x1 & s1 & I1 & L1 & S1).
      destruct (IHc2 _ _ _ _ _ F2 S1 E) as (x2 & s2 & I2 & L2 & S2).
      exists (cat x1 x2), s2. split; [|split; auto; rewrite syms_app; apply lang_cat2; auto].
      apply in_flat_map. exists (false, x1, s1). split; auto.
      apply in_map_iff. exists (b, x2, s2). auto.
Qed.

(** Folding over outcomes. *)
Lemma fold_out {X} (f : X -> option (rx * abs * rx)) (g : X -> rx) (keep : X -> bool) outs
    r s b o :
  fold_right (fun o acc => if keep o then add_out (f o) (g o) acc else acc)
    (Some (Void, mkA [] [] [] true, Void)) outs = Some (r, s, b) ->
  In o outs -> keep o = true ->
  exists r1 s1 b1, f o = Some (r1, s1, b1) /\
    (forall w, lang (cat (g o) r1) w -> lang r w) /\
    (forall reg ts, sat reg ts s1 -> sat reg ts s) /\
    (forall w, lang (cat (g o) b1) w -> lang b w).
Proof.
  revert r s b. induction outs as [|o' outs IH]; intros r s b H I K; [destruct I|].
  cbn [fold_right] in H.
  destruct (fold_right (fun o acc => if keep o then add_out (f o) (g o) acc else acc)
    (Some (Void, mkA [] [] [] true, Void)) outs) as [[[r2 s2] b2]|] eqn:F.
  - destruct I as [->|I].
    + rewrite K in H. unfold add_out in H. destruct (f o) as [[[r1 s1] b1]|]; [|discriminate].
      inversion H; subst. exists r1, s1, b1. split; auto.
      repeat split; try (intros; apply lang_alt2; auto); destruct H0; try (apply join_l_in; auto).
      simpl. intro Z; apply andb_true_iff in Z as [Z _]; auto.
    + destruct (IH _ _ _ eq_refl I K) as (r1 & s1 & b1 & E & A & B & C).
      exists r1, s1, b1. split; auto. destruct (keep o').
      * unfold add_out in H. destruct (f o') as [[[r3 s3] b3]|]; [|discriminate].
        inversion H; subst. split; [|split].
        -- intros. apply lang_alt2; auto.
        -- intros. apply sat_join_r; auto.
        -- intros. apply lang_alt2; auto.
      * inversion H; subst. auto.
  - exfalso. destruct (keep o'); [|discriminate].
    unfold add_out in H. destruct (f o') as [[[r3 s3] b3]|]; discriminate.
Qed.

Lemma fold_exit outs y s' :
  In (false, y, s') outs ->
  forall w, lang y w ->
  lang (fold_right (fun (o : bool * rx * abs) acc => match o with (x, y, _) =>
          if x : bool then acc else alt2 y acc end) Void outs) w.
Proof.
  induction outs as [|[[x1 y1] s1] outs IH]; intros I w L; [destruct I|].
  cbn [fold_right]. destruct I as [I|I].
  - inversion I; subst. apply lang_alt2; auto.
  - destruct x1; auto. apply lang_alt2. auto.
Qed.

Lemma okr_nb body reg p ts g cs r : okr body reg p ts g cs r -> no_break p = true -> g = Normal.
Proof.
  induction 1; simpl; intro N; auto; try discriminate.
  - apply andb_true_iff in N as [N1 N2]; auto.
  - apply andb_true_iff in N as [N1 N2]. specialize (IHokr N1). discriminate.
  - apply andb_true_iff in N as [N1 N2]. destruct x; auto.
Qed.

Lemma starts_adv_ok body reg p ts g cs r :
  okr body reg p ts g cs r -> starts_adv p = true -> ts <> [].
Proof.
  intros H S. inversion H; subst; simpl in S; try discriminate.
  - destruct a; try discriminate; inversion H0; subst; discriminate.
  - destruct a; try discriminate; inversion H0; subst; discriminate.
Qed.

Section TrSound.
Variable body : skind -> stmt.
Variable pre : skind -> list tkind.
Variable prod : skind -> rx.
(** Bodies called with a token of [pre] stay inside their productions. *)
Hypothesis Hbody : forall k, pre k <> [] -> exists r s b,
  tr pre false (mkA (pre k) full [TEOF] false) (body k) = Some (r, s, b) /\
  (forall w, lang r w \/ lang b w -> lang (prod k) w).

Inductive conf : child -> Prop :=
| conf_tok x : conf (CTok x)
| conf_tree k cs : lang (prod k) (syms cs) -> Forall conf cs -> conf (CTree k cs).

Lemma ceval_conf reg c ts b cs r : ceval reg c ts = (b, cs, r) -> Forall conf cs.
Proof.
  revert ts b cs r; induction c as [n l|l|t| |c IHc|c1 IHc1 c2 IHc2|c1 IHc1 c2 IHc2];
    intros ts b0 cs r H; simpl in H; try (inversion H; subst; constructor).
  - destruct ts as [|x l]; [inversion H; constructor|].
    destruct (tkind_eqb (tkind_of x) t); inversion H; repeat constructor.
  - destruct (ceval reg c ts) as [[x l] r1] eqn:E. inversion H; subst; eauto.
  - destruct (ceval reg c1 ts) as [[x l] r1] eqn:E. apply IHc1 in E. destruct x.
    + destruct (ceval reg c2 r1) as [[y l2] r2] eqn:E2. apply IHc2 in E2.
      inversion H; subst. apply Forall_app; auto.
    + inversion H; subst. auto.
  - destruct (ceval reg c1 ts) as [[x l] r1] eqn:E. apply IHc1 in E. destruct x.
    + inversion H; subst. auto.
    + destruct (ceval reg c2 r1) as [[y l2] r2] eqn:E2. apply IHc2 in E2.
      inversion H; subst. apply Forall_app; auto.
Qed.

Lemma nonempty_back body' reg p ts g cs r :
  okr body' reg p ts g cs r -> r <> [] -> ts <> [].
Proof.
  intros H N Z. apply okr_yield in H. rewrite Z in H. symmetry in H.
  apply app_eq_nil in H as [_ H]. auto.
Qed.

Lemma subset_in l m k : subset l m = true -> In k l -> In k m.
Proof. unfold subset. rewrite forallb_forall. intros H I. apply memk_in. auto. Qed.

Lemma lang_alt_in l k : In k l -> lang (alt (map (fun k => Sy (Term k)) l)) [Term k].
Proof.
  induction l as [|k' l IH]; intro I; [destruct I|]. destruct l as [|k2 l].
  - destruct I as [->|[]]. constructor.
  - cbn [map alt] in *. destruct I as [->|I]; [apply l_altl; constructor|apply l_altr; auto].
Qed.

Lemma some3 {A B C : Type} (a a' : A) (b b' : B) (c c' : C) :
  Some (a, b, c) = Some (a', b', c') -> a = a' /\ b = b' /\ c = c'.
Proof. intro H; inversion H; auto. Qed.

Lemma tr_sound reg p ts g cs r :
  okr body reg p ts g cs r ->
  forall e s rn s' rb, tr pre e s p = Some (rn, s', rb) -> sat reg ts s ->
  (e = false -> r <> []) ->
  (g = Normal -> lang rn (syms cs) /\ sat reg r s') /\
  (g = Broke -> lang rb (syms cs)) /\ Forall conf cs.
Proof.
  induction 1; intros e s rn s' rb T S E; cbn [tr] in T.
  - inversion T; subst. split; [|split; [discriminate|constructor]]. split; auto. constructor.
  - destruct (tr pre (e && negb (starts_adv b && no_break a)) s a) as [[[ra s1] ba]|] eqn:Ta;
      [|discriminate].
    destruct (tr pre e s1 b) as [[[rb' s2] bb]|] eqn:Tb; [|discriminate].
    apply some3 in T as (<- & <- & <-).
    destruct (IHokr1 _ _ _ _ _ Ta S) as (A1 & A2 & A3).
    { intro Z. apply andb_false_iff in Z as [Z|Z].
      - apply (nonempty_back _ _ _ _ _ _ _ H0). auto.
      - apply negb_false_iff, andb_true_iff in Z as [Z _]. eapply starts_adv_ok; eauto. }
    destruct (A1 eq_refl) as [L1 S1].
    destruct (IHokr2 _ _ _ _ _ Tb S1 E) as (B1 & B2 & B3).
    rewrite syms_app. split; [|split].
    + intro Z. destruct (B1 Z) as [L2 S2]. split; auto. apply lang_cat2; auto.
    + intro Z. apply lang_alt2. right. apply lang_cat2; auto.
    + apply Forall_app; auto.
  - destruct (tr pre (e && negb (starts_adv b && no_break a)) s a) as [[[ra s1] ba]|] eqn:Ta;
      [|discriminate].
    destruct (tr pre e s1 b) as [[[rb' s2] bb]|] eqn:Tb; [|discriminate].
    apply some3 in T as (<- & <- & <-).
    destruct (IHokr _ _ _ _ _ Ta S) as (A1 & A2 & A3).
    { intro Z. apply andb_false_iff in Z as [Z|Z]; auto.
      apply negb_false_iff, andb_true_iff in Z as [_ Z].
      apply (okr_nb _ _ _ _ _ _ _ H) in Z. discriminate. }
    split; [discriminate|]. split; auto. intros _. apply lang_alt2. auto.
  - destruct (cab_sound e reg c s ts b cs r H S E) as (x & s1 & I & L & S1).
    assert (fold_right (fun o acc => if (fun _ => true) o then
        add_out ((fun o : bool * rx * abs => Some (Eps, snd o, Void)) o) (snd (fst o)) acc else acc)
      (Some (Void, mkA [] [] [] true, Void)) (cab e s c) = Some (rn, s', rb)) as T'.
    { rewrite <- T. clear. induction (cab e s c) as [|[[? ?] ?] l IH]; simpl; auto.
      simpl in IH. rewrite IH. reflexivity. }
    destruct (fold_out (fun o : bool * rx * abs => Some (Eps, snd o, Void)) (fun o => snd (fst o)) (fun _ => true)
      _ _ _ _ _ T' I eq_refl) as (r1 & s2 & b1 & F & A & B & C).
    simpl in F. inversion F; subst.
    split; [|split; [discriminate|eapply ceval_conf; eauto]]. intros _. split; auto.
    apply A. simpl. rewrite <- (app_nil_r (syms cs)). apply lang_cat2; auto. constructor.
  - inversion T; subst. split; [|split; [discriminate|repeat constructor]]. intros _.
    split; [constructor|]. eapply sat_step1; eauto.
  - inversion T; subst. split; [|split; [discriminate|repeat constructor]]. intros _.
    split; [|eapply sat_step1; eauto]. apply lang_alt_in. apply (sat0 _ _ _ S).
  - destruct e; [discriminate|]. destruct (subset (a0 s) (pre k)) eqn:Su; [|discriminate].
    inversion T; subst. pose proof (subset_in _ _ _ Su (sat0 _ _ _ S)) as IP.
    destruct (Hbody k) as (rr & ss & bb & Tb & Lb).
    { intro Z. rewrite Z in IP. destruct IP. }
    destruct (IHokr _ _ _ _ _ Tb) as (A1 & A2 & A3).
    { split; simpl; auto. apply full_in. discriminate. }
    { exact E. }
    split; [|split; [discriminate|]].
    + intros _. split; [constructor|]. apply sat_top. apply (satr _ _ _ S).
    + constructor; [|constructor]. constructor; auto. apply Lb.
      destruct g; [left; apply A1|right; apply A2]; auto.
  - assert (fold_right (fun o acc => if (fun _ => true) o then
        add_out ((fun o : bool * rx * abs => tr pre e (snd o) (if fst (fst o) then a else b)) o)
          (snd (fst o)) acc else acc)
      (Some (Void, mkA [] [] [] true, Void)) (cab e s c) = Some (rn, s', rb)) as T'.
    { rewrite <- T. clear. induction (cab e s c) as [|[[? ?] ?] l IH]; simpl; auto.
      simpl in IH. rewrite IH. reflexivity. }
    destruct (cab_sound e reg c s ts x c1 t1 H S) as (y & s1 & I & L & S1).
    { intro Z. apply (nonempty_back _ _ _ _ _ _ _ H0). auto. }
    destruct (fold_out (fun o : bool * rx * abs => tr pre e (snd o) (if fst (fst o) then a else b)) (fun o => snd (fst o)) (fun _ => true)
      _ _ _ _ _ T' I eq_refl) as (r1 & s2 & b1 & F & A & B & C).
    cbn [fst snd] in F, A, C.
    destruct (IHokr _ _ _ _ _ F S1 E) as (A1 & A2 & A3).
    rewrite syms_app. split; [|split].
    + intro Z. destruct (A1 Z) as [L2 S2]. split; auto. apply A. apply lang_cat2; auto.
    + intro Z. apply C. apply lang_cat2; auto.
    + apply Forall_app. split; auto. eapply ceval_conf; eauto.
  - cbv zeta in T.
    destruct (fold_right _ _ (cab e (top s) c)) as [[[r1 s1] b1]|] eqn:F in T; [|discriminate].
    apply some3 in T as (<- & <- & <-).
    destruct (cab_sound e reg c (top s) ts false c1 t1 H) as (y & s2 & I & L & S1); auto.
    { apply sat_top, (satr _ _ _ S). }
    split; [|split; [discriminate|eapply ceval_conf; eauto]]. intros _.
    split; [|apply sat_top, (satr _ _ _ S)].
    change (syms c1) with ([] ++ syms c1). apply lang_cat2; [constructor|].
    apply lang_alt2. left. eapply fold_exit; eauto.
  - cbv zeta in T.
    destruct (fold_right _ _ (cab e (top s) c)) as [[[r1 s1] b1]|] eqn:F in T; [|discriminate].
    apply some3 in T as (<- & <- & <-).
    assert (fold_right (fun o acc => if (fun o : bool * rx * abs => fst (fst o)) o then
        add_out ((fun o : bool * rx * abs => tr pre e (snd o) a) o)
          (snd (fst o)) acc else acc)
      (Some (Void, mkA [] [] [] true, Void)) (cab e (top s) c) = Some (r1, s1, b1)) as T'.
    { rewrite <- F. clear. induction (cab e (top s) c) as [|[[? ?] ?] l IH]; simpl; auto.
      simpl in IH. rewrite IH. reflexivity. }
    destruct (cab_sound e reg c (top s) ts true c1 t1 H) as (y & s2 & I & L & S1).
    { apply sat_top, (satr _ _ _ S). }
    { intro Z. apply (nonempty_back _ _ _ _ _ _ _ H0). auto. }
    destruct (fold_out (fun o : bool * rx * abs => tr pre e (snd o) a) (fun o => snd (fst o)) (fun o => fst (fst o))
      _ _ _ _ _ T' I eq_refl) as (r2 & s3 & b2 & G & A & B & C).
    cbn [fst snd] in G, A, C.
    destruct (IHokr _ _ _ _ _ G S1 E) as (A1 & A2 & A3).
    rewrite syms_app. split; [|split; [discriminate|]].
    + intros _. split; [|apply sat_top, (satr _ _ _ S)].
      change (syms c1 ++ syms c2) with ([] ++ (syms c1 ++ syms c2)).
      apply lang_cat2; [constructor|]. apply lang_alt2. right. apply C. apply lang_cat2; auto.
    + apply Forall_app. split; auto. eapply ceval_conf; eauto.
  - pose proof T as T0. cbv zeta in T.
    destruct (fold_right _ _ (cab e (top s) c)) as [[[r1 s1] b1]|] eqn:F in T; [|discriminate].
    apply some3 in T as (<- & <- & <-).
    assert (fold_right (fun o acc => if (fun o : bool * rx * abs => fst (fst o)) o then
        add_out ((fun o : bool * rx * abs => tr pre e (snd o) a) o)
          (snd (fst o)) acc else acc)
      (Some (Void, mkA [] [] [] true, Void)) (cab e (top s) c) = Some (r1, s1, b1)) as T'.
    { rewrite <- F. clear. induction (cab e (top s) c) as [|[[? ?] ?] l IH]; simpl; auto.
      simpl in IH. rewrite IH. reflexivity. }
    assert (e = false -> t2 <> []) as E2.
    { intro Z. apply (nonempty_back _ _ _ _ _ _ _ H1). auto. }
    destruct (cab_sound e reg c (top s) ts true c1 t1 H) as (y & s2 & I & L & S1).
    { apply sat_top, (satr _ _ _ S). }
    { intro Z. apply (nonempty_back _ _ _ _ _ _ _ H0). auto. }
    destruct (fold_out (fun o : bool * rx * abs => tr pre e (snd o) a) (fun o => snd (fst o)) (fun o => fst (fst o))
      _ _ _ _ _ T' I eq_refl) as (r2 & s3 & b2 & G & A & B & C).
    cbn [fst snd] in G, A, C.
    destruct (IHokr1 _ _ _ _ _ G S1 E2) as (A1 & _ & A3).
    destruct (A1 eq_refl) as [L2 S2].
    assert (sat reg t2 (top s)) as St by (apply sat_top, (satr _ _ _ S)).
    assert (tr pre e (top s) (SWhile c a) = Some (cat (Star r1)
       (alt2 (fold_right (fun (o : bool * rx * abs) acc => match o with (x, y, _) =>
          if x : bool then acc else alt2 y acc end) Void (cab e (top s) c)) b1), top s, Void)) as T2.
    { cbn [tr]. cbv zeta. change (top (top s)) with (top s). rewrite F. reflexivity. }
    destruct (IHokr2 _ _ _ _ _ T2 St E) as (B1 & _ & B3).
    destruct (B1 eq_refl) as [L3 S3].
    split; [|split; [discriminate|]].
    + intros _. split; auto. rewrite !syms_app.
      apply lang_cat in L3. apply cat_inv in L3 as (u & v & EQ & Lu & Lv). rewrite EQ.
      apply lang_cat. rewrite !app_assoc. constructor; auto.
      constructor; auto. apply A. apply lang_cat2; auto.
    + apply Forall_app. split; [eapply ceval_conf; eauto|]. apply Forall_app; auto.
  - match type of T with context [tr pre e ?s1 a] =>
      destruct (tr pre e s1 a) as [[[r1 s2] b1]|] eqn:Ta; [|discriminate];
      assert (sat (kind_at ts n) ts s1) as S1 end.
    { destruct S as [A B C D]. destruct n as [|[|n]]; split; simpl; auto; try apply full_in;
        discriminate. }
    inversion T; subst. destruct (IHokr _ _ _ _ _ Ta S1 E) as (A1 & A2 & A3).
    split; [|split]; auto. intro Z. destruct (A1 Z) as [L1 [SA SB SC SD]]. split; auto.
    split; simpl; auto. apply (satr _ _ _ S). discriminate.
  - inversion T; subst. split; [discriminate|]. split; [|constructor]. intros _. constructor.
Qed.
End TrSound.


Lemma check_rules_ok : check_rules = true.
Proof. vm_compute. reflexivity. Qed.

Lemma check_rules_all : check_rules = true ->
  forall k, skind_eqb k KError = true \/ check_rule k = true.
Proof.
  unfold check_rules. rewrite forallb_forall. intros H k.
  apply orb_true_iff. exact (H k (all_skinds_complete k)).
Qed.

Lemma rule_ok k : k <> KError -> exists r s b,
  tr pre_tab (skind_eqb k KStoredDefinition) (mkA (start_tab k) full [TEOF] false) (body k)
    = Some (r, s, b) /\
  (forall w, lang r w \/ lang b w -> lang (production false k) w).
Proof.
  intro NE. destruct (check_rules_all check_rules_ok k) as [H|H]; [apply skind_eqb_eq in H; contradiction|].
  unfold check_rule in H.
  destruct (tr pre_tab _ _ (body k)) as [[[r s] b]|]; [|discriminate].
  exists r, s, b. split; auto. intros w L. eapply included_sound; eauto. apply lang_alt2; auto.
Qed.

Definition prod_of (k : skind) : rx := production false k.

Lemma body_ok k : pre_tab k <> [] -> exists r s b,
  tr pre_tab false (mkA (pre_tab k) full [TEOF] false) (body k) = Some (r, s, b) /\
  (forall w, lang r w \/ lang b w -> lang (prod_of k) w).
Proof.
  intros N2. assert (k <> KStoredDefinition) as N1 by (intro Z; subst; contradiction).
  destruct (rule_ok k) as (r & s & b & H & L).
  { intro Z; subst; contradiction. }
  exists r, s, b. split; auto.
  destruct (skind_eqb k KStoredDefinition) eqn:E; [apply skind_eqb_eq in E; contradiction|].
  destruct k; try exact H. contradiction.
Qed.
