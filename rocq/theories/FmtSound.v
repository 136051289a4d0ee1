(** Soundness of the abstract interpretation: plans of fitting trees exist, push every
    token once and in order, never go below their indentation, break before the token that
    follows, and put between two tokens only what the tables allow. *)
From Verif Require Import ProofBase Tokens Syntax Lexer ParserCore Tree Printer Formatter ParserSem
  ParserFuel SpecGrammar Regex ParserGrammar ParserTree FmtAbs FmtPlan FmtShape FmtTables.

(** Decorated tokens of a plan and of a tree. *)
Fixpoint ptoks (os : list op) : list (skind * token) :=
  match os with
  | [] => []
  | PTok fn t :: os' => (fn, t) :: ptoks os'
  | _ :: os' => ptoks os'
  end.
Fixpoint dleaves (p : skind) (c : child) : list (skind * token) :=
  match c with
  | CTok t => [(p, t)]
  | CTree k cs => flat_map (dleaves k) cs
  end.

Lemma ptoks_app a b : ptoks (a ++ b) = ptoks a ++ ptoks b.
Proof. induction a as [|[]]; simpl; auto. f_equal; auto. Qed.
Lemma dleaves_leaves c : forall p, map snd (dleaves p c) = leaves c.
Proof.
  induction c as [x|k cs IH] using child_ind2; intro p; auto. simpl.
  induction IH as [|c cs H _ IH]; auto. cbn [flat_map]. rewrite map_app, H, IH. reflexivity.
Qed.

(** Breaks belong to the next token; [o] is the next token after the plan. *)
Definition first_tok (os : list op) : option token :=
  match ptoks os with [] => None | (_, t) :: _ => Some t end.
Fixpoint aimed (o : option token) (os : list op) : Prop :=
  match os with
  | [] => True
  | PBrk t _ :: os' =>
      match first_tok os' with Some x => Some x | None => o end = Some t /\ aimed o os'
  | _ :: os' => aimed o os'
  end.

Lemma first_tok_app a b :
  first_tok (a ++ b) = match first_tok a with Some x => Some x | None => first_tok b end.
Proof. unfold first_tok. rewrite ptoks_app. destruct (ptoks a) as [|[]]; reflexivity. Qed.
Lemma aimed_app a b o :
  aimed (match first_tok b with Some x => Some x | None => o end) a -> aimed o b -> aimed o (a ++ b).
Proof.
  induction a as [|x a IH]; intros A B; auto. destruct x; cbn [app aimed] in *; auto.
  destruct A as [A1 A2]. split; auto. rewrite first_tok_app.
  destruct (first_tok a); auto.
Qed.
Lemma aimed_marks o ms : aimed o (map PMark ms).
Proof. induction ms; simpl; auto. Qed.
Lemma ptoks_marks ms : ptoks (map PMark ms) = [].
Proof. induction ms; simpl; auto. Qed.

(** Indentation. *)
Fixpoint ind (n : nat) (os : list op) : option nat :=
  match os with
  | [] => Some n
  | PMark MIndent :: os' => ind (S n) os'
  | PMark MDedent :: os' => match n with O => None | S n' => ind n' os' end
  | _ :: os' => ind n os'
  end.
Lemma ind_app a : forall n b,
  ind n (a ++ b) = match ind n a with Some n' => ind n' b | None => None end.
Proof.
  induction a as [|o a IH]; intros n b; auto.
  destruct o as [| |[]]; simpl; auto. destruct n; auto.
Qed.
Lemma ind_marks ms : forall n d d', marks_ind ms d = Some d' ->
  exists n', ind (n + d) (map PMark ms) = Some n' /\ n' = (n + d')%nat.
Proof.
  induction ms as [|m ms IH]; intros n d d' H; simpl in H.
  - inversion H; subst. exists (n + d')%nat. auto.
  - destruct m; try discriminate; simpl.
    + rewrite <- Nat.add_succ_r. auto.
    + destruct d; [discriminate|]. rewrite Nat.add_succ_r. auto.
Qed.

(** White space between tokens. *)
Definition mst := (option dk * gap)%type.
Fixpoint runs (A : option dk -> gap -> dk -> Prop) (st : mst) (os : list op) : Prop :=
  match os with
  | [] => True
  | PTok fn t :: os' =>
      A (fst st) (snd st) (fn, tkind_of t) /\ runs A (Some (fn, tkind_of t), []) os'
  | PBrk _ b :: os' => runs A (fst st, snd st ++ [GB b]) os'
  | PMark MSpace :: os' => runs A (fst st, snd st ++ [GS]) os'
  | PMark MIndent :: os' | PMark MDedent :: os' => runs A st os'
  | PMark _ :: _ => False
  end.
Fixpoint after (st : mst) (os : list op) : mst :=
  match os with
  | [] => st
  | PTok fn t :: os' => after (Some (fn, tkind_of t), []) os'
  | PBrk _ b :: os' => after (fst st, snd st ++ [GB b]) os'
  | PMark MSpace :: os' => after (fst st, snd st ++ [GS]) os'
  | PMark _ :: os' => after st os'
  end.
Lemma runs_app A a : forall st b, runs A st (a ++ b) <-> runs A st a /\ runs A (after st a) b.
Proof.
  induction a as [|o a IH]; intros st b; simpl; [tauto|].
  destruct o as [fn t|t bl|[]]; simpl; rewrite ?IH; tauto.
Qed.
Lemma after_app a : forall st b, after st (a ++ b) = after (after st a) b.
Proof.
  induction a as [|o a IH]; intros st b; simpl; auto.
  destruct o as [fn t|t bl|[]]; simpl; auto.
Qed.
Definition quiet (ms : list marker) : bool :=
  forallb (fun m => match m with MIndent | MDedent => true | _ => false end) ms.
Lemma quiet_runs A ms st : quiet ms = true -> runs A st (map PMark ms) /\ after st (map PMark ms) = st.
Proof. induction ms as [|[] ms IH]; simpl; intro H; try discriminate; auto. Qed.
Lemma marks_ind_quiet ms : forall n n', marks_ind ms n = Some n' -> quiet ms = true.
Proof. induction ms as [|[] ms IH]; simpl; intros n n' H; try discriminate; eauto. destruct n; [discriminate|eauto]. Qed.

(** Deciders. *)
Lemma blank_eqb_eq a b : blank_eqb a b = true -> a = b.
Proof. destruct a, b; simpl; congruence. Qed.
Lemma gap_eqb_eq a : forall b, gap_eqb a b = true -> a = b.
Proof.
  induction a as [|x a IH]; destruct b as [|y b]; simpl; intro H; try discriminate; auto.
  apply andb_true_iff in H as [H1 H2]. f_equal; auto.
  destruct x, y; simpl in H1; try discriminate; auto. apply blank_eqb_eq in H1. congruence.
Qed.
Lemma dk_eqb_eq a b : dk_eqb a b = true -> a = b.
Proof.
  destruct a, b. unfold dk_eqb. simpl. intro H. apply andb_true_iff in H as [H1 H2].
  apply skind_eqb_eq in H1. apply tkind_eqb_eq in H2. congruence.
Qed.
Lemma src_eqb_eq a b : src_eqb a b = true -> a = b.
Proof.
  destruct a, b; simpl; intro H; try discriminate; auto; f_equal.
  - apply dk_eqb_eq; auto.
  - apply skind_eqb_eq; auto.
Qed.
Lemma dst_eqb_eq a b : dst_eqb a b = true -> a = b.
Proof.
  destruct a, b; simpl; intro H; try discriminate; auto; f_equal.
  - apply dk_eqb_eq; auto.
  - apply skind_eqb_eq; auto.
Qed.
Lemma locals_eqb_eq a b : locals_eqb a b = true -> a = b.
Proof.
  destruct a, b. unfold locals_eqb. simpl. intro H.
  repeat (apply andb_true_iff in H as [H ?]).
  repeat match goal with
  | K : Bool.eqb _ _ = true |- _ => apply Bool.eqb_prop in K
  | K : skind_eqb _ _ = true |- _ => apply skind_eqb_eq in K
  end. congruence.
Qed.
Lemma astate_eqb_eq a b : astate_eqb a b = true -> a = b.
Proof.
  destruct a, b. unfold astate_eqb. simpl. intro H.
  repeat (apply andb_true_iff in H as [H ?]).
  repeat match goal with
  | K : sym_eqb _ _ = true |- _ => apply sym_eqb_eq in K
  | K : N.eqb _ _ = true |- _ => apply N.eqb_eq in K
  | K : Nat.eqb _ _ = true |- _ => apply Nat.eqb_eq in K
  | K : src_eqb _ _ = true |- _ => apply src_eqb_eq in K
  | K : gap_eqb _ _ = true |- _ => apply gap_eqb_eq in K
  | K : locals_eqb _ _ = true |- _ => apply locals_eqb_eq in K
  | K : rx_eqb _ _ = true |- _ => apply rx_eqb_eq in K
  end. congruence.
Qed.
Lemma mem_st_in s l : mem_st s l = true -> In s l.
Proof.
  intro H. apply existsb_exists in H as [y [I E]]. apply astate_eqb_eq in E. subst; auto.
Qed.
Lemma existsb_in {A} (eqb : A -> A -> bool) (E : forall a b, eqb a b = true -> a = b) x l :
  existsb (eqb x) l = true -> In x l.
Proof. intro H. apply existsb_exists in H as [y [I Y]]. apply E in Y. subst; auto. Qed.
Lemma head_eqb_eq a b : head_eqb a b = true -> a = b.
Proof.
  destruct a, b. unfold head_eqb. simpl. intro H. apply andb_true_iff in H as [H1 H2].
  apply gap_eqb_eq in H1. apply dk_eqb_eq in H2. congruence.
Qed.
Lemma tail_eqb_eq a b : tail_eqb a b = true -> a = b.
Proof.
  destruct a, b. unfold tail_eqb. simpl. intro H. apply andb_true_iff in H as [H1 H2].
  apply gap_eqb_eq in H1. apply dk_eqb_eq in H2. congruence.
Qed.
Lemma site_eqb_eq a b : site_eqb a b = true -> a = b.
Proof.
  destruct a as [[s g] d], b as [[s' g'] d']. unfold site_eqb. intro H.
  apply andb_true_iff in H as [H H3]. apply andb_true_iff in H as [H1 H2].
  apply src_eqb_eq in H1. apply gap_eqb_eq in H2. apply dst_eqb_eq in H3. congruence.
Qed.
Lemma dedup_in {A} (eqb : A -> A -> bool) (E : forall a b, eqb a b = true -> a = b) x l :
  In x (dedup eqb l) <-> In x l.
Proof.
  revert x. induction l as [|a l IH]; intro x; simpl; [tauto|].
  destruct (existsb (eqb a) (dedup eqb l)) eqn:K; simpl; rewrite IH; [|tauto].
  apply (existsb_in _ E) in K. apply IH in K. split; [tauto|]. intros [<-|]; auto.
Qed.
Lemma args_eqb_eq a b : args_eqb a b = true -> a = b.
Proof.
  destruct a as [[a1 a2] a3], b as [[b1 b2] b3]. simpl. intro H.
  apply andb_true_iff in H as [H H3]. apply andb_true_iff in H as [H1 H2].
  apply Bool.eqb_prop in H1, H2, H3. congruence.
Qed.

(** The loop bodies only look at what [trans] tries out. *)
Lemma cls_test k x :
  memk x [TSemicolon; TComma; TExternal; TEquation; TAlgorithm; TAssign; TEnd; TLParen] = true ->
  tkind_eqb (cls k) x = tkind_eqb k x.
Proof.
  intro H. unfold cls.
  destruct (memk k [TSemicolon; TComma; TExternal; TEquation; TAlgorithm; TAssign; TEnd; TLParen]) eqn:E; auto.
  destruct (tkind_eqb k x) eqn:K.
  - apply tkind_eqb_eq in K. subst. rewrite H in E. discriminate.
  - destruct (tkind_eqb TEOF x) eqn:Z; auto. apply tkind_eqb_eq in Z. subst. discriminate.
Qed.

Definition norm_flags (fn : skind) (nl mlif desc ip : bool) : bool * bool * bool * bool :=
  (if uses_nl fn then nl else false, if uses_mlif fn then mlif else false,
   if skind_eqb fn KShortClassSpecifier then desc else false,
   if skind_eqb fn KStoredDefinition then ip else false).
Lemma norm_in fn nl mlif desc ip : In (norm_flags fn nl mlif desc ip) (flags fn).
Proof.
  destruct fn; vm_compute; auto; try (destruct nl; auto); try (destruct mlif; auto);
    try (destruct desc; auto); try (destruct ip; auto).
Qed.
Lemma step_norm_at fn l ch pk pv i nl mlif desc ip :
  step fn l (mkV ch pk pv i nl mlif desc false ip) =
  (let '(nl', mlif', desc', ip') := norm_flags fn nl mlif desc ip in
   step fn l (mkV ch pk (cls pv) i nl' mlif' desc' false ip')).
Proof.
  unfold norm_flags. destruct fn; try reflexivity;
    lazymatch goal with
    | |- step ?k _ _ = _ =>
        let s := eval cbv [step] in (step k) in
        cbv [step uses_nl uses_mlif existsb]; unfold s
    end;
    cbn [v_prev v_child v_peek v_idx v_nl v_mlif v_desc v_empty v_idxpos];
    rewrite ?cls_test by reflexivity; reflexivity.
Qed.
Lemma step_norm fn l ch pk pv i nl mlif desc ip :
  exists fl, In fl (flags fn) /\
    step fn l (mkV ch pk pv i nl mlif desc false ip) =
    (let '(nl', mlif', desc', ip') := fl in
     step fn l (mkV ch pk (cls pv) i nl' mlif' desc' false ip')).
Proof.
  exists (norm_flags fn nl mlif desc ip). split; [apply norm_in|apply step_norm_at].
Qed.

(** The statements before the loop. *)
Lemma prologue_starts fn ml w oel cs :
  fits (CTree fn cs) ->
  exists ms l r, prologue fn ml w oel (CTree fn cs) cs = Ok (ms, l) /\
    In (ms, l, r) (starts fn ml w oel) /\ lang r (map sym_of cs).
Proof.
  intro F. destruct (fits_multiline _ F) as [b M].
  inversion F as [|k' cs' NE L Fs]; subst.
  destruct fn;
    try (eexists _, _, _; split; [reflexivity|]; split; [left; reflexivity|exact L]).
  all: unfold prologue; try rewrite M; cbn [unwrap bind].
  all: try (match goal with |- context [set_ml ?x _] => destruct x end;
    eexists _, _, _; (split; [reflexivity|]); (split; [|exact L]); cbn [starts In]; auto; fail).
  (* lists *)
  all: try (destruct ml; cbn [unwrap bind]; try destruct b;
    eexists _, _, _; (split; [reflexivity|]); (split; [|exact L]); cbn [starts In]; auto; fail).
  (* component_clause1 *)
  { set (rest := sq [Sy (Rule KTypeSpecifier); Sy (Rule KComponentDeclaration1)]).
    change (pruned (production false KComponentClause1))
      with (Cat (Alt Eps (Sy (Rule KTypePrefix))) rest) in L.
    apply cat_inv in L as (u & v & E & A & B).
    assert (length v = 2%nat) as LV.
    { subst rest. apply cat_inv in B as (v1 & v2 & -> & B1 & B2). apply sy_inv in B1, B2. subst. reflexivity. }
    apply alt_inv in A as [A|A].
    - apply eps_inv in A. subst u. exists [], (mkL ml w false oel false KError), rest.
      assert (len_cmp (fun n => 2 <? n) cs = false) as ->.
      { unfold len_cmp. replace (length cs) with (length (map sym_of cs)) by apply map_length.
        rewrite E. simpl. rewrite LV. reflexivity. }
      split; [reflexivity|]. split; [left; reflexivity|]. rewrite E. exact B.
    - apply sy_inv in A. subst u.
      exists [], (mkL ml w false oel true KError), (Cat (Sy (Rule KTypePrefix)) rest).
      assert (len_cmp (fun n => 2 <? n) cs = true) as ->.
      { unfold len_cmp. replace (length cs) with (length (map sym_of cs)) by apply map_length.
        rewrite E. simpl. rewrite LV. reflexivity. }
      split; [reflexivity|]. split; [right; left; reflexivity|]. rewrite E. constructor; auto. constructor. }
  (* primary *)
  { destruct b, (len_cmp (fun n => n =? 3) cs);
    eexists _, _, _; (split; [reflexivity|]); (split; [|exact L]); cbn [starts In]; auto. }
Qed.


Lemma idx_next i :
  (if (if i <? 3 then i else 3) <? 3 then (if i <? 3 then i else 3) + 1 else 3) =
  (if i + 1 <? 3 then i + 1 else 3).
Proof.
  destruct (N.ltb_spec i 3).
  - destruct (N.ltb_spec i 3); [|lia]. destruct (N.ltb_spec (i + 1) 3); lia.
  - destruct (N.ltb_spec 3 3); [lia|]. destruct (N.ltb_spec (i + 1) 3); lia.
Qed.

Lemma aimed_weak o os : aimed None os -> aimed o os.
Proof.
  induction os as [|[] os IH]; simpl; auto. intros [A B]. split; auto.
  destruct (first_tok os); auto. discriminate.
Qed.

Lemma lab_sym c : lab (sym_of c) = label_of c.
Proof. destruct c; reflexivity. Qed.

Lemma dleaves_first p c : fits c ->
  exists t r, start_of c = Some t /\ dleaves p c = (fst (hd (KError, t) (dleaves p c)), t) :: r.
Proof.
  intro F. destruct (fits_start c F) as (t & r & E & L).
  pose proof (dleaves_leaves c p) as M. rewrite L in M.
  destruct (dleaves p c) as [|[k t'] r']; [discriminate|]. simpl in M. inversion M; subst.
  exists t, r'. split; auto.
Qed.


Section Sound.
Variables (heads : skind -> list (gap * dk)) (tails : skind -> list (dk * gap)).
Variables (pcls : skind -> list tkind) (outs : skind -> bool -> bool -> list (bool * nat)).
Variable (sites : list (src * gap * dst)).

(** What may stand between two tokens: at least what the tables say. *)
Variable meet : option dk -> gap -> dk -> Prop.
Hypothesis meet_sites : forall s g d t h k1 k2,
  In (s, g, d) sites -> In (k1, t) (tails_of tails s) -> In (h, k2) (heads_of heads d) ->
  meet (Some k1) (t ++ g ++ h) k2.

(** How a plan comes about: the calls, loop iterations and actions that lead to it. *)
Inductive whole : bool -> bool -> bool -> child -> tkind -> N -> bool -> list op -> Prop :=
| wh_tree k ml w oel cs pv ln ms l l' os :
    fits (CTree k cs) -> In (ml, w, oel) (args k) -> In (cls pv) (pcls k) ->
    plan k ml w oel (CTree k cs) pv ln
      = Ok (l_w l', map PMark ms ++ os ++ map PMark (epilogue k l')) ->
    prologue k ml w oel (CTree k cs) cs = Ok (ms, l) ->
    loop_of k cs 0 l pv ln l' os ->
    whole ml w oel (CTree k cs) pv ln (l_w l') (map PMark ms ++ os ++ map PMark (epilogue k l'))
with loop_of : skind -> list child -> N -> locals -> tkind -> N -> locals -> list op -> Prop :=
| lo_nil fn i l pv ln : loop_of fn [] i l pv ln l []
| lo_cons fn c cs i l pv ln acts l1 l2 l3 os os' :
    step fn l (view_at pv ln i c cs) = (acts, l1) ->
    run_of fn c cs acts l1 pv ln l2 os -> ptoks os = dleaves fn c ->
    loop_of fn cs (i + 1) l2 (pv_after pv os) (ln_after ln os) l3 os' ->
    loop_of fn (c :: cs) i l pv ln l3 (os ++ os')
with run_of : skind -> child -> list child -> list action -> locals -> tkind -> N ->
              locals -> list op -> Prop :=
| ru_nil fn c cs l pv ln : run_of fn c cs [] l pv ln l []
| ru_mark fn c cs m acts l pv ln l' os :
    run_of fn c cs acts l pv ln l' os ->
    run_of fn c cs (AMark m :: acts) l pv ln l' (PMark m :: os)
| ru_break fn c cs tg b acts l pv ln l' os tok :
    match tg with
    | TSelf => start_of c
    | TPeek => match cs with [] => None | p :: _ => start_of p end
    end = Some tok ->
    run_of fn c cs acts l pv ln l' os ->
    run_of fn c cs (ABreak tg b :: acts) l pv ln l' (PBrk tok b :: os)
| ru_tok fn tok cs acts l pv ln l' os :
    run_of fn (CTok tok) cs acts l (tkind_of tok) (line (tend tok)) l' os ->
    run_of fn (CTok tok) cs (AHandle :: acts) l pv ln l' (PTok fn tok :: os)
| ru_call fn k ds cs ml w oel keep acts l pv ln r o l' os :
    whole ml w oel (CTree k ds) pv ln r o ->
    run_of fn (CTree k ds) cs acts (if keep : bool then set_w r l else l)
      (pv_after pv o) (ln_after ln o) l' os ->
    run_of fn (CTree k ds) cs (ACall k ml w oel keep :: acts) l pv ln l' (o ++ os).

Definition here (fn : skind) (e : mst) (s : src) (g : gap) (m : mst) (pv : tkind) : Prop :=
  match s with
  | SStart => m = (fst e, snd e ++ g) /\ In (cls pv) (pcls fn)
  | _ => exists k t, In (k, t) (tails_of tails s) /\ m = (Some k, t ++ g) /\ pv = snd k
  end.

Lemma here_cls fn e s g m pv : here fn e s g m pv -> In (cls pv) (src_cls tails pcls fn s).
Proof.
  destruct s; simpl.
  - intros [_ H]; auto.
  - intros (k & t & [H|[]] & _ & ->). inversion H; subst. auto.
  - intros (k & t & H & _ & ->). apply (dedup_in tkind_eqb).
    { intros a b E. apply tkind_eqb_eq in E; auto. }
    apply in_map_iff. exists (k, t). auto.
Qed.

Lemma here_push fn e s g m pv x :
  here fn e s g m pv -> here fn e s (g ++ [x]) (fst m, snd m ++ [x]) pv.
Proof.
  destruct s; simpl.
  - intros [-> H]. simpl. rewrite app_assoc. auto.
  - intros (k & t & H & -> & E). exists k, t. simpl. rewrite app_assoc. auto.
  - intros (k & t & H & -> & E). exists k, t. simpl. rewrite app_assoc. auto.
Qed.

Definition enters (e : mst) (fn : skind) : Prop :=
  forall g d, In (g, d) (heads fn) -> meet (fst e) (snd e ++ g) d.

(** The next token, when its adjacency has been recorded. *)
Lemma emit_meet fn e s g m pv w oel d :
  enters e fn -> here fn e s g m pv ->
  meets heads tails pcls outs sites fn w oel (emit s g d) = true ->
  forall h k, In (h, k) (heads_of heads d) -> meet (fst m) (snd m ++ h) k.
Proof.
  intros E H M h k I. destruct s; cbn [emit meets here] in *.
  - destruct H as [-> _]. cbn [fst snd]. rewrite forallb_forall in M. specialize (M _ I).
    apply (existsb_in _ head_eqb_eq) in M. rewrite <- app_assoc. apply E. exact M.
  - destruct H as (k1 & t & H & -> & _). apply (existsb_in _ site_eqb_eq) in M.
    cbn [fst snd]. rewrite <- app_assoc. eapply meet_sites; eauto.
  - destruct H as (k1 & t & H & -> & _). apply (existsb_in _ site_eqb_eq) in M.
    cbn [fst snd]. rewrite <- app_assoc. eapply meet_sites; eauto.
Qed.

(** What is to be shown of a subtree. *)
Definition good (c : child) : Prop :=
  match c with
  | CTok _ => True
  | CTree k cs =>
      forall ml w oel, In (ml, w, oel) (args k) ->
      forall e n pv ln, In (cls pv) (pcls k) -> enters e k ->
      exists r os n' net,
        plan k ml w oel c pv ln = Ok (r, os) /\ ptoks os = dleaves k c /\ aimed None os /\
        runs meet e os /\
        (exists k1 g1, In (k1, g1) (tails k) /\ after e os = (Some k1, g1) /\
                       pv_after pv os = snd k1) /\
        ind n os = Some n' /\ In (r, net) (outs k w oel) /\ (n + net <= n')%nat /\
        whole ml w oel c pv ln r os
  end.

Definition next_start (cs : list child) : option token :=
  match cs with [] => None | p :: _ => start_of p end.
Definition has_next (cs : list child) : bool := match cs with [] => false | _ => true end.

Lemma acts_ok fn c cs w oel e n0 :
  fits c -> Forall fits cs -> good c -> enters e fn ->
  forall acts s m n pv ln,
  forallb (meets heads tails pcls outs sites fn w oel)
    (snd (acts_run outs (sym_of c) (has_next cs) fn acts s)) = true ->
  here fn e (r_src s) (r_gap s) m pv -> (n0 + r_ind s <= n)%nat ->
  exists l' os s' n',
    plan_run (fun fn ml w oel pv ln => plan fn ml w oel c pv ln) fn c cs acts (r_loc s) pv ln
      = Ok (l', os) /\
    In s' (fst (acts_run outs (sym_of c) (has_next cs) fn acts s)) /\ r_loc s' = l' /\
    here fn e (r_src s') (r_gap s') (after m os) (pv_after pv os) /\
    runs meet m os /\ ind n os = Some n' /\ (n0 + r_ind s' <= n')%nat /\
    ptoks os = (if r_done s then [] else dleaves fn c) /\ aimed (next_start cs) os /\
    run_of fn c cs acts (r_loc s) pv ln l' os.
Proof.
  intros FC FS GC EN. induction acts as [|a acts IH]; intros s m n pv ln M H L.
  - cbn [acts_run] in M |- *. destruct (r_done s) eqn:D; [|discriminate].
    exists (r_loc s), [], s, n. cbn [plan_run fst In]. repeat split; auto. constructor.
  - cbn [acts_run] in M |- *.
    destruct (act outs (sym_of c) (has_next cs) fn a s) as [ss os0] eqn:EA.
    cbn [fst snd] in M |- *. rewrite forallb_app in M. apply andb_true_iff in M as [M0 M1].
    (* continue with one of the outcomes *)
    assert (forall s1 os1 m1 n1 pv1 ln1,
      In s1 ss -> plan_act (fun fn ml w oel pv ln => plan fn ml w oel c pv ln) fn c cs a (r_loc s) pv ln
                  = Ok (r_loc s1, os1) ->
      m1 = after m os1 -> pv1 = pv_after pv os1 -> ln1 = ln_after ln os1 ->
      here fn e (r_src s1) (r_gap s1) m1 pv1 -> runs meet m os1 ->
      ind n os1 = Some n1 -> (n0 + r_ind s1 <= n1)%nat ->
      ptoks os1 ++ (if r_done s1 then [] else dleaves fn c) = (if r_done s then [] else dleaves fn c) ->
      (forall os2, ptoks os2 = (if r_done s1 then [] else dleaves fn c) ->
         aimed (match first_tok os2 with Some x => Some x | None => next_start cs end) os1) ->
      (forall l2 os2, run_of fn c cs acts (r_loc s1) pv1 ln1 l2 os2 ->
         run_of fn c cs (a :: acts) (r_loc s) pv ln l2 (os1 ++ os2)) ->
      exists l' os s' n',
        plan_run (fun fn ml w oel pv ln => plan fn ml w oel c pv ln) fn c cs (a :: acts) (r_loc s) pv ln
          = Ok (l', os) /\
        In s' (flat_map fst (map (acts_run outs (sym_of c) (has_next cs) fn acts) ss)) /\ r_loc s' = l' /\
        here fn e (r_src s') (r_gap s') (after m os) (pv_after pv os) /\
        runs meet m os /\ ind n os = Some n' /\ (n0 + r_ind s' <= n')%nat /\
        ptoks os = (if r_done s then [] else dleaves fn c) /\ aimed (next_start cs) os /\
        run_of fn c cs (a :: acts) (r_loc s) pv ln l' os) as K.
    { intros s1 os1 m1 n1 pv1 ln1 I1 P1 -> -> -> H1 R1 D1 L1 T1 A1 U1.
      destruct (IH s1 (after m os1) n1 (pv_after pv os1) (ln_after ln os1)) as (l' & os & s' & n' & P & I & E & HH & R & D & LL & T & A & U).
      2: exact H1. 2: exact L1.
      { rewrite forallb_forall in M1 |- *. intros o O. apply M1. apply in_flat_map.
        exists (acts_run outs (sym_of c) (has_next cs) fn acts s1). split; auto.
        apply in_map; auto. }
      exists l', (os1 ++ os), s', n'. cbn [plan_run]. rewrite P1. cbn [bind]. rewrite P. cbn [bind].
      split; [reflexivity|]. split.
      { apply in_flat_map. exists (acts_run outs (sym_of c) (has_next cs) fn acts s1). split; auto.
        apply in_map; auto. }
      rewrite after_app, pv_after_app, runs_app, ind_app, D1, ptoks_app, T.
      split; [exact E|]. split; [exact HH|]. split; [auto|]. split; [exact D|]. split; [exact LL|].
      split; [exact T1|]. split; [apply aimed_app; auto|]. apply U1. exact U. }
    destruct a as [mk|tg b| |fn' ml' w' oel' keep|p]; cbn [act] in EA.
    + (* marker *)
      destruct mk; try (inversion EA; subst; discriminate).
      * inversion EA; subst. eapply K; [left; reflexivity|reflexivity|reflexivity|reflexivity|reflexivity|..].
        { cbn [r_src r_gap after pv_after]. exact H. }
        all: cbn [runs ind ptoks aimed r_done r_ind app r_loc]; auto; try lia.
        intros l2 os2 U2. constructor. exact U2.
      * destruct (r_ind s) as [|d] eqn:Ed; inversion EA; subst; [discriminate|].
        destruct n as [|n]; [lia|].
        eapply K; [left; reflexivity|reflexivity|reflexivity|reflexivity|reflexivity|..].
        { cbn [r_src r_gap after pv_after]. exact H. }
        all: cbn [runs ind ptoks aimed r_done r_ind app r_loc]; auto; try lia.
        intros l2 os2 U2. constructor. exact U2.
      * inversion EA; subst. eapply K; [left; reflexivity|reflexivity|reflexivity|reflexivity|reflexivity|..].
        { cbn [r_src r_gap after pv_after]. apply here_push. exact H. }
        all: cbn [runs ind ptoks aimed r_done r_ind app r_loc]; auto.
        intros l2 os2 U2. constructor. exact U2.
    + (* break *)
      destruct (match tg with TSelf => negb (r_done s) | TPeek => r_done s && has_next cs end) eqn:C;
        inversion EA; subst; [|discriminate].
      assert (exists tok,
        match tg with TSelf => start_of c | TPeek => match cs with [] => None | p :: _ => start_of p end end = Some tok /\
        forall os2, ptoks os2 = (if r_done s then [] else dleaves fn c) ->
          match first_tok os2 with Some x => Some x | None => next_start cs end = Some tok) as (tok & ET & AT).
      { destruct tg.
        - apply negb_true_iff in C. rewrite C. destruct (dleaves_first fn c FC) as (t & r & E1 & E2).
          exists t. split; auto. intros os2 E. unfold first_tok. rewrite E, E2. reflexivity.
        - apply andb_true_iff in C as [C1 C2]. rewrite C1. destruct cs as [|p cs]; [discriminate|].
          inversion FS; subst. destruct (fits_start p H2) as (t & r & E1 & E2).
          exists t. split; auto. intros os2 E. unfold first_tok. rewrite E. exact E1. }
      eapply K; [left; reflexivity| |reflexivity|reflexivity|reflexivity|..].
      { cbn [plan_act]. rewrite ET. reflexivity. }
      { cbn [r_src r_gap after pv_after]. apply here_push. exact H. }
      all: cbn [runs ind ptoks aimed r_done r_ind app r_loc]; auto.
      { intros os2 E. split; auto. cbn [first_tok ptoks]. apply AT; auto. }
      { intros l2 os2 U2. constructor; auto. }
    + (* token *)
      destruct c as [tok|k' cs']; cbn [sym_of] in EA; [|inversion EA; subst; discriminate].
      destruct (r_done s) eqn:D; inversion EA; subst; [discriminate|].
      cbn [forallb] in M0. rewrite andb_true_r in M0.
      assert (meet (fst m) (snd m) (fn, tkind_of tok)) as MT.
      { rewrite <- (app_nil_r (snd m)). eapply emit_meet; eauto. left; reflexivity. }
      eapply K; [left; reflexivity|reflexivity|reflexivity|reflexivity|reflexivity|..].
      { cbn [r_src r_gap after pv_after here tails_of]. exists (fn, tkind_of tok), [].
        repeat split; auto. left; reflexivity. }
      all: cbn [runs ind ptoks aimed r_done r_ind app r_loc dleaves]; auto.
      intros l2 os2 U2. constructor. exact U2.
    + (* call *)
      destruct c as [tok|k' cs']; cbn [sym_of] in EA; [inversion EA; subst; discriminate|].
      destruct (r_done s || negb (skind_eqb k' fn') || negb (existsb (args_eqb (ml', w', oel')) (args fn'))) eqn:C;
        inversion EA; subst; [discriminate|].
      apply orb_false_iff in C as [C C3]. apply orb_false_iff in C as [C1 C2].
      apply negb_false_iff in C2, C3. apply skind_eqb_eq in C2. subst k'.
      apply (existsb_in _ args_eqb_eq) in C3.
      cbn [forallb] in M0. apply andb_true_iff in M0 as [M0 M2]. rewrite andb_true_r in M2.
      cbn [good] in GC. destruct (GC ml' w' oel' C3 m n pv ln) as (r & os1 & n1 & net & P1 & T1 & A1 & R1 & (k1 & g1 & I1 & E1 & PV) & D1 & O1 & L1 & W1).
      { cbn [meets] in M2. rewrite forallb_forall in M2. pose proof (M2 _ (here_cls _ _ _ _ _ _ H)) as X.
        unfold memk in X. apply existsb_exists in X as [y [I Y]]. apply tkind_eqb_eq in Y. subst; auto. }
      { intros g d I. eapply emit_meet; eauto. }
      rewrite C1 in *.
      eapply K with (s1 := mkR (if keep then set_w r (r_loc s) else r_loc s) (SFn fn') [] (r_ind s + net) true);
        [|  |reflexivity|reflexivity|reflexivity|..].
      { apply in_map_iff. exists (r, net). auto. }
      { cbn [plan_act]. rewrite P1. reflexivity. }
      { cbn [r_src r_gap here tails_of]. exists k1, g1. rewrite app_nil_r. auto. }
      all: cbn [r_done r_ind r_loc]; eauto.
      { lia. }
      { rewrite T1, app_nil_r. reflexivity. }
      { intros os2 E. apply aimed_weak. auto. }
      { intros l2 os2 U2. cbn [r_loc] in U2. econstructor; [exact W1|exact U2]. }
    + inversion EA; subst. discriminate.
Qed.

Lemma nexts_nil r : lang r [] -> In None (nexts r).
Proof. intro H. apply nullable_spec in H. unfold nexts. rewrite H. left; reflexivity. Qed.
Lemma nexts_cons r x w : lang r (x :: w) -> exists r', In (Some (x, r')) (nexts r) /\ lang r' w.
Proof.
  intro H. pose proof (firsts_complete _ _ _ H) as F. apply pd_complete in H as (r' & I & L).
  exists r'. split; auto. unfold nexts. apply in_or_app. right. apply in_flat_map. exists x. split.
  - apply (dedup_in sym_eqb); auto. intros a b E. apply sym_eqb_eq; auto.
  - apply in_map_iff. exists r'. auto.
Qed.

Lemma loop_ok fn w oel e n0 seen :
  closed_states heads tails pcls outs sites fn w oel seen = true ->
  enters e fn ->
  forall cs c, Forall fits (c :: cs) -> Forall good (c :: cs) ->
  forall st i m n pv ln, In st seen ->
  s_sym st = sym_of c -> lang (s_rest st) (map sym_of cs) ->
  s_idx st = (if i <? 3 then i else 3) ->
  here fn e (s_src st) (s_gap st) m pv -> (n0 + s_ind st <= n)%nat ->
  exists l' os n' d d' net,
    plan_loop fn (c :: cs) i (s_loc st) pv ln = Ok (l', os) /\
    ptoks os = flat_map (dleaves fn) (c :: cs) /\ aimed None os /\ runs meet m os /\
    (exists k1 g1, In (k1, g1) (tails fn) /\ after m os = (Some k1, g1) /\ pv_after pv os = snd k1) /\
    ind n os = Some n' /\ marks_ind (epilogue fn l') d = Some d' /\ (n0 + d <= n')%nat /\
    In (l_w l', net) (outs fn w oel) /\ (net <= d')%nat /\
    loop_of fn (c :: cs) i (s_loc st) pv ln l' os.
Proof.
  intros CL EN. unfold closed_states in CL. rewrite forallb_forall in CL.
  induction cs as [|c2 cs IH]; intros c F G st i m n pv ln I SY LA IX H L.
  - (* last child *)
    inversion F as [|? ? Fc Fs]; inversion G as [|? ? Gc Gs]; subst.
    pose proof (CL st I) as C. destruct (trans tails pcls outs fn st) as [ss os0] eqn:ET.
    apply andb_true_iff in C as [C _].
    cbn [plan_loop].
    destruct (step_norm fn (s_loc st) (label_of c) None pv (if i <? 3 then i else 3)
      false
      (opt_true (is_multiline c) && match start_of c with Some t => tkind_eqb (tkind_of t) TIf | None => false end)
      (contains KDescription c)
      (match c with CTok t => 0 <? tidx t | _ => false end)) as (fl & IF & EQ).
    assert (view_at pv ln i c [] = mkV (label_of c) None pv (if i <? 3 then i else 3) false
      (opt_true (is_multiline c) && match start_of c with Some t => tkind_eqb (tkind_of t) TIf | None => false end)
      (contains KDescription c) false (match c with CTok t => 0 <? tidx t | _ => false end)) as EV.
    { unfold view_at, view_of. cbn [fprev fline].
      assert (match c with CTree _ [] => true | _ => false end = false) as ->; [|reflexivity].
      inversion Fc; subst; auto. destruct cs; auto. contradiction. }
    pose proof (eq_trans (f_equal (step fn (s_loc st)) EV) EQ) as EST.
    rewrite EV, EQ. clear EV EQ.
    pose proof (nexts_nil _ LA) as IN.
    assert (forallb (meets heads tails pcls outs sites fn w oel) (snd (trans1 outs fn st None (cls pv) fl)) = true) as C1.
    { rewrite forallb_forall in C |- *. intros o O. apply C.
      unfold trans in ET. inversion ET; subst. apply in_flat_map.
      exists (trans1 outs fn st None (cls pv) fl). split; auto.
      apply in_flat_map. exists None. split; auto. apply in_flat_map. exists (cls pv).
      split; [eapply here_cls; eauto|]. apply in_map; auto. }
    destruct fl as [[[nl mlif] desc] ip]. unfold trans1 in C1. rewrite SY, lab_sym, IX in C1.
    destruct (step fn (s_loc st) (mkV (label_of c) None (cls pv) (if i <? 3 then i else 3) nl mlif desc false ip)) as [acts l] eqn:ES.
    cbv beta iota zeta in EST.
    destruct (acts_run outs (sym_of c) false fn acts (mkR l (s_src st) (s_gap st) (s_ind st) false)) as [rs os1] eqn:ER.
    cbn [snd] in C1. rewrite forallb_app in C1. apply andb_true_iff in C1 as [C1 C2].
    destruct (acts_ok fn c [] w oel e n0 Fc Fs Gc EN acts (mkR l (s_src st) (s_gap st) (s_ind st) false) m n pv ln)
      as (l' & os & s' & n' & P & IS & EL & HH & R & D & LL & T & A & U); auto.
    { cbn [has_next]. rewrite ER. exact C1. }
    cbn [has_next] in IS. rewrite ER in IS. cbn [fst] in IS. cbn [r_loc] in P. rewrite P. cbn [bind].
    rewrite forallb_forall in C2.
    assert (forall o, In o (finish fn s') -> meets heads tails pcls outs sites fn w oel o = true) as C3.
    { intros o O. apply C2. apply in_flat_map. exists s'. auto. }
    unfold finish in C3. rewrite EL in C3.
    destruct (marks_ind (epilogue fn l') (r_ind s')) as [d'|] eqn:EM.
    2:{ specialize (C3 OFail (or_introl eq_refl)). discriminate. }
    pose proof (C3 _ (or_introl eq_refl)) as C4. pose proof (C3 _ (or_intror (or_introl eq_refl))) as C5.
    cbn [meets] in C4, C5. apply existsb_exists in C5 as [[w' net] [C5 C6]]. cbn [fst snd] in C6.
    apply andb_true_iff in C6 as [C6 C7]. apply Bool.eqb_prop in C6. subst w'. apply Nat.leb_le in C7.
    exists l', (os ++ []), n', (r_ind s'), d', net. rewrite app_nil_r.
    split; [reflexivity|]. cbn [flat_map r_done] in *. rewrite app_nil_r. repeat split; auto.
    2:{ rewrite <- (app_nil_r os). econstructor; [exact EST|exact U|exact T|constructor]. }
    assert (exists k t, In (k, t) (tails_of tails (r_src s')) /\ after m os = (Some k, t ++ r_gap s') /\ pv_after pv os = snd k) as (k & t & K1 & K2 & K3).
    { destruct (r_src s'); [discriminate| |]; exact HH. }
    exists k, (t ++ r_gap s'). repeat split; auto.
    destruct (r_src s'); [discriminate| |]; rewrite forallb_forall in C4; specialize (C4 _ K1);
      apply (existsb_in _ tail_eqb_eq) in C4; exact C4.
  - (* more children *)
    inversion F as [|? ? Fc Fs]; inversion G as [|? ? Gc Gs]; subst.
    pose proof (CL st I) as C. destruct (trans tails pcls outs fn st) as [ss os0] eqn:ET.
    apply andb_true_iff in C as [C CS].
    cbn [map] in LA. apply nexts_cons in LA as (r' & IN & LA).
    rewrite plan_loop_cons.
    destruct (step_norm fn (s_loc st) (label_of c) (Some (label_of c2)) pv (if i <? 3 then i else 3)
      (match start_of c2 with Some t => ln <? line (tstart t) | None => false end)
      (opt_true (is_multiline c) && match start_of c with Some t => tkind_eqb (tkind_of t) TIf | None => false end)
      (contains KDescription c)
      (match c with CTok t => 0 <? tidx t | _ => false end)) as (fl & IF & EQ).
    assert (view_at pv ln i c (c2 :: cs) = mkV (label_of c) (Some (label_of c2)) pv (if i <? 3 then i else 3)
      (match start_of c2 with Some t => ln <? line (tstart t) | None => false end)
      (opt_true (is_multiline c) && match start_of c with Some t => tkind_eqb (tkind_of t) TIf | None => false end)
      (contains KDescription c) false (match c with CTok t => 0 <? tidx t | _ => false end)) as EV.
    { unfold view_at, view_of. cbn [fprev fline].
      assert (match c with CTree _ [] => true | _ => false end = false) as ->; [|reflexivity].
      inversion Fc; subst; auto. destruct cs0; auto. contradiction. }
    pose proof (eq_trans (f_equal (step fn (s_loc st)) EV) EQ) as EST.
    rewrite EV, EQ. clear EV EQ.
    assert (forallb (meets heads tails pcls outs sites fn w oel) (snd (trans1 outs fn st (Some (sym_of c2, r')) (cls pv) fl)) = true
      /\ forall s, In s (fst (trans1 outs fn st (Some (sym_of c2, r')) (cls pv) fl)) -> In s seen) as [C1 C2].
    { assert (In (trans1 outs fn st (Some (sym_of c2, r')) (cls pv) fl)
        (flat_map (fun nx => flat_map (fun pv => map (trans1 outs fn st nx pv) (flags fn)) (src_cls tails pcls fn (s_src st))) (nexts (s_rest st)))) as IT.
      { apply in_flat_map. exists (Some (sym_of c2, r')). split; auto. apply in_flat_map. exists (cls pv).
        split; [eapply here_cls; eauto|]. apply in_map; auto. }
      unfold trans in ET. inversion ET; subst. rewrite forallb_forall in C, CS. split.
      - apply forallb_forall. intros o O. apply C. apply in_flat_map. eauto.
      - intros s O. apply mem_st_in. apply CS. apply in_flat_map. eauto. }
    destruct fl as [[[nl mlif] desc] ip]. unfold trans1 in C1, C2. cbn [fst] in C1, C2. rewrite SY, !lab_sym, IX in C1, C2.
    destruct (step fn (s_loc st) (mkV (label_of c) (Some (label_of c2)) (cls pv) (if i <? 3 then i else 3) nl mlif desc false ip)) as [acts l] eqn:ES.
    cbv beta iota zeta in EST.
    destruct (acts_run outs (sym_of c) true fn acts (mkR l (s_src st) (s_gap st) (s_ind st) false)) as [rs os1] eqn:ER.
    cbn [snd] in C1. cbn [fst] in C2.
    destruct (acts_ok fn c (c2 :: cs) w oel e n0 Fc Fs Gc EN acts (mkR l (s_src st) (s_gap st) (s_ind st) false) m n pv ln)
      as (l' & os & s' & n' & P & IS & EL & HH & R & D & LL & T & A & U); auto.
    { cbn [has_next]. rewrite ER. exact C1. }
    cbn [has_next] in IS. rewrite ER in IS. cbn [fst] in IS. cbn [r_loc] in P. rewrite P. cbn [bind].
    pose proof (C2 (next_state st (sym_of c2, r') s') (in_map _ _ _ IS)) as IS2.
    destruct (IH c2 Fs Gs _ (i + 1) (after m os) n' (pv_after pv os) (ln_after ln os) IS2)
      as (l2 & os2 & n2 & d & d' & net & P2 & T2 & A2 & R2 & (k1 & g1 & K1 & K2 & K3) & D2 & M2 & L2 & O2 & N2 & U2); auto.
    { unfold next_state. cbn [s_idx]. rewrite IX. apply idx_next. }
    unfold next_state in P2. cbn [s_loc] in P2. rewrite EL in P2. rewrite P2. cbn [bind].
    exists l2, (os ++ os2), n2, d, d', net. split; [reflexivity|].
    rewrite ptoks_app, T, T2, runs_app, after_app, pv_after_app, ind_app, D.
    cbn [r_done flat_map] in *.
    repeat split; auto; [|exists k1, g1; auto|].
    2:{ econstructor; [exact EST|exact U|exact T|]. unfold next_state in U2. cbn [s_loc] in U2. rewrite EL in U2. exact U2. }
    apply aimed_app; auto.
    assert (first_tok os2 = start_of c2) as ->.
    { unfold first_tok. rewrite T2. inversion Fs; subst.
      destruct (dleaves_first fn c2 H2) as (t & r & E1 & E2). rewrite E2, E1. reflexivity. }
    cbn [next_start] in A. destruct (start_of c2); auto.
Qed.

Lemma check_closed : check heads tails pcls outs sites = true ->
  forall k ml w oel, In (ml, w, oel) (args k) ->
  exists seen, forallb (fun s => mem_st s seen) (inits k ml w oel) = true /\
    closed_states heads tails pcls outs sites k w oel seen = true.
Proof.
  unfold check. intros H k ml w oel I. rewrite forallb_forall in H.
  specialize (H k (all_skinds_complete k)). rewrite forallb_forall in H.
  specialize (H _ I). cbv beta iota in H. unfold check_fn in H. cbv zeta in H.
  revert H. generalize (visit tails pcls outs 3000 k (inits k ml w oel) []). intros seen H.
  exists seen. apply andb_true_iff in H. exact H.
Qed.

Lemma starts_marks k ml w oel ms l r :
  In (ms, l, r) (starts k ml w oel) -> exists n, marks_ind ms 0 = Some n.
Proof.
  assert (forallb (fun p => match marks_ind (fst (fst p)) 0 with Some _ => true | None => false end)
    (starts k ml w oel) = true) as H by (destruct k; reflexivity).
  intro I. rewrite forallb_forall in H. specialize (H _ I). cbn [fst] in H.
  destruct (marks_ind ms 0) as [n|]; [exists n; auto|discriminate].
Qed.

Hypothesis tables_ok : forall k ml w oel, In (ml, w, oel) (args k) ->
  exists seen, forallb (fun s => mem_st s seen) (inits k ml w oel) = true /\
    closed_states heads tails pcls outs sites k w oel seen = true.

Theorem plan_good c : fits c -> good c.
Proof.
  induction c as [x|k cs IH] using child_ind2; intro F; [exact I|].
  cbn [good]. intros ml w oel IA e n pv ln PC EN.
  destruct (tables_ok k ml w oel IA) as (seen & CI & CC).
  destruct (prologue_starts k ml w oel cs F) as (ms & l & r & EP & IS & LA).
  inversion F as [|k' cs' NE L Fs]; subst.
  destruct cs as [|c cs]; [contradiction|].
  cbn [map] in LA. apply nexts_cons in LA as (r' & IN & LA).
  rewrite forallb_forall in CI.
  assert (exists n1, marks_ind ms 0 = Some n1) as [n1 EM].
  { eapply starts_marks; eauto. }
  assert (In (mkA (sym_of c) r' 0 l SStart [] n1) seen) as IV.
  { apply mem_st_in. apply CI. unfold inits. apply in_flat_map. exists (ms, l, r). split; auto.
    rewrite EM. apply in_flat_map. exists (Some (sym_of c, r')). split; auto. left; reflexivity. }
  assert (Forall good (c :: cs)) as GS.
  { rewrite Forall_forall in *. intros d I. apply IH; auto. }
  destruct (loop_ok k w oel e n _ CC EN cs c Fs GS _ 0 e (n + n1) pv ln IV)
    as (l' & os & n' & d & d' & net & P & T & A & R & (k1 & g1 & K1 & K2 & K3) & D & M & LL & O & N & U); auto.
  { cbn [s_src s_gap here]. rewrite app_nil_r. destruct e; auto. }
  cbn [s_loc] in P.
  pose proof (marks_ind_quiet _ _ _ EM) as Q1. pose proof (marks_ind_quiet _ _ _ M) as Q2.
  destruct (ind_marks ms n 0 n1 EM) as (n2 & J1 & ->). rewrite Nat.add_0_r in J1.
  destruct (quiet_runs meet ms e Q1) as [R1 A1].
  destruct (quiet_runs meet (epilogue k l') (after e os) Q2) as [R2 A2].
  destruct (ind_marks (epilogue k l') (n' - d) d d' M) as (n3 & J2 & ->).
  replace (n' - d + d)%nat with n' in J2 by lia.
  exists (l_w l'), (map PMark ms ++ os ++ map PMark (epilogue k l')), (n' - d + d')%nat, net.
  assert (plan k ml w oel (CTree k (c :: cs)) pv ln
    = Ok (l_w l', map PMark ms ++ os ++ map PMark (epilogue k l'))) as EPL.
  { rewrite plan_tree, EP. cbn [bind]. rewrite P. reflexivity. }
  split; [exact EPL|].
  rewrite !ptoks_app, !ptoks_marks, app_nil_r, T. split; [reflexivity|].
  assert (ind n (map PMark ms ++ os ++ map PMark (epilogue k l')) = Some (n' - d + d')%nat) as ->.
  { rewrite ind_app, J1. cbv beta iota. rewrite ind_app, D. cbv beta iota. exact J2. }
  rewrite !runs_app, !after_app, A1, A2, K2, !pv_after_app.
  destruct (after_marks ms pv 0) as [V1 _]. rewrite V1, K3.
  destruct (after_marks (epilogue k l') (snd k1) 0) as [V2 _]. rewrite V2.
  repeat split; auto.
  - apply aimed_app; [apply aimed_marks|]. apply aimed_app; [|apply aimed_marks].
    assert (first_tok (map PMark (epilogue k l')) = None) as -> by (unfold first_tok; rewrite ptoks_marks; reflexivity).
    exact A.
  - rewrite K2 in R2. exact R2.
  - exists k1, g1. auto.
  - lia.
  - econstructor; eauto.
Qed.
End Sound.

(** What may stand between two tokens; [None] is the start of the file. *)
Definition meet (heads : skind -> list (gap * dk)) (tails : skind -> list (dk * gap))
    (sites : list (src * gap * dst)) (ko : option dk) (G : gap) (k2 : dk) : Prop :=
  match ko with
  | None => In (G, k2) (heads KStoredDefinition)
  | Some k1 => exists s g d t h,
      In (s, g, d) sites /\ In (k1, t) (tails_of tails s) /\ In (h, k2) (heads_of heads d) /\
      G = t ++ g ++ h
  end.
Lemma meet_sites heads tails sites s g d t h k1 k2 :
  In (s, g, d) sites -> In (k1, t) (tails_of tails s) -> In (h, k2) (heads_of heads d) ->
  meet heads tails sites (Some k1) (t ++ g ++ h) k2.
Proof. intros. exists s, g, d, t, h. auto. Qed.

(** The tables of FmtTables.v are right. *)
Lemma tables_checked : check t_heads t_tails t_pcls t_outs t_sites = true.
Proof. vm_compute. reflexivity. Qed.

Definition adjacent : option dk -> gap -> dk -> Prop := meet t_heads t_tails t_sites.

(** The plan for a file. *)
Theorem file_plan cs ln :
  fits (CTree KStoredDefinition cs) ->
  exists r os n',
    plan KStoredDefinition false false false (CTree KStoredDefinition cs) TEOF ln = Ok (r, os) /\
    ptoks os = dleaves KStoredDefinition (CTree KStoredDefinition cs) /\ aimed None os /\
    runs adjacent (None, []) os /\
    (exists k1 g1, In (k1, g1) (t_tails KStoredDefinition) /\ after (None, []) os = (Some k1, g1)) /\
    ind 0 os = Some n' /\
    whole t_pcls false false false (CTree KStoredDefinition cs) TEOF ln r os.
Proof.
  intro F.
  destruct (plan_good t_heads t_tails t_pcls t_outs t_sites _ (meet_sites t_heads t_tails t_sites)
    (check_closed _ _ _ _ _ tables_checked) _ F false false false
    (or_introl eq_refl) (None, []) 0%nat TEOF ln (or_introl eq_refl))
    as (r & os & n' & net & P & T & A & R & (k1 & g1 & K1 & K2 & K3) & D & O & L & W).
  { intros g d I. exact I. }
  exists r, os, n'. repeat split; auto. exists k1, g1. auto.
Qed.
