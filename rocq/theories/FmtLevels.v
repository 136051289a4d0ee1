(** Levels of indentation in the layout of the reference formatter. *)
From Coq Require Import Sorted.
From Verif Require Import ProofBase Tokens Syntax Lexer SpecLex LexInv LexMain LexFacts ParserCore Grammar
  Tree Printer Formatter Lib ParserSem ParserFuel SpecGrammar Regex ParserGrammar ParserTree ParserFacts Recognise PropsParser
  FmtAbs FmtPlan FmtShape FmtTables FmtSound SpecLayout FmtExec FmtTop FmtFacts FmtRelex FmtNeat SpecNodes FmtTree FmtLists FmtOps
  FmtWrap SpecGaps SpecReference FmtNode FmtReference PropsFormat PropsReference FmtAgree FmtPrinted FmtStable SpecLevels.

(** ** What [spots] is called with *)
Record args := mkA { a_rule : skind; a_pos : position; a_first : nat; a_n : nat; a_on : bool; a_inh : bool }.
Definition spots_at (a : args) (c : child) : list spot :=
  spots (a_rule a) (a_pos a) (a_first a) (a_n a) (a_on a) (a_inh a) c.
Fixpoint on_before (k : skind) (prev : option child) (on : bool) (x rest : list child) : bool :=
  match x with
  | [] => on
  | a :: x' => on_before k (Some a) (on || turns k prev a (x' ++ rest) || (continues k a && wraps a)) x' rest
  end.
Definition is_new (u : list child) (p : position) : bool :=
  match u, p with [], Below _ => true | [], _ => false | _, _ => true end.
Definition call (k : skind) (w : bool) (all : list child) (pos : position) (first : nat)
    (u : list child) (n : nat) (on : bool) (d : child) (v : list child) : args :=
  let turn := turns k (last_of u) d v in
  let on := on || turn in
  let p := position_of k w turn (multi_if d) (is_late d) (after_first u) (kind_last u) (kind_of d) in
  let m := (n + deeper k w (multi_if d) (kind_last u) (kind_of d))%nat in
  let lvl := (m + one_if on)%nat in
  mkA k (if is_new u p then p else pos) (if is_new u p then lvl else first)
    (if continues k d then m else lvl) (continues k d && on) (bequeathed k w all d).
Definition next (k : skind) (u : list child) (d : child) (v : list child) (a : args) : args :=
  let cs := u ++ d :: v in
  call k (wide k cs (a_inh a)) cs (a_pos a) (a_first a) (rev u) (a_n a + leak_in k u)
    (on_before k None (a_on a) u (d :: v)) d v.

Definition infix {A} (a b : list A) : Prop := exists x y, b = x ++ a ++ y.
Lemma infix_refl {A} (a : list A) : infix a a.
Proof. exists [], []. rewrite app_nil_r. reflexivity. Qed.
Lemma infix_trans {A} (a b c : list A) : infix a b -> infix b c -> infix a c.
Proof. intros (x & y & ->) (x' & y' & ->). exists (x' ++ x), (y ++ y'). rewrite <- !app_assoc. reflexivity. Qed.
Lemma infix_in {A} (a b : list A) x : infix a b -> In x a -> In x b.
Proof. intros (u & v & ->) I. apply in_or_app. right. apply in_or_app. auto. Qed.

Lemma children_call k w all pos first x : forall u n on d v,
  infix (spots_at (call k w all pos first (rev x ++ u) (n + leak_in k x) (on_before k (last_of u) on x (d :: v)) d v) d)
    (children k w all pos first u n on (x ++ d :: v)).
Proof.
  induction x as [|a x IH]; intros u n on d v.
  - cbn [rev app leak_in on_before children]. rewrite Nat.add_0_r. exists [], (children k w all pos first (d :: u) (n + leak d + one_if (keeps_level k d))
      (on || turns k (last_of u) d v || continues k d && wraps d) v). reflexivity.
  - cbn [app children]. cbv zeta.
    specialize (IH (a :: u) (n + leak a + one_if (keeps_level k a))%nat (on || turns k (last_of u) a (x ++ d :: v) || (continues k a && wraps a)) d v).
    cbn [last_of] in IH. cbn [rev on_before leak_in]. rewrite <- app_assoc. cbn [app].
    replace (n + (leak a + one_if (keeps_level k a) + leak_in k x))%nat with
      (n + leak a + one_if (keeps_level k a) + leak_in k x)%nat by lia.
    eapply infix_trans; [exact IH|]. eexists. exists []. rewrite app_nil_r. reflexivity.
Qed.
Lemma next_infix k u d v a : infix (spots_at (next k u d v a) d) (spots_at a (CTree k (u ++ d :: v))).
Proof.
  unfold spots_at at 2. rewrite spots_tree. unfold next.
  pose proof (children_call k (wide k (u ++ d :: v) (a_inh a)) (u ++ d :: v) (a_pos a) (a_first a) u [] (a_n a) (a_on a) d v) as H.
  rewrite app_nil_r in H. exact H.
Qed.

(** [seat c a]: [c] is a node of the tree and its tokens get their places with [a]. *)
Inductive seat (c0 : child) (a0 : args) : child -> args -> Prop :=
| seat_here : seat c0 a0 c0 a0
| seat_next k u d v a : seat c0 a0 (CTree k (u ++ d :: v)) a -> seat c0 a0 d (next k u d v a).
Lemma seat_infix c0 a0 c a : seat c0 a0 c a -> infix (spots_at a c) (spots_at a0 c0).
Proof. induction 1 as [|k u d v a S IH]; [apply infix_refl|]. eapply infix_trans; [apply next_infix|exact IH]. Qed.
Lemma seat_trans c0 a0 c a c' a' : seat c0 a0 c a -> seat c a c' a' -> seat c0 a0 c' a'.
Proof. intros S1 S2. induction S2; auto. constructor. auto. Qed.
Lemma inside_seat c0 a0 : forall c, inside c c0 -> exists a, seat c0 a0 c a.
Proof.
  revert a0. induction c0 as [t|k cs IH] using child_ind2; intros a0 c I.
  - inversion I; subst. eexists. constructor.
  - inversion I as [|? ? ? d ID IN]; subst; [eexists; constructor|]. rewrite Forall_forall in IH.
    apply in_split in ID as (u & v & ->).
    destruct (IH d (in_elt _ _ _) (next k u d v a0) c IN) as (a & S). exists a.
    eapply seat_trans; [|exact S]. constructor. constructor.
Qed.
Lemma seat_inside c0 a0 c a : seat c0 a0 c a -> inside c c0.
Proof.
  induction 1 as [|k u d v a S IH]; [constructor|]. revert IH. generalize c0. clear.
  intros c0 IH. remember (CTree k (u ++ d :: v)) as N eqn:E. induction IH as [c|c k' cs d' ID I IH]; subst.
  - econstructor; [apply in_elt|constructor].
  - econstructor; eauto.
Qed.

(** ** The first token of a node *)
Definition opener (k : skind) : bool :=
  match k with KStoredDefinition | KComposition | KComponentList => true | _ => false end.
Definition opener_sym (x : sym) : bool := match x with Rule k => opener k | Term _ => false end.
Definition first_below (k : skind) (x : sym) : bool :=
  match fixed_position k None x with Some (Below _) => true | _ => false end
  || spread_position k None x || match x with Term TWithin => true | _ => false end || value k x.
Definition head_ok (k : skind) : bool :=
  opener k || forallb (fun x => negb (opener_sym x) && negb (first_below k x)) (firsts (pruned (production false k))).
Lemma head_checked : forallb head_ok all_skinds = true.
Proof. vm_compute. reflexivity. Qed.

Lemma turns_none k d v : turns k None d v = false.
Proof. reflexivity. Qed.
Lemma first_position k w multi late second x : first_below k x = false ->
  match position_of k w false multi late second None x with Below _ => False | _ => True end.
Proof.
  unfold first_below, position_of. intro H. apply orb_false_iff in H as [H V]. apply orb_false_iff in H as [H W].
  apply orb_false_iff in H as [F S]. rewrite S, V, W.
  destruct (fixed_position k None x) as [[]|]; try discriminate; auto.
  rewrite !andb_false_r. cbn. destruct (trailing x); cbn; auto.
Qed.
Definition is_opener (c : child) : bool := opener_sym (sym_of c).
Lemma head_spot c : forall a, fits c -> is_opener c = false ->
  exists x xs, spots_at a c = x :: xs /\ at_pos x = a_pos a /\ at_level x = a_first a /\
    exists r, toks c = at_tok x :: r.
Proof.
  induction c as [t|k cs IH] using child_ind2; intros a F NO.
  - unfold spots_at. cbn [spots]. eexists. exists []. repeat split. exists []. reflexivity.
  - inversion F as [|? ? NE L FS]; subst. destruct cs as [|d v]; [contradiction|].
    assert (In (sym_of d) (firsts (pruned (production false k)))) as I by (eapply firsts_complete; exact L).
    pose proof (skind_all _ head_checked k) as C. unfold head_ok in C. unfold is_opener in NO. cbn [sym_of opener_sym] in NO.
    rewrite NO in C. cbn [orb] in C. rewrite forallb_forall in C. specialize (C _ I).
    apply andb_true_iff in C as [C1 C2]. apply negb_true_iff in C1, C2.
    inversion IH as [|? ? IHd _]; subst. inversion FS as [|? ? Fd _]; subst.
    unfold spots_at. rewrite spots_tree. cbn [children]. cbv zeta. cbn [last_of kind_last after_first].
    rewrite turns_none. change (sym_of d) with (kind_of d) in C2.
    pose proof (first_position k (wide k (d :: v) (a_inh a)) (multi_if d) (is_late d) false (kind_of d) C2) as P.
    set (p := position_of k (wide k (d :: v) (a_inh a)) false (multi_if d) (is_late d) false None (kind_of d)) in *.
    replace (match p with Below _ => true | _ => false end) with false by (destruct p; [reflexivity ..|contradiction]).
    rewrite orb_false_r.
    match goal with |- context [spots k (a_pos a) (a_first a) ?n1 ?o1 ?i1 d ++ ?r] =>
      destruct (IHd (mkA k (a_pos a) (a_first a) n1 o1 i1) Fd C1) as (x & xs & E & EP & EL & r' & ET); unfold spots_at in E; cbn [a_rule a_pos a_first a_n a_on a_inh] in *;
      exists x, (xs ++ r); rewrite E end.
    split; [reflexivity|]. split; auto. split; auto. cbn [toks flat_map]. rewrite ET. eexists. reflexivity.
Qed.

(** ** From spots to lines *)
Definition white_at (x : spot) (w : white) : Prop :=
  match at_pos x with Below _ => exists b, w = WLine b (at_level x) | _ => is_break w = false end.
Lemma put_entry prev ln cs x : exists w, white_at x w /\ In (mkE w (Some (at_rule x)) (at_tok x)) (put prev ln cs x).
Proof.
  unfold put, white_at. destruct (at_pos x) as [| | |b].
  - destruct prev as [[q a]|].
    + destruct (tight a (at_rule x) (tkind_of (at_tok x))); eexists; (split; [|left; reflexivity]); reflexivity.
    + eexists. split; [|left; reflexivity]. reflexivity.
  - eexists. split; [|left; reflexivity]. reflexivity.
  - eexists. split; [|left; reflexivity]. reflexivity.
  - generalize (filter (fun c => negb (line (tstart c) =? ln)) cs).
    generalize (behind match prev with Some _ => false | None => true end (filter (fun c => line (tstart c) =? ln) cs)).
    intros bh rs. revert b ln. induction rs as [|r rs IH]; intros b ln; cbn [rows].
    + eexists. split; [eexists; reflexivity|]. apply in_or_app. right. left. reflexivity.
    + destruct (IH (match b with Always => Kept | _ => b end) (line (tend r))) as (w & W & H).
      exists w. split; auto. apply in_app_or in H as [H|H]; apply in_or_app; [left; exact H|]. right. right. exact H.
Qed.
Lemma weave_entry x items : forall prev ln cs xs, filter plain items = map at_tok xs -> In x xs ->
  exists w, white_at x w /\ In (mkE w (Some (at_rule x)) (at_tok x)) (weave prev ln cs items xs).
Proof.
  induction items as [|t items IH]; intros prev ln cs xs E I; cbn [filter weave] in *.
  - destruct xs; [destruct I|discriminate].
  - rewrite is_commentary. change (plain t) with (negb (commentary t)) in E. destruct (commentary t) eqn:CT; cbn [negb] in E; [apply IH; auto|].
    destruct xs as [|y xs]; [destruct I|]. cbn [map] in E. injection E as -> E.
    destruct I as [->|I].
    + destruct (put_entry prev ln cs x) as (w & W & H). exists w. split; auto. apply in_or_app. auto.
    + destruct (IH (Some (at_rule y, tkind_of (at_tok y))) (line (tend (at_tok y))) [] xs E I) as (w & W & H).
      exists w. split; auto. apply in_or_app. auto.
Qed.

Lemma only_entry l e e' : NoDup (map e_tok l) -> In e l -> In e' l -> e_tok e = e_tok e' -> e = e'.
Proof.
  induction l as [|x l IH]; cbn [map]; intros ND I I' E; [destruct I|]. inversion ND as [|? ? NI ND']; subst.
  destruct I as [->|I], I' as [->|I']; auto; exfalso; apply NI.
  - rewrite E. apply in_map. exact I'.
  - rewrite <- E. apply in_map. exact I.
Qed.

(** ** Levels *)
Definition root_args : args := mkA KStoredDefinition Beside 0 0 false false.
Definition base (a : args) : nat := (a_n a + one_if (a_on a))%nat.

Fixpoint symbols (r : rx) : list sym :=
  match r with
  | Void | Eps => []
  | Sy x => [x]
  | Cat a b | Alt a b => symbols a ++ symbols b
  | Star a => symbols a
  end.

Section Levels.
Variables (tree : child) (items : list token).
Let l := reference tree items.
Hypothesis Hitems : filter plain items = map at_tok (spots_at root_args tree).
Hypothesis Hnodup : NoDup (map e_tok l).
Hypothesis Hfits : fits tree.

Lemma spot_entry x : In x (spots_at root_args tree) ->
  (exists e, In e l /\ e_tok e = at_tok x) /\ forall e, In e l -> e_tok e = at_tok x -> white_at x (e_white e).
Proof.
  intro I. destruct (weave_entry x items None 1 [] _ Hitems I) as (w' & W' & H).
  change (In (mkE w' (Some (at_rule x)) (at_tok x)) l) in H. split; [exists (mkE w' (Some (at_rule x)) (at_tok x)); auto|].
  intros e IE E. rewrite (only_entry l e _ Hnodup IE H E). exact W'.
Qed.

Lemma inside_fits c0 c : fits c0 -> inside c c0 -> fits c.
Proof.
  intros F I. revert F. induction I as [c|c k cs d ID I IH]; intro F; auto. apply IH.
  inversion F as [|? ? NE L FS]; subst. rewrite Forall_forall in FS. auto.
Qed.

(** A node with a place at the beginning of a line. *)
Lemma seat_leads c a b : seat tree root_args c a -> is_opener c = false -> a_pos a = Below b -> leads l c (a_first a).
Proof.
  intros S NO P. pose proof (inside_fits _ _ Hfits (seat_inside _ _ _ _ S)) as F.
  destruct (head_spot c a F NO) as (x & xs & E & EP & EL & r & ET). exists (at_tok x), r. split; auto.
  destruct (spot_entry x) as [EX ALL].
  - eapply infix_in; [apply seat_infix; exact S|]. rewrite E. left. reflexivity.
  - split; auto. intros e I T. specialize (ALL e I T). unfold white_at in ALL. rewrite EP, P, EL in ALL. exact ALL.
Qed.
(** ... and conversely. *)
Lemma leads_seat c a n : seat tree root_args c a -> is_opener c = false -> leads l c n ->
  a_first a = n /\ exists b, a_pos a = Below b.
Proof.
  intros S NO (t & r & T & (e & I & ET) & ALL). pose proof (inside_fits _ _ Hfits (seat_inside _ _ _ _ S)) as F.
  destruct (head_spot c a F NO) as (x & xs & E & EP & EL & r' & ET'). rewrite T in ET'. injection ET' as -> _.
  destruct (spot_entry x) as [_ AW].
  - eapply infix_in; [apply seat_infix; exact S|]. rewrite E. left. reflexivity.
  - specialize (AW e I ET). destruct (ALL e I ET) as (b & W). unfold white_at in AW. rewrite W, EP, EL in AW.
    destruct (a_pos a) as [| | |b']; try discriminate. destruct AW as (b2 & EW). injection EW as _ ->. eauto.
Qed.

(** Base level and level of the first token agree. *)
Definition level_ok (k : skind) : bool :=
  forallb (fun x => match x with
                    | Rule k' => opener k || skind_eqb k' KComponentReference ||
                        forallb (fun m => forallb (fun w => Nat.eqb (deeper k w m None x) 0) [true; false]) [true; false]
                    | Term _ => true end) (firsts (pruned (production false k))) &&
  (negb (skind_eqb k KComponentReference) || forallb (fun x => match x with Rule _ => false | Term _ => true end) (firsts (pruned (production false k)))) &&
  (negb (skind_eqb k KComposition) || forallb (fun x => match x with
     Rule KLanguageSpecification | Term TSemicolon => false | _ => true end) (firsts (pruned (production false k)))) &&
  (negb (skind_eqb k KStoredDefinition) || forallb (fun x => match x with
     Rule KClassDefinition => true | Rule _ => false | _ => true end) (firsts (pruned (production false k)))).
Lemma level_checked : forallb level_ok all_skinds = true.
Proof. vm_compute. reflexivity. Qed.

Lemma first_deeper k w multi late d :
  In (Rule d) (firsts (pruned (production false k))) -> d <> KComponentReference ->
  match position_of k w false multi late false None (Rule d) with
  | Below _ => True
  | _ => deeper k w multi None (Rule d) = O
  end.
Proof.
  intros I ND. pose proof (skind_all _ level_checked k) as C. unfold level_ok in C.
  apply andb_true_iff in C as [C C4]. apply andb_true_iff in C as [C C3]. apply andb_true_iff in C as [C1 C2].
  rewrite forallb_forall in C1. specialize (C1 _ I). cbn beta iota in C1.
  apply orb_true_iff in C1 as [C1|C1]; [apply orb_true_iff in C1 as [C1|C1]|].
  - destruct k; try discriminate C1.
    + replace (skind_eqb KStoredDefinition KStoredDefinition) with true in C4 by reflexivity. cbn [negb orb] in C4. rewrite forallb_forall in C4. specialize (C4 _ I). destruct d; try discriminate C4. destruct w; reflexivity.
    + replace (skind_eqb KComposition KComposition) with true in C3 by reflexivity. cbn [negb orb] in C3.
      rewrite forallb_forall in C3. specialize (C3 _ I). unfold position_of. cbn [fixed_position].
      destruct d; try exact Logic.I; discriminate C3.
    + unfold position_of. cbn [fixed_position]. destruct w; cbn.
      * rewrite !orb_true_r. exact Logic.I.
      * assert (d = KComponentDeclaration) as -> by (vm_compute in I; destruct I as [X|[]]; injection X; auto). destruct multi, late; reflexivity.
  - apply skind_eqb_eq in C1. contradiction.
  - destruct (position_of k w false multi late false None (Rule d)); auto.
    all: rewrite forallb_forall in C1; specialize (C1 multi); cbn [In] in C1.
    all: assert (forallb (fun w => Nat.eqb (deeper k w multi None (Rule d)) 0) [true; false] = true) as C by (apply C1; destruct multi; auto).
    all: rewrite forallb_forall in C; specialize (C w); cbn [In] in C; apply Nat.eqb_eq, C; destruct w; auto.
Qed.

Lemma call_base k w all pos first u n on d v :
  base (call k w all pos first u n on d v) =
  (n + deeper k w (multi_if d) (kind_last u) (kind_of d) + one_if (on || turns k (last_of u) d v))%nat.
Proof. unfold base, call. cbn [a_n a_on]. destruct (continues k d); cbn [andb one_if]; lia. Qed.

Lemma base_first k cs a : seat tree root_args (CTree k cs) a -> k <> KComponentReference -> a_first a = base a.
Proof.
  intros S. remember (CTree k cs) as c eqn:E. revert k cs E.
  induction S as [|k u d v a S IH]; intros k0 cs0 E NC; [reflexivity|]. subst d.
  unfold next. rewrite call_base. unfold call. cbn [a_first].
  destruct (is_new (rev u) _) eqn:NW; [reflexivity|].
  destruct u as [|e u].
  2:{ cbn [rev] in NW. destruct (rev u); discriminate. }
  cbn [rev app leak_in on_before last_of kind_last after_first kind_of] in *. rewrite turns_none, orb_false_r in *. rewrite Nat.add_0_r.
  pose proof (inside_fits _ _ Hfits (seat_inside _ _ _ _ S)) as F. inversion F as [|? ? NE L FS]; subst.
  assert (In (Rule k0) (firsts (pruned (production false k)))) as I by (eapply firsts_complete; exact L).
  rewrite (IH k (CTree k0 cs0 :: v) eq_refl).
  2:{ intros ->. clear - I. vm_compute in I. intuition discriminate. }
  pose proof (first_deeper k (wide k (CTree k0 cs0 :: v) (a_inh a)) (multi_if (CTree k0 cs0)) (is_late (CTree k0 cs0)) k0 I NC) as D.
  unfold base. destruct (position_of k _ false _ _ false None (Rule k0)); try discriminate NW; rewrite D; lia.
Qed.

(** ** Nodes that are no expressions *)
Definition quiet (k : skind) : bool :=
  match k with
  | KExpression | KSimpleExpression | KLogicalExpression | KLogicalTerm | KLogicalFactor | KRelation
  | KArithmeticExpression | KTerm | KFactor | KPrimary | KOutputExpressionList => false
  | _ => true
  end.
Lemma quiet_turns k prev d v : quiet k = true -> turns k prev d v = false.
Proof.
  intro Q. unfold turns. destruct prev; [|reflexivity]. destruct v; [reflexivity|].
  replace (operates k (kind_of d)) with false; [reflexivity|]. destruct k; try discriminate; reflexivity.
Qed.
Lemma quiet_continues k d : quiet k = true -> continues k d = false.
Proof. destruct k; try discriminate; reflexivity. Qed.
Lemma quiet_on k x rest : quiet k = true -> forall prev on, on_before k prev on x rest = on.
Proof.
  intro Q. induction x as [|a x IH]; intros prev on; cbn [on_before]; [reflexivity|].
  rewrite IH, quiet_turns, quiet_continues by exact Q. cbn. rewrite !orb_false_r. reflexivity.
Qed.
Lemma leak_in_app k u v : leak_in k (u ++ v) = (leak_in k u + leak_in k v)%nat.
Proof. induction u as [|d u IH]; cbn [app leak_in]; [reflexivity|]. rewrite IH. lia. Qed.
Lemma no_leak k u d v : leak (CTree k (u ++ d :: v)) = O -> leak_in k u = O /\ leak d = O.
Proof. rewrite leak_tree, leak_in_app. cbn [leak_in]. lia. Qed.

Definition place (k : skind) (u : list child) (d : child) (v : list child) (a : args) : position :=
  position_of k (wide k (u ++ d :: v) (a_inh a)) false (multi_if d) (is_late d) (after_first (rev u)) (kind_last (rev u)) (kind_of d).
Definition depth (k : skind) (u : list child) (d : child) (v : list child) (a : args) : nat :=
  deeper k (wide k (u ++ d :: v) (a_inh a)) (multi_if d) (kind_last (rev u)) (kind_of d).
Lemma quiet_base k u d v a : quiet k = true -> leak_in k u = O -> base (next k u d v a) = (base a + depth k u d v a)%nat.
Proof.
  intros Q L. unfold next. rewrite call_base, quiet_on, quiet_turns, L, orb_false_r by exact Q. unfold base, depth. lia.
Qed.
Lemma quiet_below k u d v a b : quiet k = true -> place k u d v a = Below b ->
  a_pos (next k u d v a) = Below b /\ a_first (next k u d v a) = base (next k u d v a).
Proof.
  intros Q P. unfold next. rewrite call_base. unfold call. cbn [a_pos a_first]. rewrite quiet_turns by exact Q.
  unfold place in P. rewrite P. replace (is_new (rev u) (Below b)) with true by (destruct (rev u); reflexivity). auto.
Qed.
Lemma quiet_leads k u d v a b : seat tree root_args (CTree k (u ++ d :: v)) a -> quiet k = true -> leak_in k u = O ->
  is_opener d = false -> place k u d v a = Below b -> leads l d (base a + depth k u d v a).
Proof.
  intros S Q L NO P. destruct (quiet_below k u d v a b Q P) as [E1 E2]. rewrite <- quiet_base by assumption. rewrite <- E2.
  eapply seat_leads; eauto. constructor. exact S.
Qed.

(** ** What can stand where *)
Lemma symbols_complete r w : lang r w -> forall x, In x w -> In x (symbols r).
Proof.
  induction 1; intros y I; cbn [symbols]; cbn [In] in I; try contradiction; auto.
  - apply in_or_app. apply in_app_or in I as [I|I]; auto.
  - apply in_or_app; auto.
  - apply in_or_app; auto.
  - apply in_app_or in I as [I|I]; auto.
Qed.
Lemma child_symbol k u d v : fits (CTree k (u ++ d :: v)) -> In (sym_of d) (symbols (pruned (production false k))).
Proof.
  intro F. inversion F as [|? ? NE L FS]; subst. eapply symbols_complete; [exact L|]. rewrite map_app. apply in_or_app.
  right. left. reflexivity.
Qed.
Lemma child_pair k u e d v : fits (CTree k (u ++ e :: d :: v)) -> In (sym_of e, sym_of d) (pairs (pruned (production false k))).
Proof.
  intro F. inversion F as [|? ? NE L FS]; subst. eapply pairs_complete; [exact L|]. exists (map sym_of u), (map sym_of v).
  rewrite map_app. reflexivity.
Qed.

Definition parents_ok (k : skind) : bool :=
  forallb (fun x => negb (statement x) || block k || skind_eqb k KEquationSection || skind_eqb k KAlgorithmSection)
    (symbols (pruned (production false k)))
  && forallb (fun x => match x with Rule k' => negb (block k') || skind_eqb k KEquation || skind_eqb k KStatement | Term _ => true end)
    (symbols (pruned (production false k)))
  && forallb (fun p => match snd p with Rule k' => negb (block k') | Term _ => true end) (pairs (pruned (production false k)))
  && forallb (fun x => negb (trailing x) || quiet k) (symbols (pruned (production false k))).
Lemma parents_checked : forallb parents_ok all_skinds = true.
Proof. vm_compute. reflexivity. Qed.

Definition statement_kind (k : skind) : bool := skind_eqb k KEquation || skind_eqb k KStatement.
Lemma statement_kinds k : statement (Rule k) = statement_kind k.
Proof. destruct k; reflexivity. Qed.

Lemma seat_fits c a : seat tree root_args c a -> fits c.
Proof. intro S. eapply inside_fits; [exact Hfits|]. eapply seat_inside; eauto. Qed.

Lemma place_fixed k u d v a p : fixed_position k (kind_last (rev u)) (kind_of d) = Some p -> place k u d v a = p.
Proof. unfold place, position_of. intros ->. reflexivity. Qed.
Lemma statement_place k u d v a :
  block k = true \/ k = KEquationSection \/ k = KAlgorithmSection -> statement (kind_of d) = true ->
  exists b, place k u d v a = Below b.
Proof.
  intros K S. assert (exists b, fixed_position k (kind_last (rev u)) (kind_of d) = Some (Below b)) as (b & E).
  { destruct K as [K|[->| ->]].
    - exists Kept. destruct k; try discriminate; cbn [fixed_position]; rewrite S; reflexivity.
    - cbn [fixed_position]. rewrite S. destruct (after_semicolon (kind_last (rev u))); eauto.
    - cbn [fixed_position]. rewrite S. destruct (after_semicolon (kind_last (rev u))); eauto. }
  exists b. apply place_fixed. exact E.
Qed.
Lemma block_quiet k : block k = true \/ k = KEquationSection \/ k = KAlgorithmSection -> quiet k = true.
Proof. intros [K|[->| ->]]; [destruct k; try discriminate; reflexivity|reflexivity ..]. Qed.

Hypothesis Hroot : exists cs, tree = CTree KStoredDefinition cs.
Lemma seat_parent k cs a : seat tree root_args (CTree k cs) a -> k <> KStoredDefinition ->
  exists k' u v a', seat tree root_args (CTree k' (u ++ CTree k cs :: v)) a' /\ a = next k' u (CTree k cs) v a'.
Proof.
  intros S NR. destruct Hroot as (cs' & E). remember (CTree k cs) as c eqn:EC.
  destruct S as [|k' u d v a' S'].
  - rewrite E in EC. congruence.
  - exists k', u, v, a'. auto.
Qed.
Lemma statement_below k cs a : seat tree root_args (CTree k cs) a -> statement_kind k = true -> exists b, a_pos a = Below b.
Proof.
  intros S K. destruct (seat_parent _ _ _ S) as (k' & u & v & a' & S' & ->); [intros ->; discriminate|].
  pose proof (child_symbol _ _ _ _ (seat_fits _ _ S')) as I. cbn [sym_of] in I.
  pose proof (skind_all _ parents_checked k') as C. unfold parents_ok in C.
  apply andb_true_iff in C as [C _]. apply andb_true_iff in C as [C _]. apply andb_true_iff in C as [C _].
  rewrite forallb_forall in C. specialize (C _ I). rewrite statement_kinds, K in C. cbn [negb orb] in C.
  assert (block k' = true \/ k' = KEquationSection \/ k' = KAlgorithmSection) as BK.
  { apply orb_true_iff in C as [C|C]; [apply orb_true_iff in C as [C|C]|]; auto; apply skind_eqb_eq in C; auto. }
  destruct (statement_place k' u (CTree k cs) v a' BK) as (b & P); [cbn [kind_of]; rewrite statement_kinds; exact K|].
  exists b. apply (quiet_below k' u _ v a' b (block_quiet _ BK) P).
Qed.
Lemma block_below k cs a : seat tree root_args (CTree k cs) a -> block k = true -> exists b, a_pos a = Below b.
Proof.
  intros S K. destruct (seat_parent _ _ _ S) as (k' & u & v & a' & S' & ->); [intros ->; discriminate|].
  pose proof (seat_fits _ _ S') as F. pose proof (child_symbol _ _ _ _ F) as I. cbn [sym_of] in I.
  pose proof (skind_all _ parents_checked k') as C. unfold parents_ok in C.
  apply andb_true_iff in C as [C _]. apply andb_true_iff in C as [C C3]. apply andb_true_iff in C as [_ C].
  rewrite forallb_forall in C. specialize (C _ I). cbn beta iota in C. rewrite K in C. cbn [negb orb] in C.
  assert (statement_kind k' = true) as SK by exact C.
  destruct (statement_below _ _ _ S' SK) as (b & P). exists b.
  destruct u as [|e u _] using rev_ind.
  - unfold next, call. cbn [app rev last_of kind_last after_first a_pos kind_of]. rewrite turns_none.
    assert (fixed_position k' None (Rule k) = None /\ trailing (Rule k) = false /\ value k' (Rule k) = false /\
            forall w, (w && spread_position k' None (Rule k))%bool = false) as (E1 & E2 & E3 & E4).
    { clear - SK K. unfold statement_kind in SK. apply orb_true_iff in SK as [SK|SK]; apply skind_eqb_eq in SK; subst k';
        destruct k; try discriminate; repeat split; intro w; destruct w; reflexivity. }
    unfold position_of. rewrite E1, E2, E3, E4, andb_false_r. cbn [andb orb is_new]. exact P.
  - rewrite <- app_assoc in F. cbn [app] in F. pose proof (child_pair _ _ _ _ _ F) as PI.
    rewrite forallb_forall in C3. specialize (C3 _ PI). cbn [snd sym_of] in C3. rewrite K in C3. discriminate.
Qed.

(** ** Blocks *)
Lemma block_levels k cs : inside (CTree k cs) tree -> block k = true -> leak (CTree k cs) = O ->
  exists n, leads l (CTree k cs) n /\
    forall d, In d cs -> (block_word (kind_of d) = true -> leads l d n) /\ (statement (kind_of d) = true -> leads l d (S n)).
Proof.
  intros IN K L. destruct (inside_seat tree root_args _ IN) as (a & S). exists (base a).
  assert (k <> KComponentReference) as NC by (intros ->; discriminate).
  assert (opener k = false) as NO by (destruct k; try discriminate; reflexivity).
  split.
  - destruct (block_below _ _ _ S K) as (b & P). rewrite <- (base_first _ _ _ S NC). eapply seat_leads; eauto.
  - intros d ID. apply in_split in ID as (u & v & ->). destruct (no_leak _ _ _ _ L) as [LU _].
    assert (quiet k = true) as Q by (apply block_quiet; auto). split; intro B.
    + destruct d as [t|]; [|destruct k; discriminate].
      replace (base a) with (base a + depth k u (CTok t) v a)%nat.
      2:{ unfold depth. replace (deeper _ _ _ _ _) with O; [lia|]. clear - K B. cbn [kind_of] in *.
          destruct k; try discriminate; cbn; rewrite ?andb_false_r; reflexivity. }
      apply (quiet_leads k u (CTok t) v a Kept); auto. apply place_fixed.
      destruct k; try discriminate; cbn [fixed_position kind_of] in *; rewrite B, orb_true_r; reflexivity.
    + destruct (statement_place k u d v a (or_introl K) B) as (b & P).
      replace (Datatypes.S (base a)) with (base a + depth k u d v a)%nat.
      2:{ unfold depth. replace (deeper _ _ _ _ _) with 1%nat; [lia|]. clear - K B.
          destruct k; try discriminate; cbn; rewrite B, ?orb_true_r; reflexivity. }
      apply (quiet_leads k u d v a b); auto. destruct d as [|k' ds]; [discriminate|]. destruct k'; try discriminate; reflexivity.
Qed.

(** ** Classes *)
Lemma opener_kind d : opener_sym (kind_of d) = is_opener d.
Proof. destruct d; reflexivity. Qed.
Lemma body_levels cs a : seat tree root_args (CTree KComposition cs) a -> leak (CTree KComposition cs) = O -> body_at l (base a) cs.
Proof.
  intros S L.
  assert (forall u d v b n, cs = u ++ d :: v -> is_opener d = false -> fixed_position KComposition (kind_last (rev u)) (kind_of d) = Some (Below b) ->
    (forall w m, deeper KComposition w m (kind_last (rev u)) (kind_of d) = n) -> leads l d (base a + n)) as G.
  { intros u d v b n -> NO P D. destruct (no_leak _ _ _ _ L) as [LU _].
    replace n with (depth KComposition u d v a) by apply D. eapply quiet_leads; eauto. apply place_fixed. exact P. }
  assert (forall k ds, k = KEquationSection \/ k = KAlgorithmSection -> In (CTree k ds) cs ->
    exists a', seat tree root_args (CTree k ds) a' /\ base a' = base a /\ leak (CTree k ds) = O) as GS.
  { intros k ds K I. apply in_split in I as (u & v & E). subst cs. destruct (no_leak _ _ _ _ L) as [LU LD].
    exists (next KComposition u (CTree k ds) v a). split; [constructor; exact S|]. split; auto.
    rewrite quiet_base by auto. unfold depth. destruct K as [->| ->]; cbn; lia. }
  split.
  - intros d I T. apply in_split in I as (u & v & E). rewrite <- (Nat.add_0_r (base a)).
    destruct d as [t|]; [|discriminate]. apply (G u (CTok t) v Always O E eq_refl).
    + cbn [kind_of] in *. destruct (tkind_of t); try discriminate; reflexivity.
    + intros w m. cbn [kind_of] in *. destruct (tkind_of t); try discriminate; reflexivity.
  - intros k ds K I. apply in_split in I as (u & v & E). rewrite <- (Nat.add_0_r (base a)).
    destruct K as [->| ->]; apply (G u _ v Always O E eq_refl); reflexivity.
  - intros k ds x K I IX T. destruct (GS k ds K I) as (a' & S' & B & LD). apply in_split in IX as (u & v & ->).
    destruct (no_leak _ _ _ _ LD) as [LU _].
    destruct (statement_place k u x v a' (or_intror K) T) as (b & P). rewrite <- B.
    replace (Datatypes.S (base a')) with (base a' + depth k u x v a')%nat.
    2:{ unfold depth. replace (deeper _ _ _ _ _) with 1%nat; [lia|]. clear - K T. destruct x as [|kx xs]; [discriminate|].
        destruct K as [->| ->]; destruct kx; try discriminate; cbn; rewrite ?andb_false_r; reflexivity. }
    apply (quiet_leads k u x v a' b); auto. + apply block_quiet. auto.
    + destruct x as [|k' xs]; [discriminate|]. destruct k'; try discriminate; reflexivity.
  - intros ds xs I IX. apply in_split in I as (u & v & E). subst cs. destruct (no_leak _ _ _ _ L) as [LU LD].
    assert (seat tree root_args (CTree KElementList ds) (next KComposition u (CTree KElementList ds) v a)) as S' by (constructor; exact S).
    assert (place KComposition u (CTree KElementList ds) v a = Below Always) as P by (apply place_fixed; reflexivity).
    destruct (quiet_below KComposition u (CTree KElementList ds) v a Always eq_refl P) as [E1 E2]. rewrite (quiet_base KComposition) in E2 by auto.
    assert (base (next KComposition u (CTree KElementList ds) v a) = Datatypes.S (base a)) as B.
    { rewrite quiet_base by auto. unfold depth. cbn. lia. }
    set (a' := next KComposition u (CTree KElementList ds) v a) in *. apply in_split in IX as (u' & v' & ->).
    destruct (no_leak _ _ _ _ LD) as [LU' _]. destruct u' as [|e u'].
    + rewrite <- B. cbn [app] in *.
      assert (seat tree root_args (CTree KElement xs) (next KElementList [] (CTree KElement xs) v' a')) as S2 by (constructor; exact S').
      assert (a_pos (next KElementList [] (CTree KElement xs) v' a') = Below Always) as P2 by exact E1.
      rewrite <- (base_first _ _ _ S' ltac:(discriminate)).
      change (a_first a') with (a_first (next KElementList [] (CTree KElement xs) v' a')).
      eapply seat_leads; eauto.
    + rewrite <- B. replace (base a') with (base a' + depth KElementList (e :: u') (CTree KElement xs) v' a')%nat by (unfold depth; cbn; rewrite ?andb_false_r; cbn; lia).
      apply (quiet_leads KElementList (e :: u') (CTree KElement xs) v' a' Kept); auto. apply place_fixed. cbn [rev].
      cbn [fixed_position kind_of]. destruct (rev u') as [|y r]; reflexivity.
  - intros ds I. apply in_split in I as (u & v & E). replace (Datatypes.S (base a)) with (base a + 1)%nat by lia.
    apply (G u _ v Always 1%nat E eq_refl); reflexivity.
  - intros u ds v E. destruct (external_part (kind_last (rev u))) eqn:X.
    + replace (Datatypes.S (Datatypes.S (base a))) with (base a + 2)%nat by lia. apply (G u _ v Never 2%nat E eq_refl).
      * cbn [fixed_position kind_of]. rewrite X. reflexivity.
      * intros w m. cbn. rewrite X. reflexivity.
    + replace (Datatypes.S (base a)) with (base a + 1)%nat by lia. apply (G u _ v Always 1%nat E eq_refl).
      * cbn [fixed_position kind_of]. rewrite X. reflexivity.
      * intros w m. cbn. rewrite X. reflexivity.
Qed.
Lemma class_levels cs a : seat tree root_args (CTree KLongClassSpecifier cs) a -> leak (CTree KLongClassSpecifier cs) = O ->
  class_at l (base a) cs.
Proof.
  intros S L. split.
  - intros d I T. apply in_split in I as (u & v & ->). destruct (no_leak _ _ _ _ L) as [LU _].
    replace (base a) with (base a + depth KLongClassSpecifier u d v a)%nat.
    2:{ unfold depth. rewrite T. cbn. rewrite ?andb_false_r. cbn. lia. }
    destruct d as [t|]; [|discriminate]. apply (quiet_leads KLongClassSpecifier u (CTok t) v a Always); auto.
    apply place_fixed. rewrite T. reflexivity.
  - intros ds I. apply in_split in I as (u & v & ->). destruct (no_leak _ _ _ _ L) as [LU _].
    replace (Datatypes.S (base a)) with (base a + depth KLongClassSpecifier u (CTree KDescriptionString ds) v a)%nat.
    2:{ unfold depth. cbn. lia. }
    assert (u <> []) as NU.
    { intros ->. pose proof (seat_fits _ _ S) as F. inversion F as [|? ? NE LA FS]; subst. cbn [app map sym_of] in LA.
      apply firsts_complete in LA. vm_compute in LA. intuition discriminate. }
    apply (quiet_leads KLongClassSpecifier u (CTree KDescriptionString ds) v a Never); auto.
    unfold place, position_of. cbn [fixed_position kind_of trailing andb].
    destruct u as [|e u _] using rev_ind; [contradiction|]. rewrite rev_app_distr. reflexivity.
  - intros ds I. apply in_split in I as (u & v & ->). destruct (no_leak _ _ _ _ L) as [LU LD].
    replace (base a) with (base (next KLongClassSpecifier u (CTree KComposition ds) v a)).
    + apply body_levels; auto. constructor. exact S.
    + rewrite quiet_base by auto. unfold depth. cbn. rewrite ?andb_false_r. cbn. lia.
Qed.

(** ** Parts *)
Lemma kind_sym c : kind_of c = sym_of c.
Proof. destruct c; reflexivity. Qed.
Definition no_list (k : skind) (x : sym) : bool :=
  negb (match x with Rule KEnumList | Rule KImportList => true | _ => false end).
Lemma no_list_checked : forallb (fun k => negb (plain_part k) || forallb (no_list k) (symbols (pruned (production false k)))) all_skinds = true.
Proof. vm_compute. reflexivity. Qed.
Lemma part_seat c c0 : part c c0 -> forall a, seat tree root_args c0 a -> leak c0 = O ->
  exists a', seat tree root_args c a' /\ base a' = base a /\ leak c = O /\ (a_on a = false -> a_on a' = false).
Proof.
  induction 1 as [c|c k cs d PP ONE NT VM ID P IH]; intros a S L; [eauto|].
  apply in_split in ID as (u & v & ->). destruct (no_leak _ _ _ _ L) as [LU LD].
  destruct (IH (next k u d v a)) as (a' & S' & B & LC & ON); [constructor; exact S|exact LD|].
  exists a'. split; auto. split; [|split; auto; intros _; apply ON; unfold next, call; cbn [a_on];
    rewrite quiet_continues; [reflexivity|destruct k; try discriminate; reflexivity]]. rewrite B, quiet_base; auto; [|destruct k; try discriminate; reflexivity].
  unfold depth. replace (deeper _ _ _ _ _) with O; [lia|].
  assert ((value k (kind_of d) && multi_if d)%bool = false) as V.
  { destruct (value k (kind_of d)); [rewrite (VM eq_refl)|]; reflexivity. }
  assert (no_list k (kind_of d) = true) as NL.
  { pose proof (child_symbol _ _ _ _ (seat_fits _ _ S)) as I. pose proof (skind_all _ no_list_checked k) as C.
    cbn beta in C. rewrite PP in C. cbn [negb orb] in C. rewrite forallb_forall in C. rewrite kind_sym. auto. }
  unfold no_list in NL. apply negb_true_iff in NL.
  assert (k = KComponentList -> wide k (u ++ d :: v) (a_inh a) = false) as W.
  { intros ->. specialize (ONE eq_refl). cbn [wide]. unfold spans. rewrite ONE, N.ltb_irrefl. reflexivity. }
  unfold deeper. replace (indented k (wide k (u ++ d :: v) (a_inh a))) with false.
  2:{ destruct k; try discriminate; try reflexivity. rewrite (W eq_refl). reflexivity. }
  destruct k; try discriminate; rewrite NT, V, NL, ?andb_false_r; reflexivity.
Qed.

(** ** What stands at the end of elements and equations *)
Definition bools : list bool := [true; false].
Lemma bools_all b : In b bools.
Proof. destruct b; cbn; auto. Qed.
Definition is_never (p : position) : bool := match p with Below Never => true | _ => false end.
Definition trail_ok (k : skind) : bool :=
  skind_eqb k KDescription || skind_eqb k KComposition ||
  forallb (fun p => negb (trailing (snd p)) ||
     forallb (fun w => forallb (fun m => Nat.eqb (deeper k w m (Some (fst p)) (snd p)) 1 &&
       forallb (fun la => forallb (fun se => is_never (position_of k w false m la se (Some (fst p)) (snd p))) bools) bools) bools) bools)
    (pairs (pruned (production false k))).
Lemma trail_checked : forallb trail_ok all_skinds = true.
Proof. vm_compute. reflexivity. Qed.

Lemma description_child u x v : fits (CTree KDescription (u ++ x :: v)) ->
  kind_of x = Rule KDescriptionString \/ kind_of x = Rule KAnnotationClause.
Proof.
  intro F. apply child_symbol in F. rewrite <- kind_sym in F. revert F. generalize (kind_of x). intros y I.
  vm_compute in I. destruct I as [<-|[<-|[]]]; auto.
Qed.
Lemma trailing_levels k u d v a : seat tree root_args (CTree k (u ++ d :: v)) a -> leak (CTree k (u ++ d :: v)) = O ->
  u <> [] -> trailing (kind_of d) = true -> k <> KDescription -> k <> KComposition ->
  leads l d (S (base a)) /\ forall ds x, d = CTree KDescription ds -> In x ds -> leads l x (S (base a)).
Proof.
  intros S L NU T N1 N2. destruct (no_leak _ _ _ _ L) as [LU LD]. pose proof (seat_fits _ _ S) as F.
  destruct u as [|e u _] using rev_ind; [contradiction|]. clear NU.
  assert (F' := F). rewrite <- app_assoc in F'. cbn [app] in F'. pose proof (child_pair _ _ _ _ _ F') as PI.
  pose proof (child_symbol _ _ _ _ F) as SI. pose proof (skind_all _ parents_checked k) as C. unfold parents_ok in C.
  apply andb_true_iff in C as [_ C]. rewrite forallb_forall in C. specialize (C _ SI). rewrite <- kind_sym, T in C. cbn [negb orb] in C.
  pose proof (skind_all _ trail_checked k) as D. unfold trail_ok in D.
  replace (skind_eqb k KDescription) with false in D by (symmetry; apply not_true_iff_false; intro X; apply skind_eqb_eq in X; contradiction).
  replace (skind_eqb k KComposition) with false in D by (symmetry; apply not_true_iff_false; intro X; apply skind_eqb_eq in X; contradiction).
  cbn [orb] in D. rewrite forallb_forall in D. specialize (D _ PI). cbn [fst snd] in D. rewrite <- !kind_sym, T in D. cbn [negb orb] in D.
  rewrite forallb_forall in D. specialize (D (wide k ((u ++ [e]) ++ d :: v) (a_inh a)) (bools_all _)).
  rewrite forallb_forall in D. specialize (D (multi_if d) (bools_all _)). apply andb_true_iff in D as [D P].
  rewrite forallb_forall in P. specialize (P (is_late d) (bools_all _)).
  rewrite forallb_forall in P. specialize (P (after_first (rev (u ++ [e]))) (bools_all _)). apply Nat.eqb_eq in D.
  assert (kind_last (rev (u ++ [e])) = Some (kind_of e)) as KL by (rewrite rev_app_distr; reflexivity).
  assert (depth k (u ++ [e]) d v a = 1%nat) as ED by (unfold depth; rewrite KL; exact D).
  assert (place k (u ++ [e]) d v a = Below Never) as EP.
  { unfold place. rewrite KL. unfold is_never in P. destruct (position_of k _ false (multi_if d) (is_late d) _ _ _) as [| | |[]]; try discriminate; reflexivity. }
  assert (is_opener d = false) as NO by (rewrite <- opener_kind; destruct d as [|kd ds]; [discriminate|]; destruct kd; try discriminate; reflexivity).
  split.
  - replace (Datatypes.S (base a)) with (base a + depth k (u ++ [e]) d v a)%nat by lia. eapply quiet_leads; eauto.
  - intros ds x -> IX. destruct (quiet_below _ _ _ _ _ _ C EP) as [E1 E2].
    assert (seat tree root_args (CTree KDescription ds) (next k (u ++ [e]) (CTree KDescription ds) v a)) as S' by (constructor; exact S).
    pose proof (quiet_base k (u ++ [e]) (CTree KDescription ds) v a C LU) as B. rewrite ED in B.
    set (a' := next k (u ++ [e]) (CTree KDescription ds) v a) in *. replace (Datatypes.S (base a)) with (base a') by lia.
    apply in_split in IX as (u' & v' & ->). destruct (no_leak _ _ _ _ LD) as [LU' _].
    assert (is_opener x = false) as NX.
    { rewrite <- opener_kind. destruct (description_child _ _ _ (seat_fits _ _ S')) as [->| ->]; reflexivity. }
    destruct u' as [|e' u'].
    + rewrite <- E2. cbn [app] in *.
      assert (a_pos (next KDescription [] x v' a') = Below Never /\ a_first (next KDescription [] x v' a') = a_first a') as [P1 P2].
      { unfold next, call. cbn [rev last_of kind_last after_first a_pos a_first]. rewrite turns_none.
        destruct (description_child [] _ _ (seat_fits _ _ S')) as [->| ->]; cbn; rewrite ?andb_false_r; cbn; auto. }
      rewrite <- P2. apply (seat_leads x (next KDescription [] x v' a') Never); auto. constructor. exact S'.
    + replace (base a') with (base a' + depth KDescription (e' :: u') x v' a')%nat by (unfold depth; cbn; lia).
      apply (quiet_leads KDescription (e' :: u') x v' a' Never); auto. unfold place, position_of. cbn [fixed_position].
      cbn [rev]. destruct (description_child (e' :: u') _ _ (seat_fits _ _ S')) as [->| ->]; destruct (rev u'); reflexivity.
Qed.

(** ** Expressions *)
Definition calm (k : skind) : bool :=
  match k with
  | KStoredDefinition | KClassDefinition | KClassSpecifier | KLongClassSpecifier | KComposition | KElementList | KElement
  | KEquationSection | KAlgorithmSection | KEquation | KStatement => false
  | _ => negb (block k)
  end.
Definition calm_sym (x : sym) : bool := match x with Rule k => calm k | Term _ => true end.
Lemma calm_checked : forallb (fun k => negb (calm k) || forallb calm_sym (symbols (pruned (production false k)))) all_skinds = true.
Proof. vm_compute. reflexivity. Qed.
Lemma calm_leak c : fits c -> calm_sym (sym_of c) = true -> leak c = O.
Proof.
  induction c as [t|k cs IH] using child_ind2; intros F C; [reflexivity|]. rewrite leak_tree.
  assert (forall v u, cs = u ++ v -> leak_in k v = O) as G; [|apply (G cs []); reflexivity].
  pose proof (skind_all _ calm_checked k) as T. cbn beta in T. cbn [sym_of calm_sym] in C. rewrite C in T. cbn [negb orb] in T.
  rewrite forallb_forall in T. rewrite Forall_forall in IH.
  induction v as [|d v IHv]; intros u E; [reflexivity|]. cbn [leak_in]. rewrite (IHv (u ++ [d])) by (rewrite <- app_assoc; exact E).
  subst cs. rewrite IH.
  - replace (keeps_level k d) with false; [reflexivity|]. destruct k; try discriminate; reflexivity.
  - apply in_elt.
  - inversion F as [|? ? NE L FS]; subst. rewrite Forall_forall in FS. apply FS, in_elt.
  - apply T. eapply child_symbol; eauto.
Qed.
Lemma loud_calm k : quiet k = false -> calm k = true.
Proof. destruct k; try discriminate; reflexivity. Qed.

Lemma chain_deeper k d w m prev : continues k d = true -> deeper k w m prev (kind_of d) = O.
Proof.
  destruct d as [|kd ds]; [destruct k; discriminate|].
  destruct k; try discriminate; destruct kd; try discriminate; intros _; cbn; rewrite ?andb_false_r; reflexivity.
Qed.
Lemma chain_loud k d : continues k d = true -> quiet k = false.
Proof. destruct k; try discriminate; reflexivity. Qed.
Lemma chain_seat c e : chained c e -> forall a, seat tree root_args e a ->
  exists a', seat tree root_args c a' /\ a_n a' = a_n a.
Proof.
  induction 1 as [c|c k cs d CT ID P IH]; intros a S; [eauto|]. apply in_split in ID as (u & v & ->).
  destruct (IH (next k u d v a)) as (a' & S' & B); [constructor; exact S|]. exists a'. split; auto. rewrite B.
  unfold next, call. cbn [a_n]. rewrite CT, chain_deeper by exact CT.
  assert (leak (CTree k (u ++ d :: v)) = O) as L.
  { apply calm_leak; [eapply seat_fits; eauto|]. cbn [sym_of calm_sym]. eapply loud_calm, chain_loud; eauto. }
  destruct (no_leak _ _ _ _ L) as [-> _]. lia.
Qed.
Lemma operates_of k o t : SpecNodes.operator k o = Some t -> operates k (kind_of o) = true /\ toks o = [t] /\ is_opener o = false /\
  quiet k = false /\ continues k o = false.
Proof.
  destruct k; try discriminate; destruct o as [x|ko cs]; try discriminate; cbn [SpecNodes.operator]; intro E;
    try (injection E as ->; repeat split; reflexivity); try (destruct ko; discriminate).
  all: destruct ko; try discriminate; destruct cs as [|[y|] [|]]; try discriminate; injection E as ->; repeat split; reflexivity.
Qed.
Lemma operator_level k u x o y v t a : seat tree root_args (CTree k (u ++ x :: o :: y :: v)) a ->
  SpecNodes.operator k o = Some t -> SpecNodes.last_line x < first_line y -> begins l t (S (a_n a)).
Proof.
  intros S OP LT. destruct (operates_of _ _ _ OP) as (O1 & O2 & O3 & O4 & O5).
  replace (u ++ x :: o :: y :: v) with ((u ++ [x]) ++ o :: y :: v) in S by (rewrite <- app_assoc; reflexivity).
  assert (seat tree root_args o (next k (u ++ [x]) o (y :: v) a)) as S' by (constructor; exact S).
  assert (leak (CTree k ((u ++ [x]) ++ o :: y :: v)) = O) as L.
  { apply calm_leak; [eapply seat_fits; eauto|]. apply loud_calm, O4. }
  destruct (no_leak _ _ _ _ L) as [LU _].
  assert (turns k (last_of (rev (u ++ [x]))) o (y :: v) = true) as T.
  { rewrite rev_app_distr. cbn [rev app last_of turns]. rewrite O1. apply N.ltb_lt, LT. }
  assert (a_pos (next k (u ++ [x]) o (y :: v) a) = Below Never /\ a_first (next k (u ++ [x]) o (y :: v) a) = Datatypes.S (a_n a)) as [P1 P2].
  { unfold next, call. cbn [a_pos a_first]. rewrite T, LU, orb_true_r.
    assert (forall w m la se prev, position_of k w true m la se prev (kind_of o) = Below Never) as PO.
    { intros. unfold position_of. replace (fixed_position k prev (kind_of o)) with (@None position) by (destruct k; try discriminate; reflexivity).
      rewrite orb_true_r. reflexivity. }
    rewrite PO. rewrite rev_app_distr. cbn [rev app is_new one_if]. split; [reflexivity|].
    replace (deeper _ _ _ _ _) with O; [lia|]. clear - O1. destruct k; try discriminate; cbn [kind_of] in *;
      destruct (kind_of o) as [?|ko]; try discriminate; try destruct ko; try discriminate; cbn; rewrite ?andb_false_r; reflexivity. }
  destruct (seat_leads _ _ _ S' O3 P1) as (t' & r & TE & B). rewrite O2 in TE. injection TE as <- <-. rewrite <- P2. exact B.
Qed.

(** A node at the beginning of a line is not in the middle of an expression. *)
Lemma chain_place k w m la se prev d : continues k d = true ->
  (k <> KExpression -> k <> KPrimary -> w = false) -> (k = KPrimary -> prev = Some (Term TLParen)) ->
  match position_of k w false m la se prev (kind_of d) with Below _ => False | _ => True end.
Proof.
  intros CT W P. destruct d as [|kd ds]; [destruct k; discriminate|].
  assert (forall b : bool, match (match prev with
     | Some (Rule KAddOperator) => if b then Attached else Detached | _ => Beside end) with Below _ => False | _ => True end) as Q.
  { intro b. destruct prev as [[?|[]]|]; try exact Logic.I. destruct b; exact Logic.I. }
  assert ((w && spread_position k prev (Rule kd))%bool = false) as SP.
  { destruct (skind_eqb k KExpression) eqn:K1; [apply skind_eqb_eq in K1; subst k; destruct kd; try discriminate; apply andb_false_r|].
    destruct (skind_eqb k KPrimary) eqn:K2; [apply skind_eqb_eq in K2; subst k; rewrite (P eq_refl); apply andb_false_r|].
    rewrite W; [reflexivity|intros ->; discriminate K1|intros ->; discriminate K2]. }
  unfold position_of. cbn [kind_of]. rewrite SP, andb_false_r.
  replace (fixed_position k prev (Rule kd)) with (@None position) by (destruct k; try discriminate; reflexivity).
  replace (trailing (Rule kd)) with false by (destruct k; try discriminate; destruct kd; try discriminate; reflexivity).
  replace (value k (Rule kd)) with false by (destruct k; try discriminate; destruct kd; try discriminate; reflexivity).
  cbn [andb orb]. apply Q.
Qed.
Definition paren_ok : bool :=
  forallb (fun p => negb (sym_eqb (Rule KOutputExpressionList) (snd p)) || sym_eqb (Term TLParen) (fst p)) (pairs (pruned (production false KPrimary)))
  && forallb (fun x => negb (sym_eqb (Rule KOutputExpressionList) x)) (firsts (pruned (production false KPrimary))).
Lemma paren_checked : paren_ok = true.
Proof. vm_compute. reflexivity. Qed.
Lemma below_off c a b : seat tree root_args c a -> a_pos a = Below b -> a_on a = false.
Proof.
  intro S. revert b. induction S as [|k u d v a S IH]; intros b P; [reflexivity|].
  unfold next, call in *. cbn [a_pos a_on] in *. destruct (continues k d) eqn:CT; [|reflexivity]. cbn [andb].
  assert (turns k (last_of (rev u)) d v = false) as T.
  { unfold turns. destruct (last_of (rev u)); [|reflexivity]. destruct v; [reflexivity|].
    replace (operates k (kind_of d)) with false; [reflexivity|]. destruct d as [|kd ds]; [destruct k; discriminate|].
    destruct k; try discriminate; destruct kd; try discriminate; reflexivity. }
  rewrite T, orb_false_r in *.
  pose proof (chain_place k (wide k (u ++ d :: v) (a_inh a)) (multi_if d) (is_late d) (after_first (rev u)) (kind_last (rev u)) d CT) as NP.
  assert (match position_of k (wide k (u ++ d :: v) (a_inh a)) false (multi_if d) (is_late d) (after_first (rev u)) (kind_last (rev u)) (kind_of d)
    with Below _ => False | _ => True end) as NB.
  { apply NP.
    - intros N1 N2. destruct k; try discriminate; try contradiction; reflexivity.
    - intros ->. pose proof (seat_fits _ _ S) as F. destruct d as [|kd ds]; [discriminate|]. destruct kd; try discriminate.
      pose proof paren_checked as C. unfold paren_ok in C. apply andb_true_iff in C as [C1 C2]. rewrite forallb_forall in C1, C2.
      destruct u as [|e u _] using rev_ind.
      + inversion F as [|? ? NE L FS]; subst. cbn [app map] in L. apply firsts_complete in L. specialize (C2 _ L). discriminate C2.
      + rewrite <- app_assoc in F. cbn [app] in F. apply child_pair in F. specialize (C1 _ F). cbn [fst snd sym_of] in C1.
        change (sym_eqb (Rule KOutputExpressionList) (Rule KOutputExpressionList)) with true in C1. cbn [negb orb] in C1.
        rewrite rev_app_distr. cbn [rev app kind_last]. rewrite kind_sym. symmetry. f_equal.
        destruct e as [t|]; cbn [sym_of] in *; [|discriminate]. destruct (tkind_of t); try discriminate; reflexivity. }
  destruct (position_of k _ false _ _ _ _ _); try contradiction.
  all: destruct u as [|e u]; [|cbn [rev] in P; destruct (rev u); discriminate].
  all: cbn [rev app is_new on_before] in *; eapply IH; eauto.
Qed.

(** ** Lists *)
Definition shift (k : skind) (w : bool) : nat :=
  match k with
  | KFunctionCallArgs | KArraySubscripts | KConnectEquation | KClassModification | KClassOrInheritanceModification
  | KExternalFunctionCall | KPrimary | KDerClassSpecifier => 1
  | KShortClassSpecifier | KImportClause => one_if w
  | _ => 0
  end.
Definition listed (k : skind) : bool :=
  holder k || list_rest k ||
  match k with
  | KEnumList | KImportList | KArgumentList | KArgumentOrInheritanceModificationList | KExpressionList => true
  | _ => false
  end.
Definition sep_kind (t : tkind) : bool := match t with TComma | TSemicolon => true | _ => false end.
Definition rests (k : skind) (y : sym) : bool :=
  match y with Rule k' => list_rest k' || bracketed k k' | Term _ => false end.
Definition slot_pair (k : skind) (x y : sym) : bool :=
  match x with Term t => sep_kind t || (opening k t && match y with Rule _ => true | Term _ => false end) | Rule _ => false end
  || rests k y.
Definition listed_ok (k : skind) : bool :=
  negb (listed k) ||
  (calm k && (quiet k || skind_eqb k KPrimary) &&
   forallb (fun p => negb (slot_pair k (fst p) (snd p)) ||
     (negb (opener_sym (snd p)) && forallb (fun w => forallb (fun m => Nat.eqb (deeper k w m (Some (fst p)) (snd p)) (shift k w)) bools) bools))
     (pairs (pruned (production false k))) &&
   forallb (fun y => negb (rests k y) ||
     (quiet k && negb (opener_sym y) && forallb (fun w => forallb (fun m => Nat.eqb (deeper k w m None y) (shift k w)) bools) bools))
     (firsts (pruned (production false k))) &&
   forallb (fun y => negb (rests k y) || listed match y with Rule k' => k' | Term _ => k end) (symbols (pruned (production false k)))).
Lemma listed_checked : forallb listed_ok all_skinds = true.
Proof. vm_compute. reflexivity. Qed.

Definition tail_ok : bool :=
  forallb (fun p =>
    (negb (sym_eqb (Rule KOutputExpressionList) (fst p)) || sym_eqb (Term TRParen) (snd p)) &&
    (negb (sym_eqb (Term TRParen) (fst p)) || sym_eqb (Rule KArraySubscripts) (snd p)) &&
    negb (sym_eqb (Rule KArraySubscripts) (fst p))) (pairs (pruned (production false KPrimary))).
Lemma tail_checked : tail_ok = true.
Proof. vm_compute. reflexivity. Qed.
Lemma sym_eqb_eq x y : sym_eqb x y = true -> x = y.
Proof. destruct x as [s|a], y as [t|b]; cbn; try discriminate; intro E; f_equal; [apply tkind_eqb_eq|apply skind_eqb_eq]; exact E. Qed.
Lemma primary_tail u1 o u2 d v : fits (CTree KPrimary (u1 ++ o :: u2 ++ d :: v)) -> sym_of o = Rule KOutputExpressionList ->
  slot_pair KPrimary (sym_of (last u2 o)) (sym_of d) = false.
Proof.
  intros F O. pose proof tail_checked as C. unfold tail_ok in C. rewrite forallb_forall in C.
  assert (forall w x y z, u1 ++ o :: u2 ++ d :: v = w ++ x :: y :: z ->
    (sym_of x = Rule KOutputExpressionList -> sym_of y = Term TRParen) /\ (sym_of x = Term TRParen -> sym_of y = Rule KArraySubscripts) /\
    sym_of x <> Rule KArraySubscripts) as P.
  { intros w x y z E. rewrite E in F. apply child_pair in F. specialize (C _ F). cbn [fst snd] in C.
    apply andb_true_iff in C as [C C3]. apply andb_true_iff in C as [C1 C2]. repeat split.
    - intro X. rewrite X in C1. symmetry. apply sym_eqb_eq. exact C1.
    - intro X. rewrite X in C2. symmetry. apply sym_eqb_eq. exact C2.
    - intro X. rewrite X in C3. discriminate C3. }
  destruct u2 as [|x [|y r]]; cbn [app last] in *.
  - destruct (P u1 o d v eq_refl) as (P1 & _ & _). rewrite O, (P1 O). reflexivity.
  - destruct (P u1 o x (d :: v) eq_refl) as (P1 & _ & _). specialize (P1 O).
    destruct (P (u1 ++ [o]) x d v) as (_ & P2 & _); [rewrite <- app_assoc; reflexivity|]. rewrite P1, (P2 P1). reflexivity.
  - exfalso. destruct (P u1 o x (y :: r ++ d :: v) eq_refl) as (P1 & _ & _). specialize (P1 O).
    destruct (P (u1 ++ [o]) x y (r ++ d :: v)) as (_ & P2 & _); [rewrite <- app_assoc; reflexivity|]. specialize (P2 P1).
    destruct r as [|z r]; cbn [app] in P.
    + destruct (P (u1 ++ [o; x]) y d v) as (_ & _ & P3); [rewrite <- app_assoc; reflexivity|]. auto.
    + destruct (P (u1 ++ [o; x]) y z (r ++ d :: v)) as (_ & _ & P3); [rewrite <- app_assoc; reflexivity|]. auto.
Qed.
Lemma primary_on x rest : (forall d, In d x -> sym_of d <> Rule KOutputExpressionList) -> forall prev on,
  on_before KPrimary prev on x rest = on.
Proof.
  induction x as [|a x IH]; intros H prev on; cbn [on_before]; [reflexivity|]. rewrite IH by (intros; apply H; right; assumption).
  replace (turns KPrimary prev a (x ++ rest)) with false.
  2:{ unfold turns. destruct prev; [|reflexivity]. destruct (x ++ rest); reflexivity. }
  replace (continues KPrimary a) with false; [rewrite !orb_false_r; reflexivity|].
  specialize (H a (or_introl eq_refl)). destruct a as [|[]]; try reflexivity. exfalso. apply H. reflexivity.
Qed.

Lemma listed_calm k cs : listed k = true -> fits (CTree k cs) -> leak (CTree k cs) = O.
Proof.
  intros K F. apply calm_leak; auto. cbn [sym_of calm_sym]. pose proof (skind_all _ listed_checked k) as C. unfold listed_ok in C.
  rewrite K in C. cbn [negb orb] in C. do 4 apply andb_true_iff in C as [C _]. exact C.
Qed.
Lemma list_step k u d v a : seat tree root_args (CTree k (u ++ d :: v)) a -> listed k = true ->
  match rev u with [] => rests k (sym_of d) | e :: _ => slot_pair k (sym_of e) (sym_of d) end = true ->
  base (next k u d v a) = (base a + shift k (wide k (u ++ d :: v) (a_inh a)))%nat /\ is_opener d = false.
Proof.
  intros S K SP. pose proof (seat_fits _ _ S) as F. pose proof (skind_all _ listed_checked k) as C. unfold listed_ok in C.
  rewrite K in C. cbn [negb orb] in C. apply andb_true_iff in C as [C C5]. apply andb_true_iff in C as [C C4].
  apply andb_true_iff in C as [C C3]. apply andb_true_iff in C as [C1 C2].
  destruct (no_leak _ _ _ _ (listed_calm _ _ K F)) as [LU _].
  assert (turns k (last_of (rev u)) d v = false) as T.
  { apply orb_true_iff in C2 as [Q|Q]; [apply quiet_turns, Q|]. apply skind_eqb_eq in Q. subst k. unfold turns.
    destruct (last_of (rev u)); [|reflexivity]. destruct v; reflexivity. }
  assert (on_before k None (a_on a) u (d :: v) = a_on a) as ON.
  { apply orb_true_iff in C2 as [Q|Q]; [apply quiet_on, Q|]. apply skind_eqb_eq in Q. subst k. apply primary_on. intros x I E.
    apply in_split in I as (u1 & u2 & ->). rewrite <- app_assoc in F. pose proof (primary_tail u1 x u2 d v F E) as NP.
    destruct u2 as [|e u2 _] using rev_ind.
    - rewrite rev_app_distr in SP. cbn [rev app last] in *. congruence.
    - rewrite last_last in NP. rewrite rev_app_distr in SP. cbn [rev] in SP. rewrite rev_app_distr in SP. cbn [rev app] in SP. congruence. }
  assert (deeper k (wide k (u ++ d :: v) (a_inh a)) (multi_if d) (kind_last (rev u)) (kind_of d) = shift k (wide k (u ++ d :: v) (a_inh a)) /\
    is_opener d = false) as [D NO].
  { destruct u as [|e u _] using rev_ind.
    - cbn [rev app kind_last] in *. assert (In (sym_of d) (firsts (pruned (production false k)))) as I.
      { inversion F as [|? ? NE L FS]; subst. eapply firsts_complete; exact L. }
      rewrite forallb_forall in C4. specialize (C4 _ I). rewrite SP in C4. cbn [negb orb] in C4. apply andb_true_iff in C4 as [C4 D].
      apply andb_true_iff in C4 as [_ NO]. apply negb_true_iff in NO. split; [|exact NO]. rewrite kind_sym.
      rewrite forallb_forall in D. specialize (D (wide k (d :: v) (a_inh a)) (bools_all _)). rewrite forallb_forall in D.
      apply Nat.eqb_eq, D, bools_all.
    - assert (F' := F). rewrite <- app_assoc in F'. cbn [app] in F'. pose proof (child_pair _ _ _ _ _ F') as I.
      rewrite rev_app_distr in SP. cbn [rev app] in SP.
      rewrite forallb_forall in C3. specialize (C3 _ I). cbn [fst snd] in C3. rewrite SP in C3. cbn [negb orb] in C3.
      apply andb_true_iff in C3 as [NO D]. apply negb_true_iff in NO. split; [|exact NO]. rewrite kind_sym. rewrite rev_app_distr. cbn [rev app kind_last].
      rewrite kind_sym. rewrite forallb_forall in D. specialize (D (wide k ((u ++ [e]) ++ d :: v) (a_inh a)) (bools_all _)). rewrite forallb_forall in D.
      apply Nat.eqb_eq, D, bools_all. }
  split; [|exact NO]. unfold next. rewrite call_base, ON, LU, T, D, orb_false_r. unfold base. lia.
Qed.
Lemma rests_listed k k' cs u v : fits (CTree k (u ++ CTree k' cs :: v)) -> listed k = true -> list_rest k' || bracketed k k' = true -> listed k' = true.
Proof.
  intros F K R. pose proof (skind_all _ listed_checked k) as C. unfold listed_ok in C. rewrite K in C. cbn [negb orb] in C.
  apply andb_true_iff in C as [_ C]. rewrite forallb_forall in C. specialize (C _ (child_symbol _ _ _ _ F)). cbn [sym_of rests] in C.
  rewrite R in C. exact C.
Qed.
Lemma rests_pair k k' cs u v a : seat tree root_args (CTree k (u ++ CTree k' cs :: v)) a -> list_rest k' || bracketed k k' = true ->
  match rev u with [] => rests k (sym_of (CTree k' cs)) | e :: _ => slot_pair k (sym_of e) (sym_of (CTree k' cs)) end = true.
Proof.
  intros _ R. destruct (rev u) as [|e r]; cbn [sym_of rests slot_pair]; [exact R|]. unfold slot_pair. cbn [rests]. rewrite R. apply orb_true_r.
Qed.
Lemma inner_shift k w : listed k = true -> holder k = false -> shift k w = O.
Proof. destruct k; try discriminate; reflexivity. Qed.
Lemma inner_checked : forallb (fun k => forallb (fun k' => negb (list_rest k' || bracketed k k') || negb (holder k')) all_skinds) all_skinds = true.
Proof. vm_compute. reflexivity. Qed.
Lemma rests_inner k k' : list_rest k' || bracketed k k' = true -> holder k' = false.
Proof.
  intro R. pose proof (skind_all _ inner_checked k) as C. cbn beta in C. pose proof (skind_all _ C k') as D. cbn beta in D.
  rewrite R in D. cbn [negb orb] in D. apply negb_true_iff, D.
Qed.

(** The elements of a list have the level of the list and one more. *)
Lemma slot_seat h d : slot h d -> forall k cs a, h = CTree k cs -> listed k = true -> seat tree root_args h a ->
  exists a', seat tree root_args d a' /\ a_first a' = base a' /\ base a' = (base a + shift k (wide k cs (a_inh a)))%nat /\ is_opener d = false.
Proof.
  induction 1 as [k u o d v OP|k cs k' ds d R I SL IH]; intros k0 cs0 a E K S; injection E as <- <-.
  - exists (next k (u ++ [CTok o]) d v a). assert (S0 := S).
    replace (u ++ CTok o :: d :: v) with ((u ++ [CTok o]) ++ d :: v) in S |- * by (rewrite <- app_assoc; reflexivity).
    destruct (list_step k (u ++ [CTok o]) d v a S K) as [B NO].
    { rewrite rev_app_distr. cbn [rev app sym_of]. unfold slot_pair. destruct OP as [OP|[OP NT]].
      - unfold is_sep in OP. unfold sep_kind. destruct (tkind_of o); try discriminate; reflexivity.
      - unfold opens in OP. rewrite OP. destruct d as [t|kd ds]; [destruct (NT t eq_refl)|]. cbn [sym_of andb]. rewrite orb_true_r. reflexivity. }
    split; [constructor; exact S|]. split; [|split; [exact B|exact NO]].
    unfold next. rewrite call_base. unfold call. cbn [a_first]. rewrite rev_app_distr. cbn [rev app is_new]. reflexivity.
  - apply in_split in I as (u & v & ->). pose proof (seat_fits _ _ S) as F.
    assert (seat tree root_args (CTree k' ds) (next k u (CTree k' ds) v a)) as S' by (constructor; exact S).
    pose proof (rests_listed _ _ _ _ _ F K R) as K'.
    destruct (IH k' ds _ eq_refl K' S') as (a' & SD & FI & B & NO). exists a'. split; auto. split; auto. split; auto.
    destruct (list_step k u (CTree k' ds) v a S K (rests_pair _ _ _ _ _ _ S R)) as [B' _].
    rewrite B, B', (inner_shift k'); [lia|exact K'|eapply rests_inner; eauto].
Qed.
Lemma holder_listed k : holder k = true -> listed k = true.
Proof. intro H. unfold listed. rewrite H. reflexivity. Qed.
Lemma slots_level k cs d1 d2 n1 n2 : inside (CTree k cs) tree -> holder k = true ->
  slot (CTree k cs) d1 -> slot (CTree k cs) d2 -> leads l d1 n1 -> leads l d2 n2 -> n1 = n2.
Proof.
  intros I H S1 S2 L1 L2. destruct (inside_seat tree root_args _ I) as (a & S). apply holder_listed in H.
  destruct (slot_seat _ _ S1 _ _ _ eq_refl H S) as (a1 & SA1 & F1 & B1 & N1).
  destruct (slot_seat _ _ S2 _ _ _ eq_refl H S) as (a2 & SA2 & F2 & B2 & N2).
  destruct (leads_seat _ _ _ SA1 N1 L1) as (E1 & _). destruct (leads_seat _ _ _ SA2 N2 L2) as (E2 & _). lia.
Qed.

(** Levels never get lower below a node. *)
Lemma on_before_grows k x rest : forall prev, on_before k prev true x rest = true.
Proof. induction x as [|a x IH]; intro prev; cbn [on_before]; auto. Qed.
Lemma base_grows c0 a0 c a : seat c0 a0 c a -> (base a0 <= base a)%nat.
Proof.
  induction 1 as [|k u d v a S IH]; [lia|]. unfold next. rewrite call_base. unfold base in *. destruct (a_on a); [|cbn [one_if] in *; lia].
  rewrite on_before_grows. cbn [orb one_if] in *. lia.
Qed.

(** The list of [enumeration(...)] and of imports is indented only if it is wrapped. *)
Definition switched (k : skind) : bool := match k with KShortClassSpecifier | KImportClause => true | _ => false end.
Definition is_below (p : position) : bool := match p with Below _ => true | _ => false end.
Definition switched_ok (k : skind) : bool :=
  negb (switched k) ||
  (forallb (fun p => negb (slot_pair k (fst p) (snd p)) || forallb (fun m => forallb (fun la => forallb (fun se =>
      negb (is_below (position_of k false false m la se (Some (fst p)) (snd p)))) bools) bools) bools)
     (pairs (pruned (production false k))) &&
   forallb (fun p => negb (rests k (snd p)) || match fst p with Term t => opening k t | Rule _ => false end) (pairs (pruned (production false k))) &&
   forallb (fun p => negb (rests k (fst p)) || match snd p with Term t => closing k t | Rule _ => false end) (pairs (pruned (production false k))) &&
   forallb (fun x => negb (rests k x)) (firsts (pruned (production false k)) ++ lasts (pruned (production false k))) &&
   forallb (fun x => negb (rests k x) || match x with Rule KEnumList | Rule KImportList => true | _ => false end) (symbols (pruned (production false k)))).
Lemma switched_checked : forallb switched_ok all_skinds = true.
Proof. vm_compute. reflexivity. Qed.
Definition names_ok (k : skind) : bool :=
  forallb (fun p => negb (slot_pair k (fst p) (snd p)) || forallb (fun m => forallb (fun la => forallb (fun se =>
      negb (is_below (position_of k false false m la se (Some (fst p)) (snd p)))) bools) bools) bools)
     (pairs (pruned (production false k))) && forallb (fun x => negb (rests k x)) (symbols (pruned (production false k))).
Lemma names_checked : names_ok KEnumList && names_ok KImportList = true.
Proof. vm_compute. reflexivity. Qed.

Hypothesis Hsound : sound_tokens (toks tree).
Lemma enclosed k u o x c v : inside (CTree k (u ++ CTok o :: x :: CTok c :: v)) tree -> fits x -> spans x = true ->
  opens k o = true -> closes k c = true -> brackets_apart k (u ++ CTok o :: x :: CTok c :: v) = true.
Proof.
  intros IN F SP O C. destruct (inside_toks _ _ IN) as (a & b & E). destruct Hsound as [SO U _]. rewrite E in SO, U. clear E.
  apply sorted_mid in SO. apply Forall_app in U as [_ U]. apply Forall_app in U as [U _].
  cbn [toks] in SO, U. rewrite flat_map_app in SO, U. cbn [flat_map toks app] in SO, U.
  rewrite <- (app_nil_r (o :: _)) in SO. apply sorted_mid in SO. apply Forall_app in U as [_ U].
  destruct (fits_start x F) as (tx & rx & SX & LX). destruct (fits_end x F) as (ty & ry & EY & LY).
  unfold spans in SP. apply N.ltb_lt in SP. rewrite (first_line_start _ _ F SX), (last_line_end _ _ F EY) in SP.
  rewrite <- toks_leaves in LX, LY.
  inversion SO as [|? ? SO' FO]; subst. rewrite Forall_forall in FO.
  assert (In tx (toks x)) as IX by (rewrite LX; left; reflexivity).
  assert (In ty (toks x)) as IY by (rewrite LY; apply in_or_app; right; left; reflexivity).
  destruct (FO tx) as [_ L1]; [apply in_or_app; auto|].
  destruct (sorted_split _ _ _ SO' ty c IY (or_introl eq_refl)) as [_ L2].
  inversion U as [|? ? [_ UO] _]; subst.
  apply apart_spread. exists o, c. split; [apply in_elt|]. split; [|split; auto; split; auto; lia].
  apply in_or_app. right. right. right. left. reflexivity.
Qed.
Lemma switched_wide k cs d a n : seat tree root_args (CTree k cs) a -> switched k = true -> slot (CTree k cs) d -> leads l d n ->
  wide k cs (a_inh a) = true.
Proof.
  intros S K SL LD. pose proof (skind_all _ switched_checked k) as C. unfold switched_ok in C. rewrite K in C. cbn [negb orb] in C.
  apply andb_true_iff in C as [C C5]. apply andb_true_iff in C as [C C4]. apply andb_true_iff in C as [C C3]. apply andb_true_iff in C as [C1 C2].
  assert (quiet k = true) as Q by (destruct k; try discriminate; reflexivity).
  assert (listed k = true) as LI by (destruct k; try discriminate; reflexivity).
  assert (forall k u o d v a n w, seat tree root_args (CTree k ((u ++ [CTok o]) ++ d :: v)) a -> quiet k = true ->
    is_sep o = true \/ (opens k o = true /\ forall t, d <> CTok t) -> is_opener d = false -> leads l d n ->
    w = wide k ((u ++ [CTok o]) ++ d :: v) (a_inh a) ->
    forallb (fun p => negb (slot_pair k (fst p) (snd p)) || forallb (fun m => forallb (fun la => forallb (fun se =>
      negb (is_below (position_of k false false m la se (Some (fst p)) (snd p)))) bools) bools) bools)
     (pairs (pruned (production false k))) = true -> w = true) as G.
  { clear - Hitems Hnodup Hfits Hroot Hsound. intros k u o d v a n w S Q OP NO LD EW C. destruct w; [reflexivity|]. exfalso.
    assert (seat tree root_args d (next k (u ++ [CTok o]) d v a)) as S' by (constructor; exact S).
    destruct (leads_seat _ _ _ S' NO LD) as (_ & b & P). revert P. unfold next, call. cbn [a_pos].
    rewrite rev_app_distr. cbn [rev app is_new last_of kind_last]. rewrite quiet_turns by exact Q. rewrite <- EW.
    pose proof (seat_fits _ _ S) as F. rewrite <- app_assoc in F. cbn [app] in F. apply child_pair in F.
    rewrite forallb_forall in C. specialize (C _ F). cbn [fst snd] in C. rewrite <- (kind_sym (CTok o)), <- (kind_sym d) in C.
    replace (slot_pair k (kind_of (CTok o)) (kind_of d)) with true in C.
    2:{ symmetry. cbn [kind_of]. unfold slot_pair. destruct OP as [OP|[OP NT]].
        - unfold is_sep in OP. unfold sep_kind. destruct (tkind_of o); try discriminate; reflexivity.
        - unfold opens in OP. rewrite OP. destruct d as [t|kd ds]; [destruct (NT t eq_refl)|]. cbn [kind_of andb]. rewrite orb_true_r. reflexivity. }
    cbn [negb orb] in C. rewrite forallb_forall in C. specialize (C (multi_if d) (bools_all _)).
    rewrite forallb_forall in C. specialize (C (is_late d) (bools_all _)).
    rewrite forallb_forall in C. specialize (C (after_first (CTok o :: rev u)) (bools_all _)). intro P. rewrite P in C. discriminate C. }
  destruct (slot_seat _ _ SL _ _ _ eq_refl LI S) as (_ & _ & _ & _ & NO).
  remember (CTree k cs) as h eqn:EH. destruct SL as [k1 u o d v OP|k1 cs1 k' ds d R I SL]; (injection EH as E1 E2; subst k1; first [subst cs1 | subst cs]).
  - replace (u ++ CTok o :: d :: v) with ((u ++ [CTok o]) ++ d :: v) in S |- * by (rewrite <- app_assoc; reflexivity).
    eapply G; eauto.
  - apply in_split in I as (u & v & ->). pose proof (seat_fits _ _ S) as F.
    assert (rests k (sym_of (CTree k' ds)) = true) as RS by exact R.
    assert (exists u0 o c v0, u = u0 ++ [CTok o] /\ v = CTok c :: v0 /\ opens k o = true /\ closes k c = true) as (u0 & o & c & v0 & -> & -> & OO & CC).
    { rewrite forallb_app in C4. apply andb_true_iff in C4 as [C4 C4']. rewrite forallb_forall in C4, C4', C2, C3.
      destruct u as [|e u0 _] using rev_ind.
      - exfalso. inversion F as [|? ? NE L FS]; subst. cbn [app map] in L. apply firsts_complete in L. specialize (C4 _ L).
        rewrite RS in C4. discriminate C4.
      - assert (F' := F). rewrite <- app_assoc in F'. cbn [app] in F'. apply child_pair in F'. specialize (C2 _ F'). cbn [fst snd] in C2. rewrite RS in C2.
        cbn [negb orb] in C2. destruct e as [o|]; cbn [sym_of] in C2; [|discriminate].
        destruct v as [|y v0].
        + exfalso. inversion F as [|? ? NE L FS]; subst. rewrite map_app in L. cbn [map] in L. eapply lasts_complete in L; [|reflexivity].
          specialize (C4' _ L). rewrite RS in C4'. discriminate C4'.
        + apply child_pair in F. specialize (C3 _ F). cbn [fst snd] in C3. rewrite RS in C3. cbn [negb orb] in C3.
          destruct y as [c|]; cbn [sym_of] in C3; [|discriminate]. exists u0, o, c, v0. auto. }
    rewrite <- app_assoc in *. cbn [app] in *.
    assert (k' = KEnumList \/ k' = KImportList) as K'.
    { rewrite forallb_forall in C5. replace (u0 ++ CTok o :: CTree k' ds :: CTok c :: v0) with ((u0 ++ [CTok o]) ++ CTree k' ds :: CTok c :: v0) in F
        by (rewrite <- app_assoc; reflexivity).
      specialize (C5 _ (child_symbol _ _ _ _ F)). rewrite RS in C5. cbn [sym_of negb orb] in C5. destruct k'; try discriminate; auto. }
    replace (u0 ++ CTok o :: CTree k' ds :: CTok c :: v0) with ((u0 ++ [CTok o]) ++ CTree k' ds :: CTok c :: v0) in S
        by (rewrite <- app_assoc; reflexivity).
    set (a' := next k (u0 ++ [CTok o]) (CTree k' ds) (CTok c :: v0) a).
    assert (seat tree root_args (CTree k' ds) a') as S' by (constructor; exact S).
    replace ((u0 ++ [CTok o]) ++ CTree k' ds :: CTok c :: v0) with (u0 ++ CTok o :: CTree k' ds :: CTok c :: v0) in S by (rewrite <- app_assoc; reflexivity).
    assert (wide k' ds (a_inh a') = true) as W.
    { pose proof names_checked as NC. apply andb_true_iff in NC as [NC1 NC2].
      assert (names_ok k' = true) as NK by (destruct K' as [->| ->]; assumption).
      unfold names_ok in NK. apply andb_true_iff in NK as [NK1 NK2].
      remember (CTree k' ds) as h eqn:EH. destruct SL as [k1 u o' d v OP|k1 cs1 k'' ds' d R' I' SL]; (injection EH as E1 E2; subst k1; first [subst cs1 | subst ds]).
      - replace (u ++ CTok o' :: d :: v) with ((u ++ [CTok o']) ++ d :: v) in S' |- * by (rewrite <- app_assoc; reflexivity).
        eapply (G k' u o' d v a' n _ S'); eauto. destruct K' as [->| ->]; reflexivity.
      - exfalso. apply in_split in I' as (u & v & ->). rewrite forallb_forall in NK2.
        specialize (NK2 _ (child_symbol _ _ _ _ (seat_fits _ _ S'))). cbn [sym_of rests] in NK2. rewrite R' in NK2. discriminate NK2. }
    assert (wide k' ds (a_inh a') = (a_inh a' || spans (CTree k' ds))%bool) as EW by (destruct K' as [->| ->]; reflexivity).
    rewrite EW in W. apply orb_true_iff in W as [W|W].
    + unfold a', next, call in W. cbn [a_inh] in W.
      rewrite <- app_assoc in W. cbn [app] in W. destruct k; try discriminate; exact W.
    + pose proof (enclosed k u0 o (CTree k' ds) c v0 (seat_inside _ _ _ _ S) (seat_fits _ _ S') W OO CC) as BA.
      destruct k; try discriminate; cbn [wide]; rewrite BA; reflexivity.
Qed.
Lemma slot_shift k cs d a n : seat tree root_args (CTree k cs) a -> holder k = true -> k <> KFunctionPartialApplication ->
  slot (CTree k cs) d -> leads l d n -> n = S (base a).
Proof.
  intros S H NP SL LD. destruct (slot_seat _ _ SL _ _ _ eq_refl (holder_listed _ H) S) as (a' & SA & FI & B & NO).
  destruct (leads_seat _ _ _ SA NO LD) as (E & _). replace (shift k (wide k cs (a_inh a))) with 1%nat in B; [lia|].
  destruct (switched k) eqn:K.
  - rewrite (switched_wide k cs d a n S K SL LD). destruct k; try discriminate; reflexivity.
  - destruct k; try discriminate; try reflexivity. contradiction.
Qed.
Lemma nested_levels k cs d e k' cs' d' n n' : inside (CTree k cs) tree -> holder k = true ->
  slot (CTree k cs) d -> slot (CTree k cs) e -> leads l e n ->
  inside (CTree k' cs') d -> holder k' = true -> k' <> KFunctionPartialApplication -> slot (CTree k' cs') d' -> leads l d' n' -> (n < n')%nat.
Proof.
  intros I H SL SE LE I' H' NP SL' LD'. destruct (inside_seat tree root_args _ I) as (a & S). apply holder_listed in H.
  destruct (slot_seat _ _ SL _ _ _ eq_refl H S) as (a1 & SA1 & F1 & B1 & N1).
  destruct (slot_seat _ _ SE _ _ _ eq_refl H S) as (a2 & SA2 & F2 & B2 & N2).
  destruct (leads_seat _ _ _ SA2 N2 LE) as (E & _).
  destruct (inside_seat d a1 _ I') as (a' & S'). pose proof (base_grows _ _ _ _ S') as G.
  pose proof (slot_shift _ _ _ _ _ (seat_trans _ _ _ _ _ _ SA1 S') H' NP SL' LD'). lia.
Qed.

(** ** Expressions that are not wrapped *)
Lemma wraps_off k x rest : forall prev on, wraps_in k prev (x ++ rest) = false -> on_before k prev on x rest = on.
Proof.
  induction x as [|a x IH]; intros prev on W; cbn [on_before]; [reflexivity|]. cbn [app wraps_in] in W.
  apply orb_false_iff in W as [W W3]. apply orb_false_iff in W as [W1 W2]. rewrite IH by exact W3. rewrite W1, W2, !orb_false_r. reflexivity.
Qed.
Lemma wraps_tail k u : forall prev d v, wraps_in k prev (u ++ d :: v) = false ->
  turns k (match rev u with [] => prev | e :: _ => Some e end) d v = false /\ (continues k d && wraps d)%bool = false.
Proof.
  induction u as [|e u IH]; intros prev d v W; cbn [app wraps_in] in W; apply orb_false_iff in W as [W W3]; apply orb_false_iff in W as [W1 W2].
  - auto.
  - destruct (IH _ _ _ W3) as [T C]. split; auto. cbn [rev]. destruct (rev u); exact T.
Qed.
Lemma calm_base k u d v a : leak_in k u = O -> a_on a = false -> wraps (CTree k (u ++ d :: v)) = false ->
  base (next k u d v a) = (base a + depth k u d v a)%nat.
Proof.
  intros L ON W. rewrite wraps_tree in W. destruct (wraps_tail _ _ _ _ _ W) as [T _].
  unfold next. rewrite call_base, wraps_off by exact W. rewrite L, ON. unfold depth, base. rewrite ON.
  replace (turns k (last_of (rev u)) d v) with false by (rewrite <- T; destruct (rev u); reflexivity). cbn. lia.
Qed.
Lemma chain_off c e : chained c e -> forall a, seat tree root_args e a -> a_on a = false -> wraps e = false -> leak e = O ->
  exists a', seat tree root_args c a' /\ a_n a' = a_n a /\ a_on a' = false /\ wraps c = false /\ leak c = O.
Proof.
  induction 1 as [c|c k cs d CT ID P IH]; intros a S ON W LK; [exists a; auto|]. apply in_split in ID as (u & v & ->).
  assert (W' := W). rewrite wraps_tree in W'. destruct (wraps_tail _ _ _ _ _ W') as [T C]. rewrite CT in C. cbn [andb] in C.
  destruct (no_leak _ _ _ _ LK) as [LU LD].
  destruct (IH (next k u d v a)) as (a' & S' & B & O & WC & LC); auto; [constructor; exact S| |].
  - unfold next, call. cbn [a_on]. rewrite wraps_off by exact W'. rewrite ON.
    replace (turns k (last_of (rev u)) d v) with false by (rewrite <- T; destruct (rev u); reflexivity). apply andb_false_r.
  - exists a'. split; auto. split; auto. rewrite B. unfold next, call. cbn [a_n]. rewrite CT, chain_deeper by exact CT. lia.
Qed.
Definition holder_sym (x : sym) : bool := match x with Rule k => holder k | Term _ => false end.
Lemma held_checked : forallb (fun k => skind_eqb k KComposition || forallb (fun x => negb (holder_sym x) ||
    forallb (fun w => forallb (fun m => Nat.eqb (deeper k w m (Some (Term TComma)) x) 0 && Nat.eqb (deeper k w m None x) 0) bools) bools)
    (symbols (pruned (production false k))) && forallb (fun p => negb (holder_sym (snd p)) ||
    forallb (fun w => forallb (fun m => Nat.eqb (deeper k w m (Some (fst p)) (snd p)) 0) bools) bools)
    (pairs (pruned (production false k)))) all_skinds = true.
Proof. vm_compute. reflexivity. Qed.
Lemma held_base k u d v a : seat tree root_args (CTree k (u ++ d :: v)) a -> k <> KComposition -> holder_sym (kind_of d) = true ->
  depth k u d v a = O.
Proof.
  intros S NC H. pose proof (skind_all _ held_checked k) as C. cbn beta in C. apply orb_true_iff in C as [C|C]; [apply skind_eqb_eq in C; contradiction|].
  apply andb_true_iff in C as [C1 C2]. pose proof (seat_fits _ _ S) as F. unfold depth. destruct u as [|e u _] using rev_ind.
  - rewrite forallb_forall in C1. specialize (C1 _ (child_symbol _ _ _ _ F)). rewrite <- kind_sym, H in C1. cbn [negb orb] in C1.
    rewrite forallb_forall in C1. specialize (C1 (wide k ([] ++ d :: v) (a_inh a)) (bools_all _)). rewrite forallb_forall in C1.
    specialize (C1 (multi_if d) (bools_all _)). apply andb_true_iff in C1 as [_ C1]. apply Nat.eqb_eq in C1. exact C1.
  - assert (F' := F). rewrite <- app_assoc in F'. cbn [app] in F'. rewrite forallb_forall in C2. specialize (C2 _ (child_pair _ _ _ _ _ F')).
    cbn [fst snd] in C2. rewrite <- (kind_sym d), H in C2. cbn [negb orb] in C2. rewrite <- kind_sym in C2.
    rewrite forallb_forall in C2. specialize (C2 (wide k ((u ++ [e]) ++ d :: v) (a_inh a)) (bools_all _)). rewrite forallb_forall in C2.
    specialize (C2 (multi_if d) (bools_all _)). apply Nat.eqb_eq in C2. rewrite rev_app_distr. exact C2.
Qed.

(** ** Lists of components on several lines *)
Lemma component_levels cs d a : seat tree root_args (CTree KComponentList cs) a -> leak (CTree KComponentList cs) = O ->
  spans (CTree KComponentList cs) = true -> Nat.ltb 1 (length cs) = true ->
  In d cs -> (forall t, d <> CTok t) -> leads l d (S (base a)).
Proof.
  intros S L SP LE I NT. apply in_split in I as (u & v & ->). destruct (no_leak _ _ _ _ L) as [LU _].
  assert (kind_of d = Rule KComponentDeclaration) as KD.
  { pose proof (child_symbol _ _ _ _ (seat_fits _ _ S)) as I. destruct d as [t|kd ds]; [destruct (NT t eq_refl)|].
    cbn [sym_of kind_of] in *. clear - I. vm_compute in I. intuition congruence. }
  assert (wide KComponentList (u ++ d :: v) (a_inh a) = true) as W by (cbn [wide]; rewrite SP, LE; reflexivity).
  replace (Datatypes.S (base a)) with (base a + depth KComponentList u d v a)%nat.
  2:{ unfold depth. rewrite W, KD. cbn. rewrite ?andb_false_r. cbn. lia. }
  apply (quiet_leads KComponentList u d v a Never); auto.
  - rewrite <- opener_kind, KD. reflexivity.
  - unfold place, position_of. rewrite W, KD. cbn. rewrite ?andb_false_r, ?orb_true_r. reflexivity.
Qed.

End Levels.
