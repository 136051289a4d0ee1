(** What the next three tokens can be: the second and third only as far as the parser asks. *)
From Verif Require Import ProofBase Tokens Syntax Lexer ParserCore Grammar Tree ParserSem
  SpecGrammar Regex ParserGrammar SpecLanguage.

Definition look := list tkind.
Definition key2 : list tkind :=
  [TEqual; TLParen; TIdentifier; TLCurly; TEquation; TAlgorithm; TDer].
Definition key3 : list tkind := [TDer].
Definition cls2 (k : tkind) : tkind := if memk k key2 then k else TComma.
Definition cls3 (k : tkind) : tkind := if memk k key3 then k else TComma.

Definition tl1 (b : look) : look :=
  match b with [] => [] | [y] => [cls2 y] | y :: z :: _ => [cls2 y; cls3 z] end.
Definition tl2 (b : look) : look := match b with [] => [] | z :: _ => [cls3 z] end.
Definition norm (l : list tkind) : look := match l with [] => [] | x :: r => x :: tl1 r end.
Definition glue (a b : look) : look :=
  match a with
  | [] => b
  | [x] => x :: tl1 b
  | [x; y] => x :: y :: tl2 b
  | _ => a
  end.

Definition look_code (l : look) : N :=
  fold_right (fun k n => n * 128 + tkind_code k + 1) 0 l.

(** Sets as sorted lists. *)
Fixpoint union (a b : list look) {struct a} : list look :=
  match a with
  | [] => b
  | x :: a' =>
      (fix ins (b : list look) : list look :=
         match b with
         | [] => a
         | y :: b' =>
             match N.compare (look_code x) (look_code y) with
             | Lt => x :: union a' b
             | Eq => y :: union a' b'
             | Gt => y :: ins b'
             end
         end) b
  end.
Definition look_eqb (a b : look) : bool := N.eqb (look_code a) (look_code b).
Definition add (x : look) (l : list look) : list look := union [x] l.
Definition gather (l : list look) : list look := fold_right add [] l.
Fixpoint contained (a b : list look) : bool :=
  match a with
  | [] => true
  | x :: a' =>
      (fix go (b : list look) : bool :=
         match b with
         | [] => false
         | y :: b' => if look_eqb x y then contained a' b' else go b'
         end) b
  end.

Definition full3 (l : look) : bool := match l with _ :: _ :: _ :: _ => true | _ => false end.
Definition glues (a b : list look) : list look :=
  let b1 := gather (map tl1 b) in
  let b2 := gather (map tl2 b) in
  fold_right (fun x acc => union (match x with
    | [] => b
    | [k] => map (cons k) b1
    | [k; k'] => map (fun t => k :: k' :: t) b2
    | _ => [x]
    end) acc) [] a.

Section Openers.
(** What a child of the rule may start with. *)
Variable first : skind -> list look.
Fixpoint openers (r : rx) : list look :=
  match r with
  | Void => []
  | Eps => [[]]
  | Sy (Term k) => [[k]]
  | Sy (Rule k) => first k
  | Cat a b =>
      let x := openers a in
      if forallb full3 x then x else glues x (openers b)
  | Alt a b => union (openers a) (openers b)
  | Star a =>
      let x := openers a in
      let s1 := union [[]] (glues x [[]]) in
      let s2 := union [[]] (glues x s1) in
      union [[]] (glues x s2)
  end.
End Openers.

Definition table := list (list look).
Definition get (t : table) (k : skind) : list look := nth (N.to_nat (skind_code k)) t [].

(** Children that must not start with some kinds. *)
Definition hd_in (ks : list tkind) (l : look) : bool :=
  match l with [] => false | k :: _ => memk k ks end.
Definition first_in (t : table) (parent k : skind) : list look :=
  match barred parent k with
  | [] => get t k
  | ks => filter (fun l => negb (hd_in ks l)) (get t k)
  end.

Definition first_round (t : table) : table :=
  map (fun k => openers (first_in t k) (production false k)) all_skinds.
Fixpoint rounds {A} (f : A -> A) (n : nat) (x : A) : A :=
  match n with O => x | S m => rounds f m (f x) end.

(** What may follow a node. *)
Fixpoint followers (first : skind -> list look) (r : rx) (f : list look) : list (skind * list look) :=
  match r with
  | Void | Eps | Sy (Term _) => []
  | Sy (Rule k) => [(k, f)]
  | Cat a b => followers first a (glues (openers first b) f) ++ followers first b f
  | Alt a b => followers first a f ++ followers first b f
  | Star a => followers first a (glues (openers first (Star a)) f)
  end.
Fixpoint update (t : table) (n : nat) (l : list look) : table :=
  match t, n with
  | [], _ => []
  | x :: t', O => union l x :: t'
  | x :: t', S m => x :: update t' m l
  end.
Definition follow_round (ft : table) (t : table) : table :=
  fold_left (fun t k =>
    fold_left (fun t p => update t (N.to_nat (skind_code (fst p))) (snd p))
      (followers (first_in ft k) (production false k) (get t k)) t) all_skinds t.

Definition first_tab : table := Eval vm_compute in rounds first_round 40 (map (fun _ => []) all_skinds).
Definition follow_tab : table := Eval vm_compute in
  rounds (follow_round first_tab) 12
    (map (fun k => if skind_eqb k KStoredDefinition then [[]] else []) all_skinds).

(** * Facts *)
Lemma look_code_inj a b : look_code a = look_code b -> a = b.
Proof.
  revert b; induction a as [|x a IH]; intros [|y b]; simpl; intro H; auto; try lia.
  assert (forall k, tkind_code k < 128) as tkind_code_small.
  { clear. destruct k; reflexivity. }
  pose proof (tkind_code_small x). pose proof (tkind_code_small y).
  assert (look_code a = look_code b /\ tkind_code x = tkind_code y) as [A B].
  { change (fold_right (fun k n => n * 128 + tkind_code k + 1) 0 a) with (look_code a) in H.
    change (fold_right (fun k n => n * 128 + tkind_code k + 1) 0 b) with (look_code b) in H.
    lia. }
  f_equal; auto. apply tkind_eqb_eq. unfold tkind_eqb. apply N.eqb_eq. exact B.
Qed.
Lemma look_eqb_eq a b : look_eqb a b = true -> a = b.
Proof. unfold look_eqb. intro H. apply N.eqb_eq in H. apply look_code_inj; auto. Qed.

Lemma union_in x a : forall b, In x a \/ In x b -> In x (union a b).
Proof.
  induction a as [|y a IH]; intros b H; [destruct H as [[]|H]; auto|].
  cbn [union]. induction b as [|z b IHb].
  - destruct H as [H|[]]. exact H.
  - destruct (look_code y ?= look_code z) eqn:C.
    + apply N.compare_eq in C. apply look_code_inj in C. subst z.
      destruct H as [[H|H]|[H|H]]; [left; auto|right; apply IH; auto|left; auto|right; apply IH; auto].
    + destruct H as [[H|H]|H]; [left; auto|right; apply IH; auto|right; apply IH; auto].
    + destruct H as [H|[H|H]]; [right; apply IHb; auto|left; auto|right; apply IHb; auto].
Qed.
Lemma gather_in x l : In x l -> In x (gather l).
Proof.
  induction l as [|y l IH]; intros []; unfold gather; simpl; unfold add; apply union_in.
  - left; left; auto.
  - right; apply IH; auto.
Qed.
Lemma contained_in a : forall b x, contained a b = true -> In x a -> In x b.
Proof.
  induction a as [|y a IH]; intros b x H I; [destruct I|].
  cbn [contained] in H. induction b as [|z b IHb]; [discriminate|].
  destruct (look_eqb y z) eqn:E.
  - apply look_eqb_eq in E. subst z. destruct I as [I|I]; [left; auto|right; eauto].
  - right. auto.
Qed.

Lemma cls3_cls2 k : cls3 (cls2 k) = cls3 k.
Proof. destruct k; reflexivity. Qed.

Lemma tl1_norm l : tl1 (norm l) = tl1 l.
Proof. destruct l as [|a [|b [|c l]]]; simpl; auto; rewrite cls3_cls2; auto. Qed.
Lemma tl2_norm l : tl2 (norm l) = tl2 l.
Proof. destruct l as [|a l]; simpl; auto. Qed.
Lemma norm_app a b : norm (a ++ b) = glue (norm a) (norm b).
Proof.
  destruct a as [|x [|y [|z a]]].
  - reflexivity.
  - cbn [app norm tl1 glue]. rewrite tl1_norm. reflexivity.
  - cbn [app norm tl1 glue]. rewrite tl2_norm. destruct b; reflexivity.
  - reflexivity.
Qed.

Lemma glues_in a b x y : In x a -> In y b -> In (glue x y) (glues a b).
Proof.
  intros I J. unfold glues.
  assert (In (tl1 y) (gather (map tl1 b))) as J1 by (apply gather_in, in_map; auto).
  assert (In (tl2 y) (gather (map tl2 b))) as J2 by (apply gather_in, in_map; auto).
  induction a as [|z a IH]; [destruct I|]. cbn [fold_right]. apply union_in.
  destruct I as [->|I]; [left|right; auto].
  destruct x as [|k [|k' [|k'' x]]]; cbn [glue]; auto.
  - apply in_map. auto.
  - apply (in_map (fun t => k :: k' :: t)). auto.
  - left; auto.
Qed.

Lemma glue_full a b : full3 a = true -> glue a b = a.
Proof. destruct a as [|x [|y [|z a]]]; simpl; try discriminate; auto. Qed.

Section OpenersSound.
Variable first : skind -> list look.
Definition kinds_of (ts : list token) : list tkind := map tkind_of ts.
Lemma kinds_of_app a b : kinds_of (a ++ b) = kinds_of a ++ kinds_of b.
Proof. apply map_app. Qed.
Definition first_sym (x : sym) : list look :=
  match x with Term k => [[k]] | Rule k => first k end.
Definition opens (c : child) : Prop := In (norm (kinds_of (leaves c))) (first_sym (sym_of c)).

Lemma syms_split cs u v : syms cs = u ++ v ->
  exists c1 c2, cs = c1 ++ c2 /\ syms c1 = u /\ syms c2 = v.
Proof.
  revert cs; induction u as [|x u IH]; intros cs H.
  - exists [], cs. auto.
  - destruct cs as [|c cs]; [discriminate|]. simpl in H. inversion H as [[A B]].
    destruct (IH _ B) as (c1 & c2 & -> & E1 & E2). exists (c :: c1), c2.
    split; auto. split; auto. simpl. rewrite E1. auto.
Qed.

Lemma star_tl2 x w cs :
  lang (Star w) (syms cs) ->
  (forall c1, lang w (syms c1) -> (forall c, In c c1 -> In c cs) -> In (norm (kinds_of (yield c1))) x) ->
  exists s, In s (union [[]] (glues x [[]])) /\ tl2 s = tl2 (kinds_of (yield cs)).
Proof.
  intro H. remember (Star w) as a eqn:EA. remember (syms cs) as v eqn:EV.
  revert cs EV. induction H; try discriminate; inversion EA; subst; intros cs EV HX.
  - destruct cs; [|discriminate]. exists []. split; auto. apply union_in. left. left; auto.
  - destruct (syms_split _ _ _ (eq_sym EV)) as (c1 & c2 & -> & <- & <-).
    rewrite yield_app, kinds_of_app.
    assert (In (norm (kinds_of (yield c1))) x) as I1.
    { apply HX; auto. intros c I. apply in_or_app; auto. }
    destruct (kinds_of (yield c1)) as [|k l] eqn:E.
    + apply IHlang2; auto. intros c3 L3 I3. apply HX; auto. intros c I. apply in_or_app. auto.
    + exists (glue (norm (k :: l)) []). split.
      * apply union_in. right. apply glues_in; auto. left; auto.
      * destruct l as [|k2 [|k3 l]]; reflexivity.
Qed.

Lemma tl2_tl1 l : tl2 (tl1 l) = tl2 l.
Proof. destruct l as [|a [|b l]]; simpl; auto; rewrite cls3_cls2; auto. Qed.

Lemma star_tl1 x w cs :
  lang (Star w) (syms cs) ->
  (forall c1, lang w (syms c1) -> (forall c, In c c1 -> In c cs) -> In (norm (kinds_of (yield c1))) x) ->
  exists s, In s (union [[]] (glues x (union [[]] (glues x [[]])))) /\ tl1 s = tl1 (kinds_of (yield cs)).
Proof.
  intro H. remember (Star w) as a eqn:EA. remember (syms cs) as v eqn:EV.
  revert cs EV. induction H; try discriminate; inversion EA; subst; intros cs EV HX.
  - destruct cs; [|discriminate]. exists []. split; auto. apply union_in. left. left; auto.
  - destruct (syms_split _ _ _ (eq_sym EV)) as (c1 & c2 & -> & <- & <-).
    rewrite yield_app, kinds_of_app.
    assert (In (norm (kinds_of (yield c1))) x) as I1.
    { apply HX; auto. intros c I. apply in_or_app; auto. }
    assert (forall c3, lang w (syms c3) -> (forall c, In c c3 -> In c c2) ->
      In (norm (kinds_of (yield c3))) x) as HX2.
    { intros c3 L3 I3. apply HX; auto. intros c I. apply in_or_app. auto. }
    destruct (kinds_of (yield c1)) as [|k l] eqn:E.
    + apply IHlang2; auto.
    + destruct (star_tl2 _ _ _ H0 HX2) as (s & IS & ES).
      exists (glue (norm (k :: l)) s). split.
      * apply union_in. right. apply glues_in; auto.
      * destruct l as [|k2 [|k3 l]]; cbn [norm tl1 glue app].
        -- rewrite <- (tl2_tl1 s) in ES. destruct (tl1 s) as [|z m]; simpl in *;
             destruct (kinds_of (yield c2)) as [|z' m']; simpl in *; try discriminate; auto.
           inversion ES. auto.
        -- simpl. rewrite cls3_cls2. auto.
        -- simpl. rewrite cls3_cls2. auto.
Qed.

Lemma openers_ok r : forall cs, lang r (syms cs) -> Forall opens cs ->
  In (norm (kinds_of (yield cs))) (openers first r).
Proof.
  induction r as [| |x|a IHa b IHb|a IHa b IHb|a IHa]; intros cs L G.
  - inversion L.
  - apply eps_inv in L. destruct cs; [|discriminate]. left; auto.
  - apply sy_inv in L. destruct cs as [|c [|? ?]]; try discriminate. inversion L as [E].
    inversion G as [|? ? G1 _]; subst. unfold yield. simpl. rewrite app_nil_r.
    unfold opens in G1. destruct (sym_of c); exact G1.
  - apply cat_inv in L as (u & v & E & L1 & L2).
    destruct (syms_split _ _ _ E) as (c1 & c2 & -> & <- & <-).
    apply Forall_app in G as [G1 G2]. rewrite yield_app, kinds_of_app, norm_app. cbn [openers].
    pose proof (IHa _ L1 G1) as I1. destruct (forallb full3 (openers first a)) eqn:F.
    + rewrite forallb_forall in F. rewrite glue_full; auto.
    + apply glues_in; auto.
  - apply alt_inv in L as [L|L]; apply union_in; auto.
  - cbn [openers]. cbv zeta.
    assert (forall c1, lang a (syms c1) -> (forall c, In c c1 -> In c cs) ->
      In (norm (kinds_of (yield c1))) (openers first a)) as HX.
    { intros c1 L1 I1. apply IHa; auto. rewrite Forall_forall in *. auto. }
    clear IHa G.
    remember (Star a) as r eqn:EA. remember (syms cs) as v eqn:EV.
    revert cs EV HX. induction L; try discriminate; inversion EA; subst; intros cs EV HX.
    + destruct cs; [|discriminate]. apply union_in. left. left; auto.
    + destruct (syms_split _ _ _ (eq_sym EV)) as (c1 & c2 & -> & <- & <-).
      assert (In (norm (kinds_of (yield c1))) (openers first a)) as I1.
      { apply HX; auto. intros c I. apply in_or_app; auto. }
      assert (forall c3, lang a (syms c3) -> (forall c, In c c3 -> In c c2) ->
        In (norm (kinds_of (yield c3))) (openers first a)) as HX2.
      { intros c3 L3 I3. apply HX; auto. intros c I. apply in_or_app. auto. }
      rewrite yield_app, kinds_of_app.
      destruct (kinds_of (yield c1)) as [|k l] eqn:E.
      * apply IHL2; auto.
      * destruct (star_tl1 _ _ _ L2 HX2) as (s & IS & ES). apply union_in. right.
        rewrite norm_app.
        assert (glue (norm (k :: l)) (norm (kinds_of (yield c2))) = glue (norm (k :: l)) s) as ->.
        { assert (tl2 s = tl2 (kinds_of (yield c2))) as ES2.
          { rewrite <- (tl2_tl1 s), ES, tl2_tl1. auto. }
          destruct l as [|k2 [|k3 l]]; cbn [norm tl1 glue]; auto.
          - rewrite tl1_norm, ES. auto.
          - rewrite tl2_norm, ES2. auto. }
        apply glues_in; auto.
Qed.
End OpenersSound.
