(** Partial derivatives of the right-hand sides and a checker for language inclusion. *)
From Verif Require Import ProofBase Tokens Syntax Tree SpecGrammar.

Definition sym_eqb (a b : sym) : bool :=
  match a, b with
  | Term x, Term y => tkind_eqb x y
  | Rule x, Rule y => skind_eqb x y
  | _, _ => false
  end.

Lemma sym_eqb_eq a b : sym_eqb a b = true <-> a = b.
Proof.
  destruct a, b; simpl; split; intro H; try discriminate.
  - apply tkind_eqb_eq in H; congruence.
  - inversion H. apply tkind_eqb_eq; auto.
  - apply skind_eqb_eq in H; congruence.
  - inversion H. apply skind_eqb_eq; auto.
Qed.

Fixpoint rx_eqb (a b : rx) : bool :=
  match a, b with
  | Void, Void | Eps, Eps => true
  | Sy x, Sy y => sym_eqb x y
  | Cat a1 a2, Cat b1 b2 | Alt a1 a2, Alt b1 b2 => rx_eqb a1 b1 && rx_eqb a2 b2
  | Star a, Star b => rx_eqb a b
  | _, _ => false
  end.

Lemma rx_eqb_eq a b : rx_eqb a b = true -> a = b.
Proof.
  revert b; induction a; destruct b; simpl; intro H; try discriminate; auto.
  - apply sym_eqb_eq in H; congruence.
  - apply andb_true_iff in H as [H1 H2]. f_equal; auto.
  - apply andb_true_iff in H as [H1 H2]. f_equal; auto.
  - f_equal; auto.
Qed.

Fixpoint nullable (r : rx) : bool :=
  match r with
  | Void | Sy _ => false
  | Eps | Star _ => true
  | Cat a b => nullable a && nullable b
  | Alt a b => nullable a || nullable b
  end.

Lemma nullable_spec r : nullable r = true <-> lang r [].
Proof.
  split.
  - induction r; simpl; intro H; try discriminate.
    + constructor.
    + apply andb_true_iff in H as [H1 H2]. apply (l_cat r1 r2 [] []); auto.
    + apply orb_true_iff in H as [H|H]; [apply l_altl|apply l_altr]; auto.
    + constructor.
  - remember [] as w eqn:E. intro H. induction H; simpl; auto; try discriminate.
    + apply app_eq_nil in E as [-> ->]. rewrite IHlang1, IHlang2; auto.
    + rewrite IHlang; auto.
    + rewrite IHlang; auto. apply orb_true_r.
Qed.

Definition cat (a b : rx) : rx :=
  match a with Eps => b | Void => Void | _ => match b with Eps => a | _ => Cat a b end end.

Lemma cat_inv a b w : lang (Cat a b) w -> exists u v, w = u ++ v /\ lang a u /\ lang b v.
Proof. intro H; inversion H; subst; eauto. Qed.
Lemma alt_inv a b w : lang (Alt a b) w -> lang a w \/ lang b w.
Proof. intro H; inversion H; subst; eauto. Qed.
Lemma eps_inv w : lang Eps w -> w = [].
Proof. intro H; inversion H; auto. Qed.
Lemma void_inv w : ~ lang Void w.
Proof. intro H; inversion H. Qed.
Lemma sy_inv x w : lang (Sy x) w -> w = [x].
Proof. intro H; inversion H; auto. Qed.

Lemma lang_cat a b w : lang (cat a b) w <-> lang (Cat a b) w.
Proof.
  assert (forall a b, (forall w, lang a w -> w = []) -> lang a [] -> forall w, lang b w <-> lang (Cat a b) w) as L.
  { intros x y H1 H2 v. split; intro H.
    - exact (l_cat x y [] v H2 H).
    - apply cat_inv in H as (u & v' & -> & A & B). apply H1 in A as ->. assumption. }
  assert (forall a, forall w, lang a w <-> lang (Cat a Eps) w) as R.
  { intros x v. split; intro H.
    - rewrite <- (app_nil_r v). apply l_cat; auto. constructor.
    - apply cat_inv in H as (u & v' & -> & A & B). apply eps_inv in B as ->.
      rewrite app_nil_r. assumption. }
  destruct a; simpl.
  - split; intro H; [destruct (void_inv _ H)|].
    apply cat_inv in H as (u & v & -> & A & B). destruct (void_inv _ A).
  - apply L; [intros v H; inversion H; auto|constructor].
  - destruct b; try reflexivity. apply R.
  - destruct b; try reflexivity. apply R.
  - destruct b; try reflexivity. apply R.
  - destruct b; try reflexivity. apply R.
Qed.

Definition mem_rx (r : rx) (l : list rx) : bool := existsb (rx_eqb r) l.
Fixpoint add_all (l acc : list rx) : list rx :=
  match l with
  | [] => acc
  | r :: l' => add_all l' (if mem_rx r acc then acc else acc ++ [r])
  end.

Lemma mem_rx_in r l : mem_rx r l = true -> In r l.
Proof.
  unfold mem_rx. intro H. apply existsb_exists in H as [y [H1 H2]].
  apply rx_eqb_eq in H2. subst; auto.
Qed.

Lemma add_all_in r l acc : In r (add_all l acc) <-> In r l \/ In r acc.
Proof.
  revert acc; induction l as [|a l IH]; intro acc; simpl; [tauto|].
  rewrite IH. destruct (mem_rx a acc) eqn:E.
  - apply mem_rx_in in E. split; [tauto|]. intros [[->|H]|H]; auto.
  - rewrite in_app_iff. simpl. tauto.
Qed.

(** Antimirov's partial derivatives. *)
Fixpoint pd (x : sym) (r : rx) : list rx :=
  match r with
  | Void | Eps => []
  | Sy y => if sym_eqb x y then [Eps] else []
  | Cat a b =>
      let l := map (fun a' => cat a' b) (pd x a) in
      if nullable a then add_all (pd x b) l else l
  | Alt a b => add_all (pd x b) (pd x a)
  | Star a => map (fun a' => cat a' (Star a)) (pd x a)
  end.

Lemma pd_complete x r w : lang r (x :: w) -> exists r', In r' (pd x r) /\ lang r' w.
Proof.
  intro H. remember (x :: w) as u eqn:E. revert w E.
  induction H; intros w E; try discriminate; simpl.
  - inversion E; subst. rewrite (proj2 (sym_eqb_eq x x) eq_refl).
    exists Eps. split; [left; auto|constructor].
  - destruct u as [|y u].
    + simpl in E. subst v. destruct (IHlang2 _ eq_refl) as [r' [I1 I2]].
      exists r'. rewrite (proj2 (nullable_spec a) H). rewrite add_all_in. auto.
    + simpl in E. inversion E; subst. destruct (IHlang1 _ eq_refl) as [r' [I1 I2]].
      exists (cat r' b). split.
      * destruct (nullable a); rewrite ?add_all_in; [right|];
          apply in_map_iff; exists r'; auto.
      * apply lang_cat. constructor; auto.
  - destruct (IHlang _ E) as [r' [I1 I2]]. exists r'. rewrite add_all_in. auto.
  - destruct (IHlang _ E) as [r' [I1 I2]]. exists r'. rewrite add_all_in. auto.
  - destruct u as [|y u].
    + simpl in E. subst v. destruct (IHlang2 _ eq_refl) as [r' [I1 I2]].
      exists r'. auto.
    + simpl in E. inversion E; subst. destruct (IHlang1 _ eq_refl) as [r' [I1 I2]].
      exists (cat r' (Star a)). split.
      * apply in_map_iff; exists r'; auto.
      * apply lang_cat. constructor; auto.
Qed.

Lemma pd_sound x r r' w : In r' (pd x r) -> lang r' w -> lang r (x :: w).
Proof.
  revert r' w; induction r; simpl; intros r' w I L; try contradiction.
  - destruct (sym_eqb x x0) eqn:E; [|contradiction]. apply sym_eqb_eq in E; subst.
    destruct I as [<-|[]]. apply eps_inv in L as ->. constructor.
  - assert (In r' (map (fun a' => cat a' r2) (pd x r1)) -> lang (Cat r1 r2) (x :: w)) as M.
    { intro H. apply in_map_iff in H as [a [<- H]]. apply lang_cat in L. apply cat_inv in L as (u & v & -> & L1 & L2).
      change (x :: u ++ v) with ((x :: u) ++ v). constructor; eauto. }
    destruct (nullable r1) eqn:E; [|auto]. apply add_all_in in I as [I|I]; [|auto].
    apply nullable_spec in E. change (x :: w) with ([] ++ (x :: w)). constructor; eauto.
  - apply add_all_in in I as [I|I]; [apply l_altr|apply l_altl]; eauto.
  - apply in_map_iff in I as [a [<- I]]. apply lang_cat in L. apply cat_inv in L as (u & v & -> & L1 & L2).
    change (x :: u ++ v) with ((x :: u) ++ v). constructor; eauto.
Qed.

Lemma pd_iff x r w : lang r (x :: w) <-> exists r', In r' (pd x r) /\ lang r' w.
Proof.
  split; [apply pd_complete|]. intros [r' [I L]]. eapply pd_sound; eauto.
Qed.

(** Letters a word may start with. *)
Fixpoint firsts (r : rx) : list sym :=
  match r with
  | Void | Eps => []
  | Sy x => [x]
  | Cat a b => if nullable a then firsts a ++ firsts b else firsts a
  | Alt a b => firsts a ++ firsts b
  | Star a => firsts a
  end.

Lemma firsts_complete x r w : lang r (x :: w) -> In x (firsts r).
Proof.
  intro H. remember (x :: w) as u eqn:E. revert w E.
  induction H; intros w E; try discriminate; simpl.
  - inversion E; auto.
  - destruct u as [|y u].
    + simpl in E. subst v. rewrite (proj2 (nullable_spec a) H).
      apply in_or_app; right; eauto.
    + simpl in E. inversion E; subst. destruct (nullable a); [apply in_or_app; left|]; eauto.
  - apply in_or_app; eauto.
  - apply in_or_app; eauto.
  - destruct u as [|y u]; [eauto|]. simpl in E. inversion E; subst. eauto.
Qed.

(** Sets of expressions. *)
Definition pds (x : sym) (l : list rx) : list rx :=
  fold_left (fun acc r => add_all (pd x r) acc) l [].
Definition langs (l : list rx) (w : list sym) : Prop := exists r, In r l /\ lang r w.
Definition nullables (l : list rx) : bool := existsb nullable l.
Definition firstss (l : list rx) : list sym := flat_map firsts l.

Lemma pds_in x l r' : In r' (pds x l) <-> exists r, In r l /\ In r' (pd x r).
Proof.
  unfold pds.
  assert (forall acc, In r' (fold_left (fun acc r => add_all (pd x r) acc) l acc) <->
    In r' acc \/ exists r, In r l /\ In r' (pd x r)) as K.
  { induction l as [|r l IH]; intro acc; simpl.
    - split; [auto|]. intros [H|[r [[] _]]]; auto.
    - rewrite IH, add_all_in. split.
      + intros [[H|H]|[q [H1 H2]]]; eauto 6.
      + intros [H|[q [[->|H1] H2]]]; eauto 6. }
  rewrite K. simpl. split; [intros [[]|H]; auto|auto].
Qed.

Lemma langs_cons x l w : langs l (x :: w) <-> langs (pds x l) w.
Proof.
  unfold langs. split.
  - intros [r [I L]]. apply pd_iff in L as [r' [I' L']]. exists r'. rewrite pds_in. eauto.
  - intros [r' [I L]]. apply pds_in in I as [r [I1 I2]]. exists r. split; auto.
    apply pd_iff. eauto.
Qed.

Lemma langs_nil l : langs l [] <-> nullables l = true.
Proof.
  unfold langs, nullables. rewrite existsb_exists. split; intros [r [I L]]; exists r.
  - apply nullable_spec in L. auto.
  - apply nullable_spec in L. auto.
Qed.


(** Inclusion: explore pairs (derivative of the left, set of derivatives of the right). *)
Definition pair_eqb (a b : rx * list rx) : bool :=
  rx_eqb (fst a) (fst b) &&
  (Nat.eqb (length (snd a)) (length (snd b)) && forallb (fun p => rx_eqb (fst p) (snd p)) (combine (snd a) (snd b))).

Lemma list_eqb_eq (a b : list rx) :
  Nat.eqb (length a) (length b) && forallb (fun p => rx_eqb (fst p) (snd p)) (combine a b) = true -> a = b.
Proof.
  revert b; induction a as [|x a IH]; destruct b as [|y b]; simpl; intro H; try discriminate; auto.
  apply andb_true_iff in H as [H1 H2]. apply andb_true_iff in H2 as [H2 H3].
  apply rx_eqb_eq in H2. f_equal; auto. apply IH. rewrite H1, H3. reflexivity.
Qed.

Lemma pair_eqb_eq a b : pair_eqb a b = true -> a = b.
Proof.
  destruct a, b. unfold pair_eqb. simpl. intro H. apply andb_true_iff in H as [H1 H2].
  apply rx_eqb_eq in H1. apply list_eqb_eq in H2. congruence.
Qed.

Definition succs (p : rx * list rx) : list (rx * list rx) :=
  flat_map (fun x => map (fun r => (r, pds x (snd p))) (pd x (fst p))) (firsts (fst p)).

Fixpoint explore (fuel : nat) (todo seen : list (rx * list rx)) : list (rx * list rx) :=
  match fuel with
  | O => seen
  | S f =>
      match todo with
      | [] => seen
      | p :: todo' =>
          if existsb (pair_eqb p) seen then explore f todo' seen
          else explore f (succs p ++ todo') (p :: seen)
      end
  end.

Definition closed (l : list (rx * list rx)) : bool :=
  forallb (fun p =>
    (negb (nullable (fst p)) || nullables (snd p)) &&
    forallb (fun q => existsb (pair_eqb q) l) (succs p)) l.

Definition simulates (l : list (rx * list rx)) (a b : rx) : bool :=
  existsb (pair_eqb (a, [b])) l && closed l.
Definition included (fuel : nat) (a b : rx) : bool :=
  simulates (explore fuel [(a, [b])] []) a b.

Lemma existsb_pair p l : existsb (pair_eqb p) l = true -> In p l.
Proof.
  intro H. apply existsb_exists in H as [q [H1 H2]]. apply pair_eqb_eq in H2. subst; auto.
Qed.

Lemma simulates_sound l a b : simulates l a b = true -> forall w, lang a w -> lang b w.
Proof.
  unfold simulates. intro H. apply andb_true_iff in H as [H1 H2].
  apply existsb_pair in H1.
  unfold closed in H2; rewrite forallb_forall in H2.
  assert (forall w r s, In (r, s) l -> lang r w -> langs s w) as K.
  { induction w as [|x w IH]; intros r s I L;
      pose proof (H2 _ I) as H3; cbn [fst snd] in H3; apply andb_true_iff in H3 as [H3 H4].
    - apply langs_nil. apply nullable_spec in L. rewrite L in H3. exact H3.
    - apply langs_cons. pose proof (firsts_complete _ _ _ L) as F.
      apply pd_complete in L as [r' [I' L']].
      apply (IH r' (pds x s)); auto. rewrite forallb_forall in H4.
      apply existsb_pair. apply H4. unfold succs. apply in_flat_map. exists x. split; auto.
      apply in_map_iff. exists r'. auto. }
  intros w L. destruct (K w _ _ H1 L) as [r [[<-|[]] L']]. exact L'.
Qed.

Lemma included_sound fuel a b : included fuel a b = true -> forall w, lang a w -> lang b w.
Proof. apply simulates_sound. Qed.
