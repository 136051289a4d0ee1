(** Certified checks that a tree follows the grammar and that a word is not derivable. *)
From Verif Require Import ProofBase Tokens Syntax Tree ParserSem SpecGrammar Regex.

(** * Conformance of a given tree *)
Definition matchb (r : rx) (w : list sym) : bool :=
  nullables (fold_left (fun l x => pds x l) w [r]).

Lemma fold_pds w : forall l, nullables (fold_left (fun l x => pds x l) w l) = true -> langs l w.
Proof.
  induction w as [|x w IH]; intros l H; simpl in H.
  - apply langs_nil. exact H.
  - apply langs_cons. apply IH, H.
Qed.

Lemma matchb_sound r w : matchb r w = true -> lang r w.
Proof.
  intro H. apply fold_pds in H. destruct H as (r' & [<-|[]] & H). exact H.
Qed.

Fixpoint conformsb (strict : bool) (c : child) : bool :=
  match c with
  | CTok _ => true
  | CTree k cs =>
      matchb (production strict k) (map sym_of cs) &&
      (fix all (l : list child) : bool :=
         match l with [] => true | c' :: l' => conformsb strict c' && all l' end) cs
  end.

Lemma conformsb_sound strict c : conformsb strict c = true -> conforms strict c.
Proof.
  induction c as [x|k cs IH] using child_ind2; intro H; [constructor|].
  simpl in H. apply andb_true_iff in H as [H1 H2]. constructor; [apply matchb_sound, H1|].
  clear H1. induction IH as [|c cs Hc _ IHcs]; [constructor|].
  simpl in H2. apply andb_true_iff in H2 as [H2 H3]. constructor; auto.
Qed.

(** * Words that cannot be derived: a table of spans closed under the productions *)
Section Table.
Variable strict : bool.
Variable word : list tkind.
Variable T : skind -> nat -> list nat.

Definition step_sym (x : sym) (i : nat) : list nat :=
  match x with
  | Term k => match nth_error word i with
              | Some k' => if tkind_eqb k' k then [S i] else []
              | None => []
              end
  | Rule k => T k i
  end.

Definition has (l : list nat) (i : nat) : bool := existsb (Nat.eqb i) l.
Definition sub (a b : list nat) : bool := forallb (has b) a.
Definition union (a b : list nat) : list nat :=
  fold_right (fun x l => if has l x then l else x :: l) b a.

Fixpoint reach (r : rx) (s : list nat) : option (list nat) :=
  match r with
  | Void => Some []
  | Eps => Some s
  | Sy x => Some (fold_right (fun i l => union (step_sym x i) l) [] s)
  | Cat a b => match reach a s with Some s' => reach b s' | None => None end
  | Alt a b => match reach a s, reach b s with
               | Some x, Some y => Some (union x y)
               | _, _ => None
               end
  | Star a =>
      let s' := Nat.iter (length word + 1) (fun x =>
                  match reach a x with Some y => union y x | None => x end) s in
      match reach a s' with
      | Some y => if sub y s' && sub s s' then Some s' else None
      | None => None
      end
  end.

Definition closed_at (k : skind) (i : nat) : bool :=
  match reach (production strict k) [i] with
  | Some s => sub s (T k i)
  | None => false
  end.
Definition closed_table : bool :=
  forallb (fun k => forallb (closed_at k) (List.seq 0 (length word + 1))) all_skinds.

Lemma has_in l i : has l i = true <-> In i l.
Proof.
  unfold has. rewrite existsb_exists. split.
  - intros (x & I & E). apply Nat.eqb_eq in E. congruence.
  - intro I. exists i. split; auto. apply Nat.eqb_refl.
Qed.
Lemma sub_in a b i : sub a b = true -> In i a -> In i b.
Proof. unfold sub. rewrite forallb_forall. intros H I. apply has_in; auto. Qed.
Lemma union_in a b i : In i (union a b) <-> In i a \/ In i b.
Proof.
  induction a as [|x a IH]; simpl; [tauto|].
  fold (union a b). destruct (has (union a b) x) eqn:E.
  - apply has_in in E. rewrite IH. split; [tauto|].
    intros [[->|I]|I]; auto. apply IH, E.
  - simpl. rewrite IH. tauto.
Qed.

Inductive matched : list sym -> nat -> nat -> Prop :=
| m_nil i : matched [] i i
| m_cons x w i j m : In j (step_sym x i) -> matched w j m -> matched (x :: w) i m.

Lemma matched_app u v i m : matched (u ++ v) i m -> exists j, matched u i j /\ matched v j m.
Proof.
  revert i; induction u as [|x u IH]; intros i H; simpl in H.
  - exists i. split; auto. constructor.
  - inversion H; subst. destruct (IH _ H5) as (j' & A & B).
    exists j'. split; auto. econstructor; eauto.
Qed.

Lemma reach_sound r w : lang r w -> forall s s' i j,
  reach r s = Some s' -> In i s -> matched w i j -> In j s'.
Proof.
  assert (forall x s i j, In i s -> In j (step_sym x i) ->
    In j (fold_right (fun i l => union (step_sym x i) l) [] s)) as ST.
  { intros x s i j I J. induction s as [|i' s IH]; [contradiction|].
    simpl. apply union_in. destruct I as [->|I]; auto. }
  intro H. revert w H. induction r as [| |x|a IHa b IHb|a IHa b IHb|a IHa];
    intros w H s s' i j R I M; cbn [reach] in R.
  - apply void_inv in H. contradiction.
  - apply eps_inv in H. subst. inversion R; inversion M; subst. exact I.
  - apply sy_inv in H. subst. inversion R; inversion M; subst.
    match goal with K : matched [] _ _ |- _ => inversion K; subst end. eauto.
  - apply cat_inv in H as (u & v & -> & H1 & H2).
    destruct (reach a s) as [sa|] eqn:E; [|discriminate].
    apply matched_app in M as (m & M1 & M2). eauto.
  - destruct (reach a s) as [sa|] eqn:E1; [|discriminate].
    destruct (reach b s) as [sb|] eqn:E2; [|discriminate].
    inversion R; subst. apply union_in. apply alt_inv in H as [H|H]; [left|right]; eauto.
  - cbv zeta in R. set (s1 := Nat.iter _ _ s) in *. destruct (reach a s1) as [y|] eqn:E; [|discriminate].
    destruct (sub y s1) eqn:S1; [|discriminate].
    destruct (sub s s1) eqn:S2; [|discriminate].
    inversion R; subst s'. assert (In i s1) as I1 by (eapply sub_in; eauto).
    clear R S2 I. clearbody s1. clear s. revert i I1 M. remember (Star a) as ra.
    induction H as [| | | | |a'|a' u v H1 IH1 H2 IH2]; try discriminate; inversion Heqra; subst;
      intros i I1 M.
    + inversion M; subst. exact I1.
    + apply matched_app in M as (m & M1 & M2).
      apply (IH2 eq_refl m); auto. eapply sub_in; [exact S1|]. eapply IHa; eauto.
Qed.

Lemma closed_at_all : closed_table = true -> forall k i, (i <= length word)%nat ->
  closed_at k i = true.
Proof.
  unfold closed_table. intros H k i L. rewrite forallb_forall in H.
  specialize (H k (all_skinds_complete k)). rewrite forallb_forall in H.
  apply H, in_seq. lia.
Qed.

Scheme derives_mut := Minimality for derives Sort Prop
  with expands_mut := Minimality for expands Sort Prop.

Lemma table_sound : closed_table = true -> forall k ks, derives strict k ks ->
  forall pre post, word = pre ++ ks ++ post -> In (length pre + length ks)%nat (T k (length pre)).
Proof.
  intro CT.
  apply (derives_mut strict
    (fun k ks => forall pre post, word = pre ++ ks ++ post ->
                   In (length pre + length ks)%nat (T k (length pre)))
    (fun w ks => forall pre post, word = pre ++ ks ++ post ->
                   matched w (length pre) (length pre + length ks)%nat)).
  - intros k w ks L _ IH pre post E. specialize (IH pre post E).
    assert (closed_at k (length pre) = true) as C.
    { apply closed_at_all; auto. rewrite E, app_length. lia. }
    unfold closed_at in C. destruct (reach (production strict k) [length pre]) as [s|] eqn:R;
      [|discriminate].
    eapply sub_in; [exact C|]. eapply reach_sound; eauto. left; reflexivity.
  - intros pre post E. simpl. rewrite Nat.add_0_r. constructor.
  - intros k w ks _ IH pre post E. apply m_cons with (j := S (length pre)).
    + simpl. rewrite E, nth_error_app2 by lia. rewrite Nat.sub_diag. simpl.
      rewrite tkind_eqb_refl. left; reflexivity.
    + specialize (IH (pre ++ [k]) post). rewrite app_length in IH. simpl in *.
      replace (length pre + 1)%nat with (S (length pre)) in IH by lia.
      replace (length pre + S (length ks))%nat with (S (length pre) + length ks)%nat by lia.
      apply IH. rewrite <- app_assoc. exact E.
  - intros k w a b _ IH1 _ IH2 pre post E. rewrite <- app_assoc in E.
    apply m_cons with (j := (length pre + length a)%nat).
    + simpl. apply (IH1 pre (b ++ post)). exact E.
    + specialize (IH2 (pre ++ a) post). rewrite !app_length in *.
      rewrite Nat.add_assoc. apply IH2. rewrite <- app_assoc. exact E.
Qed.

Lemma not_derivable k :
  closed_table = true -> has (T k 0) (length word) = false -> ~ derives strict k word.
Proof.
  intros C H D. pose proof (table_sound C k word D [] [] ltac:(simpl; rewrite app_nil_r; reflexivity)) as I.
  simpl in I. apply has_in in I. congruence.
Qed.
End Table.

(** Computing a table. *)
Definition table := list (list (list nat)).
Definition look (t : table) (k : skind) (i : nat) : list nat :=
  nth i (nth (N.to_nat (skind_code k)) t []) [].
Definition grow (strict : bool) (word : list tkind) (t : table) : table :=
  map (fun k => map (fun i =>
    match reach word (look t) (production strict k) [i] with Some s => s | None => [] end)
      (List.seq 0 (length word + 1))) all_skinds.
Definition spans (strict : bool) (word : list tkind) (n : nat) : table :=
  Nat.iter n (grow strict word) [].
