(** Shape of the trees the formatter gets: conforming trees without their empty nodes. *)
From Verif Require Import ProofBase Tokens Syntax Lexer ParserCore Tree Printer Formatter ParserSem
  ParserFuel SpecGrammar Regex ParserGrammar ParserTree FmtAbs.

Inductive fits : child -> Prop :=
| fits_tok x : fits (CTok x)
| fits_tree k cs : cs <> [] -> lang (pruned (production false k)) (map sym_of cs) ->
    Forall fits cs -> fits (CTree k cs).

(** Expressions that match a sequence of rules that can be empty. *)
Fixpoint hollow (r : rx) : bool :=
  match r with
  | Void => false
  | Eps | Star _ => true
  | Sy (Rule k) => can_empty k
  | Sy (Term _) => false
  | Cat a b => hollow a && hollow b
  | Alt a b => hollow a || hollow b
  end.

Definition hollow_sym (x : sym) : bool :=
  match x with Rule k => can_empty k | Term _ => false end.

Lemma hollow_lang r w : lang r w -> forallb hollow_sym w = true -> hollow r = true.
Proof.
  induction 1; simpl; intro H'; auto.
  - rewrite andb_true_r in H'. destruct x; auto.
  - rewrite forallb_app in H'. apply andb_true_iff in H' as [H1 H2].
    rewrite IHlang1, IHlang2; auto.
  - rewrite IHlang; auto.
  - rewrite IHlang; auto. apply orb_true_r.
Qed.

Definition hollow_ok : bool :=
  forallb (fun k => negb (hollow (production false k)) || can_empty k) all_skinds.
Lemma hollow_ok_true : hollow_ok = true.
Proof. vm_compute. reflexivity. Qed.

Lemma hollow_rule k : hollow (production false k) = true -> can_empty k = true.
Proof.
  intro H. pose proof (skind_all _ hollow_ok_true k) as K. cbv beta in K.
  rewrite H in K. exact K.
Qed.

Lemma conforms_empty c : conforms false c -> leaves c = [] -> hollow_sym (sym_of c) = true.
Proof.
  induction c as [x|k cs IH] using child_ind2; intros H E; [discriminate|].
  inversion H as [|k' cs' L F]; subst. simpl. apply hollow_rule.
  apply (hollow_lang _ _ L). simpl in E. clear H L.
  induction cs as [|c cs IHcs]; auto. cbn [flat_map] in E. apply app_eq_nil in E as [E1 E2].
  inversion IH; inversion F; subst. cbn [map forallb]. rewrite H1, IHcs; auto.
Qed.

Inductive drops : list sym -> list sym -> Prop :=
| dr_nil : drops [] []
| dr_keep x u v : drops u v -> drops (x :: u) (x :: v)
| dr_drop x u v : hollow_sym x = true -> drops u v -> drops (x :: u) v.

Lemma drops_app u : forall v w, drops (u ++ v) w -> exists a b, w = a ++ b /\ drops u a /\ drops v b.
Proof.
  induction u as [|x u IH]; intros v w H.
  - exists [], w. repeat split; auto. constructor.
  - simpl in H. inversion H; subst.
    + apply IH in H3 as (a & b & -> & A & B). exists (x :: a), b. repeat split; auto. constructor; auto.
    + apply IH in H4 as (a & b & -> & A & B). exists a, b. repeat split; auto. constructor; auto.
Qed.

Lemma pruned_drops r w : lang r w -> forall v, drops w v -> lang (pruned r) v.
Proof.
  induction 1; simpl; intros w' D.
  - inversion D; subst. constructor.
  - inversion D as [|? ? v' D'|? ? v' Hx D']; subst; inversion D'; subst.
    + destruct x as [k|k]; [constructor|]. destruct (can_empty k); [apply l_altr|]; constructor.
    + destruct x as [k|k]; [discriminate|]. simpl in Hx. rewrite Hx. apply l_altl. constructor.
  - apply drops_app in D as (a' & b' & -> & A & B). constructor; auto.
  - apply l_altl; auto.
  - apply l_altr; auto.
  - inversion D; subst. constructor.
  - apply drops_app in D as (a' & b' & -> & A & B). apply l_star; auto.
Qed.

Lemma sym_of_prune c : sym_of (prune c) = sym_of c.
Proof. destruct c; reflexivity. Qed.

Lemma prunes_drops cs :
  Forall (conforms false) cs -> drops (map sym_of cs) (map sym_of (prunes cs)).
Proof.
  induction 1 as [|c cs H _ IH]; [constructor|].
  unfold prunes in *. cbn [map filter]. destruct (empty_tree (prune c)) eqn:E; cbn [negb].
  - constructor; auto. apply conforms_empty; auto. rewrite <- leaves_prune.
    destruct (prune c) as [x|k [|a l]]; try discriminate. reflexivity.
  - cbn [map]. rewrite sym_of_prune. constructor; auto.
Qed.

Lemma prune_lang k cs :
  conforms false (CTree k cs) -> lang (pruned (production false k)) (map sym_of (prunes cs)).
Proof.
  intro H. inversion H as [|k' cs' L F]; subst. eapply pruned_drops; eauto. apply prunes_drops; auto.
Qed.

Theorem prune_fits c :
  conforms false c -> match prune c with CTree _ [] => True | c' => fits c' end.
Proof.
  induction c as [x|k cs IH] using child_ind2; intro H; [constructor|].
  pose proof (prune_lang k cs H) as L. inversion H as [|k' cs' L' F]; subst.
  rewrite prune_tree. destruct (prunes cs) as [|a l] eqn:E; auto. rewrite <- E in *.
  constructor; auto; [rewrite E; discriminate|].
  apply Forall_forall. intros d I. unfold prunes in I. apply filter_In in I as [I N].
  apply in_map_iff in I as [c [<- I]].
  rewrite Forall_forall in IH, F. specialize (IH c I (F c I)).
  destruct (prune c) as [x|k' [|a' l']]; auto. discriminate.
Qed.

(** First tokens. *)
Lemma fits_start c : fits c -> exists t r, start_of c = Some t /\ leaves c = t :: r.
Proof.
  induction c as [x|k cs IH] using child_ind2; intro H; [exists x, []; auto|].
  inversion H as [|k' cs' NE L F]; subst. destruct cs as [|c cs]; [contradiction|].
  inversion IH; inversion F; subst. destruct (H2 H6) as (t & r & E1 & E2).
  exists t. simpl. rewrite E1, E2. eexists. split; reflexivity.
Qed.

Lemma fits_end c : fits c -> exists t r, end_of c = Some t /\ leaves c = r ++ [t].
Proof.
  induction c as [x|k cs IH] using child_ind2; intro H; [exists x, []; auto|].
  inversion H as [|k' cs' NE L F]; subst. clear H L. simpl.
  induction cs as [|c cs IHcs]; [contradiction|].
  inversion IH; inversion F; subst. destruct cs as [|c' cs].
  - destruct (H1 H5) as (t & r & E1 & E2). exists t, r. simpl. rewrite app_nil_r. auto.
  - destruct IHcs as (t & r & E1 & E2); auto; [discriminate|].
    exists t, (leaves c ++ r). split; auto. cbn [flat_map] in *. rewrite E2, app_assoc. reflexivity.
Qed.

Lemma fits_multiline c : fits c -> exists b, is_multiline c = Some b.
Proof.
  intro H. destruct (fits_start c H) as (t & r & E & _). destruct (fits_end c H) as (t' & r' & E' & _).
  unfold is_multiline. rewrite E, E'. eauto.
Qed.
