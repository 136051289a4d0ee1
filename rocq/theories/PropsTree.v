(** Properties C34 (signs), C37 and C52: white space in terms of the syntax tree. *)
From Verif Require Import ProofBase Tokens Syntax Lexer SpecLex LexInv LexMain LexFacts ParserCore Grammar
  Tree Printer Formatter Lib ParserSem ParserFuel SpecGrammar Regex ParserGrammar
  FmtAbs FmtPlan FmtShape FmtTables FmtSound SpecLayout FmtExec FmtTop FmtFacts FmtRelex FmtNeat SpecNodes FmtTree FmtLists FmtOps.

(** The layout of the formatted text of an accepted source together with its syntax tree. *)
Definition laid_tree (eol : text) (s : text) (p : parsed) (tree : child) (l : layout) : Prop :=
  build_tree (p_tokens p) (p_events p) = Ok tree /\ layout_of eol s p l.

(** ** Examples: find nodes of trees by computation *)
Fixpoint nodes (c : child) : list child :=
  match c with CTok _ => [c] | CTree _ cs => c :: flat_map nodes cs end.
Lemma nodes_inside t : forall c, In c (nodes t) -> inside c t.
Proof.
  induction t as [x|k cs IH] using child_ind2; intros c I; cbn [nodes] in I; destruct I as [<-|I]; try apply in_here; [destruct I|].
  apply in_flat_map in I as [d [ID I]]. rewrite Forall_forall in IH. eapply in_below; eauto.
Qed.
Definition has_node (s : text) (P : child -> bool) : Prop :=
  exists p tree c, accepted s p /\ build_tree (p_tokens p) (p_events p) = Ok tree /\ inside c tree /\ P c = true.
Definition find_node (s : text) (P : child -> bool) : bool :=
  match parse s KStoredDefinition with
  | Ok p => match p_errors p, build_tree (p_tokens p) (p_events p) with
            | [], Ok tree => existsb P (nodes tree)
            | _, _ => false
            end
  | _ => false
  end.
Lemma find_has s P : find_node s P = true -> has_node s P.
Proof.
  unfold find_node. destruct (parse s KStoredDefinition) as [p| |] eqn:E; try discriminate.
  destruct (p_errors p) eqn:Z; try discriminate. destruct (build_tree _ _) as [tree| |] eqn:B; try discriminate.
  intro H. apply existsb_exists in H as [c [I H]]. exists p, tree, c. repeat split; auto. apply nodes_inside, I.
Qed.

Lemma nonempty {A} (u : list A) x v : u ++ x :: v <> [].
Proof. destruct u; discriminate. Qed.

(** ** C34: a sign is not followed by white space; a binary [+] or [-] stands between white space. *)
Theorem C34_signs : forall eol s p, accepted s p ->
  exists tree l, laid_tree eol s p tree l /\
    (forall t v, inside (CTree KArithmeticExpression (CTree KAddOperator [CTok t] :: v)) tree ->
       forall a e, consecutive l a e -> e_tok a = t -> e_white e = WNone) /\
    (forall u t v, u <> [] -> inside (CTree KArithmeticExpression (u ++ CTree KAddOperator [CTok t] :: v)) tree ->
       (forall e, In e l -> e_tok e = t -> e_white e <> WNone) /\
       (forall a e, consecutive l a e -> e_tok a = t -> e_white e <> WNone)) /\
    (* every plus or minus is one of these, or joins two strings of a description *)
    (forall t, In t (toks tree) -> sign (tkind_of t) = true ->
       (exists u v, inside (CTree KArithmeticExpression (u ++ CTree KAddOperator [CTok t] :: v)) tree) \/
       (exists u v, inside (CTree KDescriptionString (u ++ CTok t :: v)) tree)).
Proof.
  intros eol s p ACC. destruct (accepted_plan eol s p ACC) as (tree & items & l & LO & _ & _ & _ & _ & _ & _ & BT & PL & ROOT).
  exists tree, l. split; [split; auto|]. split; [|split].
  - intros t v IN a e C T. destruct v as [|c2 v].
    + destruct (node_word _ _ _ _ _ PL (nonempty [] _ _) IN) as [LA _]. apply (operation_last KArithmeticExpression []) in LA; [discriminate|reflexivity].
    + destruct (node_joint _ _ _ _ _ _ _ [] _ _ _ LO PL IN) as (ml & w & oel & ms & l0 & l1 & l2 & pv1 & ln1 & t1 & t2 & G & n & _ & J & _ & LA & _ & _ & _ & N3).
      destruct (sign_after _ _ _ _ _ _ _ _ _ _ LA J) as [-> ->].
      destruct (N3 a e C T (or_introl eq_refl)) as [_ [[_ W]|[[W _]|(b & x & W & _)]]]; try discriminate. exact W.
  - intros u t v U IN. split.
    + intros e I T. destruct v as [|c2 v].
      * destruct (node_word _ _ _ _ _ PL (nonempty _ _ _) IN) as [LA _]. apply (operation_last KArithmeticExpression) in LA; [discriminate|reflexivity].
      * destruct u as [|c0 u _] using rev_ind; [contradiction|]. rewrite <- app_assoc in IN. cbn [app] in IN.
        destruct (node_joint _ _ _ _ _ _ _ _ _ _ _ LO PL IN) as (ml & w & oel & ms & l0 & l1 & l2 & pv1 & ln1 & t1 & t2 & G & n & _ & J & _ & LA & F & _ & N2 & _).
        apply Forall_app in F as [_ F]. inversion F as [|? ? _ F1]; subst. inversion F1 as [|? ? _ F2]; subst. inversion F2 as [|? ? FC _]; subst.
        destruct (fits_start c2 FC) as (s2 & r & S2 & _).
        destruct (op_before KArithmeticExpression _ _ (CTree KAddOperator [CTok (e_tok e)]) _ _ _ _ _ _ _ _ _ _ eq_refl LA J s2 S2) as [-> ->].
        destruct (N2 e I eq_refl) as [[W _]|[[_ W]|(b & x & _ & W)]]; try discriminate; rewrite W; discriminate.
    + intros a e C T. destruct v as [|c2 v].
      * destruct (node_word _ _ _ _ _ PL (nonempty _ _ _) IN) as [LA _]. apply (operation_last KArithmeticExpression) in LA; [discriminate|reflexivity].
      * destruct (node_joint _ _ _ _ _ _ _ _ _ _ _ LO PL IN) as (ml & w & oel & ms & l0 & l1 & l2 & pv1 & ln1 & t1 & t2 & G & n & _ & J & _ & LA & F & _ & _ & N3).
        destruct (op_after KArithmeticExpression _ (CTree KAddOperator [CTok t]) _ _ t _ _ _ _ _ _ _ eq_refl U LA J) as [-> ->].
        destruct (N3 a e C T (or_intror eq_refl)) as [_ [[W _]|[[_ W]|(b & x & W & _)]]]; try discriminate; rewrite W; discriminate.
  - destruct ROOT as [cs ->]. intros t I S. eapply sign_places; eauto; discriminate.
Qed.
Print Assumptions C34_signs.

Definition signs_sample : text :=
  lines ["model M equation x = - a+b - ( -c ) ; end M;"]%string.
Example C34_signs_applies : formats signs_sample
  (lines ["model M"; ""; "equation"; ""; "  x = -a + b - (-c);"; ""; "end M;"]%string).
Proof. formatted. Qed.
Example C34_signs_nodes :
  has_node signs_sample (fun c => match c with
    | CTree KArithmeticExpression [CTree KAddOperator [CTok t]; _; CTree KAddOperator [CTok t2]; _; CTree KAddOperator _; _] => true
    | _ => false end).
Proof. apply find_has. vm_compute. reflexivity. Qed.

(** ** C37: in one list either every separator is followed by a line break or none is. *)
Theorem C37_all_or_nothing : forall eol s p, accepted s p ->
  exists tree l, laid_tree eol s p tree l /\
    forall k cs, list_node k = true -> inside (CTree k cs) tree ->
    exists b, forall t e, In t (seps (CTree k cs)) -> next_code l t e -> is_break (e_white e) = b.
Proof.
  intros eol s p ACC. destruct (accepted_plan eol s p ACC) as (tree & items & l & LO & _ & _ & _ & _ & _ & _ & BT & PL & ROOT).
  exists tree, l. split; [split; auto|]. intros k cs K IN.
  destruct cs as [|c cs]; [exists true; intros t e []|].
  destruct (list_white _ _ _ _ _ _ _ _ LO PL (proj2 (orb_true_iff _ _) (or_introl K)) (nonempty [] _ _) IN) as (ml & w & oel & ms & l0 & _ & H).
  exists (breaks k l0). intros t e I N. eapply H; eauto.
Qed.
Print Assumptions C37_all_or_nothing.

Definition lists_sample : text :=
  lines ["model M Real x(a=1,"; "b=f(1,2,"; "n=3,m={1,2,3}),c=2); equation y=[1,2;"; "3,4;5,6]; end M;"]%string.
Example C37_applies : formats lists_sample
  (lines ["model M"; ""; "  Real x("; "    a = 1,"; "    b = f("; "      1,"; "      2,"; "      n = 3,"; "      m = {1, 2, 3}),"; "    c = 2);"; "";
          "equation"; ""; "  y = ["; "    1, 2;"; "    3, 4;"; "    5, 6];"; ""; "end M;"]%string).
Proof. formatted. Qed.
Example C37_nodes :
  has_node lists_sample (fun c => match c with CTree KFunctionCallArgs _ => Nat.eqb (length (seps c)) 3 | _ => false end) /\
  has_node lists_sample (fun c => match c with CTree KPrimary _ => Nat.eqb (length (seps c)) 2 | _ => false end) /\
  has_node lists_sample (fun c => match c with CTree KArgumentList _ => Nat.eqb (length (seps c)) 2 | _ => false end).
Proof. repeat split; apply find_has; vm_compute; reflexivity. Qed.

(** ** C52: a line is broken before a binary operator if and only if the operand after the
    operator starts on a later line of the source than the operand before it ends. *)
Theorem C52_operators : forall eol s p, accepted s p ->
  exists tree l, laid_tree eol s p tree l /\
    forall k u a o b v t, operator k o = Some t -> inside (CTree k (u ++ a :: o :: b :: v)) tree ->
      (forall e, In e l -> e_tok e = t ->
         (is_break (e_white e) = true <-> last_line a < first_line b) /\
         (e_white e = WSpace <-> first_line b <= last_line a)) /\
      (forall c e, consecutive l c e -> e_tok c = t -> e_white e = WSpace).
Proof.
  intros eol s p ACC. destruct (accepted_plan eol s p ACC) as (tree & items & l & LO & _ & _ & _ & _ & _ & _ & BT & PL & ROOT).
  exists tree, l. split; [split; auto|]. intros k u a o b v t OP IN. split.
  - intros e I T.
    destruct (node_joint _ _ _ _ _ _ _ _ _ _ _ LO PL IN) as (ml & w & oel & ms & l0 & l1 & l2 & pv1 & ln1 & t1 & t2 & G & n & _ & J & _ & LA & F & _ & N2 & _).
    apply Forall_app in F as [_ F]. inversion F as [|? ? FA F1]; subst. inversion F1 as [|? ? _ F2]; subst. inversion F2 as [|? ? FC _]; subst.
    destruct (fits_start b FC) as (s2 & r & S2 & _). pose proof J as (E1 & _).
    destruct (op_before _ _ _ _ _ _ _ _ _ _ _ _ _ _ OP LA J s2 S2) as [-> ->].
    rewrite (last_line_end _ _ FA E1), (first_line_start _ _ FC S2).
    destruct (N2 e I eq_refl) as [[W _]|[[W WE]|(b' & x & W & WE)]]; try discriminate W; rewrite WE; cbn [is_break];
      destruct (N.ltb_spec (line (tend t1)) (line (tstart s2))); try discriminate W; split; split; intro; try lia; try discriminate; reflexivity.
  - intros c e C T.
    replace (u ++ a :: o :: b :: v) with ((u ++ [a]) ++ o :: b :: v) in IN by (rewrite <- app_assoc; reflexivity).
    destruct (node_joint _ _ _ _ _ _ _ _ _ _ _ LO PL IN) as (ml & w & oel & ms & l0 & l1 & l2 & pv1 & ln1 & t1 & t2 & G & n & _ & J & _ & LA & F & _ & _ & N3).
    assert (u ++ [a] <> []) as U by (destruct u; discriminate).
    destruct (op_after _ _ _ _ _ _ _ _ _ _ _ _ _ OP U LA J) as [-> ->].
    destruct (N3 c e C T (or_intror eq_refl)) as [_ [[W _]|[[_ W]|(b' & x & W & _)]]]; try discriminate; exact W.
Qed.
Print Assumptions C52_operators.

Definition operators_sample : text :=
  lines ["model M equation x = a +"; "b*c -"; ""; "d ^"; "e; end M;"]%string.
Example C52_applies : formats operators_sample
  (lines ["model M"; ""; "equation"; ""; "  x = a"; "    + b * c"; "    - d"; "    ^ e;"; ""; "end M;"]%string).
Proof. formatted. Qed.
Example C52_nodes :
  has_node operators_sample (fun c => match c with
    | CTree KArithmeticExpression [a; o; b; o2; d] => (last_line a <? first_line b) && match operator KArithmeticExpression o2 with Some _ => true | _ => false end
    | _ => false end) /\
  has_node operators_sample (fun c => match c with
    | CTree KTerm [a; o; b] => (first_line b <=? last_line a) && match operator KTerm o with Some _ => true | _ => false end
    | _ => false end).
Proof. split; apply find_has; vm_compute; reflexivity. Qed.
