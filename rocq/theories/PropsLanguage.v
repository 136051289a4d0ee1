(** Properties C60-C62: the language of the parser. *)
From Verif Require Import ProofBase Tokens Syntax Lexer ParserCore Grammar Tree Lib ParserSem
  SpecGrammar ParserGrammar ParserTree SpecLanguage Predict PredictOk ParserComplete Recognise PropsParser.

(** ** C60: a text is accepted exactly if its tokens are the leaves of a parsable tree. *)
Theorem C60_accepts_exactly : forall s toks coms errs,
  lex s = Ok (toks, coms, errs) ->
  ((exists p, parse s KStoredDefinition = Ok p /\ p_errors p = []) <->
   errs = [] /\ exists cs, parsable (CTree KStoredDefinition cs) /\
                           leaves (CTree KStoredDefinition cs) = toks).
Proof.
  intros s toks coms errs L. split.
  - intros (p & H & Z). apply parse_inv in H as (e1 & e2 & L' & H & E0).
    rewrite L in L'. inversion L'; subst.
    rewrite Z in E0. symmetry in E0. apply app_eq_nil in E0 as [-> ->]. split; auto.
    apply sound in H as (cs & _ & Y & P). exists cs. auto.
  - intros (-> & cs & P & Y). pose proof (complete _ P) as C.
    change (leaves (CTree KStoredDefinition cs)) with (yield cs) in Y. rewrite Y in C.
    unfold parse. rewrite L. cbn [bind]. rewrite C. cbn [bind]. eexists. split; reflexivity.
Qed.
Print Assumptions C60_accepts_exactly.

(** The same for token sequences, with the tree that comes out. *)
Theorem C60_finds_tree : forall cs,
  parsable (CTree KStoredDefinition cs) ->
  let toks := leaves (CTree KStoredDefinition cs) in
  parse_events toks KStoredDefinition = Ok (flat (CTree KStoredDefinition cs), []) /\
  build_tree toks (flat (CTree KStoredDefinition cs)) = Ok (prune (CTree KStoredDefinition cs)).
Proof.
  intros cs P toks. split; [exact (complete _ P)|]. exact (build_flat KStoredDefinition cs).
Qed.
Print Assumptions C60_finds_tree.

Example C60_applies : exists cs toks coms,
  lex good = Ok (toks, coms, []) /\
  parsable (CTree KStoredDefinition cs) /\ leaves (CTree KStoredDefinition cs) = toks /\
  length toks = 23%nat.
Proof.
  destruct (lex good) as [[[toks coms] errs]| |] eqn:L; try (vm_compute in L; discriminate).
  assert (exists p, parse good KStoredDefinition = Ok p /\ p_errors p = []) as A.
  { eexists. split; [vm_compute; reflexivity|reflexivity]. }
  destruct (proj1 (C60_accepts_exactly _ _ _ _ L) A) as (-> & cs & P & Y).
  exists cs, toks, coms. split; auto. split; auto. split; auto.
  assert (length (match lex good with Ok (t, _, _) => t | _ => [] end) = 23%nat) as N by (vm_compute; reflexivity).
  rewrite L in N. exact N.
Qed.

(** The two forms of equations that are kept out, by sections or by every list. *)
Fixpoint unbarredb (c : child) : bool :=
  match c with
  | CTok _ => true
  | CTree k cs =>
      forallb (fun c => match c, leaves c with
        | CTree k' _, t :: _ => negb (memk (tkind_of t) (barred k k'))
        | _, _ => true
        end) cs && forallb unbarredb cs
  end.
Lemma unbarredb_ok c : unbarredb c = true <-> unbarred c.
Proof.
  induction c as [x|k cs IH] using child_ind2; [split; auto; constructor|].
  cbn [unbarredb]. rewrite andb_true_iff, !forallb_forall.
  assert (forall c, match c, leaves c with
      | CTree k' _, t :: _ => negb (memk (tkind_of t) (barred k k')) | _, _ => true end = true
      <-> allowed k c) as A.
  { intros [x|k' ds]; unfold allowed; [tauto|]. destruct (leaves (CTree k' ds)) as [|t l]; [tauto|].
    rewrite negb_true_iff, <- memk_in. destruct (memk (tkind_of t) (barred k k')); split; congruence. }
  rewrite Forall_forall in IH. split.
  - intros [H1 H2]. constructor; rewrite Forall_forall; intros c I; [apply A|apply IH]; auto.
  - intro U. inversion U as [|? ? F1 F2]; subst. rewrite Forall_forall in F1, F2.
    split; intros c I; [apply A|apply IH]; auto.
Qed.

Example C60_initial_barred : conforms true initial_tree /\ ~ unbarred initial_tree.
Proof.
  split; [apply conformsb_sound; vm_compute; reflexivity|].
  intro U. apply unbarredb_ok in U. vm_compute in U. discriminate.
Qed.
(** Inside an if-equation [initial] may come first; [end] may not. *)
Example C60_initial_inside : exists p,
  parse (str "model M equation if a then initial() = 1; end if; end M;") KStoredDefinition = Ok p /\
  p_errors p = [].
Proof. eexists. split; [vm_compute; reflexivity|reflexivity]. Qed.
Example C60_end_inside : forall p,
  parse (str "model M equation if a then end = 1; end if; end M;") KStoredDefinition = Ok p ->
  p_errors p <> [].
Proof. intro p. vm_compute. intro H. inversion H. discriminate. Qed.

(** ** C61: no token sequence has two syntax trees. *)
Theorem C61_unambiguous : forall cs1 cs2,
  parsable (CTree KStoredDefinition cs1) -> parsable (CTree KStoredDefinition cs2) ->
  let t1 := CTree KStoredDefinition cs1 in
  let t2 := CTree KStoredDefinition cs2 in
  (leaves t1 = leaves t2 -> t1 = t2) /\
  (map tkind_of (leaves t1) = map tkind_of (leaves t2) -> flat t1 = flat t2).
Proof.
  intros cs1 cs2 P1 P2 t1 t2. pose proof (complete _ P1) as C1. pose proof (complete _ P2) as C2.
  split; intro L.
  - apply tree_unique; auto. change (yield cs1 = yield cs2) in L. rewrite L, C2 in C1.
    inversion C1 as [H]. subst t1 t2. cbn [flat] in *. congruence.
  - pose proof (C17_kinds_only _ _ KStoredDefinition L) as S.
    change (leaves t1) with (yield cs1) in S. change (leaves t2) with (yield cs2) in S.
    rewrite C1, C2 in S. apply S.
Qed.
Print Assumptions C61_unambiguous.

(** Two texts with the same token kinds, hence with trees of the same shape. *)
Example C61_applies : exists p p',
  parse (str "model A Real x = 1 + 2 * y; end A;") KStoredDefinition = Ok p /\ p_errors p = [] /\
  parse (str "model B Int z= 3+4*w;end C;") KStoredDefinition = Ok p' /\ p_errors p' = [] /\
  p_events p = p_events p' /\ p_tokens p <> p_tokens p'.
Proof.
  eexists. eexists. split; [vm_compute; reflexivity|]. split; [reflexivity|].
  split; [vm_compute; reflexivity|]. split; [reflexivity|]. split; [reflexivity|].
  vm_compute. discriminate.
Qed.

(** ** C62: everything the published grammar derives is accepted, except for equations that
    begin with a barred token. *)
Theorem C62_published_accepted : forall cs,
  conforms true (CTree KStoredDefinition cs) -> unbarred (CTree KStoredDefinition cs) ->
  exists evs, parse_events (leaves (CTree KStoredDefinition cs)) KStoredDefinition = Ok (evs, []).
Proof.
  intros cs C U. destruct (loosen _ C U) as (c' & P & S & Y).
  destruct c' as [x|k ds]; [discriminate|]. inversion S; subst k.
  exists (flat (CTree KStoredDefinition ds)). rewrite Y. exact (complete _ P).
Qed.
Print Assumptions C62_published_accepted.

(** A call as an equation, in the form the published grammar gives it. *)
Definition call_kinds : list tkind :=
  [TModel; TIdentifier; TEquation; TIdentifier; TLParen; TRParen; TSemicolon; TEnd; TIdentifier; TSemicolon].
Definition tk (k : tkind) : child := CTok (mkTok 0 [] k (mkPos 0 1 1) (mkPos 0 1 1)).
Definition no_description : child := CTree KDescription [CTree KDescriptionString []].
Definition call_tree : child :=
  CTree KStoredDefinition [
    CTree KClassDefinition [
      CTree KClassPrefixes [tk TModel];
      CTree KClassSpecifier [
        CTree KLongClassSpecifier [
          tk TIdentifier; CTree KDescriptionString [];
          CTree KComposition [
            CTree KElementList [];
            CTree KEquationSection [
              tk TEquation;
              CTree KEquation [
                CTree KComponentReference [tk TIdentifier];
                CTree KFunctionCallArgs [tk TLParen; tk TRParen];
                no_description];
              tk TSemicolon]];
          tk TEnd; tk TIdentifier]]];
    tk TSemicolon].
Example C62_applies :
  conforms true call_tree /\ unbarred call_tree /\ ~ conforms false call_tree /\
  map tkind_of (leaves call_tree) = call_kinds.
Proof.
  split; [apply conformsb_sound; vm_compute; reflexivity|].
  split; [apply unbarredb_ok; vm_compute; reflexivity|].
  split; [|reflexivity]. intro C.
  assert (conforms false (CTree KEquation [
                CTree KComponentReference [tk TIdentifier];
                CTree KFunctionCallArgs [tk TLParen; tk TRParen];
                no_description])) as E.
  { assert (forall k cs c, conforms false (CTree k cs) -> In c cs -> conforms false c) as K.
    { intros k cs c H. inversion H; subst. rewrite Forall_forall in *. auto. }
    unfold call_tree in C.
    eapply K in C; [|left; reflexivity]. eapply K in C; [|right; left; reflexivity].
    eapply K in C; [|left; reflexivity]. eapply K in C; [|right; right; left; reflexivity].
    eapply K in C; [|right; left; reflexivity]. eapply K in C; [|right; left; reflexivity].
    exact C. }
  inversion E as [|? ? L _]; subst. destruct (lf_ok _ _ _ L) as (r & I & _).
  vm_compute in I. intuition discriminate.
Qed.
