(** Property C116: reading texts from any rule of the grammar. *)
From Verif Require Import ProofBase Tokens Syntax Lexer SpecLex LexInv LexMain LexFacts ParserCore Grammar
  Tree Printer Formatter Lib ParserSem SpecGrammar SpecLanguage Regex ParserGrammar ParserTree ParserFacts Recognise PropsParser ParserComplete
  SpecLayout FmtExec FmtFacts FmtRelex FmtNeat PropsFormat PropsLanguage ParserStart SpecEntry FmtEntry PropsEntry.

(** Every text whose tokens are the leaves of a parsable tree of a rule is read from that
    rule as this tree. *)
Theorem C116_finds_tree : forall k cs s coms,
  k <> KError -> k <> KOutputExpressionList ->
  parsable (CTree k cs) -> lex s = Ok (leaves (CTree k cs), coms, []) ->
  exists p, read_whole k s p cs /\ p_comments p = coms /\
    build_tree (p_tokens p) (p_events p) = Ok (prune (CTree k cs)).
Proof.
  intros k cs s coms NE NO P L. pose proof (complete_part k cs NE NO P) as C.
  exists (mkParsed (leaves (CTree k cs)) coms (flat (CTree k cs)) []). split; [|split; [reflexivity|exact (build_flat k cs)]].
  split; [|split; [reflexivity|split; [apply P|auto]]].
  unfold parse. rewrite L. cbn [bind]. change (leaves (CTree k cs)) with (yield cs). rewrite C. reflexivity.
Qed.
Print Assumptions C116_finds_tree.

(** No two parsable trees of a rule have the same leaves, and the kinds of the tokens tell
    the shape. *)
Theorem C116_unambiguous : forall k cs1 cs2,
  k <> KError -> k <> KOutputExpressionList ->
  parsable (CTree k cs1) -> parsable (CTree k cs2) ->
  let t1 := CTree k cs1 in
  let t2 := CTree k cs2 in
  (leaves t1 = leaves t2 -> t1 = t2) /\
  (map tkind_of (leaves t1) = map tkind_of (leaves t2) -> flat t1 = flat t2).
Proof.
  intros k cs1 cs2 NE NO P1 P2 t1 t2.
  pose proof (complete_part _ _ NE NO P1) as C1. pose proof (complete_part _ _ NE NO P2) as C2.
  split; intro L.
  - apply tree_unique; auto. change (yield cs1 = yield cs2) in L. rewrite L, C2 in C1.
    inversion C1 as [H]. subst t1 t2. cbn [flat] in *. congruence.
  - pose proof (C17_kinds_only _ _ k L) as S.
    change (leaves t1) with (yield cs1) in S. change (leaves t2) with (yield cs2) in S.
    rewrite C1, C2 in S. apply S.
Qed.
Print Assumptions C116_unambiguous.

(** Such a text is formatted, and the formatted text is read as the same tree. *)
Theorem C116_round_trip : forall eol k cs s coms tail,
  k <> KError -> ~ In k edged ->
  parsable (CTree k cs) -> lex s = Ok (leaves (CTree k cs), coms, []) -> leaves (CTree k cs) <> [] ->
  no_lone_cr s -> is_eol eol -> tail = [] \/ tail = eol ->
  exists p out p',
    parse s k = Ok p /\ p_errors p = [] /\ pretty_print eol p = Ok out /\
    parse (out ++ tail) k = Ok p' /\ p_errors p' = [] /\
    p_events p' = p_events p /\ map item_of (p_tokens p') = map item_of (p_tokens p).
Proof.
  intros eol k cs s coms tail NE NI P L NT NC EO ET.
  assert (k <> KOutputExpressionList) as NO. { intros ->. apply NI. unfold edged. simpl. tauto. }
  destruct (C116_finds_tree k cs s coms NE NO P L) as (p & RW & _ & _).
  assert (p_tokens p <> []) as NP. { destruct RW as (_ & _ & _ & <- & _). exact NT. }
  destruct (C115_relex eol k s p cs tail RW NI NP NC EO ET) as (out & toks & coms' & PP & LE & MT & _).
  destruct RW as (HP & Z & C & LV & EV).
  destruct (parse_inv _ _ _ HP) as (errs & perrs & L1 & P1 & EE). rewrite Z in EE. symmetry in EE. apply app_eq_nil in EE as [-> ->].
  pose proof (parse_bare toks (p_tokens p) k) as PB.
  assert (map tkind_of toks = map tkind_of (p_tokens p)) as MK.
  { apply (f_equal (map fst)) in MT. rewrite !map_map in MT. exact MT. }
  specialize (PB MK). rewrite P1 in PB.
  destruct (parse_events toks k) as [[evs er]| |] eqn:PE; try contradiction.
  destruct PB as [-> EM]. destruct er; [|discriminate].
  exists p, out, (mkParsed toks coms' (p_events p) []). do 3 (split; [assumption|]).
  split; [unfold parse; rewrite LE; cbn [bind]; rewrite PE; reflexivity|]. auto.
Qed.
Print Assumptions C116_round_trip.

(** A connect clause, with its tree: the hypotheses hold. *)
Definition part : text := str "connect(a.b,c [ 1 ])".
Ltac grown s k t :=
  let r := eval vm_compute in (parse s k) in
  match r with Ok ?p =>
    let g := eval vm_compute in (regrow (p_events p) (p_tokens p) []) in
    match g with Some ?c => t c end
  end.
Example C116_applies : exists cs coms, parsable (CTree KConnectEquation cs) /\
  lex part = Ok (leaves (CTree KConnectEquation cs), coms, []) /\ leaves (CTree KConnectEquation cs) <> [] /\
  no_lone_cr part /\ ~ In KConnectEquation edged.
Proof.
  grown part KConnectEquation ltac:(fun c => match c with CTree _ ?cs => exists cs, [] end).
  split; [split; [apply conformsb_sound|apply unbarredb_ok]; vm_compute; reflexivity|].
  split; [vm_compute; reflexivity|]. split; [vm_compute; discriminate|]. split; [apply no_cr; reflexivity|].
  unfold edged. simpl. intuition discriminate.
Qed.

(** The empty list of outputs is parsable, but the parser crashes if it is started there:
    it looks for an expression, and reports that there is none at the last token. *)
Theorem C116_output_list_refuted :
  parsable (CTree KOutputExpressionList []) /\ lex [] = Ok ([], [], []) /\
  parse [] KOutputExpressionList = Panic PUnwrap.
Proof.
  split; [split; [apply conformsb_sound|apply unbarredb_ok]; vm_compute; reflexivity|].
  split; vm_compute; reflexivity.
Qed.
Print Assumptions C116_output_list_refuted.
