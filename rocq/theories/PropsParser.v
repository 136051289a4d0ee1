(** Properties C11-C19: parsing and the syntax tree. *)
From Coq Require Import Sorting.Sorted Numbers.DecimalN Numbers.DecimalPos.
From Verif Require Import ProofBase Tokens Syntax Lexer ParserCore Grammar Tree Lib SpecLex
  LexInv LexMain LexFacts ParserSem ParserFuel SpecGrammar Regex ParserGrammar ParserTree ParserGuard
  ParserFacts Recognise.

(** A correct source used in the examples. *)
Definition good : text := str "model M Real x(start = 1) ""d""; equation der(x) = -x; end M;".

Definition kinds (s : text) : list tkind :=
  match lex s with Ok (toks, _, _) => map tkind_of toks | _ => [] end.

(** A token sequence with the given kinds. *)
Definition toks_of (ks : list tkind) : list token :=
  map (fun k => mkTok 0 [] k (mkPos 0 1 1) (mkPos 0 1 1)) ks.

Lemma parse_inv s k p :
  parse s k = Ok p -> exists errs perrs,
    lex s = Ok (p_tokens p, p_comments p, errs) /\
    parse_events (p_tokens p) k = Ok (p_events p, perrs) /\ p_errors p = errs ++ perrs.
Proof.
  unfold parse. intro H. apply bind_ok in H as [[[toks coms] errs] [H1 H2]].
  apply bind_ok in H2 as [[evs perrs] [H2 H3]]. inversion H3; subst. simpl. eauto.
Qed.

(** ** C11: parsing finishes; the work is linear in the number of tokens. *)
Theorem C11_parser_terminates : forall ts entry,
  parse_events ts entry <> OutOfFuel /\
  (forall limit fuel fuel',
     ((length ts + 1) * (N.to_nat limit + 1) * 5 <= fuel)%nat -> (fuel <= fuel')%nat ->
     parse_events_with limit fuel ts entry <> OutOfFuel /\
     parse_events_with limit fuel' ts entry = parse_events_with limit fuel ts entry) /\
  (forall evs errs, parse_events ts entry = Ok (evs, errs) ->
     (length (filter (fun e => match e with Enter _ => true | _ => false end) evs)
      <= 3 * 101 * (length ts + 1))%nat).
Proof.
  intros ts entry. split; [|split].
  - apply parse_events_with_fuel, parse_fuel_enough.
  - intros limit fuel fuel' H F. pose proof (parse_events_with_fuel limit fuel ts entry H) as N.
    split; auto. apply parse_events_with_mono with (fuel := fuel); auto.
  - intros evs errs H. apply parse_events_enters in H.
    replace (length (filter _ evs)) with (enters evs).
    + replace (N.to_nat 100 + 1)%nat with 101%nat in H by reflexivity. lia.
    + clear. induction evs as [|e evs IH]; simpl; auto.
Qed.
Print Assumptions C11_parser_terminates.

Theorem C11_parse_terminates : forall s entry, parse s entry <> OutOfFuel.
Proof.
  intros s entry. unfold parse. pose proof (lex_terminates s) as L.
  destruct (lex s) as [[[toks coms] errs]| |]; cbn [bind]; try discriminate; try contradiction.
  destruct (C11_parser_terminates toks entry) as [P _].
  destruct (parse_events toks entry) as [[evs pe]| |]; cbn [bind]; try discriminate; contradiction.
Qed.
Print Assumptions C11_parse_terminates.

(** An erroneous sequence. *)
Example C11_applies : exists evs errs,
  parse_events (toks_of [TModel; TIdentifier; TEnd; TIdentifier]) KStoredDefinition = Ok (evs, errs)
  /\ errs <> [] /\ enters evs = 8%nat.
Proof. eexists; eexists. split; [vm_compute; reflexivity|]. split; [discriminate|reflexivity]. Qed.

(** ** C12 is false: a stray parenthesis, or a file ending in [final], crashes the parser. *)
Theorem C12_parse_never_panics_refuted :
  exists s, parse s KStoredDefinition = Panic PStuck /\ s = str "model A ) end A;".
Proof. eexists; split; [|reflexivity]. vm_compute. reflexivity. Qed.
Print Assumptions C12_parse_never_panics_refuted.

Example C12_at_end : parse (str "final") KStoredDefinition = Panic PAssertEof.
Proof. vm_compute. reflexivity. Qed.

(** The only two ways a non-empty token sequence can crash the parser. *)
Theorem C12_crash_kinds : forall ts entry x,
  ts <> [] -> entry <> KError -> parse_events ts entry = Panic x -> x = PStuck \/ x = PAssertEof.
Proof.
  intros ts entry x NE NK H. apply (parse_panics _ _ _ _ _ NE NK H).
Qed.
Print Assumptions C12_crash_kinds.

Example C12_kinds_apply :
  parse_events (toks_of [TModel; TIdentifier; TRParen; TEnd; TIdentifier; TSemicolon]) KStoredDefinition = Panic PStuck /\
  parse_events (toks_of [TFinal]) KStoredDefinition = Panic PAssertEof.
Proof. split; vm_compute; reflexivity. Qed.

(** ** C13: the guard never stops an error-free parse; 34 lookups would do. *)
Theorem C13_guard_never_rejects : forall limit fuel ts entry evs,
  parse_events_with limit fuel ts entry = Ok (evs, []) ->
  parse_events ts entry = Ok (evs, []) /\
  (forall limit' fuel', 34 <= limit' ->
     ((length ts + 1) * (N.to_nat limit' + 1) * 5 <= fuel')%nat ->
     parse_events_with limit' fuel' ts entry = Ok (evs, [])).
Proof.
  intros limit fuel ts entry evs H. split.
  - apply (parse_guard_any _ _ _ _ _ 100 _ H); [unfold most; lia|apply parse_fuel_enough].
  - intros limit' fuel' L F. apply (parse_guard_any _ _ _ _ _ _ _ H); auto.
Qed.
Print Assumptions C13_guard_never_rejects.

Example C13_applies : exists evs,
  parse_events_with 1000000 2000 (toks_of (kinds good)) KStoredDefinition = Ok (evs, []) /\
  length evs = 175%nat.
Proof. eexists; split; [vm_compute; reflexivity|vm_compute; reflexivity]. Qed.

(** Fewer than 13 lookups would not do. *)
Example C13_needs_lookups :
  parse_events_with 12 2000 (toks_of (kinds good)) KStoredDefinition = Panic PStuck.
Proof. vm_compute. reflexivity. Qed.

(** ** C14: events are properly nested and the tree can be built. *)
Theorem C14_events_nested : forall s entry p,
  parse s entry = Ok p ->
  exists t rest,
    p_events p = flat t /\ p_tokens p = leaves t ++ rest /\
    (build_tree (p_tokens p) (p_events p) =
       match rest with [] => Ok (prune t) | _ => Panic PTree end) /\
    (entry = KStoredDefinition -> rest = []).
Proof.
  intros s entry p H. apply parse_inv in H as (e1 & e2 & _ & H & _).
  unfold parse_events in H. apply parse_shape in H as (cs & rest & g & E & Y & R & _).
  exists (CTree entry cs), rest. split; auto. split; auto. split; auto.
  rewrite E, Y. apply build_flat_rest.
Qed.
Print Assumptions C14_events_nested.

Theorem C14_tree_buildable : forall s p,
  parse s KStoredDefinition = Ok p -> exists t, build_tree (p_tokens p) (p_events p) = Ok t.
Proof.
  intros s p H. destruct (C14_events_nested _ _ _ H) as (t & rest & _ & _ & B & R).
  rewrite (R eq_refl) in B. eauto.
Qed.
Print Assumptions C14_tree_buildable.

(** Also with syntax errors; other entry rules may leave tokens unread. *)
Example C14_applies : exists p t,
  parse (str "model M Real x end M") KStoredDefinition = Ok p /\ length (p_errors p) = 2%nat /\
  build_tree (p_tokens p) (p_events p) = Ok t.
Proof. eexists; eexists. split; [vm_compute; reflexivity|]. split; vm_compute; reflexivity. Qed.

Example C14_other_entry : exists p,
  parse (str "1 ) ") KExpression = Ok p /\ p_errors p = [] /\
  build_tree (p_tokens p) (p_events p) = Panic PTree.
Proof. eexists. split; [vm_compute; reflexivity|]. split; vm_compute; reflexivity. Qed.

(** ** C15: the leaves are the tokens; inner nodes are not empty. *)
Theorem C15_leaves : forall s entry p t,
  parse s entry = Ok p -> build_tree (p_tokens p) (p_events p) = Ok t ->
  leaves t = p_tokens p /\
  exists cs, t = CTree entry cs /\ Forall solid cs.
Proof.
  intros s entry p t H B. apply parse_inv in H as (e1 & e2 & _ & H & _).
  unfold parse_events in H. apply parse_shape in H as (cs & rest & g & E & Y & R & _).
  rewrite E, Y, build_flat_rest in B. destruct rest; [|discriminate].
  assert (t = prune (CTree entry cs)) as -> by congruence.
  split.
  - rewrite leaves_prune, Y, app_nil_r. reflexivity.
  - rewrite prune_tree. eexists; split; [reflexivity|]. apply prunes_solid.
Qed.
Print Assumptions C15_leaves.

Example C15_applies : exists p t,
  parse good KStoredDefinition = Ok p /\ build_tree (p_tokens p) (p_events p) = Ok t /\
  length (leaves t) = 23%nat.
Proof. eexists; eexists. split; [vm_compute; reflexivity|]. split; vm_compute; reflexivity. Qed.

(** ** C16: files accepted without error follow the grammar. *)
Fixpoint mentions (k : skind) (c : child) : bool :=
  match c with
  | CTok _ => false
  | CTree k' cs => skind_eqb k k' || existsb (mentions k) cs
  end.

Lemma conforms_no_error strict c : conforms strict c -> mentions KError c = false.
Proof.
  induction c as [x|k cs IH] using child_ind2; intro H; auto.
  inversion H as [|k' cs' L F]; subst. cbn [mentions]. apply orb_false_iff. split.
  - destruct k; auto. apply void_inv in L. contradiction.
  - apply not_true_is_false. intro E. apply existsb_exists in E as (c & I & E).
    rewrite Forall_forall in *. rewrite (IH c I (F c I)) in E. discriminate.
Qed.

Theorem C16_accepted_conforms : forall s p,
  parse s KStoredDefinition = Ok p -> p_errors p = [] ->
  exists t,
    conforms false t /\ leaves t = p_tokens p /\ p_events p = flat t /\
    build_tree (p_tokens p) (p_events p) = Ok (prune t) /\
    mentions KError t = false /\
    derives false KStoredDefinition (map tkind_of (p_tokens p)).
Proof.
  intros s p H Z. apply parse_inv in H as (e1 & e2 & _ & H & E0).
  rewrite Z in E0. symmetry in E0. apply app_eq_nil in E0 as [_ ->].
  unfold parse_events in H. apply parse_shape in H as (cs & rest & g & E & Y & R & O).
  rewrite (R eq_refl) in *. specialize (O eq_refl). apply stored_conforms in O.
  rewrite app_nil_r in Y. exists (CTree KStoredDefinition cs).
  split; auto. split; auto. split; auto. split; [rewrite E, Y; apply build_flat|].
  split; [eapply conforms_no_error; eauto|].
  rewrite Y. apply (conforms_derives false _ O).
Qed.
Print Assumptions C16_accepted_conforms.

Example C16_applies : exists p,
  parse good KStoredDefinition = Ok p /\ p_errors p = [] /\ length (p_tokens p) = 23%nat.
Proof. eexists. split; [vm_compute; reflexivity|]. split; vm_compute; reflexivity. Qed.

(** Other entry rules: the same when the rule stops before the end of the tokens ... *)
Theorem C16_entry_conforms : forall ts entry evs,
  parse_events ts entry = Ok (evs, []) ->
  ~ In entry [KRelationalOperator; KAddOperator; KMulOperator] ->
  exists t rest, evs = flat t /\ ts = leaves t ++ rest /\ (rest <> [] -> conforms false t).
Proof.
  intros ts entry evs H NK.
  assert (entry <> KError) as NE0 by (intro Z; subst; discriminate). unfold parse_events in H. apply parse_shape in H as (cs & rest & g & E & Y & R & O).
  exists (CTree entry cs), rest. split; auto. split; auto. intro NE.
  destruct (skind_eqb entry KStoredDefinition) eqn:EK.
  { apply skind_eqb_eq in EK. rewrite (R EK) in NE. contradiction. }
  eapply entry_conforms; [apply O; reflexivity|exact NE|].
  simpl in NK.
  destruct entry; try reflexivity; try discriminate; tauto.
Qed.
Print Assumptions C16_entry_conforms.

Example C16_entry_applies : exists evs,
  parse_events (toks_of [TUInt; TPlus; TIdentifier; TSemicolon]) KExpression = Ok (evs, []) /\
  length (filter (fun e => match e with Advance => true | _ => false end) evs) = 3%nat.
Proof. eexists. split; [vm_compute; reflexivity|]. vm_compute. reflexivity. Qed.

(** ... but not at the end of the tokens: a trailing comma is accepted there. *)
Definition comma_table : table := Eval vm_compute in spans false [TIdentifier; TComma] 40.

Theorem C16_other_entries_refuted : exists s p,
  parse s KImportList = Ok p /\ p_errors p = [] /\ s = str "a," /\
  ~ derives false KImportList (map tkind_of (p_tokens p)).
Proof.
  exists (str "a,"). eexists. split; [vm_compute; reflexivity|]. split; [reflexivity|].
  split; [reflexivity|].
  apply (not_derivable false [TIdentifier; TComma] (look comma_table)); vm_compute; reflexivity.
Qed.
Print Assumptions C16_other_entries_refuted.

(** The grammar as published requires [=] in an equation that is not a call; the parser
    accepts any expression. *)
Definition bad_equation : text := str "model M equation 1; end M;".
Definition bad_table : table := Eval vm_compute in spans true (kinds bad_equation) 40.

Theorem C16_published_grammar_refuted : exists p,
  parse bad_equation KStoredDefinition = Ok p /\ p_errors p = [] /\
  ~ derives true KStoredDefinition (map tkind_of (p_tokens p)).
Proof.
  eexists. split; [vm_compute; reflexivity|]. split; [reflexivity|].
  apply (not_derivable true (kinds bad_equation) (look bad_table)); vm_compute; reflexivity.
Qed.
Print Assumptions C16_published_grammar_refuted.

(** ** C17: parsing depends on the token kinds only. *)
Definition same_outcome (a b : res (list event * list err)) : Prop :=
  match a, b with
  | Ok (e, er), Ok (e', er') => e = e' /\ map emsg er = map emsg er'
  | Panic x, Panic y => x = y
  | OutOfFuel, OutOfFuel => True
  | _, _ => False
  end.

Theorem C17_kinds_only : forall ts ts' entry,
  map tkind_of ts = map tkind_of ts' -> same_outcome (parse_events ts entry) (parse_events ts' entry).
Proof. intros ts ts' entry H. apply parse_bare, H. Qed.
Print Assumptions C17_kinds_only.

Theorem C17_layout_irrelevant : forall s s' entry p p',
  parse s entry = Ok p -> parse s' entry = Ok p' ->
  map tkind_of (p_tokens p) = map tkind_of (p_tokens p') ->
  p_events p = p_events p' /\
  exists lexical lexical' syntactic syntactic',
    lex s = Ok (p_tokens p, p_comments p, lexical) /\ lex s' = Ok (p_tokens p', p_comments p', lexical') /\
    p_errors p = lexical ++ syntactic /\ p_errors p' = lexical' ++ syntactic' /\
    map emsg syntactic = map emsg syntactic'.
Proof.
  intros s s' entry p p' H H' K.
  apply parse_inv in H as (l & e & L & H & E). apply parse_inv in H' as (l' & e' & L' & H' & E').
  pose proof (C17_kinds_only _ _ entry K) as S. rewrite H, H' in S. destruct S as [S1 S2].
  split; auto. exists l, l', e, e'. auto 6.
Qed.
Print Assumptions C17_layout_irrelevant.

Example C17_applies : exists p p',
  parse (str "model M  // c" ++ [10] ++ str "end M;") KStoredDefinition = Ok p /\
  parse (str "model /* x */ Abc end Abc;") KStoredDefinition = Ok p' /\
  map tkind_of (p_tokens p) = map tkind_of (p_tokens p') /\ p_tokens p <> p_tokens p'.
Proof.
  eexists; eexists. split; [vm_compute; reflexivity|]. split; [vm_compute; reflexivity|].
  split; [reflexivity|discriminate].
Qed.

(** ** C18: lexical errors first, in source order; then syntax errors, at tokens, in source order. *)
Theorem C18_error_positions : forall s entry p,
  parse s entry = Ok p ->
  exists lexical syntactic at_tokens,
    lex s = Ok (p_tokens p, p_comments p, lexical) /\
    in_order s (map (fun e => (eline e, ecol e)) lexical) /\
    p_errors p = lexical ++ syntactic /\
    Forall2 (fun e t => eline e = line (tstart t) /\ ecol e = col (tstart t)) syntactic at_tokens /\
    (forall t, In t at_tokens -> In t (p_tokens p)) /\
    StronglySorted (fun t u => tidx t <= tidx u) at_tokens.
Proof.
  intros s entry p H. apply parse_inv in H as (l & e & L & H & E).
  destruct (parse_errors_at _ _ _ _ H) as (ix & F & S).
  destruct (lex_laid _ _ _ _ L) as (items & LL & T & _ & _ & IO).
  assert (forall i j t u, nth_error (p_tokens p) i = Some t -> nth_error (p_tokens p) j = Some u ->
    (i <= j)%nat -> tidx t <= tidx u) as MO.
  { intros i j t u I J LE.
    assert (StronglySorted N.lt (map tidx (p_tokens p))) as SS.
    { rewrite T. apply filter_increasing with (n := 0). intros. rewrite (laid_idx _ _ _ LL _ _ H0). lia. }
    clear -I J LE SS. revert i j I J LE. induction (p_tokens p) as [|x ts IH]; intros i j I J LE.
    - destruct i; discriminate.
    - simpl in SS. inversion SS as [|? ? SS' FA]; subst. destruct i, j; simpl in *; try lia.
      + inversion I; inversion J; subst. lia.
      + inversion I; subst. rewrite Forall_forall in FA.
        assert (tidx t < tidx u); [|lia]. apply FA, in_map. eapply nth_error_In; eauto.
      + eapply IH; eauto. lia. }
  exists l, e. clear -E F S MO L IO. revert E. generalize (p_errors p). intros all ->.
  assert (exists ts, Forall2 (fun e t => eline e = line (tstart t) /\ ecol e = col (tstart t)) e ts /\
    Forall2 (fun i t => nth_error (p_tokens p) i = Some t) ix ts) as (ts & F1 & F2).
  { clear S. induction F as [|a i es is (t & N & P) F IH]; [exists []; split; constructor|].
    destruct IH as (ts & A & B). exists (t :: ts). split; constructor; auto. }
  exists ts. split; auto. split; auto. split; auto. split; auto. split.
  - intros t I. clear -F2 I. induction F2 as [|i u is us N F2 IH]; [contradiction|].
    destruct I as [->|I]; auto. eapply nth_error_In; eauto.
  - clear -F2 S MO. induction F2 as [|i t is ts N F2 IH]; [constructor|].
    inversion S as [|? ? S' FA]; subst. constructor; auto.
    clear IH S S'. induction F2 as [|j u js us N2 F2 IH]; [constructor|].
    inversion FA; subst. constructor; auto. eapply MO; eauto.
Qed.
Print Assumptions C18_error_positions.

Example C18_applies : exists p,
  parse (str "model M Real x" ++ [10] ++ str "end M") KStoredDefinition = Ok p /\
  map (fun e => (eline e, ecol e)) (p_errors p) = [(2, 1); (2, 5)].
Proof. eexists. split; vm_compute; reflexivity. Qed.

Example C18_applies_lexical : exists p,
  parse (str "model M ? Real x" ++ [10] ++ str "  ? end M") KStoredDefinition = Ok p /\
  map (fun e => (eline e, ecol e)) (p_errors p) = [(1, 9); (2, 3); (2, 5); (2, 9)].
Proof. eexists. split; vm_compute; reflexivity. Qed.

(** The rendered message starts with the position, in decimal. *)
Definition numeral (n : N) (t : text) : Prop :=
  t <> [] /\ Forall (fun c => 48 <= c <= 57) t /\ fold_left (fun v c => 10 * v + (c - 48)) t 0 = n /\ forall u, t = 48 :: u -> u = [].
Lemma value_acc d : forall p, fold_left (fun v c => 10 * v + (c - 48)) (uint_text d) (Npos p) = Npos (Pos.of_uint_acc d p).
Proof.
  induction d as [|d IH|d IH|d IH|d IH|d IH|d IH|d IH|d IH|d IH|d IH]; intro p; cbn [uint_text fold_left Pos.of_uint_acc]; [reflexivity| ..];
    rewrite <- IH; f_equal; lia.
Qed.
Lemma value_text d : fold_left (fun v c => 10 * v + (c - 48)) (uint_text d) 0 = Pos.of_uint d.
Proof. induction d; cbn [uint_text fold_left Pos.of_uint]; [reflexivity|assumption| ..]; apply value_acc. Qed.
Lemma dec_numeral n : numeral n (dec n).
Proof.
  unfold numeral, dec. split; [|split; [|split]].
  - intro E. assert (N.to_uint n = Decimal.Nil) as Z by (destruct (N.to_uint n); try discriminate; reflexivity).
    destruct n as [|p]; [discriminate|]. exact (DecimalPos.Unsigned.to_uint_nonnil p Z).
  - induction (N.to_uint n); cbn [uint_text]; constructor; auto; lia.
  - rewrite value_text. apply DecimalN.Unsigned.of_to.
  - intros u E. assert (Decimal.unorm (N.to_uint n) = N.to_uint n) as U by (rewrite <- DecimalN.Unsigned.to_of, DecimalN.Unsigned.of_to; reflexivity).
    assert (forall d e, Decimal.nzhead d <> Decimal.D0 e) as NZ by (induction d; intros e H; cbn in H; try discriminate; exact (IHd _ H)).
    destruct (N.to_uint n) as [|d|d|d|d|d|d|d|d|d|d] eqn:D; try discriminate. cbn [uint_text] in E. injection E as <-.
    unfold Decimal.unorm in U. cbn [Decimal.nzhead] in U. destruct (Decimal.nzhead d) eqn:H; try discriminate.
    + injection U as <-. reflexivity.
    + destruct (NZ _ _ H).
Qed.
Definition rendered (name : text) (e : err) (t : text) : Prop :=
  exists l c, numeral (eline e) l /\ numeral (ecol e) c /\ t = name ++ str ":" ++ l ++ str ":" ++ c ++ str ": " ++ emsg e.
Theorem C18_rendered : forall name p, Forall2 (rendered name) (p_errors p) (error_strings name p).
Proof.
  intros name p. unfold error_strings. induction (p_errors p) as [|e es IH]; cbn [map]; constructor; [|exact IH].
  exists (dec (eline e)), (dec (ecol e)). split; [apply dec_numeral|]. split; [apply dec_numeral|reflexivity].
Qed.
Print Assumptions C18_rendered.

Example C18_rendered_applies : exists p,
  parse (str "model M Real x" ++ [10] ++ str "end M") KStoredDefinition = Ok p /\
  map (firstn 9) (error_strings (str "f.mo") p) = [str "f.mo:2:1:"; str "f.mo:2:5:"].
Proof. eexists. split; vm_compute; reflexivity. Qed.

(** ** C19 is false: an equation may start with [initial()], the parser rejects it. *)
Definition initial_eq : text := str "model M equation initial() = 1; end M;".
Definition der_eq : text := str "model M equation der() = 1; end M;".

Definition relabel (x : token) : token :=
  mkTok (tidx x) (ttext x) (if tkind_eqb (tkind_of x) TDer then TInitial else tkind_of x)
        (tstart x) (tend x).
Fixpoint relabel_tree (c : child) : child :=
  match c with CTok x => CTok (relabel x) | CTree k cs => CTree k (map relabel_tree cs) end.

(** The unpruned tree of a list of events. *)
Fixpoint full_tree (evs : list event) (toks : list token) (stack : list (skind * list child))
  : option child :=
  match evs with
  | Enter k :: evs' => full_tree evs' toks ((k, []) :: stack)
  | Exit :: evs' =>
      match stack with
      | (k, cs) :: (k', cs') :: st => full_tree evs' toks ((k', CTree k (rev cs) :: cs') :: st)
      | [(k, cs)] => Some (CTree k (rev cs))
      | [] => None
      end
  | Advance :: evs' =>
      match toks, stack with
      | t :: toks', (k, cs) :: st => full_tree evs' toks' ((k, CTok t :: cs) :: st)
      | _, _ => None
      end
  | [] => None
  end.
Definition initial_tree : child := Eval vm_compute in
  match parse der_eq KStoredDefinition with
  | Ok p => match full_tree (p_events p) (p_tokens p) [] with
            | Some t => relabel_tree t
            | None => CTree KError []
            end
  | _ => CTree KError []
  end.

Theorem C19_completeness_refuted : exists p,
  parse initial_eq KStoredDefinition = Ok p /\ p_errors p <> [] /\
  derives true KStoredDefinition (map tkind_of (p_tokens p)).
Proof.
  eexists. split; [vm_compute; reflexivity|]. split; [discriminate|].
  assert (conforms true initial_tree) as C by (apply conformsb_sound; vm_compute; reflexivity).
  apply conforms_derives in C. exact C.
Qed.
Print Assumptions C19_completeness_refuted.
