(** Properties C67 and C68: the first syntax error. *)
From Verif Require Import ProofBase Tokens Syntax Lexer ParserCore Grammar Tree Lib SpecLex LexSpecProofs LexInv
  LexMain LexCut ParserSem ParserFacts ParserGrammar ParserFirst PropsLexer PropsParser.

(** Kind and spelling of a token. *)
Definition spelling (t : token) : tkind * text := (tkind_of t, ttext t).

(** The error [e] is reported at the first token of [rest] or, if there is none, at the last token. *)
Definition reported_at (toks rest : list token) (e : err) : Prop :=
  exists t, match rest with x :: _ => t = x | [] => exists l, toks = l ++ [t] end /\
    eline e = line (tstart t) /\ ecol e = col (tstart t).
(** [u] is the part of the source before [rest]. *)
Definition cut_at (s u : text) (rest : list token) : Prop :=
  match rest with
  | x :: _ => (exists v, s = u ++ ttext x ++ v) /\ coords_after u (tstart x)
  | [] => u = s
  end.
(** The text [u] can be continued to a file without errors in which the words [words] come first. *)
Definition continues (u : text) (words : list (tkind * text)) : Prop :=
  exists w p more, parse (u ++ w) KStoredDefinition = Ok p /\ p_errors p = [] /\
    map spelling (p_tokens p) = words ++ more.

Lemma word_x k : ~ spelled reserved (str "x") k.
Proof.
  intros (s & I & E). assert (forallb (fun p => negb (text_eqb (str (fst p)) (str "x"))) reserved = true) as F
    by (vm_compute; reflexivity).
  rewrite forallb_forall in F. apply F in I. cbn [fst] in I. rewrite <- E in I. discriminate.
Qed.
Lemma specimen_lexeme k : fine_token k = true -> lexeme k (specimen k) /\ is_comment_kind k = false.
Proof.
  intro F. split; [|destruct k; try reflexivity; discriminate].
  assert (forall p, find (fun p => tkind_eqb (snd p) k) (spellings ++ reserved) = Some p -> lexeme k (str (fst p))) as H.
  { intros [s k'] E. apply find_some in E as [I E]. apply tkind_eqb_eq in E. cbn [snd fst] in *. subst k'.
    apply in_app_or in I as [I|I]; [apply lx_symbol|apply lx_keyword]; exists s; auto. }
  assert (specimen k = match find (fun p => tkind_eqb (snd p) k) (spellings ++ reserved) with
      | Some p => str (fst p) | None => [] end -> lexeme k (specimen k)) as G.
  { intro E. unfold fine_token in F. rewrite E in *.
    destruct (find (fun p => tkind_eqb (snd p) k) (spellings ++ reserved)) as [p|]; auto.
    destruct k; discriminate. }
  destruct k; try (apply G; reflexivity); cbn [specimen].
  - apply lx_ident; [|constructor|apply word_x]. left. right. vm_compute. split; discriminate.
  - apply (lx_string []). constructor.
  - apply lx_uint; [discriminate|]. constructor; [|constructor]. vm_compute. split; discriminate.
  - apply (lx_real (str "1") (str ".0") []); try discriminate.
    + constructor; [|constructor]. vm_compute. split; discriminate.
    + right. exists (str "0"). split; [|reflexivity]. constructor; [|constructor]. vm_compute. split; discriminate.
    + auto.
    + left. discriminate.
Qed.

Lemma same_kinds_accepted ts ts' evs : map tkind_of ts = map tkind_of ts' ->
  parse_events ts KStoredDefinition = Ok (evs, []) -> parse_events ts' KStoredDefinition = Ok (evs, []).
Proof.
  intros K H. pose proof (C17_kinds_only _ _ KStoredDefinition K) as S. rewrite H in S.
  destruct (parse_events ts' KStoredDefinition) as [[evs' er]| |]; cbn in S; try contradiction.
  destruct S as [<- M]. destruct er; [reflexivity|discriminate].
Qed.

Lemma continue_text s toks coms before rest more evs :
  lex s = Ok (toks, coms, []) -> toks = before ++ rest -> Forall made more ->
  parse_events (before ++ more) KStoredDefinition = Ok (evs, []) ->
  exists u, cut_at s u rest /\ continues u (map spelling before ++ map spelling more).
Proof.
  intros L E M H.
  destruct (cut_and_continue s toks coms before rest (map spelling more) L E) as (u & v & w & toks' & coms' & S & R & L' & I).
  { clear -M. induction M as [|x l [F T] _ IH]; [constructor|]. cbn [map]. constructor; auto.
    unfold spelling. cbn [fst snd]. rewrite T. apply specimen_lexeme, F. }
  exists u. split.
  - unfold cut_at. destruct rest as [|x rest].
    + subst v. rewrite app_nil_r in S. auto.
    + destruct R as [[v' ->] C]. split; eauto.
  - change (map spelling before) with (map item_of before).
    assert (map tkind_of (before ++ more) = map tkind_of toks') as K.
    { assert (forall l, map tkind_of l = map fst (map item_of l)) as MK by (intro l; rewrite map_map; reflexivity).
      rewrite (MK toks'), I, map_app, map_app, !MK, !map_map. reflexivity. }
    pose proof (same_kinds_accepted _ _ _ K H) as H'.
    exists w, (mkParsed toks' coms' evs []), []. split; [|split; [reflexivity|]].
    + unfold parse. rewrite L'. cbn [bind]. rewrite H'. reflexivity.
    + cbn [p_tokens]. rewrite app_nil_r. exact I.
Qed.

Lemma lexical_errors s its p : lexes s its -> parse s KStoredDefinition = Ok p ->
  lex s = Ok (p_tokens p, p_comments p, []) /\ parse_events (p_tokens p) KStoredDefinition = Ok (p_events p, p_errors p).
Proof.
  intros X H. apply parse_inv in H as (e1 & e2 & L & H & E).
  destruct (C10_errors_iff _ _ _ _ L) as [[_ Z] _]. rewrite (Z (ex_intro _ its X)) in *. cbn [app] in E. subst e2. auto.
Qed.

(** ** C67: the first syntax error is reported where it is. What stands before it can be continued to a
    correct file; no correct file has the same tokens up to the one after the reported one. *)
Theorem C67_first_error : forall s its p e er,
  lexes s its -> parse s KStoredDefinition = Ok p -> p_errors p = e :: er ->
  exists before rest u,
    p_tokens p = before ++ rest /\ reported_at (p_tokens p) rest e /\ cut_at s u rest /\
    continues u (map spelling before) /\
    (forall s' p', parse s' KStoredDefinition = Ok p' -> p_errors p' = [] ->
       firstn (length before + 2) (map tkind_of (p_tokens p')) <>
       firstn (length before + 2) (map tkind_of (p_tokens p))).
Proof.
  intros s its p e er X H E. destruct (lexical_errors _ _ _ X H) as [L P]. rewrite E in P.
  destruct (first_error _ _ _ _ P) as (before & rest & o & T & F & _ & (more & evs & M & C) & NF & _).
  destruct (continue_text _ _ _ _ _ _ _ L T M C) as (u & CU & (w & p1 & more' & P1 & Z1 & S1)).
  exists before, rest, u. split; auto. split; [|split; [exact CU|split]].
  - unfold in_front, points in F. destruct rest as [|x rest].
    + destruct F as (l & t & TL & F1 & F2). exists t. split; eauto.
    + exists x. auto.
  - exists w, p1, (map spelling more ++ more'). rewrite app_assoc. auto.
  - intros s' p' H' E' K. apply parse_inv in H' as (l1 & l2 & L' & P' & EE).
    rewrite E' in EE. symmetry in EE. apply app_eq_nil in EE as [-> ->].
    destruct rest as [|x rest].
    + rewrite app_nil_r in T. rewrite T in K. rewrite (firstn_all2 (n := length before + 2) (map tkind_of before)) in K
        by (rewrite map_length; lia).
      assert (map tkind_of (p_tokens p') = map tkind_of before) as K'.
      { rewrite <- K. symmetry. apply firstn_all2. apply (f_equal (@length _)) in K.
        rewrite firstn_length, !map_length in K. rewrite map_length. lia. }
      rewrite <- T in K'. rewrite (same_kinds_accepted _ _ _ K' P') in P. discriminate.
    + apply (NF ltac:(discriminate) _ _ P'). intros i I. unfold ParserFirst.at_.
      assert (forall l : list tkind, nth_error l i = nth_error (firstn (length before + 2) l) i) as FN.
      { intro l. revert i I. generalize (length before + 2)%nat as n. clear. induction l as [|y l IH]; intros n i I.
        - rewrite firstn_nil. reflexivity.
        - destruct n; [lia|]. destruct i; [reflexivity|]. cbn. apply IH. lia. }
      rewrite FN, (FN (map tkind_of (p_tokens p'))), K. reflexivity.
Qed.
Print Assumptions C67_first_error.

(** The equals sign is missing its right-hand side; one more example where the tokens end. *)
Definition no_value : text := str "model M Real x = ; end M;".
Example C67_applies : exists its p e er,
  lexes no_value its /\ parse no_value KStoredDefinition = Ok p /\ p_errors p = e :: er /\
  (eline e, ecol e) = (1, 18).
Proof.
  assert (exists p, parse no_value KStoredDefinition = Ok p) as [p P] by (eexists; vm_compute; reflexivity).
  assert (exists its, lexes no_value its) as [its X].
  { destruct (parse_inv _ _ _ P) as (e1 & e2 & L & _ & _). destruct (C10_errors_iff _ _ _ _ L) as [[Z _] _]. apply Z.
    vm_compute in L. inversion L. reflexivity. }
  exists its, p. vm_compute in P. inversion P; subst. eexists. eexists. split; [exact X|].
  split; [vm_compute; reflexivity|]. split; reflexivity.
Qed.
(** One token after the reported one has to be looked at: here the report is at [initial], with which a
    correct file can go on. *)
Example C67_one_more : exists p e er p',
  parse (str "model M initial x end M;") KStoredDefinition = Ok p /\ p_errors p = e :: er /\
  (eline e, ecol e) = (1, 9) /\
  parse (str "model M initial equation end M;") KStoredDefinition = Ok p' /\ p_errors p' = [].
Proof.
  eexists. eexists. eexists. eexists. split; [vm_compute; reflexivity|]. split; [reflexivity|].
  split; [reflexivity|]. split; [vm_compute; reflexivity|]. reflexivity.
Qed.

(** ** C68: what the first message says. An expected token is not the one that stands there, and a
    correct file can go on with it; at the end of the file this need not be so. *)
Theorem C68_expected : forall s its p e er,
  lexes s its -> parse s KStoredDefinition = Ok p -> p_errors p = e :: er ->
  exists before rest,
    p_tokens p = before ++ rest /\ reported_at (p_tokens p) rest e /\
    match rest with
    | [] => True
    | x :: after =>
        (exists t u,
           t <> tkind_of x /\
           emsg e = str "expected " ++ str (tkind_debug t) ++ str ", found " ++ str (tkind_debug (tkind_of x)) /\
           cut_at s u rest /\
           exists word, lexeme t word /\ continues u (map spelling before ++ [(t, word)])) \/
        (exists k post,
           In k (map tkind_of rest ++ [TEOF]) /\
           emsg e = str "unexpected token '" ++ str (tkind_debug k) ++ str post)
    end.
Proof.
  intros s its p e er X H E. destruct (lexical_errors _ _ _ X H) as [L P]. rewrite E in P.
  destruct (first_error _ _ _ _ P) as (before & rest & o & T & F & S & _ & _ & OT).
  exists before, rest. split; auto. split.
  { unfold in_front, points in F. destruct rest as [|x rest].
    + destruct F as (l & t & TL & F1 & F2). exists t. split; eauto.
    + exists x. auto. }
  destruct rest as [|x after]; auto. destruct o as [t|]; cbn [says] in S.
  - left. destruct S as (_ & K & M). destruct (OT t eq_refl) as (more & evs & MD & C).
    destruct (continue_text _ _ _ _ _ _ _ L T MD C) as (u & CU & (w & p1 & more' & P1 & Z1 & S1)).
    exists t, u. cbn in K, M. split; auto. split; [exact M|]. split; auto. exists (specimen t). split.
    + apply Forall_inv in MD. apply specimen_lexeme. apply MD.
    + exists w, p1, (map spelling more ++ more'). split; auto. split; auto. rewrite S1. cbn [map app].
      rewrite <- !app_assoc. reflexivity.
  - right. destruct S as [S|(n & post & M)]; [discriminate|]. exists (kind_at (x :: after) n), post. split; auto.
    unfold kind_at. apply in_or_app. destruct (nth_error (x :: after) n) as [y|] eqn:N; [|right; left; reflexivity].
    left. apply nth_error_In in N. apply (in_map tkind_of) in N. exact N.
Qed.
Print Assumptions C68_expected.

Example C68_applies : exists its p e er,
  lexes (str "model M Real x; y end M;") its /\ parse (str "model M Real x; y end M;") KStoredDefinition = Ok p /\
  p_errors p = e :: er /\ emsg e = str "expected IDENTIFIER, found 'end'".
Proof.
  assert (exists p, parse (str "model M Real x; y end M;") KStoredDefinition = Ok p) as [p P]
    by (eexists; vm_compute; reflexivity).
  assert (exists its, lexes (str "model M Real x; y end M;") its) as [its X].
  { destruct (parse_inv _ _ _ P) as (e1 & e2 & L & _ & _). destruct (C10_errors_iff _ _ _ _ L) as [[Z _] _]. apply Z.
    vm_compute in L. inversion L. reflexivity. }
  exists its, p. vm_compute in P. inversion P; subst. eexists. eexists. split; [exact X|].
  split; [vm_compute; reflexivity|]. split; vm_compute; reflexivity.
Qed.

(** At the end of the file the expected token can be wrong: the parser has skipped the missing name. *)
Example C68_at_end : exists p e er p',
  parse (str "model M Real x = a.") KStoredDefinition = Ok p /\ p_errors p = e :: er /\
  emsg e = str "expected ';', found EOF" /\
  parse (str "model M Real x = a. ; end M;") KStoredDefinition = Ok p' /\ p_errors p' <> [].
Proof.
  eexists. eexists. eexists. eexists. split; [vm_compute; reflexivity|]. split; [reflexivity|].
  split; [vm_compute; reflexivity|]. split; [vm_compute; reflexivity|]. discriminate.
Qed.
