(** Property C95: how much the parser reports. *)
From Verif Require Import ProofBase Tokens Syntax Lexer SpecLex SpecPieces LexInv LexMain LexAll ParserCore Grammar Tree Printer Formatter Lib ParserSem ParserFuel SpecGrammar
  Regex ParserGrammar ParserTree ParserFacts Recognise PropsParser SpecCount ParserCount.

Lemma report_size s ps : pieces s ps -> forall c n, (length (fst (report c n ps)) + length (snd (report c n ps)) <= length s)%nat.
Proof.
  induction 1 as [|x r ps S P IH|k w r ps X F P IH|w m r ps X P IH]; intros c n; cbn [report].
  - cbn. lia.
  - specialize (IH (c ++ [x]) n). cbn [length]. lia.
  - specialize (IH (c ++ w) (n + 1)). destruct (report (c ++ w) (n + 1) ps) as [ts es]. cbn [fst snd length] in *. rewrite app_length.
    apply lexeme_nonempty in X. destruct w; [congruence|]. cbn [length]. lia.
  - specialize (IH (c ++ w) n). destruct (report (c ++ w) n ps) as [ts es]. cbn [fst snd length] in *. rewrite app_length.
    assert (w <> []) as N by (clear - X; destruct X; discriminate). destruct w; [congruence|]. cbn [length]. lia.
Qed.
Lemma lex_size s ts cs er : lex s = Ok (ts, cs, er) -> (length ts + length cs + length er <= length s)%nat.
Proof.
  intro L. destruct (pieces_exactly s) as (ps & P & _). destruct (lex_all s ps P) as [A B].
  assert (~ stumbles ps) as NS by (intro S; rewrite (A S) in L; discriminate).
  rewrite (B NS) in L. inversion L; subst. pose proof (report_size s ps P [] 0) as R.
  assert (forall l, length (filter is_code l) + length (filter is_comment l) = length l)%nat as K.
  { clear. induction l as [|t l IH]; [reflexivity|]. cbn [filter]. unfold is_code at 1. destruct (is_comment t); cbn [negb length]; lia. }
  rewrite K. exact R.
Qed.

(** ** C95: at most 50 messages about one place *)
Theorem C95_places : forall s entry p, parse s entry = Ok p ->
  exists lexical syntactic places, p_errors p = lexical ++ syntactic /\
    (length (p_tokens p) + length (p_comments p) + length lexical <= length s)%nat /\
    Forall2 (about_place (p_tokens p)) syntactic places /\ (forall i, In i places -> i <= length (p_tokens p))%nat /\
    forall i, (times i places <= 50)%nat.
Proof.
  intros s entry p H. apply parse_inv in H as (l & e & L & H & E). apply lex_size in L. apply parse_counted in H as (places & A & B & C).
  exists l, e, places. split; [exact E|]. split; [exact L|]. split; [exact A|]. split; [exact B|exact C].
Qed.
Print Assumptions C95_places.

Theorem C95_linear : forall s entry p, parse s entry = Ok p ->
  (length (p_errors p) <= 51 * length s + 50 /\ length (p_events p) <= 607 * (length s + 1))%nat.
Proof.
  intros s entry p H. destruct (C95_places _ _ _ H) as (l & e & places & E & SZ & A & B & C). split.
  - rewrite E, app_length. assert (length e = length places) as -> by (clear - A; induction A; cbn [length]; congruence).
    assert (length places <= S (length (p_tokens p)) * 50)%nat.
    { apply times_sum; [|intros; apply C]. apply Forall_forall. intros i I. apply B in I. lia. }
    lia.
  - apply parse_inv in H as (l' & e' & L & H & _). apply parse_events_length in H. lia.
Qed.
Print Assumptions C95_linear.

(** Eight parentheses are left open: eight messages, all about the semicolon, which is the tenth token behind [=]. *)
Definition open_brackets : text := str "model M equation x = ((((((((1; end M;".
Example C95_applies : exists p lexical syntactic places, parse open_brackets KStoredDefinition = Ok p /\ p_errors p = lexical ++ syntactic /\
  Forall2 (about_place (p_tokens p)) syntactic places /\ times 14 places = 8%nat /\ length places = 8%nat.
Proof.
  eexists. exists []. eexists. exists (repeat 14%nat 8). split; [vm_compute; reflexivity|]. split; [reflexivity|]. split; [|split; reflexivity].
  repeat (first [apply Forall2_nil | apply Forall2_cons; [eexists; split; [vm_compute; reflexivity|split; reflexivity]|]]).
Qed.
