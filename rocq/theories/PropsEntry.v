(** Property C115: formatting texts read from any rule of the grammar. *)
From Verif Require Import ProofBase Tokens Syntax Lexer SpecLex LexInv LexMain LexFacts ParserCore Grammar
  Tree Printer Formatter Lib ParserSem SpecGrammar Regex ParserGrammar ParserTree Recognise PropsParser
  FmtAbs FmtPlan FmtSound SpecLayout FmtExec FmtTop FmtFacts FmtRelex FmtNeat PropsFormat SpecEntry FmtEntry.

Lemma snug_unless_edged k : ~ In k edged -> snug k = true.
Proof.
  intros N. destruct (snug k) eqn:S; [reflexivity|]. exfalso. apply N.
  destruct k; try (vm_compute in S; discriminate); unfold edged; simpl; tauto.
Qed.

Lemma part_codes k cs ds : ds = dleaves k (prune (CTree k cs)) -> map snd ds = leaves (CTree k cs).
Proof. intros ->. rewrite dleaves_leaves, leaves_prune. reflexivity. Qed.

(** The text is formatted, with all its code tokens in their order. Nothing but comments is
    dropped, and of these exactly those whose next code token does not start a line. *)
Theorem C115_parts : forall eol k s p cs,
  read_whole k s p cs -> ~ In k edged -> p_tokens p <> [] ->
  exists l items,
    pretty_print eol p = Ok (render eol l) /\
    code_tokens l = p_tokens p /\
    laid space s items /\ p_tokens p = filter plain items /\ p_comments p = filter commentary items /\
    drops comment items (map e_tok l) /\
    forall i1 c i2, items = i1 ++ c :: i2 -> comment c ->
      (In c (map e_tok l) <->
       exists cs t i3 e, i2 = cs ++ t :: i3 /\ Forall comment cs /\ ~ comment t /\
         In e l /\ e_tok e = t /\ is_break (e_white e) = true).
Proof.
  intros eol k s p cs RW NI NT.
  destruct (part_layout eol k s p cs RW NT (snug_unless_edged k NI)) as (items & l & X1 & X2 & X3 & X4 & X5 & PP & AR & _).
  exists l, items. split; [exact PP|]. split.
  { rewrite code_tokens_codes, (arranged_codes _ _ _ _ _ _ AR), (part_codes k cs _ eq_refl). apply RW. }
  do 3 (split; [assumption|]). split; [eapply arranged_drops; exact AR|].
  intros i1 c i2 E C. apply comment_of in C.
  rewrite (arranged_survival _ _ _ _ _ _ AR (laid_nodup _ _ _ X3) i1 c i2 E C).
  split.
  - intros (t & e & (ds & i3 & -> & F & T) & I & ET & B). exists ds, t, i3, e. repeat split; auto.
    + eapply Forall_impl; [|exact F]. intros x X. apply comment_of. exact X.
    + rewrite comment_of. congruence.
  - intros (ds & t & i3 & e & -> & F & T & I & ET & B). exists t, e. repeat split; auto.
    exists ds, i3. split; auto. split.
    + eapply Forall_impl; [|exact F]. intros x X. apply comment_of. exact X.
    + rewrite comment_of in T. destruct (commentary t); congruence.
Qed.
Print Assumptions C115_parts.

(** The formatted text is read as the same tokens, with some of the comments. *)
Theorem C115_relex : forall eol k s p cs tail,
  read_whole k s p cs -> ~ In k edged -> p_tokens p <> [] ->
  no_lone_cr s -> is_eol eol -> tail = [] \/ tail = eol ->
  exists out toks coms,
    pretty_print eol p = Ok out /\ lex (out ++ tail) = Ok (toks, coms, []) /\
    map item_of toks = map item_of (p_tokens p) /\
    forall c, In c coms -> In (item_of c) (map item_of (p_comments p)).
Proof.
  intros eol k s p cs tail RW NI NT NC EO ET.
  destruct (part_layout eol k s p cs RW NT (snug_unless_edged k NI)) as (items & l & LX & CA & LA & X4 & X5 & PP & AR & _).
  destruct (eol_tail eol tail EO ET) as [T1 T2].
  assert (forall e, In e l -> In (e_tok e) items) as SUB.
  { intros e I. eapply drops_in; [eapply arranged_drops; exact AR|]. apply in_map. exact I. }
  pose proof (PropsFormat.lexes_lexemes _ _ LX) as LM.
  assert (lexes (render eol l ++ tail) (map (fun e => item_of (e_tok e)) l)) as RL.
  { apply relex; auto.
    - rewrite Forall_forall in *. intros e I. apply LM. auto.
    - eapply part_apt; eauto. }
  destruct (lex_complete _ _ RL) as (its & LE & ME & _).
  { intros w I. apply CA. apply in_map_iff in I as (e & E & I). rewrite <- E. apply in_map. auto. }
  exists (render eol l), (filter plain its), (filter commentary its). split; [exact PP|]. split; [exact LE|].
  destruct (items_filter l its) as [I1 I2]; [eapply arranged_ruled; exact AR|exact ME|].
  split.
  - rewrite I1, code_tokens_codes, (arranged_codes _ _ _ _ _ _ AR), (part_codes k cs _ eq_refl).
    f_equal. apply RW.
  - intros c I. apply filter_In in I as [I K]. apply (in_map item_of) in I. rewrite ME in I.
    apply in_map_iff in I as (e & E & I). rewrite <- E, X5. apply in_map, filter_In. split; [auto|].
    destruct (item_plain _ _ E) as [_ ->]. exact K.
Qed.
Print Assumptions C115_relex.

(** The tree of a sequence of events, for the examples. *)
Fixpoint regrow (evs : list event) (toks : list token) (st : list (skind * list child)) : option child :=
  match evs, st with
  | Enter k :: evs', _ => regrow evs' toks ((k, []) :: st)
  | Exit :: evs', (k, cs) :: (k', cs') :: st' => regrow evs' toks ((k', CTree k (rev cs) :: cs') :: st')
  | [Exit], [(k, cs)] => Some (CTree k (rev cs))
  | Advance :: evs', (k, cs) :: st' =>
      match toks with t :: toks' => regrow evs' toks' ((k, CTok t :: cs) :: st') | [] => None end
  | _, _ => None
  end.

Definition shown (k : skind) (s out : text) : Prop :=
  exists p cs, read_whole k s p cs /\ p_tokens p <> [] /\ pretty_print [10] p = Ok out.

Ltac show :=
  match goal with |- shown ?k ?s _ =>
    let r := eval vm_compute in (parse s k) in
    match r with Ok ?p =>
      let g := eval vm_compute in (regrow (p_events p) (p_tokens p) []) in
      match g with Some (CTree _ ?cs) =>
        exists p, cs; split; [split; [vm_compute; reflexivity|]; split; [reflexivity|];
          split; [apply conformsb_sound; vm_compute; reflexivity|]; split; vm_compute; reflexivity|];
        split; [vm_compute; discriminate|vm_compute; reflexivity]
      end
    end
  end.

(** The text of the test in lib.rs (29-38), read as an expression, and an equation with comments. *)
Example C115_expression : shown KSimpleExpression (str "x+2   * (  - y)") (str "x + 2 * (-y)").
Proof. show. Qed.
Example C115_equation :
  shown KEquation (lines ["if  a then // one"; "x=1;"; "/* two */"; "y=2; end if"]%string)
    (lines ["if a then // one"; "  x = 1;"; "  /* two */"; "  y = 2;"; "end if"]%string).
Proof. show. Qed.
(** A modification is printed with the space in front of its sign. *)
Example C115_modification : shown KModification (str "=1") (str " = 1").
Proof. show. Qed.

(** That [parse] gives no errors is not enough: no text at all is a description string, but
    formatting it crashes, and so does formatting a text whose first part alone was read. *)
Theorem C115_no_crash_refuted :
  (exists p, parse [] KDescriptionString = Ok p /\ p_errors p = [] /\
     (exists cs, read_whole KDescriptionString [] p cs) /\ pretty_print [10] p = Panic PUnwrap) /\
  (exists p, parse (str "a b") KExpression = Ok p /\ p_errors p = [] /\ exists x, pretty_print [10] p = Panic x).
Proof.
  split.
  - eexists. split; [vm_compute; reflexivity|]. split; [reflexivity|]. split; [|vm_compute; reflexivity].
    exists []. split; [vm_compute; reflexivity|]. split; [reflexivity|]. split; [apply conformsb_sound; vm_compute; reflexivity|]. split; vm_compute; reflexivity.
  - eexists. split; [vm_compute; reflexivity|]. split; [reflexivity|]. eexists. vm_compute. reflexivity.
Qed.
Print Assumptions C115_no_crash_refuted.
