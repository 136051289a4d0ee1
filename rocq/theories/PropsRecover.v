(** Property C80: what the syntax errors of a file say, and the tokens set aside in its tree. *)
From Verif Require Import ProofBase Tokens Syntax Lexer ParserCore Grammar Tree Lib SpecGrammar SpecRecover ParserSem
  ParserTree ParserFuel ParserSkips ParserLimit PropsParser.

Theorem C80_errors_explained : forall s entry p,
  parse s entry = Ok p ->
  exists lexical syntactic skipped,
    lex s = Ok (p_tokens p, p_comments p, lexical) /\ p_errors p = lexical ++ syntactic /\
    Forall2 (about (p_tokens p)) syntactic skipped /\
    (forall t, build_tree (p_tokens p) (p_events p) = Ok t ->
       set_aside t = map (fun x => [CTok x]) (present skipped)).
Proof.
  intros s entry p H. apply parse_inv in H as (e1 & e2 & L & H & E).
  apply parse_tells in H as (cs & rest & sk & EV & Y & F & A).
  exists e1, e2, sk. repeat split; auto. intros t B.
  rewrite EV, Y, build_flat_rest in B. destruct rest; [|discriminate].
  assert (t = prune (CTree entry cs)) as -> by congruence.
  apply prune_asides. exact A.
Qed.
Print Assumptions C80_errors_explained.

(** A file with errors of both kinds: a reference ending in a dot, and a section that is none; two
    tokens are set aside. *)
Definition broken_file : text := str "model M
  Real x = a. + 1;
initial
  foo
end M;".
Example C80_applies : exists p t x y,
  parse broken_file KStoredDefinition = Ok p /\
  build_tree (p_tokens p) (p_events p) = Ok t /\
  set_aside t = [[CTok x]; [CTok y]] /\
  ttext x = str "initial" /\ ttext y = str "foo" /\
  p_errors p =
    [mkErr 2 15 (str "expected IDENTIFIER, found '+'");
     mkErr 3 1 (str "unexpected token 'IDENTIFIER' following 'initial'. Expected 'equation' or 'algorithm'");
     mkErr 4 3 (str "unexpected token 'IDENTIFIER' after element list inside composition. Expected 'protected', 'public', 'initial', 'equation', 'algorithm', 'external', 'annotation' or 'end'.")].
Proof.
  eexists _, _, _, _. split; [vm_compute; reflexivity|]. split; [vm_compute; reflexivity|].
  split; [vm_compute; reflexivity|]. repeat split; vm_compute; reflexivity.
Qed.

(** ** C81 is false: the guard also stops runs that would come to an end. Nine open parentheses are
    enough: at the semicolon each of them costs more than ten lookups. *)
Definition unclosed : text := str "model M equation x = (((((((((1; end M;".
Theorem C81_guard_stops_endless_runs_refuted :
  exists toks coms limit fuel evs errs,
    lex unclosed = Ok (toks, coms, []) /\
    parse_events toks KStoredDefinition = Panic PStuck /\
    parse_events_with limit fuel toks KStoredDefinition = Ok (evs, errs) /\
    length errs = 9%nat.
Proof.
  eexists _, _, 200, 3000%nat, _, _. split; [vm_compute; reflexivity|].
  split; [vm_compute; reflexivity|]. split; vm_compute; reflexivity.
Qed.
Print Assumptions C81_guard_stops_endless_runs_refuted.

(** What is true: where the guard does not fire it changes nothing; a run that comes to an end does so
    with every higher limit, with the same events and errors. *)
Theorem C81_guard_changes_nothing : forall limit limit' fuel fuel' ts entry r,
  parse_events_with limit fuel ts entry = Ok r -> limit <= limit' -> (fuel <= fuel')%nat ->
  parse_events_with limit' fuel' ts entry = Ok r.
Proof.
  intros limit limit' fuel fuel' ts entry r H L F.
  rewrite (parse_events_with_mono _ _ fuel' _ _ (Ok r) (parse_richer _ _ _ _ _ _ L H)); auto; discriminate.
Qed.
Print Assumptions C81_guard_changes_nothing.

Example C81_applies : exists r,
  parse_events_with 100 1000 (toks_of (kinds broken_file)) KStoredDefinition = Ok r /\ length (snd r) = 3%nat.
Proof. eexists. split; vm_compute; reflexivity. Qed.
