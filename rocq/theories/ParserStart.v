(** The parser started at any rule finds the parsable trees of that rule. *)
From Verif Require Import ProofBase Tokens Syntax Lexer ParserCore Grammar Tree ParserSem
  ParserFuel ParserGuard ParserTree SpecGrammar Regex ParserGrammar SpecLanguage Looks Predict PredictOk Recognise
  ParserComplete.

(** What may follow a node if the input may end behind any rule but the list of outputs. *)
Definition ends_tab : Looks.table := Eval vm_compute in
  rounds (follow_round first_tab) 12
    (map (fun k => if skind_eqb k KOutputExpressionList then [] else [[]]) all_skinds).
Lemma ends_predicts : forallb (predicts_in ends_tab) all_skinds = true.
Proof. vm_compute. reflexivity. Qed.
Lemma ends_all k : k <> KOutputExpressionList -> In [] (get ends_tab k).
Proof. destruct k; intro N; try contradiction; vm_compute; tauto. Qed.

Lemma complete_part k cs : k <> KError -> k <> KOutputExpressionList -> parsable (CTree k cs) ->
  parse_events (yield cs) k = Ok (flat (CTree k cs), []).
Proof.
  intros NE NO [C U]. pose proof (callable_in _ ends_predicts _ C U [] (ends_all k NO)) as [g O].
  rewrite app_nil_r in O.
  destruct (okr_parse 100 _ _ _ _ O NE ltac:(unfold most; lia)) as [n E].
  unfold parse_events.
  pose proof (parse_events_with_fuel 100 (parse_fuel (yield cs)) (yield cs) k (parse_fuel_enough _)) as NF.
  rewrite <- (parse_events_with_mono _ _ (parse_fuel (yield cs) + n) _ _ _ eq_refl NF ltac:(lia)).
  apply E. lia.
Qed.
