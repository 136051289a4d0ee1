(** Property C55: the space between tokens on one line. *)
From Coq Require Import Sorted.
From Verif Require Import ProofBase Tokens Syntax Lexer SpecLex LexInv LexMain LexFacts ParserCore Grammar
  Tree Printer Formatter Lib ParserSem SpecGrammar
  FmtAbs FmtPlan FmtTables FmtSound SpecLayout FmtExec FmtTop FmtFacts FmtRelex FmtNeat SpecGaps.

Definition spaced (p : option dk) (G : gap) (k : dk) : bool :=
  match p with
  | None => a_break G || no_gap G
  | Some (q, a) =>
      skind_eqb q KAddOperator || a_break G ||
      (if tight a (fst k) (snd k) then no_gap G else a_space G)
  end.
Lemma spaced_checked : all_adjacent spaced = true.
Proof. vm_compute. reflexivity. Qed.

(** ** C55: two tokens on one line are separated by a single space, except for the places listed in
    [tight], where they touch. (What follows a sign is the subject of [C34_signs] and [C52_operators].) *)
Theorem C55_spaces : forall eol s p, accepted s p ->
  exists l, layout_of eol s p l /\ forall a e, consecutive l a e ->
    match e_rule a, e_rule e with
    | Some q, Some r =>
        q <> KAddOperator -> is_break (e_white e) = false ->
        e_white e = if tight (kd a) r (kd e) then WNone else WSpace
    | Some _, None => is_break (e_white e) = false -> e_white e = WSpace
    | None, Some _ => is_break (e_white e) = true
    | None, None => is_break (e_white e) = false -> e_white e = WSpace
    end.
Proof.
  intros eol s p ACC. destruct (accepted_layout eol s p ACC) as (items & l & LO & _ & _ & _ & _ & _ & AR).
  exists l. split; auto. intros a e C. destruct (e_rule a) as [q|] eqn:Q, (e_rule e) as [r|] eqn:R.
  - intros NA NB. pose proof (consecutive_in _ _ _ C) as [IA IE].
    assert (linked adjacent a e) as L.
    { eapply (arranged_linked adjacent _ _ _ _ _ AR (mkE WNone None (e_tok a))); [discriminate|].
      apply consecutive_cons. right. exact C. }
    destruct (L q r Q R) as (G & A & I). apply (all_adjacent_sound _ spaced_checked) in A.
    unfold spaced in A. cbn [fst snd] in A. fold (kd a) (kd e) in A.
    destruct (skind_eqb q KAddOperator) eqn:K; [apply skind_eqb_eq in K; contradiction|]. cbn [orb] in A.
    destruct I as [[-> W]|[[-> W]|(b & n & -> & W)]]; rewrite W in *; try discriminate NB; cbn in A;
      destruct (tight (kd a) r (kd e)); congruence.
  - intro NB. pose proof (comment_white _ _ _ _ _ AR a e C R) as W. destruct (e_white e); auto; [contradiction|discriminate].
  - apply (after_comment _ _ _ _ _ AR a e r C Q R).
  - intro NB. pose proof (comment_white _ _ _ _ _ AR a e C R) as W. destruct (e_white e); auto; [contradiction|discriminate].
Qed.
Print Assumptions C55_spaces.

Example C55_applies : formats
  (lines ["within;"; "model M import A .*; import B.{a,b}; .A.B c[2] , d ( e=1 ) if not x annotation ( y=1 ) ;";
          "equation ( a , , ) = f( ) ; x=[1 , - 2;3,4] and not (y) ; a . b [ 1 ] . c = . d . e; end M;"]%string)
  (lines ["within ;"; "model M"; ""; "  import A.*;"; "  import B.{a, b};"; "  .A.B c[2], d(e = 1) if not x"; "    annotation (y = 1);"; "";
          "equation"; ""; "  (a, , ) = f();"; "  x = [1, -2; 3, 4] and not (y);"; "  a.b[1].c = .d.e;"; ""; "end M;"]%string).
Proof. formatted. Qed.
