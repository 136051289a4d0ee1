(** Property C117: parts of files that are formatted on their own follow the rules of the reference formatter. *)
From Verif Require Import ProofBase Tokens Syntax Lexer SpecLex LexInv LexMain LexFacts ParserCore Grammar
  Tree Printer Formatter Lib ParserSem ParserFuel SpecGrammar Regex ParserGrammar ParserTree ParserFacts Recognise PropsParser
  FmtAbs FmtPlan FmtShape FmtTables FmtSound SpecLayout FmtExec FmtTop FmtFacts FmtRelex FmtNeat SpecNodes FmtTree FmtLists FmtOps
  FmtWrap SpecGaps PropsGaps PropsFormat SpecReference FmtNode FmtReference PropsReference SpecEntry FmtEntry PropsEntry SpecAlone.

Definition flush (k : skind) : bool := forallb (fun h => no_gap (fst h)) (t_heads k).
Lemma flush_unless k : ~ In k edged -> k <> KModification -> flush k = true.
Proof.
  intros N M. destruct (flush k) eqn:S; [reflexivity|]. exfalso.
  destruct k; try (vm_compute in S; discriminate); try (apply M; reflexivity); apply N; unfold edged; simpl; tauto.
Qed.
Lemma near_spaced_checked : all_near spaced = true.
Proof. vm_compute. reflexivity. Qed.
Lemma near_spaced k : flush k = true -> forall p G x, near k p G x -> spaced p G x = true.
Proof.
  intros F [q|] G x A; [exact (all_near_sound _ near_spaced_checked _ _ _ _ A)|].
  unfold flush in F. rewrite forallb_forall in F. specialize (F _ A). cbn [fst] in F. cbn [spaced]. rewrite F. apply orb_true_r.
Qed.

Lemma part_reference eol k s p cs :
  read_whole k s p cs -> ~ In k edged -> k <> KModification -> p_tokens p <> [] ->
  exists items,
    build_tree (p_tokens p) (p_events p) = Ok (prune (CTree k cs)) /\
    lexes s (map item_of items) /\ comments_ascii (map item_of items) /\ laid space s items /\
    p_tokens p = filter plain items /\ p_comments p = filter commentary items /\
    pretty_print eol p = Ok (render eol (reference_at k (prune (CTree k cs)) items)) /\
    arranged (near k) None 1 items (dleaves k (prune (CTree k cs))) (reference_at k (prune (CTree k cs)) items).
Proof.
  intros RW NI NM NT.
  destruct (part_layout eol k s p cs RW NT (snug_unless_edged k NI))
    as (items & l & X1 & X2 & X3 & X4 & X5 & PP & AR & r & os & W & R & PD).
  assert (reference_at k (prune (CTree k cs)) items = l) as EQ.
  { unfold reference_at. destruct RW as (_ & _ & C & L & _). pose proof (prune_fits _ C) as F. pose proof (leaves_prune (CTree k cs)) as LP. rewrite L in LP.
    assert (exists ks, prune (CTree k cs) = CTree k ks) as [ks EK] by (rewrite prune_tree; eauto).
    rewrite EK in *. destruct ks as [|k1 ks]; [exfalso; apply NT; rewrite <- LP; reflexivity|].
    pose proof (all_match (CTree k (k1 :: ks))) as M. cbn [matches] in M.
    destruct (M _ _ _ _ _ _ _ W k Beside O O false [] O) as (AG & _); [reflexivity|reflexivity|].
    refine (woven _ _ _ _ _ PD None _ eq_refl (runs_chain _ (near_spaced k (flush_unless k NI NM)) _ _ _ _ _ R) AG _).
    apply (proj1 (all_signed _ F _ _ _ _ _ _ false (fun H => match Bool.diff_false_true H with end))). }
  rewrite <- EQ in PP, AR. exists items. split.
  { destruct RW as (_ & _ & _ & L & EV). rewrite EV, <- L. change (leaves (CTree k cs)) with (yield cs). apply build_flat. }
  do 6 (split; [assumption|]). exact AR.
Qed.

Theorem C117_reference : forall eol k s p cs,
  read_whole k s p cs -> ~ In k edged -> k <> KModification -> p_tokens p <> [] ->
  exists tree items,
    build_tree (p_tokens p) (p_events p) = Ok tree /\ laid space s items /\
    p_tokens p = filter plain items /\ p_comments p = filter commentary items /\
    pretty_print eol p = Ok (render eol (reference_at k tree items)).
Proof.
  intros eol k s p cs RW NI NM NT.
  destruct (part_reference eol k s p cs RW NI NM NT) as (items & BT & _ & _ & LA & PT & PC & PP & _).
  exists (prune (CTree k cs)), items. auto.
Qed.
Print Assumptions C117_reference.

(** For whole files these are the rules of C56. *)
Remark reference_at_file tree items : reference_at KStoredDefinition tree items = reference tree items.
Proof. reflexivity. Qed.

(** An equation with comments, a wrapped list of arguments and wrapped operations: the rules give the text that the
    program prints. *)
Definition C117_source : text := lines
  ["if x>1 then // why"; "x=a"; "+b*c"; "+d; else"; ""; ""; "/* own */"; " f(a,{1,"; "2}); y /* lost */ ="; "if u then 1 else - 2; end if // lost"]%string.
Definition C117_result : text := lines
  ["if x > 1 then // why"; "  x = a"; "    + b * c"; "    + d;"; "else"; ""; "  /* own */"; "  f("; "    a,"; "    {"; "      1,"; "      2});";
   "  y = if u then 1 else -2;"; "end if"]%string.
Example C117_program : shown KEquation C117_source C117_result.
Proof. show. Qed.
Example C117_applies : exists p tree,
  parse C117_source KEquation = Ok p /\ build_tree (p_tokens p) (p_events p) = Ok tree /\
  render lf (reference_at KEquation tree (sorted_items (p_tokens p) (p_comments p))) = C117_result.
Proof.
  eexists. eexists. split; [vm_compute; reflexivity|]. split; [vm_compute; reflexivity|]. vm_compute. reflexivity.
Qed.
(** A class with its parts. *)
Example C117_class : shown KClassDefinition
  (lines ["model M Real x(start=1,"; " min=- 2) ;"; "equation y+"; "x=1; end M"]%string)
  (lines ["model M"; ""; "  Real x("; "    start = 1,"; "    min = -2);"; ""; "equation"; ""; "  y"; "    + x = 1;"; ""; "  end M"]%string).
Proof. show. Qed.
