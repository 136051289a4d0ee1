(** Property C88: where the empty lines of the output come from. *)
From Verif Require Import ProofBase Tokens Syntax Lexer SpecLex LexInv LexMain LexFacts ParserCore Grammar
  Tree Printer Formatter Lib ParserSem ParserFuel SpecGrammar Regex ParserGrammar ParserTree ParserFacts Recognise PropsParser
  SpecLanguage ParserComplete PropsLanguage
  FmtAbs FmtPlan FmtShape FmtTables FmtSound SpecLayout FmtExec FmtTop FmtFacts FmtRelex FmtNeat SpecNodes FmtTree FmtLists FmtOps
  FmtWrap SpecGaps SpecReference FmtNode FmtReference FmtSame PropsFormat PropsReference FmtBreaks FmtAgree FmtPrinted FmtStable FmtMoved
  FmtConcat SpecLevels FmtLevels PropsTree PropsLevels SpecLocal FmtLocal SpecBlank FmtBlank.

(** ** C88

    In front of the first token of a part of a class there is an empty line, behind the comments on the line of the
    token before. Any other empty line stands for one in the source. *)
Lemma blank_reading eol s p : accepted s p -> exists tree items, laid_tree eol s p tree (reference tree items) /\ reading s p items tree.
Proof.
  intro ACC. destruct (reading_of s p ACC) as (items & tree & R). exists tree, items.
  destruct (reading_reference eol s p items tree R) as [LO _]. split; [split; [apply R|exact LO]|exact R].
Qed.
Lemma automatic_empty k t : ~ automatic (CTree k []) t.
Proof. intros [u d v r I _ _|k' u w d v r I _ _ _ _|u v I _]; apply inside_empty in I as [I _]; destruct u; discriminate. Qed.
Lemma uncoded_comments l q r : Forall (fun e => e_rule e = None <-> comment (e_tok e)) l -> (exists u, l = u ++ q ++ r) -> uncoded q -> Forall (fun e => comment (e_tok e)) q.
Proof. intros F (u & ->) U. rewrite !Forall_app in F. destruct F as (_ & F & _). unfold uncoded in U. rewrite Forall_forall in *. intros e I. apply F; auto. Qed.

Theorem C88_sources : forall eol s p, accepted s p ->
  exists tree l, laid_tree eol s p tree l /\
    (forall t, automatic tree t ->
       exists u q1 y q2 z v, l = u ++ q1 ++ (y :: q2) ++ v /\ (u = [] \/ exists u' e, u = u' ++ [e] /\ ~ comment (e_tok e)) /\
         Forall (fun e => comment (e_tok e) /\ is_break (e_white e) = false) q1 /\
         (exists n, e_white y = WLine true n) /\
         (exists q, y :: q2 = q ++ [z] /\ Forall (fun e => comment (e_tok e)) q) /\ e_tok z = t) /\
    (forall l1 e l2 n, l = l1 ++ e :: l2 -> e_white e = WLine true n ->
       apart (anchor 1 l1) e \/
       exists q x l3, e :: l2 = q ++ x :: l3 /\ Forall (fun d => comment (e_tok d)) q /\ automatic tree (e_tok x)).
Proof.
  intros eol s p ACC. destruct (blank_reading eol s p ACC) as (tree & items & LT & R).
  exists tree, (reference tree items). split; [exact LT|]. destruct LT as [_ LO]. pose proof (lo_rules _ _ _ _ LO) as RU.
  pose proof (reading_spots _ _ _ _ R) as SP. pose proof (rd_fits _ _ _ _ R) as (cs & E & FI). split.
  - intros t A. assert (fits tree) as F by (destruct FI as [->|F]; [subst tree; destruct (automatic_empty _ _ A)|exact F]).
    destruct (automatic_spot tree t F A root_args) as (y & I & T & P). apply in_split in I as (X & X' & EX).
    destruct (weave_group items None 1 [] _ X y X' SP EX) as (L & p' & ln' & cs' & W & EW & K).
    destruct (put_always p' ln' cs' y P) as (q1 & b & q2 & EP & B & Q & q & z & EZ & U & TZ).
    assert (reference tree items = L ++ q1 ++ (b :: q2) ++ W) as EQ by (unfold reference; etransitivity; [exact EW|]; rewrite EP, <- !app_assoc; reflexivity).
    exists L, q1, b, q2, z, W. split; [exact EQ|]. rewrite EQ in RU. split; [|split; [|split; [|split]]].
    + destruct K as [->|(L' & e & -> & N)]; [auto|right]. exists L', e. split; [reflexivity|]. intro C. apply N. rewrite !Forall_app in RU. destruct RU as ((_ & RU) & _). inversion RU; subst. tauto.
    + rewrite !Forall_app in RU. destruct RU as (_ & RU & _). rewrite Forall_forall in *. intros d D. destruct (Q d D) as [Q1 Q2]. split; [apply RU; auto|exact Q1].
    + destruct (e_white b) as [| |bb n]; try discriminate. cbn [blank] in B. subst. eauto.
    + exists q. split; [exact EZ|]. apply (uncoded_comments _ q ([z] ++ W) RU); [|exact U]. exists (L ++ q1). rewrite EZ, <- !app_assoc. reflexivity.
    + congruence.
  - intros l1 e l2 n EL WE. destruct (weave_blank items None 1 [] _ l1 e l2 SP EL) as [A|(q & x & l3 & y & EQ & U & I & T & P)]; [rewrite WE; reflexivity|left; exact A|].
    right. exists q, x, l3. split; [exact EQ|]. split; [apply (uncoded_comments _ q (x :: l3) RU); [|exact U]; exists l1; rewrite EL, EQ; reflexivity|].
    rewrite <- T. destruct FI as [->|F]; [subst tree; destruct I|].
    destruct (always_spots tree root_args y F I P) as [A|[A _]]; [exact A|discriminate].
Qed.
Print Assumptions C88_sources.

(** Unless comments span several lines, the empty line of the source is between the item and the one before it. *)
Theorem C88_single : forall eol s p, accepted s p -> Forall (fun c => line (tend c) = line (tstart c)) (p_comments p) ->
  exists tree l, laid_tree eol s p tree l /\
    (forall l1 e l2 n, l = l1 ++ e :: l2 -> e_white e = WLine true n ->
       apart (ended 1 l1) e \/
       exists q x l3, e :: l2 = q ++ x :: l3 /\ Forall (fun d => comment (e_tok d)) q /\ automatic tree (e_tok x)).
Proof.
  intros eol s p ACC S. destruct (blank_reading eol s p ACC) as (tree & items & LT & R).
  exists tree, (reference tree items). split; [exact LT|]. destruct LT as [_ LO]. pose proof (lo_rules _ _ _ _ LO) as RU.
  pose proof (reading_spots _ _ _ _ R) as SP. pose proof (rd_fits _ _ _ _ R) as (cs & E & FI).
  intros l1 e l2 n EL WE. destruct (weave_blank items None 1 [] _ l1 e l2 SP EL) as [A|(q & x & l3 & y & EQ & U & I & T & P)]; [rewrite WE; reflexivity| |].
  - left. rewrite (rd_comments _ _ _ _ R) in S. rewrite <- (agreeing_weave items None 1 [] _ SP (Forall_nil _) S l1 (e :: l2) EL). exact A.
  - right. exists q, x, l3. split; [exact EQ|]. split; [apply (uncoded_comments _ q (x :: l3) RU); [|exact U]; exists l1; rewrite EL, EQ; reflexivity|].
    rewrite <- T. destruct FI as [->|F]; [subst tree; destruct I|].
    destruct (always_spots tree root_args y F I P) as [A|[A _]]; [exact A|discriminate].
Qed.
Print Assumptions C88_single.

(** With a comment of several lines behind code this fails: an empty line appears that is neither automatic nor in
    the source. *)
Lemma items_found s items : laid space s items -> forall ts, (forall t, In t ts <-> In t items) ->
  map Some items = map (fun i => find (fun t => tidx t =? N.of_nat i) ts) (List.seq 0 (length items)).
Proof.
  intros L ts M. pose proof (laid_index _ _ L) as IX.
  assert (forall u v, items = u ++ v -> map Some v = map (fun i => find (fun t => tidx t =? N.of_nat i) ts) (List.seq (length u) (length v))) as H; [|exact (H [] items eq_refl)].
  intros u v. revert u. induction v as [|t v IH]; intros u E; [reflexivity|]. cbn [map length List.seq]. f_equal.
  - destruct (find _ ts) as [t'|] eqn:F.
    + apply find_some in F as [I X]. apply N.eqb_eq in X. apply M in I. apply in_split in I as (a & b & EA). rewrite (IX _ _ _ EA) in X. apply Nnat.Nat2N.inj in X.
      rewrite E in EA. clear - X EA. revert a EA X. induction u as [|x u IH]; intros [|y a] EA X; try discriminate; cbn [app] in EA; [congruence|]. apply (IH a); [congruence|]. cbn [length] in X. lia.
    + exfalso. assert (In t ts) as I by (apply M; rewrite E; apply in_elt). apply (find_none _ _ F t) in I. rewrite (IX _ _ _ E), N.eqb_refl in I. discriminate.
  - specialize (IH (u ++ [t])). rewrite app_length, Nat.add_1_r in IH. apply IH. rewrite <- app_assoc. exact E.
Qed.
Definition behind_sample : text := lines
  ["model M Real x; /* a"; "b"; "c */"; "Real y; end M;"]%string.
Definition behind_parsed : parsed := Eval vm_compute in match parse behind_sample KStoredDefinition with Ok p => p | _ => mkParsed [] [] [] [] end.
Example C88_behind : formats behind_sample (lines
  ["model M"; ""; "  Real x; /* a"; "b"; "c */"; ""; "  Real y;"; ""; "end M;"]%string).
Proof. formatted. Qed.
Definition behind_items : list token := Eval vm_compute in
  let ts := p_tokens behind_parsed ++ p_comments behind_parsed in
  flat_map (fun i => match find (fun t => tidx t =? N.of_nat i) ts with Some t => [t] | None => [] end) (List.seq 0 (length ts)).
Definition behind_tree : child := Eval vm_compute in
  match build_tree (p_tokens behind_parsed) (p_events behind_parsed) with Ok t => t | _ => CTree KStoredDefinition [] end.
Theorem C88_refuted : exists s p, accepted s p /\ forall eol,
  exists tree l, laid_tree eol s p tree l /\ exists l1 e l2 n,
    l = l1 ++ e :: l2 /\ e_white e = WLine true n /\ ~ apart (ended 1 l1) e /\ ~ comment (e_tok e) /\ ~ automatic tree (e_tok e).
Proof.
  assert (accepted behind_sample behind_parsed) as ACC by (split; vm_compute; reflexivity).
  exists behind_sample, behind_parsed. split; [exact ACC|]. intro eol.
  destruct (blank_reading eol _ _ ACC) as (tree & items & LT & R). exists tree, (reference tree items). split; [exact LT|].
  set (ts := p_tokens behind_parsed ++ p_comments behind_parsed) in *.
  assert (length items = length ts) as LN.
  { unfold ts. rewrite (rd_tokens _ _ _ _ R), (rd_comments _ _ _ _ R), app_length. clear. induction items as [|t items IH]; [reflexivity|]. cbn [filter length]. unfold plain, commentary in *. destruct (is_comment_kind (tkind_of t)); cbn [negb length]; lia. }
  assert (map Some items = map (fun i => find (fun t => tidx t =? N.of_nat i) ts) (List.seq 0 (length ts))) as EI.
  { rewrite <- LN. eapply items_found; [exact (rd_laid _ _ _ _ R)|]. intro t. unfold ts. rewrite (rd_tokens _ _ _ _ R), (rd_comments _ _ _ _ R), in_app_iff, !filter_In. unfold plain, commentary. destruct (is_comment_kind (tkind_of t)); cbn [negb]; intuition discriminate. }
  assert (items = behind_items) as ->.
  { assert (forall a b : list token, map Some a = map Some b -> a = b) as J by (intros a; induction a; intros [|? ?] X; try discriminate; cbn [map] in X; [reflexivity|]; injection X as -> X; f_equal; auto). apply J. rewrite EI. vm_compute. reflexivity. }
  assert (tree = behind_tree) as ->.
  { pose proof (rd_tree _ _ _ _ R) as T. assert (build_tree (p_tokens behind_parsed) (p_events behind_parsed) = Ok behind_tree) by (vm_compute; reflexivity). congruence. }
  destruct (rd_fits _ _ _ _ R) as (cs & EC & FI).
  assert (exists l1 e l2, reference behind_tree behind_items = l1 ++ e :: l2 /\ e_white e = WLine true 1 /\ ended 1 l1 = 3 /\ line (tstart (e_tok e)) = 4 /\ tkind_of (e_tok e) = TIdentifier /\
    forallb (fun y => negb ((tidx (at_tok y) =? tidx (e_tok e)) && match at_pos y with Below Always => true | _ => false end)) (spots_at root_args behind_tree) = true) as (l1 & e & l2 & EL & W & EN & ST & KD & AL).
  { exists (firstn 6 (reference behind_tree behind_items)), (hd (mkE WNone None (mkTok 0 [] TSemicolon (mkPos 0 0 0) (mkPos 0 0 0))) (skipn 6 (reference behind_tree behind_items))), (skipn 7 (reference behind_tree behind_items)).
    repeat split; vm_compute; reflexivity. }
  exists l1, e, l2, 1%nat. split; [exact EL|]. split; [exact W|]. split; [unfold apart; rewrite EN, ST; lia|]. split; [unfold comment; rewrite KD; intros [X|X]; discriminate|].
  intro A. destruct FI as [->|F].
  - apply (f_equal (fun c => match c with CTree _ x => length x | _ => O end)) in EC. vm_compute in EC. discriminate.
  - destruct (automatic_spot behind_tree _ F A root_args) as (y & I & T & P). rewrite forallb_forall in AL. specialize (AL y I). rewrite T, P, N.eqb_refl in AL. discriminate.
Qed.
Print Assumptions C88_refuted.

(** Empty lines that are automatic and one of the source; two more of the source are lost. *)
Definition blank_sample : text := lines
  ["function f input Real x;"; ""; "input Real z; // c"; "// d"; "external"; "annotation(a=1); end f;"; "model M Real x; // e"; "// f"; "protected Real y(a=1,"; ""; "b=2); // g"; "equation"; "x=1;"; ""; ""; "// h"; "y=2; annotation(a=1); end M;"]%string.
Example C88_applies : formats blank_sample (lines
  ["function f"; ""; "  input Real x;"; ""; "  input Real z; // c"; ""; "// d"; "external"; "    annotation (a = 1);"; ""; "end f;"; "model M"; ""; "  Real x; // e"; ""; "// f"; "protected"; ""; "  Real y("; "    a = 1,"; "    b = 2); // g"; ""; "equation"; ""; "  x = 1;"; ""; "  // h"; "  y = 2;"; ""; "  annotation (a = 1);"; ""; "end M;"]%string).
Proof. formatted. Qed.
Example C88_meets : exists p tree t, accepted blank_sample p /\ build_tree (p_tokens p) (p_events p) = Ok tree /\
  tkind_of t = TProtected /\ automatic tree t /\ Forall (fun c => line (tend c) = line (tstart c)) (p_comments p).
Proof.
  assert (has_node blank_sample (fun c => match c with CTree KComposition (_ :: CTok t :: _) => match tkind_of t with TProtected => true | _ => false end | _ => false end)) as H by (apply find_has; vm_compute; reflexivity).
  destruct H as (p & tree & c & A & B & C & D). destruct c as [|[] [|d [|[t|] v]]]; try discriminate. assert (tkind_of t = TProtected) as K by (destruct (tkind_of t); try discriminate; reflexivity).
  exists p, tree, t. split; [exact A|]. split; [exact B|]. split; [exact K|]. split.
  - apply (au_part tree t [d] (CTok t) v []); [exact C| |reflexivity]. unfold SpecBlank.part. cbn [symbol]. rewrite K. repeat split; try discriminate.
  - destruct A as [A _]. vm_compute in A. injection A as <-. repeat constructor.
Qed.
