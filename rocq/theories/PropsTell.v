(** Property C109: files with the same output. *)
From Verif Require Import ProofBase Tokens Syntax Lexer SpecLex LexMain LexFacts ParserCore Grammar Tree Printer Formatter Lib SpecLayout
  FmtFacts FmtRelex FmtNeat SpecNodes FmtTree FmtSame PropsFormat PropsSame SpecEdit Cli SpecCli PropsParser.

Lemma spaces_apart c c' u u' : forall a b, Forall space a -> Forall space b -> ~ space c -> ~ space c' -> a ++ c :: u = b ++ c' :: u' -> a = b /\ c :: u = c' :: u'.
Proof.
  induction a as [|x a IH]; intros [|y b] FA FB NC NC' E; auto.
  - cbn in E. inversion E; subst. inversion FB; contradiction.
  - cbn in E. inversion E; subst. inversion FA; contradiction.
  - cbn in E. injection E as -> E. inversion FA; subst. inversion FB; subst. destruct (IH b) as [-> ->]; auto.
Qed.
Lemma times_inj n m : times n (str "  ") = times m (str "  ") -> n = m.
Proof.
  revert m. induction n as [|n IH]; intros [|m] E; auto; try discriminate. f_equal. apply IH. cbn [times] in E. apply app_inv_head in E. exact E.
Qed.
Lemma times_blank n : Forall (eq 32) (times n (str "  ")).
Proof. induction n as [|n IH]; [constructor|]. cbn. constructor; [reflexivity|]. constructor; [reflexivity|exact IH]. Qed.
Lemma times_not_eol n x u : x <> 32 -> times n (str "  ") <> x :: u.
Proof. intros NE E. pose proof (times_blank n) as F. rewrite E in F. inversion F; subst; congruence. Qed.
Lemma white_inj eol w w' : is_eol eol -> white_text eol w = white_text eol w' -> w = w'.
Proof.
  assert (forall n u, times n (str "  ") <> 10 :: u) as T10 by (intros; apply times_not_eol; discriminate).
  assert (forall n u, times n (str "  ") <> 13 :: u) as T13 by (intros; apply times_not_eol; discriminate).
  intros [->| ->] E; destruct w as [| |[|] n], w' as [| |[|] m]; cbn [white_text app] in E; try reflexivity; try discriminate E; injection E as E;
    first [f_equal; apply times_inj; exact E | exfalso; first [eapply T10; exact E | eapply T13; exact E | eapply T10; symmetry; exact E | eapply T13; symmetry; exact E]].
Qed.

Lemma render_tells eol : is_eol eol -> forall l l',
  Forall (fun e => lexeme (tkind_of (e_tok e)) (ttext (e_tok e))) l ->
  map (fun e => item_of (e_tok e)) l' = map (fun e => item_of (e_tok e)) l -> render eol l = render eol l' -> Forall2 alike l l'.
Proof.
  intro EO. induction l as [|e l IH]; intros [|e' l'] F M E; try discriminate; constructor; inversion F as [|? ? LE F']; subst; cbn [map] in M; injection M as K T M;
    cbn [render flat_map] in E; rewrite <- !app_assoc in E; rewrite T in E; destruct (lexeme_starts _ _ LE) as (c & b & ET & NS); rewrite ET in E; cbn [app] in E;
    destruct (spaces_apart _ _ _ _ _ _ (white_space eol (e_white e) EO) (white_space eol (e_white e') EO) NS NS E) as [W R].
  - repeat split; auto. symmetry. eapply white_inj; eassumption.
  - injection R as R. apply app_inv_head in R. auto.
Qed.
Lemma alike_render eol l l' : Forall2 alike l l' -> render eol l = render eol l'.
Proof. induction 1 as [|e e' l l' (W & T & _) F IH]; [reflexivity|]. cbn [render flat_map]. unfold render in IH. rewrite W, T, IH. reflexivity. Qed.

Lemma layout_lexes eol s p : accepted s p -> no_lone_cr s -> is_eol eol ->
  exists l, layout_of eol s p l /\ lexes (render eol l) (map (fun e => item_of (e_tok e)) l) /\ Forall (fun e => lexeme (tkind_of (e_tok e)) (ttext (e_tok e))) l.
Proof.
  intros ACC NC EO. destruct (accepted_layout eol s p ACC) as (items & l & LO & LX & CA & LA & PT & PC & AR). exists l. split; [exact LO|].
  assert (forall e, In e l -> In (e_tok e) items) as SUB.
  { intros e I. eapply drops_in; [eapply arranged_drops; exact AR|]. apply in_map. exact I. }
  pose proof (lexes_lexemes _ _ LX) as LM.
  assert (Forall (fun e => lexeme (tkind_of (e_tok e)) (ttext (e_tok e))) l) as FL.
  { rewrite Forall_forall in *. intros e I. apply LM. auto. }
  split; [|exact FL]. rewrite <- (app_nil_r (render eol l)). destruct (eol_tail eol [] EO) as [T1 T2]; [auto|]. apply relex; auto. eapply layout_apt; eauto.
Qed.

(** Two files have the same output exactly if the same items are printed with the same white space. *)
Theorem C109_exactly : forall eol s p s2 p2, accepted s p -> no_lone_cr s -> accepted s2 p2 -> no_lone_cr s2 -> is_eol eol ->
  exists l l2, layout_of eol s p l /\ layout_of eol s2 p2 l2 /\ (pretty_print eol p = pretty_print eol p2 <-> Forall2 alike l l2).
Proof.
  intros eol s p s2 p2 A NC A2 NC2 EO. destruct (layout_lexes eol s p A NC EO) as (l & LO & LX & F). destruct (layout_lexes eol s2 p2 A2 NC2 EO) as (l2 & LO2 & LX2 & _).
  exists l, l2. split; [exact LO|]. split; [exact LO2|]. rewrite (lo_text _ _ _ _ LO), (lo_text _ _ _ _ LO2). split; intro H.
  - injection H as H. apply (render_tells eol EO); auto. rewrite <- H in LX2. exact (lexes_unique _ _ _ LX2 LX).
  - f_equal. apply alike_render, H.
Qed.
Print Assumptions C109_exactly.

(** Then they have the same code, the same syntax tree and the same printed comments. *)
Theorem C109_code : forall eol s p s2 p2, accepted s p -> no_lone_cr s -> accepted s2 p2 -> no_lone_cr s2 -> is_eol eol ->
  pretty_print eol p = pretty_print eol p2 ->
  map item_of (p_tokens p2) = map item_of (p_tokens p) /\
  (exists tree tree2, build_tree (p_tokens p) (p_events p) = Ok tree /\ build_tree (p_tokens p2) (p_events p2) = Ok tree2 /\ sketch_of tree2 = sketch_of tree) /\
  (exists l l2, layout_of eol s p l /\ layout_of eol s2 p2 l2 /\ map item_of (comment_tokens l2) = map item_of (comment_tokens l)).
Proof.
  intros eol s p s2 p2 A NC A2 NC2 EO E. split; [|split].
  - destruct (C23_reparse eol s p [] A NC EO (or_introl eq_refl)) as (o & q & P & Q & _ & M). destruct (C23_reparse eol s2 p2 [] A2 NC2 EO (or_introl eq_refl)) as (o2 & q2 & P2 & Q2 & _ & M2).
    assert (o2 = o) as -> by congruence. assert (q2 = q) as -> by (destruct Q, Q2; congruence). congruence.
  - destruct (C23_same_tree eol s p [] A NC EO (or_introl eq_refl)) as (o & q & t & t' & P & Q & B & B' & S). destruct (C23_same_tree eol s2 p2 [] A2 NC2 EO (or_introl eq_refl)) as (o2 & q2 & t2 & t2' & P2 & Q2 & B2 & B2' & S2).
    assert (o2 = o) as -> by congruence. assert (q2 = q) as -> by (destruct Q, Q2; congruence). exists t, t2. split; [exact B|]. split; [exact B2|]. congruence.
  - destruct (C22_relex eol s p [] A NC EO (or_introl eq_refl)) as (l & LO & ts & cs & L & _ & M). destruct (C22_relex eol s2 p2 [] A2 NC2 EO (or_introl eq_refl)) as (l2 & LO2 & ts2 & cs2 & L2 & _ & M2).
    exists l, l2. split; [exact LO|]. split; [exact LO2|]. rewrite (lo_text _ _ _ _ LO), (lo_text _ _ _ _ LO2) in E. injection E as E. rewrite E in L. congruence.
Qed.
Print Assumptions C109_code.

(** Files of different code are never given the same contents. *)
Theorem C109_files : forall eol src src2 new toks coms toks2 coms2, is_eol eol -> no_lone_cr src -> no_lone_cr src2 -> rewrites eol src new -> rewrites eol src2 new ->
  lex src = Ok (toks, coms, []) -> lex src2 = Ok (toks2, coms2, []) -> map item_of toks2 = map item_of toks.
Proof.
  intros eol src src2 new toks coms toks2 coms2 EO NC NC2 (p & o & A & P & ->) (p2 & o2 & A2 & P2 & E) L L2. apply app_inv_tail in E as <-.
  destruct (C109_code eol src p src2 p2 A NC A2 NC2 EO) as (M & _); [congruence|].
  destruct A as [H _], A2 as [H2 _]. destruct (parse_inv _ _ _ H) as (errs & perrs & X & _). destruct (parse_inv _ _ _ H2) as (errs2 & perrs2 & X2 & _). congruence.
Qed.
Print Assumptions C109_files.

(** Non-vacuity: different files with the same output, and files that differ in one empty line. *)
Definition tell_s : text := lines ["model M Real x[2] // dropped"; "; // kept"; "Real y;"; "end M;"]%string.
Definition tell_s2 : text := lines ["model M"; "Real   x [ 2 ] ; // kept"; "    Real y; end M;"; ""]%string.
Definition tell_s3 : text := lines ["model M"; "Real x[2]; // kept"; ""; "Real y; end M;"]%string.
Example C109_applies : exists p p2 p3, accepted tell_s p /\ accepted tell_s2 p2 /\ accepted tell_s3 p3 /\ no_lone_cr tell_s /\ no_lone_cr tell_s2 /\ no_lone_cr tell_s3 /\
  pretty_print lf p = pretty_print lf p2 /\ pretty_print lf p <> pretty_print lf p3 /\ map item_of (p_comments p) <> map item_of (p_comments p2).
Proof.
  eexists. eexists. eexists. split; [split; vm_compute; reflexivity|]. split; [split; vm_compute; reflexivity|]. split; [split; vm_compute; reflexivity|].
  split; [apply no_cr; reflexivity|]. split; [apply no_cr; reflexivity|]. split; [apply no_cr; reflexivity|]. split; [vm_compute; reflexivity|]. split; vm_compute; discriminate.
Qed.

(** With a carriage return alone behind a line comment it is false: code and a comment become the same text. *)
Definition mixed_s : text := str "model M A a; // b" ++ [13] ++ str "/* c" ++ [10] ++ str "  B b; // */ C c; end M;".
Definition mixed_s2 : text := lines ["model M A a; // b /* c"; "B b; // */"; "C c; end M;"]%string.
Theorem C109_code_refuted : exists s p s2 p2, accepted s p /\ accepted s2 p2 /\ pretty_print lf p = pretty_print lf p2 /\ map item_of (p_tokens p2) <> map item_of (p_tokens p).
Proof.
  exists mixed_s. eexists. exists mixed_s2. eexists. split; [split; vm_compute; reflexivity|]. split; [split; vm_compute; reflexivity|]. split; [vm_compute; reflexivity|]. vm_compute. discriminate.
Qed.
Print Assumptions C109_code_refuted.
