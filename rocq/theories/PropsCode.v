(** Property C89: comments leave the layout of the code alone. *)
From Coq Require Import Sorted.
From Verif Require Import ProofBase Tokens Syntax Lexer SpecLex LexInv LexMain LexFacts LexCut ParserCore Grammar
  Tree Printer Formatter Lib ParserSem ParserFuel SpecGrammar Regex ParserGrammar ParserTree ParserFacts Recognise PropsParser
  SpecLanguage ParserComplete PropsLanguage
  FmtAbs FmtPlan FmtShape FmtTables FmtSound SpecLayout FmtExec FmtTop FmtFacts FmtRelex FmtNeat SpecNodes FmtTree FmtLists FmtOps
  FmtWrap SpecGaps SpecReference FmtNode FmtReference FmtSame PropsFormat PropsReference PropsSame FmtBreaks FmtAgree FmtPrinted FmtStable
  FmtMoved FmtConcat SpecTold PropsModular FmtOnce FmtNear PropsVertical FmtLocal PropsTree SpecCode FmtCode.

(** ** C89

    The layout of the code, up to empty lines, is determined by the kinds of the tokens and by the places of the line
    breaks between them and inside them. *)
Theorem C89_code : forall s s' p p', accepted s p -> accepted s' p' -> same_rows (p_tokens p) (p_tokens p') ->
  exists l l', (forall eol, layout_of eol s p l /\ layout_of eol s' p' l') /\
    Forall2 (fun e e' => same_white (e_white e) (e_white e') /\ e_rule e' = e_rule e /\ tkind_of (e_tok e') = tkind_of (e_tok e))
      (filter code l) (filter code l').
Proof.
  intros s s' p p' A A' S. destruct (reading_of s p A) as (items & tree & R). destruct (reading_of s' p' A') as (items' & tree' & R').
  exists (reference tree items), (reference tree' items'). split.
  - intro eol. split; [apply (reading_reference eol _ _ _ _ R)|apply (reading_reference eol _ _ _ _ R')].
  - destruct A as [A _], A' as [A' _]. destruct (C17_layout_irrelevant s s' KStoredDefinition p p' A A' (same_rows_kinds _ _ S)) as (EV & _).
    rewrite (rd_tokens _ _ _ _ R), (rd_tokens _ _ _ _ R') in S. eapply reading_code; eauto.
Qed.
Print Assumptions C89_code.

(** Write spaces over the comments: the file is accepted again, with the same code in the same layout. *)
Theorem C89_wiped : forall s s' p, accepted s p -> wiped s s' ->
  (forall t r, p_tokens p = t :: r -> tkind_of t = TWithin -> tidx t = 0) ->
  exists p', accepted s' p' /\ p_comments p' = [] /\
    exists l l', (forall eol, layout_of eol s p l /\ layout_of eol s' p' l') /\
      Forall2 (fun e e' => same_white (e_white e) (e_white e') /\ e_rule e' = e_rule e /\ tkind_of (e_tok e') = tkind_of (e_tok e))
        (filter code l) (filter code l') /\
      map (fun e => ttext (e_tok e)) (filter code l') = map (fun e => ttext (e_tok e)) (filter code l).
Proof.
  intros s s' p A W H. destruct (wiped_items _ _ W) as (its & LX & LX' & _ & IT). destruct (reading_of s p A) as (items & tree & R).
  assert (map item_of items = its) as M by (eapply lexes_unique; [apply R|exact LX]).
  assert (comments_ascii (filter code_item its)) as CA by (intros w I; apply filter_In in I as [_ I]; discriminate).
  destruct (lex_complete _ _ LX' CA) as (items' & LE & M' & LA).
  pose proof (IT [] [] 0%nat 0%nat items items' eq_refl (laid_set _ _ (rd_laid _ _ _ _ R)) (laid_set _ _ LA) M M') as S.
  assert (Forall (fun t => plain t = true) items') as PL.
  { rewrite Forall_forall. intros t I. assert (In (item_of t) (filter code_item its)) as J by (rewrite <- M'; apply in_map, I). apply filter_In in J as [_ J]. exact J. }
  assert (filter plain items' = items' /\ filter commentary items' = []) as [E1 E2].
  { clear - PL. induction PL as [|t l P _ [I1 I2]]; [auto|]. cbn [filter]. rewrite P. unfold plain, commentary in *. destruct (is_comment_kind (tkind_of t)); [discriminate|]. rewrite I1, I2. auto. }
  assert (same_rows (filter plain items) items') as SR.
  { apply same_lines_rows; auto.
    - intros t r t' r' E E' K. rewrite <- (rd_tokens _ _ _ _ R) in E. specialize (H t r E K). split; [intros _|auto]. rewrite (laid_index _ _ LA [] t' r' E'). reflexivity.
    - intros t r <- I. eapply later_index; [apply R|exact I].
    - intros t r <- I. rewrite <- E1 in I. eapply later_index; [exact LA|exact I]. }
  assert (exists p', accepted s' p' /\ p_tokens p' = items' /\ p_comments p' = []) as (p' & A' & T' & C').
  { destruct A as [P Z]. apply parse_inv in P as (lx & e & L & P & E). rewrite E in Z. apply app_eq_nil in Z as [_ ->].
    pose proof (C17_kinds_only (p_tokens p) items' KStoredDefinition) as K. rewrite (rd_tokens _ _ _ _ R) in K at 1. specialize (K (same_rows_kinds _ _ SR)). rewrite P in K.
    destruct (parse_events items' KStoredDefinition) as [[ev er]|x|] eqn:PE; try contradiction. destruct K as [K1 K2]. destruct er; [|discriminate].
    exists (mkParsed items' [] ev []). split; [|auto]. split; [|reflexivity]. unfold parse. rewrite LE, E1, E2. cbn [bind]. rewrite PE. reflexivity. }
  exists p'. split; [exact A'|]. split; [exact C'|]. destruct (reading_of s' p' A') as (j & tree' & R').
  exists (reference tree items), (reference tree' j). split.
  { intro eol. split; [apply (reading_reference eol _ _ _ _ R)|apply (reading_reference eol _ _ _ _ R')]. }
  split.
  - destruct A as [A _], A' as [A' _]. assert (same_rows (p_tokens p) (p_tokens p')) as SP by (rewrite T', (rd_tokens _ _ _ _ R); exact SR).
    destruct (C17_layout_irrelevant s s' KStoredDefinition p p' A A' (same_rows_kinds _ _ SP)) as (EV & _).
    rewrite (rd_tokens _ _ _ _ R), (rd_tokens _ _ _ _ R') in SP. eapply reading_code; eauto.
  - rewrite <- !(map_map e_tok ttext), (reading_code_tokens _ _ _ _ R), (reading_code_tokens _ _ _ _ R'), T', (rd_tokens _ _ _ _ R).
    clear - S. induction S as [|t t' l l' (_ & X & _) _ IH]; [reflexivity|]. cbn [map]. congruence.
Qed.
Print Assumptions C89_wiped.

(** Every accepted file has such a copy. *)
Lemma wiped_some s its : lexes s its -> exists s', wiped s s'.
Proof.
  induction 1 as [|c r its S L [s' W]|k w r its X F L [s' W]]; [exists []; constructor|exists (c :: s'); constructor; auto|].
  destruct (is_comment_kind k) eqn:K.
  - exists (wipe w ++ s'). apply (wi_comment k); auto. destruct k; try discriminate; auto.
  - exists (w ++ s'). apply (wi_item k); auto; intros ->; discriminate.
Qed.
Definition comments_sample : text := lines
  ["model M // a"; "  // b"; "  Real x; /* c"; "d */ Real y /* e */ (a=1,"; "b=/*f"; "g*/2);"; "equation // h"; "x = /* i */ 1 + // j"; "2; y=1;"; "end M; // k"]%string.
Definition wiped_sample : text := lines
  ["model M     "; "      "; "  Real x;     "; "     Real y         (a=1,"; "b=   "; "   2);"; "equation     "; "x =         1 +     "; "2; y=1;"; "end M;     "]%string.
Example C89_applies :
  formats comments_sample (lines
    ["model M // a"; ""; "  // b"; "  Real x; /* c"; "d */"; "  Real y("; "    a = 1,"; "    b = 2);"; ""; "equation // h"; ""; "  x = 1"; "    + 2;"; "  y = 1;"; ""; "end M;"]%string) /\
  formats wiped_sample (lines
    ["model M"; ""; "  Real x;"; "  Real y("; "    a = 1,"; "    b = 2);"; ""; "equation"; ""; "  x = 1"; "    + 2;"; "  y = 1;"; ""; "end M;"]%string).
Proof. split; formatted. Qed.
Example C89_meets : exists p s', accepted comments_sample p /\ wiped comments_sample s' /\
  (forall t r, p_tokens p = t :: r -> tkind_of t = TWithin -> tidx t = 0) /\ length (p_comments p) = 9%nat.
Proof.
  assert (exists p, accepted comments_sample p /\ (forall t r, p_tokens p = t :: r -> tkind_of t = TWithin -> tidx t = 0) /\ length (p_comments p) = 9%nat) as (p & A & H & C).
  { eexists. split; [split; vm_compute; reflexivity|]. split; [|reflexivity]. intros t r E K. cbn [p_tokens] in E. injection E as <- _. discriminate. }
  destruct (reading_of _ _ A) as (items & tree & R). destruct (wiped_some _ _ (rd_lexes _ _ _ _ R)) as (s' & W). exists p, s'. auto.
Qed.
(** Comments in front of [within] put it on a line of its own, which is why they are excluded. *)
Example C89_within : formats (lines ["// a"; "within P; model M end M;"]%string) (lines ["// a"; "within P;"; "model M"; ""; "end M;"]%string) /\
  formats (lines ["    "; "within P; model M end M;"]%string) (lines ["within P;"; "model M"; ""; "end M;"]%string).
Proof. split; formatted. Qed.
