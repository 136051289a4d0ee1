(** Property C113: the layouts of some code lie between that of the code on one line and that of the code with a line for every token. *)
From Coq Require Import Sorted.
From Verif Require Import ProofBase Tokens Syntax Lexer SpecLex LexInv LexMain LexFacts LexCut ParserCore Grammar
  Tree Printer Formatter Lib ParserSem ParserFuel SpecGrammar Regex ParserGrammar ParserTree ParserFacts Recognise PropsParser
  SpecLanguage ParserComplete PropsLanguage
  FmtAbs FmtPlan FmtShape FmtTables FmtSound SpecLayout FmtExec FmtTop FmtFacts FmtRelex FmtNeat SpecNodes FmtTree FmtLists FmtOps
  FmtWrap SpecGaps SpecReference FmtNode FmtReference FmtSame PropsFormat PropsReference PropsSame FmtBreaks FmtAgree FmtPrinted FmtStable
  FmtMoved FmtConcat SpecTold PropsModular FmtOnce FmtNear PropsVertical FmtLocal PropsTree SpecCode FmtCode FmtEdit SpecMore FmtMore PropsMore
  PropsStable SpecSettled FmtLevels PropsSettled Cli SpecCli SpecExtremes.

(** ** The joined text *)
Lemma joined_lexes c ts : space c -> newline_char c \/ Forall (fun t => tkind_of t <> TLineComment) ts ->
  Forall (fun t => lexeme (tkind_of t) (ttext t)) ts -> lexes (joined c ts) (map item_of ts).
Proof.
  intros SC NL L. induction L as [|t ts LT L IH]; [constructor|]. cbn [joined flat_map map]. fold (joined c ts). rewrite <- app_assoc. cbn [app].
  unfold item_of at 1. constructor; [exact LT| |].
  - apply follow_space; [exact SC|]. intro K. destruct NL as [NL|NL]; [exact NL|]. inversion NL; contradiction.
  - constructor; [exact SC|]. apply IH. destruct NL as [NL|NL]; [left; exact NL|right; inversion NL; assumption].
Qed.

(** Every token starts [d] lines below the end of the one before. *)
Fixpoint stepped (d : N) (ts : list token) : Prop :=
  match ts with
  | a :: ((b :: _) as r) => line (tstart b) = line (tend a) + d /\ stepped d r
  | _ => True
  end.
Lemma joined_stepped g : space g -> forall ts its c n, map item_of its = map item_of ts -> Forall (fun t => lexeme (tkind_of t) (ttext t)) ts ->
  set_out c n its (joined g ts) -> stepped (newlines [g]) its /\ Forall (fun t => line (tend t) = line (tstart t) + newlines (ttext t)) its /\
    match its with [] => True | t :: _ => line (tstart t) = 1 + newlines c end.
Proof.
  intro SG. induction ts as [|t ts IH]; intros its c n M L S; destruct its as [|u its]; try discriminate; [cbn; auto|].
  cbn [map] in M. assert (ttext u = ttext t /\ map item_of its = map item_of ts) as [TX M'] by (unfold item_of in M at 1 3; inversion M; auto).
  inversion L as [|? ? LT L']; subst. cbn [joined flat_map] in S. fold (joined g ts) in S. rewrite <- app_assoc in S.
  apply set_out_first in S as (A & B & S); [|exact TX|eauto].
  assert (Forall (fun t => exists k, lexeme k (ttext t)) its) as LS.
  { apply Forall_forall. intros x I. assert (In (item_of x) (map item_of ts)) as J by (rewrite <- M'; apply in_map, I). apply in_map_iff in J as (y & E & J).
    rewrite Forall_forall in L'. specialize (L' y J). exists (tkind_of y). unfold item_of in E. injection E as E1 E2. rewrite <- E2. exact L'. }
  apply set_out_skips in S; [|constructor; [exact SG|constructor]|exact LS]. destruct (IH its _ _ M' L' S) as (ST & H & F).
  split; [|split; [|exact A]].
  - cbn [stepped]. destruct its as [|v its]; [exact Logic.I|]. split; [|exact ST]. rewrite F, B, newlines_app. lia.
  - constructor; [|exact H]. rewrite A, B, newlines_app, TX. lia.
Qed.
Lemma set_heights c n its r : set_out c n its r -> Forall (fun t => line (tend t) = line (tstart t) + newlines (ttext t)) its.
Proof.
  induction 1 as [|c n sp t its r S (A & _) _ (B & _) _ _ _ IH]; constructor; auto. rewrite A, B, !newlines_app. lia.
Qed.
Lemma reading_heights s p items tree : reading s p items tree -> Forall (fun t => line (tend t) = line (tstart t) + newlines (ttext t)) (p_tokens p).
Proof.
  intro R. rewrite (rd_tokens _ _ _ _ R). pose proof (set_heights _ _ _ _ (laid_set _ _ (rd_laid _ _ _ _ R))) as H. rewrite Forall_forall in *.
  intros t I. apply filter_In in I as [I _]. auto.
Qed.

Lemma rejoined g s p : space g -> accepted s p ->
  exists p2, accepted (joined g (p_tokens p)) p2 /\ p_comments p2 = [] /\ map item_of (p_tokens p2) = map item_of (p_tokens p) /\
    stepped (newlines [g]) (p_tokens p2) /\ laid space (joined g (p_tokens p)) (p_tokens p2).
Proof.
  intros SG A. destruct (reading_of s p A) as (items & tree & R).
  assert (Forall (fun t => lexeme (tkind_of t) (ttext t)) (p_tokens p)) as LM.
  { pose proof (PropsFormat.lexes_lexemes _ _ (rd_lexes _ _ _ _ R)) as LM. rewrite (rd_tokens _ _ _ _ R). rewrite Forall_forall in *. intros t I. apply filter_In in I as [I _]. auto. }
  assert (Forall (fun t => plain t = true) (p_tokens p)) as PL0 by (rewrite (rd_tokens _ _ _ _ R); apply Forall_forall; intros t I; apply filter_In in I as [_ I]; exact I).
  assert (lexes (joined g (p_tokens p)) (map item_of (p_tokens p))) as LX.
  { apply joined_lexes; auto. right. rewrite Forall_forall in *. intros t I K. specialize (PL0 t I). unfold plain in PL0. rewrite K in PL0. discriminate. }
  assert (comments_ascii (map item_of (p_tokens p))) as CA.
  { intros w I. apply in_map_iff in I as (t & E & I). rewrite Forall_forall in PL0. specialize (PL0 t I). unfold item_of in E. injection E as E _. unfold plain in PL0. rewrite E in PL0. discriminate. }
  destruct (lex_complete _ _ LX CA) as (items' & LE & M' & LA).
  assert (Forall (fun t => plain t = true) items') as PL.
  { rewrite Forall_forall in *. intros t I. assert (In (item_of t) (map item_of (p_tokens p))) as J by (rewrite <- M'; apply in_map, I). apply in_map_iff in J as (u & E & J).
    specialize (PL0 u J). unfold item_of in E. injection E as E _. unfold plain in *. rewrite <- E. exact PL0. }
  assert (filter plain items' = items' /\ filter commentary items' = []) as [E1 E2].
  { clear - PL. induction PL as [|t l P _ [I1 I2]]; [auto|]. cbn [filter]. rewrite P. unfold plain, commentary in *. destruct (is_comment_kind (tkind_of t)); [discriminate|]. rewrite I1, I2. auto. }
  destruct A as [P Z]. apply parse_inv in P as (lx & e & L & P & E). rewrite E in Z. apply app_eq_nil in Z as [_ ->].
  assert (map tkind_of (p_tokens p) = map tkind_of items') as MK.
  { apply (f_equal (map fst)) in M'. rewrite !map_map in M'. symmetry. exact M'. }
  pose proof (C17_kinds_only (p_tokens p) items' KStoredDefinition MK) as K. rewrite P in K.
  destruct (parse_events items' KStoredDefinition) as [[ev er]|x|] eqn:PE; try contradiction. destruct K as [K1 K2]. destruct er; [|discriminate].
  exists (mkParsed items' [] ev []). cbn [p_tokens p_comments]. split; [split; [|reflexivity]; unfold parse; rewrite LE, E1, E2; cbn [bind]; rewrite PE; reflexivity|].
  split; [reflexivity|]. split; [exact M'|]. split; [|exact LA]. apply (joined_stepped g SG _ _ _ _ M' LM (laid_set _ _ LA)).
Qed.

(** ** Comparing the places of the line breaks *)
Lemma alike_tokens s p s' p' : accepted s p -> accepted s' p' -> map item_of (p_tokens p') = map item_of (p_tokens p) ->
  (forall t r, p_tokens p = t :: r -> tkind_of t = TWithin -> tidx t = 0) -> (forall t r, p_tokens p' = t :: r -> tkind_of t = TWithin -> tidx t = 0) ->
  Forall2 same_token (p_tokens p) (p_tokens p').
Proof.
  intros A A' M W W'. destruct (reading_of s p A) as (items & tree & R). destruct (reading_of s' p' A') as (items' & tree' & R').
  pose proof (reading_heights _ _ _ _ R) as H. pose proof (reading_heights _ _ _ _ R') as H'.
  assert (forall t, In t (List.tl (p_tokens p)) -> tidx t <> 0) as L by (rewrite (rd_tokens _ _ _ _ R); apply (later_index _ _ (rd_laid _ _ _ _ R))).
  assert (forall t, In t (List.tl (p_tokens p')) -> tidx t <> 0) as L' by (rewrite (rd_tokens _ _ _ _ R'); apply (later_index _ _ (rd_laid _ _ _ _ R'))).
  assert (forall l l', map item_of l' = map item_of l -> Forall (fun t => line (tend t) = line (tstart t) + newlines (ttext t)) l ->
    Forall (fun t => line (tend t) = line (tstart t) + newlines (ttext t)) l' -> (forall t, In t l -> tkind_of t = TWithin -> tidx t <> 0) -> (forall t, In t l' -> tkind_of t = TWithin -> tidx t <> 0) -> Forall2 same_token l l') as ALL.
  { clear. induction l as [|t l IH]; intros [|t' l'] M H H' L L'; try discriminate; [constructor|]. cbn [map] in M. unfold item_of in M at 1 3. injection M as K X M.
    inversion H as [|? ? H1 H2]; inversion H' as [|? ? H1' H2']; subst. constructor.
    - split; [exact K|]. split; [rewrite H1, H1', X; lia|]. intro KW. split; intro Z; exfalso; [apply (L t)|apply (L' t')]; auto; try (left; reflexivity). congruence.
    - apply IH; auto; intros u I; [apply L|apply L']; right; exact I. }
  destruct (p_tokens p) as [|t l], (p_tokens p') as [|t' l']; try discriminate; [constructor|]. cbn [map List.tl] in *. unfold item_of in M at 1 3. injection M as K X M.
  inversion H as [|? ? H1 H2]; inversion H' as [|? ? H1' H2']; subst. constructor; [|apply ALL; auto].
  split; [exact K|]. split; [rewrite H1, H1', X; lia|]. intro KW. rewrite (W t l eq_refl KW), (W' t' l' eq_refl) by congruence. reflexivity.
Qed.
Lemma least_rows l l' : Forall2 same_token l l' -> stepped 0 l -> more_rows l l'.
Proof.
  induction 1 as [|a a' r r' SA S IH]; intro ST; [constructor|]. destruct S as [|b b' r r' SB S]; [constructor; exact SA|]. destruct ST as [E ST].
  constructor; [exact SA|lia|apply IH, ST].
Qed.
Lemma most_rows l l' : Forall2 same_token l l' -> stepped 1 l' -> more_rows l l'.
Proof.
  induction 1 as [|a a' r r' SA S IH]; intro ST; [constructor|]. destruct S as [|b b' r r' SB S]; [constructor; exact SA|]. destruct ST as [E ST].
  constructor; [exact SA|lia|apply IH, ST].
Qed.
Lemma laid_first s l t r : laid space s l -> l = t :: r -> tidx t = 0.
Proof. intros L E. rewrite (laid_index _ _ L [] t r E). reflexivity. Qed.

(** ** C113: every layout of the code lies between two of them *)
Theorem C113_between : forall s p, accepted s p -> exists p1 p2 l1 l2,
  (accepted (one_line (p_tokens p)) p1 /\ map item_of (p_tokens p1) = map item_of (p_tokens p) /\ forall eol, layout_of eol (one_line (p_tokens p)) p1 l1) /\
  (accepted (one_each (p_tokens p)) p2 /\ map item_of (p_tokens p2) = map item_of (p_tokens p) /\ forall eol, layout_of eol (one_each (p_tokens p)) p2 l2) /\
  forall s' p', accepted s' p' -> map item_of (p_tokens p') = map item_of (p_tokens p) ->
    (forall t r, p_tokens p' = t :: r -> tkind_of t = TWithin -> tidx t = 0) ->
    exists l', (forall eol, layout_of eol s' p' l') /\ no_more (starters l1) (starters l') /\ no_more (starters l') (starters l2).
Proof.
  intros s p A. destruct space_some as (S10 & _ & S32).
  destruct (rejoined 32 s p S32 A) as (p1 & A1 & _ & M1 & ST1 & LA1). destruct (rejoined 10 s p S10 A) as (p2 & A2 & _ & M2 & ST2 & LA2).
  change (newlines [32]) with 0 in ST1. change (newlines [10]) with 1 in ST2.
  destruct (reading_of _ _ A1) as (items1 & tree1 & R1). destruct (reading_of _ _ A2) as (items2 & tree2 & R2).
  exists p1, p2, (reference tree1 items1), (reference tree2 items2).
  split; [split; [exact A1|]; split; [exact M1|]; intro eol; apply (reading_reference eol _ _ _ _ R1)|].
  split; [split; [exact A2|]; split; [exact M2|]; intro eol; apply (reading_reference eol _ _ _ _ R2)|].
  intros s' p' A' M' W'. destruct (reading_of _ _ A') as (items' & tree' & R'). exists (reference tree' items').
  split; [intro eol; apply (reading_reference eol _ _ _ _ R')|].
  assert (forall t r, p_tokens p1 = t :: r -> tkind_of t = TWithin -> tidx t = 0) as W1 by (intros t r E _; exact (laid_first _ _ t r LA1 E)).
  assert (forall t r, p_tokens p2 = t :: r -> tkind_of t = TWithin -> tidx t = 0) as W2 by (intros t r E _; exact (laid_first _ _ t r LA2 E)).
  assert (more_rows (p_tokens p1) (p_tokens p')) as MR1 by (apply least_rows; [|exact ST1]; apply (alike_tokens _ _ _ _ A1 A'); auto; congruence).
  assert (more_rows (p_tokens p') (p_tokens p2)) as MR2 by (apply most_rows; [|exact ST2]; apply (alike_tokens _ _ _ _ A' A2); auto; congruence).
  split.
  - destruct A1 as [A1 _], A' as [A' _]. destruct (C17_layout_irrelevant _ _ KStoredDefinition _ _ A1 A' (more_rows_kinds _ _ MR1)) as (EV & _).
    rewrite (rd_tokens _ _ _ _ R1), (rd_tokens _ _ _ _ R') in MR1. eapply reading_more; eauto.
  - destruct A2 as [A2 _], A' as [A' _]. destruct (C17_layout_irrelevant _ _ KStoredDefinition _ _ A' A2 (more_rows_kinds _ _ MR2)) as (EV & _).
    rewrite (rd_tokens _ _ _ _ R'), (rd_tokens _ _ _ _ R2) in MR2. eapply reading_more; eauto.
Qed.
Print Assumptions C113_between.

(** ** The widest layout is left alone by the next run *)
Fixpoint least (r : rx) : nat :=
  match r with
  | Void => 2 | Eps | Star _ => 0 | Sy _ => 1
  | Cat a b => least a + least b
  | Alt a b => Nat.min (least a) (least b)
  end.
Lemma least_long r w : lang r w -> (least r <= length w)%nat.
Proof. induction 1; cbn [least length]; rewrite ?app_length; lia. Qed.

Lemma steps_far d r t : forall u, stepped d (u ++ t :: r) -> stepped d (t :: r).
Proof. induction u as [|x u IH]; intro S; [exact S|]. apply IH. destruct u; destruct S as [_ S]; exact S. Qed.
Lemma steps_near d u : forall r, stepped d (u ++ r) -> stepped d u.
Proof.
  induction u as [|x [|y u] IH]; intros r S; [exact Logic.I|exact Logic.I|]. destruct S as [E S]. split; [exact E|]. apply (IH r), S.
Qed.
Lemma steps_rise l : Forall (fun t => line (tstart t) <= line (tend t)) l -> stepped 1 l -> forall a r, l = a :: r -> forall b, In b r -> line (tstart a) < line (tend b).
Proof.
  induction l as [|x l IH]; intros F S a r E b I; [discriminate|]. injection E as <- <-. inversion F as [|? ? F1 F2]; subst.
  destruct l as [|y l]; [destruct I|]. destruct S as [E S]. inversion F2 as [|? ? F3 F4]; subst. destruct I as [<-|I]; [lia|].
  pose proof (IH F2 S y l eq_refl b I). lia.
Qed.

Lemma least_modification : (2 <=? least (pruned (production false KClassModification)))%nat = true.
Proof. vm_compute. reflexivity. Qed.
Lemma crowded_two k cs : fits (CTree k cs) -> crowded k cs = true -> (2 <= length cs)%nat.
Proof.
  intros F C. destruct k; try discriminate C; cbn [crowded] in C.
  - apply Nat.ltb_lt in C. lia.
  - apply Nat.ltb_lt in C. lia.
  - inversion F as [|? ? _ L _]; subst. apply least_long in L. rewrite map_length in L. pose proof least_modification as E. apply Nat.leb_le in E. lia.
Qed.
Lemma toks_count cs : Forall fits cs -> (length cs <= length (flat_map toks cs))%nat.
Proof.
  induction 1 as [|c cs F _ IH]; [cbn; lia|]. cbn [flat_map length]. rewrite app_length. apply toks_some in F. destruct (toks c); [contradiction|cbn [length]; lia].
Qed.
Lemma stepped_settled tree cs : tree = CTree KStoredDefinition cs /\ (cs = [] \/ fits tree) ->
  Forall (fun t => line (tstart t) <= line (tend t)) (toks tree) -> stepped 1 (toks tree) -> settled tree.
Proof.
  intros (E & FT) H ST k ds I C _. destruct FT as [->|FT].
  { subst tree. inversion I as [|? ? ? d J]; subst; [discriminate|destruct J]. }
  pose proof (inside_fits _ _ FT I) as F. pose proof (crowded_two k ds F C) as TW. destruct (FmtWrap.inside_toks _ _ I) as (u & v & ET).
  assert (2 <= length (toks (CTree k ds)))%nat as T2.
  { cbn [toks]. inversion F as [|? ? _ _ FS]; subst. pose proof (toks_count ds FS). lia. }
  rewrite ET in ST, H. apply Forall_app in H as [_ H]. apply Forall_app in H as [H _].
  destruct (toks (CTree k ds)) as [|a [|b r]] eqn:TK; cbn [length] in T2; try lia. cbn [app] in ST. apply steps_far in ST. apply (steps_near 1 (a :: b :: r) v) in ST.
  unfold spans, first_line, last_line. rewrite TK. destruct (rev (a :: b :: r)) as [|z q] eqn:RV; [apply (f_equal (@length _)) in RV; rewrite rev_length in RV; discriminate|].
  apply N.ltb_lt. apply (steps_rise _ H ST a (b :: r) eq_refl). cbn [rev] in RV. rewrite <- app_assoc in RV. cbn [app] in RV.
  assert (In z (rev r ++ [b])) as IZ.
  { destruct (rev r) as [|y w]; cbn [app] in RV; injection RV as <- _; left; reflexivity. }
  apply in_app_or in IZ as [IZ|[<-|[]]]; [right; apply in_rev, IZ|left; reflexivity].
Qed.

Theorem C113_settled : forall eol s p, accepted s p -> no_lone_cr s -> is_eol eol ->
  exists o, rewrites eol (one_each (p_tokens p)) o /\ rewrites eol o o.
Proof.
  intros eol s p A NC EO. destruct space_some as (S10 & _ & _). destruct (rejoined 10 s p S10 A) as (p2 & A2 & C2 & M2 & ST2 & LA2). change (newlines [10]) with 1 in ST2.
  assert (no_lone_cr (one_each (p_tokens p))) as NC2.
  { destruct (reading_of _ _ A) as (items & tree & R). assert (forall t, In t (p_tokens p) -> no_lone_cr (ttext t)) as TL.
    { intros t I. rewrite (rd_tokens _ _ _ _ R) in I. apply filter_In in I as [I _]. destruct (fwd_in _ _ _ (laid_whole _ _ (rd_laid _ _ _ _ R)) _ I) as (u & v & -> & _).
      eapply text_lone; [exact NC|]. eapply lexeme_end. pose proof (PropsFormat.lexes_lexemes _ _ (rd_lexes _ _ _ _ R)) as LM. rewrite Forall_forall in LM. apply LM, I. }
    clear - TL. unfold one_each. induction (p_tokens p) as [|t l IH]; [apply lone_none; constructor|]. cbn [joined flat_map]. apply lone_app; [apply lone_app; [apply TL; left; reflexivity|apply no_cr; reflexivity]|].
    apply IH. intros u I. apply TL. right. exact I. }
  assert (comments_end_lines p2) as CE by (intros c t I; rewrite C2 in I; destruct I).
  destruct (C91_exactly eol _ p2 A2 NC2 EO CE) as (tree & o1 & p3 & B & P1 & A3 & K).
  destruct (reading_of _ _ A2) as (items2 & tree2 & R2). assert (tree2 = tree) as -> by (pose proof (rd_tree _ _ _ _ R2); congruence).
  assert (settled tree) as SE.
  { destruct (rd_fits _ _ _ _ R2) as (cs & FT). apply (stepped_settled tree cs FT); rewrite (rd_toks _ _ _ _ R2); [|exact ST2].
    pose proof (reading_heights _ _ _ _ R2) as H. rewrite Forall_forall in *. intros t I. rewrite (H t I). lia. }
  apply K in SE. exists (o1 ++ eol). split; [exists p2, o1; auto|exists p3, o1; auto].
Qed.
Print Assumptions C113_settled.

(** ** A concrete case: the same code on one line, as written, and with a line for every token *)
Definition middle : text := lines ["model M"; "  Real x annotation(p), y"; "   = f(a, b) // sum"; "   + c;"; "end M;"]%string.
Definition widest : text := lines
  ["model M"; ""; "  Real"; "    x"; "      annotation ("; "        p),"; "    y = f("; "      a,"; "      b)"; "      + c;"; ""; "end M;"]%string.
Example C113_applies : exists p, accepted middle p /\ no_lone_cr middle /\ (forall t r, p_tokens p = t :: r -> tkind_of t = TWithin -> tidx t = 0) /\
  one_line (p_tokens p) = str "model M Real x annotation ( p ) , y = f ( a , b ) + c ; end M ; " /\
  formats (one_line (p_tokens p)) (lines ["model M"; ""; "  Real x"; "    annotation (p), y = f(a, b) + c;"; ""; "end M;"]%string) /\
  formats middle (lines ["model M"; ""; "  Real"; "    x"; "      annotation (p),"; "    y = f(a, b) // sum"; "      + c;"; ""; "end M;"]%string) /\
  formats (one_each (p_tokens p)) widest /\ formats widest widest.
Proof.
  eexists. split; [split; [vm_compute; reflexivity|reflexivity]|]. split; [apply no_cr; reflexivity|].
  split; [intros t r E K; cbn [p_tokens] in E; injection E as <- _; discriminate|]. split; [vm_compute; reflexivity|].
  assert (forall s o, match parse s KStoredDefinition with Ok p => p_errors p = [] /\ pretty_print lf p = Ok o | _ => False end -> formats s o) as F.
  { intros s o H. destruct (parse s KStoredDefinition) as [p|x|] eqn:P; try contradiction. exists p. destruct H. split; [split|]; assumption. }
  split; [apply F; vm_compute; auto|]. split; [apply F; vm_compute; auto|]. split; apply F; vm_compute; auto.
Qed.
