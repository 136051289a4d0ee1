(** Property C121: the text of a part of a file, formatted on its own. *)
From Verif Require Import ProofBase Tokens Syntax Lexer SpecLex LexInv LexMain LexFacts ParserCore Grammar
  Tree Printer Formatter Lib ParserSem ParserFuel SpecGrammar Regex ParserGrammar ParserTree ParserFacts Recognise PropsParser
  SpecLanguage ParserComplete PropsLanguage
  FmtAbs FmtPlan FmtShape FmtTables FmtSound SpecLayout FmtExec FmtTop FmtFacts FmtRelex FmtNeat SpecNodes FmtTree FmtLists FmtOps
  FmtWrap SpecGaps SpecReference FmtNode FmtReference FmtSame PropsFormat PropsReference FmtBreaks FmtAgree FmtPrinted FmtStable FmtMoved
  FmtConcat SpecLevels FmtLevels PropsTree PropsLevels SpecLocal FmtLocal PropsLocal SpecEntry FmtEntry PropsEntry ParserStart PropsStart SpecAlone PropsAlone
  LexSplice FmtSplice PropsCut.

Lemma follow_end k w : lexeme k w -> follow_ok k w [].
Proof.
  intros _. assert (forall P, ~ SpecLex.starts P []) as N by (intros P (c & r & E & _); discriminate).
  destruct k; cbn [follow_ok]; auto.
Qed.
Lemma walks_cut a i r b : walks a i (r ++ b) -> r <> [] -> walks a i r.
Proof.
  intros W NR. remember (r ++ b) as R eqn:E. induction W as [R|c x its R S W IH|k w x its R X F W IH]; subst; constructor; auto.
  apply (follow_cut k w (x ++ r) b); [destruct x; [exact NR|discriminate]|]. rewrite <- app_assoc. exact F.
Qed.
Lemma last_cases {A} (a : A) l v b : a :: l = v ++ [b] -> (v = [] /\ l = [] /\ a = b) \/ exists m, v = a :: m /\ l = m ++ [b].
Proof. destruct v as [|c v]; cbn [app]; intro E; injection E as -> E; [left; auto|right; eauto]. Qed.

(** The items of a part of a text, read on their own. *)
Lemma part_set s IA a m v b IB A x B : laid space s (IA ++ (a :: m) ++ IB) -> lexes s (map item_of (IA ++ (a :: m) ++ IB)) ->
  a :: m = v ++ [b] -> s = A ++ x ++ B -> pos (tstart a) = bytes_of A -> pos (tend b) = bytes_of (A ++ x) ->
  set_out A (length IA) (a :: m) x /\ lexes x (map item_of (a :: m)) /\ coords_after A (tstart a).
Proof.
  intros LA LX EV ES PA PB. destruct (last_cases _ _ _ _ EV) as [(_ & -> & <-)|(mid & _ & ->)].
  - cbn [app] in LA, LX. apply laid_set in LA.
    destruct (cut_before _ _ _ _ _ _ LA LX) as (A' & rb & E1 & W1 & X1 & L1 & S1 & S2 & P1 & P2 & C1 & C2 & I1). cbn [app] in *.
    rewrite ES in E1. apply prefix_eq in E1 as [<- E1]; [|congruence]. apply prefix_eq in E1 as [-> _].
    2:{ rewrite PB in P2. rewrite !bytes_app in P2. lia. }
    split; [|split; [|exact C1]].
    + replace (ttext a) with ([] ++ ttext a ++ []) by (cbn [app]; apply app_nil_r). constructor; cbn [app]; rewrite ?app_nil_r; auto. constructor. constructor.
    + cbn [map]. change (item_of a) with (tkind_of a, ttext a). rewrite <- (app_nil_r (ttext a)) at 1. constructor; [exact X1|apply follow_end, X1|constructor].
  - destruct (cut_two _ _ _ _ _ _ LA LX) as (A' & y & B' & CT). pose proof (ct_text _ _ _ _ _ _ _ _ _ CT) as E1.
    pose proof (ct_first _ _ _ _ _ _ _ _ _ CT) as [C1 P1]. pose proof (ct_last _ _ _ _ _ _ _ _ _ CT) as [_ P2].
    rewrite ES in E1. apply prefix_eq in E1 as [<- E1]; [|congruence]. apply prefix_eq in E1 as [-> _].
    2:{ rewrite PB in P2. rewrite !bytes_app in *. lia. }
    split; [apply (ct_set_part _ _ _ _ _ _ _ _ _ CT)|]. split; [|exact C1].
    pose proof (ct_end _ _ _ _ _ _ _ _ _ CT) as X. pose proof (ct_part _ _ _ _ _ _ _ _ _ CT) as W. apply walks_cut in W.
    2:{ apply lexeme_starts in X as (c & r & E & _). rewrite E. discriminate. }
    replace (a :: mid ++ [b]) with ((a :: mid) ++ [b]) by reflexivity. rewrite map_app. apply (walks_lexes _ _ _ W).
    cbn [map]. change (item_of b) with (tkind_of b, ttext b). rewrite <- (app_nil_r (ttext b)) at 1. constructor; [exact X|apply follow_end, X|constructor].
Qed.
Lemma forall2_filter {A B} (P : A -> B -> Prop) f g l l' : (forall x y, P x y -> f x = g y) -> Forall2 P l l' -> Forall2 P (filter f l) (filter g l').
Proof. intros H. induction 1 as [|x y l l' E _ IH]; [constructor|]. cbn [filter]. rewrite (H _ _ E). destruct (g y); [constructor|]; auto. Qed.
Lemma forall2_ends {A B} (P : A -> B -> Prop) l l' v b : Forall2 P l l' -> l = v ++ [b] -> exists v' b', l' = v' ++ [b'] /\ P b b'.
Proof.
  intros F ->. apply Forall2_app_inv_l in F as (v' & r & _ & F & ->). inversion F as [|? b' ? ? PB FN]; subst. inversion FN; subst. eauto.
Qed.

Lemma forall2_in_r {A B} (P : A -> B -> Prop) l l' y : Forall2 P l l' -> In y l' -> exists x, In x l /\ P x y.
Proof. induction 1 as [|x z l l' E _ IH]; intros I; [destruct I|]. destruct I as [<-|I]; [exists x; split; [left; reflexivity|exact E]|]. destruct (IH I) as (q & Q & E2). exists q. split; [right; exact Q|exact E2]. Qed.

(** The same text and kind as well. *)
Definition copied (a a' t t' : token) : Prop := item_of t' = item_of t /\ likewise a a' t t'.

(** ** C121 *)
Theorem C121_excised : forall eol s p, accepted s p -> exists tree l, laid_tree eol s p tree l /\
  forall k cs a u b v A x B,
  inside (CTree k cs) tree -> self_contained k = true -> ~ In k edged -> k <> KModification ->
  toks (CTree k cs) = a :: u -> toks (CTree k cs) = v ++ [b] ->
  s = A ++ x ++ B -> pos (tstart a) = bytes_of A -> pos (tend b) = bytes_of (A ++ x) ->
  exists p' n e r a' r',
    parse x k = Ok p' /\ p_errors p' = [] /\ Forall2 (copied a a') (toks (CTree k cs)) (p_tokens p') /\
    pretty_print eol p' = Ok (render eol (mkE WNone (e_rule e) a' :: r')) /\ item_of a' = item_of a /\
    excerpt a b l = e :: r /\ e_tok e = a /\ (forall y m, e_white e = WLine y m -> m = n) /\
    Forall2 (fun y z => e_rule z = e_rule y /\ copied a a' (e_tok y) (e_tok z) /\ same_white n 0%nat (e_white y) (e_white z)) r r'.
Proof.
  intros eol s p ACC. destruct (reading_of s p ACC) as (items & tree & R). destruct (C118_cut eol s p ACC) as (tree' & l & LT & K). exists tree', l. split; [exact LT|].
  assert (tree' = tree) as -> by (destruct LT as [LT _]; rewrite (rd_tree _ _ _ _ R) in LT; congruence).
  intros k cs a u b v A x B I SC NI NM TA TB ES PA PB.
  destruct (reading_excerpt _ _ _ _ _ _ _ _ _ _ R I SC TA TB) as (n0 & IA & m & IB & x0 & xs0 & w0 & EI & _ & _ & FB & TI & BT & _).
  pose proof (rd_laid _ _ _ _ R) as LA. pose proof (rd_lexes _ _ _ _ R) as LX. pose proof (laid_numbered _ _ LA) as NU. rewrite EI in LA, LX.
  assert (exists w, a :: m = w ++ [b]) as [w EW].
  { destruct (exists_last (l := a :: m)) as (w & b0 & E); [discriminate|]. exists w. rewrite E. do 2 f_equal.
    assert (tidx a = N.of_nat (length IA)) as T1 by (rewrite (NU IA a (m ++ IB)); [lia|exact EI]).
    assert (tidx b0 = N.of_nat (length IA + length w)) as T2 by (rewrite (NU (IA ++ w) b0 IB); [rewrite app_length; lia|rewrite EI, E, <- !app_assoc; reflexivity]).
    assert (length w = length m) as LW by (apply (f_equal (@length _)) in E; rewrite app_length in E; cbn [length] in E; lia).
    apply (numbered_inj 0 items); auto.
    - rewrite EI, E. apply in_or_app. right. apply in_or_app. left. apply in_or_app. right. left. reflexivity.
    - assert (In b (toks (CTree k cs))) as J by (rewrite TB; apply in_or_app; right; left; reflexivity). rewrite <- FB in J. apply filter_In in J as [J _].
      rewrite EI. apply in_or_app. right. apply in_or_app. left. exact J.
    - lia. }
  destruct (part_set s IA a m w b IB A x B LA LX EW ES PA PB) as (SO & LP & [CA _]).
  assert (comments_ascii (map item_of (a :: m))) as AS.
  { pose proof (rd_ascii _ _ _ _ R) as H1. rewrite EI, !map_app in H1. rewrite ascii_in in *. intros i J. apply H1. apply in_or_app. right. apply in_or_app. left. exact J. }
  destruct (lex_complete _ _ LP AS) as (its & LE & ME & LI).
  pose proof (set_out_moved _ _ _ _ SO _ _ _ (laid_set _ _ LI) (eq_sym ME) (items_lexemes _ _ LP)) as MV.
  assert (exists a' m', its = a' :: m') as (a' & m' & EA') by (destruct its as [|a' m']; [discriminate|eauto]).
  assert (Forall2 (copied a a') (a :: m) its) as CP.
  { rewrite EA' in MV. inversion MV as [|? ? ? ? M1 M2]; subst. destruct M1 as (_ & _ & M3 & _ & M4 & _).
    eapply forall2_imp; [|exact MV]. cbn beta. intros t t' (U1 & U2 & U3 & U4 & U5 & _). split; [unfold item_of; congruence|]. unfold likewise.
    split; [exact U2|]. cbn [newlines] in *. lia. }
  assert (forall t t', copied a a' t t' -> plain t = plain t') as Q1 by (intros t t' (_ & E & _); unfold plain; rewrite E; reflexivity).
  assert (forall t t', copied a a' t t' -> commentary t = commentary t') as Q2 by (intros t t' (_ & E & _); unfold commentary; rewrite E; reflexivity).
  pose proof (forall2_filter _ _ _ _ _ Q1 CP) as F1. pose proof (forall2_filter _ _ _ _ _ Q2 CP) as F2. rewrite FB in F1.
  destruct (forall2_ends _ _ _ _ _ F1 TB) as (v' & b' & EB' & CB). destruct (forall2_ends _ _ _ _ _ CP EW) as (w' & b2 & EW' & CB2).
  pose proof (laid_numbered _ _ LI) as NU'.
  assert (plain a = true) as PLA.
  { assert (In a (toks (CTree k cs))) as J by (rewrite TA; left; reflexivity). rewrite <- FB in J. apply filter_In in J. apply J. }
  assert (exists u', filter plain its = a' :: u') as (u' & EU').
  { rewrite EA'. cbn [filter]. rewrite EA' in CP. inversion CP as [|? ? ? ? M1 M2]; subst. rewrite <- (Q1 _ _ M1), PLA. eauto. }
  assert (b' = b2) as <-.
  { apply (numbered_inj 0 its); auto.
    - assert (In b' (filter plain its)) as J by (rewrite EB'; apply in_or_app; right; left; reflexivity). apply filter_In in J. apply J.
    - rewrite EW'. apply in_or_app. right. left. reflexivity.
    - destruct CB as (_ & _ & J1 & _), CB2 as (_ & _ & J2 & _). lia. }
  assert (forall t, In t its -> ranged a' b' t = true) as RG.
  { intros t T. unfold ranged. apply andb_true_intro. rewrite !N.leb_le.
    rewrite (NU' [] a' m' EA'). rewrite (NU' w' b' [] EW'). pose proof (numbered_in _ _ _ NU' T) as J. rewrite EW', app_length in J. cbn [length] in J. cbn [length]. lia. }
  assert (between a' b' (filter commentary its) = filter commentary its) as BC.
  { unfold between. apply filter_all. intros t T. apply filter_In in T. apply RG, T. }
  assert (between a b (p_comments p) = filter commentary (a :: m)) as BP.
  { rewrite (rd_comments _ _ _ _ R), <- BT. unfold between. clear. induction items as [|q l IH]; [reflexivity|]. cbn [filter].
    destruct (commentary q) eqn:P, (ranged a b q) eqn:Q; cbn [filter]; rewrite ?P, ?Q, IH; reflexivity. }
  destruct (K k cs a u b v x (filter plain its) (filter commentary its) a' u' b' v' I SC NI NM TA TB LE EU' EB') as (p' & n & e & r & r' & H1 & H2 & H3 & H4 & H5 & H6 & H7 & H8 & H9 & H10).
  { eapply forall2_imp; [|exact F1]. intros t t' T. apply T. }
  { rewrite BC, BP. eapply forall2_imp; [|exact F2]. intros t t' T. apply T. }
  exists p', n, e, r, a', r'. split; [exact H1|]. split; [exact H2|]. rewrite H3. split; [exact F1|]. split; [exact H4|].
  split; [rewrite EA' in CP; inversion CP as [|? ? ? ? [M1 _] _]; subst; exact M1|].
  split; [exact H5|]. split; [exact H6|]. split; [exact H7|].
  assert (forall t t', In t items -> In t' its -> likewise a a' t t' -> copied a a' t t') as UP.
  { intros t t' T T' LK. split; [|exact LK]. destruct (forall2_in_r _ _ _ _ CP T') as (t0 & T0 & C1 & C2).
    assert (t0 = t) as <-; [|exact C1]. apply (numbered_inj 0 items); auto.
    - rewrite EI. apply in_or_app. right. apply in_or_app. left. exact T0.
    - destruct LK as (_ & J1 & _), C2 as (_ & J2 & _). lia. }
  assert (forall y, In y r -> In (e_tok y) items) as I1.
  { intros y Y. apply H9 in Y. rewrite (rd_tokens _ _ _ _ R), (rd_comments _ _ _ _ R) in Y. apply in_app_or in Y as [Y|Y]; apply filter_In in Y; apply Y. }
  assert (forall y, In y r' -> In (e_tok y) its) as I2.
  { intros y Y. apply H10 in Y. apply in_app_or in Y as [Y|Y]; apply filter_In in Y; apply Y. }
  clear - H8 UP I1 I2. induction H8 as [|y z r r' (E1 & E2 & E3) _ IH]; [constructor|]. constructor.
  - split; [exact E1|]. split; [|exact E3]. apply UP; [apply I1; left; reflexivity|apply I2; left; reflexivity|exact E2].
  - apply IH; intros q Q; [apply I1|apply I2]; right; exact Q.
Qed.
Print Assumptions C121_excised.

(** The if-equation of the file of C118, as it is written there. *)
Definition C121_part : text := lines ["if x>1 then // c"; "x=f(a,"; "b); "; ""; "// d"; "z=3; end if"]%string.
Example C121_formats :
  shown KEquation C121_part (lines
    ["if x > 1 then // c"; "  x = f("; "    a,"; "    b);"; ""; "  // d"; "  z = 3;"; "end if"]%string).
Proof. show. Qed.
Example C121_meets : exists p tree, accepted C118_file p /\ build_tree (p_tokens p) (p_events p) = Ok tree /\
  exists cs a u b v A B, inside (CTree KEquation cs) tree /\ toks (CTree KEquation cs) = a :: u /\ toks (CTree KEquation cs) = v ++ [b] /\
    C118_file = A ++ C121_part ++ B /\ pos (tstart a) = bytes_of A /\ pos (tend b) = bytes_of (A ++ C121_part) /\
    length u = 19%nat /\ length A = 40%nat.
Proof.
  eexists. eexists. split; [split; vm_compute; reflexivity|]. split; [vm_compute; reflexivity|]. cbn [p_tokens p_comments].
  do 5 eexists. exists (lines ["package P"; "model M Real x; equation"; "y=2; "]%string), (lines [";"; "end M; end P;"]%string).
  split; [apply nodes_inside; vm_compute; right; left; reflexivity|].
  split; [vm_compute; reflexivity|].
  split; [match goal with |- ?l = _ => let l' := eval vm_compute in (removelast l) in let z := eval vm_compute in (last l (mkTok 0 [] TEOF (mkPos 0 0 0) (mkPos 0 0 0))) in instantiate (1 := z); instantiate (1 := l') end; vm_compute; reflexivity|].
  repeat (split; [vm_compute; reflexivity|]). vm_compute; reflexivity.
Qed.
