(** Lines of printed texts, and comments that are printed again. *)
From Coq Require Import Sorted.
From Verif Require Import ProofBase Tokens Syntax Lexer SpecLex LexInv LexMain LexFacts ParserCore Grammar
  Tree Printer Formatter Lib ParserSem ParserFuel SpecGrammar Regex ParserGrammar ParserTree ParserFacts Recognise PropsParser
  FmtAbs FmtPlan FmtShape FmtTables FmtSound SpecLayout FmtExec FmtTop FmtFacts FmtRelex FmtNeat SpecNodes FmtTree FmtLists FmtOps
  FmtWrap SpecGaps SpecReference FmtNode FmtReference FmtSame PropsFormat PropsReference FmtBreaks FmtAgree.

(** ** Lines of printed items *)
Definition breaks (w : white) : N := match w with WNone | WSpace => 0 | WLine b _ => if b then 2 else 1 end.
Definition height (t : token) : N := newlines (ttext t).
Fixpoint printed (ln : N) (l : layout) (items : list token) : Prop :=
  match l, items with
  | [], [] => True
  | e :: l', t :: items' =>
      item_of t = item_of (e_tok e) /\ line (tstart t) = ln + breaks (e_white e) /\
      line (tend t) = line (tstart t) + height t /\ printed (line (tend t)) l' items'
  | _, _ => False
  end.
Fixpoint downward (ln : N) (items : list token) : Prop :=
  match items with
  | [] => True
  | t :: r => ln <= line (tstart t) /\ line (tend t) = line (tstart t) + height t /\ downward (line (tend t)) r
  end.
Fixpoint end_line (ln : N) (items : list token) : N := match items with [] => ln | t :: r => end_line (line (tend t)) r end.

Lemma printed_downward l : forall ln items, printed ln l items -> downward ln items.
Proof.
  induction l as [|e l IH]; intros ln [|t items] P; cbn [printed downward] in *; auto; try contradiction.
  destruct P as (P1 & P2 & P3 & P4). repeat split; auto. lia.
Qed.
Lemma printed_app a : forall ln b items, printed ln (a ++ b) items ->
  exists i1 i2, items = i1 ++ i2 /\ printed ln a i1 /\ printed (end_line ln i1) b i2.
Proof.
  induction a as [|e a IH]; intros ln b items P; [exists [], items; split; [reflexivity|split; [exact I|exact P]]|].
  destruct items as [|t items]; cbn [app printed] in P; [contradiction|]. destruct P as (P1 & P2 & P3 & P4).
  destruct (IH _ _ _ P4) as (i1 & i2 & -> & Q1 & Q2). exists (t :: i1), i2. cbn [app printed end_line]. repeat split; auto.
Qed.
Lemma downward_app a : forall ln b, downward ln (a ++ b) -> downward ln a /\ downward (end_line ln a) b.
Proof.
  induction a as [|t a IH]; intros ln b O; [split; [exact I|exact O]|]. cbn [app downward end_line] in *. destruct O as (O1 & O2 & O3).
  destruct (IH _ _ O3). auto.
Qed.
Lemma end_line_app a : forall ln b, end_line ln (a ++ b) = end_line (end_line ln a) b.
Proof. induction a as [|t a IH]; intros ln b; [reflexivity|]. apply IH. Qed.
Lemma downward_in a : forall ln c, downward ln a -> In c a -> ln <= line (tstart c).
Proof.
  induction a as [|t a IH]; intros ln c O C; [contradiction|]. cbn [downward] in O. destruct O as (O1 & O2 & O3).
  destruct C as [<-|C]; [exact O1|]. apply (IH _ _ O3) in C. lia.
Qed.

(** Comments behind a token: all on its line, and only the last one may have several lines. *)
Fixpoint heap (ln : N) (B : list token) : Prop :=
  match B with
  | [] => True
  | c :: r => line (tstart c) = ln /\ line (tend c) = line (tstart c) + height c /\ (r <> [] -> height c = 0) /\ heap ln r
  end.
Fixpoint low (B : list token) : Prop := match B with [] => True | c :: r => (r <> [] -> height c = 0) /\ low r end.
Fixpoint last_height (B : list token) : N := match B with [] => 0 | [c] => height c | _ :: r => last_height r end.
Lemma heap_end B : forall ln, heap ln B -> end_line ln B = ln + last_height B.
Proof.
  induction B as [|c B IH]; intros ln Hp; cbn [end_line last_height heap] in *; [lia|]. destruct Hp as (H1 & H2 & H3 & H4).
  destruct B as [|d B]; [cbn; lia|]. specialize (H3 ltac:(discriminate)). rewrite H2, H3, H1, N.add_0_r. apply IH. exact H4.
Qed.
Lemma heap_low ln B : heap ln B -> low B.
Proof. induction B as [|c B IH]; cbn [heap low]; [auto|]. intros (_ & _ & H3 & H4). auto. Qed.
Lemma heap_filter ln B : heap ln B -> filter (fun c => line (tstart c) =? ln) B = B /\ filter (fun c => negb (line (tstart c) =? ln)) B = [].
Proof.
  induction B as [|c B IH]; cbn [heap filter]; [auto|]. intros (H1 & _ & _ & H4). rewrite H1, N.eqb_refl. cbn [negb]. destruct (IH H4) as [-> ->]. auto.
Qed.
Lemma late_filter ln R : (forall c, In c R -> ln < line (tstart c)) ->
  filter (fun c => line (tstart c) =? ln) R = [] /\ filter (fun c => negb (line (tstart c) =? ln)) R = R.
Proof.
  induction R as [|c R IH]; intro L; cbn [filter]; [auto|]. destruct (N.eqb_spec (line (tstart c)) ln) as [E|E].
  - specialize (L c (or_introl eq_refl)). lia.
  - cbn [negb]. destruct IH as [-> ->]; [intros; apply L; right; assumption|]. auto.
Qed.
Lemma parts cs : forall ln, downward ln cs -> exists B R, cs = B ++ R /\ heap ln B /\ (forall c, In c R -> ln < line (tstart c)).
Proof.
  induction cs as [|c cs IH]; intros ln O.
  - exists [], []. repeat split. intros c [].
  - cbn [downward] in O. destruct O as (O1 & O2 & O3). destruct (N.eq_dec (line (tstart c)) ln) as [E|E].
    + destruct (N.eq_dec (height c) 0) as [Z|Z].
      * replace (line (tend c)) with ln in O3 by lia. destruct (IH ln O3) as (B & R & -> & HB & HR).
        exists (c :: B), R. cbn [heap app]. repeat split; auto.
      * exists [c], cs. split; [reflexivity|]. split; [cbn [heap]; split; [exact E|]; split; [exact O2|]; split; [intro K; contradiction|exact I]|].
        intros d D. apply (downward_in _ _ _ O3) in D. lia.
    + exists [], (c :: cs). split; [reflexivity|]. split; [exact I|]. intros d [<-|D]; [lia|]. apply (downward_in _ _ _ O3) in D. lia.
Qed.

(** A token with the comments in front of it, as they are printed: the next line starts behind the end of the comments
    that stand beside the previous token, if their last one has several lines. *)
Definition settled (ln : N) (cs : list token) (t : token) : Prop :=
  exists B R, cs = B ++ R /\ heap ln B /\ (forall c, In c R -> ln < line (tstart c)) /\
    (last_height B <> 0 -> ln + last_height B < line (tstart (hd t R))).


Lemma printed_space w B its : breaks w = 0 -> (forall (l : list token), l = l) -> forall ln, printed ln (map (mkE WSpace None) B) its -> low B ->
  map item_of its = map item_of B /\ heap ln its.
Proof.
  intros _ _. revert its. induction B as [|c B IH]; intros [|t its] ln P F; cbn [map printed low] in *; try contradiction; [split; auto; exact I|].
  destruct P as (P1 & P2 & P3 & P4). destruct F as [F1 F2]. cbn [e_tok e_white breaks] in *. rewrite P1.
  assert (height t = height c) as HT by (unfold height; unfold item_of in P1; injection P1 as _ ->; reflexivity).
  destruct B as [|d B].
  - destruct its; [|contradiction]. split; [reflexivity|]. cbn [heap]. repeat split; try lia. intro K; contradiction.
  - specialize (F1 ltac:(discriminate)). replace (line (tend t)) with ln in P4 by lia. destruct (IH its ln P4 F2) as [E HB].
    split; [rewrite E; reflexivity|]. cbn [heap]. repeat split; auto; lia.
Qed.
Lemma printed_behind first B : forall its ln, printed ln (behind first B) its -> low B -> map item_of its = map item_of B /\ heap ln its.
Proof.
  intros its ln P F. apply (printed_space WSpace B its eq_refl (fun l => eq_refl) ln); [|exact F].
  destruct B as [|c B]; [exact P|]. cbn [behind map printed] in *. destruct its as [|t its]; [contradiction|]. cbn [e_tok e_white] in *.
  destruct first; exact P.
Qed.
Lemma printed_rows n r t R : forall b ln ln' its, printed ln' (rows b n ln R r t) its ->
  exists R' t', its = R' ++ [t'] /\ map item_of R' = map item_of R /\ item_of t' = item_of t /\
    (forall c, In c (R' ++ [t']) -> ln' < line (tstart c)).
Proof.
  assert (forall b n, 1 <= breaks (WLine b n)) as BR by (intros [] ?; cbn; lia).
  induction R as [|c R IH]; intros b ln ln' its P; cbn [rows] in P.
  - destruct its as [|t' [|x its]]; cbn [printed] in P; try contradiction; [|destruct P as (_ & _ & _ & [])].
    destruct P as (P1 & P2 & P3 & P4). cbn [e_tok e_white] in *. exists [], t'. split; [reflexivity|]. split; [reflexivity|]. split; [exact P1|].
    intros c [<-|[]]. rewrite P2. match goal with |- context [WLine ?b ?n] => pose proof (BR b n) end. lia.
  - destruct its as [|c' its]; cbn [printed] in P; [contradiction|]. destruct P as (P1 & P2 & P3 & P4). cbn [e_tok e_white] in *.
    destruct (IH _ _ _ _ P4) as (R' & t' & -> & E1 & E2 & L). exists (c' :: R'), t'. split; [reflexivity|]. split; [cbn [map]; rewrite P1, E1; reflexivity|].
    split; [exact E2|]. assert (ln' < line (tstart c')) as L1.
    { rewrite P2. match goal with |- context [WLine ?b ?n] => pose proof (BR b n) end. lia. }
    intros d D. cbn [app] in D. destruct D as [<-|D]; [exact L1|]. apply L in D. lia.
Qed.

Lemma item_comment a b : item_of a = item_of b -> commentary a = commentary b.
Proof. unfold item_of, commentary. intro E. injection E as -> _. reflexivity. Qed.
Lemma items_comments a : forall b, map item_of a = map item_of b -> Forall (fun c => commentary c = true) b -> Forall (fun c => commentary c = true) a.
Proof.
  induction a as [|x a IH]; intros [|y b] E F; try discriminate; [constructor|]. cbn [map] in E. inversion F; subst.
  assert (item_of x = item_of y) as XY by congruence. apply (f_equal (@tl _)) in E. cbn [tl] in E. constructor; [rewrite (item_comment _ _ XY); assumption|eauto].
Qed.

(** The printed group of a token. *)
Lemma put_printed p ln cs x ln' its : downward ln cs -> Forall (fun c => commentary c = true) cs ->
  printed ln' (put p ln cs x) its ->
  exists cs' t', its = cs' ++ [t'] /\ Forall (fun c => commentary c = true) cs' /\ item_of t' = item_of (at_tok x) /\
    settled ln' cs' t' /\ line (tend t') = line (tstart t') + height t' /\
    (if is_below (at_pos x) then ln' < line (tstart t') /\ length cs' = length cs else ln' = line (tstart t') /\ cs' = []).
Proof.
  intros O C P. unfold put in P. assert (forall w, breaks w = 0 -> printed ln' [mkE w (Some (at_rule x)) (at_tok x)] its ->
    exists cs' t', its = cs' ++ [t'] /\ Forall (fun c => commentary c = true) cs' /\ item_of t' = item_of (at_tok x) /\
    settled ln' cs' t' /\ line (tend t') = line (tstart t') + height t' /\ ln' = line (tstart t') /\ cs' = []) as ONE.
  { intros w W Q. destruct its as [|t' [|y its]]; cbn [printed] in Q; try contradiction; [|destruct Q as (_ & _ & _ & [])].
    destruct Q as (Q1 & Q2 & Q3 & _). cbn [e_tok e_white] in *. exists [], t'. repeat split; auto; [|lia].
    exists [], []. split; [reflexivity|]. split; [exact I|]. split; [intros ? []|]. intro K. destruct (K eq_refl). }
  destruct (at_pos x) as [| | |b]; cbn [is_below].
  - eapply ONE; [|exact P]. destruct p as [[? a]|]; [destruct (tight a (at_rule x) (tkind_of (at_tok x)))|]; reflexivity.
  - eapply ONE; [|exact P]. reflexivity.
  - eapply ONE; [|exact P]. reflexivity.
  - destruct (parts cs ln O) as (B & R & -> & HB & HR). rewrite !filter_app in P.
    destruct (heap_filter _ _ HB) as [F1 F2]. destruct (late_filter _ _ HR) as [F3 F4]. rewrite F1, F2, F3, F4, app_nil_r in P. cbn [app] in P.
    pose proof (printed_downward _ _ _ P) as OI.
    apply printed_app in P as (i1 & i2 & -> & P1 & P2). apply printed_behind in P1 as [E1 H1]; [|eapply heap_low; eauto].
    pose proof (heap_end _ _ H1) as EE.
    apply printed_rows in P2 as (R' & t' & -> & E2 & E3 & L). apply Forall_app in C as [C1 C2].
    exists (i1 ++ R'), t'. rewrite <- app_assoc. split; [reflexivity|].
    split; [apply Forall_app; split; eapply items_comments; eauto|]. split; [exact E3|].
    assert (ln' <= end_line ln' i1) as LE by lia.
    split; [|split; [|split]].
    + exists i1, R'. split; [reflexivity|]. split; [exact H1|]. split.
      * intros c IC. pose proof (L c (in_or_app _ _ _ (or_introl IC))). lia.
      * intros _. rewrite <- EE. apply L. destruct R'; [left; reflexivity|left; reflexivity].
    + apply downward_app in OI as [_ OI]. apply downward_app in OI as [_ OI]. cbn [downward] in OI. tauto.
    + assert (In t' (R' ++ [t'])) as IT by (apply in_or_app; right; left; reflexivity). apply L in IT. lia.
    + rewrite !app_length. apply (f_equal (@length _)) in E1, E2. rewrite !map_length in E1, E2. lia.
Qed.

(** ** The second and the third layout *)
Definition alike (a b : entry) : Prop := e_white a = e_white b /\ e_rule a = e_rule b /\ item_of (e_tok a) = item_of (e_tok b).
Lemma alike_render eol a b : Forall2 alike a b -> render eol a = render eol b.
Proof.
  intro F. induction F as [|x y a b (E1 & _ & E2) _ IH]; [reflexivity|]. unfold render in *. cbn [flat_map]. rewrite IH, E1.
  unfold item_of in E2. injection E2 as _ ->. reflexivity.
Qed.

Lemma rows_same n r t1 t2 R1 : forall R2 b ln1 ln2 pr, item_of t2 = item_of t1 ->
  printed pr (rows b n ln1 R1 r t1) (R2 ++ [t2]) -> ln2 <= pr -> ln2 = pr \/ gap_between ln1 (line (tstart (hd t1 R1))) = true ->
  Forall2 alike (rows b n ln2 R2 r t2) (rows b n ln1 R1 r t1).
Proof.
  assert (forall ln2 pr f, ln2 <= pr -> ln2 = pr \/ f = true -> gap_between ln2 (pr + breaks (WLine f n)) = f) as GB.
  { intros ln2 pr f L D. unfold gap_between. cbn [breaks]. destruct f; [apply N.ltb_lt; lia|]. destruct D as [->|D]; [|discriminate]. apply N.ltb_ge. lia. }
  induction R1 as [|c1 R1 IH]; intros R2 b ln1 ln2 pr ET P L D; cbn [rows hd] in *.
  - destruct R2 as [|c2 R2]; cbn [app printed] in P; [|destruct P as (_ & _ & _ & P); destruct R2; contradiction].
    destruct P as (_ & P2 & _ & _). cbn [e_white] in P2. cbn [rows]. constructor; [|constructor]. split; [|split; [reflexivity|exact ET]].
    cbn [e_white]. f_equal. destruct b; auto. rewrite P2. apply GB; auto.
  - destruct R2 as [|c2 R2]; cbn [app printed] in P.
    { destruct P as (_ & _ & _ & P). destruct R1; contradiction. }
    destruct P as (P1 & P2 & P3 & P4). cbn [e_tok e_white] in *. cbn [rows]. constructor.
    + split; [|split; [reflexivity|exact P1]]. cbn [e_white]. f_equal. destruct b; auto; rewrite P2; apply GB; auto.
    + eapply IH; eauto. lia.
Qed.
Lemma behind_same first B2 B1 : map item_of B2 = map item_of B1 -> Forall2 alike (behind first B2) (behind first B1).
Proof.
  assert (forall B2 B1, map item_of B2 = map item_of B1 -> Forall2 alike (map (mkE WSpace None) B2) (map (mkE WSpace None) B1)) as K.
  { clear. induction B2 as [|c2 B2 IH]; intros [|c1 B1] E; try discriminate; cbn [map] in *; constructor.
    - split; [reflexivity|]. split; [reflexivity|]. cbn [e_tok]. congruence.
    - apply IH. apply (f_equal (@tl _)) in E. exact E. }
  intro E. destruct B2 as [|c2 B2], B1 as [|c1 B1]; try discriminate; cbn [behind map] in *; constructor.
  - split; [reflexivity|]. split; [reflexivity|]. cbn [e_tok]. congruence.
  - apply K. apply (f_equal (@tl _)) in E. exact E.
Qed.

Lemma put_same p ln1 cs1 x1 ln2 cs2 x2 : settled ln1 cs1 (at_tok x1) -> strip x2 = strip x1 ->
  printed ln2 (put p ln1 cs1 x1) (cs2 ++ [at_tok x2]) -> Forall2 alike (put p ln2 cs2 x2) (put p ln1 cs1 x1).
Proof.
  intros (B & R & -> & HB & HR & SP) ST P. unfold strip in ST. injection ST as E1 E2 E3. unfold put in *. rewrite E1, E2, E3.
  assert (forall w its t2 t1 r, printed ln2 [mkE w (Some r) t1] (its ++ [t2]) -> item_of t2 = item_of t1) as ONE.
  { intros w its t2 t1 r Q. destruct its as [|y its]; cbn [app printed] in Q; [tauto|]. destruct Q as (_ & _ & _ & Q). destruct its; contradiction. }
  destruct (at_pos x1) as [| | |b].
  - apply ONE in P. constructor; [|constructor]. split; [|split; [reflexivity|exact P]]. cbn [e_white].
    unfold item_of in P. injection P as -> _. reflexivity.
  - apply ONE in P. constructor; [|constructor]. split; [reflexivity|split; [reflexivity|exact P]].
  - apply ONE in P. constructor; [|constructor]. split; [reflexivity|split; [reflexivity|exact P]].
  - rewrite !filter_app in *. destruct (heap_filter _ _ HB) as [F1 F2]. destruct (late_filter _ _ HR) as [F3 F4].
    rewrite F1, F2, F3, F4, app_nil_r in *. cbn [app] in *.
    apply printed_app in P as (B2 & i2 & EI & P1 & P2). apply printed_behind in P1 as [EB H2]; [|eapply heap_low; eauto].
    assert (P3 := P2). apply printed_rows in P3 as (R2 & t2 & -> & ER & ET & L). rewrite app_assoc in EI. apply app_inj_tail in EI as [-> <-].
    pose proof (heap_end _ _ H2) as EE. rewrite EE in *.
    assert (forall c, In c R2 -> ln2 < line (tstart c)) as L2.
    { intros c IC. pose proof (L c (in_or_app _ _ _ (or_introl IC))). lia. }
    rewrite !filter_app. destruct (heap_filter _ _ H2) as [K1 K2]. destruct (late_filter _ _ L2) as [K3 K4].
    rewrite K1, K2, K3, K4, app_nil_r. cbn [app]. apply Forall2_app; [apply behind_same; exact EB|].
    eapply rows_same; [exact ET|exact P2|lia|].
    assert (last_height B2 = last_height B) as LH.
    { clear - EB. revert B EB. induction B2 as [|c2 B2 IH]; intros [|c B] E; try discriminate; [reflexivity|]. cbn [map] in E.
      assert (item_of c2 = item_of c) as EC by congruence. apply (f_equal (@tl _)) in E. cbn [tl] in E.
      destruct B2, B; try discriminate; [|apply (IH _ E)]. cbn [last_height]. unfold height. unfold item_of in EC. injection EC as _ ->. reflexivity. }
    rewrite LH. destruct (N.eq_dec (last_height B) 0) as [Z|Z]; [left; lia|right].
    specialize (SP Z). unfold gap_between. apply N.ltb_lt. lia.
Qed.

(** ** Groups *)
Lemma group_of items : forall x xs, filter plain items = map at_tok (x :: xs) ->
  exists cs r, items = cs ++ at_tok x :: r /\ Forall (fun c => commentary c = true) cs /\ commentary (at_tok x) = false /\ filter plain r = map at_tok xs.
Proof.
  induction items as [|t items IH]; intros x xs E; [discriminate|]. cbn [filter] in E. unfold plain in E at 1. change (is_comment_kind (tkind_of t)) with (commentary t) in E. destruct (commentary t) eqn:C; cbn [negb] in E.
  - destruct (IH x xs E) as (cs & r & -> & F & N & E'). exists (t :: cs), r. repeat split; auto.
  - cbn [map] in E. injection E as -> E. exists [], items. repeat split; auto.
Qed.
Lemma no_group items : filter plain items = [] -> Forall (fun c => commentary c = true) items.
Proof.
  induction items as [|t items IH]; intro E; [constructor|]. cbn [filter] in E. unfold plain in E at 1. change (is_comment_kind (tkind_of t)) with (commentary t) in E. destruct (commentary t) eqn:C; cbn [negb] in E; [|discriminate].
  constructor; auto.
Qed.
Lemma weave_group p ln items x xs cs r : items = cs ++ at_tok x :: r -> Forall (fun c => commentary c = true) cs -> commentary (at_tok x) = false ->
  weave p ln [] items (x :: xs) = put p ln cs x ++ weave (Some (at_rule x, tkind_of (at_tok x))) (line (tend (at_tok x))) [] r xs.
Proof. intros -> F N. rewrite (weave_comments p ln (x :: xs) (at_tok x) r cs F N []). reflexivity. Qed.
Lemma comments_plain cs : Forall (fun c => commentary c = true) cs -> filter plain cs = [].
Proof. induction 1 as [|c cs C _ IH]; [reflexivity|]. cbn [filter]. unfold plain at 1. change (is_comment_kind (tkind_of c)) with (commentary c). rewrite C. exact IH. Qed.

(** One step through all tokens of a text that has been printed. *)
Lemma printed_group p ln items x xs ln' items' cs r : downward ln items ->
  items = cs ++ at_tok x :: r -> Forall (fun c => commentary c = true) cs -> commentary (at_tok x) = false ->
  printed ln' (weave p ln [] items (x :: xs)) items' ->
  exists cs' t' r', items' = cs' ++ t' :: r' /\ Forall (fun c => commentary c = true) cs' /\ commentary t' = false /\ item_of t' = item_of (at_tok x) /\
    settled ln' cs' t' /\ line (tend t') = line (tstart t') + height t' /\
    (if is_below (at_pos x) then ln' < line (tstart t') /\ length cs' = length cs else ln' = line (tstart t') /\ cs' = []) /\
    printed ln' (put p ln cs x) (cs' ++ [t']) /\
    printed (line (tend t')) (weave (Some (at_rule x, tkind_of (at_tok x))) (line (tend (at_tok x))) [] r xs) r' /\
    downward (line (tend (at_tok x))) r.
Proof.
  intros O E F N P. rewrite (weave_group p ln items x xs cs r E F N) in P. rewrite E in O. apply downward_app in O as [O1 O2]. cbn [downward] in O2.
  apply printed_app in P as (i1 & i2 & -> & P1 & P2). assert (P1' := P1).
  apply put_printed in P1 as (cs' & t' & -> & C1 & C2 & C3 & C4 & C5); auto.
  exists cs', t', i2. rewrite end_line_app in P2. cbn [end_line] in P2. rewrite <- app_assoc. split; [reflexivity|].
  split; [exact C1|]. split; [rewrite (item_comment _ _ C2); exact N|]. split; [exact C2|]. split; [exact C3|]. split; [exact C4|]. split; [exact C5|].
  split; [exact P1'|]. split; [exact P2|]. tauto.
Qed.

Lemma group_unique cs : forall t r cs' t' r', cs ++ t :: r = cs' ++ t' :: r' ->
  Forall (fun c => commentary c = true) cs -> Forall (fun c => commentary c = true) cs' -> commentary t = false -> commentary t' = false ->
  cs = cs' /\ t = t' /\ r = r'.
Proof.
  induction cs as [|c cs IH]; intros t r [|c' cs'] t' r' E F F' N N'; cbn [app] in E; injection E as -> E.
  - auto.
  - inversion F'; subst. congruence.
  - inversion F; subst. congruence.
  - inversion F; inversion F'; subst. destruct (IH _ _ _ _ _ E) as (-> & -> & ->); auto.
Qed.

Theorem weave_stable xs0 : forall xs1 xs2 p0 p1 ln0 ln1 ln2 items0 items1 items2,
  downward ln0 items0 ->
  filter plain items0 = map at_tok xs0 -> filter plain items1 = map at_tok xs1 -> filter plain items2 = map at_tok xs2 ->
  length xs0 = length xs1 -> map strip xs2 = map strip xs1 ->
  printed ln1 (weave p0 ln0 [] items0 xs0) items1 -> printed ln2 (weave p1 ln1 [] items1 xs1) items2 ->
  Forall2 alike (weave p1 ln2 [] items2 xs2) (weave p1 ln1 [] items1 xs1).
Proof.
  induction xs0 as [|x0 xs0 IH]; intros [|x1 xs1] [|x2 xs2] p0 p1 ln0 ln1 ln2 items0 items1 items2 O E0 E1 E2 LE ST P1 P2; try discriminate.
  - rewrite (weave_rest p1 ln2 [] items2 (no_group _ E2)), (weave_rest p1 ln1 [] items1 (no_group _ E1)). constructor.
  - destruct (group_of _ _ _ E0) as (cs0 & r0 & I0 & C0 & N0 & R0).
    destruct (group_of _ _ _ E1) as (cs1 & r1 & I1 & C1 & N1 & R1).
    destruct (group_of _ _ _ E2) as (cs2 & r2 & I2 & C2 & N2 & R2).
    pose proof (printed_downward _ _ _ P1) as O1.
    destruct (printed_group _ _ _ _ _ _ _ _ _ O I0 C0 N0 P1) as (a1 & b1 & d1 & J1 & K1 & M1 & IT1 & S1 & _ & _ & _ & Q1 & OO).
    rewrite I1 in J1. destruct (group_unique _ _ _ _ _ _ J1 C1 K1 N1 M1) as (-> & <- & <-).
    destruct (printed_group _ _ _ _ _ _ _ _ _ O1 I1 C1 N1 P2) as (a2 & b2 & d2 & J2 & K2 & M2 & IT2 & S2 & _ & _ & PP & Q2 & _).
    rewrite I2 in J2. destruct (group_unique _ _ _ _ _ _ J2 C2 K2 N2 M2) as (-> & <- & <-).
    cbn [map] in ST. assert (strip x2 = strip x1) as SX by congruence. apply (f_equal (@tl _)) in ST. cbn [tl] in ST.
    rewrite (weave_group _ _ _ _ _ _ _ I1 C1 N1), (weave_group _ _ _ _ _ _ _ I2 C2 N2).
    apply Forall2_app; [apply put_same; auto|].
    assert (at_rule x2 = at_rule x1) as -> by (unfold strip in SX; congruence).
    assert (tkind_of (at_tok x2) = tkind_of (at_tok x1)) as -> by (unfold item_of in IT2; congruence).
    eapply IH; eauto.
Qed.

(** ** The lines of the printed tokens *)
Fixpoint lined_from (ln : N) (bs : list bool) (ts : list token) : Prop :=
  match bs, ts with
  | [], [] => True
  | b :: bs', t :: ts' => (if b : bool then ln < line (tstart t) else ln = line (tstart t)) /\ line (tstart t) <= line (tend t) /\ lined_from (line (tend t)) bs' ts'
  | _, _ => False
  end.
Lemma lined_from_lined bs : forall ln ts, lined_from ln bs ts -> lined bs ts.
Proof.
  induction bs as [|b bs IH]; intros ln [|t ts] L; cbn [lined_from lined] in *; auto. destruct L as (L1 & L2 & L3).
  split; [exact L2|]. split; [|eapply IH; eauto]. destruct bs as [|b' bs], ts as [|t' ts]; auto. cbn [lined_from] in L3. destruct L3 as (L3 & _). destruct b'; exact L3.
Qed.
Theorem weave_lined xs : forall p ln items ln' items', downward ln items -> filter plain items = map at_tok xs ->
  printed ln' (weave p ln [] items xs) items' ->
  lined_from ln' (map (fun x => is_below (at_pos x)) xs) (filter plain items') /\ map item_of (filter plain items') = map item_of (map at_tok xs).
Proof.
  induction xs as [|x xs IH]; intros p ln items ln' items' O E P.
  - rewrite (weave_rest p ln [] items (no_group _ E)) in P. destruct items'; [|contradiction]. split; [exact I|reflexivity].
  - destruct (group_of _ _ _ E) as (cs & r & I0 & C & N & R).
    destruct (printed_group _ _ _ _ _ _ _ _ _ O I0 C N P) as (cs' & t' & r' & -> & C' & N' & IT & S & HT & B & _ & Q & OO).
    rewrite filter_app, (comments_plain _ C'). cbn [app filter]. assert (plain t' = true) as -> by (unfold plain; apply negb_true_iff; exact N'). cbn [map lined_from].
    destruct (IH _ _ _ _ _ OO R Q) as [IH1 IH2]. rewrite IT, IH2. split; [|reflexivity]. split; [|split; [lia|exact IH1]].
    destruct (is_below (at_pos x)); tauto.
Qed.
