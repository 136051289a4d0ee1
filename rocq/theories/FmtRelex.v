(** Line comments end their line, and where white space of a formatted text comes from. *)
From Coq Require Import Sorted.
From Verif Require Import ProofBase Tokens Syntax Lexer SpecLex LexInv LexScan LexMain LexFacts
  ParserCore Tree Printer Formatter FmtAbs FmtPlan FmtTables FmtSound SpecLayout FmtExec FmtTop FmtFacts.

(** Every carriage return is part of a CR LF pair. *)
Definition no_lone_cr (s : text) : Prop :=
  forall pre post, s = pre ++ 13 :: post -> exists post', post = 10 :: post'.

(** Items of a text read from left to right, [c] is what was read before. *)
Inductive fwd : text -> list token -> text -> Prop :=
| fwd_nil c r : fwd c [] r
| fwd_gap c x items r : space x -> fwd (c ++ [x]) items r -> fwd c items (x :: r)
| fwd_item c t items r :
    line (tstart t) = 1 + newlines c -> fwd (c ++ ttext t) items r -> fwd c (t :: items) (ttext t ++ r).

Lemma laid_fwd s items : laid space s items -> forall items' r, fwd s items' r -> fwd [] (items ++ items') (s ++ r).
Proof.
  induction 1 as [|c x items L IH G|c items t L IH [A _] _ _ _ _]; intros items' r F.
  - exact F.
  - rewrite <- app_assoc. apply IH. cbn [app]. constructor; auto.
  - rewrite <- !app_assoc. apply IH. cbn [app]. constructor; auto.
Qed.

Lemma fwd_in c items r : fwd c items r -> forall b, In b items ->
  exists u v, r = u ++ ttext b ++ v /\ line (tstart b) = 1 + newlines (c ++ u).
Proof.
  induction 1 as [|c x items r S F IH|c t items r L F IH]; intros b I.
  - destruct I.
  - destruct (IH b I) as (u & v & -> & E). exists (x :: u), v. split; auto.
    rewrite E, <- app_assoc. reflexivity.
  - destruct I as [<-|I].
    + exists [], r. rewrite app_nil_r. auto.
    + destruct (IH b I) as (u & v & -> & E). exists (ttext t ++ u), v. rewrite <- app_assoc. split; auto.
      rewrite E, <- app_assoc. reflexivity.
Qed.

Lemma spaces_prefix sp : forall sp' (w w' : text),
  Forall space sp -> Forall space sp' ->
  (exists c b, w = c :: b /\ ~ space c) -> (exists c b, w' = c :: b /\ ~ space c) ->
  sp ++ w = sp' ++ w' -> sp = sp' /\ w = w'.
Proof.
  induction sp as [|x sp IH]; intros [|y sp'] w w' S S' (c & b & -> & N) (c' & b' & -> & N') E; auto;
    cbn [app] in E; inversion E; subst.
  - exfalso. apply N. apply Forall_inv in S'. exact S'.
  - exfalso. apply N'. apply Forall_inv in S. exact S.
  - destruct (IH sp' (c :: b) (c' :: b')) as [-> E2]; eauto using Forall_inv_tail.
Qed.

Lemma fwd_first c t items r : fwd c (t :: items) r ->
  exists sp r', r = sp ++ ttext t ++ r' /\ Forall space sp /\ line (tstart t) = 1 + newlines (c ++ sp) /\
    fwd (c ++ sp ++ ttext t) items r'.
Proof.
  remember (t :: items) as its eqn:E. induction 1 as [|c x items' r S F IH|c t' items' r L F IH]; [discriminate| |].
  - subst items'. destruct (IH eq_refl) as (sp & r' & -> & SP & LI & F').
    exists (x :: sp), r'. rewrite <- app_assoc in LI. rewrite <- app_assoc in F'. split; auto.
  - inversion E; subst. exists [], r. rewrite app_nil_r. cbn [app]. auto.
Qed.

Lemma lone_suffix a b : no_lone_cr (a ++ b) -> no_lone_cr b.
Proof. intros H pre post ->. apply (H (a ++ pre) post). rewrite <- app_assoc. reflexivity. Qed.

Lemma lines_apart items : forall c r,
  lexes r (map item_of items) -> fwd c items r -> no_lone_cr r ->
  forall i1 a i2, items = i1 ++ a :: i2 -> tkind_of a = TLineComment ->
    Forall (fun b => line (tstart a) < line (tstart b)) i2.
Proof.
  induction items as [|t items IH]; intros c r L F N i1 a i2 E K; [destruct i1; discriminate|].
  cbn [map] in L. apply lexes_inv in L. unfold item_of at 1 in L. destruct L as (sp & t' & ER & SP & LX & FO & L).
  apply fwd_first in F as (sp' & r' & ER' & SP' & LI & F).
  destruct (lexeme_starts _ _ LX) as (ch & tx & EX & NS).
  destruct (spaces_prefix sp sp' (ttext t ++ t') (ttext t ++ r')) as [<- E2]; auto; try congruence.
  { rewrite EX. cbn [app]. eauto. }
  { rewrite EX. cbn [app]. eauto. }
  apply app_inv_head in E2. subst t'.
  assert (no_lone_cr r') as N'.
  { rewrite ER in N. apply lone_suffix, lone_suffix in N. exact N. }
  destruct i1 as [|x i1]; cbn [app] in E; inversion E; subst.
  - rewrite K in FO. simpl follow_ok in FO. apply Forall_forall. intros b IB.
    destruct (fwd_in _ _ _ F b IB) as (u & v & ER & LB). rewrite LI, LB. rewrite !newlines_app.
    assert (lexeme (tkind_of b) (ttext b)) as LXB.
    { clear - L IB. revert r' L IB. induction i2 as [|y i2 IH]; intros r' L IB; [destruct IB|].
      cbn [map] in L. apply lexes_inv in L. unfold item_of at 1 in L. destruct L as (sp & t' & _ & _ & LX & _ & L).
      destruct IB as [<-|IB]; eauto. }
    destruct (lexeme_starts _ _ LXB) as (cb & tb & EB & NSB). rewrite EB in ER.
    assert (1 <= newlines u); [|lia].
    destruct FO as [->|(y & r2 & -> & [->| ->])].
    + destruct u; discriminate.
    + destruct u as [|z u]; cbn [app] in ER; inversion ER; subst.
      * exfalso. apply NSB. apply space_some.
      * cbn [newlines]. rewrite N.eqb_refl. lia.
    + destruct u as [|z u]; cbn [app] in ER; inversion ER; subst.
      * exfalso. apply NSB. apply space_some.
      * destruct (N' [] _ eq_refl) as [post' EP]. destruct u as [|z u]; cbn [app] in EP; inversion EP; subst.
        -- exfalso. apply NSB. apply space_some.
        -- cbn [newlines]. rewrite N.eqb_refl. lia.
  - eapply IH; eauto.
Qed.

Lemma drops_order {X} (P : X -> Prop) items l : drops P items l -> forall l1 a e l2, l = l1 ++ a :: e :: l2 ->
  exists i1 i2, items = i1 ++ a :: i2 /\ In e i2.
Proof.
  induction 1 as [|x l l' D IH|x l l' PX D IH]; intros l1 a e l2 E.
  - destruct l1; discriminate.
  - destruct l1 as [|y l1]; cbn [app] in E; inversion E; subst.
    + exists [], l. split; auto. eapply drops_in; eauto. left. reflexivity.
    + destruct (IH _ _ _ _ eq_refl) as (i1 & i2 & -> & I). exists (y :: i1), i2. auto.
  - destruct (IH _ _ _ _ E) as (i1 & i2 & -> & I). exists (x :: i1), i2. auto.
Qed.

(** ** Places of a formatted text *)
Definition in_item (eol : text) (l : layout) (u : text) : Prop :=
  exists l1 e l2 x y, l = l1 ++ e :: l2 /\ ttext (e_tok e) = x ++ y /\ y <> [] /\
    u = render eol l1 ++ white_text eol (e_white e) ++ x.

Lemma cut {X} (a : list X) : forall b u v, a ++ b = u ++ v ->
  (exists z, z <> [] /\ a = u ++ z /\ v = z ++ b) \/ (exists z, u = a ++ z /\ b = z ++ v).
Proof.
  induction a as [|x a IH]; intros b u v E.
  - right. exists u. auto.
  - destruct u as [|y u].
    + left. exists (x :: a). cbn [app] in E. split; [discriminate|]. split; auto.
    + cbn [app] in E. inversion E; subst. destruct (IH _ _ _ H1) as [(z & Z & -> & ->)|(z & -> & ->)].
      * left. exists z. auto.
      * right. exists z. auto.
Qed.

Lemma place eol l : forall u v, render eol l = u ++ v -> v <> [] ->
  in_item eol l u \/
  exists l1 e l2 w1 w2, l = l1 ++ e :: l2 /\ white_text eol (e_white e) = w1 ++ w2 /\ w2 <> [] /\
    u = render eol l1 ++ w1 /\ v = w2 ++ ttext (e_tok e) ++ render eol l2.
Proof.
  induction l as [|e l IH]; intros u v E NV; cbn [render flat_map] in E.
  - symmetry in E. apply app_eq_nil in E as [_ E]. contradiction.
  - fold (render eol l) in E. rewrite <- app_assoc in E. apply cut in E as [(z & Z & E1 & ->)|(z & -> & E)].
    + right. exists [], e, l, u, z. auto.
    + apply cut in E as [(y & Z & E1 & ->)|(y & -> & E)].
      * left. exists [], e, l, z, y. auto.
      * destruct (IH _ _ E NV) as [(l1 & e' & l2 & x & y' & -> & T & N & ->)|(l1 & e' & l2 & w1 & w2 & -> & W & N & -> & ->)].
        -- left. exists (e :: l1), e', l2, x, y'. cbn [render flat_map]. fold (render eol l1).
           rewrite <- !app_assoc. auto.
        -- right. exists (e :: l1), e', l2, w1, w2. cbn [render flat_map]. fold (render eol l1).
           rewrite <- !app_assoc. auto.
Qed.

(** ** Groups: a code token with the comments printed before it *)
Definition prev_code (p : option dk) (l0 : layout) : option dk :=
  fold_left (fun p e => match e_rule e with Some r => Some (r, tkind_of (e_tok e)) | None => p end) l0 p.
Definition ends_ruled (l0 : layout) : Prop :=
  l0 = [] \/ exists l1 a r, l0 = l1 ++ [a] /\ e_rule a = Some r.
Definition line_of (ln : N) (l0 : layout) : N :=
  fold_left (fun ln e => match e_rule e with Some _ => line (tend (e_tok e)) | None => ln end) l0 ln.

Inductive group (A : option dk -> gap -> dk -> Prop) (p : option dk) (ln : N) (r : skind) (t : token) : layout -> Prop :=
| gr_close : A p [] (r, tkind_of t) -> group A p ln r t [mkE WNone (Some r) t]
| gr_space : A p [GS] (r, tkind_of t) -> group A p ln r t [mkE WSpace (Some r) t]
| gr_break b n ins cs first : A p [GB b] (r, tkind_of t) ->
    Forall (fun c => line (tstart c) = ln) ins -> Forall (fun c => ln < line (tstart c)) cs ->
    (first = true -> p = None) ->
    group A p ln r t (beside first ins ++ broken b n ln cs r t).


Lemma seam q : forall (e : entry) l l0 x l2 r r',
  q ++ e :: l = l0 ++ x :: l2 -> unruled q -> e_rule e = Some r -> e_rule x = Some r' ->
  (l0 = q /\ x = e /\ l2 = l) \/ (exists l0', l0 = q ++ e :: l0' /\ l = l0' ++ x :: l2).
Proof.
  induction q as [|y q IH]; intros e l l0 x l2 r r' E U R R'.
  - destruct l0 as [|z l0]; cbn [app] in E; inversion E; subst; auto. right. exists l0. auto.
  - inversion U as [|? ? Y U']; subst. destruct l0 as [|z l0]; cbn [app] in E; inversion E; subst; [congruence|].
    destruct (IH _ _ _ _ _ _ _ H1 U' R R') as [(-> & -> & ->)|(l0' & -> & ->)]; auto.
    right. exists l0'. auto.
Qed.

Lemma arranged_group A p ln items ds l : arranged A p ln items ds l ->
  forall l0 e l2 r, l = l0 ++ e :: l2 -> e_rule e = Some r ->
  exists l1 q, l0 = l1 ++ q /\ ends_ruled l1 /\ unruled q /\
    group A (prev_code p l1) (line_of ln l1) r (e_tok e) (q ++ [e]).
Proof.
  induction 1 as [p ln cs C|p ln cs fn t items ds l C T AA R IH|p ln cs fn t items ds l C T AA R IH
                 |p ln ins cs fn t b n items ds l first N C T I1 I2 AA R IH]; intros l0 e l2 r E RE.
  - destruct l0; discriminate.
  - destruct (seam [] _ _ _ _ _ fn r E) as [(-> & -> & ->)|(l0' & -> & E')]; auto; [constructor| |].
    + exists [], []. cbn [e_rule e_tok] in *. inversion RE; subst. repeat split; auto; [left; auto|constructor|].
      constructor. exact AA.
    + destruct (IH _ _ _ _ E' RE) as (l1 & q & -> & ER & U & G).
      exists (mkE WNone (Some fn) t :: l1), q. repeat split; auto.
      destruct ER as [->|(l3 & a & r' & -> & Q)]; right; [exists [], (mkE WNone (Some fn) t), fn | exists (mkE WNone (Some fn) t :: l3), a, r']; auto.
  - destruct (seam [] _ _ _ _ _ fn r E) as [(-> & -> & ->)|(l0' & -> & E')]; auto; [constructor| |].
    + exists [], []. cbn [e_rule e_tok] in *. inversion RE; subst. repeat split; auto; [left; auto|constructor|].
      apply gr_space. exact AA.
    + destruct (IH _ _ _ _ E' RE) as (l1 & q & -> & ER & U & G).
      exists (mkE WSpace (Some fn) t :: l1), q. repeat split; auto.
      destruct ER as [->|(l3 & a & r' & -> & Q)]; right; [exists [], (mkE WSpace (Some fn) t), fn | exists (mkE WSpace (Some fn) t :: l3), a, r']; auto.
  - destruct (break_shape first ins b n ln cs fn t) as (q & EQ & U & M).
    rewrite app_assoc, EQ, <- app_assoc in E. cbn [app] in E.
    destruct (seam q _ _ _ _ _ fn r E) as [(-> & -> & ->)|(l0' & -> & E')]; auto.
    + exists [], q. cbn [e_rule e_tok] in *. inversion RE; subst. repeat split; auto; [left; auto|].
      rewrite <- EQ. cbn [prev_code line_of fold_left]. constructor; auto.
    + destruct (IH _ _ _ _ E' RE) as (l1 & q' & -> & ER & U' & G).
      set (x := mkE (WLine (own_line b ln cs t) n) (Some fn) t) in *.
      exists (q ++ x :: l1), q'. rewrite <- app_assoc. cbn [app]. repeat split; auto.
      * right. destruct ER as [->|(l3 & a & r' & -> & Q)]; [exists q, x, fn; auto|].
        exists (q ++ x :: l3), a, r'. rewrite <- app_assoc. auto.
      * unfold prev_code, line_of in *. rewrite !fold_left_app. cbn [fold_left]. exact G.
Qed.

(** ** White space characters of a layout *)
Lemma white_tail eol w w1 w2 : is_eol eol -> white_text eol w = w1 ++ 32 :: w2 -> Forall (fun c => c = 32) w2.
Proof.
  intro E. assert (forall n, Forall (fun c => c = 32) (times n (str "  "))) as T.
  { induction n; simpl; [constructor|]. constructor; [reflexivity|]. constructor; [reflexivity|]. auto. }
  destruct w as [| |b n]; simpl; intro H.
  - destruct w1; discriminate.
  - destruct w1 as [|x [|y w1]]; inversion H. constructor.
  - assert (forall a l w1 w2, ~ In 32 a -> Forall (fun c => c = 32) l -> a ++ l = w1 ++ 32 :: w2 -> Forall (fun c => c = 32) w2) as G.
    { clear. induction a as [|x a IH]; intros l w1 w2 NI F H.
      - cbn [app] in H. subst l. apply Forall_app in F as [_ F]. apply Forall_inv_tail in F. exact F.
      - destruct w1 as [|y w1]; cbn [app] in H; inversion H; subst.
        + exfalso. apply NI. left. reflexivity.
        + eapply IH; eauto. intro I. apply NI. right. exact I. }
    rewrite app_assoc in H. eapply G; [|apply T|exact H].
    intro I. apply in_app_iff in I as [I|I]; destruct E as [->| ->], b; simpl in I; lia.
Qed.

Lemma white_newlines eol w : is_eol eol -> newlines (white_text eol w) <= 2.
Proof.
  intro E. assert (forall n, newlines (times n (str "  ")) = 0) as T by (induction n; simpl; auto).
  destruct w as [| |b n]; simpl; try lia.
  rewrite !newlines_app, T. destruct E as [->| ->], b; simpl; lia.
Qed.

(** A prefix of white space is not longer than the white space. *)
Lemma spaces_within sp : forall w rest v, Forall space sp -> (exists c b, rest = c :: b /\ ~ space c) ->
  sp ++ v = w ++ rest -> exists z, w = sp ++ z.
Proof.
  induction sp as [|x sp IH]; intros w rest v S NR E; [exists w; auto|].
  destruct w as [|y w]; cbn [app] in E.
  - destruct NR as (c & b & -> & N). inversion E; subst. exfalso. apply N. apply Forall_inv in S. exact S.
  - inversion E; subst. destruct (IH w rest v) as [z ->]; auto; [apply Forall_inv_tail in S; exact S|]. exists z. auto.
Qed.

(** Only the first item of a file can be a comment without white space before it. *)
Definition airy (e : entry) : Prop := e_rule e = None -> e_white e <> WNone.
Lemma airy_stack n cs : forall ln, Forall airy (stack n ln cs).
Proof. induction cs; intro ln; constructor; auto. intros _. discriminate. Qed.
Lemma airy_broken b n ln cs fn t : Forall airy (broken b n ln cs fn t).
Proof.
  unfold broken. apply Forall_app. split; [|constructor; [discriminate|constructor]].
  pose proof (airy_stack n cs) as S.
  destruct b, cs as [|c cs]; cbn [above]; auto.
  constructor; [intros _; discriminate | apply airy_stack].
Qed.
Lemma airy_map (cs : list token) : Forall airy (map (mkE WSpace None) cs).
Proof. induction cs; constructor; auto. intros _. discriminate. Qed.

Lemma arranged_airy A p ln items ds l : arranged A p ln items ds l -> p <> None -> Forall airy l.
Proof.
  induction 1 as [p ln cs C|p ln cs fn t items ds l C T AA R IH|p ln cs fn t items ds l C T AA R IH
                 |p ln ins cs fn t b n items ds l first N C T I1 I2 AA R IH]; intro NP.
  - constructor.
  - constructor; [discriminate|apply IH; discriminate].
  - constructor; [discriminate|apply IH; discriminate].
  - apply Forall_app. split; [|apply Forall_app; split; [apply airy_broken|apply IH; discriminate]].
    destruct first; [exfalso; auto|]. destruct ins; constructor; [intros _; discriminate|apply airy_map].
Qed.
Lemma arranged_comment_white A p ln items ds l : arranged A p ln items ds l ->
  forall a e, consecutive l a e -> e_rule e = None -> e_white e <> WNone.
Proof.
  intro R. assert (l = [] \/ exists e0 l', l = e0 :: l' /\ Forall airy l') as H.
  { destruct R as [p ln cs C|p ln cs fn t items ds l C T AA R|p ln cs fn t items ds l C T AA R
                 |p ln ins cs fn t b n items ds l first N C T I1 I2 AA R]; auto; right.
    - exists (mkE WNone (Some fn) t), l. split; auto. eapply arranged_airy; [exact R|discriminate].
    - exists (mkE WSpace (Some fn) t), l. split; auto. eapply arranged_airy; [exact R|discriminate].
    - apply arranged_airy in R; [|discriminate]. pose proof (airy_broken b n ln cs fn t) as B.
      assert (Forall airy (broken b n ln cs fn t ++ l)) as BL by (apply Forall_app; auto).
      destruct ins as [|i ins]; cbn [beside app].
      + destruct (broken b n ln cs fn t ++ l) as [|e0 l'] eqn:E.
        * unfold broken in E. destruct (above b n ln cs); discriminate.
        * exists e0, l'. split; auto. eapply Forall_inv_tail; eauto.
      + eexists _, _. split; [reflexivity|]. apply Forall_app. split; auto. apply airy_map. }
  intros a e (l1 & l2 & E). destruct H as [->|(e0 & l' & -> & F)]; [destruct l1; discriminate|].
  assert (In e l') as I.
  { destruct l1; inversion E; subst; [left; auto|]. apply in_app_iff. right. right. left. auto. }
  rewrite Forall_forall in F. apply F. exact I.
Qed.
