(** Carrying out a plan: comments are woven in, and the markers are printed. *)
From Coq Require Import Sorted.
From Verif Require Import ProofBase Tokens Syntax Lexer SpecLex LexInv LexFacts ParserCore Tree Printer
  Formatter ParserSem FmtAbs FmtPlan FmtSound SpecLayout.

(** ** Items of a source come in order, also line by line. *)
Definition before (a b : token) : Prop := tidx a < tidx b /\ line (tend a) <= line (tstart b).
Definition upright (t : token) : Prop := 1 <= line (tstart t) /\ line (tstart t) <= line (tend t).

Record ordered (ln : N) (items : list token) : Prop := {
  or_sorted : StronglySorted before items;
  or_upright : Forall upright items;
  or_line : Forall (fun t => ln <= line (tstart t)) items
}.

Lemma ordered_tail ln t items : ordered ln (t :: items) -> ordered (line (tend t)) items.
Proof.
  intros [S U L]. inversion S; subst. inversion U; subst. split; auto.
  eapply Forall_impl; [|exact H2]. intros a [_ A]. exact A.
Qed.
Lemma ordered_skip ln a b : ordered ln (a ++ b) -> ordered ln b.
Proof.
  intros [S U L]. apply Forall_app in U as [_ U]. apply Forall_app in L as [_ L]. split; auto.
  induction a; auto. apply IHa. inversion S; auto.
Qed.

Lemma newlines_app a b : newlines (a ++ b) = newlines a + newlines b.
Proof. induction a; simpl; auto. rewrite IHa. lia. Qed.

Lemma strongly_snoc {A} (R : A -> A -> Prop) l x :
  StronglySorted R l -> Forall (fun a => R a x) l -> StronglySorted R (l ++ [x]).
Proof.
  induction 1 as [|a l S IH F]; intro G; simpl; [repeat constructor|].
  inversion G; subst. constructor; auto. apply Forall_app. auto.
Qed.

Lemma laid_ordered gap s items : laid gap s items -> ordered 1 items.
Proof.
  intro L.
  assert (ordered 1 items /\ Forall (fun t => line (tend t) <= 1 + newlines s /\ tidx t < N.of_nat (length items)) items) as [H _]; auto.
  induction L as [|c x items L [[S U O] F] G|c items t L [[S U O] F] (A & _) _ (B & _) _ I].
  - repeat split; constructor.
  - split; [split; auto|]. eapply Forall_impl; [|exact F]. intros a [P Q]. rewrite newlines_app. split; auto. lia.
  - rewrite newlines_app in B. split.
    + split.
      * apply strongly_snoc; auto. eapply Forall_impl; [|exact F]. intros a [P Q]. split; lia.
      * apply Forall_app. split; auto. constructor; auto. split; lia.
      * apply Forall_app. split; auto. constructor; auto. lia.
    + rewrite app_length. simpl length. apply Forall_app. split.
      * eapply Forall_impl; [|exact F]. intros a [P Q]. rewrite newlines_app. split; lia.
      * constructor; auto. rewrite newlines_app. split; lia.
Qed.

(** ** The comments in front of a token *)
Definition on_line (ln : N) (c : token) : bool := line (tstart c) =? ln.

Lemma comments_before_stream ln t cs rest :
  Forall (fun c => commentary c = true) cs -> commentary t = false ->
  StronglySorted before (cs ++ t :: rest) ->
  comments_before ln t (filter commentary (cs ++ t :: rest)) =
    (filter (on_line ln) cs, filter (fun c => negb (on_line ln c)) cs, filter commentary rest).
Proof.
  induction 1 as [|c cs C _ IH]; intros T S; simpl.
  - rewrite T. apply StronglySorted_inv in S as [_ S]. induction S as [|r rest [R _] _ IH]; auto.
    simpl. destruct (commentary r) eqn:E; auto. cbn [comments_before].
    replace (tidx r <? tidx t) with false by (symmetry; apply N.ltb_ge; lia). reflexivity.
  - rewrite C. cbn [comments_before]. apply StronglySorted_inv in S as [S R].
    apply Forall_app in R as [_ R]. apply Forall_inv in R as [R _].
    apply N.ltb_lt in R. rewrite R. rewrite IH; auto.
    change (line (tstart c) =? ln) with (on_line ln c). destruct (on_line ln c); reflexivity.
Qed.

(** Comments that start on the line of the previous token come first. *)
Lemma inline_first ln cs :
  StronglySorted before cs -> Forall upright cs -> Forall (fun t => ln <= line (tstart t)) cs ->
  cs = filter (on_line ln) cs ++ filter (fun c => negb (on_line ln c)) cs.
Proof.
  induction cs as [|c cs IH]; intros S U L; auto. cbn [filter].
  apply StronglySorted_inv in S as [S B]. inversion U as [|? ? [U1 U2] Us]; subst.
  inversion L as [|? ? L1 Ls]; subst.
  destruct (on_line ln c) eqn:E; cbn [negb app].
  - f_equal. apply IH; auto.
  - apply N.eqb_neq in E.
    assert (filter (on_line ln) cs = [] /\ filter (fun c => negb (on_line ln c)) cs = cs) as [-> ->]; auto.
    clear IH S U L Us Ls. induction B as [|d cs [_ D] _ [IH1 IH2]]; auto. cbn [filter].
    assert (on_line ln d = false) as -> by (apply N.eqb_neq; lia). cbn [negb].
    rewrite IH1, IH2. auto.
Qed.

(** ** Arrangement of a stream of items *)

(** Comments below each other; [ln] is the line where the previous item ends. *)
Definition apart (a b : N) : bool := 1 <? b - a.
Fixpoint stack (n : nat) (ln : N) (cs : list token) : layout :=
  match cs with
  | [] => []
  | c :: cs' => mkE (WLine (apart ln (line (tstart c))) n) None c :: stack n (line (tend c)) cs'
  end.
Fixpoint last_line (ln : N) (cs : list token) : N :=
  match cs with [] => ln | c :: cs' => last_line (line (tend c)) cs' end.

(** Layout of a break: comments [cs] that stand in lines of their own, then [t]. *)
Definition above (b : blank) (n : nat) (ln : N) (cs : list token) : layout :=
  match b, cs with
  | Required, c :: cs' => mkE (WLine true n) None c :: stack n (line (tend c)) cs'
  | _, _ => stack n ln cs
  end.
Definition own_line (b : blank) (ln : N) (cs : list token) (t : token) : bool :=
  match b, cs with
  | Illegal, _ => false
  | Required, [] => true
  | _, _ => apart (last_line ln cs) (line (tstart t))
  end.
Definition broken (b : blank) (n : nat) (ln : N) (cs : list token) (fn : skind) (t : token) : layout :=
  above b n ln cs ++ [mkE (WLine (own_line b ln cs t) n) (Some fn) t].
(** Comments behind the previous token; the first one of a file is not preceded by anything. *)
Definition beside (first : bool) (cs : list token) : layout :=
  match cs with
  | [] => []
  | c :: cs' => mkE (if first then WNone else WSpace) None c :: map (mkE WSpace None) cs'
  end.

Section Arr.
Variable A : option dk -> gap -> dk -> Prop.

(** [arranged p ln items ds l]: printing [items] after token [p] that ends on line [ln]
    gives layout [l]; [ds] are the code tokens of [items] with their rules. *)
Inductive arranged : option dk -> N -> list token -> list (skind * token) -> layout -> Prop :=
| ar_end p ln cs : Forall (fun c => commentary c = true) cs -> arranged p ln cs [] []
| ar_close p ln cs fn t items ds l :
    Forall (fun c => commentary c = true) cs -> commentary t = false ->
    A p [] (fn, tkind_of t) ->
    arranged (Some (fn, tkind_of t)) (line (tend t)) items ds l ->
    arranged p ln (cs ++ t :: items) ((fn, t) :: ds) (mkE WNone (Some fn) t :: l)
| ar_space p ln cs fn t items ds l :
    Forall (fun c => commentary c = true) cs -> commentary t = false ->
    A p [GS] (fn, tkind_of t) ->
    arranged (Some (fn, tkind_of t)) (line (tend t)) items ds l ->
    arranged p ln (cs ++ t :: items) ((fn, t) :: ds) (mkE WSpace (Some fn) t :: l)
| ar_break p ln ins cs fn t b n items ds l first :
    (first = true -> p = None) ->
    Forall (fun c => commentary c = true) (ins ++ cs) -> commentary t = false ->
    Forall (fun c => line (tstart c) = ln) ins -> Forall (fun c => ln < line (tstart c)) cs ->
    A p [GB b] (fn, tkind_of t) ->
    arranged (Some (fn, tkind_of t)) (line (tend t)) items ds l ->
    arranged p ln (ins ++ cs ++ t :: items) ((fn, t) :: ds)
      (beside first ins ++ broken b n ln cs fn t ++ l).
End Arr.

(** What a plan puts in front of each of its tokens: white space symbols, and the
    indentation in force at the last break among them. [n] is the current indentation. *)
Definition scored := (gap * nat * (skind * token))%type.
Fixpoint score (G : gap) (m n : nat) (os : list op) : list scored :=
  match os with
  | [] => []
  | PTok fn t :: os' => (G, m, (fn, t)) :: score [] O n os'
  | PBrk _ b :: os' => score (G ++ [GB b]) n n os'
  | PMark MSpace :: os' => score (G ++ [GS]) m n os'
  | PMark MIndent :: os' => score G m (S n) os'
  | PMark MDedent :: os' => score G m (pred n) os'
  | PMark _ :: os' => score G m n os'
  end.

(** [placed st ln items ds l]: printing [items] with the white space of [ds] gives layout
    [l]; [st] tells if this is the start of the file. *)
Inductive placed : bool -> N -> list token -> list scored -> layout -> Prop :=
| pl_end st ln cs : Forall (fun c => commentary c = true) cs -> placed st ln cs [] []
| pl_close st ln cs fn t m items ds l :
    Forall (fun c => commentary c = true) cs -> commentary t = false ->
    placed false (line (tend t)) items ds l ->
    placed st ln (cs ++ t :: items) (([], m, (fn, t)) :: ds) (mkE WNone (Some fn) t :: l)
| pl_space st ln cs fn t m items ds l :
    Forall (fun c => commentary c = true) cs -> commentary t = false ->
    placed false (line (tend t)) items ds l ->
    placed st ln (cs ++ t :: items) (([GS], m, (fn, t)) :: ds) (mkE WSpace (Some fn) t :: l)
| pl_break st ln ins cs fn t b n items ds l :
    Forall (fun c => commentary c = true) (ins ++ cs) -> commentary t = false ->
    Forall (fun c => line (tstart c) = ln) ins -> Forall (fun c => ln < line (tstart c)) cs ->
    placed false (line (tend t)) items ds l ->
    placed st ln (ins ++ cs ++ t :: items) (([GB b], n, (fn, t)) :: ds)
      (beside st ins ++ broken b n ln cs fn t ++ l).

Definition is_start (p : option dk) : bool := match p with None => true | Some _ => false end.

(** ** One break *)
Lemma repeat_times n t : repeat_text n t = times n t.
Proof. induction n; simpl; congruence. Qed.

(** Markers in reading order. *)
Definition white_marks (w : white) : list marker :=
  match w with
  | WNone => []
  | WSpace => [MSpace]
  | WLine b _ => [if b then MBlank else MBreak]
  end.
Definition marks_of (l : layout) : list marker :=
  flat_map (fun e => white_marks (e_white e) ++ [MToken (ttext (e_tok e))]) l.

Lemma marks_of_app a b : marks_of (a ++ b) = marks_of a ++ marks_of b.
Proof. apply flat_map_app. Qed.

Definition level (n : nat) (l : layout) : Prop :=
  Forall (fun e => match e_white e with WLine _ m => m = n | _ => True end) l.

Lemma print_marks eol n l ms : level n l ->
  print_loop eol n (marks_of l ++ ms) = (r <- print_loop eol n ms ;; Ok (render eol l ++ r)).
Proof.
  induction 1 as [|[w o t] l W L IH]; cbn [app marks_of flat_map].
  - cbn [render flat_map app]. destruct (print_loop eol n ms); reflexivity.
  - cbn [render flat_map]. fold (render eol l). fold (marks_of l). cbn [e_white e_tok] in *.
    destruct w as [| |b m]; cbn [white_marks app print_loop white_text].
    + rewrite IH. destruct (print_loop eol n ms); cbn [bind]; auto. rewrite app_assoc. reflexivity.
    + rewrite IH. destruct (print_loop eol n ms); cbn [bind]; auto. rewrite <- !app_assoc. reflexivity.
    + subst m. destruct b; cbn [print_loop]; rewrite IH; destruct (print_loop eol n ms); cbn [bind]; auto;
        rewrite repeat_times, <- !app_assoc; reflexivity.
Qed.

Lemma stack_marks b n cs : forall ln prev_line ms,
  b <> Required \/ prev_line < ln ->
  StronglySorted before cs -> Forall upright cs -> Forall (fun t => ln <= line (tstart t)) cs ->
  Forall (fun t => prev_line < line (tstart t)) cs ->
  push_comments b prev_line ln cs ms = Ok (rev (marks_of (stack n ln cs)) ++ ms, last_line ln cs).
Proof.
  induction cs as [|c cs IH]; intros ln pl ms B S U L P; auto.
  apply StronglySorted_inv in S as [S O]. inversion U as [|? ? [U1 U2] Us]; subst.
  inversion L as [|? ? L1 Ls]; subst. inversion P as [|? ? P1 Ps]; subst.
  cbn [push_comments stack last_line marks_of flat_map e_white e_tok white_marks].
  fold (marks_of (stack n (line (tend c)) cs)).
  assert (match b with
          | Required => if pl <? ln then blank_or_break (line (tstart c)) ln ms else Ok ms
          | _ => blank_or_break (line (tstart c)) ln ms
          end = Ok ((if apart ln (line (tstart c)) then MBlank else MBreak) :: ms)) as ->.
  { assert (blank_or_break (line (tstart c)) ln ms
            = Ok ((if apart ln (line (tstart c)) then MBlank else MBreak) :: ms)) as ->.
    { unfold blank_or_break, sub_usize, apart.
      replace (line (tstart c) <? ln) with false by (symmetry; apply N.ltb_ge; lia). reflexivity. }
    destruct b; auto. destruct B as [B|B]; [congruence|]. apply N.ltb_lt in B. rewrite B. reflexivity. }
  cbn [bind]. rewrite IH; auto.
  - cbn [app rev]. rewrite <- !app_assoc. reflexivity.
  - right. lia.
  - eapply Forall_impl; [|exact O]. intros a [_ X]. exact X.
Qed.

Lemma last_line_ge cs : forall ln m, Forall upright cs -> Forall (fun t => ln <= line (tstart t)) cs ->
  StronglySorted before cs -> ln <= m -> Forall (fun t => line (tend t) <= m) cs ->
  ln <= last_line ln cs <= m.
Proof.
  induction cs as [|c cs IH]; intros ln m U L S A B; simpl; [lia|].
  apply StronglySorted_inv in S as [S O]. inversion U as [|? ? [U1 U2] Us]; subst.
  inversion L as [|? ? L1 Ls]; subst. inversion B as [|? ? B1 Bs]; subst.
  destruct (IH (line (tend c)) m); auto; try lia.
  eapply Forall_impl; [|exact O]. intros a [_ X]. exact X.
Qed.

Lemma inlines_marks cs : forall ms,
  push_inlines cs ms = rev (marks_of (beside (match ms with [] => true | _ => false end) cs)) ++ ms.
Proof.
  destruct cs as [|c cs]; intro ms; auto.
  cbn [push_inlines beside marks_of flat_map e_white e_tok].
  assert (forall m ms, push_inlines cs (m :: ms) = rev (marks_of (map (mkE WSpace None) cs)) ++ m :: ms) as H.
  { induction cs as [|d cs IH]; intros m ms'; auto. cbn [push_inlines map marks_of flat_map e_white e_tok white_marks app].
    fold (marks_of (map (mkE WSpace None) cs)). rewrite IH. cbn [rev]. rewrite <- !app_assoc. reflexivity. }
  rewrite H. destruct ms; cbn [white_marks app rev]; fold (marks_of (map (mkE WSpace None) cs)).
  - rewrite <- app_assoc. reflexivity.
  - rewrite <- !app_assoc. reflexivity.
Qed.

Lemma level_stack n cs : forall ln, level n (stack n ln cs).
Proof. induction cs; intro ln; constructor; simpl; auto. apply IHcs. Qed.
Lemma level_above b n ln cs : level n (above b n ln cs).
Proof.
  destruct b, cs; try apply level_stack. constructor; simpl; auto. apply level_stack.
Qed.
Lemma level_beside n first cs : level n (beside first cs).
Proof.
  destruct cs; simpl; constructor; simpl.
  - destruct first; auto.
  - clear. induction cs; constructor; simpl; auto.
Qed.

Lemma break_ok t b f cs rest n :
  Forall (fun c => commentary c = true) cs -> commentary t = false ->
  ordered (fline f) (cs ++ t :: rest) -> fcoms f = filter commentary (cs ++ t :: rest) ->
  exists ins com first,
    cs = ins ++ com /\ Forall (fun c => line (tstart c) = fline f) ins /\
    Forall (fun c => fline f < line (tstart c)) com /\
    first = match fmarks f with [] => true | _ => false end /\
    handle_break t b f =
      Ok (mkF (filter commentary rest)
            (rev (marks_of (beside first ins ++ above b n (fline f) com)
                  ++ white_marks (WLine (own_line b (fline f) com t) n)) ++ fmarks f)
            (fprev f) (fline f)).
Proof.
  intros C T [S U L] E.
  set (ins := filter (on_line (fline f)) cs). set (com := filter (fun c => negb (on_line (fline f) c)) cs).
  exists ins, com, (match fmarks f with [] => true | _ => false end).
  pose proof (ordered_skip (fline f) cs (t :: rest) (Build_ordered _ _ S U L)) as [_ _ LT].
  apply Forall_inv in LT.
  assert (StronglySorted before cs /\ Forall (fun c => line (tend c) <= line (tstart t)) cs) as [S1 B1].
  { clear - S. induction cs as [|c cs IH]; [split; constructor|].
    apply StronglySorted_inv in S as [S O]. destruct (IH S) as [IH1 IH2].
    apply Forall_app in O as [O1 O2]. apply Forall_inv in O2 as [_ O2]. split; constructor; auto. }
  apply Forall_app in U as [U1 _]. apply Forall_app in L as [L1 _].
  assert (cs = ins ++ com) as EQ by (apply inline_first; auto).
  assert (Forall (fun c => line (tstart c) = fline f) ins) as I1.
  { apply Forall_forall. intros c I. apply filter_In in I as [_ I]. apply N.eqb_eq in I. exact I. }
  assert (Forall (fun c => fline f < line (tstart c)) com) as I2.
  { apply Forall_forall. intros c I. apply filter_In in I as [I J].
    rewrite Forall_forall in L1. specialize (L1 _ I). apply negb_true_iff, N.eqb_neq in J. lia. }
  split; [exact EQ|]. split; [exact I1|]. split; [exact I2|]. split; [reflexivity|].
  assert (comments_before (fline f) t (filter commentary (cs ++ t :: rest)) = (ins, com, filter commentary rest)) as CB
    by (apply comments_before_stream; auto).
  clearbody ins com.
  assert (StronglySorted before com /\ Forall upright com /\
          Forall (fun t => fline f <= line (tstart t)) com /\ Forall (fun c => line (tend c) <= line (tstart t)) com)
    as (S2 & U2 & L2 & B2).
  { rewrite EQ in S1, U1, L1, B1. apply Forall_app in U1 as [_ U1]. apply Forall_app in L1 as [_ L1].
    apply Forall_app in B1 as [_ B1]. repeat split; auto.
    clear - S1. revert S1. generalize ins. intro x. induction x as [|c x IH]; intro H; auto.
    apply IH. apply StronglySorted_inv in H. tauto. }
  pose proof (last_line_ge com (fline f) (line (tstart t)) U2 L2 S2 LT B2) as [LL1 LL2].
  assert (forall ms ln, ln <= line (tstart t) -> blank_or_break (line (tstart t)) ln ms
            = Ok ((if apart ln (line (tstart t)) then MBlank else MBreak) :: ms)) as BB.
  { intros ms ln G. unfold blank_or_break, sub_usize, apart.
    replace (line (tstart t) <? ln) with false by (symmetry; apply N.ltb_ge; lia). reflexivity. }
  unfold handle_break. rewrite E, CB.
  rewrite inlines_marks. rewrite marks_of_app.
  destruct b.
  - destruct com as [|c com].
    + cbn [push_comments bind above stack own_line]. rewrite N.ltb_irrefl. cbn [bind white_marks].
      rewrite app_nil_r, rev_app_distr. reflexivity.
    + cbn [push_comments]. rewrite N.ltb_irrefl. cbn [bind].
      apply StronglySorted_inv in S2 as [S2 O2]. inversion U2 as [|? ? [V1 V2] U3]; subst.
      apply Forall_inv_tail in L2. inversion I2 as [|? ? W1 W2]; subst.
      rewrite stack_marks with (n := n); auto.
      2:{ right. lia. }
      2:{ eapply Forall_impl; [|exact O2]. intros a [_ X]. exact X. }
      cbn [bind]. cbn [last_line] in LL1, LL2.
      pose proof (last_line_ge com (line (tend c)) (line (tstart t)) U3) as G.
      destruct G as [G1 G2]; auto.
      { eapply Forall_impl; [|exact O2]. intros a [_ X]. exact X. }
      { apply Forall_inv in B2. exact B2. }
      { apply Forall_inv_tail in B2. exact B2. }
      replace (fline f <? last_line (line (tend c)) com) with true by (symmetry; apply N.ltb_lt; lia).
      rewrite BB by exact LL2. cbn [bind above own_line last_line white_marks].
      cbn [marks_of flat_map e_white e_tok white_marks app]. fold (marks_of (stack n (line (tend c)) com)).
      rewrite !rev_app_distr. cbn [rev app]. rewrite <- !app_assoc. cbn [app]. reflexivity.
  - rewrite stack_marks with (n := n); auto. 2:{ left. discriminate. }
    cbn [bind]. rewrite BB by exact LL2. rewrite !rev_app_distr. cbn [rev app]. rewrite <- !app_assoc.
    destruct com; reflexivity.
  - rewrite stack_marks with (n := n); auto. 2:{ left. discriminate. }
    cbn [bind]. rewrite !rev_app_distr. cbn [rev app]. rewrite <- !app_assoc.
    destruct com; reflexivity.
Qed.

(** ** A whole plan *)
Lemma first_plain stream t ts : filter plain stream = t :: ts ->
  exists cs rest, stream = cs ++ t :: rest /\ Forall (fun c => commentary c = true) cs /\
    commentary t = false /\ filter plain rest = ts.
Proof.
  unfold plain, commentary. induction stream as [|x stream IH]; intro H; [discriminate|]. cbn [filter] in H.
  destruct (is_comment_kind (tkind_of x)) eqn:E; cbn [negb] in H.
  - destruct (IH H) as (cs & rest & -> & C & T & R). exists (x :: cs), rest. repeat split; auto.
  - inversion H; subst. exists [], stream. repeat split; auto.
Qed.
Lemma no_plain stream : filter plain stream = [] -> Forall (fun c => commentary c = true) stream.
Proof.
  unfold plain, commentary. induction stream as [|x stream IH]; intro H; constructor; cbn [filter] in H;
    destruct (is_comment_kind (tkind_of x)) eqn:E; cbn [negb] in H; try discriminate; auto.
Qed.
Lemma split_unique cs t rest : forall cs' t' rest',
  cs ++ t :: rest = cs' ++ t' :: rest' ->
  Forall (fun c => commentary c = true) cs -> commentary t = false ->
  Forall (fun c => commentary c = true) cs' -> commentary t' = false ->
  cs = cs' /\ t = t' /\ rest = rest'.
Proof.
  induction cs as [|c cs IH]; intros [|c' cs'] t' rest' E C T C' T'; cbn [app] in E; inversion E; subst; auto.
  - apply Forall_inv in C'. congruence.
  - apply Forall_inv in C. congruence.
  - destruct (IH cs' t' rest') as (-> & -> & ->); auto; eapply Forall_inv_tail; eauto.
Qed.

Section Exec.
Variable A : option dk -> gap -> dk -> Prop.
Hypothesis single : forall p G k, A p G k -> (length G <= 1)%nat.
Variable eol : text.

(** The white space symbols [G] have been pushed since token [p]; [pre] is their text,
    [items] is what was left to print after [p]. *)
Definition waiting (p : option dk) (G : gap) (n : nat) (f : fstate) (items : list token) (pre : text) : Prop :=
  match G with
  | [] => pre = [] /\ fcoms f = filter commentary items
  | [GS] => pre = str " " /\ fcoms f = filter commentary items
  | [GB b] =>
      exists ins cs t rest first,
        items = ins ++ cs ++ t :: rest /\
        Forall (fun c => commentary c = true) (ins ++ cs) /\ commentary t = false /\
        Forall (fun c => line (tstart c) = fline f) ins /\
        Forall (fun c => fline f < line (tstart c)) cs /\ first = is_start p /\
        fcoms f = filter commentary rest /\
        pre = render eol (beside first ins ++ above b n (fline f) cs)
              ++ white_text eol (WLine (own_line b (fline f) cs t) n)
  | _ => True
  end.

Lemma gap_single os : forall p G, runs A (p, G) os -> snd (after (p, G) os) = [] -> (length G <= 1)%nat.
Proof.
  induction os as [|o os IH]; intros p G R E; cbn [runs after snd fst] in *.
  - subst. simpl. lia.
  - destruct o as [fn t|t b|m].
    + destruct R as [R _]. eapply single; eauto.
    + apply IH in R; auto. rewrite app_length in R. simpl in R. lia.
    + destruct m; try contradiction; eauto. apply IH in R; auto. rewrite app_length in R. simpl in R. lia.
Qed.

Lemma unbroken : (forall G x b, A None G x -> ~ In (GB b) G) ->
  forall os G b, In (GB b) G -> runs A (None, G) os -> snd (after (None, G) os) = [] -> False.
Proof.
  intro NG. induction os as [|o os IH]; intros G b I R E; cbn [runs after snd fst] in *; [subst; contradiction|].
  destruct o as [fn t|t b'|m].
  - destruct R as [R _]. exact (NG _ _ _ R I).
  - eapply IH; [|exact R|exact E]. apply in_or_app. left. exact I.
  - destruct m; try contradiction; eapply IH; [|exact R|exact E| |exact R|exact E| |exact R|exact E]; try exact I.
    apply in_or_app. left. exact I.
Qed.

Lemma render_app a b : render eol (a ++ b) = render eol a ++ render eol b.
Proof. apply flat_map_app. Qed.

(** Operations that do not start with a marker. *)
Definition unmarked (os : list op) : Prop := match os with PMark _ :: _ => False | _ => True end.

Theorem exec os : forall p G m f items n n' pre,
  runs A (p, G) os -> aimed None os -> ind n os = Some n' -> snd (after (p, G) os) = [] ->
  map snd (ptoks os) = filter plain items -> ordered (fline f) items ->
  (p <> None -> fmarks f <> []) ->
  (p = None -> G = [] -> (fmarks f = [] /\ unmarked os) \/ (forall G x b, A None G x -> ~ In (GB b) G)) ->
  waiting p G m f items pre ->
  exists ms f' r l,
    do_ops os f = Ok f' /\ fmarks f' = rev ms ++ fmarks f /\ print_loop eol n ms = Ok r /\
    arranged A p (fline f) items (ptoks os) l /\ render eol l = pre ++ r /\
    placed (is_start p) (fline f) items (score G m n os) l.
Proof.
  induction os as [|o os IH]; intros p G lv f items n n' pre R AI I E P O NP NU W.
  - cbn [after snd] in E. subst G. cbn [waiting] in W. destruct W as [-> W].
    exists [], f, [], []. cbn [do_ops rev app print_loop ptoks render flat_map].
    repeat split; auto; constructor; apply no_plain; auto.
  - pose proof (gap_single _ _ _ R E) as SG. cbn [do_ops].
    destruct o as [fn t|t b|m].
    + cbn [runs fst snd] in R. destruct R as [RA R]. cbn [ptoks map snd] in P. symmetry in P.
      apply first_plain in P as (cs & rest & -> & C & T & P). cbn [aimed ind after do_op bind] in *.
      assert (ordered (line (tend t)) rest) as O1.
      { apply ordered_skip in O. apply ordered_tail in O. exact O. }
      assert (handle_token t f = mkF (filter commentary rest) (MToken (ttext t) :: fmarks f) (tkind_of t) (line (tend t))) as EH.
      { unfold handle_token.
        assert (fcoms f = filter commentary (cs ++ t :: rest) \/ fcoms f = filter commentary rest) as [EF|EF].
        { destruct G as [|[|b] [|]]; cbn [waiting] in W; try (simpl in SG; lia).
          - left. tauto.
          - left. tauto.
          - right. destruct W as (ins & cs' & t' & rest' & first & EQ & C' & T' & _ & _ & _ & F & _).
            rewrite app_assoc in EQ. destruct (split_unique _ _ _ _ _ _ EQ) as (_ & _ & ->); auto. }
        - rewrite EF, comments_before_stream; auto. apply O.
        - rewrite EF. apply ordered_skip in O as [O _ _].
          pose proof (comments_before_stream (fline f) t [] rest (Forall_nil _) T O) as CB.
          cbn [app filter] in CB. rewrite T in CB. rewrite CB. reflexivity. }
      rewrite EH.
      destruct (IH (Some (fn, tkind_of t)) [] 0%nat (mkF (filter commentary rest) (MToken (ttext t) :: fmarks f) (tkind_of t) (line (tend t)))
                  rest n n' [])
        as (ms & f' & r & l & D & M & PR & AR & RE & PL); auto.
      { intros _. discriminate. }
      { discriminate. }
      { cbn [waiting]. auto. }
      cbn [fmarks fline] in *. cbn [app] in RE.
      assert (fmarks f' = rev (MToken (ttext t) :: ms) ++ fmarks f) as M'
        by (rewrite M; cbn [rev]; rewrite <- app_assoc; reflexivity).
      assert (print_loop eol n (MToken (ttext t) :: ms) = Ok (ttext t ++ r)) as PR'
        by (cbn [print_loop]; rewrite PR; reflexivity).
      destruct G as [|[|b] [|]]; cbn [waiting] in W; try (simpl in SG; lia).
      * destruct W as [-> _].
        exists (MToken (ttext t) :: ms), f', (ttext t ++ r), (mkE WNone (Some fn) t :: l). repeat split; auto.
        -- cbn [ptoks]. constructor; auto.
        -- cbn [render flat_map e_white e_tok white_text app]. fold (render eol l). rewrite RE. reflexivity.
        -- cbn [score]. constructor; auto.
      * destruct W as [-> _].
        exists (MToken (ttext t) :: ms), f', (ttext t ++ r), (mkE WSpace (Some fn) t :: l). repeat split; auto.
        -- cbn [ptoks]. constructor; auto.
        -- cbn [render flat_map e_white e_tok white_text app]. fold (render eol l). rewrite RE, <- app_assoc. reflexivity.
        -- cbn [score]. constructor; auto.
      * destruct W as (ins & cs' & t' & rest' & first & EQ & C' & T' & I1 & I2 & I3 & F & ->).
        rewrite app_assoc in EQ. destruct (split_unique _ _ _ _ _ _ EQ) as (-> & <- & <-); auto.
        exists (MToken (ttext t) :: ms), f', (ttext t ++ r), (beside first ins ++ broken b lv (fline f) cs' fn t ++ l).
        repeat split; auto.
        -- cbn [ptoks]. rewrite <- app_assoc. constructor; auto. subst first. destruct p; [discriminate|auto].
        -- unfold broken. rewrite !render_app, RE. cbn [render flat_map e_white e_tok]. rewrite app_nil_r.
           rewrite <- !app_assoc. reflexivity.
        -- cbn [score]. rewrite <- app_assoc. subst first. constructor; auto.
    + cbn [runs fst snd] in R. cbn [after fst snd] in E. pose proof (gap_single _ _ _ R E) as SG1.
      rewrite app_length in SG1. cbn [length] in SG1. destruct G; [|simpl in SG1; lia]. clear SG SG1.
      cbn [aimed] in AI. destruct AI as [A1 A2]. cbn [ptoks ind] in *.
      unfold first_tok in A1. destruct (ptoks os) as [|[fn t1] ds] eqn:EP; [discriminate|].
      inversion A1; subst t1. cbn [map snd] in P. symmetry in P. pose proof P as P0.
      apply first_plain in P as (cs & rest & -> & C & T & P). cbn [waiting] in W. destruct W as [-> W].
      destruct (break_ok t b f cs rest n C T O W) as (ins & com & first & -> & I1 & I2 & I3 & EB).
      cbn [do_op]. rewrite EB. cbn [bind].
      set (f1 := mkF (filter commentary rest)
            (rev (marks_of (beside first ins ++ above b n (fline f) com)
                  ++ white_marks (WLine (own_line b (fline f) com t) n)) ++ fmarks f)
            (fprev f) (fline f)) in *.
      destruct (IH p [GB b] n f1 ((ins ++ com) ++ t :: rest) n n'
                  (render eol (beside first ins ++ above b n (fline f) com)
                   ++ white_text eol (WLine (own_line b (fline f) com t) n)))
        as (ms & f' & r & l & D & M & PR & AR & RE & PL); auto.
      { unfold f1. cbn [fmarks]. intros H1 H2. apply app_eq_nil in H2 as [_ H2]. apply NP in H1. contradiction. }
      { discriminate. }
      { cbn [waiting fline f1]. exists ins, com, t, rest, first. rewrite app_assoc. repeat split; auto.
        rewrite I3. destruct p as [q|].
        - destruct (fmarks f); auto. exfalso. apply NP; [discriminate|auto].
        - destruct (NU eq_refl eq_refl) as [[-> _]|NG]; [reflexivity|]. exfalso. exact (unbroken NG os [GB b] b (or_introl eq_refl) R E). }
      exists ((marks_of (beside first ins ++ above b n (fline f) com)
               ++ white_marks (WLine (own_line b (fline f) com t) n)) ++ ms), f',
             ((render eol (beside first ins ++ above b n (fline f) com)
                   ++ white_text eol (WLine (own_line b (fline f) com t) n)) ++ r), l.
      split; [exact D|]. split.
      { rewrite M. unfold f1. cbn [fmarks]. rewrite (rev_app_distr _ ms). rewrite <- app_assoc. reflexivity. }
      split.
      { rewrite <- app_assoc. rewrite print_marks.
        - cbn [white_marks app].
          assert (print_loop eol n ((if own_line b (fline f) com t then MBlank else MBreak) :: ms)
                  = Ok (white_text eol (WLine (own_line b (fline f) com t) n) ++ r)) as ->.
          { destruct (own_line b (fline f) com t); cbn [print_loop white_text]; rewrite PR; cbn [bind];
              rewrite repeat_times; rewrite <- ?app_assoc; reflexivity. }
          cbn [bind]. rewrite <- !app_assoc. reflexivity.
        - apply Forall_app. split; [apply level_beside | apply level_above]. }
      split; [exact AR|]. split; [rewrite RE; rewrite <- app_assoc; reflexivity|].
      cbn [score app]. exact PL.
    + cbn [runs fst snd] in R. destruct m; try contradiction; cbn [after fst snd aimed ind ptoks do_op bind] in *.
      * destruct (IH p G lv (push MIndent f) items (S n) n' pre)
          as (ms & f' & r & l & D & M & PR & AR & RE & PL); auto.
        { intros _. discriminate. }
        { intros E1 E2. destruct (NU E1 E2) as [[_ []]|NG]; auto. }
        exists (MIndent :: ms), f', r, l. repeat split; auto.
        rewrite M. cbn [rev push fmarks]. rewrite <- app_assoc. reflexivity.
      * destruct n as [|n]; [discriminate|].
        destruct (IH p G lv (push MDedent f) items n n' pre)
          as (ms & f' & r & l & D & M & PR & AR & RE & PL); auto.
        { intros _. discriminate. }
        { intros E1 E2. destruct (NU E1 E2) as [[_ []]|NG]; auto. }
        exists (MDedent :: ms), f', r, l. repeat split; auto.
        rewrite M. cbn [rev push fmarks]. rewrite <- app_assoc. reflexivity.
      * pose proof (gap_single _ _ _ R E) as SG1. rewrite app_length in SG1. cbn [length] in SG1.
        destruct G; [|simpl in SG1; lia]. cbn [waiting] in W. destruct W as [-> W].
        destruct (IH p [GS] lv (push MSpace f) items n n' (str " "))
          as (ms & f' & r & l & D & M & PR & AR & RE & PL); auto.
        { intros _. discriminate. }
        { discriminate. }
        { cbn [waiting]. auto. }
        exists (MSpace :: ms), f', (str " " ++ r), l. repeat split; auto.
        -- rewrite M. cbn [rev push fmarks]. rewrite <- app_assoc. reflexivity.
        -- cbn [print_loop]. rewrite PR. reflexivity.
Qed.
End Exec.
