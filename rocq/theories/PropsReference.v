(** Property C56: the output is that of the reference formatter. *)
From Coq Require Import Sorted.
From Verif Require Import ProofBase Tokens Syntax Lexer SpecLex LexInv LexMain LexFacts ParserCore Grammar
  Tree Printer Formatter Lib ParserSem ParserFuel SpecGrammar Regex ParserGrammar ParserTree ParserFacts Recognise PropsParser
  FmtAbs FmtPlan FmtShape FmtTables FmtSound SpecLayout FmtExec FmtTop FmtFacts FmtRelex FmtNeat SpecNodes FmtTree FmtLists FmtOps
  FmtWrap SpecGaps PropsGaps PropsFormat SpecReference FmtNode FmtReference.

(** ** After [+] and [-] the space depends on the node *)
Definition is_add (k : skind) : bool := skind_eqb k KAddOperator.
Definition is_beside (p : position) : bool := match p with Beside => true | _ => false end.
Fixpoint signed (b : bool) (xs : list spot) : bool :=
  match xs with
  | [] => true
  | x :: r => negb (b && is_beside (at_pos x)) && signed (is_add (at_rule x)) r
  end.
Fixpoint last_add (b : bool) (xs : list spot) : bool :=
  match xs with [] => b | x :: r => last_add (is_add (at_rule x)) r end.
Lemma signed_app a : forall b c, signed b (a ++ c) = signed b a && signed (last_add b a) c.
Proof. induction a as [|x a IH]; intros b c; cbn [app signed last_add andb]; auto. rewrite IH, andb_assoc. reflexivity. Qed.
Lemma last_add_app a : forall b c, last_add b (a ++ c) = last_add (last_add b a) c.
Proof. induction a as [|x a IH]; intros b c; cbn [app last_add]; auto. Qed.

Definition sign_of (q : skind) (c : child) : bool := match c with CTok _ => is_add q | CTree k _ => is_add k end.
Definition sign_ok (k : skind) : bool :=
  let r := pruned (production false k) in
  forallb (fun p => negb (sym_eqb (Rule KAddOperator) (fst p)) || skind_eqb k KArithmeticExpression) (pairs r)
  && forallb (fun x => negb (sym_eqb (Rule KAddOperator) x)) (lasts r)
  && (negb (is_add k) || match pairs r with [] => true | _ => false end && forallb (fun x => match x with Term _ => true | Rule _ => false end) (lasts r)).
Lemma sign_checked : forallb sign_ok all_skinds = true.
Proof. vm_compute. reflexivity. Qed.

Definition signs_of (c : child) : Prop :=
  forall q pos first n on inh b, (b = true -> is_beside pos = false) ->
    signed b (spots q pos first n on inh c) = true /\ last_add b (spots q pos first n on inh c) = sign_of q c.

Lemma position_signed w turn multi late second d :
  is_beside (position_of KArithmeticExpression w turn multi late second (Some (Rule KAddOperator)) d) = false.
Proof.
  unfold position_of. cbn [fixed_position].
  match goal with |- context [if ?b then Below Never else _] => destruct b end; [reflexivity|]. destruct second; reflexivity.
Qed.

Lemma sign_next k a d w turn multi late second :
  In (sym_of a, sym_of d) (pairs (pruned (production false k))) -> sign_of k a = true ->
  is_beside (position_of k w turn multi late second (Some (kind_of a)) (kind_of d)) = false.
Proof.
  intros I S. pose proof (skind_all _ sign_checked k) as C. unfold sign_ok in C.
  apply andb_true_iff in C as [C C3]. apply andb_true_iff in C as [C1 _].
  destruct a as [t|k' ds]; cbn [sign_of] in S.
  - rewrite S in C3. cbn [negb orb] in C3. apply andb_true_iff in C3 as [C3 _].
    destruct (pairs (pruned (production false k))); [contradiction|discriminate].
  - apply skind_eqb_eq in S. subst k'. rewrite forallb_forall in C1. specialize (C1 _ I). cbn [fst sym_of] in C1.
    change (sym_eqb (Rule KAddOperator) (Rule KAddOperator)) with true in C1. cbn [negb orb] in C1. apply skind_eqb_eq in C1. subst k. cbn [kind_of]. apply position_signed.
Qed.

Lemma children_signed k w all pos first v : forall u n on b,
  Forall signs_of v ->
  (forall x y, adj (map sym_of (match u with [] => v | a :: _ => a :: v end)) x y -> In (x, y) (pairs (pruned (production false k)))) ->
  (u = [] -> b = true -> is_beside pos = false) ->
  (forall a u', u = a :: u' -> b = sign_of k a) ->
  signed b (children k w all pos first u n on v) = true /\
  last_add b (children k w all pos first u n on v) = match rev v with [] => b | d :: _ => sign_of k d end.
Proof.
  induction v as [|d v IH]; intros u n on b S A P B; cbn [children].
  - split; reflexivity.
  - inversion S as [|? ? SD SV]; subst. cbv zeta.
    set (turn := turns k (last_of u) d v).
    set (p := position_of k w turn (multi_if d) (is_late d) (after_first u) (kind_last u) (kind_of d)).
    set (P' := if match u, p with [], Below _ => true | [], _ => false | _, _ => true end then p else pos).
    match goal with |- context [spots k _ ?f ?n1 ?o1 ?i1 d ++ children k w all pos first (d :: u) ?n2 ?o2 v] =>
      destruct (SD k P' f n1 o1 i1 b) as [S1 L1]; [|destruct (IH (d :: u) n2 o2 (sign_of k d) SV) as [S2 L2]]
    end.
    + intro Hb. subst P'. destruct u as [|a u].
      * destruct p; cbn [is_beside]; auto.
      * replace (match p with Below _ => true | _ => true end) with true by (destruct p; reflexivity).
        rewrite (B a u eq_refl) in Hb. subst p. cbn [kind_last]. apply sign_next; auto.
        apply A. exists [], (map sym_of v). reflexivity.
    + intros x y (l1 & l2 & E). apply A. destruct u as [|a u].
      * exists l1, l2. exact E.
      * exists (sym_of a :: l1), l2. cbn [map app]. cbn [map] in E. rewrite E. reflexivity.
    + discriminate.
    + intros a u' E. injection E as <- <-. reflexivity.
    + rewrite signed_app, last_add_app, S1, L1, S2, L2. split; auto.
      cbn [rev]. destruct (rev v) as [|e r]; reflexivity.
Qed.

Lemma all_signed c : fits c -> signs_of c.
Proof.
  induction c as [t|k cs IH] using child_ind2; intros F q pos first n on inh b P.
  - cbn [spots signed last_add at_pos at_rule sign_of]. split; auto. destruct b; auto. rewrite (P eq_refl). reflexivity.
  - rewrite spots_tree. inversion F as [|? ? NE L FS]; subst.
    assert (Forall signs_of cs) as S.
    { rewrite Forall_forall in *. intros d D. apply IH; auto. }
    destruct (children_signed k (wide k cs inh) cs pos first cs [] n on b S) as [S1 L1].
    + intros x y AD. eapply pairs_complete; eauto.
    + intros _. exact P.
    + discriminate.
    + split; [exact S1|]. rewrite L1. destruct (rev cs) as [|d r] eqn:R.
      { apply (f_equal (@rev child)) in R. rewrite rev_involutive in R. contradiction. }
      assert (In (sym_of d) (lasts (pruned (production false k)))) as I.
      { eapply lasts_complete; [exact L|]. apply (f_equal (@rev child)) in R. rewrite rev_involutive in R. rewrite R.
        cbn [rev]. rewrite map_app. reflexivity. }
      pose proof (skind_all _ sign_checked k) as C. unfold sign_ok in C.
      apply andb_true_iff in C as [C C3]. apply andb_true_iff in C as [_ C2].
      rewrite forallb_forall in C2. specialize (C2 _ I). apply negb_true_iff in C2.
      destruct d as [t|k' ds]; cbn [sign_of sym_of] in *; [reflexivity|].
      destruct (is_add k) eqn:AK.
      * cbn [negb orb] in C3. apply andb_true_iff in C3 as [_ C3]. rewrite forallb_forall in C3. specialize (C3 _ I). discriminate.
      * unfold is_add. destruct (skind_eqb k' KAddOperator) eqn:E; auto. apply skind_eqb_eq in E. subst k'.
        discriminate C2.
Qed.

(** ** Putting tokens and comments together *)
Fixpoint chain (p : option dk) (ds : list scored) : Prop :=
  match ds with
  | [] => True
  | (G, _, (f, t)) :: r => spaced p G (f, tkind_of t) = true /\ chain (Some (f, tkind_of t)) r
  end.
Lemma runs_chain (A : option dk -> gap -> dk -> Prop) : (forall p G k, A p G k -> spaced p G k = true) ->
  forall os p G m n, runs A (p, G) os -> chain p (score G m n os).
Proof.
  intro SP. induction os as [|[fn t|t b|[]] os IH]; intros p G m n R; cbn [runs score chain fst snd] in *; auto; try contradiction.
  destruct R as [AD R]. split; auto.
Qed.

Lemma rows_kept n r t cs : forall ln,
  rows Kept n ln cs r t = stack n ln cs ++ [mkE (WLine (apart (FmtExec.last_line ln cs) (line (tstart t))) n) (Some r) t].
Proof. induction cs as [|c cs IH]; intro ln; cbn [rows stack FmtExec.last_line app]; [reflexivity|]. rewrite IH. reflexivity. Qed.
Lemma rows_never n r t cs : forall ln,
  rows Never n ln cs r t = stack n ln cs ++ [mkE (WLine false n) (Some r) t].
Proof. induction cs as [|c cs IH]; intro ln; cbn [rows stack app]; [reflexivity|]. rewrite IH. reflexivity. Qed.
Lemma rows_broken b n ln cs r t : rows b n ln cs r t = broken (as_blank b) n ln cs r t.
Proof.
  destruct b; unfold broken; cbn [as_blank above own_line].
  - destruct cs as [|c cs]; [reflexivity|]. cbn [rows FmtExec.last_line app]. rewrite rows_kept. reflexivity.
  - rewrite rows_kept. destruct cs; reflexivity.
  - rewrite rows_never. destruct cs; reflexivity.
Qed.

Lemma is_commentary t : is_comment t = commentary t.
Proof. unfold is_comment, commentary, is_comment_kind. destruct (tkind_of t); reflexivity. Qed.
Lemma weave_comments p ln xs t items cs : Forall (fun c => commentary c = true) cs -> commentary t = false ->
  forall acc, weave p ln acc (cs ++ t :: items) xs =
  match xs with
  | [] => []
  | x :: xs' => put p ln (acc ++ cs) x ++ weave (Some (at_rule x, tkind_of t)) (line (tend t)) [] items xs'
  end.
Proof.
  intros F T. induction F as [|c cs C _ IH]; intro acc; cbn [app weave].
  - rewrite is_commentary, T, app_nil_r. reflexivity.
  - rewrite is_commentary, C, IH, <- app_assoc. reflexivity.
Qed.
Lemma weave_rest p ln xs items : Forall (fun c => commentary c = true) items -> forall acc, weave p ln acc items xs = [].
Proof.
  induction 1 as [|c cs C _ IH]; intro acc; cbn [weave]; [reflexivity|].
  rewrite is_commentary, C. apply IH.
Qed.

Lemma woven st ln items ds l : placed st ln items ds l -> forall p xs,
  st = is_start p -> chain p ds -> Forall2 agrees ds xs ->
  signed (match p with Some (q, _) => is_add q | None => false end) xs = true ->
  weave p ln [] items xs = l.
Proof.
  induction 1 as [st ln cs C|st ln cs fn t m items ds l C T _ IH|st ln cs fn t m items ds l C T _ IH
                 |st ln ins cs fn t b n items ds l C T I1 I2 _ IH]; intros p xs ST CH AG SG.
  - apply weave_rest. exact C.
  - inversion AG as [|? x ? xs' AX AG']; subst. rewrite (weave_comments _ _ _ _ _ _ C T).
    cbn [chain] in CH. destruct CH as [AD CH]. destruct AX as (R & TK & POS).
    cbn [signed] in SG. apply andb_true_iff in SG as [SG SG']. rewrite R in *.
    rewrite (IH (Some (fn, tkind_of t)) xs'); auto. f_equal.
    unfold spaced in AD.
    unfold put. rewrite R, TK. destruct (at_pos x); cbn [is_beside] in *; try discriminate; try reflexivity.
    + destruct p as [[q a]|]; [|reflexivity]. rewrite andb_true_r in SG. unfold is_add in SG.
      destruct (skind_eqb q KAddOperator); [discriminate|]. cbn in AD. destruct (tight a fn (tkind_of t)); [reflexivity|discriminate].
    + destruct POS. discriminate.
  - inversion AG as [|? x ? xs' AX AG']; subst. rewrite (weave_comments _ _ _ _ _ _ C T).
    cbn [chain] in CH. destruct CH as [AD CH]. destruct AX as (R & TK & POS).
    cbn [signed] in SG. apply andb_true_iff in SG as [SG SG']. rewrite R in *.
    rewrite (IH (Some (fn, tkind_of t)) xs'); auto. f_equal.
    unfold spaced in AD.
    unfold put. rewrite R, TK. destruct (at_pos x); cbn [is_beside] in *; try discriminate; try reflexivity.
    + destruct p as [[q a]|]; [|discriminate AD]. rewrite andb_true_r in SG. unfold is_add in SG.
      destruct (skind_eqb q KAddOperator); [discriminate|]. cbn in AD. destruct (tight a fn (tkind_of t)); [discriminate|reflexivity].
    + destruct POS. discriminate.
  - inversion AG as [|? x ? xs' AX AG']; subst. rewrite app_assoc, (weave_comments _ _ _ _ _ _ C T).
    cbn [chain] in CH. destruct CH as [AD CH]. destruct AX as (R & TK & POS).
    cbn [signed] in SG. apply andb_true_iff in SG as [SG SG']. rewrite R in *.
    rewrite (IH (Some (fn, tkind_of t)) xs'); auto. rewrite (app_assoc (beside _ _)). f_equal.
    unfold put. rewrite R, TK. destruct (at_pos x) as [| | |b'] eqn:EP; try discriminate.
    destruct POS as [E ->]. cbn [filter is_gb] in E. injection E as ->. cbn [app].
    assert (filter (fun c => line (tstart c) =? ln) (ins ++ cs) = ins /\
            filter (fun c => negb (line (tstart c) =? ln)) (ins ++ cs) = cs) as [-> ->].
    { clear - I1 I2. induction I1 as [|c ins E _ [H1 H2]]; cbn [app filter].
      - induction I2 as [|c cs E _ [H1 H2]]; cbn [filter]; auto.
        destruct (N.eqb_spec (line (tstart c)) ln); [lia|]. cbn [negb]. rewrite H1, H2. auto.
      - rewrite E, N.eqb_refl. cbn [negb]. rewrite H1, H2. auto. }
    rewrite rows_broken. destruct p; reflexivity.
Qed.

Lemma accepted_reference eol s p : accepted s p ->
  exists tree items,
    layout_of eol s p (reference tree items) /\
    lexes s (map item_of items) /\ comments_ascii (map item_of items) /\ laid space s items /\
    p_tokens p = filter plain items /\ p_comments p = filter commentary items /\
    arranged adjacent None 1 items (codes (reference tree items)) (reference tree items) /\
    build_tree (p_tokens p) (p_events p) = Ok tree.
Proof.
  intro ACC.
  destruct (accepted_plan eol s p ACC) as (tree & items & l & LO & LX & CA & LA & PT & PC & AR & BT & PL & (cs & ET)).
  assert (reference tree items = l) as EQ; [|exists tree, items; rewrite EQ; repeat (split; [assumption|]); assumption].
  unfold reference. destruct PL as [E|(r & os & n' & W & TK & AI & IN & PD)].
  - rewrite E in *. destruct LO as [_ (t2 & BT2 & CO) _ _]. rewrite BT in BT2. injection BT2 as <-.
    cbn [owners flat_map] in CO. rewrite CO in AR. inversion AR; subst. apply weave_rest. assumption.
  - subst tree. pose proof (all_match (CTree KStoredDefinition cs)) as M. cbn [matches] in M.
    destruct (M _ _ _ _ _ _ _ W KStoredDefinition Beside O O false [] O) as (AG & _); [reflexivity|discriminate|].
    inversion W as [? ? ? ? ? ? ? ms l0 l' os0 F IA PCL EP PR LO']; subst.
    destruct (file_plan cs 1 F) as (r2 & os2 & n2 & P2 & _ & _ & R2 & _). rewrite EP in P2. injection P2 as _ <-.
    refine (woven _ _ _ _ _ PD None _ eq_refl (runs_chain _ (all_adjacent_sound _ spaced_checked) _ _ _ _ _ R2) AG _).
    apply (proj1 (all_signed _ F _ _ _ _ _ _ false (fun H => match Bool.diff_false_true H with end))).
Qed.

(** ** C56: the formatted text is that of the reference formatter *)
Theorem C56_reference : forall eol s p, accepted s p ->
  exists tree items,
    build_tree (p_tokens p) (p_events p) = Ok tree /\ laid space s items /\
    p_tokens p = filter plain items /\ p_comments p = filter commentary items /\
    pretty_print eol p = Ok (render eol (reference tree items)).
Proof.
  intros eol s p ACC. destruct (accepted_reference eol s p ACC) as (tree & items & LO & _ & _ & LA & PT & PC & _ & BT).
  exists tree, items. split; [exact BT|]. split; [exact LA|]. split; [exact PT|]. split; [exact PC|]. apply LO.
Qed.
Print Assumptions C56_reference.

(** A source with comments, a wrapped list, a wrapped operation on the right-hand side of an equation
    and one on the left-hand side: the rules of the reference formatter give the text of the program. *)
Definition sorted_items (ts cs : list token) : list token :=
  fold_right (fix put (c : token) (l : list token) : list token :=
    match l with [] => [c] | t :: l' => if tidx c <? tidx t then c :: l else t :: put c l' end) ts cs.
Definition C56_source : text := lines
  ["// lost"; "model M Real x(start=1,"; " min=- 2) ; // end of x"; ""; ""; "  // own"; "Real y /*lost*/ ;";
   "equation if x>1 then x=a"; "+b*c"; "+d; else f(a,{1,"; "2}); end if;"; "y+"; "x=if y then 1"; "else -2; end M;"; "// lost"]%string.
Definition C56_result : text := lines
  ["model M"; ""; "  Real x("; "    start = 1,"; "    min = -2); // end of x"; ""; "  // own"; "  Real y;"; "";
   "equation"; ""; "  if x > 1 then"; "    x = a"; "      + b * c"; "      + d;"; "  else"; "    f("; "      a,"; "      {"; "        1,"; "        2});";
   "  end if;"; "  y"; "    + x ="; "      if y then"; "        1"; "      else"; "        -2;"; ""; "  end M;"]%string.
Example C56_applies : exists p tree,
  accepted C56_source p /\ build_tree (p_tokens p) (p_events p) = Ok tree /\
  render lf (reference tree (sorted_items (p_tokens p) (p_comments p))) = C56_result.
Proof.
  eexists. eexists. split; [split|]; [vm_compute; reflexivity|reflexivity|].
  split; [vm_compute; reflexivity|]. vm_compute. reflexivity.
Qed.
Example C56_program : formats C56_source C56_result.
Proof. formatted. Qed.

(** ** C28: the indentation at the end of a file *)

Lemma ok_same (A : Type) (a b : A) : Ok a = Ok b -> a = b.
Proof. congruence. Qed.

(** Breaks leave the level of indentation as it is. *)
Definition is_up (m : marker) : bool := match m with MIndent => true | _ => false end.
Definition is_down (m : marker) : bool := match m with MDedent => true | _ => false end.
Definition level_mark (m : marker) : bool := is_up m || is_down m.
Lemma inlines_level cs : forall ms, filter level_mark (push_inlines cs ms) = filter level_mark ms.
Proof. induction cs as [|c cs IH]; intro ms; cbn [push_inlines]; [reflexivity|]. rewrite IH. destruct ms; reflexivity. Qed.
Lemma blank_level a b ms ms' : blank_or_break a b ms = Ok ms' -> filter level_mark ms' = filter level_mark ms.
Proof. unfold blank_or_break. intro H. apply bind_ok in H as (d & _ & H). apply ok_same in H. subst ms'. destruct (1 <? d); reflexivity. Qed.
Lemma comments_level b pl cs : forall ln ms ms' ln', push_comments b pl ln cs ms = Ok (ms', ln') ->
  filter level_mark ms' = filter level_mark ms.
Proof.
  induction cs as [|c cs IH]; intros ln ms ms' ln' H; cbn [push_comments] in H.
  - apply ok_inj in H as [<- _]. reflexivity.
  - apply bind_ok in H as (m1 & H1 & H). rewrite (IH _ _ _ _ H). cbn [filter level_mark is_up is_down orb].
    destruct b; try (apply blank_level in H1; exact H1).
    destruct (pl <? ln); [apply blank_level in H1; exact H1|]. apply ok_same in H1. subst. reflexivity.
Qed.
Lemma break_level t b f f' : handle_break t b f = Ok f' -> filter level_mark (fmarks f') = filter level_mark (fmarks f).
Proof.
  unfold handle_break. destruct (comments_before (fline f) t (fcoms f)) as [[inls com] rest]. intro H.
  apply bind_ok in H as ([ms ln] & H1 & H). apply bind_ok in H as (ms2 & H2 & H). apply ok_same in H. subst f'. cbn [fmarks].
  apply comments_level in H1.
  assert (filter level_mark ms = filter level_mark (fmarks f)) as E.
  { rewrite H1. destruct b; cbn [filter level_mark is_up is_down orb]; apply inlines_level. }
  rewrite <- E. destruct b.
  - destruct (fline f <? ln); [apply blank_level in H2; exact H2|]. apply ok_same in H2. subst. reflexivity.
  - apply blank_level in H2. exact H2.
  - apply ok_same in H2. subst. reflexivity.
Qed.

Lemma count_level (q : marker -> bool) (Q : forall m, q m = true -> level_mark m = true) ms ms' :
  filter level_mark ms' = filter level_mark ms -> count q ms' = count q ms.
Proof.
  intro E. unfold count.
  assert (forall l, filter q l = filter q (filter level_mark l)) as K.
  { induction l as [|m l IH]; cbn [filter]; [reflexivity|].
    destruct (level_mark m) eqn:L; cbn [filter]; [rewrite IH; reflexivity|].
    destruct (q m) eqn:QM; [|exact IH]. rewrite (Q _ QM) in L. discriminate. }
  rewrite (K ms'), (K ms), E. reflexivity.
Qed.
Lemma ops_levels os : forall f f' n n', do_ops os f = Ok f' -> ind n os = Some n' ->
  (ups (fmarks f') + downs (fmarks f) + n = downs (fmarks f') + ups (fmarks f) + n')%nat.
Proof.
  induction os as [|o os IH]; intros f f' n n' D I; cbn [do_ops ind] in *.
  - apply ok_same in D. subst f'. injection I as <-. lia.
  - apply bind_ok in D as (f1 & D1 & D).
    assert (forall n1, ind n1 os = Some n' ->
      (ups (fmarks f1) + downs (fmarks f) + n = downs (fmarks f1) + ups (fmarks f) + n1)%nat ->
      (ups (fmarks f') + downs (fmarks f) + n = downs (fmarks f') + ups (fmarks f) + n')%nat) as K.
    { intros n1 I1 E. pose proof (IH _ _ _ _ D I1). lia. }
    destruct o as [fn t|t b|m]; cbn [do_op] in D1.
    + apply ok_same in D1. subst f1. apply (K n I). unfold handle_token.
      destruct (comments_before (fline f) t (fcoms f)) as [[? ?] ?]. cbn [fmarks]. unfold ups, downs, count. cbn [filter]. lia.
    + apply (K n I). apply break_level in D1.
      assert (ups (fmarks f1) = ups (fmarks f) /\ downs (fmarks f1) = downs (fmarks f)) as [-> ->]; [|lia].
      split; apply count_level; auto; intros []; auto.
    + apply ok_same in D1. subst f1. unfold push in K. cbn [fmarks] in K. unfold ups, downs, count in *.
      destruct m; cbn [filter length] in K; try (apply (K n I); lia).
      * apply (K _ I). lia.
      * destruct n as [|n]; [discriminate|]. apply (K _ I). lia.
Qed.
Lemma ind_lev os : forall n n', ind n os = Some n' -> lev n os = n'.
Proof.
  induction os as [|[fn t|t b|[]] os IH]; intros n n' H; cbn [ind lev] in *; auto; try congruence.
  destruct n; [discriminate|]. auto.
Qed.
Lemma count_rev q ms : count q (rev ms) = count q ms.
Proof.
  unfold count. induction ms as [|m ms IH]; cbn [rev]; [reflexivity|].
  rewrite filter_app, app_length, IH. cbn [filter]. destruct (q m); cbn [length]; lia.
Qed.
Lemma file_no_wrap cs : wraps (CTree KStoredDefinition cs) = false.
Proof.
  cbn [wraps]. generalize (@None child). induction cs as [|d cs IH]; intro prev; [reflexivity|].
  rewrite IH. unfold turns. destruct prev, cs; reflexivity.
Qed.

(** At the end of a file the level of indentation is the number of wrapped left-hand sides
    ([leak], SpecReference); it is zero exactly if there are none. *)
Theorem C28_balance : forall s p, accepted s p ->
  exists tree ms, build_tree (p_tokens p) (p_events p) = Ok tree /\ format tree (p_comments p) = Ok ms /\
    (ups ms = downs ms + leak tree)%nat.
Proof.
  intros s p ACC.
  destruct (accepted_plan lf s p ACC) as (tree & items & l & LO & _ & _ & _ & _ & _ & _ & BT & PL & (cs & ET)).
  pose proof (lo_text _ _ _ _ LO) as H. unfold pretty_print in H. rewrite BT in H. cbn [bind] in H.
  apply bind_ok in H as (ms & FM & _). exists tree, ms. split; auto. split; auto.
  destruct PL as [E|(r & os & n' & W & TK & AI & IN & PD)].
  - rewrite E in FM. cbn in FM. apply ok_same in FM. subst ms tree. reflexivity.
  - subst tree. pose proof (all_match (CTree KStoredDefinition cs)) as M. cbn [matches] in M.
    destruct (M _ _ _ _ _ _ _ W KStoredDefinition Beside O O false [] O) as (_ & R & LV); [reflexivity|discriminate|].
    cbn [orb] in R. rewrite file_no_wrap in R. rewrite R in LV.
    replace (if skind_eqb KStoredDefinition KExpression && negb false then 0%nat else one_if false) with O in LV by reflexivity.
    rewrite Nat.add_0_r in LV. cbn [one_if Nat.add] in LV. rewrite (ind_lev _ _ _ IN) in LV. subst n'.
    inversion W as [? ? ? ? ? ? ? ms0 l0 l' os0 F IA PCL EP PR LO']; subst.
    unfold format in FM. rewrite (plan_fmt _ _ _ _ _ (formatter_new (p_comments p)) _ _ EP) in FM.
    apply bind_ok in FM as ([r1 f1] & FM & FE). apply bind_ok in FM as (f2 & FM & F1).
    apply ok_inj in F1 as [<- <-]. apply ok_same in FE. subst ms.
    pose proof (ops_levels _ _ _ _ _ FM IN) as E. unfold ups, downs in *. rewrite !count_rev.
    cbn [formatter_new fmarks] in E. unfold count at 2 4 in E. cbn [filter length] in E. lia.
Qed.
Print Assumptions C28_balance.
Example C28_applies : exists p tree, accepted C56_source p /\
  build_tree (p_tokens p) (p_events p) = Ok tree /\ leak tree = 1%nat.
Proof.
  eexists. eexists. split; [split|]; [vm_compute; reflexivity|reflexivity|].
  split; [vm_compute; reflexivity|]. vm_compute. reflexivity.
Qed.
