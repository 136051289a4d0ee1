(** When lists in brackets are wrapped. *)
From Coq Require Import Sorted.
From Verif Require Import ProofBase Tokens Syntax Lexer SpecLex LexInv LexMain LexFacts ParserCore Grammar
  Tree Printer Formatter Lib ParserSem ParserFuel SpecGrammar Regex ParserGrammar ParserTree ParserFacts Recognise PropsParser
  FmtAbs FmtPlan FmtShape FmtTables FmtSound SpecLayout FmtExec FmtTop FmtFacts FmtRelex FmtNeat PropsFormat SpecNodes FmtTree FmtLists FmtOps.

(** ** The brackets among the children of a node *)
Definition null {A} (l : list A) : bool := match l with [] => true | _ => false end.
Fixpoint words (f : sym -> bool) (r : rx) : option (list (list sym)) :=
  match r with
  | Void => Some []
  | Eps => Some [[]]
  | Sy x => Some [filter f [x]]
  | Cat a b => match words f a, words f b with
               | Some u, Some v => Some (flat_map (fun x => map (fun y => x ++ y) v) u)
               | _, _ => None
               end
  | Alt a b => match words f a, words f b with Some u, Some v => Some (u ++ v) | _, _ => None end
  | Star a => match words f a with
              | Some u => if forallb null u then Some [[]] else None
              | None => None
              end
  end.
Lemma words_complete f r w : lang r w -> forall ws, words f r = Some ws -> In (filter f w) ws.
Proof.
  induction 1 as [|x|a b u v _ IA _ IB|a b u _ IA|a b u _ IA|a|a u v _ IA _ IS]; cbn [words]; intros ws E.
  - injection E as <-. left. reflexivity.
  - injection E as <-. left. reflexivity.
  - destruct (words f a) as [wa|]; [|discriminate]. destruct (words f b) as [wb|]; [|discriminate]. injection E as <-.
    rewrite filter_app. apply in_flat_map. exists (filter f u). split; [apply IA; reflexivity|].
    apply (in_map (fun y => filter f u ++ y)). apply IB. reflexivity.
  - destruct (words f a) as [wa|]; [|discriminate]. destruct (words f b) as [wb|]; [|discriminate]. injection E as <-.
    apply in_or_app. left. apply IA. reflexivity.
  - destruct (words f a) as [wa|]; [|discriminate]. destruct (words f b) as [wb|]; [|discriminate]. injection E as <-.
    apply in_or_app. right. apply IA. reflexivity.
  - destruct (words f a) as [wa|]; [|discriminate]. destruct (forallb null wa); [|discriminate]. injection E as <-.
    left. reflexivity.
  - destruct (words f a) as [wa|] eqn:WA; [|discriminate]. destruct (forallb null wa) eqn:NU; [|discriminate].
    injection E as <-. rewrite filter_app. specialize (IA _ eq_refl). pose proof (proj1 (forallb_forall _ _) NU _ IA) as NF.
    destruct (filter f u); [|discriminate]. cbn [app]. apply IS. cbn [words]. rewrite WA, NU. reflexivity.
Qed.

Definition br (k : skind) (x : sym) : bool :=
  match x with Term t => opening k t || closing k t | Rule k' => bracketed k k' end.
Definition bracket_pairs (k : skind) : list (tkind * tkind) :=
  match k with
  | KPrimary => [(TLCurly, TRCurly); (TLBracket, TRBracket)]
  | KImportClause => [(TLCurly, TRCurly)]
  | KArraySubscripts => [(TLBracket, TRBracket)]
  | _ => [(TLParen, TRParen)]
  end.
Definition pair_of (k : skind) (o c : tkind) : bool :=
  existsb (fun p => tkind_eqb o (fst p) && tkind_eqb c (snd p)) (bracket_pairs k).
Definition good_word (k : skind) (w : list sym) : bool :=
  match w with
  | [] => true
  | [Term o; Term c] => pair_of k o c
  | [Term o; Rule k'; Term c] => pair_of k o c && bracketed k k'
  | _ => false
  end.
Definition brackets_ok : bool :=
  forallb (fun k => negb (holder k) ||
    match words (br k) (pruned (production false k)) with Some ws => forallb (good_word k) ws | None => false end) all_skinds.
Lemma brackets_true : brackets_ok = true.
Proof. vm_compute. reflexivity. Qed.

Definition quiet (k : skind) (d : child) : Prop := br k (sym_of d) = false.
Lemma filter_first (k : skind) (cs : list child) a r : filter (br k) (map sym_of cs) = a :: r ->
  exists u d v, cs = u ++ d :: v /\ Forall (quiet k) u /\ sym_of d = a /\ br k a = true /\ filter (br k) (map sym_of v) = r.
Proof.
  induction cs as [|c cs IH]; cbn [map filter]; [discriminate|]. destruct (br k (sym_of c)) eqn:B; intro E.
  - injection E as <- <-. exists [], c, cs. repeat (split; auto).
  - destruct (IH E) as (u & d & v & -> & Q & S & BA & R). exists (c :: u), d, v. repeat (split; auto).
Qed.
Lemma filter_none (k : skind) (cs : list child) : filter (br k) (map sym_of cs) = [] -> Forall (quiet k) cs.
Proof.
  induction cs as [|c cs IH]; cbn [map filter]; intro E; [constructor|]. destruct (br k (sym_of c)) eqn:B; [discriminate|].
  constructor; auto.
Qed.

Lemma bracket_shape k cs : holder k = true -> lang (pruned (production false k)) (map sym_of cs) ->
  Forall (quiet k) cs \/
  exists u x m y v, cs = u ++ CTok x :: m ++ CTok y :: v /\ pair_of k (tkind_of x) (tkind_of y) = true /\
    Forall (quiet k) u /\ Forall (quiet k) v /\
    (Forall (quiet k) m \/
     exists m1 k' ds m2, m = m1 ++ CTree k' ds :: m2 /\ bracketed k k' = true /\ Forall (quiet k) m1 /\ Forall (quiet k) m2).
Proof.
  intros H L. pose proof (skind_all _ brackets_true k) as T. cbv beta in T. rewrite H in T. cbn [negb orb] in T.
  destruct (words (br k) (pruned (production false k))) as [ws|] eqn:W; [|discriminate].
  pose proof (words_complete _ _ _ L _ W) as I. rewrite forallb_forall in T. specialize (T _ I). clear - T.
  destruct (filter (br k) (map sym_of cs)) as [|a r] eqn:E; [left; apply filter_none; exact E|]. right.
  apply filter_first in E as (u & dx & v1 & -> & QU & SX & BX & E).
  destruct a as [o|]; [|discriminate]. apply label_term in SX as (x & -> & <-).
  cbn [good_word] in T. destruct r as [|b r]; [discriminate|].
  apply filter_first in E as (m1 & dy & v2 & -> & QM & SY & BY & E). destruct b as [c|k'].
  - destruct r; [|discriminate]. apply label_term in SY as (y & -> & <-). apply filter_none in E.
    exists u, x, m1, y, v2. repeat (split; auto).
  - destruct r as [|[c|] [|]]; try discriminate. apply andb_true_iff in T as [T1 T2].
    apply label_rule in SY as (ds & ->).
    apply filter_first in E as (m2 & dy & v3 & -> & QM2 & SY & _ & E). apply label_term in SY as (y & -> & <-). apply filter_none in E.
    exists u, x, (m1 ++ CTree k' ds :: m2), y, v3. rewrite <- app_assoc. cbn [app]. repeat (split; auto).
    right. exists m1, k', ds, m2. auto.
Qed.

Lemma pair_opens k o c : pair_of k o c = true -> opening k o = true /\ closing k c = true /\ opening k c = false /\ closing k o = false.
Proof.
  unfold pair_of. intro H. apply existsb_exists in H as [[a b] [I E]]. cbn [fst snd] in E. apply andb_true_iff in E as [E1 E2].
  apply tkind_eqb_eq in E1, E2. subst. unfold bracket_pairs in I.
  destruct k; cbn [In] in I; repeat match goal with H : _ \/ _ |- _ => destruct H as [I|H] end; try contradiction;
    injection I as <- <-; repeat split; reflexivity.
Qed.
Lemma quiet_token k t : quiet k (CTok t) -> opens k t = false /\ closes k t = false.
Proof. unfold quiet, opens, closes. cbn [sym_of br]. apply orb_false_iff. Qed.

(** The tokens of a node that are its brackets. *)
Lemma shape_tokens k u x m y v t : pair_of k (tkind_of x) (tkind_of y) = true ->
  Forall (quiet k) u -> Forall (quiet k) v ->
  (Forall (quiet k) m \/
   exists m1 k' ds m2, m = m1 ++ CTree k' ds :: m2 /\ bracketed k k' = true /\ Forall (quiet k) m1 /\ Forall (quiet k) m2) ->
  In (CTok t) (u ++ CTok x :: m ++ CTok y :: v) ->
  (opens k t = true -> t = x) /\ (closes k t = true -> t = y).
Proof.
  intros P QU QV QM I. destruct (pair_opens _ _ _ P) as (P1 & P2 & P3 & P4).
  assert (forall q, Forall (quiet k) q -> In (CTok t) q -> opens k t = false /\ closes k t = false) as Q.
  { intros q F IN. rewrite Forall_forall in F. apply quiet_token, F, IN. }
  assert (opens k t = false /\ closes k t = false \/ t = x \/ t = y) as C.
  { apply in_app_or in I as [I|[I|I]]; [left; eauto|injection I; auto|].
    apply in_app_or in I as [I|[I|I]]; [|injection I; auto|left; eauto].
    left. destruct QM as [QM|(m1 & k' & ds & m2 & -> & _ & Q1 & Q2)]; [eauto|].
    apply in_app_or in I as [I|[I|I]]; [eauto|discriminate|eauto]. }
  unfold opens, closes in *. destruct C as [[A B]|[-> | ->]]; split; congruence.
Qed.
Lemma spread_shape k u x m y v : pair_of k (tkind_of x) (tkind_of y) = true ->
  Forall (quiet k) u -> Forall (quiet k) v ->
  (Forall (quiet k) m \/
   exists m1 k' ds m2, m = m1 ++ CTree k' ds :: m2 /\ bracketed k k' = true /\ Forall (quiet k) m1 /\ Forall (quiet k) m2) ->
  (spread k (u ++ CTok x :: m ++ CTok y :: v) <-> line (tstart x) < line (tstart y)).
Proof.
  intros P QU QV QM. destruct (pair_opens _ _ _ P) as (P1 & P2 & _). split.
  - intros (o & c & IO & IC & O & C & L).
    destruct (shape_tokens _ _ _ _ _ _ _ P QU QV QM IO) as [E1 _]. destruct (shape_tokens _ _ _ _ _ _ _ P QU QV QM IC) as [_ E2].
    rewrite <- E1, <- E2; auto.
  - intro L. exists x, y. repeat split; auto; [apply in_or_app; right; left; reflexivity|].
    apply in_or_app. right. right. apply in_or_app. right. left. reflexivity.
Qed.
Lemma quiet_spread k cs : Forall (quiet k) cs -> ~ spread k cs.
Proof.
  intros Q (o & _ & I & _ & O & _). rewrite Forall_forall in Q. destruct (quiet_token _ _ (Q _ I)) as [A _]. congruence.
Qed.

(** ** The flag computed from the brackets *)
Lemma last_close_quiet k c ln cs acc : closing k c = true -> Forall (fun d => forall t, d = CTok t -> closes k t = false) cs ->
  last_close c ln cs acc = acc.
Proof.
  intros C. induction 1 as [|d cs Q _ IH]; cbn [last_close]; auto. destruct d as [t|]; auto.
  destruct (tkind_eqb (tkind_of t) c) eqn:E; auto. apply tkind_eqb_eq in E. specialize (Q t eq_refl). unfold closes in Q. congruence.
Qed.
Lemma last_close_app c ln a b acc : last_close c ln (a ++ b) acc = last_close c ln b (last_close c ln a acc).
Proof. revert acc. induction a as [|[t|] a IH]; intro acc; cbn [last_close app]; auto. Qed.
Lemma paren_quiet k o c cs r : opening k o = true -> Forall (fun d => forall t, d = CTok t -> opens k t = false) cs ->
  paren_multiline o c (cs ++ r) = paren_multiline o c r.
Proof.
  intros O. induction 1 as [|d cs Q _ IH]; cbn [paren_multiline app]; auto. destruct d as [t|]; auto.
  destruct (tkind_eqb (tkind_of t) o) eqn:E; auto. apply tkind_eqb_eq in E. specialize (Q t eq_refl). unfold opens in Q. congruence.
Qed.
Lemma quiet_opens k cs : Forall (quiet k) cs -> Forall (fun d => forall t, d = CTok t -> opens k t = false) cs.
Proof. apply Forall_impl. intros d Q t ->. apply quiet_token in Q as [Q _]. exact Q. Qed.
Lemma quiet_closes k cs : Forall (quiet k) cs -> Forall (fun d => forall t, d = CTok t -> closes k t = false) cs.
Proof. apply Forall_impl. intros d Q t ->. apply quiet_token in Q as [_ Q]. exact Q. Qed.

(** Kinds whose flag compares the lines of the brackets ... *)
Definition by_brackets (k : skind) : option (tkind * tkind) :=
  match k with
  | KShortClassSpecifier | KDerClassSpecifier | KFunctionPartialApplication | KExternalFunctionCall => Some (TLParen, TRParen)
  | KImportClause => Some (TLCurly, TRCurly)
  | _ => None
  end.
Lemma paren_spread k o c cs : by_brackets k = Some (o, c) -> lang (pruned (production false k)) (map sym_of cs) ->
  (paren_multiline o c cs = true <-> spread k cs).
Proof.
  intros B L. assert (holder k = true) as H by (destruct k; try discriminate B; reflexivity).
  assert (forall a b, pair_of k a b = true -> a = o /\ b = c) as PO.
  { intros a b P. unfold pair_of in P. apply existsb_exists in P as [[a' b'] [I E]]. cbn [fst snd] in E.
    apply andb_true_iff in E as [E1 E2]. apply tkind_eqb_eq in E1, E2. subst.
    destruct k; try discriminate B; injection B as <- <-; destruct I as [I|[]]; injection I as <- <-; auto. }
  assert (opening k o = true /\ closing k c = true) as [OO CC] by (destruct k; try discriminate B; injection B as <- <-; split; reflexivity).
  destruct (bracket_shape _ _ H L) as [Q|(u & x & m & y & v & -> & P & QU & QV & QM)].
  - rewrite <- (app_nil_r cs) at 1. rewrite (paren_quiet k) by (auto; apply quiet_opens, Q). cbn [paren_multiline].
    split; [discriminate|]. intro S. exfalso. eapply quiet_spread; eauto.
  - rewrite (spread_shape _ _ _ _ _ _ P QU QV QM). destruct (PO _ _ P) as [EX EY].
    rewrite (paren_quiet k) by (auto; apply quiet_opens, QU). cbn [paren_multiline]. rewrite EX, tkind_eqb_refl.
    rewrite last_close_app. cbn [last_close]. rewrite EY, tkind_eqb_refl.
    rewrite (last_close_quiet k) by (auto; apply quiet_closes, QV). apply N.ltb_lt.
Qed.

(** ** The tokens of a tree and their lines *)
Lemma brackets_flat k w : opening KError k || closing KError k = true -> lexeme k w -> newlines w = 0.
Proof.
  intros K L. inversion L as [k' w' (z & I & ->)|k' w' (z & I & ->)| | | | | | | |]; subst; try discriminate K.
  all: revert I; unfold spellings, reserved; cbn [In]; intro I.
  all: repeat match goal with H : _ \/ _ |- _ => destruct H as [I|H] end; try contradiction.
  all: injection I as <- <-; try discriminate K; reflexivity.
Qed.
Lemma laid_height gap s items : laid gap s items ->
  Forall (fun t => line (tend t) = line (tstart t) + newlines (ttext t)) items.
Proof.
  induction 1 as [|c x items _ IH _|c items t _ IH (A & _) _ (B & _) _ _]; auto.
  apply Forall_app. split; auto. constructor; auto. rewrite A, B, newlines_app. lia.
Qed.

Definition flat (t : token) : Prop :=
  opening KError (tkind_of t) || closing KError (tkind_of t) = true -> line (tend t) = line (tstart t).
Record sound_tokens (ts : list token) : Prop := {
  so_sorted : StronglySorted before ts;
  so_upright : Forall upright ts;
  so_flat : Forall flat ts
}.
Lemma sorted_filter {A} (R : A -> A -> Prop) f (l : list A) : StronglySorted R l -> StronglySorted R (filter f l).
Proof.
  induction 1 as [|x l S IH F]; cbn [filter]; [constructor|]. destruct (f x); auto. constructor; auto.
  apply Forall_forall. intros y I. apply filter_In in I as [I _]. rewrite Forall_forall in F. auto.
Qed.
Lemma forall_filter {A} (P : A -> Prop) f (l : list A) : Forall P l -> Forall P (filter f l).
Proof. rewrite !Forall_forall. intros F x I. apply filter_In in I as [I _]. auto. Qed.
Lemma sorted_mid {A} (R : A -> A -> Prop) (a b c : list A) : StronglySorted R (a ++ b ++ c) -> StronglySorted R b.
Proof.
  intro S. induction a as [|x a IH]; cbn [app] in S.
  - induction b as [|y b IH]; [constructor|]. inversion S as [|? ? S' F]; subst. constructor; auto.
    apply Forall_app in F as [F _]. exact F.
  - apply IH. inversion S; auto.
Qed.
Lemma sound_mid a b c : sound_tokens (a ++ b ++ c) -> sound_tokens b.
Proof.
  intros [S U F]. apply sorted_mid in S. rewrite !Forall_app in U, F. split; tauto.
Qed.

Lemma tree_sound s p tree : accepted s p -> build_tree (p_tokens p) (p_events p) = Ok tree -> sound_tokens (toks tree).
Proof.
  intros A B. destruct (accepted_plan [] s p A) as (tree' & items & l & _ & LX & _ & LA & PT & _ & _ & _ & _ & _).
  rewrite toks_leaves. rewrite (proj1 (C15_leaves _ _ _ _ (proj1 A) B)), PT.
  destruct (laid_ordered _ _ _ LA) as [S U _]. split; [apply sorted_filter, S|apply forall_filter, U|].
  apply forall_filter. pose proof (laid_height _ _ _ LA) as H. pose proof (lexes_lexemes _ _ LX) as LE.
  rewrite Forall_forall in *. intros t I K. rewrite (H _ I). rewrite (brackets_flat _ _ K (LE _ I)). lia.
Qed.
Lemma inside_toks c t : inside c t -> exists a b, toks t = a ++ toks c ++ b.
Proof.
  induction 1 as [c|c k cs d I _ (a & b & E)]; [exists [], []; rewrite app_nil_r; reflexivity|].
  apply in_split in I as (u & v & ->). cbn [toks]. rewrite flat_map_app. cbn [flat_map]. rewrite E.
  exists (flat_map toks u ++ a), (b ++ flat_map toks v). rewrite <- !app_assoc. reflexivity.
Qed.
Lemma node_sound s p tree c : accepted s p -> build_tree (p_tokens p) (p_events p) = Ok tree -> inside c tree ->
  sound_tokens (toks c).
Proof.
  intros A B I. pose proof (tree_sound _ _ _ A B) as S. destruct (inside_toks _ _ I) as (a & b & E). rewrite E in S.
  eapply sound_mid. exact S.
Qed.
Lemma sorted_split {A} (R : A -> A -> Prop) (a b : list A) : StronglySorted R (a ++ b) ->
  forall x y, In x a -> In y b -> R x y.
Proof.
  induction a as [|z a IH]; intros S x y IX IY; [destruct IX|]. cbn [app] in S. inversion S as [|? ? S' F]; subst.
  destruct IX as [<-|IX]; [|eauto]. rewrite Forall_forall in F. apply F, in_or_app. auto.
Qed.

Lemma multi_lines c : fits c -> is_multiline c = Some (first_line c <? last_line c).
Proof.
  intro F. destruct (fits_start c F) as (a & ra & SA & _). destruct (fits_end c F) as (b & rb & EB & _).
  unfold is_multiline. rewrite SA, EB, (first_line_start _ _ F SA), (last_line_end _ _ F EB). reflexivity.
Qed.

(** ** The flag computed from the first and the last token *)
Definition by_ends (k : skind) : bool :=
  match k with
  | KFunctionCallArgs | KPrimary | KArraySubscripts | KClassModification | KClassOrInheritanceModification => true
  | _ => false
  end.
Definition ends_ok : bool :=
  forallb (fun k => negb (by_ends k) ||
    forallb (fun p => negb match snd p with Term o => opening k o | _ => false end &&
                      negb match fst p with Term c => closing k c | _ => false end)
            (pairs (pruned (production false k)))) all_skinds.
Lemma ends_true : ends_ok = true.
Proof. vm_compute. reflexivity. Qed.
Lemma ends_shape k u x m y v : by_ends k = true -> opens k x = true -> closes k y = true ->
  lang (pruned (production false k)) (map sym_of (u ++ CTok x :: m ++ CTok y :: v)) -> u = [] /\ v = [].
Proof.
  intros B O C L. pose proof (skind_all _ ends_true k) as T. cbv beta in T. rewrite B in T. cbn [negb orb] in T.
  rewrite forallb_forall in T. split.
  - destruct u as [|d u _] using rev_ind; auto. exfalso. rewrite <- app_assoc in L. cbn [app] in L.
    apply neighbours in L. specialize (T _ L). cbn [fst snd sym_of] in T. unfold opens in O. rewrite O in T. discriminate.
  - destruct v as [|d v]; auto. exfalso.
    replace (u ++ CTok x :: m ++ CTok y :: d :: v) with ((u ++ CTok x :: m) ++ CTok y :: d :: v) in L by (rewrite <- app_assoc; reflexivity).
    apply neighbours in L. specialize (T _ L). cbn [fst snd sym_of] in T. unfold closes in C. rewrite C in T.
    apply andb_true_iff in T as [_ T]. discriminate.
Qed.
Lemma ends_spread k cs : by_ends k = true -> fits (CTree k cs) -> sound_tokens (toks (CTree k cs)) ->
  (exists t, In (CTok t) cs /\ opens k t = true) ->
  exists b, is_multiline (CTree k cs) = Some b /\ (b = true <-> spread k cs).
Proof.
  intros B F S (t & IT & OT). assert (holder k = true) as H by (destruct k; try discriminate B; reflexivity).
  pose proof F as F'. inversion F as [|k' cs' NE L FC]; subst.
  destruct (bracket_shape _ _ H L) as [Q|(u & x & m & y & v & -> & P & QU & QV & QM)].
  - rewrite Forall_forall in Q. destruct (quiet_token _ _ (Q _ IT)). congruence.
  - rewrite (multi_lines _ F'). eexists. split; [reflexivity|]. rewrite (spread_shape _ _ _ _ _ _ P QU QV QM).
    destruct (pair_opens _ _ _ P) as (PO & PC & _).
    destruct (ends_shape _ _ _ _ _ _ B PO PC L) as [-> ->]. cbn [app].
    assert (toks (CTree k (CTok x :: m ++ [CTok y])) = x :: flat_map toks m ++ [y]) as E.
    { cbn [toks flat_map app]. rewrite flat_map_app. reflexivity. }
    cbn [app] in S. rewrite E in S. unfold first_line, last_line. rewrite E.
    change (rev (x :: flat_map toks m ++ [y])) with (rev ((x :: flat_map toks m) ++ [y])). rewrite rev_app_distr. cbn [rev app].
    destruct S as [_ _ FL]. rewrite Forall_forall in FL. rewrite (FL y).
    + apply N.ltb_lt.
    + right. apply in_or_app. right. left. reflexivity.
    + apply orb_true_iff. right. clear - PC. unfold closing in *. destruct (tkind_of y); try discriminate; reflexivity.
Qed.

(** ** Where the list is *)
Lemma bracket_word k cs : holder k = true -> lang (pruned (production false k)) (map sym_of cs) ->
  good_word k (filter (br k) (map sym_of cs)) = true.
Proof.
  intros H L. pose proof (skind_all _ brackets_true k) as T. cbv beta in T. rewrite H in T. cbn [negb orb] in T.
  destruct (words (br k) (pruned (production false k))) as [ws|] eqn:W; [|discriminate].
  rewrite forallb_forall in T. apply T. eapply words_complete; eauto.
Qed.
Lemma open_first k u o v : holder k = true -> opens k o = true ->
  lang (pruned (production false k)) (map sym_of (u ++ CTok o :: v)) -> Forall (quiet k) u.
Proof.
  intros H O L. apply filter_none. pose proof (bracket_word _ _ H L) as G. rewrite map_app, filter_app in G. cbn [map filter sym_of br] in G.
  unfold opens in O. rewrite O in G. cbn [orb] in G.
  destruct (filter (br k) (map sym_of u)) as [|a [|b [|c r]]]; auto; exfalso; cbn [app good_word] in G.
  - destruct a; [|discriminate]. destruct (filter (br k) (map sym_of v)); [|discriminate].
    destruct (pair_opens _ _ _ G) as (_ & _ & E & _). congruence.
  - destruct a; [|discriminate]. destruct b; [discriminate|]. destruct (filter (br k) (map sym_of v)); [|discriminate].
    apply andb_true_iff in G as [G _]. destruct (pair_opens _ _ _ G) as (_ & _ & E & _). congruence.
  - destruct a; [|discriminate]. destruct b; [discriminate|]. destruct c; [|discriminate]. destruct r; discriminate.
Qed.
Lemma child_between k u k' ds v : holder k = true -> bracketed k k' = true ->
  lang (pruned (production false k)) (map sym_of (u ++ CTree k' ds :: v)) ->
  exists u1 x u2 v1 y v2, u = u1 ++ CTok x :: u2 /\ v = v1 ++ CTok y :: v2 /\ pair_of k (tkind_of x) (tkind_of y) = true /\
    Forall (quiet k) u1 /\ Forall (quiet k) u2 /\ Forall (quiet k) v1 /\ Forall (quiet k) v2.
Proof.
  intros H B L. pose proof (bracket_word _ _ H L) as G. rewrite map_app, filter_app in G. cbn [map filter sym_of br] in G.
  rewrite B in G. destruct (filter (br k) (map sym_of u)) as [|a r] eqn:EU; [discriminate|].
  destruct r as [|b [|c r]]; cbn [app good_word] in G.
  - destruct a; [|discriminate]. destruct (filter (br k) (map sym_of v)) as [|y r2] eqn:EV; [discriminate|]. destruct y; [|discriminate].
    destruct r2; [|discriminate]. apply andb_true_iff in G as [G _].
    apply filter_first in EU as (u1 & dx & u2 & -> & Q1 & S1 & _ & E1). apply label_term in S1 as (x & -> & <-).
    apply filter_first in EV as (v1 & dy & v2 & -> & Q2 & S2 & _ & E2). apply label_term in S2 as (y & -> & <-).
    exists u1, x, u2, v1, y, v2. repeat (split; auto using filter_none).
  - destruct a; [|discriminate]. destruct b; discriminate.
  - destruct a; [|discriminate]. destruct b; [discriminate|]. destruct c; [|discriminate]. destruct r; discriminate.
Qed.
Lemma between_spread k u k' ds v : holder k = true -> bracketed k k' = true ->
  fits (CTree k (u ++ CTree k' ds :: v)) -> sound_tokens (toks (CTree k (u ++ CTree k' ds :: v))) ->
  (exists t, In (CTok t) (u ++ CTree k' ds :: v) /\ opens k t = true) /\ (2 < length (u ++ CTree k' ds :: v))%nat /\
  (first_line (CTree k' ds) < last_line (CTree k' ds) -> spread k (u ++ CTree k' ds :: v)).
Proof.
  intros H B F S. inversion F as [|? ? _ L FC]; subst.
  destruct (child_between _ _ _ _ _ H B L) as (u1 & x & u2 & v1 & y & v2 & -> & -> & P & _).
  destruct (pair_opens _ _ _ P) as (PO & PC & _). split; [|split].
  - exists x. split; auto. apply in_or_app. left. apply in_or_app. right. left. reflexivity.
  - rewrite !app_length. cbn [length]. rewrite app_length. cbn [length]. lia.
  - intro M. exists x, y. repeat split; auto.
    { apply in_or_app. left. apply in_or_app. right. left. reflexivity. }
    { apply in_or_app. right. right. apply in_or_app. right. left. reflexivity. }
    apply Forall_app in FC as [_ FC]. inversion FC as [|? ? FC1 _]; subst.
    destruct (fits_start _ FC1) as (a & ra & SA & LA). destruct (fits_end _ FC1) as (b & rb & EB & LB).
    rewrite (first_line_start _ _ FC1 SA), (last_line_end _ _ FC1 EB) in M.
    assert (toks (CTree k ((u1 ++ CTok x :: u2) ++ CTree k' ds :: v1 ++ CTok y :: v2)) =
      (flat_map toks u1 ++ x :: flat_map toks u2) ++ toks (CTree k' ds) ++ (flat_map toks v1 ++ y :: flat_map toks v2)) as E.
    { cbn [toks]. rewrite !flat_map_app. cbn [flat_map toks app]. rewrite flat_map_app. cbn [flat_map toks app]. reflexivity. }
    rewrite E in S. destruct S as [SS SU _].
    assert (In a (toks (CTree k' ds))) as IA by (rewrite toks_leaves, LA; left; reflexivity).
    assert (In b (toks (CTree k' ds))) as IB by (rewrite toks_leaves, LB; apply in_or_app; right; left; reflexivity).
    assert (before x a) as [_ X].
    { eapply sorted_split; [exact SS| |apply in_or_app; left; exact IA]. apply in_or_app. right. left. reflexivity. }
    rewrite app_assoc in SS. assert (before b y) as [_ Y].
    { eapply sorted_split; [exact SS|apply in_or_app; right; exact IB|]. apply in_or_app. right. left. reflexivity. }
    rewrite !Forall_app in SU. destruct SU as [[_ SU] _]. inversion SU as [|? ? [_ UX] _]; subst. lia.
Qed.

(** ** Descriptions inside *)
Lemma contains_inside k c : contains k c = true <-> exists k0 cs ds d, c = CTree k0 cs /\ In d cs /\ inside (CTree k ds) d.
Proof.
  induction c as [t|k0 cs IH] using child_ind2.
  - split; [discriminate|]. intros (? & ? & ? & ? & E & _). discriminate.
  - cbn [contains]. split.
    + intro C. enough (exists ds d, In d cs /\ inside (CTree k ds) d) as (ds & d & I & N) by (exists k0, cs, ds, d; auto).
      induction IH as [|c cs IC _ IHc]; [discriminate|]. destruct c as [t|k1 es].
      * destruct (IHc C) as (ds & d & I & N). exists ds, d. split; [right; exact I|exact N].
      * apply orb_true_iff in C as [C|C].
        -- destruct (skind_eqb k1 k) eqn:E.
           ++ apply skind_eqb_eq in E. subst. exists es, (CTree k es). split; [left; reflexivity|apply in_here].
           ++ apply IC in C as (k2 & cs2 & ds & d & E2 & I & N). injection E2 as <- <-.
              exists ds, (CTree k1 es). split; [left; reflexivity|]. eapply in_below; eauto.
        -- destruct (IHc C) as (ds & d & I & N). exists ds, d. split; [right; exact I|exact N].
    + intros (? & ? & ds & d & E & I & N). injection E as <- <-.
      induction IH as [|c cs IC _ IHc]; [destruct I|]. destruct I as [->|I].
      * destruct d as [t|k1 es]; [inversion N|]. apply orb_true_iff. left. destruct (skind_eqb k1 k) eqn:E; auto.
        inversion N as [|? ? ? d' I' N']; subst; [rewrite skind_eqb_refl in E; discriminate|].
        apply IC. exists k1, es, ds, d'. auto.
      * destruct c; auto. apply orb_true_iff. right. auto.
Qed.
Lemma contains_below k k0 cs : k0 <> k -> (contains k (CTree k0 cs) = true <-> exists ds, inside (CTree k ds) (CTree k0 cs)).
Proof.
  intro NE. rewrite contains_inside. split.
  - intros (? & ? & ds & d & E & I & N). injection E as <- <-. exists ds. eapply in_below; eauto.
  - intros (ds & N). inversion N as [|? ? ? d I N']; subst; [contradiction|]. exists k0, cs, ds, d. auto.
Qed.

(** ** The flag of a node with brackets *)
Lemma ok_inj {A B} (a a' : A) (b b' : B) : Ok (a, b) = Ok (a', b') -> a = a' /\ b = b'.
Proof. intro E. inversion E. auto. Qed.
Lemma holder_flag k cs ml w oel ms l0 : holder k = true -> fits (CTree k cs) -> sound_tokens (toks (CTree k cs)) ->
  (by_ends k = true -> exists t, In (CTok t) cs /\ opens k t = true) ->
  (k = KClassOrInheritanceModification -> (2 < length cs)%nat) ->
  prologue k ml w oel (CTree k cs) cs = Ok (ms, l0) ->
  (l_ml l0 = true <-> match k with KShortClassSpecifier => spread k cs | _ => wrapped (CTree k cs) end).
Proof.
  intros H F S O LEN P. pose proof F as F'. inversion F as [|? ? NE L FC]; subst.
  destruct (by_ends k) eqn:BE.
  - destruct (ends_spread _ _ BE F' S (O eq_refl)) as (b & M & E).
    destruct k; try discriminate BE; cbn [prologue] in P; rewrite M in P; cbn [unwrap bind] in P; apply ok_inj in P as [_ <-]; cbn [l_ml set_ml wrapped];
      try exact E.
    + (* class_or_inheritance_modification *)
      unfold len_cmp. specialize (LEN eq_refl). replace (2 <? N.of_nat (length cs)) with true by (symmetry; apply N.ltb_lt; lia).
      rewrite andb_true_r. exact E.
    + (* class_modification *)
      rewrite !orb_true_iff, E, !contains_below by discriminate. split.
      * intros [[A|[ds A]]|[ds A]]; auto; right; eauto.
      * intros [A|(k & ds & [-> | ->] & A)]; eauto.
  - destruct (by_brackets k) as [[o c]|] eqn:BB.
    + pose proof (paren_spread _ _ _ _ BB L) as E.
      destruct k; try discriminate BB; injection BB as <- <-; cbn [prologue] in P; injection P as <- <-; cbn [l_ml set_ml wrapped]; exact E.
    + destruct k; try discriminate H; try discriminate BE; try discriminate BB.
      cbn [prologue] in P. rewrite (multi_lines _ F') in P. cbn [unwrap bind] in P. injection P as <- <-. cbn [l_ml set_ml wrapped].
      apply N.ltb_lt.
Qed.

(** ** Without brackets there is no list *)
Fixpoint without (f : sym -> bool) (r : rx) : rx :=
  match r with
  | Sy x => if f x then Void else Sy x
  | Cat a b => match without f a, without f b with
               | Void, _ | _, Void => Void
               | a', b' => Cat a' b'
               end
  | Alt a b => match without f a, without f b with
               | Void, b' => b'
               | a', Void => a'
               | a', b' => Alt a' b'
               end
  | Star a => Star (without f a)
  | _ => r
  end.
Lemma without_lang f r w : lang r w -> Forall (fun x => f x = false) w -> lang (without f r) w.
Proof.
  induction 1 as [|x|a b u v _ IA _ IB|a b u _ IA|a b u _ IA|a|a u v _ IA _ IS]; cbn [without]; intro F.
  - apply l_eps.
  - inversion F as [|? ? E _]; subst. rewrite E. apply l_sy.
  - apply Forall_app in F as [FA FB]. specialize (IA FA). specialize (IB FB).
    destruct (without f a) eqn:EA; try (destruct (without f b) eqn:EB); try (apply l_cat; assumption);
      try (inversion IA; fail); try (inversion IB; fail).
  - specialize (IA F). destruct (without f a) eqn:EA; try (destruct (without f b) eqn:EB);
      try (apply l_altl; assumption); try assumption; try (inversion IA; fail).
  - specialize (IA F). destruct (without f a) eqn:EA; try (destruct (without f b) eqn:EB);
      try (apply l_altr; assumption); try assumption; try (inversion IA; fail).
  - apply l_star0.
  - apply Forall_app in F as [FA FB]. apply l_star; auto.
Qed.
Definition bare_ok : bool :=
  forallb (fun k => negb (own_brackets k) ||
    forallb (fun x => negb match x with Rule k' => list_rest k' | Term _ => sep_sym x end)
      (letters (without (br k) (pruned (production false k))))) all_skinds.
Lemma bare_true : bare_ok = true.
Proof. vm_compute. reflexivity. Qed.
Lemma quiet_seps k cs : own_brackets k = true -> lang (pruned (production false k)) (map sym_of cs) ->
  Forall (quiet k) cs -> seps (CTree k cs) = [].
Proof.
  intros O L Q. destruct (seps (CTree k cs)) as [|t r] eqn:E; auto. exfalso.
  assert (In t (seps (CTree k cs))) as I by (rewrite E; left; reflexivity). clear E.
  pose proof (skind_all _ bare_true k) as T. cbv beta in T. rewrite O in T. cbn [negb orb] in T. rewrite forallb_forall in T.
  assert (lang (without (br k) (pruned (production false k))) (map sym_of cs)) as L'.
  { apply without_lang; auto. apply Forall_map. exact Q. }
  destruct (seps_in _ _ _ I) as [[IT S]|(k2 & ds & ID & R & _)].
  - specialize (T _ (letters_complete _ _ L' _ (in_map sym_of _ _ IT))). cbn [sym_of] in T. unfold is_sep in S.
    unfold sep_sym in T. destruct (tkind_of t); try discriminate S; discriminate T.
  - specialize (T _ (letters_complete _ _ L' _ (in_map sym_of _ _ ID))). cbn [sym_of] in T. rewrite R in T. discriminate.
Qed.
Lemma seps_open k cs t : own_brackets k = true -> lang (pruned (production false k)) (map sym_of cs) ->
  In t (seps (CTree k cs)) -> exists o, In (CTok o) cs /\ opens k o = true.
Proof.
  intros O L I. assert (holder k = true) as H by (unfold holder; rewrite O; reflexivity).
  destruct (bracket_shape _ _ H L) as [Q|(u & x & m & y & v & -> & P & _)].
  - rewrite (quiet_seps _ _ O L Q) in I. destruct I.
  - destruct (pair_opens _ _ _ P) as (PO & _). exists x. split; auto. apply in_or_app. right. left. reflexivity.
Qed.

(** ** Separators of lists in brackets *)
Lemma node_fits tree items l k cs : planned tree items l -> cs <> [] -> inside (CTree k cs) tree -> fits (CTree k cs).
Proof.
  intros PL NE IN. destruct (node_word _ _ _ _ _ PL NE IN) as [L F]. constructor; auto.
Qed.

Section Formatted.
Variables (eol s : text) (p : parsed) (tree : child) (items : list token) (l : layout).
Hypotheses (ACC : accepted s p) (BT : build_tree (p_tokens p) (p_events p) = Ok tree)
  (LO : layout_of eol s p l) (PL : planned tree items l).

Lemma own_list k cs t e : own_brackets k = true -> inside (CTree k cs) tree ->
  In t (seps (CTree k cs)) -> next_code l t e -> (is_break (e_white e) = true <-> wrapped (CTree k cs)).
Proof.
  intros O IN I NC. destruct cs as [|c0 cs0] eqn:EC; [destruct I|]. rewrite <- EC in *.
  assert (cs <> []) as NE by (rewrite EC; discriminate). clear EC c0 cs0.
  pose proof (node_fits _ _ _ _ _ PL NE IN) as F. pose proof F as F'. inversion F' as [|? ? _ L FC]; subst.
  assert (list_node k || list_rest k = true) as K by (destruct k; try discriminate O; reflexivity).
  destruct (list_white _ _ _ _ _ _ _ _ LO PL K NE IN) as (ml & w & oel & ms & l0 & PR & W).
  rewrite (W t e I NC).
  pose proof (holder_flag k cs ml w oel ms l0) as HF.
  assert (breaks k l0 = l_ml l0) as -> by (destruct k; try discriminate O; reflexivity).
  rewrite HF; auto.
  - destruct k; try discriminate O; reflexivity.
  - unfold holder. rewrite O. reflexivity.
  - eapply node_sound; eauto.
  - intros _. eapply seps_open; eauto.
  - intros ->. discriminate.
Qed.

(** A list that is a node of its own: the flag passed to it. *)
Lemma held_call k l1 v k' ml w oel keep : bracketed k k' = true ->
  In (ACall k' ml w oel keep) (fst (step k l1 v)) ->
  ml = match k with KShortClassSpecifier => l_ml l1 || v_desc v | _ => l_ml l1 end.
Proof.
  intro B. destruct k; try discriminate B; destruct k'; try discriminate B; cbv [step].
  all: match goal with |- In _ (fst (?f ?x ?y)) -> _ => unfold f end.
  all: unfold call, call_ml, call_w, unreachable, bos.
  all: repeat match goal with |- context [match ?x with _ => _ end] => destruct x eqn:? end.
  all: cbn [fst app In]; intro I;
       repeat match goal with H : _ \/ _ |- _ => destruct H end; try contradiction; try discriminate.
  all: match goal with H : ACall _ _ _ _ _ = _ |- _ => injection H; intros; subst end; congruence.
Qed.
Lemma held_keeps k u : (forall k', bracketed k k' = true -> forall ds, ~ In (CTree k' ds) u) ->
  existsb (bracketed k) all_skinds = true -> keeps_over k u.
Proof.
  intros N H d I l1 v E. destruct k; try discriminate H; cbv [step].
  all: match goal with |- l_ml (snd (?f ?x ?y)) = _ => unfold f end.
  all: repeat match goal with |- context [match ?x with _ => _ end] => destruct x eqn:? end; cbn [snd]; try congruence.
  all: exfalso; destruct d as [?|k1 ds]; [discriminate|]; injection E as <-; eapply (N KEnumList eq_refl); exact I.
Qed.

(** The flag of a node at the child that is the list. *)
Lemma list_flag k cs ml w oel ms l0 es v : bracketed k es = true ->
  inside (CTree k cs) tree -> (exists ds, In (CTree es ds) cs /\ v_desc v = contains KDescription (CTree es ds)) ->
  prologue k ml w oel (CTree k cs) cs = Ok (ms, l0) ->
  (match k with KShortClassSpecifier => l_ml l0 || v_desc v | _ => l_ml l0 end = true <-> wrapped (CTree k cs)).
Proof.
  intros B IN (ds & ID & VD) PR. assert (cs <> []) as NE by (intros ->; destruct ID).
  pose proof (node_fits _ _ _ _ _ PL NE IN) as F. pose proof (node_sound _ _ _ _ ACC BT IN) as S.
  assert (holder k = true) as H by (destruct k; try discriminate B; reflexivity).
  pose proof ID as ID'. apply in_split in ID as (u & v' & ->).
  destruct (between_spread _ _ _ _ _ H B F S) as (OP & LEN & _).
  pose proof (holder_flag _ _ _ _ _ _ _ H F S (fun _ => OP) (fun _ => LEN) PR) as HF.
  destruct k; try discriminate B; try exact HF. rewrite orb_true_iff, HF, VD. cbn [wrapped].
  destruct es; try discriminate B. rewrite contains_below by discriminate. split; intros [A|A]; auto.
  - destruct A as [es A]. right. exists ds, es. auto.
  - destruct A as (es & ds' & I & A). right. exists ds'. inversion F as [|? ? _ L _]; subst.
    destruct (child_between _ _ _ _ _ H B L) as (u1 & x & u2 & v1 & y & v2 & -> & -> & _ & Q1 & Q2 & Q3 & Q4).
    assert (forall q, Forall (quiet KShortClassSpecifier) q -> ~ In (CTree KEnumList es) q) as NQ.
    { intros q Q I'. rewrite Forall_forall in Q. specialize (Q _ I'). discriminate Q. }
    apply in_app_or in I as [I|[I|I]].
    + apply in_app_or in I as [I|[I|I]]; [|discriminate|]; exfalso; [exact (NQ _ Q1 I)|exact (NQ _ Q2 I)].
    + injection I as ->. exact A.
    + apply in_app_or in I as [I|[I|I]]; [|discriminate|]; exfalso; [exact (NQ _ Q3 I)|exact (NQ _ Q4 I)].
Qed.
Lemma list_only k u k' ds v : bracketed k k' = true -> holder k = true ->
  lang (pruned (production false k)) (map sym_of (u ++ CTree k' ds :: v)) ->
  forall k2, bracketed k k2 = true -> forall es, ~ In (CTree k2 es) u.
Proof.
  intros B H L k2 B2 es I. destruct (child_between _ _ _ _ _ H B L) as (u1 & x & u2 & v1 & y & v2 & -> & _ & _ & Q1 & Q2 & _).
  rewrite Forall_forall in Q1, Q2.
  apply in_app_or in I as [I|[I|I]]; [specialize (Q1 _ I)|discriminate|specialize (Q2 _ I)];
    unfold quiet in *; cbn [sym_of br] in *; congruence.
Qed.

Lemma below_list k cs k' ds t e : bracketed k k' = true -> inside (CTree k cs) tree -> In (CTree k' ds) cs ->
  In t (seps (CTree k' ds)) -> next_code l t e -> (is_break (e_white e) = true <-> wrapped (CTree k cs)).
Proof.
  intros B IN ID I NC. assert (cs <> []) as NE by (intros ->; destruct ID).
  pose proof (node_fits _ _ _ _ _ PL NE IN) as F. pose proof (node_sound _ _ _ _ ACC BT IN) as S.
  assert (holder k = true) as H by (destruct k; try discriminate B; reflexivity).
  assert (existsb (bracketed k) all_skinds = true) as HB by (destruct k; try discriminate B; reflexivity).
  destruct (node_whole _ _ _ _ _ PL NE IN) as (ml & w & oel & pv & ln & r & a & o & b & W & P).
  destruct (whole_child _ _ _ _ _ _ _ _ _ W) as (ms & l0 & l' & os & PR & -> & LP & FC & LA).
  pose proof ID as ID'. apply in_split in ID as (u & v & ->).
  destruct (loop_call _ _ _ _ _ _ _ _ _ _ _ FC LP) as (l1 & pv1 & ln1 & ml2 & w2 & oel2 & keep & r2 & a2 & o2 & b2 & IA & -> & W2 & M & _).
  assert (l_ml l1 = l_ml l0) as M1 by (apply M, held_keeps; auto; eapply list_only; eauto).
  apply held_call in IA; auto. rewrite M1 in IA.
  match type of IA with ml2 = match k with KShortClassSpecifier => _ || v_desc ?x | _ => _ end => set (vw := x) in * end.
  assert (ml2 = true <-> wrapped (CTree k (u ++ CTree k' ds :: v))) as WR.
  { rewrite IA. eapply (list_flag k _ _ _ _ _ _ k' vw); eauto. }
  destruct (whole_child _ _ _ _ _ _ _ _ _ W2) as (ms2 & l4 & l5 & os2 & PR2 & _ & _ & FD & LD).
  assert (list_node k' || list_rest k' = true) as K' by (destruct k; try discriminate B; destruct k'; try discriminate B; reflexivity).
  destruct (list_gaps _ _ _ _ _ _ _ _ _ _ _ _ eq_refl K' W2 PR2 t I) as (G & t2 & FO & BK).
  assert (follow (a ++ (map PMark ms ++ (a2 ++ o2 ++ b2) ++ map PMark (epilogue k l')) ++ b) t G t2) as FO'
    by (apply follow_in, follow_in, follow_in; exact FO).
  destruct (follow_next _ _ _ _ _ _ (layout_nodup _ _ _ _ LO) P FO') as (n & N1 & _).
  destruct (N1 e NC) as [_ BG]. rewrite (by_gap_brk _ _ _ BG), BK.
  destruct (between_spread _ _ _ _ _ H B F S) as (OP & LEN & SP).
  assert (fits (CTree k' ds)) as FK by (apply Forall_app in FC as [_ FC]; inversion FC; auto).
  assert (breaks k' l4 = ml2 || (first_line (CTree k' ds) <? last_line (CTree k' ds))) as ->.
  { destruct k; try discriminate B; destruct k'; try discriminate B; cbn [prologue breaks] in *;
      destruct ml2; try (apply ok_inj in PR2 as [_ <-]; reflexivity);
      rewrite (multi_lines _ FK) in PR2; cbn [unwrap bind] in PR2; apply ok_inj in PR2 as [_ <-]; reflexivity. }
  rewrite orb_true_iff, N.ltb_lt, WR. split; [|auto]. intros [A|A]; auto. specialize (SP A).
  destruct k; try discriminate B; cbn [wrapped]; auto.
Qed.

(** ** The opening bracket *)
Definition opened_ok : bool :=
  forallb (fun k => negb (holder k) ||
    forallb (fun p => match p with
                      | (Term o, Rule k2) => negb (opening k o) || plain_heads k2
                      | _ => true
                      end) (pairs (pruned (production false k)))) all_skinds.
Lemma opened_true : opened_ok = true.
Proof. vm_compute. reflexivity. Qed.
Lemma opened_head k o k2 ds G : holder k = true -> opening k o = true -> In (Term o, Rule k2) (pairs (pruned (production false k))) ->
  head_gap (CTree k2 ds) G -> brk G = false.
Proof.
  intros H O I HG. cbn [head_gap] in HG. destruct HG as [d HG]. eapply plain_head; [|exact HG].
  pose proof (skind_all _ opened_true k) as T. cbv beta in T. rewrite H in T. cbn [negb orb] in T. rewrite forallb_forall in T.
  specialize (T _ I). cbv beta iota in T. rewrite O in T. exact T.
Qed.
Lemma connect_open u o v : opens KConnectEquation o = true ->
  lang (pruned (production false KConnectEquation)) (map sym_of (u ++ CTok o :: v)) -> length u = 1%nat.
Proof.
  intros O L. destruct u as [|d u _] using rev_ind.
  - exfalso. apply initial_child in L. remember (sym_of (CTok o)) as x eqn:X. vm_compute in L. destruct L as [L|[]].
    rewrite <- L in X. injection X as X. unfold opens in O. rewrite <- X in O. discriminate.
  - destruct u as [|d' u _] using rev_ind; [reflexivity|]. exfalso.
    rewrite <- !app_assoc in L. cbn [app] in L. pose proof (neighbours _ _ _ _ _ L) as N1.
    replace (u ++ d' :: d :: CTok o :: v) with ((u ++ [d']) ++ d :: CTok o :: v) in L by (rewrite <- app_assoc; reflexivity).
    pose proof (neighbours _ _ _ _ _ L) as N2.
    remember (sym_of (CTok o)) as x eqn:X. remember (sym_of d) as y eqn:Y. remember (sym_of d') as z eqn:Z.
    assert (x = Term TLParen \/ x = Term TLCurly \/ x = Term TLBracket) as XO.
    { rewrite X. cbn [sym_of]. unfold opens in O. destruct (tkind_of o); try discriminate O; auto. }
    clear X Y Z. vm_compute in N1, N2.
    repeat match goal with H : _ \/ _ |- _ => destruct H end; congruence || contradiction.
Qed.

(** What can follow the opening bracket. *)
Definition after_open (k : skind) : list skind :=
  flat_map (fun p => match p with (Term o, Rule k2) => if opening k o then [k2] else [] | _ => [] end)
    (pairs (pruned (production false k))).
Lemma after_opens k u o k2 ds v : opens k o = true ->
  lang (pruned (production false k)) (map sym_of (u ++ CTok o :: CTree k2 ds :: v)) -> In k2 (after_open k).
Proof.
  intros O L. apply neighbours in L. unfold after_open. apply in_flat_map. eexists. split; [exact L|].
  cbn [sym_of]. unfold opens in O. rewrite O. left. reflexivity.
Qed.

Lemma open_gap k u o k2 ds v l1 l2 pv1 ln1 t1 t2 G b : holder k = true -> opens k o = true ->
  lang (pruned (production false k)) (map sym_of (u ++ CTok o :: CTree k2 ds :: v)) ->
  l_ml l1 = b -> l_ml l2 = b ->
  joint k (CTok o) (CTree k2 ds) v (N.of_nat (length u)) l1 l2 pv1 ln1 t1 t2 G ->
  t1 = o /\ brk G = match k with KShortClassSpecifier => b || contains KDescription (CTree k2 ds) | _ => b end.
Proof.
  intros H O L M1 M2 (E1 & E2 & G1 & G2 & T1 & H2 & ->).
  cbn [end_of] in E1. injection E1 as E1. split; [congruence|]. cbn [tail_gap] in T1. subst G1 t1. cbn [app].
  pose proof (neighbours _ _ _ _ _ L) as NB. cbn [sym_of] in NB.
  rewrite !brk_app, (opened_head _ _ _ _ _ H O NB H2), orb_false_r.
  pose proof (after_opens _ _ _ _ _ _ O L) as AO. unfold opens in O.
  assert (k = KConnectEquation -> length u = 1%nat) as CO by (intros ->; eapply connect_open; eauto).
  clear E2 H2 L.
  destruct k; try discriminate H; vm_compute in AO;
    repeat match goal with H : _ \/ _ |- _ => destruct H as [<-|H] end; try contradiction.
  all: destruct (tkind_of o) eqn:TK; try discriminate O.
  all: cbv [step]; match goal with |- context [fst (?f ?x _)] => unfold f end; open_view.
  all: rewrite ?TK, ?M1, ?M2; cbn [tkind_eqb memk existsb skind_eqb orb andb fst].
  all: try (rewrite (CO eq_refl); cbn [N.of_nat]).
  all: try (destruct b; reflexivity).
  all: try (destruct (contains KDescription _); destruct b; reflexivity).
  all: exfalso; vm_compute in NB;
    repeat match goal with H : _ \/ _ |- _ => destruct H end; congruence || contradiction.
Qed.

Lemma held_only k : holder k = true -> own_brackets k = false -> forall k2, In k2 (after_open k) -> bracketed k k2 = true.
Proof.
  intros H O k2 I. destruct k; try discriminate H; try discriminate O; vm_compute in I;
    repeat match goal with H : _ \/ _ |- _ => destruct H as [<-|H] end; try contradiction; reflexivity.
Qed.
Lemma own_keeps k : own_brackets k = true -> keeps_ml k.
Proof. intro O. apply list_keeps. destruct k; try discriminate O; reflexivity. Qed.

Lemma open_list k u o k2 ds v e : holder k = true -> opens k o = true ->
  inside (CTree k (u ++ CTok o :: CTree k2 ds :: v)) tree -> next_code l o e ->
  (is_break (e_white e) = true <-> wrapped (CTree k (u ++ CTok o :: CTree k2 ds :: v))).
Proof.
  intros H O IN NC. set (cs := u ++ CTok o :: CTree k2 ds :: v) in *.
  assert (cs <> []) as NE by (unfold cs; destruct u; discriminate).
  pose proof (node_fits _ _ _ _ _ PL NE IN) as F. pose proof (node_sound _ _ _ _ ACC BT IN) as S.
  destruct (node_joint _ _ _ _ _ _ _ _ _ _ _ LO PL IN) as (ml & w & oel & ms & l0 & l1 & l2 & pv1 & ln1 & t1 & t2 & G & n & PR & J & M & LA & _ & N1 & _).
  pose proof (after_opens _ _ _ _ _ _ O LA) as AO.
  assert (In (CTok o) cs) as IO by (apply in_or_app; right; left; reflexivity).
  assert (In (CTree k2 ds) cs) as ID by (apply in_or_app; right; right; left; reflexivity).
  assert (l_ml l1 = l_ml l0 /\ l_ml l2 = l_ml l0) as [M1 M2].
  { apply M. destruct (own_brackets k) eqn:OB; [apply keeps_all, own_keeps, OB|]. apply held_keeps.
    - intros k' B es I. apply in_app_or in I as [I|[I|[]]]; [|discriminate].
      pose proof (open_first _ _ _ _ H O LA) as Q. rewrite Forall_forall in Q. specialize (Q _ I).
      unfold quiet in Q. cbn [sym_of br] in Q. congruence.
    - unfold holder in H. rewrite OB in H. exact H. }
  destruct (open_gap _ _ _ _ _ _ _ _ _ _ _ _ _ _ H O LA M1 M2 J) as [-> BG].
  destruct (N1 e NC) as [_ B]. rewrite (by_gap_brk _ _ _ B), BG.
  destruct (own_brackets k) eqn:OB.
  - assert (l_ml l0 = true <-> match k with KShortClassSpecifier => spread k cs | _ => wrapped (CTree k cs) end) as HF'.
    { eapply (holder_flag k cs ml w oel ms l0 H F S); [eauto|intros ->; discriminate OB|exact PR]. }
    destruct k; try discriminate OB; exact HF'.
  - pose proof (held_only _ H OB _ AO) as BR.
    assert (exists vw, v_desc vw = contains KDescription (CTree k2 ds)) as [vw VD].
    { exists (mkV (LN k2) None TEOF 0 false false (contains KDescription (CTree k2 ds)) false false). reflexivity. }
    pose proof (list_flag k cs _ _ _ _ _ k2 vw BR IN (ex_intro _ ds (conj ID VD)) PR) as LF.
    rewrite <- VD. exact LF.
Qed.

(** ** Lists without brackets of their own *)
Lemma row_call l1 v ml w oel keep :
  In (ACall KExpressionList ml w oel keep) (fst (step KPrimary l1 v)) -> ml = l_ml l1 && l_cnt l1.
Proof.
  cbv [step]. unfold step_primary, call, call_ml, call_w, unreachable, bos.
  repeat match goal with |- context [match ?x with _ => _ end] => destruct x eqn:? end.
  all: cbn [fst app In]; intro I;
       repeat match goal with H : _ \/ _ |- _ => destruct H end; try contradiction; try discriminate.
  all: match goal with H : ACall _ _ _ _ _ = _ |- _ => injection H; intros; subst end; congruence.
Qed.
Definition rows_ok : bool :=
  match words (fun _ => true) (without sep_sym (pruned (production false KPrimary))) with
  | Some ws => forallb (fun w => negb (existsb (sym_eqb (Rule KExpressionList)) w) || Nat.eqb (length w) 3) ws
  | None => false
  end.
Lemma rows_true : rows_ok = true.
Proof. vm_compute. reflexivity. Qed.
Lemma filter_all {A} (w : list A) : filter (fun _ => true) w = w.
Proof. induction w; cbn [filter]; congruence. Qed.
Lemma single_row cs ds : lang (pruned (production false KPrimary)) (map sym_of cs) -> In (CTree KExpressionList ds) cs ->
  ((length cs = 3)%nat <-> forall t, In (CTok t) cs -> is_sep t = false).
Proof.
  intros L I. split.
  - intros LEN t IT. destruct (is_sep t) eqn:S; auto. exfalso. apply in_split in IT as (u & v & ->).
    destruct (sep_followed KPrimary _ _ _ eq_refl S L) as (U & TK & c2 & v' & -> & IC).
    rewrite app_length in LEN. cbn [length] in LEN. destruct u as [|d u]; [contradiction|].
    destruct u as [|d2 u]; [|cbn [length] in LEN; lia]. destruct v'; [|cbn [length] in LEN; lia]. cbn [app] in *.
    apply (final_child KPrimary [d; CTok t] c2) in L.
    destruct IC as [IC|[]]. rewrite <- IC in L. revert L. clear. intro L. vm_compute in L.
    repeat match goal with H : _ \/ _ |- _ => destruct H as [L|H] end; try discriminate; contradiction.
  - intro NS. pose proof rows_true as T. unfold rows_ok in T.
    assert (lang (without sep_sym (pruned (production false KPrimary))) (map sym_of cs)) as L'.
    { apply without_lang; auto. apply Forall_map, Forall_forall. intros d ID. destruct d as [t|]; [|reflexivity].
      specialize (NS t ID). unfold is_sep in NS. cbn [sym_of]. unfold sep_sym. destruct (tkind_of t); auto. }
    destruct (words _ _) as [ws|] eqn:W; [|discriminate].
    pose proof (words_complete _ _ _ L' _ W) as IW. rewrite filter_all in IW. rewrite forallb_forall in T. specialize (T _ IW).
    apply orb_true_iff in T as [T|T]; [|apply Nat.eqb_eq in T; rewrite map_length in T; exact T].
    exfalso. apply negb_true_iff in T. rewrite <- not_true_iff_false in T. apply T. apply existsb_exists.
    exists (Rule KExpressionList). split; [apply (in_map sym_of) in I; exact I|apply sym_eqb_eq; reflexivity].
Qed.

Lemma row_list cs ds t e : inside (CTree KPrimary cs) tree -> In (CTree KExpressionList ds) cs ->
  In t (seps (CTree KExpressionList ds)) -> next_code l t e ->
  (is_break (e_white e) = true <->
     first_line (CTree KExpressionList ds) < last_line (CTree KExpressionList ds) \/
     (wrapped (CTree KPrimary cs) /\ forall t', In (CTok t') cs -> is_sep t' = false)).
Proof.
  intros IN ID I NC. assert (cs <> []) as NE by (intros ->; destruct ID).
  pose proof (node_fits _ _ _ _ _ PL NE IN) as F. pose proof (node_sound _ _ _ _ ACC BT IN) as S.
  destruct (node_whole _ _ _ _ _ PL NE IN) as (ml & w & oel & pv & ln & r & a & o & b & W & P).
  destruct (whole_child _ _ _ _ _ _ _ _ _ W) as (ms & l0 & l' & os & PR & -> & LP & FC & LA).
  pose proof (single_row _ _ LA ID) as SR.
  assert (exists o, In (CTok o) cs /\ opens KPrimary o = true) as OP.
  { destruct (bracket_shape KPrimary _ eq_refl LA) as [Q|(u & x & m & y & v & -> & PO & _)].
    - exfalso. assert (lang (without (br KPrimary) (pruned (production false KPrimary))) (map sym_of cs)) as L'.
      { apply without_lang; auto. apply Forall_map. exact Q. }
      pose proof (letters_complete _ _ L' _ (in_map sym_of _ _ ID)) as LC. clear - LC. cbn [sym_of] in LC. vm_compute in LC.
      repeat match goal with H : _ \/ _ |- _ => destruct H as [LC|H] end; try discriminate; contradiction.
    - destruct (pair_opens _ _ _ PO) as (PO' & _). exists x. split; auto. apply in_or_app. right. left. reflexivity. }
  assert (l_ml l0 = true <-> wrapped (CTree KPrimary cs)) as HF.
  { eapply (holder_flag KPrimary cs ml w oel ms l0 eq_refl F S); [auto|discriminate|exact PR]. }
  assert (l_cnt l0 = Nat.eqb (length cs) 3) as HC.
  { cbn [prologue] in PR. rewrite (multi_lines _ F) in PR. cbn [unwrap bind] in PR. apply ok_inj in PR as [_ <-]. cbn [l_cnt].
    unfold len_cmp. destruct (Nat.eqb_spec (length cs) 3) as [E|E]; [rewrite E; reflexivity|apply N.eqb_neq; lia]. }
  pose proof ID as ID'. apply in_split in ID as (u & v & EC). rewrite EC in LP, FC.
  destruct (loop_call _ _ _ _ _ _ _ _ _ _ _ FC LP) as (l1 & pv1 & ln1 & ml2 & w2 & oel2 & keep & r2 & a2 & o2 & b2 & IA & -> & W2 & M & MC).
  apply row_call in IA. rewrite (M (keeps_all _ _ (own_keeps KPrimary eq_refl))), MC, HC in IA.
  destruct (whole_child _ _ _ _ _ _ _ _ _ W2) as (ms2 & l4 & l5 & os2 & PR2 & _ & _ & FD & LD).
  destruct (list_gaps _ _ _ _ _ _ _ _ _ _ _ _ eq_refl (eq_refl : list_node KExpressionList || list_rest KExpressionList = true) W2 PR2 t I)
    as (G & t2 & FO & BK).
  assert (follow (a ++ (map PMark ms ++ (a2 ++ o2 ++ b2) ++ map PMark (epilogue KPrimary l')) ++ b) t G t2) as FO'
    by (apply follow_in, follow_in, follow_in; exact FO).
  destruct (follow_next _ _ _ _ _ _ (layout_nodup _ _ _ _ LO) P FO') as (n & N1 & _).
  destruct (N1 e NC) as [_ BG]. rewrite (by_gap_brk _ _ _ BG), BK.
  assert (fits (CTree KExpressionList ds)) as FK by (apply Forall_app in FC as [_ FC]; inversion FC; auto).
  assert (breaks KExpressionList l4 = ml2 || (first_line (CTree KExpressionList ds) <? last_line (CTree KExpressionList ds))) as ->.
  { cbn [prologue breaks] in *. destruct ml2; [apply ok_inj in PR2 as [_ <-]; reflexivity|].
    rewrite (multi_lines _ FK) in PR2; cbn [unwrap bind] in PR2; apply ok_inj in PR2 as [_ <-]; reflexivity. }
  rewrite orb_true_iff, N.ltb_lt, IA, andb_true_iff, HF, Nat.eqb_eq, SR. tauto.
Qed.

Lemma component_list cs t e : inside (CTree KComponentList cs) tree -> In t (seps (CTree KComponentList cs)) -> next_code l t e ->
  (is_break (e_white e) = true <-> first_line (CTree KComponentList cs) < last_line (CTree KComponentList cs)).
Proof.
  intros IN I NC. assert (cs <> []) as NE by (intros ->; destruct I).
  pose proof (node_fits _ _ _ _ _ PL NE IN) as F.
  destruct (list_white _ _ _ _ _ _ _ _ LO PL (eq_refl : list_node KComponentList || list_rest KComponentList = true) NE IN)
    as (ml & w & oel & ms & l0 & PR & W).
  rewrite (W t e I NC). cbn [prologue breaks] in *. rewrite (multi_lines _ F) in PR. cbn [unwrap bind] in PR.
  apply ok_inj in PR as [_ <-]. cbn [l_ml set_ml]. rewrite <- N.ltb_lt.
  replace (len_cmp (fun n => 1 <? n) cs) with true; [rewrite andb_true_r; reflexivity|].
  symmetry. unfold len_cmp. apply N.ltb_lt. inversion F as [|? ? _ L _]; subst.
  destruct (seps_in _ _ _ I) as [[IT S]|(k2 & ds & ID & R & _)].
  - apply in_split in IT as (u & v & ->). destruct (sep_followed KComponentList _ _ _ eq_refl S L) as (U & _ & c2 & v' & -> & _).
    rewrite app_length. cbn [length]. lia.
  - exfalso. pose proof (letters_complete _ _ L _ (in_map sym_of _ _ ID)) as LC. cbn [sym_of] in LC.
    vm_compute in LC. repeat match goal with H : _ \/ _ |- _ => destruct H as [LC|H] end; try discriminate; try contradiction.
    all: injection LC as <-; discriminate.
Qed.

Lemma index_list cs t e : inside (CTree KForIndices cs) tree -> In t (seps (CTree KForIndices cs)) -> next_code l t e ->
  is_break (e_white e) = false.
Proof.
  intros IN I NC. assert (cs <> []) as NE by (intros ->; destruct I).
  destruct (list_white _ _ _ _ _ _ _ _ LO PL (eq_refl : list_node KForIndices || list_rest KForIndices = true) NE IN)
    as (ml & w & oel & ms & l0 & PR & W).
  exact (W t e I NC).
Qed.
End Formatted.
