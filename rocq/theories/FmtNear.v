(** The layout tells apart 0, 1 and more line breaks only. *)
From Coq Require Import Sorted.
From Verif Require Import ProofBase Tokens Syntax Lexer SpecLex LexInv LexMain LexFacts ParserCore Grammar
  Tree Printer Formatter Lib ParserSem ParserFuel SpecGrammar Regex ParserGrammar ParserTree ParserFacts Recognise PropsParser
  FmtAbs FmtPlan FmtShape FmtTables FmtSound SpecLayout FmtExec FmtTop FmtFacts FmtRelex FmtNeat SpecNodes FmtTree FmtLists FmtOps
  FmtWrap SpecGaps SpecReference FmtNode FmtReference FmtSame PropsFormat PropsReference FmtBreaks FmtAgree FmtPrinted FmtStable FmtOnce.

Definition close (a b : N) : Prop := N.min 2 a = N.min 2 b.
(** Items with the same kinds and numbers, with close gaps between them, below lines [ln] and [ln']. *)
Inductive near : N -> N -> list token -> list token -> Prop :=
| near_nil ln ln' : near ln ln' [] []
| near_cons ln ln' t t' r r' :
    tidx t' = tidx t -> tkind_of t' = tkind_of t ->
    ln <= line (tstart t) -> ln' <= line (tstart t') -> close (line (tstart t) - ln) (line (tstart t') - ln') ->
    line (tstart t) <= line (tend t) -> line (tstart t') <= line (tend t') ->
    close (line (tend t) - line (tstart t)) (line (tend t') - line (tstart t')) ->
    near (line (tend t)) (line (tend t')) r r' -> near ln ln' (t :: r) (t' :: r').

Lemma close_step m m' a a' b b' : m <= a -> m' <= a' -> a <= b -> a' <= b' -> close (a - m) (a' - m') -> close (b - a) (b' - a') -> close (b - m) (b' - m').
Proof. unfold close. lia. Qed.
Lemma near_back m m' l l' ln ln' : near m m' l l' -> ln <= m -> ln' <= m' -> close (m - ln) (m' - ln') -> near ln ln' l l'.
Proof.
  intros N L L' C. destruct N as [|m m' t t' r r' I K A A' G B B' H N]; constructor; auto; try lia. apply (close_step ln ln' m m'); auto.
Qed.
Lemma near_filter f f' ln ln' l l' : near ln ln' l l' -> forall m m', m <= ln -> m' <= ln' -> close (ln - m) (ln' - m') ->
  (forall t t', tkind_of t' = tkind_of t -> m <= line (tstart t) -> m' <= line (tstart t') -> close (line (tstart t) - m) (line (tstart t') - m') -> f' t' = f t) ->
  near ln ln' (filter f l) (filter f' l').
Proof.
  induction 1 as [|ln ln' t t' r r' I K A A' G B B' H N IH]; intros m m' L L' C F; [constructor|]. cbn [filter].
  assert (close (line (tstart t) - m) (line (tstart t') - m')) as CT by (apply (close_step m m' ln ln'); auto).
  rewrite (F t t') by (auto; lia). assert (near (line (tend t)) (line (tend t')) (filter f r) (filter f' r')) as NF.
  { apply (IH m m'); auto; try lia. apply (close_step m m' (line (tstart t)) (line (tstart t'))); auto; lia. }
  destruct (f t); [constructor; auto|]. eapply near_back; [exact NF|lia|lia|]. apply (close_step ln ln' (line (tstart t)) (line (tstart t'))); auto.
Qed.
Lemma near_prefix a : forall ln ln' a' b b', near ln ln' (a ++ b) (a' ++ b') -> length a = length a' -> near ln ln' a a'.
Proof.
  induction a as [|t a IH]; intros ln ln' [|t' a'] b b' N L; try discriminate; [constructor|]. cbn [app] in N. inversion N; subst. constructor; auto. eapply IH; eauto.
Qed.
Lemma near_after a : forall ln ln' a' t t' b b', near ln ln' (a ++ t :: b) (a' ++ t' :: b') -> length a = length a' ->
  tidx t' = tidx t /\ tkind_of t' = tkind_of t /\ near (line (tend t)) (line (tend t')) b b'.
Proof.
  induction a as [|x a IH]; intros ln ln' [|x' a'] t t' b b' N L; try discriminate; cbn [app] in N; inversion N; subst; auto. eapply IH; eauto.
Qed.
Lemma near_both ln ln' l l' : near ln ln' l l' -> Forall2 (fun t t' => tidx t' = tidx t /\ tkind_of t' = tkind_of t) l l'.
Proof. induction 1; constructor; auto. Qed.

Lemma near_length {A B} (R : A -> B -> Prop) l l' : Forall2 R l l' -> length l = length l'.
Proof. induction 1; cbn; auto. Qed.

(** ** Layouts *)
Definition kept (e e' : entry) : Prop :=
  e_white e' = e_white e /\ e_rule e' = e_rule e /\ tkind_of (e_tok e') = tkind_of (e_tok e) /\ tidx (e_tok e') = tidx (e_tok e).
Lemma close_gap ln ln' x x' : close (x - ln) (x' - ln') -> gap_between ln' x' = gap_between ln x.
Proof. unfold close, gap_between. intro C. apply eq_true_iff_eq. rewrite !N.ltb_lt. lia. Qed.
Lemma rows_near n r t t' R : forall R' b ln ln', near ln ln' (R ++ [t]) (R' ++ [t']) -> length R = length R' ->
  Forall2 kept (rows b n ln R r t) (rows b n ln' R' r t').
Proof.
  induction R as [|c R IH]; intros [|c' R'] b ln ln' N L; try discriminate; cbn [app rows] in *; inversion N; subst.
  - constructor; [|constructor]. unfold kept. cbn [e_white e_rule e_tok]. rewrite (close_gap ln ln' (line (tstart t)) (line (tstart t'))) by assumption. auto.
  - constructor; [|apply IH; auto]. unfold kept. cbn [e_white e_rule e_tok]. rewrite (close_gap ln ln' (line (tstart c)) (line (tstart c'))) by assumption. auto.
Qed.
Lemma behind_near first B B' : Forall2 (fun t t' => tidx t' = tidx t /\ tkind_of t' = tkind_of t) B B' -> Forall2 kept (behind first B) (behind first B').
Proof.
  intros [|c c' l l' [C1 C2] F]; [constructor|]. cbn [behind]. constructor; [unfold kept; auto|].
  induction F as [|x x' l l' [X1 X2] F IH]; constructor; auto. unfold kept. auto.
Qed.
Lemma put_near p ln ln' cs cs' x x' : near ln ln' (cs ++ [at_tok x]) (cs' ++ [at_tok x']) -> length cs = length cs' ->
  Forall (fun c => commentary c = true) cs -> commentary (at_tok x) = false -> strip x' = strip x -> Forall2 kept (put p ln cs x) (put p ln' cs' x').
Proof.
  intros N L FC NC S. unfold strip in S. injection S as S1 S2 S3. unfold put. rewrite S1, S2, S3.
  destruct (near_after _ _ _ _ _ _ _ _ N L) as (I & K & _). rewrite K.
  assert (forall w r, Forall2 kept [mkE w r (at_tok x)] [mkE w r (at_tok x')]) as ONE by (intros; constructor; [unfold kept; auto|constructor]).
  destruct (at_pos x) as [| | |b]; try apply ONE.
  assert (forall t t', tkind_of t' = tkind_of t -> ln <= line (tstart t) -> ln' <= line (tstart t') -> close (line (tstart t) - ln) (line (tstart t') - ln') ->
    (line (tstart t') =? ln') = (line (tstart t) =? ln)) as EQ.
  { intros t t' _ A A' C. unfold close in C. apply eq_true_iff_eq. rewrite !N.eqb_eq. lia. }
  apply Forall2_app.
  - apply behind_near. apply (near_both ln ln'). eapply near_filter; [eapply near_prefix; [exact N|exact L]| | | |exact EQ]; unfold close; lia.
  - assert (forall t t', tkind_of t' = tkind_of t -> commentary t' = commentary t) as KC by (intros t t' E; unfold commentary; rewrite E; reflexivity).
    assert (near ln ln' (filter (fun c => negb (commentary c && (line (tstart c) =? ln))) (cs ++ [at_tok x]))
                        (filter (fun c => negb (commentary c && (line (tstart c) =? ln'))) (cs' ++ [at_tok x']))) as NF.
    { apply (near_filter _ _ _ _ _ _ N ln ln'); try (unfold close; lia). intros t t' E A A' C. rewrite (EQ t t'), (KC t t') by auto. reflexivity. }
    assert (Forall (fun c => commentary c = true) cs') as FC'.
    { apply near_prefix in N; [|exact L]. apply near_both in N. clear - FC N KC. induction N as [|t t' l l' [_ E] _ IH]; [constructor|]. inversion FC; subst. constructor; auto. rewrite (KC t t'); auto. }
    assert (forall m l t, Forall (fun c => commentary c = true) l -> commentary t = false ->
      filter (fun c => negb (commentary c && (line (tstart c) =? m))) (l ++ [t]) = filter (fun c => negb (line (tstart c) =? m)) l ++ [t]) as FE.
    { clear. intros m l t F C. rewrite filter_app. cbn [filter]. rewrite C. cbn [andb negb]. f_equal.
      induction F as [|c l H F IH]; [reflexivity|]. cbn [filter]. rewrite H. cbn [andb]. rewrite IH. reflexivity. }
    rewrite !FE in NF by (auto; rewrite (KC _ _ K); exact NC). apply rows_near; auto.
    apply near_both, near_length in NF. rewrite !app_length in NF. cbn in NF. lia.
Qed.
Theorem weave_near items : forall items' p ln ln' cs cs' xs xs', near ln ln' (cs ++ items) (cs' ++ items') -> length cs = length cs' ->
  Forall (fun c => commentary c = true) cs ->
  filter plain items = map at_tok xs -> filter plain items' = map at_tok xs' -> map strip xs' = map strip xs ->
  Forall2 kept (weave p ln cs items xs) (weave p ln' cs' items' xs').
Proof.
  induction items as [|t items IH]; intros items' p ln ln' cs cs' xs xs' N L FC T T' S.
  - assert (items' = []) as ->; [|constructor]. apply near_both, near_length in N. rewrite !app_length in N. destruct items'; [reflexivity|cbn in N; lia].
  - destruct items' as [|t' items']; [apply near_both, near_length in N; rewrite !app_length in N; cbn in N; lia|].
    destruct (near_after _ _ _ _ _ _ _ _ N L) as (I & K & NA). cbn [weave filter] in *.
    assert (is_comment t' = is_comment t) as -> by (unfold is_comment; rewrite K; reflexivity).
    assert (plain t' = plain t) as PK by (unfold plain; rewrite K; reflexivity). rewrite PK in T'.
    rewrite is_commentary. destruct (commentary t) eqn:C.
    + assert (plain t = false) as PT by (unfold plain, commentary in *; rewrite C; reflexivity). rewrite PT in T, T'.
      apply IH; auto.
      * rewrite <- !app_assoc. exact N.
      * rewrite !app_length. cbn. lia.
      * apply Forall_app. split; auto.
    + assert (plain t = true) as PT by (unfold plain, commentary in *; rewrite C; reflexivity). rewrite PT in T, T'.
      destruct xs as [|x xs]; [discriminate|]. destruct xs' as [|x' xs']; [discriminate|]. cbn [map] in *.
      assert (t = at_tok x) as -> by congruence. assert (t' = at_tok x') as -> by congruence.
      assert (strip x' = strip x) as SX by congruence. apply (f_equal (@tl _)) in T, T', S. cbn [tl] in T, T', S.
      apply Forall2_app.
      * apply put_near; auto. apply (near_prefix _ _ _ _ items items'); [rewrite <- !app_assoc; exact N|rewrite !app_length; cbn; lia].
      * replace (at_rule x') with (at_rule x) by (unfold strip in SX; congruence). rewrite K. apply IH; auto.
Qed.

(** ** Trees *)
Lemma near_marks ln ln' l l' : near ln ln' l l' -> marks l = marks l'.
Proof.
  induction 1 as [|ln ln' t t' r r' I K A A' G B B' H N IH]; [reflexivity|]. destruct r as [|u r], r' as [|u' r']; try (inversion N; fail); [reflexivity|].
  change ((line (tend t) <? line (tstart u)) :: marks (u :: r) = (line (tend t') <? line (tstart u')) :: marks (u' :: r')). rewrite IH. f_equal.
  inversion N as [|? ? ? ? ? ? I2 K2 A2 A2' G2 B2 B2' H2 N2]; subst. unfold close in G2.
  apply eq_true_iff_eq. rewrite !N.ltb_lt. lia.
Qed.
Lemma near_paired ln ln' l l' : near ln ln' l l' -> Forall paired (combine l l').
Proof.
  induction 1 as [|ln ln' t t' r r' I K A A' G B B' H N IH]; cbn [combine]; constructor; auto. unfold paired. cbn [fst snd]. split; [exact K|].
  split; [|intros _; rewrite I; reflexivity]. unfold tall. apply eq_true_iff_eq. rewrite !N.ltb_lt. unfold close in *. lia.
Qed.
Lemma near_combine {A} (l l' : list A) : length l = length l' -> map fst (combine l l') = l /\ map snd (combine l l') = l'.
Proof.
  revert l'. induction l as [|x l IH]; intros [|y l'] E; try discriminate; [auto|]. cbn [combine map fst snd]. destruct (IH l') as [-> ->]; auto.
Qed.

Theorem reading_near s p items tree s' p' items' tree' : reading s p items tree -> reading s' p' items' tree' ->
  p_events p' = p_events p -> near 1 1 items items' -> Forall2 kept (reference tree items) (reference tree' items').
Proof.
  intros R R' EV N.
  assert (near 1 1 (filter plain items) (filter plain items')) as NP.
  { apply (near_filter _ _ _ _ _ _ N 1 1); try (unfold close; lia). intros t t' K _ _ _. unfold plain. rewrite K. reflexivity. }
  assert (length (filter plain items) = length (filter plain items')) as LEN by (apply near_both, near_length in NP; exact NP).
  destruct (near_combine _ _ LEN) as [C1 C2]. set (g := partner (combine (filter plain items) (filter plain items'))).
  pose proof (laid_ordered _ _ _ (rd_laid _ _ _ _ R)) as [S0 _ _].
  assert (map g (filter plain items) = filter plain items') as MG.
  { pose proof (partner_maps (combine (filter plain items) (filter plain items'))) as PM. rewrite C1, C2 in PM. apply PM, sorted_filter, S0. }
  assert (relined g) as G by (eapply partner_relined, near_paired; exact NP).
  assert (tree' = tmap g tree) as ET.
  { pose proof (rd_tree _ _ _ _ R') as B'. rewrite (rd_tokens _ _ _ _ R'), <- MG, EV, build_tree_map in B'. rewrite <- (rd_tokens _ _ _ _ R), (rd_tree _ _ _ _ R) in B'. cbn [rmap] in B'. apply ok_same in B'. auto. }
  unfold reference. apply weave_near; auto using (reading_spots _ _ _ _ R), (reading_spots _ _ _ _ R').
  rewrite ET. apply agree_spots; [exact G|]. destruct (rd_fits _ _ _ _ R) as (cs & E & [F|F]).
  - rewrite E, F. constructor; [reflexivity|]. intros u d v K. destruct (rev u); discriminate.
  - apply kin_agrees; auto. pose proof (toks_some _ F) as NE. rewrite (rd_toks _ _ _ _ R), (rd_tokens _ _ _ _ R) in *.
    exists (false :: marks (filter plain items)). rewrite MG. split.
    + apply (downward_lined _ _ 1); [|exact NE]. apply downward_filter. apply (laid_downward _ _ (rd_laid _ _ _ _ R)).
    + rewrite (near_marks _ _ _ _ NP). apply (downward_lined _ _ 1).
      * apply downward_filter. apply (laid_downward _ _ (rd_laid _ _ _ _ R')).
      * intro K. rewrite K in LEN. destruct (filter plain items); [contradiction|discriminate].
Qed.
