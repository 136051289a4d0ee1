(** The reference formatter looks at kinds and at differences of lines only: not at texts, and not
    at the line on which the file starts. *)
From Verif Require Import ProofBase Tokens Syntax SpecLex ParserCore Tree ParserSem SpecGrammar Regex ParserTree
  SpecLayout SpecNodes FmtAbs FmtShape FmtTree SpecGaps SpecReference FmtReference FmtBreaks FmtAgree.

(** Tokens of the same kind, [d] lines further down, that are related by [R]. *)
Definition moved (R : token -> token -> Prop) (d : N) (t t' : token) : Prop :=
  R t t' /\
  tkind_of t' = tkind_of t /\ line (tstart t') = line (tstart t) + d /\ line (tend t') = line (tend t) + d /\
  (tkind_of t = TWithin -> (0 <? tidx t') = (0 <? tidx t)).
Inductive tree_moved (R : token -> token -> Prop) (d : N) : child -> child -> Prop :=
| tm_tok t t' : moved R d t t' -> tree_moved R d (CTok t) (CTok t')
| tm_tree k cs cs' : Forall2 (tree_moved R d) cs cs' -> tree_moved R d (CTree k cs) (CTree k cs').

Section Moved.
Variable R : token -> token -> Prop.
Variable d : N.
Notation tm := (tree_moved R d).

Lemma moved_toks c : forall c', tm c c' -> Forall2 (moved R d) (toks c) (toks c').
Proof.
  induction c as [t|k cs IH] using child_ind2; intros c' M; inversion M as [? ? T|? ? cs' F]; subst; cbn [toks]; [auto|].
  clear M. induction F as [|c c' cs cs' M F IHF]; [constructor|]. inversion IH; subst. cbn [flat_map]. apply Forall2_app; auto.
Qed.
Lemma moved_rev {A B} (Q : A -> B -> Prop) l l' : Forall2 Q l l' -> Forall2 Q (rev l) (rev l').
Proof. induction 1; [constructor|]. cbn [rev]. apply Forall2_app; auto. Qed.
Lemma moved_first c c' : fits c -> tm c c' -> first_line c' = first_line c + d.
Proof.
  intros F M. apply toks_some in F. apply moved_toks in M. unfold first_line. destruct M as [|t t' l l' (_ & _ & T & _) _]; [contradiction|exact T].
Qed.
Lemma moved_last c c' : fits c -> tm c c' -> last_line c' = last_line c + d.
Proof.
  intros F M. apply toks_some in F. apply moved_toks, moved_rev in M. unfold last_line.
  inversion M as [E1 E2|t t' l l' (_ & _ & _ & T & _) _ E1 E2]; [|exact T].
  exfalso. apply F. rewrite <- (rev_involutive (toks c)), <- E1. reflexivity.
Qed.
Lemma moved_kind c c' : tm c c' -> kind_of c' = kind_of c.
Proof. intros [t t' (_ & K & _)|k cs cs' _]; cbn [kind_of]; congruence. Qed.
Lemma moved_spans c c' : fits c -> tm c c' -> spans c' = spans c.
Proof. intros F M. unfold spans. rewrite (moved_first c c'), (moved_last c c') by auto. destruct (N.ltb_spec (first_line c) (last_line c)), (N.ltb_spec (first_line c + d) (last_line c + d)); reflexivity || lia. Qed.

Lemma exists_moved {A B} (Q : A -> B -> Prop) f f' l l' : (forall x x', In x l -> Q x x' -> f' x' = f x) -> Forall2 Q l l' -> existsb f' l' = existsb f l.
Proof.
  intros K F. induction F as [|x x' l l' X F IH]; [reflexivity|]. cbn [existsb]. rewrite (K x x'); [|left; reflexivity|exact X]. rewrite IH; [reflexivity|].
  intros y y' Y. apply K. right. exact Y.
Qed.
Lemma opens_kind k a b : tkind_of a = tkind_of b -> opens k a = opens k b.
Proof. intro E. unfold opens. rewrite E. reflexivity. Qed.
Lemma closes_kind k a b : tkind_of a = tkind_of b -> closes k a = closes k b.
Proof. intro E. unfold closes. rewrite E. reflexivity. Qed.
Lemma moved_apart k cs cs' : Forall2 tm cs cs' -> brackets_apart k cs' = brackets_apart k cs.
Proof.
  intro F. unfold brackets_apart. apply exists_moved with (Q := tm); auto. intros o o' _ O. apply exists_moved with (Q := tm); auto. intros c c' _ C.
  destruct O as [a a' (_ & A1 & A2 & _)|]; [|reflexivity]. destruct C as [b b' (_ & B1 & B2 & _)|]; [|reflexivity].
  rewrite (opens_kind k a' a), (closes_kind k b' b), A2, B2 by auto. f_equal.
  destruct (N.ltb_spec (line (tstart a)) (line (tstart b))), (N.ltb_spec (line (tstart a) + d) (line (tstart b) + d)); reflexivity || lia.
Qed.
Lemma moved_holds k c : forall c', tm c c' -> holds k c' = holds k c.
Proof.
  induction c as [t|k0 cs IH] using child_ind2; intros c' M; inversion M as [|? ? cs' F]; subst; [reflexivity|]. cbn [holds]. f_equal.
  apply exists_moved with (Q := tm); auto. rewrite Forall_forall in IH. auto.
Qed.
Lemma moved_length {A B} (Q : A -> B -> Prop) l l' : Forall2 Q l l' -> length l' = length l.
Proof. induction 1; cbn [length]; congruence. Qed.
Lemma moved_wide k cs cs' inh : fits (CTree k cs) -> Forall2 tm cs cs' -> wide k cs' inh = wide k cs inh.
Proof.
  intros F M. assert (tm (CTree k cs) (CTree k cs')) as T by (constructor; exact M).
  pose proof (moved_spans _ _ F T) as S. pose proof (moved_apart k _ _ M) as A. pose proof (moved_length _ _ _ M) as L.
  pose proof (moved_holds KDescription _ _ T) as H1. pose proof (moved_holds KDescriptionString _ _ T) as H2.
  destruct k; cbn [wide]; rewrite ?S, ?A, ?L, ?H1, ?H2; try reflexivity.
  f_equal. apply exists_moved with (Q := tm); auto. intros x x' _ X. pose proof (moved_holds KDescription _ _ X) as HX.
  destruct X as [|k y y' Y]; [reflexivity|]. destruct k; try reflexivity. exact HX.
Qed.
Lemma moved_bequeathed k w cs cs' c c' : Forall2 tm cs cs' -> tm c c' -> bequeathed k w cs' c' = bequeathed k w cs c.
Proof. intros M C. apply moved_length in M. destruct C as [|k' x x' _]; destruct k; try reflexivity. cbn [bequeathed]. rewrite M. reflexivity. Qed.
Lemma moved_multi c c' : fits c -> tm c c' -> multi_if c' = multi_if c.
Proof.
  intros F M. unfold multi_if. rewrite (moved_spans c c') by auto. f_equal. apply moved_toks in M. destruct M as [|t t' l l' (_ & K & _) _]; [reflexivity|].
  rewrite K. reflexivity.
Qed.
Inductive opt_moved : option child -> option child -> Prop :=
| om_none : opt_moved None None
| om_some c c' : fits c -> tm c c' -> opt_moved (Some c) (Some c').
Lemma moved_turns k a a' c c' v v' : opt_moved a a' -> tm c c' -> Forall fits v -> Forall2 tm v v' -> turns k a' c' v' = turns k a c v.
Proof.
  intros A C F V. destruct A as [|a a' FA A]; [reflexivity|]. destruct V as [|b b' v v' B V]; [reflexivity|]. inversion F; subst. cbn [turns].
  rewrite (moved_kind c c'), (moved_last a a'), (moved_first b b') by auto. f_equal.
  destruct (N.ltb_spec (last_line a) (first_line b)), (N.ltb_spec (last_line a + d) (first_line b + d)); reflexivity || lia.
Qed.
Lemma moved_continues k c c' : tm c c' -> continues k c' = continues k c.
Proof. intros [|k' x x' _]; destruct k; reflexivity. Qed.
Lemma moved_wraps c : forall c', fits c -> tm c c' -> wraps c' = wraps c.
Proof.
  induction c as [t|k cs IH] using child_ind2; intros c' F M; inversion M as [|? ? cs' C]; subst; [reflexivity|].
  inversion F as [|? ? _ _ FC]; subst. rewrite !wraps_tree. clear M F.
  assert (forall v v', Forall2 tm v v' -> Forall fits v -> Forall (fun c => forall c', fits c -> tm c c' -> wraps c' = wraps c) v ->
    forall a a', opt_moved a a' -> wraps_in k a' v' = wraps_in k a v) as K; [|apply K; auto; constructor].
  clear. induction 1 as [|x x' v v' X V IH]; intros F W a a' A; [reflexivity|]. inversion F; inversion W; subst. cbn [wraps_in].
  rewrite (moved_turns k a a' x x' v v'), (moved_continues k x x'), (IH H2 H6 (Some x) (Some x')) by (auto; constructor; auto).
  rewrite (H5 x') by auto. reflexivity.
Qed.
Lemma moved_keeps k c c' : fits c -> tm c c' -> keeps_level k c' = keeps_level k c.
Proof.
  intros F M. pose proof (moved_wraps c c' F M) as W. destruct M as [|k' x x' X]; [destruct k; reflexivity|]. rewrite !keeps_leaks, W. reflexivity.
Qed.
Lemma moved_leak c : forall c', fits c -> tm c c' -> leak c' = leak c.
Proof.
  induction c as [t|k cs IH] using child_ind2; intros c' F M; inversion M as [|? ? cs' C]; subst; [reflexivity|].
  inversion F as [|? ? _ _ FC]; subst. rewrite !leak_tree. clear M F.
  induction C as [|x x' v v' X V IHv]; [reflexivity|]. inversion FC; inversion IH; subst. cbn [leak_in]. rewrite IHv, (moved_keeps k x x'), (H5 x') by auto. reflexivity.
Qed.
Lemma moved_late c c' : tm c c' ->
  is_late c' && match kind_of c with Term TWithin => true | _ => false end = is_late c && match kind_of c with Term TWithin => true | _ => false end.
Proof.
  intros [t t' (_ & _ & _ & _ & T)|]; [|reflexivity]. cbn [is_late kind_of]. destruct (tkind_of t); rewrite ?andb_false_r; try reflexivity. rewrite T; reflexivity.
Qed.
Lemma moved_kinds u u' : Forall2 tm u u' -> kind_last u' = kind_last u /\ after_first u' = after_first u.
Proof.
  intros [|a a' u0 u0' A U]; [split; reflexivity|]. split; [cbn [kind_last]; rewrite (moved_kind a a' A); reflexivity|].
  destruct U; reflexivity.
Qed.

Theorem moved_spots c : forall c', fits c -> tm c c' -> forall q pos first n on inh,
  map strip (spots q pos first n on inh c') = map strip (spots q pos first n on inh c).
Proof.
  induction c as [t|k cs IH] using child_ind2; intros c' F M q pos first n on inh; inversion M as [|? ? cs' C]; subst; [reflexivity|].
  inversion F as [|? ? _ _ FC]; subst. rewrite !spots_tree, (moved_wide k cs cs' inh F C).
  assert (forall v v', Forall2 tm v v' -> Forall fits v -> Forall (fun c => forall c', fits c -> tm c c' -> forall q pos first n on inh,
      map strip (spots q pos first n on inh c') = map strip (spots q pos first n on inh c)) v ->
    forall u u' w n on, Forall2 tm u u' -> Forall fits u ->
      map strip (children k w cs' pos first u' n on v') = map strip (children k w cs pos first u n on v)) as K; [|apply K; auto].
  clear IH F FC M. clear n on. induction 1 as [|x x' v v' X V IHv]; intros F W u u' w n on U FU; [reflexivity|].
  inversion F as [|? ? FX FV]; inversion W as [|? ? WX WV]; subst. cbn [children].
  destruct (moved_kinds u u' U) as [K1 K2].
  assert (opt_moved (last_of u) (last_of u')) as O by (destruct U; inversion FU; subst; constructor; auto).
  rewrite (moved_turns k _ _ x x' v v' O), (moved_continues k x x'), (moved_keeps k x x'), (moved_wraps x x'), (moved_leak x x'),
    (moved_kind x x'), (moved_multi x x'), K1, K2, (moved_bequeathed k w cs cs' x x') by auto.
  rewrite (position_same k w (turns k (last_of u) x v) (multi_if x) (multi_if x) (is_late x') (is_late x)) by (auto; apply moved_late, X).
  rewrite !map_app. f_equal.
  - rewrite (WX x') by auto. destruct U; reflexivity.
  - apply IHv; auto.
Qed.

(** ** Layouts *)
Definition entry_moved (e e' : entry) : Prop :=
  e_white e' = e_white e /\ e_rule e' = e_rule e /\ moved R d (e_tok e) (e_tok e').

Lemma moved_comment t t' : moved R d t t' -> is_comment t' = is_comment t.
Proof. intros (_ & K & _). unfold is_comment. rewrite K. reflexivity. Qed.
Lemma moved_filter f f' l l' : (forall t t', moved R d t t' -> f' t' = f t) -> Forall2 (moved R d) l l' -> Forall2 (moved R d) (filter f l) (filter f' l').
Proof. intros K. induction 1 as [|t t' l l' T L IH]; [constructor|]. cbn [filter]. rewrite (K t t' T). destruct (f t); auto. Qed.
Lemma gap_moved a b : gap_between (a + d) (b + d) = gap_between a b.
Proof. unfold gap_between. f_equal. lia. Qed.
Lemma eqb_moved a b : (a + d =? b + d) = (a =? b).
Proof. destruct (N.eqb_spec a b), (N.eqb_spec (a + d) (b + d)); reflexivity || lia. Qed.
Lemma rows_moved n r t t' cs cs' : moved R d t t' -> Forall2 (moved R d) cs cs' -> forall b ln, Forall2 entry_moved (rows b n ln cs r t) (rows b n (ln + d) cs' r t').
Proof.
  intros T C. assert (T0 := T). destruct T0 as (_ & _ & T1 & _).
  induction C as [|c c' cs cs' CC C IH]; intros b ln; cbn [rows].
  - rewrite T1, gap_moved. constructor; [|constructor]. repeat split; auto; apply T.
  - assert (C0 := CC). destruct C0 as (_ & _ & C1 & C2 & _). rewrite C1, C2, gap_moved. constructor; [|apply IH]. repeat split; auto; apply CC.
Qed.
Lemma behind_moved b cs cs' : Forall2 (moved R d) cs cs' -> Forall2 entry_moved (behind b cs) (behind b cs').
Proof.
  intros [|c c' l l' C L]; [constructor|]. cbn [behind]. constructor; [repeat split; auto; apply C|].
  induction L as [|x x' l l' X L IH]; constructor; auto. repeat split; auto; apply X.
Qed.
Lemma put_moved p ln cs cs' x x' : Forall2 (moved R d) cs cs' -> strip x' = strip x -> moved R d (at_tok x) (at_tok x') ->
  Forall2 entry_moved (put p ln cs x) (put p (ln + d) cs' x').
Proof.
  intros C S M. unfold strip in S. injection S as S1 S2 S3. unfold put. rewrite S1, S2, S3. assert (M0 := M). destruct M0 as (_ & K & _). rewrite K.
  destruct (at_pos x) as [| | |b]; try (constructor; [repeat split; auto; apply M|constructor]).
  apply Forall2_app.
  - apply behind_moved. apply moved_filter; auto. intros t t' (_ & _ & T & _). rewrite T. apply eqb_moved.
  - apply rows_moved; auto. apply moved_filter; auto. intros t t' (_ & _ & T & _). rewrite T. f_equal. apply eqb_moved.
Qed.
Theorem weave_moved items items' : Forall2 (moved R d) items items' -> forall p ln cs cs' xs xs',
  Forall2 (moved R d) cs cs' -> map strip xs' = map strip xs -> Forall2 (moved R d) (map at_tok xs) (map at_tok xs') ->
  Forall2 entry_moved (weave p ln cs items xs) (weave p (ln + d) cs' items' xs').
Proof.
  induction 1 as [|t t' items items' T I IH]; intros p ln cs cs' xs xs' C S M; cbn [weave]; [constructor|].
  rewrite (moved_comment t t' T). destruct (is_comment t).
  - apply IH; auto. apply Forall2_app; auto.
  - destruct xs as [|x xs], xs' as [|x' xs']; try discriminate; [constructor|]. cbn [map] in S, M. inversion M as [|? ? ? ? M1 M2]; subst.
    assert (strip x' = strip x) as SX by congruence. apply (f_equal (@tl _)) in S. cbn [tl] in S.
    apply Forall2_app; [apply put_moved; auto|]. assert (T0 := T). destruct T0 as (_ & K & _ & T2 & _). rewrite K, T2.
    replace (at_rule x') with (at_rule x) by (unfold strip in SX; congruence). apply IH; auto.
Qed.
End Moved.
