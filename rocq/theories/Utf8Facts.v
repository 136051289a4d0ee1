(** The conversions of [Utf8.v] are those of [SpecUtf8.v]. *)
From Coq Require Import ZArith Lia ZifyBool.
From Verif Require Import ProofBase Utf8 SpecUtf8.

#[local] Ltac Zify.zify_post_hook ::= Z.to_euclidean_division_equations.

Lemma coded_scalar c b : coded c b -> scalar c.
Proof. destruct 1; auto; unfold scalar; lia. Qed.
Lemma coded_encode c b : coded c b -> encode_char c = b.
Proof.
  unfold encode_char. destruct 1 as [x|x y|x y z|x y z u].
  - replace (x <? 128) with true by lia. reflexivity.
  - replace (_ <? 128) with false by lia. replace (_ <? 2048) with true by lia. repeat f_equal; lia.
  - replace (_ <? 128) with false by lia. replace (_ <? 2048) with false by lia. replace (_ <? 65536) with true by lia.
    repeat f_equal; lia.
  - replace (_ <? 128) with false by lia. replace (_ <? 2048) with false by lia. replace (_ <? 65536) with false by lia.
    repeat f_equal; lia.
Qed.
Lemma encode_coded c : scalar c -> coded c (encode_char c).
Proof.
  intro S. unfold encode_char. destruct (c <? 128) eqn:E1; [constructor; lia|].
  destruct (c <? 2048) eqn:E2.
  { replace c with (64 * (c / 64) + c mod 64) at 1 by lia. constructor; lia. }
  destruct (c <? 65536) eqn:E3.
  { replace c with (64 * (64 * (c / 4096) + c / 64 mod 64) + c mod 64) at 1 by lia.
    constructor; try lia. replace (64 * (64 * (c / 4096) + c / 64 mod 64) + c mod 64) with c by lia. exact S. }
  replace c with (64 * (64 * (64 * (c / 262144) + c / 4096 mod 64) + c / 64 mod 64) + c mod 64) at 1 by (unfold scalar in S; lia).
  assert (c < 1114112) by (unfold scalar in S; lia).
  constructor; try lia.
  replace (64 * (64 * (64 * (c / 262144) + c / 4096 mod 64) + c / 64 mod 64) + c mod 64) with c by lia. exact S.
Qed.
Lemma encode_char_length c : N.of_nat (length (encode_char c)) = utf8_len c.
Proof. unfold encode_char, utf8_len. destruct (c <? 128), (c <? 2048), (c <? 65536); reflexivity. Qed.

(** ** Reading one character *)
Ltac bool_cases :=
  repeat match goal with
  | H : context [if ?b then _ else _] |- _ => let E := fresh "E" in destruct b eqn:E
  | |- context [if ?b then _ else _] => let E := fresh "E" in destruct b eqn:E
  end.
Ltac ranges := unfold second3, second4, continues, between in *.

Lemma piece_coded b0 r0 c r : next_piece b0 r0 = PChar c r -> exists b, coded c b /\ b0 :: r0 = b ++ r.
Proof.
  unfold next_piece. intro H.
  destruct (b0 <? 128) eqn:E0. { injection H as <- <-. exists [b0]. split; [constructor; lia|reflexivity]. }
  destruct (between 194 223 b0) eqn:E1.
  { destruct r0 as [|b1 r1]; [discriminate|]. destruct (continues b1) eqn:C1; [|discriminate]. injection H as <- <-.
    exists [192 + (b0 - 192); 128 + (b1 - 128)]. ranges. split.
    - replace ((b0 - 192) * 64 + (b1 - 128)) with (64 * (b0 - 192) + (b1 - 128)) by lia. constructor; lia.
    - cbn [app]. repeat f_equal; lia. }
  destruct (between 224 239 b0) eqn:E2.
  { destruct r0 as [|b1 r1]; [discriminate|]. destruct (second3 b0 b1) eqn:C1; [|discriminate].
    destruct r1 as [|b2 r2]; [discriminate|]. destruct (continues b2) eqn:C2; [|discriminate]. injection H as <- <-.
    exists [224 + (b0 - 224); 128 + (b1 - 128); 128 + (b2 - 128)].
    assert (128 <= b1 <= 191) by (ranges; bool_cases; lia).
    split.
    - replace ((b0 - 224) * 4096 + (b1 - 128) * 64 + (b2 - 128)) with (64 * (64 * (b0 - 224) + (b1 - 128)) + (b2 - 128)) by lia.
      constructor; try (ranges; lia); unfold scalar; ranges; bool_cases; lia.
    - cbn [app]. ranges. repeat f_equal; lia. }
  destruct (between 240 244 b0) eqn:E3; [|discriminate].
  destruct r0 as [|b1 r1]; [discriminate|]. destruct (second4 b0 b1) eqn:C1; [|discriminate].
  destruct r1 as [|b2 r2]; [discriminate|]. destruct (continues b2) eqn:C2; [|discriminate].
  destruct r2 as [|b3 r3]; [discriminate|]. destruct (continues b3) eqn:C3; [|discriminate]. injection H as <- <-.
  exists [240 + (b0 - 240); 128 + (b1 - 128); 128 + (b2 - 128); 128 + (b3 - 128)].
  assert (128 <= b1 <= 191) by (ranges; bool_cases; lia).
  split.
  - replace ((b0 - 240) * 262144 + (b1 - 128) * 4096 + (b2 - 128) * 64 + (b3 - 128))
      with (64 * (64 * (64 * (b0 - 240) + (b1 - 128)) + (b2 - 128)) + (b3 - 128)) by lia.
    constructor; try (ranges; lia); unfold scalar; ranges; bool_cases; lia.
  - cbn [app]. ranges. repeat f_equal; lia.
Qed.

Lemma coded_piece c b r : coded c b -> exists b0 r0, b ++ r = b0 :: r0 /\ next_piece b0 r0 = PChar c r.
Proof.
  destruct 1 as [x L|x y LX LY G|x y z LX LY LZ G SC|x y z u LX LY LZ LU G SC]; eexists _, _; (split; [reflexivity|]);
    unfold next_piece, between; cbn [app].
  - replace (x <? 128) with true by lia. reflexivity.
  - replace (_ <? 128) with false by lia.
    replace ((194 <=? 192 + x) && (192 + x <=? 223)) with true by lia.
    replace (continues (128 + y)) with true by (ranges; lia). f_equal. lia.
  - replace (_ <? 128) with false by lia.
    replace ((194 <=? 224 + x) && (224 + x <=? 223)) with false by lia.
    replace ((224 <=? 224 + x) && (224 + x <=? 239)) with true by lia.
    replace (second3 (224 + x) (128 + y)) with true by (unfold scalar in SC; ranges; bool_cases; lia).
    replace (continues (128 + z)) with true by (ranges; lia). f_equal. lia.
  - assert (x <= 4) by (unfold scalar in SC; lia).
    replace (_ <? 128) with false by lia.
    replace ((194 <=? 240 + x) && (240 + x <=? 223)) with false by lia.
    replace ((224 <=? 240 + x) && (240 + x <=? 239)) with false by lia.
    replace ((240 <=? 240 + x) && (240 + x <=? 244)) with true by lia.
    replace (second4 (240 + x) (128 + y)) with true by (unfold scalar in SC; ranges; bool_cases; lia).
    replace (continues (128 + z)) with true by (ranges; lia).
    replace (continues (128 + u)) with true by (ranges; lia). f_equal. lia.
Qed.

(** ** Reading a text *)
Lemma coded_nonempty c b : coded c b -> b <> [].
Proof. destruct 1; discriminate. Qed.
Lemma decode_utf8 n : forall b t, decode_with n b = Some t -> utf8 b t.
Proof.
  induction n as [|n IH]; intros [|b0 r0] t H; cbn [decode_with] in H; try discriminate; try (injection H as <-; constructor).
  destruct (next_piece b0 r0) as [c r|r] eqn:P; [|discriminate].
  destruct (decode_with n r) as [t'|] eqn:D; [|discriminate]. injection H as <-.
  destruct (piece_coded _ _ _ _ P) as (b & C & ->). constructor; auto.
Qed.
Lemma utf8_decode b t : utf8 b t -> forall n, (length b <= n)%nat -> decode_with n b = Some t.
Proof.
  induction 1 as [|c b bs t C U IH]; intros n L; [destruct n; reflexivity|].
  destruct (coded_piece c b bs C) as (b0 & r0 & E & P). pose proof (coded_nonempty _ _ C) as NE.
  rewrite E. rewrite E in L. destruct n as [|n]; [cbn [length] in L; lia|]. cbn [decode_with]. rewrite P, IH; [reflexivity|].
  assert (length (b ++ bs) = S (length r0)) as LL by (rewrite E; reflexivity). rewrite app_length in LL.
  destruct b; [contradiction|]. cbn [length] in *. lia.
Qed.
Theorem decode_iff b t : decode b = Some t <-> utf8 b t.
Proof. split; [apply decode_utf8|]. intro U. apply utf8_decode; auto. Qed.
Lemma utf8_fun b t t' : utf8 b t -> utf8 b t' -> t = t'.
Proof. rewrite <- !decode_iff. congruence. Qed.
Lemma utf8_encode b t : utf8 b t -> b = encode t.
Proof. induction 1 as [|c b bs t C U IH]; auto. cbn [encode flat_map]. rewrite (coded_encode _ _ C), IH. reflexivity. Qed.
Lemma utf8_scalar b t : utf8 b t -> Forall scalar t.
Proof. induction 1; constructor; eauto using coded_scalar. Qed.
Lemma encode_utf8 t : Forall scalar t -> utf8 (encode t) t.
Proof. induction 1 as [|c t S F IH]; cbn [encode flat_map]; constructor; auto using encode_coded. Qed.
Lemma decode_none b : decode b = None <-> ~ readable b.
Proof.
  split.
  - intros D [t U]. apply decode_iff in U. congruence.
  - intro N. destruct (decode b) as [t|] eqn:E; auto. exfalso. apply N. exists t. apply decode_iff, E.
Qed.
Lemma encode_length t : N.of_nat (length (encode t)) = bytes_of t.
Proof.
  induction t as [|c t IH]; auto. cbn [encode flat_map bytes_of fold_right].
  rewrite app_length, Nat2N.inj_add, encode_char_length. unfold encode, bytes_of in IH. rewrite IH. reflexivity.
Qed.

(** ** Showing a path *)
Lemma begins_1 b0 : begins [b0] <-> 194 <= b0 <= 244.
Proof.
  split.
  - intros (c & rest & C & NE). cbn [app] in C. inversion C; subst; try contradiction; unfold scalar in *; lia.
  - intro R. destruct (b0 <=? 223) eqn:E1; [|destruct (b0 <=? 239) eqn:E2].
    + exists (64 * (b0 - 192) + 0), [128 + 0]. split; [|discriminate]. cbn [app].
      replace b0 with (192 + (b0 - 192)) at 2 by lia. constructor; lia.
    + exists (64 * (64 * (b0 - 224) + (if b0 =? 224 then 32 else 0)) + 0), [128 + (if b0 =? 224 then 32 else 0); 128 + 0].
      split; [|discriminate]. cbn [app]. replace b0 with (224 + (b0 - 224)) at 3 by lia.
      constructor; unfold scalar; destruct (b0 =? 224) eqn:E; lia.
    + exists (64 * (64 * (64 * (b0 - 240) + (if b0 =? 240 then 16 else 0)) + 0) + 0), [128 + (if b0 =? 240 then 16 else 0); 128 + 0; 128 + 0].
      split; [|discriminate]. cbn [app]. replace b0 with (240 + (b0 - 240)) at 3 by lia.
      constructor; unfold scalar; destruct (b0 =? 240) eqn:E; lia.
Qed.
Lemma begins_2 b0 b1 : begins [b0; b1] <->
  (between 224 239 b0 && second3 b0 b1) || (between 240 244 b0 && second4 b0 b1) = true.
Proof.
  split.
  - intros (c & rest & C & NE). cbn [app] in C. inversion C; subst; try contradiction; unfold scalar in *; ranges; bool_cases; lia.
  - intro R. destruct (b0 <=? 239) eqn:E2.
    + exists (64 * (64 * (b0 - 224) + (b1 - 128)) + 0), [128 + 0].
      split; [|discriminate]. cbn [app].
      assert (224 <= b0 /\ 128 <= b1 <= 191) by (ranges; bool_cases; lia).
      replace b0 with (224 + (b0 - 224)) at 2 by lia. replace b1 with (128 + (b1 - 128)) at 2 by lia.
      constructor; unfold scalar; ranges; bool_cases; lia.
    + exists (64 * (64 * (64 * (b0 - 240) + (b1 - 128)) + 0) + 0), [128 + 0; 128 + 0].
      split; [|discriminate]. cbn [app].
      assert (240 <= b0 /\ 128 <= b1 <= 191) by (ranges; bool_cases; lia).
      replace b0 with (240 + (b0 - 240)) at 2 by lia. replace b1 with (128 + (b1 - 128)) at 2 by lia.
      constructor; unfold scalar; ranges; bool_cases; lia.
Qed.
Lemma begins_3 b0 b1 b2 : begins [b0; b1; b2] <-> between 240 244 b0 && second4 b0 b1 && continues b2 = true.
Proof.
  split.
  - intros (c & rest & C & NE). cbn [app] in C. inversion C; subst; try contradiction; unfold scalar in *; ranges; bool_cases; lia.
  - intro R. exists (64 * (64 * (64 * (b0 - 240) + (b1 - 128)) + (b2 - 128)) + 0), [128 + 0].
    split; [|discriminate]. cbn [app].
    assert (240 <= b0 /\ 128 <= b1 <= 191 /\ 128 <= b2) by (ranges; bool_cases; lia).
    replace b0 with (240 + (b0 - 240)) at 2 by lia. replace b1 with (128 + (b1 - 128)) at 2 by lia.
    replace b2 with (128 + (b2 - 128)) at 2 by lia.
    constructor; unfold scalar; ranges; bool_cases; lia.
Qed.
Lemma begins_4 b0 b1 b2 b3 : ~ begins [b0; b1; b2; b3].
Proof. intros (c & rest & C & NE). cbn [app] in C. inversion C; subst. contradiction. Qed.

Lemma piece_ill b0 r0 r : next_piece b0 r0 = PBad r -> exists b, b <> [] /\ b0 :: r0 = b ++ r /\ ill b r.
Proof.
  intro P.
  assert (forall c b1 b2, coded c b1 -> b0 :: r0 <> b1 ++ b2) as NC.
  { intros c b1 b2 C E. destruct (coded_piece c b1 b2 C) as (x & y & E' & P'). rewrite <- E in E'. injection E' as <- <-. congruence. }
  assert (forall b, b <> [] -> b0 :: r0 = b ++ r ->
            ((begins b /\ b <> [] /\ forall x r', r = x :: r' -> ~ begins (b ++ [x])) \/
             (exists x, b = [x] /\ ~ begins [x])) -> exists b, b <> [] /\ b0 :: r0 = b ++ r /\ ill b r) as GO.
  { intros b NE E H. exists b. split; auto. split; auto. split; auto. intros c b1 b2. rewrite <- E. apply NC. }
  clear NC. unfold next_piece in P.
  destruct (b0 <? 128) eqn:E0; [discriminate|].
  destruct (between 194 223 b0) eqn:E1.
  { apply (GO [b0]); [discriminate| |left].
    - destruct r0 as [|b1 r1]; [|destruct (continues b1)]; inversion P; subst; reflexivity.
    - split; [apply begins_1; ranges; lia|]. split; [discriminate|]. intros x r' _ B. cbn [app] in B.
      apply begins_2 in B. ranges. bool_cases; lia. }
  destruct (between 224 239 b0) eqn:E2.
  { destruct r0 as [|b1 r1]; [|destruct (second3 b0 b1) eqn:C1].
    - injection P as <-. apply (GO [b0]); [discriminate|reflexivity|left].
      split; [apply begins_1; ranges; lia|]. split; [discriminate|]. discriminate.
    - apply (GO [b0; b1]); [discriminate| |left].
      + destruct r1 as [|b2 r2]; [|destruct (continues b2)]; inversion P; subst; reflexivity.
      + split; [apply begins_2; rewrite E2, C1; reflexivity|]. split; [discriminate|]. intros x r' _ B. cbn [app] in B.
        apply begins_3 in B. ranges. bool_cases; lia.
    - injection P as <-. apply (GO [b0]); [discriminate|reflexivity|left].
      split; [apply begins_1; ranges; lia|]. split; [discriminate|]. intros x r' E B. injection E as <- <-. cbn [app] in B.
      apply begins_2 in B. rewrite E2, C1 in B. ranges. bool_cases; lia. }
  destruct (between 240 244 b0) eqn:E3.
  2: { injection P as <-. apply (GO [b0]); [discriminate|reflexivity|]. right. exists b0. split; auto. rewrite begins_1. ranges. lia. }
  destruct r0 as [|b1 r1]; [|destruct (second4 b0 b1) eqn:C1].
  - injection P as <-. apply (GO [b0]); [discriminate|reflexivity|left].
    split; [apply begins_1; ranges; lia|]. split; [discriminate|]. discriminate.
  - destruct r1 as [|b2 r2]; [|destruct (continues b2) eqn:C2].
    + injection P as <-. apply (GO [b0; b1]); [discriminate|reflexivity|left].
      split; [apply begins_2; rewrite E3, C1; apply orb_true_r|]. split; [discriminate|]. discriminate.
    + apply (GO [b0; b1; b2]); [discriminate| |left].
      * destruct r2 as [|b3 r3]; [|destruct (continues b3)]; inversion P; subst; reflexivity.
      * split; [apply begins_3; rewrite E3, C1, C2; reflexivity|]. split; [discriminate|]. intros x r' _. apply begins_4.
    + injection P as <-. apply (GO [b0; b1]); [discriminate|reflexivity|left].
      split; [apply begins_2; rewrite E3, C1; apply orb_true_r|]. split; [discriminate|]. intros x r' E B. injection E as <- <-. cbn [app] in B.
      apply begins_3 in B. rewrite C2, andb_false_r in B. discriminate.
  - injection P as <-. apply (GO [b0]); [discriminate|reflexivity|left].
    split; [apply begins_1; ranges; lia|]. split; [discriminate|]. intros x r' E B. injection E as <- <-. cbn [app] in B.
    apply begins_2 in B. rewrite E2, C1, andb_false_r in B. discriminate.
Qed.

Lemma lossy_shows n : forall b, (length b <= n)%nat -> shows b (lossy_with n b).
Proof.
  induction n as [|n IH]; intros [|b0 r0] L; cbn [lossy_with]; try constructor; [cbn [length] in L; lia|].
  destruct (next_piece b0 r0) as [c r|r] eqn:P.
  - destruct (piece_coded _ _ _ _ P) as (b & C & E). rewrite E. apply sh_char; auto. apply IH.
    pose proof (coded_nonempty _ _ C) as NE. apply (f_equal (@length N)) in E. rewrite app_length in E.
    destruct b; [contradiction|]. cbn [length] in *. lia.
  - destruct (piece_ill _ _ _ P) as (b & NE & E & IL). rewrite E. apply sh_bad; auto. apply IH.
    apply (f_equal (@length N)) in E. rewrite app_length in E. destruct b; [contradiction|]. cbn [length] in *. lia.
Qed.
Theorem display_shows b : shows b (display b).
Proof. apply lossy_shows. auto. Qed.
Lemma utf8_lossy b t : utf8 b t -> forall n, (length b <= n)%nat -> lossy_with n b = t.
Proof.
  induction 1 as [|c b bs t C U IH]; intros n L; [destruct n; reflexivity|].
  destruct (coded_piece c b bs C) as (b0 & r0 & E & P). pose proof (coded_nonempty _ _ C) as NE.
  rewrite E. rewrite E in L. destruct n as [|n]; [cbn [length] in L; lia|]. cbn [lossy_with]. rewrite P, IH; [reflexivity|].
  assert (length (b ++ bs) = S (length r0)) as LL by (rewrite E; reflexivity). rewrite app_length in LL.
  destruct b; [contradiction|]. cbn [length] in *. lia.
Qed.
Lemma display_utf8 b t : utf8 b t -> display b = t.
Proof. intro U. apply (utf8_lossy _ _ U). auto. Qed.
(** The parts are determined, so that there is one way to show bytes. *)
Lemma coded_prefix c b c' b' r r' : coded c b -> coded c' b' -> b ++ r = b' ++ r' -> c = c' /\ b = b' /\ r = r'.
Proof.
  intros C C' E. destruct (coded_piece c b r C) as (x & y & E1 & P1). destruct (coded_piece c' b' r' C') as (x' & y' & E2 & P2).
  rewrite E, E2 in E1. injection E1 as -> ->. rewrite P1 in P2. injection P2 as <- <-. repeat split; auto.
  apply app_inv_tail in E. exact E.
Qed.
Lemma begins_prefix a b : begins (a ++ b) -> begins a.
Proof.
  intros (c & rest & C & NE). exists c, (b ++ rest). rewrite app_assoc. split; auto. destruct b; auto. discriminate.
Qed.
Lemma ill_fun b r b' r' : ill b r -> ill b' r' -> b ++ r = b' ++ r' -> b = b' /\ r = r'.
Proof.
  assert (forall b r b' r' d, ill b r -> ill b' r' -> b' = b ++ d -> r = d ++ r' -> d = []) as K.
  { intros b0 r0 b1 r1 d [_ I0] [_ I1] -> ->. destruct d as [|x d]; auto. exfalso.
    destruct I0 as [(B & NE & MX)|(y & -> & NB)].
    - destruct I1 as [(B1 & _)|(y & E & NB)].
      + apply (MX x (d ++ r1)); auto. apply (begins_prefix _ d). rewrite <- app_assoc. exact B1.
      + destruct b0 as [|z b0]; [contradiction|]. destruct b0; discriminate.
    - destruct I1 as [(B1 & _)|(z & E & NB1)]; [|discriminate].
      apply NB, (begins_prefix [y] (x :: d)), B1. }
  intros I0 I1 E.
  assert (exists d, (b' = b ++ d /\ r = d ++ r') \/ (b = b' ++ d /\ r' = d ++ r)) as [d [[E1 E2]|[E1 E2]]].
  { clear K I0 I1. revert b' E. induction b as [|x b IH]; intros [|y b'] E; cbn [app] in *.
    - exists []. auto.
    - exists (y :: b'). auto.
    - exists (x :: b). auto.
    - injection E as <- E. destruct (IH _ E) as [d [[-> ->]|[-> ->]]]; exists d; auto. }
  - pose proof (K _ _ _ _ _ I0 I1 E1 E2). subst d. rewrite app_nil_r in E1. auto.
  - pose proof (K _ _ _ _ _ I1 I0 E1 E2). subst d. rewrite app_nil_r in E1. auto.
Qed.
Lemma shows_fun b t : shows b t -> forall t', shows b t' -> t = t'.
Proof.
  induction 1 as [|c b bs t C S IH|b bs t IL S IH]; intros t' S'.
  - inversion S' as [|c b bs t C S E|b bs t IL S E]; auto; exfalso.
    + apply app_eq_nil in E as [-> _]. inversion C.
    + apply app_eq_nil in E as [-> _]. destruct IL as [_ [(_ & NE & _)|(x & D & _)]]; [contradiction|discriminate].
  - inversion S' as [E|c' b' bs' t'' C' S2 E|b' bs' t'' IL S2 E]; subst.
    + symmetry in E. apply app_eq_nil in E as [-> _]. inversion C.
    + destruct (coded_prefix _ _ _ _ _ _ C C' (eq_sym E)) as (-> & -> & ->). f_equal. apply IH, S2.
    + exfalso. destruct IL as [NC _]. apply (NC _ _ bs C). exact E.
  - inversion S' as [E|c' b' bs' t'' C' S2 E|b' bs' t'' IL' S2 E]; subst.
    + symmetry in E. apply app_eq_nil in E as [-> _]. destruct IL as [_ [(_ & NE & _)|(x & D & _)]]; [contradiction|discriminate].
    + exfalso. destruct IL as [NC _]. apply (NC _ _ bs' C'). symmetry. exact E.
    + destruct (ill_fun _ _ _ _ IL IL' (eq_sym E)) as (-> & ->). f_equal. apply IH, S2.
Qed.
