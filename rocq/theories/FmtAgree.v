(** Formatting a text three times: the layout asked for the second and the third time. *)
From Coq Require Import Sorted.
From Verif Require Import ProofBase Tokens Syntax Lexer SpecLex LexInv LexMain LexFacts ParserCore Grammar
  Tree Printer Formatter Lib ParserSem ParserFuel SpecGrammar Regex ParserGrammar ParserTree ParserFacts Recognise PropsParser
  FmtAbs FmtPlan FmtShape FmtTables FmtSound SpecLayout FmtExec FmtTop FmtFacts FmtRelex FmtNeat SpecNodes FmtTree FmtLists FmtOps
  FmtWrap SpecGaps SpecReference FmtNode FmtReference FmtSame PropsFormat PropsReference FmtBreaks.

(** ** The second and the third time *)

(** The node asks for the same layout when its tokens stand on other lines. *)
Inductive agree (h : token -> token) : bool -> child -> Prop :=
| agree_tok inh t : agree h inh (CTok t)
| agree_tree inh k cs :
    wide k (map (tmap h) cs) inh = wide k cs inh ->
    (forall u d v, cs = rev u ++ d :: v ->
       turns k (last_of (map (tmap h) u)) (tmap h d) (map (tmap h) v) = turns k (last_of u) d v /\
       (value k (kind_of d) = true -> multi_if (tmap h d) = multi_if d) /\
       agree h (bequeathed k (wide k cs inh) cs d) d) ->
    agree h inh (CTree k cs).

Lemma grows_any l l' : Forall2 grows l l' -> existsb (fun x => x) l = true -> existsb (fun x => x) l' = true.
Proof.
  intro F. induction F as [|a b l l' H _ IH]; cbn [existsb]; [auto|]. intro E. apply orb_true_iff in E as [E|E]; apply orb_true_iff; auto.
Qed.
Lemma known_any Q l l' : Forall2 (known Q) l l' -> existsb (fun x => x) l' = true -> existsb (fun x => x) l = true \/ Q.
Proof.
  intro F. induction F as [|a b l l' H _ IH]; cbn [existsb]; [auto|]. intro E. rewrite orb_true_iff in *.
  destruct E as [E|E]; [apply H in E|apply IH in E]; tauto.
Qed.
Lemma both_app {A B} (R : A -> B -> Prop) a : forall a' b b', length a = length a' -> Forall2 R (a ++ b) (a' ++ b') -> Forall2 R a a' /\ Forall2 R b b'.
Proof.
  induction a as [|x a IH]; intros [|x' a'] b b' E F; try discriminate; [auto|]. cbn [app] in F. inversion F; subst.
  destruct (IH a' b b') as [K1 K2]; auto.
Qed.
Lemma lined_start ts : forall b bs t e us, lined (b :: bs) (t :: ts ++ e :: us) ->
  line (tstart t) <= line (tstart e) /\
  (line (tstart t) < line (tstart e) <-> existsb (fun x => x) (firstn (S (length ts)) bs) = true \/ existsb tall (t :: ts) = true).
Proof.
  induction ts as [|t1 ts IH]; intros b bs t e us L.
  - cbn [app] in L. destruct bs as [|b' bs]; cbn [lined] in L; [destruct L as (_ & _ & [])|]. destruct L as (L1 & L2 & L3).
    cbn [length firstn existsb]. unfold tall. rewrite !orb_false_r, N.ltb_lt. destruct L3 as (L3 & _ & _).
    destruct b'; cbn in L2; split; try lia; split; intro H; try lia; auto.
  - cbn [app] in L. destruct bs as [|b' bs]; [destruct L as (_ & _ & [])|]. change (line (tstart t) <= line (tend t) /\ (if b' then line (tend t) < line (tstart t1) else line (tend t) = line (tstart t1)) /\ lined (b' :: bs) (t1 :: ts ++ e :: us)) in L. destruct L as (L1 & L2 & L3).
    destruct (IH _ _ _ _ _ L3) as [I1 I2]. cbn [length firstn existsb] in *.
    assert (L4 := L3). cbn [lined] in L4. destruct L4 as (L4 & _).
    unfold tall at 1. rewrite !orb_true_iff, N.ltb_lt in *.
    destruct b'; cbn in L2; (split; [lia|]).
    + split; intro H; [auto|]. clear H. lia.
    + assert (line (tstart t) < line (tstart e) <-> line (tstart t) < line (tend t) \/ line (tstart t1) < line (tstart e)) as K by lia.
      rewrite K, I2. intuition discriminate.
Qed.

Lemma first_bit_false u x : first_bit u false x = x.
Proof. destruct u; reflexivity. Qed.

Section Fourth.
Variable g : token -> token.
Hypothesis G : relined g.
Notation tm := (tmap g).

(** A part of the children. *)
Lemma part_rel (R : bool -> bool -> Prop) k w w' cs y : Forall fits cs ->
  (forall b b' x x', R b b' -> R x x' -> R (b || x) (b' || x')) ->
  forall x u, cs = rev u ++ x ++ y ->
  (forall x1 d x2, x = x1 ++ d :: x2 ->
     Forall2 R (bits false (bequeathed k w cs d) d) (bits false (bequeathed k w' (map tm cs) (tm d)) (tm d))) ->
  (forall x1 d x2, x = x1 ++ d :: x2 ->
     R (below_at k w (rev x1 ++ u) d (x2 ++ y)) (below_at k w' (map tm (rev x1 ++ u)) (tm d) (map tm (x2 ++ y)))) ->
  exists a a', length a = length (flat_map toks x) /\ Forall2 R a a' /\
    bits_in k w cs false u (x ++ y) = a ++ bits_in k w cs false (rev x ++ u) y /\
    bits_in k w' (map tm cs) false (map tm u) (map tm (x ++ y)) = a' ++ bits_in k w' (map tm cs) false (map tm (rev x ++ u)) (map tm y).
Proof.
  intros F RO. induction x as [|d x IH]; intros u E H1 H2.
  - exists [], []. repeat split; auto.
  - destruct (IH (d :: u)) as (a & a' & LA & FA & EA & EA').
    { rewrite E. cbn [rev]. rewrite <- app_assoc. reflexivity. }
    { intros x1 d' x2 E'. apply (H1 (d :: x1) d' x2). rewrite E'. reflexivity. }
    { intros x1 d' x2 E'. specialize (H2 (d :: x1) d' x2). cbn [rev] in H2. rewrite <- !app_assoc in H2. apply H2. rewrite E'. reflexivity. }
    assert (fits d) as FD by (rewrite Forall_forall in F; apply F; rewrite E; apply in_or_app; right; left; reflexivity).
    specialize (H1 [] d x eq_refl). specialize (H2 [] d x eq_refl). cbn [rev app] in H2.
    cbn [app bits_in map]. rewrite !first_bit_false. cbn [map] in EA'. rewrite EA, EA'.
    exists (bits (below_at k w u d (x ++ y)) (bequeathed k w cs d) d ++ a).
    exists (bits (below_at k w' (map tm u) (tm d) (map tm (x ++ y))) (bequeathed k w' (map tm cs) (tm d)) (tm d) ++ a').
    split; [rewrite app_length, bits_toks; cbn [flat_map]; rewrite app_length, LA; reflexivity|]. split; [|split].
    + apply Forall2_app; [|exact FA]. rewrite (bits_flag d FD), (bits_flag (tm d) (fits_map g G d FD)).
      inversion H1; [constructor|]. cbn [flagged]. constructor; auto.
    + cbn [rev]. rewrite <- !app_assoc. reflexivity.
    + cbn [rev]. rewrite <- !app_assoc. reflexivity.
Qed.

(** The list nodes inherit at least what they did. *)
Lemma heirs_stay k cs inh inh' u d v : fits (CTree k cs) -> cs = rev u ++ d :: v ->
  lined (bits false inh (CTree k cs)) (toks (tm (CTree k cs))) -> (inherits k = true -> inh = true -> inh' = true) ->
  inheriting d = true -> bequeathed k (wide k cs inh) cs d = true -> bequeathed k (wide k (map tm cs) inh') (map tm cs) (tm d) = true.
Proof.
  intros F E L I ID BQ. inversion F as [|? ? NE LG FC]; subst k0 cs0. rewrite bequeathed_map. unfold bequeathed in *.
  assert (wide k cs inh = true -> wide k (map tm cs) inh' = true) as W.
  { intro W. destruct u as [|a u].
    - assert (passes k = true) as P by (eapply inheriting_first; [|exact W|exact ID]; rewrite E in LG; exact LG).
      rewrite wide_why in *. destruct k; try discriminate P; cbn in *; rewrite ?orb_false_r in *; apply I; auto.
    - eapply wide_stays; eauto. exists u, a, d, v. split; [exact E|]. eapply inheriting_next; eauto. }
  destruct k; auto. destruct d as [t|[]]; auto. apply andb_true_iff in BQ as [B1 B2]. rewrite (W B1), B2. reflexivity.
Qed.
End Fourth.

Section Fifth.
Variables g h : token -> token.
Hypothesis G : relined g.
Hypothesis H : relined h.
Notation tg := (tmap g).
Notation th := (tmap h).

Lemma tall_twice c : existsb tall (toks (th (tg c))) = existsb tall (toks (tg c)).
Proof. rewrite (toks_map h). apply (tall_map h H). Qed.
Lemma spans_up c inh inh' : fits c -> (inheriting c = true -> inh = true -> inh' = true) ->
  lined (bits false inh c) (toks (tg c)) -> lined (bits false inh' (tg c)) (toks (th (tg c))) ->
  spans (tg c) = true -> spans (th (tg c)) = true.
Proof.
  intros F I L1 L2 S. pose proof (line_breaks_stay g G c F inh inh' I L1) as GR.
  destruct GR as [|m m' l l' GM GR]; [destruct (toks (tg c)) eqn:E; [|contradiction]; apply (fits_map g G) in F; apply toks_some in F; contradiction|].
  apply (spans_bits _ _ _ L1) in S. apply (spans_bits _ _ _ L2). rewrite tall_twice. destruct S as [S|S]; [left|right; exact S].
  eapply grows_any; eauto.
Qed.
Lemma spans_down c inh inh' : fits c ->
  lined (bits false inh c) (toks (tg c)) -> lined (bits false inh' (tg c)) (toks (th (tg c))) ->
  spans (th (tg c)) = true -> spans (tg c) = true \/ inheriting c && inh' = true.
Proof.
  intros F L1 L2 S. pose proof (new_line_breaks g G c F inh inh' L1) as GR.
  destruct GR as [|m m' l l' GM GR]; [destruct (toks (tg c)) eqn:E; [|contradiction]; apply (fits_map g G) in F; apply toks_some in F; contradiction|].
  apply (spans_bits _ _ _ L2) in S. rewrite tall_twice in S. destruct S as [S|S].
  - destruct (known_any _ _ _ GR S) as [K|K]; [|tauto]. left. apply (spans_bits _ _ _ L1). auto.
  - left. apply (spans_bits _ _ _ L1). auto.
Qed.
Lemma spans_same c inh inh' : fits c -> (inheriting c = true -> inh = true -> inh' = true) ->
  lined (bits false inh c) (toks (tg c)) -> lined (bits false inh' (tg c)) (toks (th (tg c))) ->
  inheriting c && inh' = false -> spans (th (tg c)) = spans (tg c).
Proof.
  intros F I L1 L2 N. apply eq_true_iff_eq. split; intro S.
  - destruct (spans_down c inh inh' F L1 L2 S) as [K|K]; [exact K|congruence].
  - apply (spans_up c inh inh'); auto.
Qed.

(** ** Brackets *)
Lemma bracket_word k o : by_apart k = true -> opens k o = true -> closes k o = false.
Proof. unfold opens, closes. destruct k; try discriminate; intros _; destruct (tkind_of o); try discriminate; reflexivity. Qed.

Lemma apart_split k cs : by_apart k = true -> lang (prod k) (map sym_of cs) -> forall f,
  (forall t, tkind_of (f t) = tkind_of t) -> brackets_apart k (map (tmap f) cs) = true ->
  exists u o x c y, cs = rev u ++ CTok o :: x ++ CTok c :: y /\ opens k o = true /\ closes k c = true /\
    line (tstart (f o)) < line (tstart (f c)).
Proof.
  intros B L f K A. apply apart_spread in A as (o & c & IO & IC & O & C & LT).
  apply in_map_iff in IO as ([o'|] & EO & IO); [|discriminate]. apply in_map_iff in IC as ([c'|] & EC & IC); [|discriminate].
  injection EO as <-. injection EC as <-. unfold opens in O. unfold closes in C. rewrite K in O, C.
  apply in_split in IO as (u & v & E). rewrite E in L, IC. pose proof (one_pair_order k u o' v c' B L O C IC) as IV.
  apply in_split in IV as (x & y & EV). exists (rev u), o', x, c', y. rewrite rev_involutive, E, EV. auto.
Qed.
Lemma split_apart k u o x c y f : (forall t, tkind_of (f t) = tkind_of t) -> opens k o = true -> closes k c = true ->
  line (tstart (f o)) < line (tstart (f c)) -> brackets_apart k (map (tmap f) (rev u ++ CTok o :: x ++ CTok c :: y)) = true.
Proof.
  intros K O C LT. apply apart_spread. exists (f o), (f c). unfold opens, closes in *. rewrite !K.
  repeat split; auto; rewrite map_app; apply in_or_app; right; cbn [map]; [left; reflexivity|right].
  rewrite map_app. apply in_or_app. right. left. reflexivity.
Qed.

Lemma firstn_length {A} (a b : list A) n : n = length a -> firstn n (a ++ b) = a.
Proof. intros ->. rewrite firstn_app, Nat.sub_diag, firstn_O, app_nil_r. apply firstn_all. Qed.

(** The flags of the tokens between the brackets. *)
Lemma between_bits k w cs b u o x c y f a r : cs = rev u ++ CTok o :: x ++ CTok c :: y ->
  lined (bits_in k w cs b [] cs) (map f (flat_map toks cs)) ->
  bits_in k w cs b (CTok o :: u) ((x ++ [CTok c]) ++ y) = a ++ r -> length a = length (flat_map toks (x ++ [CTok c])) ->
  (line (tstart (f o)) < line (tstart (f c)) <-> existsb (fun z => z) a = true \/ existsb tall (map f (o :: flat_map toks x)) = true).
Proof.
  intros E L EA LA. rewrite E in L at 2 3.
  destruct (bits_in_app k w cs b (rev u) [] (CTok o :: x ++ CTok c :: y)) as (p & LP & EP). rewrite EP in L.
  rewrite app_nil_r, rev_involutive in L. rewrite flat_map_app, map_app in L.
  apply lined_app in L; [|rewrite map_length; exact LP]. destruct L as [_ L]. cbn [flat_map toks app map] in L.
  rewrite flat_map_app, map_app in L. cbn [flat_map toks app map bits_in bits] in L.
  rewrite <- app_assoc in EA. cbn [app] in EA. rewrite EA in L.
  apply lined_start in L as [_ L]. rewrite L. rewrite firstn_length; [reflexivity|].
  rewrite LA, flat_map_app, app_length, map_length. cbn. lia.
Qed.

Lemma both_length {A B} (R : A -> B -> Prop) l l' : Forall2 R l l' -> length l = length l'.
Proof. intro F. induction F; cbn [length]; auto. Qed.
Lemma tmap_twice c : th (tg c) = tmap (fun t => h (g t)) c.
Proof.
  induction c as [t|k cs IH] using child_ind2; [reflexivity|]. cbn [tmap]. f_equal.
  induction IH as [|c cs E _ IHcs]; [reflexivity|]. cbn [map]. rewrite E, IHcs. reflexivity.
Qed.
Lemma flat_lines k cs inh : lined (bits false inh (CTree k cs)) (toks (tg (CTree k cs))) ->
  lined (bits_in k (wide k cs inh) cs false [] cs) (map g (flat_map toks cs)).
Proof. rewrite (toks_map g), bits_tree. exact (fun x => x). Qed.
Lemma flat_lines2 k cs inh : lined (bits false inh (tg (CTree k cs))) (toks (th (tg (CTree k cs)))) ->
  lined (bits_in k (wide k (map tg cs) inh) (map tg cs) false [] (map tg cs)) (map h (flat_map toks (map tg cs))).
Proof. rewrite (toks_map h). change (tg (CTree k cs)) with (CTree k (map tg cs)). rewrite bits_tree. exact (fun x => x). Qed.
Lemma tall_parts ts : existsb tall (map h (map g ts)) = existsb tall (map g ts).
Proof. apply (tall_map h H). Qed.

(** ** Operators *)
Definition operator (k : skind) : bool :=
  match k with KLogicalExpression | KLogicalTerm | KFactor | KRelation | KArithmeticExpression | KTerm => true | _ => false end.
Definition operators_ok (k : skind) : bool :=
  implb (operator k)
   (negb (widable k) &&
    forallb (fun p => implb (operates k (fst p)) (calm_sym (fst p) && negb (inherits_sym (fst p)) && calm_sym (snd p)
                       && negb (operates k (snd p)) && negb (always_below k (Some (fst p)) (snd p) true) && negb (value k (snd p))))
      (pairs (prod k)) &&
    forallb (fun p => implb (operates k (snd p)) (negb (always_below k (Some (fst p)) (snd p) true) && negb (value k (snd p)))) (pairs (prod k))).
Lemma operators_checked : forallb operators_ok all_skinds = true.
Proof. vm_compute. reflexivity. Qed.
Lemma late_less k p d l : always_below k p d true = false -> always_below k p d l = false.
Proof.
  unfold always_below. destruct (fixed_position k p d); [auto|]. intro E. apply orb_false_iff in E as [-> E]. cbn [orb andb] in *.
  rewrite E. apply andb_false_r.
Qed.
Lemma map_split {A B} (f : A -> B) l : forall x y, map f l = x ++ y -> exists a b, l = a ++ b /\ x = map f a /\ y = map f b.
Proof.
  induction l as [|z l IH]; intros [|x1 x] y E; cbn [map app] in E.
  - exists [], []. auto.
  - discriminate.
  - exists [], (z :: l). auto.
  - injection E as <- E. destruct (IH x y E) as (a & b & -> & -> & ->). exists (z :: a), b. auto.
Qed.
Lemma lined_join A : forall P x B t e R, length A = length P -> lined (A ++ x :: false :: B) (P ++ t :: e :: R) -> line (tend t) = line (tstart e).
Proof.
  induction A as [|y A IH]; intros [|p P] x B t e R E L; try discriminate; cbn [app] in L.
  - destruct L as (_ & L & _). exact L.
  - destruct L as (_ & _ & L). eapply IH; eauto.
Qed.
Lemma node_join (f : token -> token) k w all b u a d v : fits a -> fits d ->
  lined (bits_in k w all b [] (rev (a :: u) ++ d :: v)) (map f (flat_map toks (rev (a :: u) ++ d :: v))) ->
  below_at k w (a :: u) d v = false -> hd false (bits false (bequeathed k w all d) d) = false ->
  last_line (tmap f a) = first_line (tmap f d).
Proof.
  intros FA FD L B HB. destruct (bits_in_app k w all b (rev (a :: u)) [] (d :: v)) as (p & LP & EP). rewrite EP in L.
  rewrite app_nil_r, rev_involutive in L. cbn [bits_in first_bit] in L. rewrite B in L. cbn [rev] in L, LP. rewrite !flat_map_app in L. rewrite flat_map_app in LP.
  cbn [flat_map] in L, LP. rewrite app_nil_r in L, LP.
  destruct (@exists_last _ (toks a)) as (l & t & ET); [apply (toks_some a FA)|].
  destruct (toks d) as [|e r] eqn:ED; [apply toks_some in FD; contradiction|].
  destruct (bits false (bequeathed k w all d) d) as [|z bs] eqn:EB; [apply (bits_some _ _ _ FD) in EB; contradiction|]. cbn [hd] in HB. subst z.
  rewrite ET in *.
  destruct (@exists_last _ p) as (p0 & x & ->).
  { intros ->. rewrite !app_length in LP. cbn in LP. lia. }
  assert (length p0 = length (flat_map toks (rev u) ++ l)) as LP0.
  { rewrite !app_length in *. cbn in LP. lia. }
  unfold last_line, first_line. rewrite !(toks_map f), ET, ED, map_app, rev_app_distr. cbn [map rev app].
  replace ((p0 ++ [x]) ++ (false :: bs) ++ bits_in k w all b (d :: a :: u) v) with (p0 ++ x :: false :: bs ++ bits_in k w all b (d :: a :: u) v) in L
    by (rewrite <- app_assoc; reflexivity).
  rewrite !map_app in L. cbn [map app] in L. rewrite (app_assoc _ _ [f t]), <- map_app, <- app_assoc in L. cbn [app] in L.
  eapply lined_join; [|exact L]. rewrite map_length. exact LP0.
Qed.

Section Node.
Variables (k : skind) (cs : list child) (inh inh' : bool).
Hypothesis F : fits (CTree k cs).
Hypothesis I : inherits k = true -> inh = true -> inh' = true.
Hypothesis L1 : lined (bits false inh (CTree k cs)) (toks (tg (CTree k cs))).
Hypothesis L2 : lined (bits false inh' (tg (CTree k cs))) (toks (th (tg (CTree k cs)))).
Notation w0 := (wide k cs inh).
Notation w1 := (wide k (map tg cs) inh').

Lemma fits_kids : Forall fits cs.
Proof. inversion F; assumption. Qed.
Lemma kid u d v : cs = rev u ++ d :: v ->
  fits d /\ lined (bits false (bequeathed k w0 cs d) d) (toks (tg d)) /\
  lined (bits false (bequeathed k w1 (map tg cs) (tg d)) (tg d)) (toks (th (tg d))) /\
  (inheriting d = true -> bequeathed k w0 cs d = true -> bequeathed k w1 (map tg cs) (tg d) = true).
Proof.
  intro E. destruct (split_fits _ _ _ _ _ F E) as (FD & FU & FV). split; [exact FD|]. split; [|split].
  - apply (node_child g k w0 cs false (rev u) d v FD). pose proof (flat_lines _ _ _ L1) as L. rewrite E in L at 3 4. exact L.
  - apply (node_child h k w1 (map tg cs) false (rev (map tg u)) (tg d) (map tg v) (fits_map g G d FD)).
    pose proof (flat_lines2 _ _ _ L2) as L. replace (rev (map tg u) ++ tg d :: map tg v) with (map tg cs) by (rewrite E, map_app, map_rev; reflexivity).
    exact L.
  - intros ID B. apply (heirs_stay g G k cs inh inh' u d v F E L1 I ID B).
Qed.
Lemma kid_spans u d v : cs = rev u ++ d :: v -> inheriting d = false -> spans (th (tg d)) = spans (tg d).
Proof.
  intros E N. destruct (kid u d v E) as (FD & K1 & K2 & KI). apply (spans_same d (bequeathed k w0 cs d) (bequeathed k w1 (map tg cs) (tg d)) FD KI K1 K2).
  rewrite N. reflexivity.
Qed.

Lemma apart_up : by_apart k = true -> brackets_apart k (map tg cs) = true -> brackets_apart k (map th (map tg cs)) = true.
Proof.
  intros B A. assert (lang (prod k) (map sym_of cs)) as LG by (inversion F; assumption).
  destruct (apart_split k cs B LG g (re_kind g G) A) as (u & o & x & c & y & E & O & C & LT).
  assert (E2 : cs = rev (CTok o :: u) ++ (x ++ [CTok c]) ++ y) by (rewrite E; cbn [rev]; rewrite <- !app_assoc; reflexivity).
  destruct (part_rel g G grows k w0 w1 cs y fits_kids) with (x := x ++ [CTok c]) (u := CTok o :: u) as (a & a' & LA & FA & EA & EA').
  - unfold grows. intros b b' z z' G1 G2 K. apply orb_true_iff in K as [K|K]; apply orb_true_iff; auto.
  - exact E2.
  - intros x1 d x2 EX. assert (ED : cs = rev (rev x1 ++ CTok o :: u) ++ d :: x2 ++ y).
    { rewrite E2, EX, rev_app_distr, rev_involutive, <- !app_assoc. reflexivity. }
    destruct (kid _ _ _ ED) as (FD & K1 & K2 & KI). apply (line_breaks_stay g G d FD _ _ KI K1).
  - intros x1 d x2 EX. assert (ED : cs = rev (rev x1 ++ CTok o :: u) ++ d :: x2 ++ y).
    { rewrite E2, EX, rev_app_distr, rev_involutive, <- !app_assoc. reflexivity. }
    apply (below_stays g G k cs inh inh' _ _ _ F ED L1 I).
  - pose proof (between_bits k w0 cs false u o x c y g a _ E (flat_lines _ _ _ L1) EA LA) as B1. apply B1 in LT.
    assert (E3 : map tg cs = rev (map tg u) ++ CTok (g o) :: map tg x ++ CTok (g c) :: map tg y).
    { rewrite E, map_app, map_rev. cbn [map tmap]. rewrite map_app. reflexivity. }
    rewrite E3. apply (split_apart k (map tg u) (g o) (map tg x) (g c) (map tg y) h (re_kind h H)).
    + unfold opens. rewrite (re_kind g G). exact O.
    + unfold closes. rewrite (re_kind g G). exact C.
    + rewrite map_app, map_app in EA'. cbn [map tmap] in EA'.
      pose proof (between_bits k w1 (map tg cs) false (map tg u) (g o) (map tg x) (g c) (map tg y) h a' _ E3 (flat_lines2 _ _ _ L2) EA') as B2.
      apply B2.
      * rewrite <- (both_length _ _ _ FA), LA, !flat_map_app, !app_length, flat_toks_map, map_length. reflexivity.
      * destruct LT as [LT|LT]; [left; eapply grows_any; eauto|right]. rewrite flat_toks_map. apply (eq_trans (tall_parts (o :: flat_map toks x))). exact LT.
Qed.

Lemma apart_down : by_apart k = true -> w1 = false -> brackets_apart k (map th (map tg cs)) = true -> brackets_apart k (map tg cs) = true.
Proof.
  intros B W A. assert (lang (prod k) (map sym_of cs)) as LG by (inversion F; assumption).
  rewrite map_map in A. rewrite (map_ext _ _ tmap_twice) in A.
  destruct (apart_split k cs B LG (fun t => h (g t))) as (u & o & x & c & y & E & O & C & LT); [intro t; rewrite (re_kind h H); apply (re_kind g G)|exact A|].
  assert (E2 : cs = rev (CTok o :: u) ++ (x ++ [CTok c]) ++ y) by (rewrite E; cbn [rev]; rewrite <- !app_assoc; reflexivity).
  assert (forall x1 d x2, x = x1 ++ d :: x2 -> spans (tg d) = true -> brackets_apart k (map tg cs) = true) as SP.
  { intros x1 d x2 EX S. rewrite E. apply (split_apart k u o x c y g (re_kind g G) O C).
    assert (ED : cs = rev (rev x1 ++ CTok o :: u) ++ d :: x2 ++ CTok c :: y).
    { rewrite E, EX, rev_app_distr, rev_involutive. cbn [rev]. rewrite <- !app_assoc. reflexivity. }
    destruct (kid _ _ _ ED) as (FD & _). unfold spans in S. apply N.ltb_lt in S.
    destruct (first_line_in g d FD) as (p & IP & _ & EP). destruct (last_line_in g d FD) as (q & IQ & _ & EQ). rewrite EP, EQ in S.
    pose proof (flat_lines _ _ _ L1) as L. 
    assert (line (tend (g o)) <= line (tstart (g p))) as O1.
    { assert (L' := L). rewrite ED in L' at 3 4. apply (node_order g _ _ _ _ _ _ o p L').
      - rewrite rev_app_distr, rev_involutive. cbn [rev]. rewrite !flat_map_app. cbn [flat_map toks]. apply in_or_app. left. apply in_or_app. right. left. reflexivity.
      - cbn [flat_map]. apply in_or_app. auto. }
    assert (line (tend (g q)) <= line (tstart (g c))) as O2.
    { assert (EC : cs = (rev u ++ CTok o :: x) ++ CTok c :: y) by (rewrite E, <- app_assoc; reflexivity).
      assert (L' := L). rewrite EC in L' at 3 4. apply (node_order g _ _ _ _ _ _ q c L').
      - rewrite EX, flat_map_app. cbn [flat_map]. rewrite flat_map_app. cbn [flat_map]. apply in_or_app. right. apply in_or_app. right. apply in_or_app. right. apply in_or_app. auto.
      - left. reflexivity. }
    assert (line (tstart (g o)) <= line (tend (g o))) as O3.
    { apply (line_ok g _ _ _ L). rewrite E, flat_map_app. apply in_or_app. right. left. reflexivity. }
    lia. }
  assert (forall x1 d x2, x ++ [CTok c] = x1 ++ d :: x2 -> (exists x3, x = x1 ++ d :: x3) \/ d = CTok c) as LAST.
  { intros x1 d x2 EX. destruct (@exists_last _ (d :: x2)) as (l & z & EL); [discriminate|].
    assert (x = x1 ++ l /\ CTok c = z) as [E4 E5] by (apply app_inj_tail; rewrite <- app_assoc, <- EL; exact EX).
    destruct l as [|z' l]; cbn [app] in EL; injection EL as -> ->; [right; congruence|left; exists l; exact E4]. }
  destruct (part_rel g G (known (brackets_apart k (map tg cs) = true)) k w0 w1 cs y fits_kids) with (x := x ++ [CTok c]) (u := CTok o :: u) as (a & a' & LA & FA & EA & EA').
  - unfold known. intros b b' z z' G1 G2 K. rewrite !orb_true_iff in *. destruct K as [K|K]; [apply G1 in K|apply G2 in K]; tauto.
  - exact E2.
  - intros x1 d x2 EX. assert (ED : cs = rev (rev x1 ++ CTok o :: u) ++ d :: x2 ++ y).
    { rewrite E2, EX, rev_app_distr, rev_involutive, <- !app_assoc. reflexivity. }
    destruct (kid _ _ _ ED) as (FD & K1 & K2 & KI). destruct (LAST x1 d x2 EX) as [(x3 & EX3)| ->].
    + eapply both_weaken; [|apply (new_line_breaks g G d FD _ _ K1)]. intros m m' K M. destruct (K M) as [K3|[K3|K3]]; [auto|right; eapply SP; eauto|].
      rewrite W in K3. replace (bequeathed k false (map tg cs) (tg d)) with false in K3 by (unfold bequeathed; destruct k; auto; destruct (tg d) as [|[]]; reflexivity).
      rewrite andb_false_r in K3. discriminate.
    + constructor; [|constructor]. intro K. discriminate.
  - intros x1 d x2 EX BL. assert (ED : cs = rev (rev x1 ++ CTok o :: u) ++ d :: x2 ++ y).
    { rewrite E2, EX, rev_app_distr, rev_involutive, <- !app_assoc. reflexivity. }
    rewrite below_why in BL |- *. rewrite (always_below_map g G), (kind_last_map g G), (kind_map g G) in BL.
    apply orb_true_iff in BL as [BL|BL]; [rewrite BL; auto|]. apply andb_true_iff in BL as [_ BL]. rewrite W in BL. cbn [andb] in BL. rewrite orb_false_r in BL.
    apply orb_true_iff in BL as [BL|BL].
    + right. apply andb_true_iff in BL as [V M]. destruct (LAST x1 d x2 EX) as [(x3 & EX3)| ->].
      * unfold multi_if in M. apply andb_true_iff in M as [M _]. eapply SP; eauto.
      * cbn [kind_of] in V. destruct k; discriminate.
    + unfold turns in BL. destruct (last_of (map tg (rev x1 ++ CTok o :: u))) as [e|]; [|discriminate]. destruct (map tg (x2 ++ y)); [discriminate|].
      apply andb_true_iff in BL as [BL _]. destruct k; discriminate.
  - assert (E3 : map tg cs = rev (map tg u) ++ CTok (g o) :: map tg x ++ CTok (g c) :: map tg y).
    { rewrite E, map_app, map_rev. cbn [map tmap]. rewrite map_app. reflexivity. }
    rewrite map_app, map_app in EA'. cbn [map tmap] in EA'.
    pose proof (between_bits k w1 (map tg cs) false (map tg u) (g o) (map tg x) (g c) (map tg y) h a' _ E3 (flat_lines2 _ _ _ L2) EA') as B2.
    apply B2 in LT; [|rewrite <- (both_length _ _ _ FA), LA, !flat_map_app, !app_length, flat_toks_map, map_length; reflexivity].
    pose proof (between_bits k w0 cs false u o x c y g a _ E (flat_lines _ _ _ L1) EA LA) as B1.
    rewrite flat_toks_map in LT.
    assert (existsb (fun z => z) a = true \/ existsb tall (map g (o :: flat_map toks x)) = true \/ brackets_apart k (map tg cs) = true) as [K|[K|K]].
    { destruct LT as [LT|LT].
      - destruct (known_any _ _ _ FA LT); auto.
      - right. left. rewrite <- tall_parts. exact LT. }
    + rewrite E. apply (split_apart k u o x c y g (re_kind g G) O C). apply B1. auto.
    + rewrite E. apply (split_apart k u o x c y g (re_kind g G) O C). apply B1. auto.
    + exact K.
Qed.

Lemma wide_same : wide k (map th (map tg cs)) inh' = w1.
Proof.
  destruct (inherits k && inh') eqn:IH; [rewrite !wide_why, IH; reflexivity|].
  assert (by_apart k = true -> brackets_apart k (map th (map tg cs)) = brackets_apart k (map tg cs) \/ w1 = true) as BA.
  { intro B. destruct w1 eqn:W; [auto|]. left. apply eq_true_iff_eq. split; [apply (apart_down B W)|apply (apart_up B)]. }
  assert (spans (CTree k (map th (map tg cs))) = spans (CTree k (map tg cs))) as SP.
  { apply (spans_same (CTree k cs) inh inh' F I L1 L2 IH). }
  destruct (by_apart k) eqn:B.
  - destruct (BA eq_refl) as [BE|W].
    + rewrite !wide_why, (always_wide_map h), BE, SP. unfold long_enough. destruct k; rewrite ?map_length; reflexivity.
    + rewrite W. rewrite wide_why in *. rewrite B, IH in *. cbn [andb orb] in *.
      assert (by_span k = false) as BS by (destruct k; try discriminate B; reflexivity). rewrite BS in *. cbn [andb] in *. rewrite orb_false_r in *.
      rewrite (always_wide_map h). apply orb_true_iff in W as [W|W]; apply orb_true_iff; [auto|]. right. apply (apart_up B W).
  - rewrite !wide_why, (always_wide_map h), B, SP. unfold long_enough. destruct k; rewrite ?map_length; reflexivity.
Qed.

Lemma turns_same u d v : cs = rev u ++ d :: v ->
  turns k (last_of (map th (map tg u))) (th (tg d)) (map th (map tg v)) = turns k (last_of (map tg u)) (tg d) (map tg v).
Proof.
  intro E. assert (E1 : map tg cs = rev (map tg u) ++ tg d :: map tg v) by (rewrite E, map_app, map_rev; reflexivity).
  apply eq_true_iff_eq. split; intro T.
  2:{ apply (turn_breaks h H k w1 (map tg cs) false (map tg u) (tg d) (map tg v) (fits_map g G _ F) E1 (flat_lines2 _ _ _ L2) T). }
  destruct (turns k (last_of (map tg u)) (tg d) (map tg v)) eqn:T1; [reflexivity|exfalso].
  destruct u as [|a u]; [discriminate|]. destruct v as [|e v]; [discriminate|]. unfold turns in T. cbn [map last_of] in T.
  apply andb_true_iff in T as [O LT]. rewrite !(kind_map _ H), (kind_map g G) in O. apply N.ltb_lt in LT.
  assert (T1' := T1). unfold turns in T1'. cbn [map last_of] in T1'. rewrite (kind_map g G), O in T1'. cbn [andb] in T1'. apply N.ltb_ge in T1'.
  assert (operator k = true) as OK by (destruct k; try discriminate O; reflexivity).
  pose proof (skind_all _ operators_checked k) as C. unfold operators_ok in C. rewrite OK in C. cbn [implb] in C.
  apply andb_true_iff in C as [C C3]. apply andb_true_iff in C as [C1 C2]. apply negb_true_iff in C1.
  assert (w1 = false) as W by (destruct w1 eqn:W; [apply wide_widable in W; congruence|reflexivity]).
  rewrite forallb_forall in C2, C3. assert (lang (prod k) (map sym_of cs)) as LG by (inversion F; assumption).
  assert (In (sym_of a, sym_of d) (pairs (prod k))) as P1.
  { eapply pairs_complete; [exact LG|]. exists (map sym_of (rev u)), (map sym_of (e :: v)). rewrite E. cbn [rev]. rewrite <- app_assoc, map_app. reflexivity. }
  assert (In (sym_of d, sym_of e) (pairs (prod k))) as P2.
  { eapply pairs_complete; [exact LG|]. exists (map sym_of (rev (a :: u))), (map sym_of v). rewrite E, map_app. reflexivity. }
  specialize (C2 _ P2). specialize (C3 _ P1). cbn [fst snd] in C2, C3. rewrite <- (kind_sym d), <- (kind_sym e) in C2. rewrite <- (kind_sym d), <- (kind_sym a) in C3. rewrite O in C2, C3. cbn [implb] in C2, C3.
  repeat (apply andb_true_iff in C2 as [C2 ?Q]). apply andb_true_iff in C3 as [C3 V3].
  repeat match goal with K : negb _ = true |- _ => apply negb_true_iff in K end.
  destruct (kid (a :: u) d (e :: v) E) as (FD & K1 & K2 & KI).
  assert (E' : cs = rev (d :: a :: u) ++ e :: v) by (rewrite E; cbn [rev]; rewrite <- !app_assoc; reflexivity).
  destruct (kid (d :: a :: u) e v E') as (FE & _).
  assert (fits a) as FA by (pose proof fits_kids as FK; rewrite Forall_forall in FK; apply FK; rewrite E; cbn [rev]; rewrite <- app_assoc; apply in_or_app; right; left; reflexivity).
  assert (last_line (th (tg a)) = first_line (th (tg d))) as J1.
  { apply (node_join h k w1 (map tg cs) false (map tg u) (tg a) (tg d) (map tg (e :: v))).
    - apply (fits_map g G _ FA).
    - apply (fits_map g G _ FD).
    - pose proof (flat_lines2 _ _ _ L2) as L. change (tg a :: map tg u) with (map tg (a :: u)). rewrite <- E1. exact L.
    - rewrite below_why. cbn [kind_last]. rewrite !(kind_map g G), W, (late_less _ _ _ _ C3), V3.
      change (tg a :: map tg u) with (map tg (a :: u)). rewrite T1. cbn [andb orb]. apply andb_false_r.
    - apply (calm_first (tg d)); [apply (fits_map g G _ FD)|]. rewrite (sym_map g G), <- kind_sym. exact C2. }
  assert (last_line (th (tg d)) = first_line (th (tg e))) as J2.
  { apply (node_join h k w1 (map tg cs) false (map tg (a :: u)) (tg d) (tg e) (map tg v)).
    - apply (fits_map g G _ FD).
    - apply (fits_map g G _ FE).
    - pose proof (flat_lines2 _ _ _ L2) as L. change (tg d :: map tg (a :: u)) with (map tg (d :: a :: u)).
      replace (rev (map tg (d :: a :: u)) ++ tg e :: map tg v) with (map tg cs) by (rewrite E', map_app, map_rev; reflexivity). exact L.
    - rewrite below_why. cbn [kind_last]. rewrite !(kind_map g G), W, (late_less _ _ _ _ Q0), Q.
      unfold turns. cbn [last_of]. destruct (map tg v); rewrite ?(kind_map g G), ?Q1; cbn [andb orb]; apply andb_false_r.
    - apply (calm_first (tg e)); [apply (fits_map g G _ FE)|]. rewrite (sym_map g G), <- kind_sym. exact Q2. }
  assert (spans (th (tg d)) = true) as S by (unfold spans; apply N.ltb_lt; lia).
  rewrite (kid_spans (a :: u) d (e :: v) E) in S by (rewrite <- inherits_of, <- kind_sym; exact Q3).
  unfold spans in S. apply N.ltb_lt in S. pose proof (flat_lines _ _ _ L1) as L.
  destruct (first_line_in g d FD) as (p & IP & _ & EP). destruct (last_line_in g d FD) as (q & IQ & _ & EQ).
  destruct (last_line_in g a FA) as (p' & IP' & _ & EP'). destruct (first_line_in g e FE) as (q' & IQ' & _ & EQ').
  rewrite EP, EQ in S. rewrite EP', EQ' in T1'.
  assert (line (tend (g p')) <= line (tstart (g p))) as R1.
  { assert (L' := L). rewrite E in L' at 3 4. apply (node_order g _ _ _ _ _ _ _ _ L').
    - cbn [rev]. rewrite flat_map_app. cbn [flat_map]. rewrite app_nil_r. apply in_or_app. auto.
    - cbn [flat_map]. apply in_or_app. auto. }
  assert (line (tend (g q)) <= line (tstart (g q'))) as R2.
  { assert (L' := L). rewrite E' in L' at 3 4. apply (node_order g _ _ _ _ _ _ _ _ L').
    - cbn [rev]. rewrite flat_map_app. cbn [flat_map]. rewrite app_nil_r. apply in_or_app. auto.
    - cbn [flat_map]. apply in_or_app. auto. }
  lia.
Qed.
End Node.

Theorem second_agrees c : fits c -> forall inh inh', (inheriting c = true -> inh = true -> inh' = true) ->
  lined (bits false inh c) (toks (tg c)) -> lined (bits false inh' (tg c)) (toks (th (tg c))) -> agree h inh' (tg c).
Proof.
  induction c as [t|k cs IH] using child_ind2; intros F inh inh' I L1 L2; [constructor|]. cbn [inheriting] in I.
  change (tg (CTree k cs)) with (CTree k (map tg cs)). constructor; [eapply wide_same; eauto|].
  intros u1 d1 v1 E1. assert (exists u d v, u1 = map tg u /\ d1 = tg d /\ v1 = map tg v /\ cs = rev u ++ d :: v) as (u & d & v & -> & -> & -> & E).
  { clear - E1. apply map_split in E1 as (x & y & -> & EX & EY). destruct y as [|d v]; [discriminate|]. injection EY as -> ->.
    exists (rev x), d, v. rewrite map_rev, <- EX, !rev_involutive. auto. }
  split; [|split].
  - eapply turns_same; eauto.
  - intro V. rewrite (kind_map g G) in V. unfold multi_if. rewrite (kid_spans k cs inh inh' F I L1 L2 u d v E).
    + f_equal. rewrite (toks_map h). destruct (toks (tg d)); cbn [map]; rewrite ?(re_kind h H); reflexivity.
    + apply value_kinds in V as (k' & ds & -> & V). destruct k'; try discriminate V; reflexivity.
  - destruct (kid k cs inh inh' F I L1 L2 u d v E) as (FD & K1 & K2 & KI).
    rewrite Forall_forall in IH. apply (IH d) with (inh := bequeathed k (wide k cs inh) cs d); auto.
    rewrite E. apply in_or_app. right. left. reflexivity.
Qed.
End Fifth.

(** ** Nodes that agree have the same spots *)
Definition strip (x : spot) : skind * position * nat := (at_rule x, at_pos x, at_level x).

Lemma position_same k w turn m m' l l' sec prev d :
  (value k d = true -> m = m') -> l && match d with Term TWithin => true | _ => false end = l' && match d with Term TWithin => true | _ => false end ->
  position_of k w turn m l sec prev d = position_of k w turn m' l' sec prev d.
Proof.
  intros M L. unfold position_of. rewrite L. destruct (value k d); [rewrite M by reflexivity|]; reflexivity.
Qed.
Lemma deeper_same k w m m' prev d : (value k d = true -> m = m') -> deeper k w m prev d = deeper k w m' prev d.
Proof. intro M. unfold deeper. destruct (value k d); [rewrite M by reflexivity|]; reflexivity. Qed.

Section Same.
Variable h : token -> token.
Hypothesis H : relined h.
Notation th := (tmap h).

Lemma continues_map k d : continues k (th d) = continues k d.
Proof. destruct d as [t|k' ds]; [reflexivity|]. destruct k; reflexivity. Qed.

Lemma agree_wraps c : forall inh, agree h inh c -> wraps (th c) = wraps c.
Proof.
  induction c as [t|k cs IH] using child_ind2; intros inh A; [reflexivity|]. inversion A as [|? ? ? W P]; subst.
  change (th (CTree k cs)) with (CTree k (map th cs)). rewrite !wraps_tree.
  assert (forall v u, cs = rev u ++ v -> wraps_in k (last_of (map th u)) (map th v) = wraps_in k (last_of u) v) as K; [|apply (K cs []); reflexivity].
  induction v as [|d v IHv]; intros u E; [reflexivity|]. cbn [map wraps_in]. destruct (P u d v E) as (T & _ & AD).
  rewrite T, continues_map. rewrite Forall_forall in IH.
  rewrite (IH d) with (inh := bequeathed k (wide k cs inh) cs d) by (auto; rewrite E; apply in_or_app; right; left; reflexivity).
  f_equal. apply (IHv (d :: u)). rewrite E. cbn [rev]. rewrite <- app_assoc. reflexivity.
Qed.
Lemma keeps_map k d inh : agree h inh d -> keeps_level k (th d) = keeps_level k d.
Proof.
  intro A. apply agree_wraps in A. destruct d as [t|k' ds]; [reflexivity|]. change (th (CTree k' ds)) with (CTree k' (map th ds)) in *.
  rewrite !keeps_leaks, A. reflexivity.
Qed.
Lemma agree_leak c : forall inh, agree h inh c -> leak (th c) = leak c.
Proof.
  induction c as [t|k cs IH] using child_ind2; intros inh A; [reflexivity|]. inversion A as [|? ? ? W P]; subst.
  change (th (CTree k cs)) with (CTree k (map th cs)). rewrite !leak_tree.
  assert (forall v u, cs = rev u ++ v -> leak_in k (map th v) = leak_in k v) as K; [|apply (K cs []); reflexivity].
  induction v as [|d v IHv]; intros u E; [reflexivity|]. cbn [map leak_in]. destruct (P u d v E) as (T & _ & AD).
  rewrite (keeps_map _ _ _ AD), (IHv (d :: u)) by (rewrite E; cbn [rev]; rewrite <- app_assoc; reflexivity).
  rewrite Forall_forall in IH. rewrite (IH d) with (inh := bequeathed k (wide k cs inh) cs d) by (auto; rewrite E; apply in_or_app; right; left; reflexivity).
  reflexivity.
Qed.

Theorem agree_spots c : forall inh, agree h inh c -> forall q pos first n on,
  map strip (spots q pos first n on inh (th c)) = map strip (spots q pos first n on inh c).
Proof.
  induction c as [t|k cs IH] using child_ind2; intros inh A q pos first n on; [reflexivity|]. inversion A as [|? ? ? W P]; subst.
  change (th (CTree k cs)) with (CTree k (map th cs)). rewrite !spots_tree, W.
  assert (forall v u n on, cs = rev u ++ v ->
    map strip (children k (wide k cs inh) (map th cs) pos first (map th u) n on (map th v)) =
    map strip (children k (wide k cs inh) cs pos first u n on v)) as K; [|apply (K cs []); reflexivity].
  induction v as [|d v IHv]; intros u m o E; [reflexivity|]. cbn [map children]. destruct (P u d v E) as (T & M & AD).
  rewrite T, continues_map, (keeps_map _ _ _ AD), (agree_wraps _ _ AD), (agree_leak _ _ AD), (kind_map h H), (kind_last_map h H), after_first_map, bequeathed_map.
  rewrite (position_same k (wide k cs inh) (turns k (last_of u) d v) (multi_if (th d)) (multi_if d) (is_late (th d)) (is_late d) _ _ _ M)
    by apply (late_map h H).
  rewrite (deeper_same k (wide k cs inh) (multi_if (th d)) (multi_if d) _ _ M).
  rewrite !map_app. f_equal.
  - rewrite Forall_forall in IH. rewrite (IH d) by (auto; rewrite E; apply in_or_app; right; left; reflexivity).
    destruct u; reflexivity.
  - apply (IHv (d :: u)). rewrite E. cbn [rev]. rewrite <- app_assoc. reflexivity.
Qed.
End Same.

(** ** The tokens of the spots *)
Lemma spots_toks c : forall q pos first n on inh, map at_tok (spots q pos first n on inh c) = toks c.
Proof.
  induction c as [t|k cs IH] using child_ind2; intros q pos first n on inh; [reflexivity|]. rewrite spots_tree. cbn [toks].
  assert (forall v u n on all, Forall (fun c => forall q pos first n on inh, map at_tok (spots q pos first n on inh c) = toks c) v ->
    map at_tok (children k (wide k cs inh) all pos first u n on v) = flat_map toks v) as K; [|apply K; exact IH].
  induction v as [|d v IHv]; intros u m o all FA; [reflexivity|]. inversion FA; subst. cbn [children flat_map]. rewrite map_app. f_equal; auto.
Qed.

(** A [within] that is not the first item starts a line. *)
Lemma late_within c t r : fits c -> toks c = t :: r -> tkind_of t = TWithin -> 0 < tidx t -> forall b inh k cs, c = CTree k cs -> hd false (bits b inh c) = true.
Proof.
  revert t r. induction c as [t0|k0 cs0 IH] using child_ind2; intros t r F T K I b inh k cs E; [discriminate|]. clear k cs E.
  inversion F as [|? ? NE L FC]; subst. destruct cs0 as [|d v]; [contradiction|]. inversion FC as [|? ? FD FV]; subst. inversion IH as [|? ? HD _]; subst.
  rewrite bits_tree. cbn [bits_in first_bit]. rewrite hd_app by (apply (bits_some _ _ _ FD)).
  assert (exists r', toks d = t :: r') as (r' & TD).
  { cbn [toks flat_map] in T. destruct (toks d) as [|t1 r1] eqn:TD; [apply toks_some in FD; contradiction|]. injection T as -> _. eauto. }
  destruct d as [t1|k1 ds].
  - cbn [toks] in TD. injection TD as -> _. cbn [bits hd]. rewrite below_why. cbn [kind_last kind_of is_late]. apply N.ltb_lt in I. rewrite K, I.
    apply orb_true_iff. right. apply orb_true_iff. left. destruct k0; reflexivity.
  - eapply HD; eauto.
Qed.
