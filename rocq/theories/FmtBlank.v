(** Where empty lines come from. *)
From Verif Require Import ProofBase Tokens Syntax Lexer SpecLex LexInv LexMain LexFacts ParserCore Grammar
  Tree Printer Formatter Lib ParserSem ParserFuel SpecGrammar Regex ParserGrammar ParserTree ParserFacts Recognise PropsParser
  FmtAbs FmtPlan FmtShape FmtTables FmtSound SpecLayout FmtExec FmtTop FmtFacts FmtRelex FmtNeat SpecNodes FmtTree FmtLists FmtOps
  FmtWrap SpecGaps SpecReference FmtNode FmtReference PropsFormat PropsReference FmtAgree FmtPrinted FmtStable FmtMoved FmtConcat SpecLevels FmtLevels SpecLocal FmtLocal SpecBlank.

(** ** Spots below an empty line *)
Lemma children_in k w all pos first y v : forall u n on, In y (children k w all pos first u n on v) ->
  exists x d v', v = x ++ d :: v' /\ In y (spots_at (call k w all pos first (rev x ++ u) (n + leak_in k x) (on_before k (last_of u) on x (d :: v')) d v') d).
Proof.
  induction v as [|d v IH]; intros u n on I; [destruct I|]. cbn [children] in I. cbv zeta in I. apply in_app_or in I as [I|I].
  - exists [], d, v. split; [reflexivity|]. cbn [rev app leak_in on_before]. rewrite Nat.add_0_r. exact I.
  - apply IH in I as (x & e & v' & -> & I). exists (d :: x), e, v'. split; [reflexivity|]. cbn [rev on_before leak_in]. rewrite <- app_assoc. cbn [app].
    replace (n + (leak d + one_if (keeps_level k d) + leak_in k x))%nat with (n + leak d + one_if (keeps_level k d) + leak_in k x)%nat by lia. exact I.
Qed.
Lemma spots_next k cs a y : In y (spots_at a (CTree k cs)) -> exists u d v, cs = u ++ d :: v /\ In y (spots_at (next k u d v a) d).
Proof.
  unfold spots_at at 1. rewrite spots_tree. intro I. apply children_in in I as (u & d & v & E & I). exists u, d, v. split; [exact E|].
  unfold next. rewrite <- E. rewrite app_nil_r in I. exact I.
Qed.
Lemma automatic_below k cs d t : In d cs -> automatic d t -> automatic (CTree k cs) t.
Proof.
  intros I A. inversion A as [u e v r IN P T|k' u w e v r IN K S N T|u v IN K].
  - eapply au_part; eauto. econstructor; eauto.
  - eapply au_first; eauto. econstructor; eauto.
  - eapply au_end; eauto. econstructor; eauto.
Qed.
Lemma always_position k w turn multi late second prev d : position_of k w turn multi late second prev d = Below Always ->
  fixed_position k prev d = Some (Below Always).
Proof.
  unfold position_of. destruct (fixed_position k prev d) as [p|]; [intros ->; reflexivity|].
  match goal with |- (if ?c then _ else _) = _ -> _ => destruct c end; [discriminate|]. destruct prev as [[|x]|]; try discriminate. destruct x; try discriminate. destruct second; discriminate.
Qed.
Lemma symbol_kind c : symbol c = kind_of c.
Proof. destruct c; reflexivity. Qed.
Lemma section_first k u d v : fits (CTree k (u ++ d :: v)) -> k = KEquationSection \/ k = KAlgorithmSection -> statement (symbol d) = true -> exists u' w, u = u' ++ [w].
Proof.
  intros F K S. destruct u as [|e u]; [|destruct (@exists_last _ (e :: u)) as (u' & w & ->); [discriminate|eauto]]. exfalso. inversion F as [|? ? _ L _]; subst. cbn [app map] in L. apply firsts_complete in L.
  replace (sym_of d) with (symbol d) in L by (destruct d; reflexivity). destruct (symbol d) as [[]|[]]; try discriminate S; destruct K as [->| ->]; vm_compute in L; intuition discriminate.
Qed.
Lemma always_automatic k u d v t r : fixed_position k (kind_last (rev u)) (kind_of d) = Some (Below Always) -> toks d = t :: r -> fits (CTree k (u ++ d :: v)) ->
  automatic (CTree k (u ++ d :: v)) t.
Proof.
  intros F T FT. destruct k; cbn [fixed_position] in F; try discriminate F.
  all: try (destruct (kind_of d) as [[]|[]]; try discriminate F; try (destruct (after_semicolon _); discriminate F); fail).
  all: try (destruct (kind_of d) as [|]; [discriminate F|]; destruct (kind_last (rev u)); discriminate F).
  all: try (destruct (statement (kind_of d) || block_word (kind_of d)); discriminate F).
  - destruct d as [x|k' ds]; [|discriminate F]. injection T as <- <-. apply (au_end _ x u v); [constructor|]. cbn [kind_of] in F. destruct (tkind_of x); try discriminate F; reflexivity.
  - apply (au_part _ t u d v r); [constructor| |exact T]. unfold part. rewrite !symbol_kind. split; [intro E; rewrite E in F; discriminate|]. split; [intro E; rewrite E in F; discriminate|].
    intros E u' e ->. rewrite rev_app_distr in F. cbn [rev app kind_last] in F. rewrite E in F. rewrite !symbol_kind. repeat split; intro X; rewrite X in F; discriminate.
  - destruct (section_first KEquationSection u d v FT (or_introl eq_refl)) as (u' & w & ->); [rewrite symbol_kind; destruct (statement (kind_of d)); [reflexivity|discriminate]|].
    rewrite <- app_assoc in *. cbn [app] in *. apply (au_first _ t KEquationSection u' w d v r); [constructor|auto| | |exact T].
    + rewrite symbol_kind. destruct (kind_of d) as [|[]]; try discriminate F; auto.
    + rewrite symbol_kind. intro X. rewrite rev_app_distr in F. cbn [rev app kind_last] in F. rewrite X in F. destruct (statement _); discriminate F.
  - destruct (section_first KAlgorithmSection u d v FT (or_intror eq_refl)) as (u' & w & ->); [rewrite symbol_kind; destruct (statement (kind_of d)); [reflexivity|discriminate]|].
    rewrite <- app_assoc in *. cbn [app] in *. apply (au_first _ t KAlgorithmSection u' w d v r); [constructor|auto| | |exact T].
    + rewrite symbol_kind. destruct (kind_of d) as [|[]]; try discriminate F; auto.
    + rewrite symbol_kind. intro X. rewrite rev_app_distr in F. cbn [rev app kind_last] in F. rewrite X in F. destruct (statement _); discriminate F.
Qed.
(** Tokens of spots with empty lines in any case are as specified ... *)
Lemma always_spots c : forall a y, fits c -> In y (spots_at a c) -> at_pos y = Below Always ->
  automatic c (at_tok y) \/ (a_pos a = Below Always /\ exists r, toks c = at_tok y :: r).
Proof.
  induction c as [t|k cs IH] using child_ind2; intros a y F I P.
  - destruct I as [<-|[]]. cbn [at_pos] in P. right. split; [exact P|]. exists []. reflexivity.
  - apply spots_next in I as (u & d & v & -> & I). assert (F' := F). inversion F' as [|? ? _ _ FC]; subst. rewrite Forall_forall in IH, FC.
    destruct (IH d (in_elt _ _ _) _ _ (FC d (in_elt _ _ _)) I P) as [A|(E & r & T)]; [left; eapply automatic_below; [apply in_elt|exact A]|].
    unfold next, call in E. cbn [a_pos] in E. cbv zeta in E.
    match type of E with (if is_new _ ?p then _ else _) = _ => remember p as q eqn:Q; destruct (is_new (rev u) q) eqn:N end.
    + left. rewrite Q in E. apply always_position in E. eapply always_automatic; eauto.
    + right. split; [exact E|]. unfold is_new in N. destruct u as [|e u]; [|destruct (rev (e :: u)) eqn:R; [apply (f_equal (@length _)) in R; rewrite rev_length in R; discriminate|destruct q; discriminate]].
      cbn [app toks flat_map]. rewrite T. eexists. reflexivity.
Qed.
(** ... and conversely. *)
Lemma fixed_spot tree k u d v t r : fits tree -> inside (CTree k (u ++ d :: v)) tree -> fixed_position k (kind_last (rev u)) (kind_of d) = Some (Below Always) ->
  is_opener d = false -> toks d = t :: r -> forall a0, exists y, In y (spots_at a0 tree) /\ at_tok y = t /\ at_pos y = Below Always.
Proof.
  intros F I X O T a0. destruct (inside_seat tree a0 _ I) as (a & S). pose proof (seat_next _ _ _ _ _ _ _ S) as SD. pose proof (seat_infix _ _ _ _ SD) as IX.
  assert (fits d) as FD by (pose proof (inside_fits _ _ F I) as FI; inversion FI as [|? ? _ _ FC]; subst; rewrite Forall_forall in FC; apply FC, in_elt).
  destruct (head_spot d (next k u d v a) FD O) as (y & ys & E & P & _ & r' & T'). exists y. split; [apply (infix_in _ _ _ IX); rewrite E; left; reflexivity|].
  split; [congruence|]. rewrite P. unfold next, call. cbn [a_pos]. cbv zeta. unfold position_of. rewrite X. unfold is_new. destruct (rev u); reflexivity.
Qed.
Lemma openers_checked : forallb (fun x => negb (opener_sym x)) (symbols (pruned (production false KComposition))) = true.
Proof. vm_compute. reflexivity. Qed.
Lemma automatic_spot tree t : fits tree -> automatic tree t -> forall a0, exists y, In y (spots_at a0 tree) /\ at_tok y = t /\ at_pos y = Below Always.
Proof.
  intros F A. inversion A as [u d v r IN P T|k u w d v r IN K S N T|u v IN K].
  - apply (fixed_spot tree KComposition u d v t r); auto.
    + destruct P as (P1 & P2 & P3). rewrite !symbol_kind in *. cbn [fixed_position]. destruct (kind_of d) as [[]|[]]; try reflexivity; try contradiction.
      destruct (external_part (kind_last (rev u))) eqn:X; [|reflexivity]. exfalso. destruct (rev u) as [|e u'] eqn:R; [discriminate|].
      assert (u = rev u' ++ [e]) as E by (rewrite <- (rev_involutive u), R; reflexivity). destruct (P3 eq_refl _ _ E) as (Q1 & Q2 & Q3). rewrite !symbol_kind in *. cbn [kind_last external_part] in X.
      destruct (kind_of e) as [[]|[]]; try discriminate X; contradiction.
    + pose proof (inside_fits _ _ F IN) as FI. pose proof (child_symbol _ _ _ _ FI) as CS.
      pose proof (proj1 (forallb_forall _ _) openers_checked _ CS) as O. apply negb_true_iff in O. exact O.
  - apply (fixed_spot tree k (u ++ [w]) d v t r); auto.
    + rewrite <- app_assoc. exact IN.
    + rewrite !symbol_kind in *. rewrite rev_app_distr. cbn [rev app kind_last]. assert (after_semicolon (Some (kind_of w)) = false) as AS.
      { cbn [after_semicolon]. destruct (kind_of w) as [[]|]; try reflexivity. contradiction. }
      destruct K as [->| ->]; cbn [fixed_position]; rewrite AS; destruct S as [-> | ->]; reflexivity.
    + rewrite symbol_kind in S. unfold is_opener. replace (sym_of d) with (kind_of d) by (destruct d; reflexivity). destruct S as [-> | ->]; reflexivity.
  - apply (fixed_spot tree KLongClassSpecifier u (CTok t) v t []); auto. cbn [fixed_position kind_of]. rewrite K. reflexivity.
Qed.

(** ** Empty lines in the layout *)
Definition blank (w : white) : bool := match w with WLine b _ => b | _ => false end.
Lemma gap_apart n e : gap_between n (line (tstart (e_tok e))) = true <-> apart n e.
Proof. unfold gap_between, apart. rewrite N.ltb_lt. lia. Qed.
Lemma anchor_app n a b : anchor n (a ++ b) = anchor (anchor n a) b.
Proof. unfold anchor. apply fold_left_app. Qed.
Lemma anchor_behind n f cs : anchor n (behind f cs) = n.
Proof.
  destruct cs as [|c cs]; [reflexivity|]. unfold behind. unfold anchor. cbn [fold_left e_white e_rule is_break]. destruct f; cbn [is_break orb].
  all: induction cs as [|d cs IH]; [reflexivity|]; cbn [map fold_left e_white e_rule is_break orb]; exact IH.
Qed.
Lemma anchor_rows r t cs : forall b n ln, anchor ln (rows b n ln cs r t) = line (tend t).
Proof. induction cs as [|c cs IH]; intros b n ln; [reflexivity|]. cbn [rows]. unfold anchor in *. cbn [fold_left e_white is_break orb e_tok]. apply IH. Qed.
Lemma anchor_put p ln cs x : anchor ln (put p ln cs x) = line (tend (at_tok x)).
Proof.
  unfold put. destruct (at_pos x); try reflexivity; try (unfold anchor; cbn [fold_left e_rule e_tok]; rewrite orb_true_r; reflexivity).
  rewrite anchor_app, anchor_behind. apply anchor_rows.
Qed.
Definition uncoded (l : layout) : Prop := Forall (fun e => e_rule e = None) l.
Lemma rows_blank r t cs : forall b n ln l1 e l2, rows b n ln cs r t = l1 ++ e :: l2 -> blank (e_white e) = true ->
  apart (anchor ln l1) e \/ (b = Always /\ l1 = [] /\ exists q x, e :: l2 = q ++ [x] /\ uncoded q /\ e_tok x = t).
Proof.
  induction cs as [|c cs IH]; intros b n ln l1 e l2 E B.
  - cbn [rows] in E. destruct l1 as [|? [|? ?]]; try discriminate. injection E as <- <-. cbn [e_white blank] in B. destruct b; try discriminate.
    + right. split; [reflexivity|]. split; [reflexivity|]. exists []. eexists. split; [reflexivity|]. split; [constructor|reflexivity].
    + left. apply gap_apart. exact B.
  - cbn [rows] in E. destruct l1 as [|x l1].
    + cbn [app] in E. injection E as <- E. cbn [e_white blank] in B. destruct b.
      * right. split; [reflexivity|]. split; [reflexivity|]. rewrite <- E. clear.
        assert (exists q x, rows Kept n (line (tend c)) cs r t = q ++ [x] /\ uncoded q /\ e_tok x = t) as (q & x & -> & U & T).
        { generalize Kept (line (tend c)). induction cs as [|d cs IH]; intros b ln; cbn [rows]; [exists []; eexists; split; [reflexivity|]; split; [constructor|reflexivity]|].
          destruct (IH (match b with Always => Kept | _ => b end) (line (tend d))) as (q & x & -> & U & T). eexists (_ :: q), x. split; [reflexivity|]. split; [constructor; auto|exact T]. }
        eexists (_ :: q), x. split; [reflexivity|]. split; [constructor; auto|exact T].
      * left. apply gap_apart. exact B.
      * left. apply gap_apart. exact B.
    + cbn [app] in E. injection E as <- E. apply IH in E as [A|(X & _)]; [left; exact A| |exact B]. destruct b; discriminate.
Qed.
Lemma behind_white f cs e : In e (behind f cs) -> is_break (e_white e) = false /\ e_rule e = None.
Proof. destruct cs as [|c cs]; [intros []|]. intros [<-|I]; [destruct f; split; reflexivity|]. apply in_map_iff in I as (d & <- & _). split; reflexivity. Qed.
Lemma blank_break w : blank w = true -> is_break w = true.
Proof. destruct w; auto; discriminate. Qed.
Lemma put_blank p ln cs x l1 e l2 : put p ln cs x = l1 ++ e :: l2 -> blank (e_white e) = true ->
  apart (anchor ln l1) e \/ (at_pos x = Below Always /\ Forall (fun d => is_break (e_white d) = false /\ e_rule d = None) l1 /\ exists q y, e :: l2 = q ++ [y] /\ uncoded q /\ e_tok y = at_tok x).
Proof.
  unfold put. intros E B. destruct (at_pos x) as [| | |b].
  1-3: destruct l1 as [|? [|? ?]]; try discriminate; injection E as <- <-; cbn [e_white] in B; try discriminate B.
  1: destruct p as [[? ?]|]; [destruct (tight _ _ _)|]; discriminate B.
  apply app_eq_app in E as (m & [[E1 E2]|[E1 E2]]).
  - destruct m as [|d m].
    + cbn [app] in E2. rewrite app_nil_r in E1. symmetry in E2. apply (rows_blank _ _ _ _ _ _ [] e l2) in E2; [|exact B]. rewrite <- E1, anchor_behind. destruct E2 as [A|(X & _ & Q)]; [left; exact A|right].
      split; [congruence|]. split; [|exact Q]. apply Forall_forall. intros d D. exact (behind_white _ _ _ D).
    + cbn [app] in E2. injection E2 as <- E2. exfalso. apply blank_break in B. destruct (behind_white (match p with None => true | _ => false end) (filter (fun c => line (tstart c) =? ln) cs) e) as [X _]; [rewrite E1; apply in_elt|congruence].
  - apply rows_blank in E2; [|exact B]. rewrite E1, anchor_app, anchor_behind. destruct E2 as [A|(X & -> & Q)]; [left; exact A|right].
    split; [congruence|]. split; [|exact Q]. rewrite app_nil_r. apply Forall_forall. intros d D. exact (behind_white _ _ _ D).
Qed.
Lemma weave_blank items : forall p ln cs xs l1 e l2, filter plain items = map at_tok xs -> weave p ln cs items xs = l1 ++ e :: l2 -> blank (e_white e) = true ->
  apart (anchor ln l1) e \/ exists q y l3 x, e :: l2 = q ++ y :: l3 /\ uncoded q /\ In x xs /\ at_tok x = e_tok y /\ at_pos x = Below Always.
Proof.
  induction items as [|t items IH]; intros p ln cs xs l1 e l2 F E B; [destruct l1; discriminate|]. cbn [weave filter] in *. rewrite plain_comment in F. destruct (is_comment t); cbn [negb] in F; [apply (IH p ln (cs ++ [t]) xs); auto|].
  destruct xs as [|x xs]; [destruct l1; discriminate|]. cbn [map] in F. assert (t = at_tok x) as TX by congruence. apply (f_equal (@List.tl _)) in F. cbn [List.tl] in F.
  assert (forall l1', l1 = put p ln cs x ++ l1' -> weave (Some (at_rule x, tkind_of t)) (line (tend t)) [] items xs = l1' ++ e :: l2 ->
    apart (anchor ln l1) e \/ exists q y l3 x0, e :: l2 = q ++ y :: l3 /\ uncoded q /\ In x0 (x :: xs) /\ at_tok x0 = e_tok y /\ at_pos x0 = Below Always) as LATER.
  { intros l1' -> W. apply IH in W; auto. rewrite anchor_app, anchor_put, <- TX. destruct W as [A|(q & y & l3 & z & W1 & W2 & W3 & W4 & W5)]; [left; exact A|right].
    exists q, y, l3, z. repeat split; auto. right. exact W3. }
  apply app_eq_app in E as (m & [[E1 E2]|[E1 E2]]).
  - destruct m as [|d m]; [rewrite app_nil_r in E1; apply (LATER []); [rewrite app_nil_r; symmetry; exact E1|symmetry; exact E2]|]. cbn [app] in E2. injection E2 as <- E2. subst l2.
    apply put_blank in E1; [|exact B]. destruct E1 as [A|(P & _ & q & y & Q & U & T)]; [left; exact A|right].
    exists q, y, (weave (Some (at_rule x, tkind_of t)) (line (tend t)) [] items xs), x. change (e :: m ++ ?z) with ((e :: m) ++ z). rewrite Q, <- app_assoc. repeat split; auto. left. reflexivity.
  - apply (LATER m); auto.
Qed.
Lemma weave_group items : forall p ln cs xs X x X', filter plain items = map at_tok xs -> xs = X ++ x :: X' ->
  exists L p' ln' cs' R, weave p ln cs items xs = L ++ put p' ln' cs' x ++ R /\ (L = [] \/ exists L' e, L = L' ++ [e] /\ e_rule e <> None).
Proof.
  induction items as [|t items IH]; intros p ln cs xs X x X' F E; [subst xs; destruct X; discriminate|]. cbn [weave filter] in *. rewrite plain_comment in F. destruct (is_comment t); cbn [negb] in F; [apply (IH p ln (cs ++ [t]) xs X x X'); auto|].
  destruct X as [|z X].
  - subst xs. cbn [app]. exists [], p, ln, cs. eexists. split; [reflexivity|auto].
  - subst xs. cbn [app map] in *. apply (f_equal (@List.tl _)) in F. cbn [List.tl] in F.
    destruct (IH (Some (at_rule z, tkind_of t)) (line (tend t)) [] _ X x X' F eq_refl) as (L & p' & ln' & cs' & R & W & K).
    exists (put p ln cs z ++ L), p', ln', cs', R. rewrite W, <- app_assoc. split; [reflexivity|]. right.
    destruct K as [->|(L' & e & -> & N)]; [|exists (put p ln cs z ++ L'), e; rewrite app_assoc; auto].
    destruct (put_last p ln cs z) as (L0 & w & EP & _). exists L0. eexists. rewrite app_nil_r. split; [exact EP|]. discriminate.
Qed.
Lemma put_always p ln cs x : at_pos x = Below Always -> exists q1 y q2, put p ln cs x = q1 ++ y :: q2 /\ blank (e_white y) = true /\
  Forall (fun d => is_break (e_white d) = false /\ e_rule d = None) q1 /\ exists q z, y :: q2 = q ++ [z] /\ uncoded q /\ e_tok z = at_tok x.
Proof.
  intro P. unfold put. rewrite P. set (f := match p with None => true | _ => false end). set (B := filter _ cs). set (C := filter _ cs).
  assert (exists y q2, rows Always (at_level x) ln C (at_rule x) (at_tok x) = y :: q2 /\ blank (e_white y) = true) as (y & q2 & E & W) by (destruct C; cbn [rows]; eauto).
  exists (behind f B), y, q2. rewrite E. split; [reflexivity|]. split; [exact W|]. split; [apply Forall_forall; intros d D; exact (behind_white _ _ _ D)|].
  assert (exists r t, rows Always (at_level x) ln C r t = y :: q2 /\ at_tok x = t) as (r & t & E' & T) by eauto. rewrite T. clear - E'.
  pose proof (rows_blank r t C Always (at_level x) ln [] y q2) as K. revert E'. generalize Always (at_level x) ln. clear K. revert y q2.
  induction C as [|c C IH]; intros y q2 b n m E; cbn [rows] in E.
  - injection E as <- <-. exists []. eexists. split; [reflexivity|]. split; [constructor|reflexivity].
  - injection E as <- E. destruct (rows (match b with Always => Kept | _ => b end) n (line (tend c)) C r t) as [|y' q'] eqn:E2; [destruct C; discriminate|].
    subst q2. destruct (IH _ _ _ _ _ E2) as (q & z & -> & U & T). eexists (_ :: q), z. split; [reflexivity|]. split; [constructor; auto|exact T].
Qed.

(** Comments that do not span lines. *)
Lemma ended_app n a b : ended n (a ++ b) = ended (ended n a) b.
Proof. destruct (rev b) as [|e r] eqn:E; unfold ended; rewrite rev_app_distr, E; reflexivity. Qed.
Definition agreeing (ln : N) (l : layout) : Prop := forall l1 l2, l = l1 ++ l2 -> anchor ln l1 = ended ln l1.
Lemma agreeing_app ln a b : agreeing ln a -> agreeing (anchor ln a) b -> agreeing ln (a ++ b).
Proof.
  intros A B l1 l2 E. apply app_eq_app in E as (m & [[E1 E2]|[E1 E2]]); [eapply A; exact E1|]. rewrite E1, anchor_app, ended_app, <- (A a [] (eq_sym (app_nil_r a))). eapply B. exact E2.
Qed.
Lemma agreeing_one ln e : anchor ln [e] = line (tend (e_tok e)) -> agreeing ln [e].
Proof. intros A [|x [|? ?]] l2 E; try discriminate; [reflexivity|]. injection E as <- E. rewrite A. reflexivity. Qed.
Lemma agreeing_cons ln e l : anchor ln [e] = line (tend (e_tok e)) -> agreeing (line (tend (e_tok e))) l -> agreeing ln (e :: l).
Proof. intros A B. apply (agreeing_app ln [e] l); [apply agreeing_one, A|]. rewrite A. exact B. Qed.
Lemma agreeing_spaces ln B : Forall (fun c => line (tend c) = ln) B -> agreeing ln (map (mkE WSpace None) B).
Proof. induction 1 as [|c B C F IH]; [intros [|? ?] ? E; [reflexivity|discriminate]|]. cbn [map]. apply agreeing_cons; cbn [e_tok]; [symmetry; exact C|]. rewrite C. exact IH. Qed.
Lemma agreeing_behind ln f B : Forall (fun c => line (tend c) = ln) B -> agreeing ln (behind f B).
Proof.
  intro F. destruct F as [|c B C F]; [intros [|? ?] ? E; [reflexivity|discriminate]|]. cbn [behind]. apply agreeing_cons; cbn [e_tok]; [destruct f; symmetry; exact C|]. rewrite C. apply agreeing_spaces, F.
Qed.
Lemma agreeing_rows r t C : forall b n ln, agreeing ln (rows b n ln C r t).
Proof. induction C as [|c C IH]; intros b n ln; cbn [rows]; [apply agreeing_one; reflexivity|]. apply agreeing_cons; [reflexivity|]. cbn [e_tok]. apply IH. Qed.
Definition single (t : token) : Prop := line (tend t) = line (tstart t).
Lemma agreeing_put p ln cs x : Forall single cs -> agreeing ln (put p ln cs x).
Proof.
  intro S. unfold put. destruct (at_pos x); try (apply agreeing_one; unfold anchor; cbn [fold_left e_rule e_tok]; rewrite orb_true_r; reflexivity).
  apply agreeing_app; [|rewrite anchor_behind; apply agreeing_rows]. apply agreeing_behind. rewrite Forall_forall in *. intros c I. apply filter_In in I as [I E]. apply N.eqb_eq in E. rewrite (S c I). exact E.
Qed.
Lemma agreeing_weave items : forall p ln cs xs, filter plain items = map at_tok xs -> Forall single cs -> Forall single (filter commentary items) -> agreeing ln (weave p ln cs items xs).
Proof.
  induction items as [|t items IH]; intros p ln cs xs F S C; [intros [|? ?] ? E; [reflexivity|discriminate]|]. cbn [weave filter] in *. rewrite plain_comment in F. rewrite is_commentary in *. destruct (commentary t) eqn:K; cbn [negb] in F.
  - inversion C; subst. apply IH; auto. apply Forall_app. auto.
  - destruct xs as [|x xs]; [discriminate|]. cbn [map] in F. assert (t = at_tok x) as TX by congruence. apply (f_equal (@List.tl _)) in F. cbn [List.tl] in F.
    apply agreeing_app; [apply agreeing_put, S|]. rewrite anchor_put, <- TX. apply IH; auto.
Qed.
