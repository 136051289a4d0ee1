(** The size of the output. *)
From Verif Require Import ProofBase Tokens Syntax Lexer SpecLex LexInv LexMain LexFacts ParserCore Grammar
  Tree Printer Formatter Lib ParserSem ParserFuel SpecGrammar Regex ParserGrammar ParserTree ParserFacts Recognise PropsParser
  FmtAbs FmtPlan FmtShape FmtTables FmtSound SpecLayout FmtExec FmtTop FmtFacts FmtRelex FmtNeat SpecNodes FmtTree FmtLists FmtOps
  FmtWrap SpecGaps SpecReference FmtNode FmtReference PropsFormat PropsReference FmtBreaks FmtAgree FmtPrinted FmtStable.
Local Open Scope nat_scope.

(** ** Every token pays for at most one level *)
Lemma keeps_wraps k d : one_if (keeps_level k d) + one_if (continues k d && wraps d) <= one_if (wraps d).
Proof.
  assert (keeps_level k d = true -> wraps d = true /\ continues k d = false) as K.
  { unfold keeps_level, continues. destruct k; try discriminate; destruct d as [t|k cs]; try discriminate; destruct k; try discriminate; auto. }
  destruct (keeps_level k d); [destruct K as [-> ->]; auto|]. destruct (continues k d); [|destruct (wraps d)]; cbn; lia.
Qed.
Lemma turns_next k prev d v : turns k prev d v = true -> prev <> None /\ v <> [] /\ operates k (kind_of d) = true.
Proof.
  unfold turns. destruct prev; [|discriminate]. destruct v; [discriminate|]. intro H. apply andb_true_iff in H as [H _]. split; [discriminate|]. split; [discriminate|exact H].
Qed.
Definition sizes (cs : list child) : nat := length (flat_map toks cs).
Lemma leak_paid c : fits c -> leak c + one_if (wraps c) + 1 <= length (toks c).
Proof.
  induction c as [t|k cs IH] using child_ind2; intro F; [cbn; lia|]. inversion F as [|? ? NE L FC]; subst.
  rewrite leak_tree, wraps_tree. cbn [toks]. fold (sizes cs).
  assert (forall v prev, Forall fits v -> Forall (fun c => fits c -> leak c + one_if (wraps c) + 1 <= length (toks c)) v -> v <> [] ->
    leak_in k v + one_if (wraps_in k prev v) + 1 <= sizes v) as K; [|apply K; auto].
  clear. intros v prev F H NE. destruct v as [|d v]; [congruence|]. clear NE. revert prev d F H. induction v as [|e v IHv]; intros prev d F H.
  - inversion F; inversion H; subst. cbn [leak_in wraps_in]. assert (turns k prev d [] = false) as -> by (unfold turns; destruct prev; reflexivity).
    specialize (H6 H2). pose proof (keeps_wraps k d). unfold sizes. cbn [flat_map]. rewrite app_nil_r. cbn [orb]. rewrite orb_false_r. lia.
  - inversion F; inversion H; subst. specialize (H6 H2). pose proof (keeps_wraps k d). specialize (IHv (Some d) e H3 H7).
    change (sizes (d :: e :: v)) with (length (toks d ++ flat_map toks (e :: v))). rewrite app_length. fold (sizes (e :: v)).
    change (leak_in k (d :: e :: v)) with (leak d + one_if (keeps_level k d) + leak_in k (e :: v)).
    change (wraps_in k prev (d :: e :: v)) with (turns k prev d (e :: v) || (continues k d && wraps d) || wraps_in k (Some d) (e :: v)).
    assert (forall a b, one_if (a || b) <= one_if a + one_if b) as O by (intros [] []; cbn; lia).
    pose proof (O (turns k prev d (e :: v) || (continues k d && wraps d)) (wraps_in k (Some d) (e :: v))).
    pose proof (O (turns k prev d (e :: v)) (continues k d && wraps d)).
    assert (one_if (turns k prev d (e :: v)) <= 1) by (destruct turns; cbn; lia). lia.
Qed.

(** Levels that a node gives to its first part. *)
Definition advance (k : skind) : nat := match k with KComponentList | KComposition | KExternalFunctionCall => 1 | _ => 0 end.
Definition advance_sym (x : sym) : nat := match x with Rule k => advance k | Term _ => 0 end.
Definition bools2 (f : bool -> bool -> bool) : bool := f false false && f false true && f true false && f true true.
Lemma bools2_all f : bools2 f = true -> forall a b, f a b = true.
Proof. unfold bools2. intros H a b. apply andb_true_iff in H as [H D]. apply andb_true_iff in H as [H C]. apply andb_true_iff in H as [A B]. destruct a, b; assumption. Qed.
Definition pays (k : skind) : bool :=
  forallb (fun x => bools2 (fun w m => bools2 (fun late second =>
    match x with
    | Rule _ => Nat.leb (deeper k w m None x + advance_sym x) (advance k)
    | Term _ => match position_of k w false m late second None x with Below _ => Nat.leb (deeper k w m None x) (advance k) | _ => true end
    end))) (firsts (prod k)) &&
  forallb (fun p => bools2 (fun w m => Nat.leb (deeper k w m (Some (fst p)) (snd p) + one_if (operates k (snd p)) + advance_sym (snd p)) (advance k + 1))) (pairs (prod k)).
Lemma pays_checked : forallb pays all_skinds = true.
Proof. vm_compute. reflexivity. Qed.

(** A line starts at a level that is at most the number of code tokens in front of it. *)
Fixpoint paced (T : nat) (xs : list spot) : Prop :=
  match xs with [] => True | x :: xs => (match at_pos x with Below _ => at_level x <= T | _ => True end) /\ paced (S T) xs end.
Lemma paced_app a : forall T b, paced T (a ++ b) <-> paced T a /\ paced (T + length a) b.
Proof.
  induction a as [|x a IH]; intros T b; cbn [app paced length]; [rewrite Nat.add_0_r; tauto|]. rewrite IH. replace (S T + length a) with (T + S (length a)) by lia. tauto.
Qed.
Lemma spots_length q pos first n on inh c : length (spots q pos first n on inh c) = length (toks c).
Proof. rewrite <- (spots_toks c q pos first n on inh), map_length. reflexivity. Qed.
Lemma kind_sym c : kind_of c = sym_of c. Proof. destruct c; reflexivity. Qed.

Lemma spots_paced c : fits c -> forall q pos first n on inh T,
  match c with CTok _ => True | CTree k _ => n + one_if on + advance k <= T end ->
  match pos with Below _ => first <= T | _ => True end -> paced T (spots q pos first n on inh c).
Proof.
  induction c as [t|k cs IH] using child_ind2; intro F; intros q pos first n on inh T N P; [cbn; auto|].
  rewrite spots_tree. inversion F as [|? ? NE L FC]; subst. generalize (wide k cs inh) as w. generalize cs at 1 as all. intros all w.
  pose proof (skind_all _ pays_checked k) as C. unfold pays in C. apply andb_true_iff in C as [C1 C2]. rewrite forallb_forall in C1, C2.
  assert (forall v u n on T, cs = rev u ++ v -> n + one_if on + advance k + (match u with [] => 0 | _ => 1 end) <= T ->
    (u = [] -> match pos with Below _ => first <= T | _ => True end) -> paced T (children k w all pos first u n on v)) as K; [|apply (K cs []); auto; lia].
  clear n on T N P. induction v as [|d v IHv]; intros u n on T E N P; [exact Logic.I|].
  assert (In d cs) as ID by (rewrite E; apply in_or_app; right; left; reflexivity).
  assert (fits d) as FD by (rewrite Forall_forall in FC; auto).
  pose proof (leak_paid d FD) as LP. pose proof (keeps_wraps k d) as KW.
  cbn [children]. cbv zeta. set (turn := turns k (last_of u) d v). set (p := position_of k w turn (multi_if d) (is_late d) (after_first u) (kind_last u) (kind_of d)).
  set (dp := deeper k w (multi_if d) (kind_last u) (kind_of d)).
  assert (one_if (on || turn) <= one_if on + one_if turn) as OT by (destruct on, turn; cbn; lia).
  apply paced_app. rewrite spots_length. split.
  - rewrite Forall_forall in IH. apply (IH d ID FD).
    + destruct d as [t|kd ds]; [exact Logic.I|].
      assert (dp + one_if turn + advance kd <= advance k + match u with [] => 0 | _ => 1 end) as G.
      { destruct u as [|b u].
        - assert (In (Rule kd) (firsts (prod k))) as I by (rewrite E in L; cbn [rev app map] in L; eapply firsts_complete; exact L).
          specialize (C1 _ I). apply (fun H => bools2_all _ H w (multi_if (CTree kd ds))) in C1. apply (fun H => bools2_all _ H false false) in C1. cbv beta in C1. apply Nat.leb_le in C1.
          subst turn dp. cbn [last_of turns one_if kind_last kind_of]. cbn [advance_sym] in C1. lia.
        - assert (In (kind_of b, Rule kd) (pairs (prod k))) as I.
          { rewrite kind_sym. eapply pairs_complete; [exact L|]. exists (map sym_of (rev u)), (map sym_of v). rewrite E. cbn [rev]. rewrite <- app_assoc, map_app. reflexivity. }
          specialize (C2 _ I). apply (fun H => bools2_all _ H w (multi_if (CTree kd ds))) in C2. cbv beta in C2. apply Nat.leb_le in C2. cbn [fst snd advance_sym] in C2.
          assert (one_if turn <= one_if (operates k (Rule kd))).
          { subst turn. destruct (turns k (last_of (b :: u)) (CTree kd ds) v) eqn:TE; [|cbn; lia]. apply turns_next in TE as (_ & _ & TE). cbn [kind_of] in TE. rewrite TE. lia. }
          subst dp. cbn [kind_last kind_of] in *. lia. }
      destruct (continues k (CTree kd ds)); cbn [andb one_if]; lia.
    + destruct u as [|b u].
      * destruct p as [| | |bl] eqn:EP; try exact (P eq_refl).
        assert (dp <= advance k) as G.
        { assert (In (kind_of d) (firsts (prod k))) as I by (rewrite kind_sym; rewrite E in L; cbn [rev app map] in L; eapply firsts_complete; exact L).
          specialize (C1 _ I). apply (fun H => bools2_all _ H w (multi_if d)) in C1. apply (fun H => bools2_all _ H (is_late d) false) in C1. cbv beta in C1.
          subst p turn dp. cbn [last_of turns kind_last after_first] in *. change (turns k None d v) with false in *.
          destruct (kind_of d); [|apply Nat.leb_le in C1; lia]. rewrite EP in C1. apply Nat.leb_le in C1. exact C1. }
        assert (one_if turn = 0) by reflexivity. lia.
      * destruct p as [| | |bl] eqn:EP; try exact Logic.I.
        assert (dp + one_if turn <= advance k + 1) as G; [|lia].
        assert (In (kind_of b, kind_of d) (pairs (prod k))) as I.
        { rewrite !kind_sym. eapply pairs_complete; [exact L|]. exists (map sym_of (rev u)), (map sym_of v). rewrite E. cbn [rev]. rewrite <- app_assoc, map_app. reflexivity. }
        specialize (C2 _ I). apply (fun H => bools2_all _ H w (multi_if d)) in C2. cbv beta in C2. apply Nat.leb_le in C2. cbn [fst snd] in C2.
        assert (one_if turn <= one_if (operates k (kind_of d))).
        { subst turn. destruct (turns k (last_of (b :: u)) d v) eqn:TE; [|cbn; lia]. apply turns_next in TE as (_ & _ & TE). rewrite TE. lia. }
        subst dp. cbn [kind_last] in *. lia.
  - apply IHv.
    + rewrite E. cbn [rev]. rewrite <- app_assoc. reflexivity.
    + assert (one_if (on || turn || continues k d && wraps d) <= one_if (on || turn) + one_if (continues k d && wraps d)) by (destruct on, turn, (continues k d && wraps d); cbn; lia).
      destruct u as [|b u]; [assert (one_if turn = 0) by reflexivity; lia|]. assert (one_if turn <= 1) by (destruct turn; cbn; lia). lia.
    + discriminate.
Qed.

(** ** Layouts *)
Fixpoint level_paced (T : nat) (l : layout) : Prop :=
  match l with
  | [] => True
  | e :: l => (match e_white e with WLine _ n => n <= T | _ => True end) /\ level_paced (match e_rule e with Some _ => S T | None => T end) l
  end.
Lemma level_paced_app a : forall T b, level_paced T a -> level_paced (T + length (codes a)) b -> level_paced T (a ++ b).
Proof.
  induction a as [|e a IH]; intros T b A B; cbn [app level_paced] in *; [rewrite Nat.add_0_r in B; exact B|]. destruct A as [A1 A2]. split; [exact A1|].
  apply IH; [exact A2|]. unfold codes in *. cbn [flat_map] in B. rewrite app_length in B. destruct (e_rule e); cbn [length] in B; [|exact B].
  replace (S T + length (flat_map (fun e0 => match e_rule e0 with Some r => [(r, e_tok e0)] | None => [] end) a)) with (T + (1 + length (flat_map (fun e0 => match e_rule e0 with Some r => [(r, e_tok e0)] | None => [] end) a))) by lia. exact B.
Qed.
Lemma behind_paced T f cs : level_paced T (behind f cs) /\ codes (behind f cs) = [].
Proof.
  assert (forall l, level_paced T (map (mkE WSpace None) l) /\ codes (map (mkE WSpace None) l) = []) as K.
  { induction l as [|c l [IH1 IH2]]; [split; [exact Logic.I|reflexivity]|]. split; [split; [exact Logic.I|exact IH1]|exact IH2]. }
  destruct cs as [|c cs]; [split; [exact Logic.I|reflexivity]|]. destruct (K cs) as [K1 K2]. cbn [behind]. destruct f; (split; [split; [exact Logic.I|exact K1]|exact K2]).
Qed.
Lemma rows_paced T n r t cs : n <= T -> forall b ln, level_paced T (rows b n ln cs r t) /\ length (codes (rows b n ln cs r t)) = 1.
Proof.
  intro N. induction cs as [|c cs IH]; intros b ln; cbn [rows]; [split; [split; [exact N|exact Logic.I]|reflexivity]|].
  destruct (IH (match b with Always => Kept | _ => b end) (line (tend c))) as [A B]. split; [split; [exact N|exact A]|exact B].
Qed.
Lemma put_paced T p ln cs x : match at_pos x with Below _ => at_level x <= T | _ => True end -> level_paced T (put p ln cs x) /\ length (codes (put p ln cs x)) = 1.
Proof.
  intro N. unfold put. destruct (at_pos x).
  - split; [split; [|exact Logic.I]|reflexivity]. cbn [e_white]. destruct p as [[a b]|]; [destruct (SpecGaps.tight _ _ _)|]; exact Logic.I.
  - split; [split; exact Logic.I|reflexivity].
  - split; [split; exact Logic.I|reflexivity].
  - match goal with |- level_paced T (behind ?f ?c ++ ?r) /\ _ => destruct (behind_paced T f c) as [A B] end.
    match goal with |- level_paced T (_ ++ rows ?b ?n ?l ?c ?r ?t) /\ _ => destruct (rows_paced T n r t c N b l) as [C D] end.
    split; [apply level_paced_app; [exact A|]; rewrite B, Nat.add_0_r; exact C|]. rewrite codes_app, app_length, B. exact D.
Qed.
Lemma weave_paced items : forall T p ln cs xs, paced T xs -> level_paced T (weave p ln cs items xs).
Proof.
  induction items as [|t items IH]; intros T p ln cs xs P; [exact Logic.I|]. cbn [weave]. destruct (is_comment t); [apply IH, P|]. destruct xs as [|x xs]; [exact Logic.I|].
  destruct P as [P1 P2]. destruct (put_paced T p ln cs x P1) as [A B]. apply level_paced_app; [exact A|]. rewrite B, Nat.add_1_r. apply IH, P2.
Qed.
Lemma level_paced_split l1 : forall T e l2, level_paced T (l1 ++ e :: l2) -> match e_white e with WLine _ n => n <= T + length (codes l1) | _ => True end.
Proof.
  induction l1 as [|a l1 IH]; intros T e l2 [A B].
  - destruct (e_white e); auto. cbn. lia.
  - apply IH in B. destruct (e_white e); auto. unfold codes in *. cbn [flat_map]. rewrite app_length. destruct (e_rule a); cbn [length]; lia.
Qed.
Theorem reference_paced s p items tree : reading s p items tree -> level_paced 0 (reference tree items).
Proof.
  intro R. unfold reference. apply weave_paced. destruct (rd_fits _ _ _ _ R) as (cs & -> & [->|F]); [exact Logic.I|]. apply spots_paced; [exact F|cbn; lia|exact Logic.I].
Qed.

(** ** Sizes *)
Definition text_sum (ts : list token) : nat := list_sum (map (fun t => length (ttext t)) ts).
Lemma laid_sum gap s items : laid gap s items -> text_sum items <= length s.
Proof.
  induction 1 as [|c x items L IH G|c items t L IH]; [cbn; lia|rewrite app_length; cbn [length]; lia|].
  unfold text_sum in *. rewrite map_app, list_sum_app, app_length. cbn [map list_sum fold_right]. lia.
Qed.
Lemma drops_sum (P : token -> Prop) a b : SpecLayout.drops P a b -> text_sum b <= text_sum a /\ length b <= length a.
Proof. induction 1 as [|x l l' D [IH1 IH2]|x l l' H D [IH1 IH2]]; unfold text_sum, list_sum in *; cbn [map fold_right length] in *; split; lia. Qed.
Lemma times_length n t : length (SpecLayout.times n t) = n * length t.
Proof. induction n as [|n IH]; [reflexivity|]. cbn [SpecLayout.times]. rewrite app_length, IH. lia. Qed.
Lemma white_length eol w m : eol <> [] -> match w with WLine _ n => n <= m | _ => True end -> length (white_text eol w) <= 2 * length eol + 2 * m.
Proof.
  intros NE H. assert (1 <= length eol) by (destruct eol; [congruence|cbn [length]; lia]). destruct w as [| |b n]; cbn [white_text].
  - cbn. lia.
  - change (length (str " ")) with 1. lia.
  - rewrite !app_length, times_length. change (length (str "  ")) with 2. destruct b; cbn [length]; lia.
Qed.
Lemma render_length eol l m : eol <> [] -> (forall e, In e l -> match e_white e with WLine _ n => n <= m | _ => True end) ->
  length (render eol l) <= text_sum (map e_tok l) + length l * (2 * length eol + 2 * m).
Proof.
  intros NE. unfold render, text_sum. induction l as [|e l IH]; intro H; [cbn; lia|]. cbn [flat_map map list_sum fold_right length]. rewrite !app_length.
  pose proof (white_length eol (e_white e) m NE (H e (or_introl eq_refl))). specialize (IH (fun x I => H x (or_intror I))). unfold list_sum in IH. lia.
Qed.

Local Open Scope N_scope.
Fixpoint line_sum (ts : list token) : N := match ts with [] => 0 | t :: ts => newlines (ttext t) + line_sum ts end.
Lemma nl_app a b : newlines (a ++ b) = newlines a + newlines b.
Proof. induction a as [|c a IH]; [reflexivity|]. cbn [app newlines]. rewrite IH. lia. Qed.
Lemma line_sum_app a b : line_sum (a ++ b) = line_sum a + line_sum b.
Proof. induction a as [|c a IH]; [reflexivity|]. cbn [app line_sum]. rewrite IH. lia. Qed.
Lemma laid_lines gap s items : laid gap s items -> line_sum items <= newlines s.
Proof. induction 1 as [|c x items L IH G|c items t L IH]; [reflexivity|rewrite nl_app; lia|]. rewrite line_sum_app, nl_app. cbn [line_sum]. lia. Qed.
Lemma drops_lines (P : token -> Prop) a b : SpecLayout.drops P a b -> line_sum b <= line_sum a.
Proof. induction 1; cbn [line_sum]; lia. Qed.
Lemma nl_times n : newlines (SpecLayout.times n (str "  ")) = 0.
Proof. induction n as [|n IH]; [reflexivity|]. cbn [SpecLayout.times]. rewrite nl_app, IH. reflexivity. Qed.
Lemma render_lines eol l : newlines eol = 1 -> newlines (render eol l) <= line_sum (map e_tok l) + 2 * N.of_nat (length l).
Proof.
  intro E. unfold render. induction l as [|e l IH]; [cbn; lia|]. cbn [flat_map map line_sum length]. rewrite !nl_app.
  assert (newlines (white_text eol (e_white e)) <= 2); [|lia]. destruct (e_white e) as [| |b n]; cbn [white_text]; [discriminate|vm_compute; discriminate|].
  rewrite !nl_app, nl_times, E. destruct b; [rewrite E|]; cbn [newlines]; lia.
Qed.
