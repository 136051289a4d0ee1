(** Property C97: what stands at the end of a file does not change what is said about its beginning. *)
From Verif Require Import ProofBase Tokens Syntax Lexer SpecLex SpecPieces LexInv LexMain LexAll ParserCore Grammar Tree Printer Formatter Lib ParserSem ParserFuel SpecGrammar
  Regex ParserGrammar ParserTree ParserFacts Recognise PropsParser SpecCount ParserCount SpecPrefix ParserPrefix.

(** ** The lexer *)
Definition word_of (p : piece) : text := match p with PSpace c => [c] | PItem _ w => w | PBad w _ => w end.
Definition words (ps : list piece) : text := flat_map word_of ps.
Lemma words_app a b : words (a ++ b) = words a ++ words b.
Proof. apply flat_map_app. Qed.
Lemma follow_head k w x t t' : follow_ok k w (x :: t) -> follow_ok k w (x :: t').
Proof.
  assert (forall P, starts P (x :: t') -> starts P (x :: t)) as A.
  { intros P (c & r & E & H). inversion E; subst. exists c, t. auto. }
  assert (forall P, starts P (x :: t) -> starts P (x :: t')) as A'.
  { intros P (c & r & E & H). inversion E; subst. exists c, t'. auto. }
  destruct k; cbn [follow_ok]; auto; try (intros H Z; apply H, A, Z);
    first [ intros [H|H]; [left; exact H|right; intro Z; apply H, A, Z]
          | intros [H|H]; [discriminate|right; apply A', H]
          | intros (H1 & H2 & H3); split; [intro Z; apply H1, A, Z|]; split; [intros U Z; apply (H2 U), A, Z|intros U Z; apply (H3 U), A, Z] ].
Qed.
Lemma follow_tail k w m x t t' : follow_ok k w (m ++ x :: t) -> follow_ok k w (m ++ x :: t').
Proof. destruct m; cbn [app]; apply follow_head. Qed.
Lemma rejected_tail w m v x t t' : rejected w m (v ++ x :: t) -> rejected w m (v ++ x :: t').
Proof.
  intro H. remember (v ++ x :: t) as r eqn:E. destruct H; try (destruct v; discriminate); constructor; assumption.
Qed.
Lemma pieces_words s ps : pieces s ps -> s = words ps.
Proof. unfold words. induction 1; cbn [flat_map word_of app]; congruence. Qed.
Lemma pieces_tail s ps : pieces s ps -> forall ps1 ps2 x t t' ps2', ps = ps1 ++ ps2 -> s = words ps1 ++ x :: t -> pieces (x :: t') ps2' ->
  pieces (words ps1 ++ x :: t') (ps1 ++ ps2').
Proof.
  intros P ps1. revert s ps P. induction ps1 as [|q ps1 IH]; intros s ps P ps2 x t t' ps2' E W P2; [exact P2|].
  subst ps. cbn [app words flat_map word_of] in *. fold (words ps1) in *. rewrite <- app_assoc in *.
  inversion P as [|c r ps S P1 E1 E2|k w r ps X F P1 E1 E2|w m r ps X P1 E1 E2]; subst q ps; cbn [word_of] in *; rewrite <- E1 in W; try apply app_inv_head in W.
  - cbn [app] in *. inversion W; subst. constructor; [exact S|]. eapply IH; eauto.
  - subst r. apply pieces_item; [exact X|eapply follow_tail; exact F|]. eapply IH; eauto.
  - subst r. apply pieces_bad; [eapply rejected_tail; exact X|]. eapply IH; eauto.
Qed.

(** What is reported about a text stands in order. *)
Definition from (c : text) (ln cl : N) : Prop := exists w, ln = 1 + newlines (c ++ w) /\ cl = 1 + columns (c ++ w).
Lemma from_app c d ln cl : from (c ++ d) ln cl -> from c ln cl.
Proof. intros (w & A & B). exists (d ++ w). rewrite !app_assoc. auto. Qed.
Lemma report_from ps : forall c n,
  Forall (fun t => from c (line (tstart t)) (col (tstart t))) (fst (report c n ps)) /\ Forall (fun e => from c (eline e) (ecol e)) (snd (report c n ps)).
Proof.
  induction ps as [|q ps IH]; intros c n; [split; constructor|]. destruct q as [x|k w|w m]; cbn [report].
  - destruct (IH (c ++ [x]) n) as [A B]. split; eapply Forall_impl; try eassumption; intro; apply from_app.
  - destruct (IH (c ++ w) (n + 1)) as [A B]. destruct (report (c ++ w) (n + 1) ps) as [ts es]. cbn [fst snd] in *. split.
    + constructor; [exists []; rewrite app_nil_r; split; reflexivity|]. eapply Forall_impl; [|exact A]. intro. apply from_app.
    + eapply Forall_impl; [|exact B]. intro. apply from_app.
  - destruct (IH (c ++ w) n) as [A B]. destruct (report (c ++ w) n ps) as [ts es]. cbn [fst snd] in *. split.
    + eapply Forall_impl; [|exact A]. intro. apply from_app.
    + constructor; [exists []; rewrite app_nil_r; split; reflexivity|]. eapply Forall_impl; [|exact B]. intro. apply from_app.
Qed.
Definition next_number (n : N) (ps : list piece) : N := n + N.of_nat (length (fst (report [] 0 ps))).
Lemma report_length ps : forall c n c' n', length (fst (report c n ps)) = length (fst (report c' n' ps)).
Proof.
  induction ps as [|q ps IH]; intros c n c' n'; [reflexivity|]. destruct q as [x|k w|w m]; cbn [report].
  - apply IH.
  - specialize (IH (c ++ w) (n + 1) (c' ++ w) (n' + 1)). destruct (report (c ++ w) (n + 1) ps), (report (c' ++ w) (n' + 1) ps). cbn [fst length] in *. congruence.
  - specialize (IH (c ++ w) n (c' ++ w) n'). destruct (report (c ++ w) n ps), (report (c' ++ w) n' ps). exact IH.
Qed.
Lemma report_app ps1 : forall ps2 c n, report c n (ps1 ++ ps2) =
  (fst (report c n ps1) ++ fst (report (c ++ words ps1) (next_number n ps1) ps2), snd (report c n ps1) ++ snd (report (c ++ words ps1) (next_number n ps1) ps2)).
Proof.
  unfold next_number. induction ps1 as [|q ps1 IH]; intros ps2 c n.
  - cbn. rewrite app_nil_r, N.add_0_r. apply surjective_pairing.
  - cbn [app words flat_map]. fold (words ps1). rewrite app_assoc. destruct q as [x|k w|w m]; cbn [report word_of].
    + rewrite IH. rewrite (report_length ps1 ([] ++ [x]) 0 [] 0). reflexivity.
    + rewrite IH. rewrite app_nil_l. pose proof (report_length ps1 w (0 + 1) [] 0) as L. destruct (report w (0 + 1) ps1) as [a b]. destruct (report (c ++ w) (n + 1) ps1) as [a1 b1]. cbn [fst snd length app] in *. rewrite L.
      replace (n + N.of_nat (S (length (fst (report [] 0 ps1))))) with (n + 1 + N.of_nat (length (fst (report [] 0 ps1)))) by lia. reflexivity.
    + rewrite IH. rewrite app_nil_l. pose proof (report_length ps1 w 0 [] 0) as L. destruct (report w 0 ps1) as [a b]. destruct (report (c ++ w) n ps1) as [a1 b1]. cbn [fst snd length app] in *. rewrite L. reflexivity.
Qed.
Lemma report_at ps : forall c n ts1 t ts2, fst (report c n ps) = ts1 ++ t :: ts2 ->
  exists ps1 ps2 k w m, ps = ps1 ++ PItem k w :: ps2 /\ fst (report c n ps1) = ts1 /\ t = mkTok m w k (place_of (c ++ words ps1)) (place_of (c ++ words ps1 ++ w)).
Proof.
  induction ps as [|q ps IH]; intros c n ts1 t ts2 E; [destruct ts1; discriminate|]. destruct q as [x|k w|w m]; cbn [report] in E.
  - apply IH in E as (ps1 & ps2 & k & w & m & -> & A & B). exists (PSpace x :: ps1), ps2, k, w, m. split; [reflexivity|]. cbn [report words flat_map word_of]. fold (words ps1).
    rewrite <- !app_assoc in *. auto.
  - destruct (report (c ++ w) (n + 1) ps) as [ts es] eqn:R. cbn [fst] in E. destruct ts1 as [|t1 ts1]; cbn [app] in E; inversion E; subst.
    + exists [], ps, k, w, n. cbn [words flat_map app]. rewrite app_nil_r. auto.
    + specialize (IH (c ++ w) (n + 1) ts1 t ts2). rewrite R in IH. destruct (IH eq_refl) as (ps1 & ps2 & k' & w' & m & -> & A & B).
      exists (PItem k w :: ps1), ps2, k', w', m. split; [reflexivity|]. cbn [report words flat_map word_of]. fold (words ps1).
      destruct (report (c ++ w) (n + 1) ps1) as [a b]. cbn [fst] in *. rewrite <- !app_assoc in *. subst a. auto.
  - destruct (report (c ++ w) n ps) as [ts es] eqn:R. cbn [fst] in E. subst ts.
    specialize (IH (c ++ w) n ts1 t ts2). rewrite R in IH. destruct (IH eq_refl) as (ps1 & ps2 & k' & w' & m' & -> & A & B).
    exists (PBad w m :: ps1), ps2, k', w', m'. split; [reflexivity|]. cbn [report words flat_map word_of]. fold (words ps1).
    destruct (report (c ++ w) n ps1) as [a b]. cbn [fst] in *. rewrite <- !app_assoc in *. subst a. auto.
Qed.
Lemma newlines_cat a b : newlines (a ++ b) = newlines a + newlines b.
Proof. induction a as [|c a IH]; [reflexivity|]. cbn [app newlines]. rewrite IH. lia. Qed.
Lemma columns_more a b : newlines b = 0 -> columns (a ++ b) = columns a + N.of_nat (length b).
Proof.
  unfold columns. rewrite fold_left_app. generalize (fold_left (fun n c => if c =? 10 then 0 else n + 1) a 0). induction b as [|c b IH]; intros n Z; [cbn; lia|].
  cbn [newlines fold_left length] in *. destruct (c =? 10); [lia|]. rewrite IH by lia. lia.
Qed.
Lemma from_not_earlier c ln cl : from c ln cl -> earlier ln cl (1 + newlines c) (1 + columns c) = false.
Proof.
  intros (w & -> & ->). unfold earlier. rewrite newlines_cat. apply orb_false_iff. split; [apply N.ltb_ge; lia|].
  destruct (N.eqb_spec (1 + (newlines c + newlines w)) (1 + newlines c)) as [E|E]; [|reflexivity]. cbn [andb]. rewrite columns_more by lia. apply N.ltb_ge. lia.
Qed.
Lemma filter_at {A} (f : A -> bool) l : forall a t b, filter f l = a ++ t :: b -> exists l1 l2, l = l1 ++ t :: l2 /\ filter f l1 = a /\ filter f l2 = b /\ f t = true.
Proof.
  induction l as [|x l IH]; intros a t b E; [destruct a; discriminate|]. cbn [filter] in E. destruct (f x) eqn:F.
  - destruct a as [|y a]; cbn [app] in E; inversion E; subst.
    + exists [], l. auto.
    + destruct (IH _ _ _ H1) as (l1 & l2 & -> & A1 & A2). exists (y :: l1), l2. split; [reflexivity|]. cbn [filter]. rewrite F, A1. auto.
  - destruct (IH _ _ _ E) as (l1 & l2 & -> & A1 & A2). exists (x :: l1), l2. split; [reflexivity|]. cbn [filter]. rewrite F. auto.
Qed.
Lemma filter_no {A} (f : A -> bool) l : Forall (fun x => f x = false) l -> filter f l = [].
Proof. induction 1 as [|x l E F IH]; [reflexivity|]. cbn [filter]. rewrite E. exact IH. Qed.

Lemma lex_report s ts cs er : lex s = Ok (ts, cs, er) -> exists ps, pieces s ps /\ ts = filter is_code (fst (report [] 0 ps)) /\ er = snd (report [] 0 ps).
Proof.
  intro L. destruct (pieces_exactly s) as (ps & P & _). destruct (lex_all s ps P) as [A B].
  assert (~ stumbles ps) as NS by (intro S; rewrite (A S) in L; discriminate).
  rewrite (B NS) in L. inversion L; subst. eauto.
Qed.
(** The part of the text that is common up to one character behind token [t2]. *)
Lemma lex_two a b b' ts cs er ts' cs' er' u t1 t2 r :
  lex (a ++ b) = Ok (ts, cs, er) -> lex (a ++ b') = Ok (ts', cs', er') -> ts = u ++ t1 :: t2 :: r -> pos (tend t2) < bytes_of a ->
  (exists r', ts' = u ++ t1 :: t2 :: r' /\ Forall (fun t => about_earlier t1 (mkErr (line (tstart t)) (col (tstart t)) []) = false) r') /\
  Forall (fun t => about_earlier t1 (mkErr (line (tstart t)) (col (tstart t)) []) = false) (t1 :: t2 :: r) /\
  filter (about_earlier t1) er = filter (about_earlier t1) er'.
Proof.
  intros L L' E BD. apply lex_report in L as (ps & P & TS & ER). apply lex_report in L' as (ps' & P' & TS' & ER'). rewrite E in TS.
  change (u ++ t1 :: t2 :: r) with (u ++ [t1] ++ t2 :: r) in TS. rewrite app_assoc in TS. symmetry in TS. apply filter_at in TS as (l1 & l2 & RL & F1 & F2 & C2).
  pose proof (report_at _ _ _ _ _ _ RL) as (ps1 & ps2 & k & w & m & -> & R1 & T2). cbn [app] in T2.
  assert (exists x a2, a = (words ps1 ++ w) ++ x :: a2) as (x & a2 & AE).
  { pose proof (pieces_words _ _ P) as W. rewrite words_app in W. cbn [words flat_map word_of] in W. fold (words ps2) in W. rewrite app_assoc in W.
    rewrite T2 in BD. cbn [tend place_of pos] in BD. revert W BD. generalize (words ps1 ++ w) (words ps2). clear. intros z y. revert z.
    induction a as [|c a IH]; intros z W BD; [cbn in BD; lia|]. destruct z as [|d z]; [exists c, a; reflexivity|]. cbn [app] in W. inversion W; subst.
    destruct (IH z) as (x & a2 & ->); [assumption|cbn [bytes_of fold_right] in BD; fold (bytes_of z) (bytes_of a) in BD; unfold bytes_of in *; cbn in BD; lia|].
    exists x, a2. reflexivity. }
  assert (words (ps1 ++ [PItem k w]) = words ps1 ++ w) as WW by (rewrite words_app; cbn; rewrite app_nil_r; reflexivity).
  destruct (pieces_exactly (x :: a2 ++ b')) as (ps3 & P3 & _).
  assert (pieces (a ++ b') ((ps1 ++ [PItem k w]) ++ ps3)) as PP.
  { rewrite AE, <- app_assoc. cbn [app]. rewrite <- WW. eapply (pieces_tail _ _ P); [change (PItem k w :: ps2) with ([PItem k w] ++ ps2); rewrite app_assoc; reflexivity| |exact P3].
    rewrite WW, AE, <- app_assoc. reflexivity. }
  rewrite (pieces_one _ _ PP _ P') in *. clear P' ps'.
  change (ps1 ++ PItem k w :: ps2) with (ps1 ++ [PItem k w] ++ ps2) in *. rewrite app_assoc in *.
  rewrite (report_app (ps1 ++ [PItem k w]) ps2) in RL, ER. rewrite (report_app (ps1 ++ [PItem k w]) ps3) in TS', ER'. cbn [fst snd app] in *. rewrite WW in *.
  set (n := next_number 0 (ps1 ++ [PItem k w])) in *.
  assert (fst (report [] 0 (ps1 ++ [PItem k w])) = l1 ++ [t2]) as HD.
  { rewrite report_app. cbn [report fst app]. rewrite R1. f_equal.
    rewrite report_app in RL. cbn [report fst app] in RL. rewrite R1, <- app_assoc in RL. apply app_inv_head in RL. cbn [app] in RL. inversion RL; subst. reflexivity. }
  rewrite HD in *. rewrite <- app_assoc in RL. apply app_inv_head in RL. cbn [app] in RL. inversion RL as [R2]. clear RL.
  apply filter_at in F1 as (l3 & l4 & -> & F3 & F4 & C1).
  pose proof (report_at _ _ _ _ _ _ R1) as (qa & qb & k1 & w1 & m1 & Q & _ & T1). cbn [app] in T1.
  assert (forall ln cl, from (words qa) ln cl -> forall msg, about_earlier t1 (mkErr ln cl msg) = false) as NE.
  { intros ln cl F msg. unfold about_earlier. rewrite T1. cbn [tstart place_of line col eline ecol]. apply from_not_earlier, F. }
  assert (forall ln cl, from (words ps1 ++ w) ln cl -> from (words qa) ln cl) as UP.
  { intros ln cl F. rewrite Q, words_app, <- app_assoc in F. eapply from_app; exact F. }
  assert (forall q, Forall (fun t => about_earlier t1 (mkErr (line (tstart t)) (col (tstart t)) []) = false) (fst (report (words ps1 ++ w) n q)) /\
                    Forall (fun e => about_earlier t1 e = false) (snd (report (words ps1 ++ w) n q))) as LT.
  { intro q. destruct (report_from q (words ps1 ++ w) n) as [A B]. split; eapply Forall_impl; try eassumption; cbn beta.
    - intros t F. apply NE, UP, F.
    - intros [ln cl msg] F. apply NE, UP, F. }
  assert (forall l, Forall (fun t => about_earlier t1 (mkErr (line (tstart t)) (col (tstart t)) []) = false) l ->
                    Forall (fun t => about_earlier t1 (mkErr (line (tstart t)) (col (tstart t)) []) = false) (filter is_code l)) as FF.
  { intros l F. rewrite Forall_forall in *. intros t I. apply filter_In in I as [I _]. apply F, I. }
  destruct (LT ps2) as [A2 B2]. destruct (LT ps3) as [A3 B3]. rewrite !filter_app in TS'. cbn [filter] in TS'. 
  split; [|split].
  - exists (filter is_code (fst (report (words ps1 ++ w) n ps3))). split; [|apply FF, A3]. rewrite TS', C2, C1, F3, F4, <- !app_assoc. reflexivity.
  - constructor; [|constructor; [|]].
    + apply NE. rewrite T1. exists []. rewrite app_nil_r. split; reflexivity.
    + apply NE. rewrite T2. cbn [tstart place_of line col]. rewrite Q, words_app. eexists. split; reflexivity.
    + subst l2. rewrite <- F2. apply FF, A2.
  - rewrite ER, ER', !filter_app, !(filter_no _ _ B2), !(filter_no _ _ B3). reflexivity.
Qed.

(** ** C97: the messages about the beginning of a file do not depend on its end *)
Lemma late_not_earlier u t1 t2 r msgs :
  Forall (fun t => about_earlier t1 (mkErr (line (tstart t)) (col (tstart t)) []) = false) (t1 :: t2 :: r) ->
  Forall (late (u ++ t1 :: t2 :: r) (length u)) msgs -> Forall (fun e => about_earlier t1 e = false) msgs.
Proof.
  intros N F. eapply Forall_impl; [|exact F]. cbn beta. intros e (i & [L L2] & t & T & E1 & E2). rewrite app_length in *. cbn [length] in *.
  unfold about_earlier. rewrite E1, E2. rewrite Forall_forall in N. apply (N t).
  destruct (Nat.eqb_spec i (length u + S (S (length r)))) as [->|NE]; rewrite nth_error_app2 in T by lia; eapply nth_error_In; exact T.
Qed.
Theorem C97_prefix : forall a b b' entry p p' u t1 t2 r,
  parse (a ++ b) entry = Ok p -> parse (a ++ b') entry = Ok p' -> p_tokens p = u ++ t1 :: t2 :: r -> pos (tend t2) < bytes_of a ->
  (exists r', p_tokens p' = u ++ t1 :: t2 :: r') /\
  filter (about_earlier t1) (p_errors p) = filter (about_earlier t1) (p_errors p') /\
  (p_events p = p_events p' \/ exists c d d', p_events p = c ++ d /\ p_events p' = c ++ d' /\ (length u <= taken c)%nat).
Proof.
  intros a b b' entry p p' u t1 t2 r H H' T BD. apply parse_inv in H as (l & e & L & H & E). apply parse_inv in H' as (l' & e' & L' & H' & E').
  destruct (lex_two _ _ _ _ _ _ _ _ _ _ _ _ _ L L' T BD) as ((r' & T' & N') & N & EL). split; [exists r'; exact T'|].
  assert (Forall (fun t => about_earlier t1 (mkErr (line (tstart t)) (col (tstart t)) []) = false) (t1 :: t2 :: r')) as N2 by (inversion N as [|? ? ? NN]; inversion NN; subst; auto).
  rewrite T in H. rewrite T' in H'. change (u ++ t1 :: t2 :: r) with (u ++ [t1; t2] ++ r) in H. change (u ++ t1 :: t2 :: r') with (u ++ [t1; t2] ++ r') in H'.
  rewrite app_assoc in H, H'. destruct (parse_two _ _ _ _ _ _ _ _ H H') as (c & d & d' & c0 & x & x' & V & V' & R & R' & TK & F & F').
  rewrite app_length in *. cbn [length] in *. replace (length u + 2 - 2)%nat with (length u) in * by lia. rewrite <- app_assoc in F, F'. cbn [app] in F, F'.
  split.
  - rewrite E, E', !filter_app, EL, R, R', !filter_app, (filter_no _ _ (late_not_earlier _ _ _ _ _ N F)), (filter_no _ _ (late_not_earlier _ _ _ _ _ N2 F')). reflexivity.
  - destruct TK as [TK|[EV _]]; [right|left; exact EV]. exists c, d, d'. split; [exact V|]. split; [exact V'|lia].
Qed.
Print Assumptions C97_prefix.

(** The beginning has a lexical error, and syntax errors of both kinds; what follows is correct in one text and not in the other. *)
Definition same_start : text := str "model M Real $ x = ; equation x = 1 y; end M; model N Real z; equation ".
Definition good_end : text := str "z = 1; end N;".
Definition bad_end : text := str "z = 1 end N".
Example C97_applies : exists p p' u t1 t2 r, parse (same_start ++ good_end) KStoredDefinition = Ok p /\ parse (same_start ++ bad_end) KStoredDefinition = Ok p' /\
  p_tokens p = u ++ t1 :: t2 :: r /\ pos (tend t2) < bytes_of same_start /\ length u = 18%nat /\
  length (filter (about_earlier t1) (p_errors p)) = 3%nat /\ p_errors p <> p_errors p' /\ p_events p <> p_events p'.
Proof.
  assert (exists p p', parse (same_start ++ good_end) KStoredDefinition = Ok p /\ parse (same_start ++ bad_end) KStoredDefinition = Ok p') as (p & p' & H & H').
  { eexists _, _. split; vm_compute; reflexivity. }
  exists p, p', (firstn 18 (p_tokens p)). vm_compute in H. vm_compute in H'. inversion H; subst p. inversion H'; subst p'.
  eexists _, _, _. split; [vm_compute; reflexivity|]. split; [vm_compute; reflexivity|]. split; [reflexivity|]. split; [reflexivity|]. split; [reflexivity|]. split; [reflexivity|].
  split; discriminate.
Qed.

(** Two tokens of lookahead are needed: [type A =] starts a derived class or another one, and the events differ behind [type]. *)
Fixpoint common (a b : list event) : list event :=
  match a, b with
  | x :: a, y :: b => if match x, y with Advance, Advance | Exit, Exit => true | Enter k, Enter l => skind_eqb k l | _, _ => false end then x :: common a b else []
  | _, _ => []
  end.
Lemma common_prefix c : forall d d', exists x, common (c ++ d) (c ++ d') = c ++ x.
Proof.
  induction c as [|e c IH]; intros d d'; [exists (common d d'); reflexivity|]. cbn [app common]. destruct (IH d d') as (x & E). exists x.
  destruct e; rewrite ?skind_eqb_refl, E; reflexivity.
Qed.
Theorem C97_tight : exists a b b' p p' u t1 t2 r, parse (a ++ b) KStoredDefinition = Ok p /\ parse (a ++ b') KStoredDefinition = Ok p' /\ p_errors p = [] /\ p_errors p' = [] /\
  p_tokens p = u ++ t1 :: t2 :: r /\ pos (tend t2) < bytes_of a /\
  forall c d d', p_events p = c ++ d -> p_events p' = c ++ d' -> (taken c <= length u)%nat.
Proof.
  set (a := str "type A = "). set (b := str "der(f, x);"). set (b' := str "Real;").
  assert (exists p p', parse (a ++ b) KStoredDefinition = Ok p /\ parse (a ++ b') KStoredDefinition = Ok p') as (p & p' & H & H').
  { eexists _, _. split; vm_compute; reflexivity. }
  exists a, b, b', p, p', (firstn 1 (p_tokens p)). vm_compute in H. vm_compute in H'. inversion H; subst p. inversion H'; subst p'.
  eexists _, _, _. split; [vm_compute; reflexivity|]. split; [vm_compute; reflexivity|]. split; [reflexivity|]. split; [reflexivity|]. split; [reflexivity|]. split; [reflexivity|].
  intros c d d' E E'. destruct (common_prefix c d d') as (x & X). rewrite <- E, <- E' in X. clear E E'. vm_compute in X.
  apply (f_equal taken) in X. rewrite taken_app in X. cbn in X. cbn. lia.
Qed.
Print Assumptions C97_tight.
