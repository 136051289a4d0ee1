(** Runs of the parser with a higher limit of lookups without progress. *)
From Verif Require Import ProofBase Tokens Syntax Lexer ParserCore Grammar Tree ParserSem ParserFuel ParserTree.

(** The state [q] is [p], but with at least as many lookups left. *)
Record richer (p q : pstate) : Prop := mkRicher {
  ri_toks : ptoks q = ptoks p;
  ri_rest : prest q = prest p;
  ri_ev : pevents q = pevents p;
  ri_err : perrs q = perrs p;
  ri_lifes : plifes p <= plifes q;
  ri_limit : plimit p <= plimit q
}.

Lemma richer_nth n p k p' q : richer p q -> p_nth n p = Ok (k, p') ->
  exists q', p_nth n q = Ok (k, q') /\ richer p' q'.
Proof.
  intros [A B C D E F] H. unfold p_nth in *. destruct (plifes p =? 0) eqn:Z; [discriminate|].
  apply N.eqb_neq in Z. destruct (plifes q =? 0) eqn:Y; [apply N.eqb_eq in Y; lia|].
  inversion H; subst. rewrite B. eexists. split; [reflexivity|]. split; cbn; auto. lia.
Qed.
Lemma richer_advance p p' q : richer p q -> p_advance p = Ok p' ->
  exists q', p_advance q = Ok q' /\ richer p' q'.
Proof.
  intros [A B C D E F] H. unfold p_advance in *. rewrite B. destruct (prest p); inversion H; subst.
  eexists. split; [reflexivity|]. split; cbn; auto. congruence.
Qed.
Lemma richer_error m p p' q : richer p q -> p_error m p = Ok p' ->
  exists q', p_error m q = Ok q' /\ richer p' q'.
Proof.
  intros [A B C D E F] H. unfold p_error in *. rewrite A, B.
  destruct (prest p) as [|x r] eqn:P; [destruct (rev (ptoks p)) as [|x r] eqn:V|]; inversion H; subst;
    (eexists; split; [reflexivity|]; split; cbn; solve [congruence|auto]).
Qed.
Lemma richer_enter p q : richer p q -> fst (p_enter q) = fst (p_enter p) /\ richer (snd (p_enter p)) (snd (p_enter q)).
Proof.
  intros [A B C D E F]. unfold p_enter. cbn. rewrite C. split; [reflexivity|]. split; cbn; congruence || auto.
Qed.
Lemma richer_exit m k p q : richer p q -> richer (p_exit m k p) (p_exit m k q).
Proof. intros [A B C D E F]. unfold p_exit. split; cbn; rewrite ?C; auto. Qed.
Lemma richer_consume t p b p' q : richer p q -> p_consume t p = Ok (b, p') ->
  exists q', p_consume t q = Ok (b, q') /\ richer p' q'.
Proof.
  intros R H. unfold p_consume in *. apply bind_ok in H as [[k p1] [H1 H2]].
  destruct (richer_nth _ _ _ _ _ R H1) as (q1 & -> & R1). cbn [bind]. destruct (tkind_eqb k t).
  - apply bind_ok in H2 as [p2 [H2 H3]]. inversion H3; subst.
    destruct (richer_advance _ _ _ R1 H2) as (q2 & -> & R2). cbn [bind]. eauto.
  - inversion H2; subst. eauto.
Qed.
Lemma richer_eval reg c : forall p b p' q, richer p q -> eval reg c p = Ok (b, p') ->
  exists q', eval reg c q = Ok (b, q') /\ richer p' q'.
Proof.
  induction c as [n l|l|t| |c IHc|c1 IHc1 c2 IHc2|c1 IHc1 c2 IHc2]; intros p b p' q R H; cbn [eval] in *.
  - apply bind_ok in H as [[k p1] [H1 H2]]. inversion H2; subst.
    destruct (richer_nth _ _ _ _ _ R H1) as (q1 & -> & R1). cbn [bind]. eauto.
  - inversion H; subst. eauto.
  - eapply richer_consume; eauto.
  - inversion H; subst. exists q. split; auto. unfold p_eof. rewrite (ri_rest _ _ R). reflexivity.
  - apply bind_ok in H as [[k p1] [H1 H2]]. inversion H2; subst.
    destruct (IHc _ _ _ _ R H1) as (q1 & -> & R1). cbn [bind]. eauto.
  - apply bind_ok in H as [[x p1] [H1 H2]]. destruct (IHc1 _ _ _ _ R H1) as (q1 & -> & R1). cbn [bind].
    destruct x; [eapply IHc2; eauto|]. inversion H2; subst. eauto.
  - apply bind_ok in H as [[x p1] [H1 H2]]. destruct (IHc1 _ _ _ _ R H1) as (q1 & -> & R1). cbn [bind].
    destruct x; [|eapply IHc2; eauto]. inversion H2; subst. eauto.
Qed.

Lemma richer_exec body fuel : forall reg s p g p' q, richer p q -> exec body fuel reg s p = Ok (g, p') ->
  exists q', exec body fuel reg s q = Ok (g, q') /\ richer p' q'.
Proof.
  induction fuel as [|n IHn]; [discriminate|].
  intros reg s; revert reg; induction s as [|a IHa b IHb|c|t| |pre m post|k|c a IHa b IHb|c a IHa|m a IHa|];
    intros reg p g p' q R H.
  - rewrite exec_skip in *. inversion H; subst. eauto.
  - rewrite exec_seq in *. apply bind_ok in H as [[g1 p1] [H1 H2]].
    destruct (IHa _ _ _ _ _ R H1) as (q1 & -> & R1). cbn [bind]. destruct g1.
    + eapply IHb; eauto.
    + inversion H2; subst. eauto.
  - rewrite exec_do in *. apply bind_ok in H as [[b p1] [H1 H2]]. inversion H2; subst.
    destruct (richer_eval _ _ _ _ _ _ R H1) as (q1 & -> & R1). cbn [bind]. eauto.
  - rewrite exec_expect in *. apply bind_ok in H as [p1 [H1 H2]]. inversion H2; subst. unfold p_expect in *.
    apply bind_ok in H1 as [[b p1] [H1 H3]].
    destruct (richer_consume _ _ _ _ _ R H1) as (q1 & -> & R1). cbn [bind]. destruct b.
    + inversion H3; subst. cbn [bind]. eauto.
    + apply bind_ok in H3 as [[k p2] [H3 H4]]. destruct (richer_nth _ _ _ _ _ R1 H3) as (q2 & -> & R2). cbn [bind].
      destruct (richer_error _ _ _ _ R2 H4) as (q3 & -> & R3). cbn [bind]. eauto.
  - rewrite exec_advance in *. apply bind_ok in H as [p1 [H1 H2]]. inversion H2; subst.
    destruct (richer_advance _ _ _ R H1) as (q1 & -> & R1). cbn [bind]. eauto.
  - rewrite exec_adverr in *. apply bind_ok in H as [[k p1] [H1 H2]].
    apply bind_ok in H2 as [p2 [H2 H3]]. inversion H3; subst.
    destruct (richer_nth _ _ _ _ _ R H1) as (q1 & -> & R1). cbn [bind].
    unfold p_advance_with_error in *. apply bind_ok in H2 as [p3 [H2 H4]].
    destruct (richer_error _ _ _ _ R1 H2) as (q3 & -> & R3). cbn [bind].
    destruct (richer_enter _ _ R3) as [F R4]. destruct (p_enter p3) as [mp p4]. destruct (p_enter q3) as [mq q4].
    cbn [fst snd] in *. subst mq. apply bind_ok in H4 as [p5 [H4 H5]]. inversion H5; subst.
    destruct (richer_advance _ _ _ R4 H4) as (q5 & -> & R5). cbn [bind]. eauto using richer_exit.
  - rewrite exec_call in *. destruct (richer_enter _ _ R) as [F R1].
    destruct (p_enter p) as [mp p1]. destruct (p_enter q) as [mq q1]. cbn [fst snd] in *. subst mq.
    apply bind_ok in H as [[g1 p2] [H1 H2]]. inversion H2; subst.
    destruct (IHn _ _ _ _ _ _ R1 H1) as (q2 & -> & R2). cbn [bind]. eauto using richer_exit.
  - rewrite exec_if in *. apply bind_ok in H as [[b' p1] [H1 H2]].
    destruct (richer_eval _ _ _ _ _ _ R H1) as (q1 & -> & R1). cbn [bind].
    destruct b'; [eapply IHa|eapply IHb]; eauto.
  - rewrite exec_while in *. apply bind_ok in H as [[b p1] [H1 H2]].
    destruct (richer_eval _ _ _ _ _ _ R H1) as (q1 & -> & R1). cbn [bind]. destruct b.
    + apply bind_ok in H2 as [[g1 p2] [H2 H3]].
      destruct (IHa _ _ _ _ _ R1 H2) as (q2 & -> & R2). cbn [bind]. destruct g1.
      * eapply IHn; eauto.
      * inversion H3; subst. eauto.
    + inversion H2; subst. eauto.
  - rewrite exec_let in *. apply bind_ok in H as [[k p1] [H1 H2]].
    destruct (richer_nth _ _ _ _ _ R H1) as (q1 & -> & R1). cbn [bind]. eapply IHa; eauto.
  - rewrite exec_break in *. inversion H; subst. eauto.
Qed.

Lemma parse_richer limit limit' fuel ts k r : limit <= limit' ->
  parse_events_with limit fuel ts k = Ok r -> parse_events_with limit' fuel ts k = Ok r.
Proof.
  intros L H. pose proof (parse_events_entry _ _ _ _ _ H) as NE. rewrite parse_events_unfold in * by exact NE.
  apply bind_ok in H as [[g p] [H1 H2]].
  assert (richer (parser_with limit ts) (parser_with limit' ts)) as R by (split; cbn; auto).
  destruct (richer_exec _ _ _ _ _ _ _ _ R H1) as (q & -> & R1). cbn [bind].
  rewrite (ri_ev _ _ R1), (ri_err _ _ R1). exact H2.
Qed.
