(** The layout of parts of a file: what [pretty_print] prints for trees whose root is not
    a stored definition. *)
From Verif Require Import ProofBase Tokens Syntax Lexer SpecLex LexInv LexMain LexFacts ParserCore Grammar
  Tree Printer Formatter Lib ParserSem SpecGrammar Regex ParserGrammar ParserTree ParserFacts Recognise PropsParser
  FmtAbs FmtPlan FmtShape FmtTables FmtSound SpecLayout FmtExec FmtFacts FmtRelex FmtNeat PropsFormat SpecEntry.

Definition near (k : skind) (ko : option dk) (G : gap) (k2 : dk) : Prop :=
  match ko with
  | None => In (G, k2) (t_heads k)
  | Some _ => meet t_heads t_tails t_sites ko G k2
  end.

(** No line break is printed in front of such a part, and nothing behind it. *)
Definition snug (k : skind) : bool :=
  forallb (fun h => negb (a_break (fst h)) && Nat.leb (length (fst h)) 1) (t_heads k) && forallb (fun t => no_gap (snd t)) (t_tails k)
  && existsb (fun c => tkind_eqb c (cls TEOF)) (t_pcls k).

Definition all_near (P : option dk -> gap -> dk -> bool) : bool :=
  forallb (fun x => let '(s, g, d) := x in
    forallb (fun t => forallb (fun h => P (Some (fst t)) (snd t ++ g ++ fst h) (snd h))
                              (heads_of t_heads d)) (tails_of t_tails s)) t_sites.

Lemma all_near_sound P : all_near P = true -> forall k q G x, near k (Some q) G x -> P (Some q) G x = true.
Proof.
  unfold all_near. intros H2 k q G x A. rewrite forallb_forall in H2.
  unfold near, meet in A. destruct A as (s & g & d & t & h & I1 & I2 & I3 & ->).
  specialize (H2 _ I1). cbv beta iota in H2. rewrite forallb_forall in H2. specialize (H2 _ I2).
  rewrite forallb_forall in H2. exact (H2 _ I3).
Qed.

Definition near_ok (p : option dk) (G : gap) (k : dk) : bool :=
  Nat.leb (length G) 1 && imp (no_gap G) (glue_ok (last_kind p) (snd k)).
Lemma near_checked : all_near near_ok = true.
Proof. vm_compute. reflexivity. Qed.


(** ** The layout of a part *)
Theorem part_layout eol k s p cs :
  read_whole k s p cs -> p_tokens p <> [] -> snug k = true ->
  exists items l,
    lexes s (map item_of items) /\ comments_ascii (map item_of items) /\ laid space s items /\
    p_tokens p = filter plain items /\ p_comments p = filter commentary items /\
    pretty_print eol p = Ok (render eol l) /\
    arranged (near k) None 1 items (dleaves k (prune (CTree k cs))) l /\
    exists r os, whole t_pcls false false false (prune (CTree k cs)) TEOF 1 r os /\
      runs (near k) (None, []) os /\ placed true 1 items (score [] O O os) l.
Proof.
  intros (H & Z & C & L & EV) NE SN. unfold parse in H. apply bind_ok in H as [[[toks coms] errs] [LX H]].
  apply bind_ok in H as [[evs perrs] [H E]]. inversion E; subst p; clear E.
  cbn [p_errors p_tokens p_events p_comments] in *. apply app_eq_nil in Z as [-> ->].
  destruct (lex_sound _ _ _ LX) as (items & X1 & X2 & X3 & X4 & X5).
  exists items. pose proof (prune_fits _ C) as F. pose proof (leaves_prune (CTree k cs)) as LP. rewrite L in LP.
  unfold snug in SN. rewrite !andb_true_iff in SN. destruct SN as [[S1 S2] S3].
  rewrite forallb_forall in S1, S2.
  assert (In (cls TEOF) (t_pcls k)) as IC.
  { apply existsb_exists in S3 as (x & I & E). apply tkind_eqb_eq in E. subst x. exact I. }
  unfold pretty_print. cbn [p_tokens p_events p_comments]. rewrite EV, <- L.
  change (leaves (CTree k cs)) with (yield cs). rewrite build_flat. cbn [bind].
  assert (exists ks, prune (CTree k cs) = CTree k ks) as [ks EK] by (rewrite prune_tree; eauto).
  rewrite EK in *. destruct ks as [|k1 ks].
  { exfalso. apply NE. rewrite <- LP. reflexivity. }
  assert (In (false, false, false) (args k)) as IA.
  { unfold args. repeat match goal with |- context [if ?b then _ else _] => destruct b end; left; reflexivity. }
  destruct (plan_good t_heads t_tails t_pcls t_outs t_sites (near k)
    (fun s g d t h k1 k2 I1 I2 I3 => meet_sites t_heads t_tails t_sites s g d t h k1 k2 I1 I2 I3)
    (check_closed _ _ _ _ _ tables_checked) _ F false false false IA (None, []) 0%nat TEOF 1 IC)
    as (r & os & n' & net & P & PT & A & R & (q1 & g1 & K1 & K2 & K3) & I & _ & _ & WH).
  { intros g d J. exact J. }
  assert (g1 = []) as ->. { specialize (S2 _ K1). cbn [snd] in S2. destruct g1; [reflexivity|discriminate]. }
  assert (forall G x, near k None G x -> a_break G = false /\ (length G <= 1)%nat) as NG.
  { intros G x J. specialize (S1 _ J). cbn [fst] in S1. apply andb_true_iff in S1 as [J1 J2].
    apply negb_true_iff in J1. apply Nat.leb_le in J2. auto. }
  destruct (exec (near k)) with (eol := eol) (os := os) (p := @None dk) (G := @nil gsym) (m := O)
    (f := formatter_new coms) (items := items) (n := O) (n' := n') (pre := @nil N)
    as (ms & f' & out & l & D & M & PR & AR & RE & PL); auto.
  - intros [q|] G x AX.
    + apply (all_near_sound _ near_checked) in AX. unfold near_ok in AX. apply andb_true_iff in AX as [AX _].
      apply Nat.leb_le in AX. exact AX.
    + apply NG in AX. apply AX.
  - exact (f_equal snd K2).
  - rewrite PT, dleaves_leaves, LP. congruence.
  - eapply laid_ordered; eauto.
  - intros _ _. right. intros G x b J I2. apply NG in J as [J1 J2].
    destruct G as [|g [|g2 G]]; cbn [length] in J2; [contradiction| |lia]. destruct I2 as [->|[]]. discriminate.
  - cbn [waiting]. auto.
  - exists l. do 3 (split; [assumption|]). split; [exact (eq_trans L X4)|]. split; [assumption|]. cbn [app] in RE. split.
    + unfold format. rewrite (plan_fmt _ _ _ _ _ (formatter_new coms) r os) by exact P.
      rewrite D. cbn [bind]. rewrite M. cbn [formatter_new fmarks]. rewrite app_nil_r, rev_involutive.
      unfold print. rewrite PR. congruence.
    + rewrite PT in AR. split; [exact AR|]. exists r, os. auto.
Qed.

(** Neighbours of a layout can be told apart when read. *)
Lemma part_apt k s items ds l :
  lexes s (map item_of items) -> laid space s items -> no_lone_cr s ->
  arranged (near k) None 1 items ds l -> forall a e, consecutive l a e -> apt a e.
Proof.
  intros LX LA NC AR a e C. unfold apt.
  destruct (e_rule a) as [q|] eqn:Q.
  - assert (tkind_of (e_tok a) <> TLineComment) as NL.
    { pose proof (arranged_ruled _ _ _ _ _ _ AR) as RU. rewrite Forall_forall in RU.
      specialize (RU a (proj1 (consecutive_in _ _ _ C))). cbv beta in RU. rewrite Q in RU.
      intro K. unfold commentary in RU. rewrite K in RU. discriminate. }
    destruct (e_white e) as [| |b n] eqn:W; auto.
    destruct (e_rule e) as [r|] eqn:R.
    + assert (linked (near k) a e) as LI.
      { eapply (arranged_linked (near k) _ _ _ _ _ AR (mkE WNone None (e_tok a))).
        - discriminate.
        - apply consecutive_cons. right. exact C. }
      destruct (LI q r Q R) as (G & A & I).
      apply (all_near_sound _ near_checked) in A. unfold near_ok in A. apply andb_true_iff in A as [_ A].
      destruct I as [[-> _]|[[-> W']|(b & n & -> & W')]]; try (rewrite W' in W; discriminate).
      exact A.
    + exfalso. eapply (arranged_comment_white (near k)); eauto.
  - destruct (arranged_after_comment _ _ _ _ _ _ AR a e C Q) as [B|(W & R & SL)].
    + destruct (e_white e); auto; discriminate.
    + rewrite W. intro K. pose proof (arranged_drops _ _ _ _ _ _ AR) as D.
      destruct C as (l1 & l2 & ->). rewrite map_app in D. cbn [map] in D.
      destruct (drops_order _ _ _ D _ _ _ _ eq_refl) as (i1 & i2 & EI & IE).
      assert (fwd [] items s) as F.
      { rewrite <- (app_nil_r items), <- (app_nil_r s). apply laid_fwd; auto. constructor. }
      pose proof (lines_apart _ _ _ LX F NC _ _ _ EI K) as LL. rewrite Forall_forall in LL.
      specialize (LL _ IE). lia.
Qed.
