(** The layout of formatted files: what [pretty_print] prints for accepted sources. *)
From Coq Require Import Sorted.
From Verif Require Import ProofBase Tokens Syntax Lexer SpecLex LexInv LexMain LexFacts ParserCore Grammar
  Tree Printer Formatter Lib ParserSem SpecGrammar Regex ParserGrammar ParserTree ParserFacts Recognise PropsParser
  FmtAbs FmtPlan FmtShape FmtTables FmtSound SpecLayout FmtExec.

(** ** Checking all pairs of adjacent tokens *)
Definition all_adjacent (P : option dk -> gap -> dk -> bool) : bool :=
  forallb (fun h => P None (fst h) (snd h)) (t_heads KStoredDefinition) &&
  forallb (fun x => let '(s, g, d) := x in
    forallb (fun t => forallb (fun h => P (Some (fst t)) (snd t ++ g ++ fst h) (snd h))
                              (heads_of t_heads d)) (tails_of t_tails s)) t_sites.

Lemma all_adjacent_sound P : all_adjacent P = true ->
  forall p G k, adjacent p G k -> P p G k = true.
Proof.
  unfold all_adjacent. intro H. apply andb_true_iff in H as [H1 H2].
  rewrite forallb_forall in H1, H2. intros [k1|] G k2 A; cbn [adjacent meet] in A.
  - unfold adjacent, meet in A. destruct A as (s & g & d & t & h & I1 & I2 & I3 & ->).
    specialize (H2 _ I1). cbv beta iota in H2. rewrite forallb_forall in H2. specialize (H2 _ I2).
    rewrite forallb_forall in H2. exact (H2 _ I3).
  - apply (H1 (G, k2) A).
Qed.

(** ** The tree of an accepted source *)
Lemma accepted_tree s p :
  parse s KStoredDefinition = Ok p -> p_errors p = [] ->
  exists cs items,
    conforms false (CTree KStoredDefinition cs) /\
    leaves (CTree KStoredDefinition cs) = p_tokens p /\
    p_events p = flat (CTree KStoredDefinition cs) /\
    build_tree (p_tokens p) (p_events p) = Ok (prune (CTree KStoredDefinition cs)) /\
    lexes s (map item_of items) /\ comments_ascii (map item_of items) /\ laid space s items /\
    p_tokens p = filter plain items /\ p_comments p = filter commentary items.
Proof.
  intros H Z. unfold parse in H. apply bind_ok in H as [[[toks coms] errs] [L H]].
  apply bind_ok in H as [[evs perrs] [H E]]. inversion E; subst; clear E. cbn [p_errors p_tokens p_events p_comments] in *.
  apply app_eq_nil in Z as [-> ->].
  destruct (lex_sound _ _ _ L) as (items & X1 & X2 & X3 & X4 & X5).
  unfold parse_events in H. apply parse_shape in H as (cs & rest & g & E & Y & R & O).
  rewrite (R eq_refl) in *. specialize (O eq_refl). apply stored_conforms in O.
  rewrite app_nil_r in Y. exists cs, items.
  split; auto. split; auto. split; auto. split; [rewrite E, Y; apply build_flat|]. auto.
Qed.

Definition the_tree (t : child) (p : parsed) : Prop :=
  exists cs, t = CTree KStoredDefinition cs /\ conforms false t /\ leaves t = p_tokens p /\
    p_events p = flat t /\ build_tree (p_tokens p) (p_events p) = Ok (prune t).

Definition single_gap (p : option dk) (G : gap) (k : dk) : bool := Nat.leb (length G) 1.
Lemma single_checked : all_adjacent single_gap = true.
Proof. vm_compute. reflexivity. Qed.

(** What the tree says about the layout: the plan for the tree and how it comes about. *)
Definition planned (t : child) (items : list token) (l : layout) : Prop :=
  t = CTree KStoredDefinition [] \/
  exists r os n', whole t_pcls false false false t TEOF 1 r os /\
    ptoks os = dleaves KStoredDefinition t /\ aimed None os /\ ind 0 os = Some n' /\
    placed true 1 items (score [] O O os) l.

(** The first operation for a file is no marker. *)
Lemma file_unmarked c : forall k cs ml w oel pv ln r os, c = CTree k cs ->
  In k [KStoredDefinition; KClassDefinition; KClassPrefixes] ->
  whole t_pcls ml w oel c pv ln r os -> unmarked os.
Proof.
  induction c as [t0|k0 cs0 IH] using child_ind2; intros k cs ml w oel pv ln r os E K W; [discriminate|].
  injection E as -> ->. inversion W as [? ? ? ? ? ? ? ms l l' os' F IA PC EP PR LO]; subst.
  inversion F as [|? ? NE L FC]; subst. destruct cs as [|c cs]; [contradiction|].
  cbn [map] in L. apply firsts_complete in L as FS.
  inversion LO as [|? ? ? ? ? ? ? acts l1 l2 l3 o os2 ES R T LO2]; subst. inversion IH as [|? ? IC _]; subst.
  assert (ms = []) as ->.
  { destruct K as [<-|[<-|[<-|[]]]]; cbn in PR; injection PR as <- _; reflexivity. }
  cbn [map app].
  assert (match acts with
          | ABreak _ _ :: _ | AHandle :: _ => True
          | ACall k' _ _ _ _ :: _ => In k' [KStoredDefinition; KClassDefinition; KClassPrefixes]
          | _ => False
          end) as S.
  { destruct K as [<-|[<-|[<-|[]]]]; cbv [step] in ES.
    all: match type of ES with ?f _ _ = _ => unfold f in ES end; unfold view_at, view_of in ES; cbn [v_child v_prev v_idx v_idxpos] in ES.
    all: remember (sym_of c) as x eqn:X; clear L; vm_compute in FS.
    all: repeat match type of FS with _ \/ _ => destruct FS as [FS|FS] end; try contradiction.
    all: destruct c as [t|k' ds]; cbn [label_of sym_of] in *; rewrite <- FS in X; try discriminate.
    all: injection X as X; try rewrite <- X in ES; cbn in ES; cbv [N.ltb N.eqb N.compare] in ES; cbn in ES.
    all: repeat match type of ES with context [if ?x then _ else _] => destruct x end; injection ES as <- _; cbn; auto. }
  destruct R; try contradiction; try exact I.
  rewrite <- app_assoc.
  pose proof (IC _ _ _ _ _ _ _ _ _ eq_refl S H) as U.
  destruct o as [|o1 o]; [|exact U].
  exfalso. inversion H as [? ? ? ? ? ? ? ms' l4 l5 os3 F' IA' PC' EP' PR' LO' E1 E2 E3 E4 E5 E6 E7 E8]; subst.
  destruct (plan_good t_heads t_tails t_pcls t_outs t_sites (fun _ _ _ => True)
    (fun _ _ _ _ _ _ _ _ _ _ => Logic.I)
    (check_closed _ _ _ _ _ tables_checked) _ F' _ _ _ IA' (None, []) 0%nat pv ln PC')
    as (r9 & os9 & n9 & net & P & T9 & _); [intros ? ? ?; exact Logic.I|].
  rewrite EP', E8 in P. injection P as _ <-.
  destruct (dleaves_first k (CTree k ds) F') as (t & r' & _ & E). rewrite E in T9. discriminate.
Qed.

Theorem format_layout eol s p :
  parse s KStoredDefinition = Ok p -> p_errors p = [] ->
  exists t items l,
    the_tree t p /\
    lexes s (map item_of items) /\ comments_ascii (map item_of items) /\ laid space s items /\
    p_tokens p = filter plain items /\ p_comments p = filter commentary items /\
    pretty_print eol p = Ok (render eol l) /\
    arranged adjacent None 1 items (dleaves KStoredDefinition (prune t)) l /\
    planned (prune t) items l.
Proof.
  intros H Z. destruct (accepted_tree s p H Z) as (cs & items & C & L & E & B & X1 & X2 & X3 & X4 & X5).
  exists (CTree KStoredDefinition cs), items.
  assert (the_tree (CTree KStoredDefinition cs) p) as T by (exists cs; auto).
  pose proof (prune_fits _ C) as F. pose proof (leaves_prune (CTree KStoredDefinition cs)) as LP.
  rewrite L in LP. unfold pretty_print. rewrite B. cbn [bind].
  assert (exists ks, prune (CTree KStoredDefinition cs) = CTree KStoredDefinition ks) as [ks EK]
    by (rewrite prune_tree; eauto).
  rewrite EK in *. destruct ks as [|k ks].
  - exists []. split; auto. split; auto. split; auto. split; auto. split; auto. split; auto. split.
    + reflexivity.
    + split; [|left; reflexivity].
      cbn [dleaves flat_map]. constructor. apply no_plain. rewrite <- X4, <- LP. reflexivity.
  - destruct (file_plan (k :: ks) 1 F) as (r & os & n' & P & PT & A & R & (k1 & g1 & IT & AF) & I & WH).
    assert (g1 = []) as -> by (destruct IT as [IT|[]]; inversion IT; auto).
    destruct (exec adjacent) with (eol := eol) (os := os) (p := @None dk) (G := @nil gsym) (m := O)
      (f := formatter_new (p_comments p)) (items := items) (n := O) (n' := n') (pre := @nil N)
      as (ms & f' & out & l & D & M & PR & AR & RE & PL); auto.
    + intros q G x AX. apply (all_adjacent_sound _ single_checked) in AX. apply Nat.leb_le in AX. exact AX.
    + exact (f_equal snd AF).
    + rewrite PT, dleaves_leaves, LP, X4. reflexivity.
    + eapply laid_ordered; eauto.
    + intros _ _. left. split; auto. exact (file_unmarked _ _ _ _ _ _ _ _ _ _ eq_refl (or_introl eq_refl) WH).
    + cbn [waiting]. auto.
    + exists l. split; auto. split; auto. split; auto. split; auto. split; auto. split; auto.
      cbn [app] in RE. split.
      * unfold format. rewrite (plan_fmt _ _ _ _ _ (formatter_new (p_comments p)) r os) by exact P.
        rewrite D. cbn [bind]. rewrite M. cbn [formatter_new fmarks]. rewrite app_nil_r, rev_involutive.
        unfold print. rewrite PR. congruence.
      * rewrite PT in AR. split; [exact AR|]. right. exists r, os, n'. repeat split; auto.
Qed.
