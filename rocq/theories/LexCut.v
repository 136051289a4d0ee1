(** Cutting a text in front of one of its tokens and continuing it with other tokens. *)
From Verif Require Import ProofBase Tokens Syntax Lexer SpecLex LexSpecProofs LexInv LexScan LexMain FmtRelex.

(** * Where a token begins *)
Lemma laid_cut s items : laid space s items -> forall a x b, items = a ++ x :: b ->
  exists u v, s = u ++ ttext x ++ v /\ laid space u a /\ coords_after u (tstart x).
Proof.
  induction 1 as [|c y items L IH G|c items t L IH A _ _ _ _]; intros a x b E.
  - destruct a; discriminate.
  - destruct (IH _ _ _ E) as (u & v & -> & LU & C). exists u, (v ++ [y]). rewrite <- !app_assoc. auto.
  - destruct (exists_last (l := x :: b) ltac:(discriminate)) as (m & z & M). rewrite M, app_assoc in E.
    apply app_inj_tail in E as [-> ->]. destruct m as [|x' m]; cbn [app] in M; inversion M; subst.
    + exists c, []. rewrite app_nil_r in *. auto.
    + destruct (IH a x' m eq_refl) as (u & v & -> & LU & C). exists u, (v ++ ttext z). rewrite <- !app_assoc. auto.
Qed.

(** * Items from left to right *)
Inductive ahead : list token -> text -> Prop :=
| ah_nil sp : Forall space sp -> ahead [] sp
| ah_cons sp t a u : Forall space sp -> ahead a u -> ahead (t :: a) (sp ++ ttext t ++ u).

Lemma ahead_space a u x : ahead a u -> space x -> ahead a (u ++ [x]).
Proof.
  induction 1; intro S; [constructor; apply Forall_app; auto|].
  rewrite <- !app_assoc. constructor; auto.
Qed.
Lemma ahead_snoc a u t : ahead a u -> ahead (a ++ [t]) (u ++ ttext t).
Proof.
  induction 1; cbn [app].
  - rewrite <- (app_nil_r (sp ++ ttext t)), <- app_assoc. constructor; auto. constructor. constructor.
  - rewrite <- !app_assoc. constructor; auto.
Qed.
Lemma laid_ahead u a : laid space u a -> ahead a u.
Proof.
  induction 1; [constructor; constructor|apply ahead_space; auto|apply ahead_snoc; auto].
Qed.

Lemma lexes_first s k w its : lexes s ((k, w) :: its) ->
  exists sp r, s = sp ++ w ++ r /\ Forall space sp /\ lexeme k w /\ follow_ok k w r /\ lexes r its.
Proof.
  remember ((k, w) :: its) as l eqn:E. induction 1 as [|c r items S L IH|k' w' r items X F L IH]; [discriminate| |].
  - destruct (IH E) as (sp & r' & -> & SP & R). exists (c :: sp), r'. auto.
  - inversion E; subst. exists [], r. auto.
Qed.
Lemma lexes_spaces sp s its : Forall space sp -> lexes s its -> lexes (sp ++ s) its.
Proof. induction 1; intro L; auto. cbn [app]. constructor; auto. Qed.

(** * Only the next character counts *)
Lemma follow_head k w c r r' : follow_ok k w (c :: r) -> follow_ok k w (c :: r').
Proof.
  destruct k; cbn [follow_ok]; rewrite ?starts_cons; auto.
  intros [H|H]; [discriminate|]. right. exact H.
Qed.
Lemma follow_white k w c r : c = 10 \/ c = 32 /\ k <> TLineComment -> follow_ok k w (c :: r).
Proof.
  intro C. assert (c = 10 \/ c = 32) as C' by tauto.
  assert (~ digit c /\ ~ exp_mark c /\ ~ sign c /\ ~ idchar c /\ c <> 61 /\ c <> 62 /\ c <> dot /\ c <> slash /\ c <> star
    /\ ~ In c [43; 45; 42; 47; 94]) as (D & X & G & ID & A & B & P & S & T & U).
  { unfold digit, exp_mark, SpecLex.sign, idchar, nondigit, letter, digit, dot, slash, star.
    destruct C' as [-> | ->]; cbn; repeat split; lia. }
  destruct k; cbn [follow_ok]; rewrite ?starts_cons; auto; try tauto.
  right. unfold newline_char. destruct C as [->|[_ []]]; auto.
Qed.

(** The tokens in front of a cut stay as they are if a line break comes next. *)
Lemma recut u a : ahead a u -> forall v its z zi, lexes (u ++ v) (map item_of a ++ its) -> lexes z zi ->
  lexes (u ++ 10 :: z) (map item_of a ++ zi).
Proof.
  induction 1 as [sp SP|sp t a u SP A IH]; intros v its z zi L Z; cbn [map app].
  - apply lexes_spaces; auto. constructor; auto. unfold space. cbn. auto.
  - cbn [map app] in L. unfold item_of at 1 in L. apply lexes_first in L as (sp' & r & E & SP' & X & F & L).
    rewrite <- !app_assoc in E.
    assert (forall r, exists c b, ttext t ++ r = c :: b /\ ~ space c) as ST.
    { intro r0. destruct (lexeme_starts _ _ X) as (c & b & -> & N). cbn [app]. eauto. }
    apply spaces_prefix in E as [-> E]; auto.
    apply app_inv_head in E. subst r. rewrite <- !app_assoc. apply lexes_spaces; auto.
    unfold item_of at 1. constructor; [exact X| |].
    + destruct u as [|c u]; cbn [app] in *; [apply follow_white; auto|]. eapply follow_head; eauto.
    + eapply IH; eauto.
Qed.

Lemma filter_cut {X} (f : X -> bool) l : forall a x b, filter f l = a ++ x :: b ->
  exists l1 l2, l = l1 ++ x :: l2 /\ filter f l1 = a.
Proof.
  induction l as [|y l IH]; intros a x b E; [destruct a; discriminate|].
  cbn [filter] in E. destruct (f y) eqn:F.
  - destruct a as [|y' a]; cbn [app] in E; inversion E; subst.
    + exists [], l. auto.
    + destruct (IH _ _ _ H1) as (l1 & l2 & -> & E2). exists (y' :: l1), l2. cbn. rewrite F, E2. auto.
  - destruct (IH _ _ _ E) as (l1 & l2 & -> & E2). exists (y :: l1), l2. cbn. rewrite F. auto.
Qed.

(** * Words separated by spaces *)
Definition spaced (l : list (tkind * text)) : text := flat_map (fun p => snd p ++ [32]) l.
Lemma spaced_lexes l : Forall (fun p => lexeme (fst p) (snd p) /\ fst p <> TLineComment) l -> lexes (spaced l) l.
Proof.
  induction 1 as [|[k w] l [X N] _ IH]; [constructor|]. cbn [spaced flat_map snd fst] in *.
  rewrite <- app_assoc. constructor; auto.
  - apply follow_white. auto.
  - constructor; [unfold space; cbn; tauto|exact IH].
Qed.

(** A text can be cut in front of any token and go on with any correctly spelled words. *)
Theorem cut_and_continue s toks coms before rest more :
  lex s = Ok (toks, coms, []) -> toks = before ++ rest ->
  Forall (fun p => lexeme (fst p) (snd p) /\ is_comment_kind (fst p) = false) more ->
  exists u v w toks' coms',
    s = u ++ v /\
    match rest with
    | x :: _ => (exists v', v = ttext x ++ v') /\ coords_after u (tstart x)
    | [] => v = []
    end /\
    lex (u ++ w) = Ok (toks', coms', []) /\ map item_of toks' = map item_of before ++ more.
Proof.
  intros L E M. destruct (lex_sound _ _ _ L) as (items & X & CA & LD & T & _). rewrite T in E. clear T.
  assert (exists a its u v, lexes (u ++ v) (map item_of a ++ its) /\ s = u ++ v /\ laid space u a /\
    comments_ascii (map item_of a) /\ filter plain a = before /\
    match rest with
    | x :: _ => (exists v', v = ttext x ++ v') /\ coords_after u (tstart x)
    | [] => v = []
    end) as (a & its & u & v & X' & -> & LU & CA' & F & R).
  { destruct rest as [|x rest].
    - rewrite app_nil_r in E. exists items, [], s, []. rewrite !app_nil_r. auto 10.
    - destruct (filter_cut _ _ _ _ _ E) as (a & b & -> & F).
      destruct (laid_cut _ _ LD _ _ _ eq_refl) as (u & v & -> & LU & C).
      rewrite map_app in X, CA.
      exists a, (map item_of (x :: b)), u, (ttext x ++ v). split; [exact X|]. split; auto. split; auto.
      split; [|split; eauto]. intros w I. apply CA. apply in_or_app. auto. }
  assert (lexes (spaced more) more) as SM.
  { apply spaced_lexes. eapply Forall_impl; [|exact M]. intros [k w] [A B]. split; auto.
    cbn in *. intro Z. subst k. discriminate. }
  pose proof (recut _ _ (laid_ahead _ _ LU) _ _ _ _ X' SM) as Y.
  destruct (lex_complete _ _ Y) as (items' & LX & MI & _).
  { intros w I. apply in_app_or in I as [I|I]; auto. rewrite Forall_forall in M. apply M in I as [_ I]. discriminate. }
  exists u, v, (10 :: spaced more), (filter plain items'), (filter commentary items').
  split; auto. split; auto. split; auto.
  assert (forall l, map item_of (filter plain l) = filter (fun p => negb (is_comment_kind (fst p))) (map item_of l)) as FM.
  { induction l as [|y l IH]; auto. cbn [filter map].
    change (negb (is_comment_kind (fst (item_of y)))) with (plain y).
    destruct (plain y); cbn [map]; rewrite IH; reflexivity. }
  rewrite FM, MI, filter_app, <- FM, F. f_equal. clear - M.
  induction M as [|p l [_ A] _ IH]; auto. cbn [filter]. rewrite A. cbn [negb]. rewrite IH. reflexivity.
Qed.
