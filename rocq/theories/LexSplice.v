(** A part of a text, read on its own and between other parts. *)
From Verif Require Import ProofBase Tokens Syntax Lexer SpecLex LexInv LexMain LexFacts FmtRelex FmtConcat FmtMoved FmtSame SpecEdit.

(** [walks a its r]: [a] consists of these items, and [r] follows. *)
Inductive walks : text -> list (tkind * text) -> text -> Prop :=
| wk_nil R : walks [] [] R
| wk_space c r its R : space c -> walks r its R -> walks (c :: r) its R
| wk_item k w r its R : lexeme k w -> follow_ok k w (r ++ R) -> walks r its R -> walks (w ++ r) ((k, w) :: its) R.
Lemma walks_lexes a i r : walks a i r -> forall j, lexes r j -> lexes (a ++ r) (i ++ j).
Proof.
  induction 1 as [R|c r its R S W IH|k w r its R X F W IH]; intros j L; cbn [app]; [exact L|constructor; auto|]. rewrite <- app_assoc. constructor; auto.
Qed.
Lemma follow_cut k w r b : r <> [] -> follow_ok k w (r ++ b) -> follow_ok k w r.
Proof.
  intros R F. assert (forall P, ~ SpecLex.starts P (r ++ b) -> ~ SpecLex.starts P r) as K by (intros P N S; apply N; apply (starts_app P r b R), S).
  destruct k; cbn [follow_ok] in *; auto.
  all: match type of F with
       | _ /\ _ => destruct F as (F1 & F2 & F3); auto 6
       | ?x = [] \/ _ => destruct F as [F|F]; [apply app_eq_nil in F as [F _]; contradiction|]; right; apply (starts_app _ r b); auto
       | _ \/ _ => destruct F as [F|F]; [left; exact F|right; auto]
       end.
Qed.
(** Characters behind which a new item starts. *)
Lemma lexeme_end k w : lexeme k w -> forall u c, w = u ++ [c] -> parting c -> k = TLineComment \/ k = TSemicolon.
Proof.
  assert (forall (l : text) x u c, l ++ [x] = u ++ [c] -> x = c) as TL by (intros l x u c E; apply app_inj_tail in E; tauto).
  assert (forall (P : N -> Prop) l u c, Forall P l -> l = u ++ [c] -> P c) as FA.
  { intros P l u c F ->. apply Forall_app in F as [_ F]. inversion F; subst. auto. }
  assert (forall tbl, forallb (fun s => negb (existsb (N.eqb (last (str (fst s)) 0)) [9; 10; 12; 13; 32; 59]) || tkind_eqb (snd s) TSemicolon) tbl = true ->
    forall w0 k0 u c, spelled tbl w0 k0 -> w0 = u ++ [c] -> parting c -> k0 = TSemicolon) as SP.
  { intros tbl C w0 k0 u c (s & I & ->) E P. rewrite forallb_forall in C. apply C in I. cbn [fst snd] in I. rewrite E, last_last in I.
    apply orb_true_iff in I as [I|I]; [|apply tkind_eqb_eq; exact I]. exfalso. apply negb_true_iff in I.
    destruct P as [P|P]; unfold space in P; cbn [In] in P; repeat destruct P as [P|P]; try subst c; try discriminate; contradiction. }
  assert (forall c, parting c -> ~ digit c) as ND by (intros c [S|S]; unfold space, digit in *; cbn [In] in S; lia).
  assert (forall c, parting c -> ~ idchar c) as NI by (intros c [S|S]; unfold space, idchar, nondigit, letter, digit in *; cbn [In] in S; lia).
  assert (forall c, parting c -> c <> squote /\ c <> dquote /\ c <> slash /\ c <> dot) as NQ by (intros c [S|S]; unfold space, squote, dquote, slash, dot in *; cbn [In] in S; lia).
  intros L u c E P. destruct L as [k w S|k w S|x b C F R|b Q|b Q|d NE F|d f e NE F X Y Z|b F|x X|]; auto.
  - right. eapply SP; [|exact S|exact E|exact P]. reflexivity.
  - right. eapply SP; [|exact S|exact E|exact P]. reflexivity.
  - exfalso. apply (NI c P). eapply (FA idchar (x :: b)); eauto. constructor; [unfold idchar; auto|exact F].
  - exfalso. apply (TL (squote :: b)) in E. symmetry in E. apply NQ in P. tauto.
  - exfalso. apply (TL (dquote :: b)) in E. symmetry in E. apply NQ in P. tauto.
  - exfalso. apply (ND c P). eapply FA; eauto.
  - exfalso. destruct Y as [->|(m & sg & g & M & SG & FG & ->)].
    + rewrite app_nil_r in E. assert (digit c \/ c = dot) as K.
      { revert E. eapply (FA (fun c => digit c \/ c = dot)). apply Forall_app. split; [eapply Forall_impl; [|exact F]; auto|].
        destruct X as [->|(g & FG & ->)]; [constructor|]. constructor; [auto|]. eapply Forall_impl; [|exact FG]; auto. }
      destruct K as [K|K]; [exact (ND c P K)|apply NQ in P; tauto].
    + rewrite app_assoc in E. destruct (@exists_last _ (m :: sg ++ g)) as (l & z & EL); [discriminate|]. rewrite EL, app_assoc in E. apply TL in E. subst z.
      assert (exp_mark c \/ SpecLex.sign c \/ digit c) as K.
      { eapply (FA (fun c => exp_mark c \/ SpecLex.sign c \/ digit c)); [|exact EL].
        constructor; [auto|]. apply Forall_app. split; [|eapply Forall_impl; [|exact FG]; auto].
        destruct SG as [->|(y & Y & ->)]; [constructor|]. constructor; auto. }
      revert K P. clear. unfold exp_mark, SpecLex.sign, digit, parting, space. cbn [In]. lia.
  - exfalso. replace (slash :: star :: x ++ [star; slash]) with ((slash :: star :: x ++ [star]) ++ [slash]) in E by (cbn [app]; rewrite <- app_assoc; reflexivity).
    apply TL in E. symmetry in E. apply NQ in P. tauto.
  - exfalso. apply (TL [slash; star] slash) in E. symmetry in E. apply NQ in P. tauto.
Qed.
Lemma walks_any a i r : walks a i r -> (exists u c, a = u ++ [c] /\ parting c) -> (exists c v, r = c :: v /\ ~ space c) -> forall r', walks a i r'.
Proof.
  induction 1 as [R|c r its R S W IH|k w r its R X F W IH]; intros (u & z & E & Z) NS r'; [constructor| |].
  - constructor; auto. destruct u as [|y u]; cbn [app] in E; injection E as E1 E2; [subst r; inversion W; subst; [constructor|]|apply IH; auto; exists u, z; auto].
    exfalso. match goal with H : lexeme _ _, E : _ ++ _ = [] |- _ => apply app_eq_nil in E as [E _]; subst; apply lexeme_starts in H as (? & ? & H & _); discriminate end.
  - destruct r as [|y r0].
    + rewrite app_nil_r in E. constructor; auto; [|inversion W; subst; [constructor|]].
      * cbn [app] in *. destruct (lexeme_end _ _ X u z E Z) as [->| ->]; [|exact Logic.I]. cbn [follow_ok] in F. exfalso. destruct NS as (c & v & -> & NS).
        destruct F as [F|(c' & v' & F & NL)]; [discriminate|]. injection F as <- <-. apply NS. unfold newline_char, space in *. cbn [In]. lia.
      * exfalso. match goal with H : lexeme _ _, E : _ ++ _ = [] |- _ => apply app_eq_nil in E as [E _]; subst; apply lexeme_starts in H as (? & ? & H & _); discriminate end.
    + constructor; auto; [apply follow_app; [discriminate|]; eapply follow_cut; [discriminate|exact F]|]. apply IH; auto.
      destruct (@exists_last _ (y :: r0)) as (v & q & EV); [discriminate|]. rewrite EV in E. rewrite app_assoc in E. apply app_inj_tail in E as [_ <-]. exists v, q. auto.
Qed.
(** ** Places *)
Lemma lexes_skip sp : Forall space sp -> forall r its, lexes (sp ++ r) its -> lexes r its.
Proof.
  induction 1 as [|c sp S _ IH]; intros r its L; [exact L|]. cbn [app] in L. apply IH. inversion L as [|? ? ? S' L'|k w r0 its0 X F L' E]; subst; [exact L'|].
  exfalso. apply lexeme_starts in X as (y & b & -> & NS). cbn [app] in E. injection E as -> _. contradiction.
Qed.
Lemma lexes_first k w r its : lexes (w ++ r) ((k, w) :: its) -> lexeme k w -> follow_ok k w r /\ lexes r its.
Proof.
  intros L X. apply lexeme_starts in X as (y & b & E & NS). inversion L as [|? ? ? S' L' E'|k0 w0 r0 its0 X0 F0 L0 E']; subst.
  - cbn [app] in E'. injection E' as -> _. contradiction.
  - apply app_inv_head in E'. subst. auto.
Qed.
Lemma walks_spaces sp r : Forall space sp -> walks sp [] r.
Proof. induction 1; constructor; auto. Qed.
Lemma walks_before sp a i r : Forall space sp -> walks a i r -> walks (sp ++ a) i r.
Proof. induction 1; intro W; [exact W|]. cbn [app]. constructor; auto. Qed.

Lemma lexes_head s k w its : lexes s ((k, w) :: its) -> lexeme k w.
Proof. intro L. remember ((k, w) :: its) as l eqn:E. revert k w its E. induction L; intros k0 w0 its0 E; [discriminate|eauto|]. injection E as -> -> ->. assumption. Qed.
Lemma cut_before a : forall c n t b r, set_out c n (a ++ t :: b) r -> lexes r (map item_of (a ++ t :: b)) ->
  exists ra rb, r = ra ++ ttext t ++ rb /\ walks ra (map item_of a) (ttext t ++ rb) /\ lexeme (tkind_of t) (ttext t) /\ lexes rb (map item_of b) /\
    set_out c n a ra /\ set_out (c ++ ra ++ ttext t) (S (n + length a)) b rb /\
    pos (tstart t) = bytes_of (c ++ ra) /\ pos (tend t) = bytes_of (c ++ ra ++ ttext t) /\
    coords_after (c ++ ra) (tstart t) /\ coords_after (c ++ ra ++ ttext t) (tend t) /\ tidx t = N.of_nat (n + length a).
Proof.
  induction a as [|t1 a IH]; intros c n t b r S L; cbn [app] in S; apply set_out_inv in S as (sp & r2 & -> & SP & A1 & A2 & A3 & A4 & A5 & S); cbn [app map] in L;
    apply (lexes_skip sp SP) in L; pose proof (lexes_head _ _ _ _ L) as X; pose proof (lexes_first _ _ _ _ L X) as [F L'].
  - exists sp, r2. split; [reflexivity|]. split; [apply walks_spaces, SP|]. split; [exact X|]. split; [exact L'|]. split; [constructor; exact SP|].
    cbn [length]. rewrite Nat.add_0_r. auto 8.
  - destruct (IH _ _ _ _ _ S L') as (ra & rb & -> & W & XT & LT & S1 & S2 & P1 & P2 & C1 & C2 & IX).
    exists (sp ++ ttext t1 ++ ra), rb. rewrite <- !app_assoc in *. split; [reflexivity|]. split.
    { apply walks_before; [exact SP|]. cbn [map]. unfold item_of at 1. constructor; auto. }
    split; [exact XT|]. split; [exact LT|]. split; [constructor; auto|].
    cbn [length]. rewrite Nat.add_succ_r, <- Nat.add_succ_l. auto 8.
Qed.
Lemma walks_more a i r b : walks a i r -> r <> [] -> walks a i (r ++ b).
Proof.
  induction 1 as [R|c r its R S W IH|k w r its R X F W IH]; intro N; [constructor|constructor; auto|]. constructor; auto.
  rewrite app_assoc. apply follow_app; auto. intro E. apply app_eq_nil in E as [_ E]. contradiction.
Qed.
Lemma walks_append a i x j r : walks a i (x ++ r) -> walks x j r -> walks (a ++ x) (i ++ j) r.
Proof.
  intros W X. remember (x ++ r) as R eqn:E. induction W as [R|c r0 its R S W IH|k w r0 its R L F W IH]; cbn [app]; subst; [exact X|constructor; auto|].
  rewrite <- app_assoc. constructor; auto. rewrite <- app_assoc. exact F.
Qed.
(** Where the items of a text end. *)
Lemma walks_end a i r : walks a i r -> forall a' r', walks a' i r' -> a ++ r = a' ++ r' ->
  (exists c v, r = c :: v /\ ~ space c) -> (exists c v, r' = c :: v /\ ~ space c) -> a = a'.
Proof.
  assert (forall x y, walks x [] y -> Forall space x) as SP.
  { clear. intros x y W. remember [] as j eqn:E. induction W; [constructor|constructor; auto|discriminate]. }
  assert (forall a b r r' : text, Forall space a -> Forall space b -> a ++ r = b ++ r' -> (exists c v, r = c :: v /\ ~ space c) -> (exists c v, r' = c :: v /\ ~ space c) -> a = b) as EQ.
  { clear. intros x y z z' A B E N N'. eapply spaces_prefix in E; eauto. apply E. }
  induction 1 as [R|c r its R S W IH|k w r its R X F W IH]; intros a' r' W' E N N'.
  - apply (EQ [] a' R r'); auto. eapply SP; eauto.
  - destruct W' as [R'|c' r1 its' R' S' W'|k w r1 its' R' X' F' W'].
    + apply (EQ (c :: r) [] R R'); auto. constructor; auto. eapply SP; eauto.
    + cbn [app] in E. injection E as -> E. f_equal. apply (IH r1 R'); auto.
    + exfalso. apply lexeme_starts in X' as (y & b & -> & NS). cbn [app] in E. injection E as -> _. contradiction.
  - remember ((k, w) :: its) as i eqn:EI. destruct W' as [R'|c' r1 its' R' S' W'|k' w' r1 its' R' X' F' W'].
    + discriminate.
    + exfalso. apply lexeme_starts in X as (y & b & -> & NS). cbn [app] in E. injection E as -> _. contradiction.
    + injection EI as -> -> ->. rewrite <- !app_assoc in E. apply app_inv_head in E. f_equal. apply (IH r1 R'); auto.
Qed.
Lemma prefix_eq (a a' b b' : text) : a ++ b = a' ++ b' -> bytes_of a = bytes_of a' -> a = a' /\ b = b'.
Proof.
  intros E L. pose proof (take_bytes_app a b) as T. rewrite E, L, take_bytes_app in T. injection T as <-. split; [reflexivity|]. apply app_inv_head in E. exact E.
Qed.
(** The same items, in the same text, at another place. *)
Lemma forall2_imp {A B} (P Q : A -> B -> Prop) l l' : (forall x y, P x y -> Q x y) -> Forall2 P l l' -> Forall2 Q l l'.
Proof. induction 2; constructor; auto. Qed.
Lemma set_out_moved c n a r : set_out c n a r -> forall c' n' a', set_out c' n' a' r -> map item_of a = map item_of a' ->
  Forall (fun t => exists k, lexeme k (ttext t)) a ->
  Forall2 (fun t t' => ttext t' = ttext t /\ tkind_of t' = tkind_of t /\ line (tstart t') + newlines c = line (tstart t) + newlines c' /\
    line (tend t') + newlines c = line (tend t) + newlines c' /\ tidx t' + N.of_nat n = tidx t + N.of_nat n' /\ N.of_nat n <= tidx t /\ N.of_nat n' <= tidx t') a a'.
Proof.
  induction 1 as [c n sp S|c n sp t its r S A1 A2 A3 A4 A5 L IH]; intros c' n' b B M X; destruct b as [|t' its']; try discriminate; [constructor|].
  apply set_out_inv in B as (sp' & r2 & E & S' & B1 & B2 & B3 & B4 & B5 & L').
  assert (item_of t = item_of t') as IT by (cbn [map] in M; congruence). apply (f_equal (@List.tl _)) in M. cbn [map List.tl] in M.
  assert (ttext t' = ttext t /\ tkind_of t' = tkind_of t) as [T1 T2] by (unfold item_of in IT; split; congruence).
  inversion X as [|? ? [k LX] X']; subst. rewrite T1 in *. apply lexeme_starts in LX as (x & y & EX & NX).
  apply spaces_prefix in E as [-> E2]; auto; try (rewrite EX; cbn [app]; eauto). apply app_inv_head in E2. subst r2.
  unfold coords_after in *. rewrite !newlines_app in *. constructor.
  - split; [exact T1|]. split; [exact T2|]. destruct A1, A3, B1, B3. lia.
  - specialize (IH _ _ _ L' M X'). eapply forall2_imp; [|exact IH]. cbn beta. intros u u' (U1 & U2 & U3 & U4 & U5 & U6 & U7).
    rewrite !newlines_app in *. repeat split; auto; lia.
Qed.
