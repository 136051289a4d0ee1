(** Runs of the parser: the events of a run are the flattening of a forest whose leaves
    are the consumed tokens; error-free runs described without events, guard and fuel. *)
From Verif Require Import ProofBase Tokens Syntax Lexer ParserCore Tree.

(** Forests and their events. *)
Fixpoint flat (c : child) : list event :=
  match c with
  | CTok _ => [Advance]
  | CTree k cs => Enter k :: flat_map flat cs ++ [Exit]
  end.
Definition flats (cs : list child) : list event := flat_map flat cs.

Fixpoint leaves (c : child) : list token :=
  match c with CTok t => [t] | CTree _ cs => flat_map leaves cs end.
Definition yield (cs : list child) : list token := flat_map leaves cs.

Lemma flats_app a b : flats (a ++ b) = flats a ++ flats b.
Proof. apply flat_map_app. Qed.
Lemma yield_app a b : yield (a ++ b) = yield a ++ yield b.
Proof. apply flat_map_app. Qed.

Section ChildInd.
Variable P : child -> Prop.
Hypothesis Htok : forall t, P (CTok t).
Hypothesis Htree : forall k cs, Forall P cs -> P (CTree k cs).
Fixpoint child_ind2 (c : child) : P c :=
  match c with
  | CTok t => Htok t
  | CTree k cs =>
      Htree k cs ((fix all (l : list child) : Forall P l :=
        match l with
        | [] => Forall_nil P
        | c' :: l' => Forall_cons c' (child_ind2 c') (all l')
        end) cs)
  end.
End ChildInd.

(** Conditions, as a function of the remaining tokens. *)
Fixpoint ceval (reg : tkind) (c : cond) (ts : list token) : bool * list child * list token :=
  match c with
  | CNth n l => (memk (kind_at ts n) l, [], ts)
  | CReg l => (memk reg l, [], ts)
  | CConsume t =>
      match ts with
      | x :: r => if tkind_eqb (tkind_of x) t then (true, [CTok x], r) else (false, [], ts)
      | [] => (false, [], ts)
      end
  | CEof => (match ts with [] => true | _ => false end, [], ts)
  | CNot c => let '(b, cs, r) := ceval reg c ts in (negb b, cs, r)
  | CAnd a b =>
      let '(x, cs, r) := ceval reg a ts in
      if x : bool then let '(y, cs', r') := ceval reg b r in (y, cs ++ cs', r')
      else (false, cs, r)
  | COr a b =>
      let '(x, cs, r) := ceval reg a ts in
      if x : bool then (true, cs, r)
      else let '(y, cs', r') := ceval reg b r in (y, cs ++ cs', r')
  end.

Section Sem.
Variable body : skind -> stmt.

(** Error-free runs. *)
Inductive okr : tkind -> stmt -> list token -> signal -> list child -> list token -> Prop :=
| ok_skip reg ts : okr reg SSkip ts Normal [] ts
| ok_seq reg a b ts c1 t1 g c2 t2 :
    okr reg a ts Normal c1 t1 -> okr reg b t1 g c2 t2 -> okr reg (SSeq a b) ts g (c1 ++ c2) t2
| ok_seq_broke reg a b ts c1 t1 :
    okr reg a ts Broke c1 t1 -> okr reg (SSeq a b) ts Broke c1 t1
| ok_do reg c ts b cs r : ceval reg c ts = (b, cs, r) -> okr reg (SDo c) ts Normal cs r
| ok_expect reg x ts : okr reg (SExpect (tkind_of x)) (x :: ts) Normal [CTok x] ts
| ok_advance reg x ts : okr reg SAdvance (x :: ts) Normal [CTok x] ts
| ok_call reg k ts g cs r : okr TEOF (body k) ts g cs r -> okr reg (SCall k) ts Normal [CTree k cs] r
| ok_if reg c a b ts x c1 t1 g c2 t2 :
    ceval reg c ts = (x, c1, t1) -> okr reg (if x : bool then a else b) t1 g c2 t2 ->
    okr reg (SIf c a b) ts g (c1 ++ c2) t2
| ok_while_end reg c a ts c1 t1 :
    ceval reg c ts = (false, c1, t1) -> okr reg (SWhile c a) ts Normal c1 t1
| ok_while_broke reg c a ts c1 t1 c2 t2 :
    ceval reg c ts = (true, c1, t1) -> okr reg a t1 Broke c2 t2 ->
    okr reg (SWhile c a) ts Normal (c1 ++ c2) t2
| ok_while reg c a ts c1 t1 c2 t2 c3 t3 :
    ceval reg c ts = (true, c1, t1) -> okr reg a t1 Normal c2 t2 ->
    okr reg (SWhile c a) t2 Normal c3 t3 ->
    okr reg (SWhile c a) ts Normal (c1 ++ c2 ++ c3) t3
| ok_let reg n a ts g cs r : okr (kind_at ts n) a ts g cs r -> okr reg (SLet n a) ts g cs r
| ok_break reg ts : okr reg SBreak ts Broke [] ts.

(** Equations of the interpreter. *)
Lemma exec_skip n reg p : exec body (S n) reg SSkip p = Ok (Normal, p).
Proof. reflexivity. Qed.
Lemma exec_seq n reg a b p :
  exec body (S n) reg (SSeq a b) p =
  ('(g, p) <- exec body (S n) reg a p ;;
   match g with Normal => exec body (S n) reg b p | Broke => Ok (Broke, p) end).
Proof. reflexivity. Qed.
Lemma exec_do n reg c p :
  exec body (S n) reg (SDo c) p = ('(_, p) <- eval reg c p ;; Ok (Normal, p)).
Proof. reflexivity. Qed.
Lemma exec_expect n reg t p :
  exec body (S n) reg (SExpect t) p = (p <- p_expect t p ;; Ok (Normal, p)).
Proof. reflexivity. Qed.
Lemma exec_advance n reg p :
  exec body (S n) reg SAdvance p = (p <- p_advance p ;; Ok (Normal, p)).
Proof. reflexivity. Qed.
Lemma exec_adverr n reg pre m post p :
  exec body (S n) reg (SAdvErr pre m post) p =
  ('(k, p) <- p_nth m p ;;
   p <- p_advance_with_error (str pre ++ str (tkind_debug k) ++ str post) p ;;
   Ok (Normal, p)).
Proof. reflexivity. Qed.
Lemma exec_call n reg k p :
  exec body (S n) reg (SCall k) p =
  (let '(m, p) := p_enter p in
   '(_, p) <- exec body n TEOF (body k) p ;; Ok (Normal, p_exit m k p)).
Proof. reflexivity. Qed.
Lemma exec_if n reg c a b p :
  exec body (S n) reg (SIf c a b) p =
  ('(x, p) <- eval reg c p ;;
   if x : bool then exec body (S n) reg a p else exec body (S n) reg b p).
Proof. reflexivity. Qed.
Lemma exec_while n reg c a p :
  exec body (S n) reg (SWhile c a) p =
  ('(x, p) <- eval reg c p ;;
   if x : bool then
     '(g, p) <- exec body (S n) reg a p ;;
     match g with Normal => exec body n reg (SWhile c a) p | Broke => Ok (Normal, p) end
   else Ok (Normal, p)).
Proof. reflexivity. Qed.
Lemma exec_let n reg m a p :
  exec body (S n) reg (SLet m a) p = ('(k, p) <- p_nth m p ;; exec body (S n) k a p).
Proof. reflexivity. Qed.
Lemma exec_break n reg p : exec body (S n) reg SBreak p = Ok (Broke, p).
Proof. reflexivity. Qed.

(** What a completed run did: events [es], tokens [ts], errors [er]. *)
Record did (p p' : pstate) (cs : list child) (er : list err) : Prop := mkDid {
  did_ev : pevents p' = rev (flats cs) ++ pevents p;
  did_rest : prest p = yield cs ++ prest p';
  did_toks : ptoks p' = ptoks p;
  did_lim : plimit p' = plimit p;
  did_err : perrs p' = er ++ perrs p
}.

Lemma did_refl p : did p p [] [].
Proof. split; auto. Qed.

Lemma did_trans p p1 p2 cs1 cs2 e1 e2 :
  did p p1 cs1 e1 -> did p1 p2 cs2 e2 -> did p p2 (cs1 ++ cs2) (e2 ++ e1).
Proof.
  intros [a1 a2 a3 a4 a5] [b1 b2 b3 b4 b5]; split; try congruence.
  - rewrite b1, a1, flats_app, rev_app_distr, app_assoc. reflexivity.
  - rewrite a2, b2, yield_app, app_assoc. reflexivity.
  - rewrite b5, a5, app_assoc. reflexivity.
Qed.

Lemma bind_ok {A B} (r : res A) (f : A -> res B) b :
  bind r f = Ok b -> exists a, r = Ok a /\ f a = Ok b.
Proof. destruct r; simpl; try discriminate. eauto. Qed.

Lemma p_nth_did n p k p' :
  p_nth n p = Ok (k, p') -> did p p' [] [] /\ k = kind_at (prest p) n /\ prest p' = prest p.
Proof.
  unfold p_nth. destruct (plifes p =? 0); try discriminate.
  intro H; inversion H; subst. repeat split; reflexivity.
Qed.

Lemma p_advance_did p p' :
  p_advance p = Ok p' -> exists x, prest p = x :: prest p' /\ did p p' [CTok x] [].
Proof.
  unfold p_advance. destruct (prest p) as [|x r] eqn:E; try discriminate.
  intro H; inversion H; subst. exists x. simpl. repeat split; auto.
Qed.

Lemma p_error_did msg p p' :
  p_error msg p = Ok p' ->
  prest p' = prest p /\ plifes p' = plifes p /\
  exists t, did p p' [] [mkErr (line (tstart t)) (col (tstart t)) msg] /\
            match prest p with x :: _ => t = x | [] => exists l, ptoks p = l ++ [t] end.
Proof.
  unfold p_error. destruct (prest p) as [|x r] eqn:E.
  - destruct (rev (ptoks p)) as [|t l] eqn:E2; try discriminate.
    intro H; inversion H; subst. simpl. rewrite E. split; auto. split; auto. exists t.
    split; [split; simpl; auto|]. exists (rev l).
    rewrite <- (rev_involutive (ptoks p)), E2. reflexivity.
  - intro H; inversion H; subst. simpl. rewrite E. split; auto. split; auto. exists x.
    split; [split; simpl; auto|reflexivity].
Qed.

Lemma patch_mid es e x old :
  patch (length es) e (es ++ x :: old) = es ++ e :: old.
Proof. induction es; simpl; congruence. Qed.

Lemma enter_exit_did p p' m q k cs er :
  p_enter p = (m, q) -> did q p' cs er -> did p (p_exit m k p') [CTree k cs] er.
Proof.
  unfold p_enter. intro H; inversion H; subst. intros [a1 a2 a3 a4 a5]. simpl in *.
  split; simpl; auto.
  - rewrite a1. change (rev (flats cs) ++ Enter KError :: pevents p)
      with (rev (flats cs) ++ [Enter KError] ++ pevents p).
    rewrite app_length. simpl.
    replace (length (rev (flats cs)) + S (length (pevents p)) - 1 - length (pevents p))%nat
      with (length (rev (flats cs))) by lia.
    rewrite patch_mid, app_nil_r, rev_app_distr. simpl.
    rewrite <- app_assoc. reflexivity.
  - rewrite app_nil_r. exact a2.
Qed.

Lemma p_adverr_did msg p p' :
  p_advance_with_error msg p = Ok p' ->
  exists x, prest p = x :: prest p' /\
    did p p' [CTree KError [CTok x]] [mkErr (line (tstart x)) (col (tstart x)) msg].
Proof.
  unfold p_advance_with_error. intro H. apply bind_ok in H as [q [H1 H2]].
  apply p_error_did in H1 as [R [_ [t [D T]]]].
  destruct (p_enter q) as [m q2] eqn:E. apply bind_ok in H2 as [q3 [H2 H3]].
  apply p_advance_did in H2 as [x [X D2]].
  inversion H3; subst. unfold p_enter in E.
  assert (prest q2 = prest q) by (inversion E; reflexivity).
  assert (A : prest p = x :: prest q3) by congruence.
  exists x. split.
  - rewrite A. reflexivity.
  - rewrite A in T. subst t.
    pose proof (enter_exit_did q q3 m q2 KError [CTok x] [] E D2) as D3.
    exact (did_trans _ _ _ _ _ _ _ D D3).
Qed.

Lemma kind_at_0 ts : kind_at ts 0 = match ts with x :: _ => tkind_of x | [] => TEOF end.
Proof. destruct ts; reflexivity. Qed.

Lemma p_consume_did t p b p' :
  p_consume t p = Ok (b, p') ->
  exists cs, ceval TEOF (CConsume t) (prest p) = (b, cs, prest p') /\ did p p' cs [].
Proof.
  unfold p_consume. intro H. apply bind_ok in H as [[k q] [H1 H2]].
  apply p_nth_did in H1 as [D [-> R]]. rewrite kind_at_0 in H2.
  destruct (tkind_eqb (match prest p with [] => TEOF | x :: _ => tkind_of x end) t) eqn:E.
  - apply bind_ok in H2 as [q2 [H2 H3]]. inversion H3; subst.
    apply p_advance_did in H2 as [x [X D2]]. exists [CTok x].
    rewrite R in X. simpl. rewrite X in *. rewrite E. split; auto.
    exact (did_trans _ _ _ _ _ _ _ D D2).
  - inversion H2; subst. exists []. split; auto. simpl. rewrite <- R in *.
    destruct (prest p'); auto. rewrite E. reflexivity.
Qed.

Lemma eval_did reg c p b p' :
  eval reg c p = Ok (b, p') ->
  exists cs, ceval reg c (prest p) = (b, cs, prest p') /\ did p p' cs [].
Proof.
  revert p b p'; induction c; intros p b0 p' H; simpl in H.
  - apply bind_ok in H as [[k q] [H1 H2]]. inversion H2; subst.
    apply p_nth_did in H1 as [D [-> R]]. exists []. simpl. rewrite R. auto.
  - inversion H; subst. exists []. split; auto using did_refl.
  - apply p_consume_did in H. exact H.
  - inversion H; subst. exists []. split; auto using did_refl.
  - apply bind_ok in H as [[k q] [H1 H2]]. inversion H2; subst.
    apply IHc in H1 as [cs [H1 D]]. exists cs. simpl. rewrite H1. auto.
  - apply bind_ok in H as [[x q] [H1 H2]]. apply IHc1 in H1 as [cs [H1 D]].
    destruct x.
    + apply IHc2 in H2 as [cs2 [H2 D2]]. exists (cs ++ cs2). simpl. rewrite H1, H2.
      split; auto. exact (did_trans _ _ _ _ _ _ _ D D2).
    + inversion H2; subst. exists cs. simpl. rewrite H1. auto.
  - apply bind_ok in H as [[x q] [H1 H2]]. apply IHc1 in H1 as [cs [H1 D]].
    destruct x.
    + inversion H2; subst. exists cs. simpl. rewrite H1. auto.
    + apply IHc2 in H2 as [cs2 [H2 D2]]. exists (cs ++ cs2). simpl. rewrite H1, H2.
      split; auto. exact (did_trans _ _ _ _ _ _ _ D D2).
Qed.

(** Every completed run produces a forest; if it reported no error it is an [okr] run. *)
Lemma exec_did fuel reg s p g p' :
  exec body fuel reg s p = Ok (g, p') ->
  exists cs er, did p p' cs er /\ (er = [] -> okr reg s (prest p) g cs (prest p')).
Proof.
  revert reg s p g p'. induction fuel as [|n IHn]; [discriminate|].
  intros reg s; revert reg; induction s; intros reg p g p' H.
  - rewrite exec_skip in H. inversion H; subst. exists [], [].
    split; auto using did_refl, ok_skip.
  - rewrite exec_seq in H. apply bind_ok in H as [[g1 p1] [H1 H2]].
    apply IHs1 in H1 as (cs1 & e1 & D1 & O1). destruct g1.
    + apply IHs2 in H2 as (cs2 & e2 & D2 & O2).
      exists (cs1 ++ cs2), (e2 ++ e1). split. { exact (did_trans _ _ _ _ _ _ _ D1 D2). }
      intro E; apply app_eq_nil in E as [E2 E1]. eapply ok_seq; auto.
    + inversion H2; subst. exists cs1, e1. split; auto. intro; apply ok_seq_broke; auto.
  - rewrite exec_do in H. apply bind_ok in H as [[b q] [H1 H2]]. inversion H2; subst.
    apply eval_did in H1 as [cs [H1 D]]. exists cs, []. split; auto. intro.
    eapply ok_do; eauto.
  - rewrite exec_expect in H. apply bind_ok in H as [q [H1 H2]]. inversion H2; subst.
    unfold p_expect in H1. apply bind_ok in H1 as [[b q] [H1 H3]].
    apply p_consume_did in H1 as [cs [H1 D]]. destruct b.
    + inversion H3; subst. exists cs, []. split; auto. intros _.
      simpl in H1. destruct (prest p) as [|x r]; [discriminate|].
      destruct (tkind_eqb (tkind_of x) t) eqn:E; [|discriminate].
      apply tkind_eqb_eq in E. inversion H1; subst. apply ok_expect.
    + apply bind_ok in H3 as [[k q2] [H3 H4]]. apply p_nth_did in H3 as [D2 _].
      apply p_error_did in H4 as (_ & _ & t0 & D3 & _).
      eexists. eexists.
      split; [exact (did_trans _ _ _ _ _ _ _ D (did_trans _ _ _ _ _ _ _ D2 D3))|discriminate].
  - rewrite exec_advance in H. apply bind_ok in H as [q [H1 H2]]. inversion H2; subst.
    apply p_advance_did in H1 as [x [X D]]. exists [CTok x], []. split; auto. intros _.
    rewrite X. apply ok_advance.
  - rewrite exec_adverr in H. apply bind_ok in H as [[k q] [H1 H2]].
    apply bind_ok in H2 as [q2 [H2 H3]]. inversion H3; subst.
    apply p_nth_did in H1 as [D _]. apply p_adverr_did in H2 as [x [X D2]].
    eexists. eexists. split; [exact (did_trans _ _ _ _ _ _ _ D D2)|discriminate].
  - rewrite exec_call in H. destruct (p_enter p) as [m q] eqn:E.
    apply bind_ok in H as [[g1 q1] [H1 H2]]. inversion H2; subst.
    apply IHn in H1 as (cs & er & D & O).
    pose proof (enter_exit_did _ _ _ _ k _ _ E D) as D2.
    exists [CTree k cs], er. split; auto. intro Z. apply ok_call with g1.
    apply O in Z. unfold p_enter in E. inversion E; subst. exact Z.
  - rewrite exec_if in H. apply bind_ok in H as [[b q] [H1 H2]].
    apply eval_did in H1 as [cs [H1 D]].
    assert (exists cs er, did q p' cs er /\
             (er = [] -> okr reg (if b then s1 else s2) (prest q) g cs (prest p')))
      as (cs2 & e2 & D2 & O2) by (destruct b; auto).
    exists (cs ++ cs2), (e2 ++ []). split. { exact (did_trans _ _ _ _ _ _ _ D D2). }
    rewrite app_nil_r. intro. eapply ok_if; eauto.
  - rewrite exec_while in H. apply bind_ok in H as [[b q] [H1 H2]].
    apply eval_did in H1 as [cs [H1 D]]. destruct b.
    + apply bind_ok in H2 as [[g1 q1] [H2 H3]]. apply IHs in H2 as (cs2 & e2 & D2 & O2).
      destruct g1.
      * pose proof H3 as H3'. apply IHn in H3 as (cs3 & e3 & D3 & O3).
        exists (cs ++ cs2 ++ cs3), ((e3 ++ e2) ++ []).
        split. { exact (did_trans _ _ _ _ _ _ _ D (did_trans _ _ _ _ _ _ _ D2 D3)). }
        rewrite app_nil_r. intro Z. apply app_eq_nil in Z as [Z3 Z2].
        assert (g = Normal).
        { apply O3 in Z3. inversion Z3; reflexivity. }
        subst g. eapply ok_while; eauto.
      * inversion H3; subst. exists (cs ++ cs2), (e2 ++ []).
        split. { exact (did_trans _ _ _ _ _ _ _ D D2). }
        rewrite app_nil_r. intro. eapply ok_while_broke; eauto.
    + inversion H2; subst. exists cs, []. split; auto. intro. apply ok_while_end; auto.
  - rewrite exec_let in H. apply bind_ok in H as [[k q] [H1 H2]].
    apply p_nth_did in H1 as [D [-> R]]. apply IHs in H2 as (cs & er & D2 & O).
    exists cs, (er ++ []). split. { exact (did_trans _ _ _ _ _ _ _ D D2). }
    rewrite app_nil_r. intro Z. apply ok_let. rewrite R in O. auto.
  - rewrite exec_break in H. inversion H; subst. exists [], [].
    split; auto using did_refl, ok_break.
Qed.

Lemma ceval_yield reg c ts b cs r : ceval reg c ts = (b, cs, r) -> ts = yield cs ++ r.
Proof.
  revert ts b cs r; induction c as [n l|l|t| |c IHc|c1 IHc1 c2 IHc2|c1 IHc1 c2 IHc2];
    intros ts b0 cs r H; simpl in H; try (inversion H; subst; reflexivity).
  - destruct ts as [|x l]; [inversion H; reflexivity|].
    destruct (tkind_eqb (tkind_of x) t); inversion H; reflexivity.
  - destruct (ceval reg c ts) as [[x l] r1] eqn:E. inversion H; subst; eauto.
  - destruct (ceval reg c1 ts) as [[x l] r1] eqn:E. apply IHc1 in E. destruct x.
    + destruct (ceval reg c2 r1) as [[y l2] r2] eqn:E2. apply IHc2 in E2.
      inversion H; subst. rewrite yield_app, app_assoc. reflexivity.
    + inversion H; subst. reflexivity.
  - destruct (ceval reg c1 ts) as [[x l] r1] eqn:E. apply IHc1 in E. destruct x.
    + inversion H; subst. reflexivity.
    + destruct (ceval reg c2 r1) as [[y l2] r2] eqn:E2. apply IHc2 in E2.
      inversion H; subst. rewrite yield_app, app_assoc. reflexivity.
Qed.

Lemma okr_yield reg s ts g cs r : okr reg s ts g cs r -> ts = yield cs ++ r.
Proof.
  induction 1; rewrite ?yield_app, <- ?app_assoc; simpl; auto.
  - subst; auto.
  - apply ceval_yield in H. auto.
  - rewrite app_nil_r. auto.
  - apply ceval_yield in H. subst; auto.
  - apply ceval_yield in H. subst; auto.
  - apply ceval_yield in H. subst; auto.
  - apply ceval_yield in H. subst; auto.
Qed.

End Sem.
