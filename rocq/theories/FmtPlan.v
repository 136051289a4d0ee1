(** The formatting functions as a plan: the list of operations they perform on the
    formatter. A plan does not look at the comments; carrying it out does. *)
From Verif Require Import ProofBase Tokens Syntax Lexer ParserCore Tree Printer Formatter ParserSem.

Inductive op :=
| PTok (fn : skind) (t : token)        (** [handle_token], called by the function for [fn] *)
| PBrk (t : token) (b : blank)         (** [handle_break] *)
| PMark (m : marker).

Definition do_op (o : op) (f : fstate) : res fstate :=
  match o with
  | PTok _ t => Ok (handle_token t f)
  | PBrk t b => handle_break t b f
  | PMark m => Ok (push m f)
  end.
Fixpoint do_ops (os : list op) (f : fstate) : res fstate :=
  match os with
  | [] => Ok f
  | o :: os' => f <- do_op o f ;; do_ops os' f
  end.

(** Previous token and its line after some operations. *)
Fixpoint pv_after (pv : tkind) (os : list op) : tkind :=
  match os with
  | [] => pv
  | PTok _ t :: os' => pv_after (tkind_of t) os'
  | _ :: os' => pv_after pv os'
  end.
Fixpoint ln_after (ln : N) (os : list op) : N :=
  match os with
  | [] => ln
  | PTok _ t :: os' => ln_after (line (tend t)) os'
  | _ :: os' => ln_after ln os'
  end.

Definition view_at (pv : tkind) (ln : N) (i : N) (c : child) (cs : list child) : view :=
  view_of (mkF [] [] pv ln) i c cs.

Lemma view_at_of f i c cs : view_of f i c cs = view_at (fprev f) (fline f) i c cs.
Proof. reflexivity. Qed.

(** One action on child [c] with later siblings [cs]; [rec] runs a function on [c]. *)
Definition plan_act (rec : skind -> bool -> bool -> bool -> tkind -> N -> res (bool * list op))
    (fn : skind) (c : child) (cs : list child) (a : action) (l : locals) (pv : tkind) (ln : N)
  : res (locals * list op) :=
  match a with
  | AMark m => Ok (l, [PMark m])
  | ABreak tg b =>
      tok <- unwrap (match tg with
                     | TSelf => start_of c
                     | TPeek => match cs with [] => None | p :: _ => start_of p end
                     end) ;;
      Ok (l, [PBrk tok b])
  | AHandle =>
      match c with
      | CTok tok => Ok (l, [PTok fn tok])
      | CTree _ _ => Panic PUnreachable
      end
  | ACall fn' ml' w' oel' keep =>
      '(r, os) <- rec fn' ml' w' oel' pv ln ;;
      Ok (if keep : bool then set_w r l else l, os)
  | APanic p => Panic p
  end.

Fixpoint plan_run (rec : skind -> bool -> bool -> bool -> tkind -> N -> res (bool * list op))
    (fn : skind) (c : child) (cs : list child) (acts : list action) (l : locals) (pv : tkind) (ln : N)
  : res (locals * list op) :=
  match acts with
  | [] => Ok (l, [])
  | a :: acts' =>
      '(l, os) <- plan_act rec fn c cs a l pv ln ;;
      '(l, os') <- plan_run rec fn c cs acts' l (pv_after pv os) (ln_after ln os) ;;
      Ok (l, os ++ os')
  end.

Fixpoint plan (fn : skind) (ml w oel : bool) (t : child) (pv : tkind) (ln : N) {struct t}
  : res (bool * list op) :=
  match t with
  | CTok _ => Panic PUnreachable
  | CTree _ cs =>
      '(ms, l) <- prologue fn ml w oel t cs ;;
      '(l, os) <-
        (fix loop (cs : list child) (i : N) (l : locals) (pv : tkind) (ln : N) {struct cs}
           : res (locals * list op) :=
           match cs with
           | [] => Ok (l, [])
           | c :: cs' =>
               let '(acts, l) := step fn l (view_at pv ln i c cs') in
               '(l, os) <- plan_run (fun fn ml w oel pv ln => plan fn ml w oel c pv ln)
                                    fn c cs' acts l pv ln ;;
               '(l, os') <- loop cs' (i + 1) l (pv_after pv os) (ln_after ln os) ;;
               Ok (l, os ++ os')
           end) cs 0 l pv ln ;;
      Ok (l_w l, map PMark ms ++ os ++ map PMark (epilogue fn l))
  end.

(** The same loops by name. *)
Fixpoint plan_loop (fn : skind) (cs : list child) (i : N) (l : locals) (pv : tkind) (ln : N)
  : res (locals * list op) :=
  match cs with
  | [] => Ok (l, [])
  | c :: cs' =>
      let '(acts, l) := step fn l (view_at pv ln i c cs') in
      '(l, os) <- plan_run (fun fn ml w oel pv ln => plan fn ml w oel c pv ln)
                           fn c cs' acts l pv ln ;;
      '(l, os') <- plan_loop fn cs' (i + 1) l (pv_after pv os) (ln_after ln os) ;;
      Ok (l, os ++ os')
  end.

Lemma plan_loop_cons fn c cs i l pv ln :
  plan_loop fn (c :: cs) i l pv ln =
  (let '(acts, l) := step fn l (view_at pv ln i c cs) in
   '(l, os) <- plan_run (fun fn ml w oel pv ln => plan fn ml w oel c pv ln) fn c cs acts l pv ln ;;
   '(l, os') <- plan_loop fn cs (i + 1) l (pv_after pv os) (ln_after ln os) ;;
   Ok (l, os ++ os')).
Proof. reflexivity. Qed.

Lemma plan_tree fn ml w oel k cs pv ln :
  plan fn ml w oel (CTree k cs) pv ln =
  ('(ms, l) <- prologue fn ml w oel (CTree k cs) cs ;;
   '(l, os) <- plan_loop fn cs 0 l pv ln ;;
   Ok (l_w l, map PMark ms ++ os ++ map PMark (epilogue fn l))).
Proof.
  unfold plan at 1. fold plan. destruct (prologue fn ml w oel (CTree k cs) cs) as [[ms l]| |]; auto.
  cbn [bind].
  match goal with |- bind (?L cs 0 l pv ln) _ = _ =>
    assert (forall cs i l pv ln, L cs i l pv ln = plan_loop fn cs i l pv ln) as K end.
  { clear. induction cs as [|c cs IH]; intros i l pv ln; [reflexivity|].
    cbn [plan_loop]. destruct (step fn l (view_at pv ln i c cs)) as [acts l'].
    match goal with |- bind ?X _ = bind ?Y _ => change Y with X; destruct X as [[l1 os]| |]; auto end.
    cbn [bind]. rewrite IH. reflexivity. }
  rewrite K. reflexivity.
Qed.

Fixpoint fmt_run (c : child) (cs : list child) (acts : list action) (l : locals) (f : fstate)
  : res (locals * fstate) :=
  match acts with
  | [] => Ok (l, f)
  | a :: acts' =>
      '(l, f) <-
        match a with
        | AMark m => Ok (l, push m f)
        | ABreak tg b =>
            tok <- unwrap
              (match tg with
               | TSelf => start_of c
               | TPeek => match cs with [] => None | p :: _ => start_of p end
               end) ;;
            f <- handle_break tok b f ;; Ok (l, f)
        | AHandle =>
            match c with
            | CTok tok => Ok (l, handle_token tok f)
            | CTree _ _ => Panic PUnreachable
            end
        | ACall fn' ml' w' oel' keep =>
            '(r, f) <- fmt fn' ml' w' oel' c f ;;
            Ok (if keep : bool then set_w r l else l, f)
        | APanic p => Panic p
        end ;;
      fmt_run c cs acts' l f
  end.

Fixpoint fmt_loop (fn : skind) (cs : list child) (i : N) (l : locals) (f : fstate)
  : res (locals * fstate) :=
  match cs with
  | [] => Ok (l, f)
  | c :: cs' =>
      let '(acts, l) := step fn l (view_of f i c cs') in
      '(l, f) <- fmt_run c cs' acts l f ;;
      fmt_loop fn cs' (i + 1) l f
  end.

Lemma fmt_tree fn ml w oel k cs f :
  fmt fn ml w oel (CTree k cs) f =
  ('(ms, l) <- prologue fn ml w oel (CTree k cs) cs ;;
   '(l, f) <- fmt_loop fn cs 0 l (push_all ms f) ;;
   Ok (l_w l, push_all (epilogue fn l) f)).
Proof.
  unfold fmt at 1. fold fmt. destruct (prologue fn ml w oel (CTree k cs) cs) as [[ms l]| |]; auto.
  cbn [bind].
  match goal with |- bind (?L cs 0 l _) _ = _ =>
    assert (forall cs i l f, L cs i l f = fmt_loop fn cs i l f) as K end.
  { clear. induction cs as [|c cs IH]; intros i l f; [reflexivity|].
    cbn [fmt_loop]. destruct (step fn l (view_of f i c cs)) as [acts l'].
    match goal with |- bind (?R acts l' f) _ = _ =>
      assert (forall acts l f, R acts l f = fmt_run c cs acts l f) as K2 end.
    { clear. induction acts as [|a acts IH]; intros l f; [reflexivity|].
      cbn [fmt_run]. match goal with |- bind ?X _ = _ => destruct X as [[l1 f1]| |] end; auto.
      apply IH. }
    rewrite K2. destruct (fmt_run c cs acts l' f) as [[l1 f1]| |]; auto. apply IH. }
  rewrite K. reflexivity.
Qed.

(** Carrying out operations. *)
Lemma do_ops_app a b f : do_ops (a ++ b) f = (f <- do_ops a f ;; do_ops b f).
Proof.
  revert f; induction a as [|o a IH]; intro f; [reflexivity|].
  cbn [app do_ops]. destruct (do_op o f); cbn [bind]; auto.
Qed.

Lemma handle_break_keeps t b f f' :
  handle_break t b f = Ok f' -> fprev f' = fprev f /\ fline f' = fline f.
Proof.
  unfold handle_break. destruct (comments_before _ _ _) as [[a c] r]. intro H.
  apply bind_ok in H as [[ms ln] [_ H]]. apply bind_ok in H as [ms' [_ H]].
  inversion H; subst; auto.
Qed.

Lemma do_ops_after os : forall f f',
  do_ops os f = Ok f' -> fprev f' = pv_after (fprev f) os /\ fline f' = ln_after (fline f) os.
Proof.
  induction os as [|o os IH]; intros f f' H; cbn [do_ops] in H.
  - inversion H; subst; auto.
  - apply bind_ok in H as [g [H1 H2]]. apply IH in H2 as [-> ->].
    destruct o; cbn [do_op] in H1; cbn [pv_after ln_after].
    + inversion H1; subst. unfold handle_token.
      destruct (comments_before _ _ _) as [[a c] r]. auto.
    + apply handle_break_keeps in H1 as [-> ->]; auto.
    + inversion H1; subst; auto.
Qed.

Lemma push_all_ops ms : forall f, do_ops (map PMark ms) f = Ok (push_all ms f).
Proof. induction ms as [|m ms IH]; intro f; [reflexivity|]. cbn. apply IH. Qed.

Lemma push_all_keeps ms : forall f,
  fprev (push_all ms f) = fprev f /\ fline (push_all ms f) = fline f.
Proof.
  induction ms as [|m ms IH]; intro f; [auto|].
  change (push_all (m :: ms) f) with (push_all ms (push m f)).
  destruct (IH (push m f)) as [-> ->]. auto.
Qed.

Lemma after_marks ms pv ln :
  pv_after pv (map PMark ms) = pv /\ ln_after ln (map PMark ms) = ln.
Proof. induction ms; cbn; auto. Qed.
Lemma pv_after_app a b pv : pv_after pv (a ++ b) = pv_after (pv_after pv a) b.
Proof. revert pv; induction a as [|[]]; intro; cbn; auto. Qed.
Lemma ln_after_app a b ln : ln_after ln (a ++ b) = ln_after (ln_after ln a) b.
Proof. revert ln; induction a as [|[]]; intro; cbn; auto. Qed.

(** A function that has a plan does exactly what the plan says. *)
Theorem plan_fmt t : forall fn ml w oel f r os,
  plan fn ml w oel t (fprev f) (fline f) = Ok (r, os) ->
  fmt fn ml w oel t f = (f' <- do_ops os f ;; Ok (r, f')).
Proof.
  induction t as [x|k cs IH] using child_ind2; intros fn ml w oel f r os H; [discriminate|].
  rewrite plan_tree in H. rewrite fmt_tree.
  apply bind_ok in H as [[ms l] [-> H]]. cbn [bind].
  apply bind_ok in H as [[l' os'] [H1 H2]]. inversion H2; subst; clear H2.
  rewrite do_ops_app, push_all_ops. cbn [bind].
  pose proof (push_all_keeps ms f) as [E1 E2]. rewrite <- E1, <- E2 in H1.
  remember (push_all ms f) as f0 eqn:E0. clear E0 E1 E2.
  assert (fmt_loop fn cs 0 l f0 = (f' <- do_ops os' f0 ;; Ok (l', f'))) as K.
  2:{ rewrite K, do_ops_app. destruct (do_ops os' f0) as [f1| |]; cbn [bind]; auto.
      rewrite push_all_ops. reflexivity. }
  clear f ml w oel ms k. revert IH l l' f0 os' H1. generalize 0 as i.
  induction cs as [|c cs IHcs]; intros i IH l l' f os H.
  - cbn [plan_loop] in H. inversion H; subst. reflexivity.
  - inversion IH as [|? ? IHc IH']; subst. cbn [plan_loop] in H. cbn [fmt_loop].
    rewrite view_at_of. destruct (step fn l (view_at (fprev f) (fline f) i c cs)) as [acts l1].
    apply bind_ok in H as [[l2 os1] [H1 H2]]. apply bind_ok in H2 as [[l3 os2] [H2 H3]].
    inversion H3; subst; clear H3.
    assert (fmt_run c cs acts l1 f = (f' <- do_ops os1 f ;; Ok (l2, f'))) as K.
    { clear H2 IH IH' IHcs. revert l1 f os1 H1. induction acts as [|a acts IHa]; intros l1 f os1 H1.
      - cbn [plan_run] in H1. inversion H1; subst. reflexivity.
      - cbn [plan_run] in H1. cbn [fmt_run].
        apply bind_ok in H1 as [[l4 os3] [H1 H2]]. apply bind_ok in H2 as [[l5 os4] [H2 H3]].
        inversion H3; subst; clear H3. rewrite do_ops_app.
        match goal with |- bind ?X _ = _ => assert (X = (f' <- do_ops os3 f ;; Ok (l4, f'))) as -> end.
        { destruct a as [m|tg b| |fn' ml' w' oel' keep|p]; cbn [plan_act] in H1.
          - inversion H1; subst. reflexivity.
          - apply bind_ok in H1 as [tok [-> H1]]. inversion H1; subst. cbn [bind do_ops do_op].
            destruct (handle_break tok b f); reflexivity.
          - destruct c; inversion H1; subst. reflexivity.
          - apply bind_ok in H1 as [[r1 os5] [H1 H3]]. inversion H3; subst.
            rewrite (IHc _ _ _ _ _ _ _ H1). destruct (do_ops os3 f); reflexivity.
          - discriminate. }
        destruct (do_ops os3 f) as [f1| |] eqn:E; cbn [bind]; auto.
        apply do_ops_after in E as [E1 E2]. rewrite <- E1, <- E2 in H2.
        apply (IHa _ _ _ H2). }
    rewrite K, do_ops_app. destruct (do_ops os1 f) as [f1| |] eqn:E; cbn [bind]; auto.
    apply do_ops_after in E as [E1 E2]. rewrite <- E1, <- E2 in H2.
    apply (IHcs _ IH' _ _ _ _ H2).
Qed.
