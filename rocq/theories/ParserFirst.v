(** The first syntax error: what has been read before it can be continued to a file without errors. *)
From Verif Require Import ProofBase Tokens Syntax Lexer ParserCore Grammar Tree ParserSem ParserFacts
  ParserTree SpecGrammar Regex Recognise ParserGrammar SpecLanguage ParserComplete SpecLex LexSpecProofs LexMain ParserFuel.

(** * Runs up to the first error or the end of the tokens *)
Section Halt.
Variable body : skind -> stmt.
(** [Some x]: the run is one that stops at an expected token, and [x] is put in its place. *)
Variable W : option token.
Definition wish (t : tkind) : Prop := match W with Some x => tkind_of x = t | None => True end.
Definition wished : list child := match W with Some x => [CTok x] | None => [] end.

(** [halt reg s ts cs r]: having read [cs], of which the last tree may be unfinished, the run meets
    its first error in front of [r], or [r] is empty. *)
Inductive halt : tkind -> stmt -> list token -> list child -> list token -> Prop :=
| h_empty reg s : halt reg s [] [] []
| h_seq1 reg a b ts cs r : halt reg a ts cs r -> halt reg (SSeq a b) ts cs r
| h_seq2 reg a b ts c1 t1 c2 r :
    okr body reg a ts Normal c1 t1 -> t1 <> [] -> halt reg b t1 c2 r -> halt reg (SSeq a b) ts (c1 ++ c2) r
| h_do reg c ts b cs : ceval reg c ts = (b, cs, []) -> halt reg (SDo c) ts cs []
| h_expect reg t ts : kind_at ts 0 <> t -> ts <> [] -> wish t -> halt reg (SExpect t) ts wished ts
| h_expect_end reg x : halt reg (SExpect (tkind_of x)) [x] [CTok x] []
| h_advance_end reg x : halt reg SAdvance [x] [CTok x] []
| h_adverr reg pre n post ts : W = None -> halt reg (SAdvErr pre n post) ts [] ts
| h_call reg k ts cs r : halt TEOF (body k) ts cs r -> halt reg (SCall k) ts [CTree k cs] r
| h_if_end reg c a b ts x c1 : ceval reg c ts = (x, c1, []) -> halt reg (SIf c a b) ts c1 []
| h_if reg c a b ts x c1 t1 c2 r :
    ceval reg c ts = (x, c1, t1) -> t1 <> [] -> halt reg (if x : bool then a else b) t1 c2 r ->
    halt reg (SIf c a b) ts (c1 ++ c2) r
| h_while_end reg c a ts x c1 : ceval reg c ts = (x, c1, []) -> halt reg (SWhile c a) ts c1 []
| h_while_in reg c a ts c1 t1 c2 r :
    ceval reg c ts = (true, c1, t1) -> t1 <> [] -> halt reg a t1 c2 r ->
    halt reg (SWhile c a) ts (c1 ++ c2) r
| h_while reg c a ts c1 t1 c2 t2 c3 r :
    ceval reg c ts = (true, c1, t1) -> okr body reg a t1 Normal c2 t2 -> t2 <> [] ->
    halt reg (SWhile c a) t2 c3 r -> halt reg (SWhile c a) ts (c1 ++ c2 ++ c3) r
| h_let reg n a ts cs r : halt (kind_at ts n) a ts cs r -> halt reg (SLet n a) ts cs r.

Definition joined (ts : list token) (cs : list child) (r : list token) : Prop :=
  exists before, ts = before ++ r /\ yield cs = before ++ match r with [] => [] | _ => yield wished end.
Lemma joined_app c1 ts t1 c2 r : ts = yield c1 ++ t1 -> joined t1 c2 r -> joined ts (c1 ++ c2) r.
Proof.
  intros -> (b & -> & E). exists (yield c1 ++ b). rewrite yield_app, E, <- !app_assoc. auto.
Qed.
Lemma joined_all cs : joined (yield cs) cs [].
Proof. exists (yield cs). rewrite !app_nil_r. auto. Qed.
Lemma halt_yield reg s ts cs r : halt reg s ts cs r -> joined ts cs r.
Proof.
  induction 1.
  - apply (joined_all []).
  - exact IHhalt.
  - eapply joined_app; eauto. apply okr_yield in H. exact H.
  - apply ceval_yield in H. rewrite app_nil_r in H. subst. apply joined_all.
  - exists []. destruct ts; [contradiction|]. auto.
  - apply (joined_all [CTok x]).
  - apply (joined_all [CTok x]).
  - exists []. destruct ts; [auto|]. unfold wished. rewrite H. auto.
  - destruct IHhalt as (b & -> & E). exists b. split; auto. cbn. rewrite app_nil_r. exact E.
  - apply ceval_yield in H. rewrite app_nil_r in H. subst. apply joined_all.
  - eapply joined_app; eauto. apply ceval_yield in H. exact H.
  - apply ceval_yield in H. rewrite app_nil_r in H. subst. apply joined_all.
  - eapply joined_app; eauto. apply ceval_yield in H. exact H.
  - rewrite app_assoc. eapply joined_app; eauto. apply ceval_yield in H. apply okr_yield in H0.
    rewrite yield_app, <- app_assoc. subst; auto.
  - exact IHhalt.
Qed.
End Halt.

(** All messages but those of [expect] begin alike. *)
Fixpoint advs (s : stmt) : bool :=
  match s with
  | SAdvErr pre _ _ => String.eqb pre "unexpected token '"
  | SSeq a b | SIf _ a b => advs a && advs b
  | SWhile _ a | SLet _ a => advs a
  | _ => true
  end.

Section Run.
Variable body : skind -> stmt.
Hypothesis Hadvs : forall k, advs (body k) = true.

(** The error [e] stands in front of [r], the rest of [T]. *)
Definition in_front (T r : list token) (e : err) : Prop :=
  match r with x :: _ => points e x | [] => exists l t, T = l ++ [t] /\ points e t end.
(** The message of the first error: a token of kind [t] was expected where [r] begins; or, with
    [None], [r] is empty or begins with an unexpected token. *)
Definition says (r : list token) (o : option tkind) (m : text) : Prop :=
  match o with
  | Some t => r <> [] /\ kind_at r 0 <> t /\
      m = str "expected " ++ str (tkind_debug t) ++ str ", found " ++ str (tkind_debug (kind_at r 0))
  | None => r = [] \/ exists n post, m = str "unexpected token '" ++ str (tkind_debug (kind_at r n)) ++ str post
  end.
Definition noted (T r : list token) (o : option tkind) (p : pstate) : Prop :=
  ptoks p = T /\ (r = [] -> prest p = []) /\ (perrs p = [] -> r = [] /\ o = None) /\
  (forall e er, rev (perrs p) = e :: er -> in_front T r e /\ says r o (emsg e)).

Lemma noted_exec T r o fuel reg s p g p' :
  noted T r o p -> exec body fuel reg s p = Ok (g, p') -> noted T r o p'.
Proof.
  apply exec_inv; clear.
  - intros n p k p' I H. unfold p_nth in H. destruct (plifes p =? 0); inversion H; subst. exact I.
  - intros p p' (A & B & C & D) H. unfold p_advance in H.
    destruct (prest p) as [|x l] eqn:E; inversion H; subst. split; [|split; [|split]]; simpl; auto.
    intro Z. apply B in Z. discriminate.
  - intros m p p' (A & B & C & D) H. unfold p_error in H.
    assert (forall t, (perrs p = [] -> in_front T r (mkErr (line (tstart t)) (col (tstart t)) m)) ->
      noted T r o (add_err t m p)) as N.
    { intros t F. split; [|split; [|split]]; cbn [add_err ptoks prest perrs]; auto; [discriminate|].
      intros e er R. cbn [rev] in R. destruct (rev (perrs p)) as [|e' er'] eqn:ER.
      - assert (perrs p = []) as Z by (rewrite <- (rev_involutive (perrs p)), ER; reflexivity).
        inversion R; subst. split; [apply F, Z|]. destruct (C Z) as [-> ->]. left. reflexivity.
      - inversion R; subst. eapply D; eauto. }
    destruct (prest p) as [|x l] eqn:E.
    + destruct (rev (ptoks p)) as [|t l] eqn:E2; inversion H; subst. apply N. intro Z.
      destruct (C Z) as [-> _]. exists (rev l), t. split; [|split; reflexivity].
      rewrite <- (rev_involutive (ptoks p)), E2. reflexivity.
    + inversion H; subst. apply N. intro Z. apply C in Z as [Z _]. apply B in Z. discriminate.
  - intros p m p' I H. inversion H; subst. exact I.
  - intros m k p I. exact I.
Qed.

Lemma noted_error m o p p' : p_error m p = Ok p' -> perrs p = [] -> says (prest p) o m -> noted (ptoks p) (prest p) o p'.
Proof.
  unfold p_error. intros H Z SA.
  assert (forall t, in_front (ptoks p) (prest p) (mkErr (line (tstart t)) (col (tstart t)) m) ->
      noted (ptoks p) (prest p) o (add_err t m p)) as N.
  { intros t F. split; [|split; [|split]]; cbn [add_err ptoks prest perrs]; auto; [discriminate|].
    intros e er R. rewrite Z in R. inversion R; subst. auto. }
  destruct (prest p) as [|x l] eqn:E.
  - destruct (rev (ptoks p)) as [|t l] eqn:E2; inversion H; subst. apply N.
    exists (rev l), t. split; [|split; reflexivity]. rewrite <- (rev_involutive (ptoks p)), E2. reflexivity.
  - inversion H; subst. apply N. split; reflexivity.
Qed.

Lemma noted_advance T x r o p p' : noted T (x :: r) o p -> p_advance p = Ok p' -> noted T (x :: r) o p'.
Proof.
  intros (A & B & C & D) H. unfold p_advance in H. destruct (prest p); inversion H; subst.
  split; [|split; [|split]]; simpl; auto. discriminate.
Qed.

Lemma noted_end p : prest p = [] -> perrs p = [] -> noted (ptoks p) [] None p.
Proof. intros A B. split; [|split; [|split]]; auto. intros e er R. rewrite B in R. discriminate. Qed.

Definition goes_on reg s p g p' : Prop :=
  exists cs, okr body reg s (prest p) g cs (prest p') /\ did p p' cs [] /\ prest p' <> [].
Definition fits (W : option token) (o : option tkind) : Prop :=
  match W, o with None, _ => True | Some x, Some t => tkind_of x = t | Some _, None => False end.
Definition halts reg s (p p' : pstate) : Prop :=
  exists o r, noted (ptoks p) r o p' /\ forall W, fits W o -> exists cs, halt body W reg s (prest p) cs r.
(** How a run that ends with the tokens halts. *)
Lemma halts_end reg s p p' (H : exists cs, halt body None reg s (prest p) cs []) :
  noted (ptoks p) [] None p' -> halts reg s p p'.
Proof. intro N. exists None, []. split; auto. intros [x|] F; [destruct F|exact H]. Qed.
Lemma halts_map reg s q p reg' s' p' (f : list child -> list child) :
  halts reg s q p' -> ptoks q = ptoks p ->
  (forall W cs r, halt body W reg s (prest q) cs r -> halt body W reg' s' (prest p) (f cs) r) ->
  halts reg' s' p p'.
Proof.
  intros (o & r & N & H) T M. exists o, r. rewrite <- T. split; auto. intros W F. destruct (H W F) as [cs HA]. eauto.
Qed.
Lemma halts_more fuel reg s p q reg1 s1 g p' :
  halts reg s p q -> exec body fuel reg1 s1 q = Ok (g, p') -> halts reg s p p'.
Proof. intros (o & r & N & H) E. exists o, r. split; auto. eapply noted_exec; eauto. Qed.

Lemma did_errs p p' cs : did p p' cs [] -> perrs p = [] -> perrs p' = [].
Proof. intros D E. rewrite (did_err _ _ _ _ D). exact E. Qed.

Lemma exec_halt fuel : forall reg s p g p',
  exec body fuel reg s p = Ok (g, p') -> perrs p = [] -> advs s = true ->
  goes_on reg s p g p' \/ halts reg s p p'.
Proof.
  assert (forall fuel reg s p g p', exec body fuel reg s p = Ok (g, p') -> perrs p = [] -> prest p = [] ->
    halts reg s p p') as EN.
  { intros f reg s p g p' H E R. apply halts_end; [exists []; rewrite R; constructor|].
    eapply noted_exec; [|exact H]. apply noted_end; auto. }
  induction fuel as [|n IHn]; [discriminate|].
  intros reg s; revert reg; induction s; intros reg p g p' H E V;
    (destruct (prest p) as [|x0 ts0] eqn:RP; [right; eapply EN; eauto|]); cbn [advs] in V.
  - rewrite exec_skip in H. inversion H; subst. left. exists []. split; [constructor|].
    split; [apply did_refl|]. rewrite RP. discriminate.
  - apply andb_true_iff in V as [V1 V2]. rewrite exec_seq in H. apply bind_ok in H as [[g1 p1] [H1 H2]].
    destruct (IHs1 _ _ _ _ H1 E V1) as [(c1 & O1 & D1 & R1)|HA].
    + destruct g1.
      * destruct (IHs2 _ _ _ _ H2 (did_errs _ _ _ D1 E) V2) as [(c2 & O2 & D2 & R2)|HA].
        -- left. exists (c1 ++ c2). split; [eapply ok_seq; eauto|]. split; auto.
           exact (did_trans _ _ _ _ _ _ _ D1 D2).
        -- right. apply (halts_map _ _ _ _ _ _ _ (app c1) HA); [apply (did_toks _ _ _ _ D1)|].
           intros W cs r HB. eapply h_seq2; eauto.
      * inversion H2; subst. left. exists c1. split; [apply ok_seq_broke; auto|auto].
    + right. assert (halts reg (SSeq s1 s2) p p1) as HB.
      { apply (halts_map _ _ _ _ _ _ _ (fun c => c) HA eq_refl). intros W cs r HB. apply h_seq1; auto. }
      destruct g1; [|inversion H2; subst; auto]. eapply halts_more; eauto.
  - rewrite exec_do in H. apply bind_ok in H as [[b q] [H1 H2]]. inversion H2; subst.
    apply eval_did in H1 as [cs [H1 D]]. destruct (prest p') as [|y l] eqn:RP'.
    + right. apply halts_end; [exists cs; eapply h_do; eauto|]. rewrite <- (did_toks _ _ _ _ D).
      apply noted_end; auto. eapply did_errs; eauto.
    + left. exists cs. split; [eapply ok_do; rewrite RP'; eauto|]. split; auto. rewrite RP'. discriminate.
  - rewrite exec_expect in H. apply bind_ok in H as [q [H1 H2]]. inversion H2; subst.
    unfold p_expect in H1. apply bind_ok in H1 as [[b q] [H1 H3]].
    apply p_consume_did in H1 as [cs [H1 D]]. cbn [ceval] in H1. rewrite RP in H1. destruct b.
    + inversion H3; subst. destruct (tkind_eqb (tkind_of x0) t) eqn:K; [|discriminate].
      apply tkind_eqb_eq in K. inversion H1; subst. destruct (prest p') as [|y l] eqn:RP'.
      * right. apply halts_end; [exists [CTok x0]; rewrite RP; constructor|].
        rewrite <- (did_toks _ _ _ _ D). apply noted_end; auto. eapply did_errs; eauto.
      * left. exists [CTok x0]. rewrite RP, RP'. split; [constructor|]. split; auto. discriminate.
    + destruct (tkind_eqb (tkind_of x0) t) eqn:K; [discriminate|]. inversion H1 as [[CE RE]]. subst cs.
      apply bind_ok in H3 as [[k q2] [H3 H4]]. apply p_nth_did in H3 as (D2 & K2 & R2).
      assert (kind_at (x0 :: ts0) 0 <> t) as NK.
      { cbn. intro Z. subst t. rewrite tkind_eqb_refl in K. discriminate. }
      right. exists (Some t), (x0 :: ts0). rewrite RP. split.
      * eapply noted_error with (o := Some t) in H4.
        -- rewrite (did_toks _ _ _ _ D2), (did_toks _ _ _ _ D), R2, <- RE in H4. exact H4.
        -- eapply did_errs; [exact D2|]. eapply did_errs; eauto.
        -- rewrite R2, <- RE. split; [discriminate|]. split; [exact NK|]. rewrite K2, <- RE. reflexivity.
      * intros W F. eexists. apply h_expect; [exact NK|discriminate|].
        unfold wish. destruct W; auto.
  - rewrite exec_advance in H. apply bind_ok in H as [q [H1 H2]]. inversion H2; subst.
    apply p_advance_did in H1 as [x [X D]]. rewrite X in RP. inversion RP; subst.
    destruct (prest p') as [|y l] eqn:RP'.
    + right. apply halts_end; [exists [CTok x0]; rewrite X; constructor|].
      rewrite <- (did_toks _ _ _ _ D). apply noted_end; auto. eapply did_errs; eauto.
    + left. exists [CTok x0]. rewrite X, RP'. split; [constructor|]. split; auto. discriminate.
  - rewrite exec_adverr in H. apply bind_ok in H as [[k q] [H1 H2]].
    apply bind_ok in H2 as [q2 [H2 H3]]. inversion H3; subst.
    apply p_nth_did in H1 as (D & K & R). right. exists None, (x0 :: ts0). rewrite RP. split.
    + unfold p_advance_with_error in H2. apply bind_ok in H2 as [q3 [H2 H4]].
      apply noted_error with (o := None) in H2; [|eapply did_errs; eauto|].
      * rewrite R, RP, (did_toks _ _ _ _ D) in H2.
        destruct (p_enter q3) as [m q4] eqn:EE. apply bind_ok in H4 as [q5 [H4 H5]]. inversion H5; subst.
        apply (noted_advance _ _ _ _ q4 q5); auto. inversion EE; subst. exact H2.
      * right. apply String.eqb_eq in V. subst pre. exists n0, post. rewrite K, R. reflexivity.
    + intros W F. exists []. apply h_adverr. destruct W; [destruct F|reflexivity].
  - rewrite exec_call in H. destruct (p_enter p) as [m q] eqn:EE.
    apply bind_ok in H as [[g1 q1] [H1 H2]]. inversion H2; subst.
    assert (perrs q = []) as EQ by (inversion EE; subst; exact E).
    assert (prest q = prest p) as RQ by (inversion EE; reflexivity).
    assert (ptoks q = ptoks p) as TQ by (inversion EE; reflexivity).
    destruct (IHn _ _ _ _ _ H1 EQ (Hadvs k)) as [(cs & O & D & R)|HA].
    + left. exists [CTree k cs]. split; [|split; [exact (enter_exit_did _ _ _ _ k _ _ EE D)|exact R]].
      apply ok_call with g1. rewrite RQ in O. exact O.
    + right. apply (halts_map _ _ _ _ _ _ q1 (fun cs => [CTree k cs]) HA TQ).
      intros W cs r HB. apply h_call. rewrite <- RQ. auto.
  - apply andb_true_iff in V as [V1 V2]. rewrite exec_if in H. apply bind_ok in H as [[b q] [H1 H2]].
    apply eval_did in H1 as [cs [H1 D]]. destruct (prest q) as [|y l] eqn:RQ.
    + right. apply halts_end; [exists cs; eapply h_if_end; eauto|]. rewrite <- (did_toks _ _ _ _ D).
      destruct b; (eapply noted_exec; [|exact H2]); apply noted_end; auto; eapply did_errs; eauto.
    + assert (goes_on reg (if b then s1 else s2) q g p' \/ halts reg (if b then s1 else s2) q p') as K.
      { destruct b; [eapply IHs1|eapply IHs2]; eauto; eapply did_errs; eauto. }
      destruct K as [(c2 & O & D2 & R)|HA]; rewrite <- RQ in *.
      * left. exists (cs ++ c2). split; [eapply ok_if; eauto|]. split; auto.
        exact (did_trans _ _ _ _ _ _ _ D D2).
      * right. apply (halts_map _ _ _ _ _ _ _ (app cs) HA); [apply (did_toks _ _ _ _ D)|].
        intros W c2 r HB. eapply h_if; eauto. rewrite RQ. discriminate.
  - rewrite exec_while in H. apply bind_ok in H as [[b q] [H1 H2]].
    apply eval_did in H1 as [cs [H1 D]]. destruct (prest q) as [|y l] eqn:RQ.
    + right. apply halts_end; [exists cs; eapply h_while_end; eauto|]. rewrite <- (did_toks _ _ _ _ D).
      assert (noted (ptoks q) [] None q) as NQ by (apply noted_end; auto; eapply did_errs; eauto).
      destruct b; [|inversion H2; subst; exact NQ].
      apply bind_ok in H2 as [[g1 q1] [H2 H3]]. apply (noted_exec _ _ _ _ _ _ _ _ _ NQ) in H2.
      destruct g1; [|inversion H3; subst; exact H2]. exact (noted_exec _ _ _ _ _ _ _ _ _ H2 H3).
    + rewrite <- RQ in *. destruct b.
      * apply bind_ok in H2 as [[g1 q1] [H2 H3]].
        destruct (IHs _ _ _ _ H2 (did_errs _ _ _ D E) V) as [(c2 & O & D2 & R)|HA].
        -- pose proof (did_trans _ _ _ _ _ _ _ D D2) as D12. destruct g1.
           ++ destruct (IHn _ _ _ _ _ H3 (did_errs _ _ _ D12 E) V) as [(c3 & O3 & D3 & R3)|HA].
              ** left. exists (cs ++ c2 ++ c3). assert (g = Normal) by (inversion O3; reflexivity). subst g.
                 split; [eapply ok_while; eauto|]. split; auto.
                 rewrite app_assoc. exact (did_trans _ _ _ _ _ _ _ D12 D3).
              ** right. apply (halts_map _ _ _ _ _ _ _ (fun c3 => cs ++ c2 ++ c3) HA); [apply (did_toks _ _ _ _ D12)|].
                 intros W c3 r HB. eapply h_while; eauto.
           ++ inversion H3; subst. left. exists (cs ++ c2). split; [eapply ok_while_broke; eauto|]. auto.
        -- right. assert (halts reg (SWhile c s) p q1) as HB.
           { apply (halts_map _ _ _ _ _ _ _ (app cs) HA); [apply (did_toks _ _ _ _ D)|].
             intros W c2 r HB. eapply h_while_in; eauto. rewrite RQ. discriminate. }
           destruct g1; [|inversion H3; subst; exact HB]. eapply halts_more; eauto.
      * inversion H2; subst. left. exists cs. split; [apply ok_while_end; auto|]. split; auto.
        rewrite RQ. discriminate.
  - rewrite exec_let in H. apply bind_ok in H as [[k q] [H1 H2]].
    apply p_nth_did in H1 as (D & -> & R).
    destruct (IHs _ _ _ _ H2 (did_errs _ _ _ D E) V) as [(c2 & O & D2 & R2)|HA]; rewrite ?R in *.
    + left. exists c2. split; [apply ok_let; auto|]. split; auto. exact (did_trans _ _ _ _ _ _ _ D D2).
    + right. apply (halts_map _ _ _ _ _ _ _ (fun c => c) HA); [apply (did_toks _ _ _ _ D)|].
      intros W cs r HB. apply h_let. rewrite R in HB. auto.
  - rewrite exec_break in H. inversion H; subst. left. exists []. split; [constructor|].
    split; [apply did_refl|]. rewrite RP. discriminate.
Qed.
End Run.

(** * The words read by such runs *)
Section Parts.
Variable pre : skind -> list tkind.

Definition outs (l : list (bool * rx * abs)) : rx := fold_right (fun o acc => alt2 (snd (fst o)) acc) Void l.
Definition ends (s : abs) (c : cond) : rx := alt2 Eps (outs (cab true s c)).
Definition add_part (o : option rx) (x : rx) (acc : option rx) : option rx :=
  match o, acc with Some a, Some b => Some (alt2 (cat x a) b) | _, _ => None end.

Fixpoint tp (s : abs) (p : stmt) : option rx :=
  match p with
  | SSkip | SBreak | SAdvErr _ _ _ => Some Eps
  | SSeq a b =>
      match tp s a, tr pre false s a with
      | Some pa, Some (ra, s1, _) =>
          match tp s1 b with Some pb => Some (alt2 pa (cat ra pb)) | None => None end
      | _, _ => None
      end
  | SDo c => Some (ends s c)
  | SExpect t => Some (alt2 Eps (Sy (Term t)))
  | SAdvance => Some (alt2 Eps (alt (map (fun k => Sy (Term k)) (a0 s))))
  | SCall k => if subset (a0 s) (pre k) then Some (alt2 Eps (Sy (Rule k))) else None
  | SIf c a b =>
      fold_right (fun o acc => add_part (tp (snd o) (if fst (fst o) : bool then a else b)) (snd (fst o)) acc)
        (Some (ends s c)) (cab false s c)
  | SWhile c a =>
      let body := fold_right (fun o acc => match o with (x, y, s') =>
          if x : bool then add_out (tr pre false s' a) y acc else acc end)
        (Some (Void, mkA [] [] [] true, Void)) (cab false (top s) c) in
      let part := fold_right (fun (o : bool * rx * abs) acc =>
          if fst (fst o) then add_part (tp (snd o) a) (snd (fst o)) acc else acc)
        (Some (ends (top s) c)) (cab false (top s) c) in
      match body, part with
      | Some (r, _, _), Some q => Some (cat (Star r) q)
      | _, _ => None
      end
  | SLet n a =>
      tp (match n with
          | O => mkA (a0 s) (a1 s) (a0 s) true
          | S O => mkA (a0 s) (a1 s) (a1 s) false
          | _ => mkA (a0 s) (a1 s) full false
          end) a
  end.
End Parts.

Lemma outs_in l o w : In o l -> lang (snd (fst o)) w -> lang (outs l) w.
Proof.
  induction l as [|o' l IH]; intros I L; [destruct I|]. unfold outs. cbn [fold_right].
  apply lang_alt2. destruct I as [->|I]; auto.
Qed.
Lemma ends_nil s c : lang (ends s c) [].
Proof. apply lang_alt2. left. constructor. Qed.
Lemma ends_ok reg s c ts b cs r : ceval reg c ts = (b, cs, r) -> sat reg ts s -> lang (ends s c) (syms cs).
Proof.
  intros E S. destruct (cab_sound true reg c s ts b cs r E S) as (x & s' & I & L & _); [discriminate|].
  apply lang_alt2. right. eapply outs_in; eauto.
Qed.

Lemma fold_part {X} (f : X -> option rx) (g : X -> rx) (keep : X -> bool) base os r :
  fold_right (fun o acc => if keep o then add_part (f o) (g o) acc else acc) (Some base) os = Some r ->
  (forall w, lang base w -> lang r w) /\
  forall o, In o os -> keep o = true -> exists q, f o = Some q /\ forall w, lang (cat (g o) q) w -> lang r w.
Proof.
  revert r. induction os as [|o' os IH]; intros r H; cbn [fold_right] in H.
  - inversion H; subst. split; auto. intros o [].
  - destruct (fold_right _ _ os) as [r'|] eqn:F.
    + destruct (IH _ eq_refl) as [A B]. destruct (keep o') eqn:K.
      * unfold add_part in H. destruct (f o') as [q|] eqn:Q; [|discriminate]. inversion H; subst. split.
        -- intros w L. apply lang_alt2. auto.
        -- intros o [<-|I] KO.
           ++ exists q. split; auto. intros w L. apply lang_alt2. auto.
           ++ destruct (B o I KO) as (q' & Q' & L). exists q'. split; auto. intros w W. apply lang_alt2. auto.
      * inversion H; subst. split; auto. intros o [<-|I] KO; [congruence|auto].
    + destruct (keep o'); [|discriminate]. unfold add_part in H. destruct (f o'); discriminate.
Qed.

Lemma some_eq {A} (a b : A) : Some a = Some b -> a = b.
Proof. congruence. Qed.

Section PartSound.
Variable body : skind -> stmt.
Variable pre : skind -> list tkind.
Variable prod part : skind -> rx.
Hypothesis Hbody : forall k, pre k <> [] -> exists r s b,
  tr pre false (mkA (pre k) full [TEOF] false) (body k) = Some (r, s, b) /\
  (forall w, lang r w \/ lang b w -> lang (prod k) w).
Hypothesis Hpart : forall k, pre k <> [] -> exists q,
  tp pre (mkA (pre k) full [TEOF] false) (body k) = Some q /\ (forall w, lang q w -> lang (part k) w).

(** Trees of which the last branch may be unfinished. *)
Inductive begun : child -> Prop :=
| bg_tok x : begun (CTok x)
| bg_tree k cs : lang (part k) (syms cs) -> bunch cs -> begun (CTree k cs)
with bunch : list child -> Prop :=
| bn_nil : bunch []
| bn_last c : begun c -> bunch [c]
| bn_cons c cs : conf prod c -> bunch cs -> bunch (c :: cs).

Lemma bunch_app a b : Forall (conf prod) a -> bunch b -> bunch (a ++ b).
Proof. induction 1; intro B; cbn [app]; auto. apply bn_cons; auto. Qed.
Lemma bunch_all a : Forall (conf prod) a -> bunch a.
Proof. intro F. rewrite <- (app_nil_r a). apply bunch_app; auto. constructor. Qed.


Lemma tp_nil p : forall s q, tp pre s p = Some q -> lang q [].
Proof.
  induction p; intros s q T; cbn [tp] in T; 
    try (apply some_eq in T; subst q; first [apply l_eps|apply lang_alt2; left; apply l_eps]).
  - destruct (tp pre s p1) as [pa|] eqn:TA; [|discriminate].
    destruct (tr pre false s p1) as [[[ra s1] ba]|]; [|discriminate].
    destruct (tp pre s1 p2); [|discriminate]. apply some_eq in T; subst q. apply lang_alt2. left. eauto.
  - destruct (subset (a0 s) (pre k)); [|discriminate]. apply some_eq in T; subst q. apply lang_alt2. left. constructor.
  - destruct (fold_part (fun o : bool * rx * abs => tp pre (snd o) (if fst (fst o) then p1 else p2))
      (fun o => snd (fst o)) (fun _ => true) _ _ _ T) as [A _]. apply A, ends_nil.
  - cbv zeta in T. destruct (fold_right _ _ (cab false (top s) c)) as [[[r1 s1] b1]|] in T; [|discriminate].
    destruct (fold_right _ _ (cab false (top s) c)) as [q'|] eqn:F in T; [|discriminate]. apply some_eq in T; subst q.
    destruct (fold_part (fun o : bool * rx * abs => tp pre (snd o) p) (fun o => snd (fst o)) (fun o => fst (fst o))
      _ _ _ F) as [A _]. change (@nil sym) with (@nil sym ++ []). apply lang_cat2; [constructor|]. apply A, ends_nil.
  - eauto.
Qed.

Lemma tp_sound W reg p ts cs r :
  halt body W reg p ts cs r ->
  forall s q, tp pre s p = Some q -> sat reg ts s -> lang q (syms cs) /\ bunch cs.
Proof.
  intro H. induction H; intros s0 q T S.
  - split; [eapply tp_nil; eauto|constructor].
  - cbn [tp] in T. destruct (tp pre s0 a) as [pa|] eqn:TA; [|discriminate].
    destruct (tr pre false s0 a) as [[[ra s1] ba]|] eqn:RA; [|discriminate].
    destruct (tp pre s1 b) as [pb|] eqn:TB; [|discriminate]. apply some_eq in T; subst q.
    destruct (IHhalt _ _ TA S) as [L B]. split; auto. apply lang_alt2. auto.
  - cbn [tp] in T. destruct (tp pre s0 a) as [pa|] eqn:TA; [|discriminate].
    destruct (tr pre false s0 a) as [[[ra s1] ba]|] eqn:RA; [|discriminate].
    destruct (tp pre s1 b) as [pb|] eqn:TB; [|discriminate]. apply some_eq in T; subst q.
    destruct (tr_sound body pre prod Hbody _ _ _ _ _ _ H _ _ _ _ _ RA S (fun _ => H0)) as (A & _ & C).
    destruct (A eq_refl) as [L1 S1]. destruct (IHhalt _ _ TB S1) as [L B].
    split; [|apply bunch_app; auto]. rewrite syms_app. apply lang_alt2. right. apply lang_cat2; auto.
  - cbn [tp] in T. apply some_eq in T; subst q. split; [eapply ends_ok; eauto|]. apply bunch_all. eapply ceval_conf; eauto.
  - cbn [tp] in T. apply some_eq in T; subst q. unfold wished, wish in *. destruct W as [x|].
    + split; [|repeat constructor]. apply lang_alt2. right. subst t. constructor.
    + split; [|constructor]. apply lang_alt2. left. constructor.
  - cbn [tp] in T. apply some_eq in T; subst q. split; [|repeat constructor]. apply lang_alt2. right. constructor.
  - cbn [tp] in T. apply some_eq in T; subst q. split; [|repeat constructor]. apply lang_alt2. right.
    apply lang_alt_in. apply (sat0 _ _ _ S).
  - cbn [tp] in T. apply some_eq in T; subst q. split; constructor.
  - cbn [tp] in T. destruct (subset (a0 s0) (pre k)) eqn:Su; [|discriminate]. apply some_eq in T; subst q.
    pose proof (subset_in _ _ _ Su (sat0 _ _ _ S)) as IP.
    destruct (Hpart k) as (q & Q & L).
    { intro Z. rewrite Z in IP. destruct IP. }
    destruct (IHhalt _ _ Q) as [A B].
    { split; simpl; auto. apply full_in. discriminate. }
    split; [apply lang_alt2; right; constructor|]. apply bn_last. constructor; auto.
  - cbn [tp] in T.
    destruct (fold_part (fun o : bool * rx * abs => tp pre (snd o) (if fst (fst o) then a else b))
      (fun o => snd (fst o)) (fun _ => true) _ _ _ T) as [A _].
    split; [apply A; eapply ends_ok; eauto|]. apply bunch_all. eapply ceval_conf; eauto.
  - cbn [tp] in T.
    destruct (fold_part (fun o : bool * rx * abs => tp pre (snd o) (if fst (fst o) then a else b))
      (fun o => snd (fst o)) (fun _ => true) _ _ _ T) as [_ A].
    destruct (cab_sound false reg c s0 ts x c1 t1 H S (fun _ => H0)) as (y & s1 & I & L & S1).
    destruct (A _ I eq_refl) as (q' & Q & K). cbn [fst snd] in Q, K.
    destruct (IHhalt _ _ Q S1) as [L2 B]. split.
    + rewrite syms_app. apply K. apply lang_cat2; auto.
    + apply bunch_app; auto. eapply ceval_conf; eauto.
  - cbn [tp] in T. cbv zeta in T.
    destruct (fold_right _ _ (cab false (top s0) c)) as [[[r1 s1] b1]|] in T; [|discriminate].
    destruct (fold_right _ _ (cab false (top s0) c)) as [q'|] eqn:F in T; [|discriminate]. apply some_eq in T; subst q.
    destruct (fold_part (fun o : bool * rx * abs => tp pre (snd o) a) (fun o => snd (fst o)) (fun o => fst (fst o))
      _ _ _ F) as [A _].
    split; [|apply bunch_all; eapply ceval_conf; eauto].
    change (syms c1) with ([] ++ syms c1). apply lang_cat2; [constructor|]. apply A. eapply ends_ok; eauto.
    apply sat_top, (satr _ _ _ S).
  - cbn [tp] in T. cbv zeta in T.
    destruct (fold_right _ _ (cab false (top s0) c)) as [[[r1 s1] b1]|] in T; [|discriminate].
    destruct (fold_right _ _ (cab false (top s0) c)) as [q'|] eqn:F in T; [|discriminate]. apply some_eq in T; subst q.
    destruct (fold_part (fun o : bool * rx * abs => tp pre (snd o) a) (fun o => snd (fst o)) (fun o => fst (fst o))
      _ _ _ F) as [_ A].
    destruct (cab_sound false reg c (top s0) ts true c1 t1 H) as (y & s2 & I & L & S1); auto.
    { apply sat_top, (satr _ _ _ S). }
    destruct (A _ I eq_refl) as (q2 & Q & K). cbn [fst snd] in Q, K.
    destruct (IHhalt _ _ Q S1) as [L2 B]. split.
    + rewrite syms_app. change (syms c1 ++ syms c2) with ([] ++ (syms c1 ++ syms c2)).
      apply lang_cat2; [constructor|]. apply K. apply lang_cat2; auto.
    + apply bunch_app; auto. eapply ceval_conf; eauto.
  - pose proof T as T0. cbn [tp] in T. cbv zeta in T.
    destruct (fold_right _ _ (cab false (top s0) c)) as [[[r1 s1] b1]|] eqn:F in T; [|discriminate].
    destruct (fold_right _ _ (cab false (top s0) c)) as [q'|] eqn:FQ in T; [|discriminate]. apply some_eq in T; subst q.
    assert (fold_right (fun o acc => if (fun o : bool * rx * abs => fst (fst o)) o then
        add_out ((fun o : bool * rx * abs => tr pre false (snd o) a) o)
          (snd (fst o)) acc else acc)
      (Some (Void, mkA [] [] [] true, Void)) (cab false (top s0) c) = Some (r1, s1, b1)) as T'.
    { rewrite <- F. clear. induction (cab false (top s0) c) as [|[[? ?] ?] l IH]; simpl; auto.
      simpl in IH. rewrite IH. reflexivity. }
    destruct (cab_sound false reg c (top s0) ts true c1 t1 H) as (y & s2 & I & L & S1).
    { apply sat_top, (satr _ _ _ S). }
    { intros _. apply (nonempty_back _ _ _ _ _ _ _ H0). auto. }
    destruct (fold_out (fun o : bool * rx * abs => tr pre false (snd o) a) (fun o => snd (fst o)) (fun o => fst (fst o))
      _ _ _ _ _ T' I eq_refl) as (r2 & s3 & b2 & G & A & B & C).
    cbn [fst snd] in G, A, C.
    destruct (tr_sound body pre prod Hbody _ _ _ _ _ _ H0 _ _ _ _ _ G S1 (fun _ => H1)) as (A1 & _ & A3).
    destruct (A1 eq_refl) as [L2 S2].
    assert (tp pre (top s0) (SWhile c a) = Some (cat (Star r1) q')) as T2.
    { cbn [tp]. cbv zeta. change (top (top s0)) with (top s0). rewrite F, FQ. reflexivity. }
    destruct (IHhalt _ _ T2) as [L3 B3].
    { apply sat_top, (satr _ _ _ S). }
    split.
    + rewrite !syms_app. apply lang_cat in L3. apply cat_inv in L3 as (u & v & EQ & Lu & Lv). rewrite EQ.
      apply lang_cat. rewrite !app_assoc. constructor; auto.
      constructor; auto. apply A. apply lang_cat2; auto.
    + apply bunch_app; [eapply ceval_conf; eauto|]. apply bunch_app; auto.
  - cbn [tp] in T. eapply IHhalt; [exact T|].
    destruct S as [A B C D]. destruct n as [|[|n]]; split; simpl; auto; try apply full_in; discriminate.
Qed.
End PartSound.

(** * Beginnings of the words of a production *)
Fixpoint pref (r : rx) : rx :=
  match r with
  | Void => Void
  | Eps => Eps
  | Sy x => Alt Eps (Sy x)
  | Cat a b => Alt (pref a) (Cat a (pref b))
  | Alt a b => Alt (pref a) (pref b)
  | Star a => Cat (Star a) (pref a)
  end.
Fixpoint sound_rx (r : rx) : bool :=
  match r with
  | Void => false
  | Eps | Sy _ => true
  | Cat a b | Alt a b => sound_rx a && sound_rx b
  | Star a => sound_rx a
  end.
Lemma some_word r : sound_rx r = true -> exists w, lang r w.
Proof.
  induction r; simpl; intro H; try discriminate; try (eexists; constructor; fail).
  - apply andb_true_iff in H as [A B]. destruct (IHr1 A), (IHr2 B). eexists. constructor; eauto.
  - apply andb_true_iff in H as [A B]. destruct (IHr1 A) as [w W]. exists w. apply l_altl. auto.
Qed.
Lemma pref_ok r : sound_rx r = true -> forall w, lang (pref r) w -> exists v, lang r (w ++ v).
Proof.
  induction r; simpl; intros S w L; try discriminate.
  - exists []. rewrite app_nil_r. exact L.
  - apply alt_inv in L as [L|L].
    + apply eps_inv in L as ->. exists [x]. constructor.
    + exists []. rewrite app_nil_r. exact L.
  - apply andb_true_iff in S as [A B]. apply alt_inv in L as [L|L].
    + destruct (IHr1 A _ L) as [v V]. destruct (some_word _ B) as [u U]. exists (v ++ u). rewrite app_assoc.
      constructor; auto.
    + apply cat_inv in L as (u & v & -> & U & V). destruct (IHr2 B _ V) as [z Z]. exists z.
      rewrite <- app_assoc. constructor; auto.
  - apply andb_true_iff in S as [A B]. apply alt_inv in L as [L|L].
    + destruct (IHr1 A _ L) as [v V]. exists v. apply l_altl. auto.
    + destruct (IHr2 B _ L) as [v V]. exists v. apply l_altr. auto.
  - apply cat_inv in L as (u & v & -> & U & V). destruct (IHr S _ V) as [z Z]. exists z.
    rewrite <- app_assoc. remember (Star r) as q eqn:E. clear V. induction U; inversion E; subst.
    + cbn [app]. rewrite <- (app_nil_r (v ++ z)). apply l_star; [exact Z|constructor].
    + rewrite <- app_assoc. apply l_star; auto.
Qed.

Definition begins (k : skind) : bool :=
  match tp pre_tab (mkA (start_tab k) full [TEOF] false) (body k) with
  | Some q => included 2000 q (pref (production false k)) && sound_rx (production false k)
  | None => false
  end.
Lemma begins_ok : forallb (fun k => skind_eqb k KError || begins k) all_skinds = true.
Proof. vm_compute. reflexivity. Qed.

Definition part_of (k : skind) : rx := pref (production false k).
Lemma part_ok k : k <> KError -> exists q,
  tp pre_tab (mkA (start_tab k) full [TEOF] false) (body k) = Some q /\
  (forall w, lang q w -> lang (part_of k) w) /\ sound_rx (production false k) = true.
Proof.
  intro NE. pose proof begins_ok as H. rewrite forallb_forall in H. specialize (H k (all_skinds_complete k)).
  apply orb_true_iff in H as [H|H]; [apply skind_eqb_eq in H; contradiction|]. unfold begins in H.
  destruct (tp pre_tab _ (body k)) as [q|]; [|discriminate]. apply andb_true_iff in H as [A B].
  exists q. split; auto. split; auto. intros w L. eapply included_sound; eauto.
Qed.

Lemma pre_part k : pre_tab k <> [] -> exists q,
  tp pre_tab (mkA (pre_tab k) full [TEOF] false) (body k) = Some q /\ (forall w, lang q w -> lang (part_of k) w).
Proof.
  intro N. destruct (part_ok k) as (q & Q & L & _); [intro Z; subst; contradiction|].
  exists q. split; auto. destruct k; try exact Q. contradiction.
Qed.

(** * A tree for every rule *)
(** A text for every kind of token. *)
Definition specimen (k : tkind) : text :=
  match k with
  | TIdentifier => str "x"
  | TString => [34; 34]
  | TUInt => str "1"
  | TUReal => str "1.0"
  | _ => match find (fun p => tkind_eqb (snd p) k) (spellings ++ reserved) with Some p => str (fst p) | None => [] end
  end.
Definition token_for (k : tkind) : token := mkTok 0 (specimen k) k (mkPos 0 1 1) (mkPos 0 1 1).

Fixpoint find_seed (tab : list (skind * child)) (k : skind) : option child :=
  match tab with [] => None | (k', c) :: tab' => if skind_eqb k k' then Some c else find_seed tab' k end.
Fixpoint pick (tab : list (skind * child)) (r : rx) : option (list child) :=
  match r with
  | Void => None
  | Eps | Star _ => Some []
  | Sy (Term t) => Some [CTok (token_for t)]
  | Sy (Rule k) => match find_seed tab k with Some c => Some [c] | None => None end
  | Cat a b => match pick tab a, pick tab b with Some x, Some y => Some (x ++ y) | _, _ => None end
  | Alt a b => match pick tab a with Some x => Some x | None => pick tab b end
  end.
Fixpoint grow (n : nat) (tab : list (skind * child)) : list (skind * child) :=
  match n with
  | O => tab
  | S m =>
      grow m (fold_right (fun k tab =>
        match find_seed tab k with
        | Some _ => tab
        | None => match pick tab (production false k) with Some cs => (k, CTree k cs) :: tab | None => tab end
        end) tab all_skinds)
  end.
Definition seed_tab : list (skind * child) := Eval vm_compute in grow 20 [].

Fixpoint free (c : child) : bool :=
  match c with
  | CTok _ => true
  | CTree k cs => match k, leaves c with
                  | KEquation, t :: _ => negb (memk (tkind_of t) [TInitial; TEnd])
                  | _, _ => true
                  end && forallb free cs
  end.
Lemma free_ok c : free c = true -> unbarred c /\ forall k, allowed k c.
Proof.
  induction c as [x|k cs IH] using child_ind2; intro H; [split; [constructor|intro; exact I]|].
  cbn [free] in H. apply andb_true_iff in H as [H1 H2]. rewrite forallb_forall in H2. rewrite Forall_forall in IH.
  split.
  - constructor; rewrite Forall_forall; intros c I; apply IH; auto.
  - intro k'. unfold allowed. destruct (leaves (CTree k cs)) as [|t l] eqn:L; auto.
    destruct k; try (intros []). rewrite negb_true_iff in H1.
    intro I. assert (In (tkind_of t) [TInitial; TEnd]) as J.
    { destruct k'; cbn in I |- *; tauto. }
    apply memk_in in J. congruence.
Qed.

Definition fine_token (k : tkind) : bool :=
  match k with TLineComment | TBlockComment | TEOF => false | _ => negb (text_eqb (specimen k) []) end.
Definition seeded (k : skind) : bool :=
  match find_seed seed_tab k with
  | Some c => skind_eqb k (match c with CTree k' _ => k' | _ => KError end) &&
      conformsb false c && free c &&
      forallb (fun x => fine_token (tkind_of x) && text_eqb (ttext x) (specimen (tkind_of x))) (leaves c)
  | None => false
  end.
Lemma seeded_ok : forallb (fun k => skind_eqb k KError || seeded k) all_skinds = true.
Proof. vm_compute. reflexivity. Qed.

Fixpoint letters (r : rx) : list sym :=
  match r with
  | Void | Eps => []
  | Sy x => [x]
  | Cat a b | Alt a b => letters a ++ letters b
  | Star a => letters a
  end.
Lemma letters_ok r w : lang r w -> Forall (fun x => In x (letters r)) w.
Proof.
  induction 1; cbn [letters].
  - constructor.
  - repeat constructor.
  - apply Forall_app. split; [eapply Forall_impl; [|exact IHlang1]|eapply Forall_impl; [|exact IHlang2]];
      intros y I; apply in_or_app; auto.
  - eapply Forall_impl; [|exact IHlang]. intros y I; apply in_or_app; auto.
  - eapply Forall_impl; [|exact IHlang]. intros y I; apply in_or_app; auto.
  - constructor.
  - apply Forall_app. auto.
Qed.
Definition spread (k : skind) : bool :=
  forallb (fun x => match x with Term t => fine_token t | Rule k' => negb (skind_eqb k' KError) end)
    (letters (production false k)).
Lemma spread_ok : forallb spread all_skinds = true.
Proof. vm_compute. reflexivity. Qed.

(** Trees made of specimens. *)
Definition made (x : token) : Prop := fine_token (tkind_of x) = true /\ ttext x = specimen (tkind_of x).
Definition blank (x : sym) (c : child) : Prop :=
  sym_of c = x /\ conforms false c /\ unbarred c /\ (forall k, allowed k c) /\ Forall made (leaves c).

Lemma seed_for k : k <> KError -> exists c, blank (Rule k) c.
Proof.
  intro NE. pose proof seeded_ok as H. rewrite forallb_forall in H. specialize (H k (all_skinds_complete k)).
  apply orb_true_iff in H as [H|H]; [apply skind_eqb_eq in H; contradiction|]. unfold seeded in H.
  destruct (find_seed seed_tab k) as [c|]; [|discriminate].
  apply andb_true_iff in H as [H H4]. apply andb_true_iff in H as [H H3]. apply andb_true_iff in H as [H1 H2].
  apply skind_eqb_eq in H1. apply conformsb_sound in H2. apply free_ok in H3 as [H3 H5].
  exists c. split; [destruct c; cbn; subst; [contradiction|reflexivity]|]. split; auto. split; auto. split; auto.
  rewrite Forall_forall. rewrite forallb_forall in H4. intros x I. apply H4 in I. apply andb_true_iff in I as [A B].
  split; auto. apply text_eqb_eq, B.
Qed.

Lemma fill k w v : lang (production false k) (w ++ v) -> exists ds, Forall2 blank v ds.
Proof.
  intro L. apply letters_ok in L. apply Forall_app in L as [_ L].
  pose proof (skind_all _ spread_ok k) as SP. unfold spread in SP. rewrite forallb_forall in SP.
  induction L as [|x v I L IH]; [exists []; constructor|]. destruct IH as [ds D].
  apply SP in I. destruct x as [t|k'].
  - exists (CTok (token_for t) :: ds). constructor; auto.
    split; [reflexivity|]. split; [constructor|]. split; [constructor|]. split; [intro; exact Logic.I|].
    constructor; [|constructor]. split; [exact I|reflexivity].
  - apply negb_true_iff in I. destruct (seed_for k') as [c C].
    { intro Z. subst. discriminate. }
    exists (c :: ds). constructor; auto.
Qed.
Lemma blanks v ds : Forall2 blank v ds ->
  syms ds = v /\ Forall (conforms false) ds /\ Forall unbarred ds /\ (forall k, Forall (allowed k) ds) /\
  Forall made (yield ds).
Proof.
  induction 1 as [|x c v ds (A & B & C & D & E) _ (A' & B' & C' & D' & E')]; [repeat split; constructor|].
  split; [unfold syms in *; cbn [map]; congruence|]. split; auto. split; auto. split; [constructor; auto|].
  change (yield (c :: ds)) with (leaves c ++ yield ds). apply Forall_app. auto.
Qed.

(** * Completion *)

Definition finished (c c' : child) : Prop :=
  sym_of c' = sym_of c /\ conforms false c' /\ unbarred c' /\
  (forall k, allowed k c -> allowed k c') /\
  exists more, leaves c' = leaves c ++ more /\ Forall made more.

Lemma blank_finished k cs c : blank (Rule k) c -> leaves (CTree k cs) = [] -> finished (CTree k cs) c.
Proof.
  intros (A & B & C & D & E) L. split; auto. split; auto. split; auto. split; auto.
  exists (leaves c). rewrite L. auto.
Qed.
Lemma allowed_same k c c' t l l' : sym_of c' = sym_of c -> leaves c = t :: l -> leaves c' = t :: l' ->
  allowed k c -> allowed k c'.
Proof.
  unfold allowed. intros S E E' A. destruct c as [x|k1 cs], c' as [x'|k2 cs']; try discriminate; auto.
  inversion S; subst. rewrite E in A. rewrite E'. exact A.
Qed.

Lemma finish c : begun prod_of part_of c -> unbarred c -> exists c', finished c c'.
Proof.
  induction c as [x|k cs IH] using child_ind2; intros B U.
  - exists (CTok x). split; auto. split; [constructor|]. split; auto. split; auto. exists [].
    rewrite app_nil_r. auto.
  - inversion B as [|k' cs' L BN]; subst.
    assert (k <> KError) as NE.
    { intro Z. subst. exact (void_inv _ L). }
    apply unbarred_kids in U as [A U].
    destruct (leaves (CTree k cs)) as [|t l] eqn:LV.
    { destruct (seed_for k NE) as [c C]. exists c. apply blank_finished; auto. }
    assert (exists cs', syms cs' = syms cs /\ Forall (conforms false) cs' /\ Forall unbarred cs' /\
      Forall (allowed k) cs' /\ exists more, yield cs' = yield cs ++ more /\ Forall made more) as (cs' & E1 & E2 & E3 & E4 & more & E5 & E6).
    { clear L LV B. induction BN as [|c BG|c cs CF BN IHB].
      - exists []. repeat split; auto. exists []. auto.
      - inversion IH as [|? ? I1 I2]; subst. inversion A; inversion U; subst.
        destruct (I1 BG) as (c' & F1 & F2 & F3 & F4 & more & F5 & F6); auto.
        exists [c']. split; [cbn; congruence|]. split; auto. split; auto. split; auto.
        exists more. cbn. rewrite !app_nil_r. auto.
      - inversion IH; inversion A; inversion U; subst.
        destruct IHB as (cs' & F1 & F2 & F3 & F4 & more & F5 & F6); auto.
        exists (c :: cs'). split; [cbn; unfold syms in F1; congruence|].
        split; [constructor; auto; apply conf_conforms; auto|]. split; auto. split; auto.
        exists more. change (yield (c :: cs')) with (leaves c ++ yield cs').
        change (yield (c :: cs)) with (leaves c ++ yield cs). rewrite F5, app_assoc. auto. }
    destruct (part_ok k NE) as (_ & _ & _ & SR).
    destruct (pref_ok _ SR _ L) as [v V]. destruct (fill _ _ _ V) as [ds D].
    apply blanks in D as (D1 & D2 & D3 & D4 & D5).
    assert (leaves (CTree k (cs' ++ ds)) = leaves (CTree k cs) ++ more ++ yield ds) as LE.
    { change (yield (cs' ++ ds) = yield cs ++ more ++ yield ds). rewrite yield_app, E5, <- app_assoc. reflexivity. }
    exists (CTree k (cs' ++ ds)). split; [reflexivity|].
    split; [constructor; [|apply Forall_app; auto]|].
    { change (map sym_of (cs' ++ ds)) with (syms (cs' ++ ds)). rewrite syms_app, E1, D1. exact V. }
    split; [constructor; apply Forall_app; auto|].
    split.
    { intros k'. rewrite LV in LE. eapply allowed_same; [reflexivity|exact LV|exact LE]. }
    exists (more ++ yield ds). rewrite LE, Forall_app, LV. auto.
Qed.

(** * Barred equations *)
(** Nothing barred is expected before a rule has read a token. *)
Section Late.
Variable bar : list tkind.
(** The first value: an expected token of [bar] comes after another token; the second: if the statement
    is left, a token has been read. *)
Fixpoint late (s : stmt) : bool * bool :=
  match s with
  | SExpect t => (negb (memk t bar), true)
  | SAdvance => (true, true)
  | SSeq a b => (fst (late a) && (snd (late a) || fst (late b)), snd (late a) || snd (late b))
  | SIf (CConsume _) a b => (fst (late b), snd (late b))
  | SIf _ a b => (fst (late a) && fst (late b), snd (late a) && snd (late b))
  | SWhile _ a => (fst (late a), false)
  | SLet _ a => late a
  | _ => (true, false)
  end.
End Late.
Lemma late_ok : forallb (fun k => fst (late [TInitial; TEnd] (body k))) all_skinds = true.
Proof. vm_compute. reflexivity. Qed.
Lemma okr_shorter reg s ts g cs r : okr body reg s ts g cs r -> (length r <= length ts)%nat.
Proof. intro H. apply okr_yield in H. subst. rewrite app_length. lia. Qed.
Lemma ceval_shorter reg c ts b cs r : ceval reg c ts = (b, cs, r) -> (length r <= length ts)%nat.
Proof. intro H. apply ceval_yield in H. subst. rewrite app_length. lia. Qed.
Lemma halt_shorter W reg s ts cs r : halt body W reg s ts cs r -> (length r <= length ts)%nat.
Proof. intro H. apply halt_yield in H as (b & -> & _). rewrite app_length. lia. Qed.

Lemma late_okr bar reg s ts g cs r : okr body reg s ts g cs r -> g = Normal -> snd (late bar s) = true ->
  (length r < length ts)%nat.
Proof.
  induction 1; intros G L; cbn [late snd] in L; try discriminate; cbn [length]; try lia.
  - pose proof (okr_shorter _ _ _ _ _ _ H). pose proof (okr_shorter _ _ _ _ _ _ H0).
    apply orb_true_iff in L as [L|L]; [specialize (IHokr1 eq_refl L)|specialize (IHokr2 G L)]; lia.
  - pose proof (ceval_shorter _ _ _ _ _ _ H) as LE. pose proof (okr_shorter _ _ _ _ _ _ H0).
    assert (x = true /\ (length t1 < length ts)%nat \/ snd (late bar (if x then a else b)) = true) as [[_ LT]|K].
    { destruct c; cbn [snd] in L; try (apply andb_true_iff in L as [L1 L2]; destruct x; auto; fail).
      destruct x; auto. left. split; auto. cbn [ceval] in H. destruct ts as [|y ts]; [discriminate|].
      destruct (tkind_eqb (tkind_of y) t); inversion H; subst. cbn. lia. }
    + lia.
    + specialize (IHokr G K). lia.
  - auto.
Qed.

Lemma late_halt reg s x ts cs r : halt body (Some x) reg s ts cs r -> r <> [] -> In (tkind_of x) [TInitial; TEnd] ->
  fst (late [TInitial; TEnd] s) = true -> (length r < length ts)%nat.
Proof.
  intros H NE I. induction H; intro L; cbn [late fst] in L; try discriminate; try contradiction.
  - apply andb_true_iff in L as [L _]. auto.
  - apply andb_true_iff in L as [_ L]. apply orb_true_iff in L as [L|L].
    + pose proof (late_okr _ _ _ _ _ _ _ H eq_refl L). apply halt_shorter in H1. lia.
    + pose proof (okr_shorter _ _ _ _ _ _ H). specialize (IHhalt NE L). lia.
  - unfold wish in H1. subst t. apply memk_in in I. rewrite I in L. discriminate.
  - apply (IHhalt NE). exact (skind_all _ late_ok k).
  - pose proof (ceval_shorter _ _ _ _ _ _ H) as LE. pose proof (halt_shorter _ _ _ _ _ _ H1).
    assert (x0 = true /\ (length t1 < length ts)%nat \/ fst (late [TInitial; TEnd] (if x0 then a else b)) = true) as [[_ LT]|K].
    { destruct c; cbn [fst] in L; try (apply andb_true_iff in L as [L1 L2]; destruct x0; auto; fail).
      destruct x0; auto. left. split; auto. cbn [ceval] in H. destruct ts as [|y ts]; [discriminate|].
      destruct (tkind_eqb (tkind_of y) t); inversion H; subst. cbn. lia. }
    + lia.
    + specialize (IHhalt NE K). lia.
  - pose proof (ceval_shorter _ _ _ _ _ _ H). specialize (IHhalt NE L). lia.
  - pose proof (ceval_shorter _ _ _ _ _ _ H). pose proof (okr_shorter _ _ _ _ _ _ H0). specialize (IHhalt NE L). lia.
  - auto.
Qed.

Lemma halt_unbarred W reg s ts cs r : halt body W reg s ts cs r ->
  Forall unbarred cs /\
  forall k b, safe (barred k KEquation) b s = true ->
    (b = true -> ~ In (kind_at ts 0) (barred k KEquation)) -> Forall (allowed k) cs.
Proof.
  induction 1; cbn [safe].
  - split; auto.
  - destruct IHhalt as [A B]. split; auto. intros k b0 S N. apply andb_true_iff in S as [S1 S2]. eauto.
  - destruct (okr_unbarred _ _ _ _ _ _ H) as [A1 B1]. destruct IHhalt as [A2 B2].
    split; [apply Forall_app; auto|].
    intros k b0 S N. apply andb_true_iff in S as [S1 S2]. apply Forall_app. split; eauto.
    apply (B2 _ _ S2). discriminate.
  - destruct (ceval_toks _ _ _ _ _ _ H) as [A B]. auto.
  - unfold wished. destruct W; split; repeat constructor.
  - split; repeat constructor.
  - split; repeat constructor.
  - split; auto.
  - destruct IHhalt as [A B].
    assert (unbarred (CTree k cs)) as U.
    { constructor; auto. apply (B k false); [|discriminate]. exact (skind_all _ safe_ok k). }
    split; [constructor; auto|]. intros k' b S N. constructor; auto.
    unfold allowed. change (leaves (CTree k cs)) with (yield cs).
    pose proof H as H0. apply halt_yield in H as (before & E & Y).
    destruct (yield cs) as [|t l] eqn:YC; auto.
    destruct k; try (intros []). cbn in S. subst b. specialize (N eq_refl).
    destruct before as [|y before].
    + destruct r as [|z r]; [discriminate|]. destruct W as [x|]; [|discriminate]. cbn in Y. inversion Y; subst.
      intro I. assert (In (tkind_of x) [TInitial; TEnd]) as J by (destruct k'; cbn in I |- *; tauto).
      pose proof (late_halt _ _ _ _ _ _ H0 ltac:(discriminate) J (skind_all _ late_ok KEquation)) as LT.
      cbn in LT. lia.
    + cbn [app] in Y. inversion Y; subst. exact N.
  - destruct (ceval_toks _ _ _ _ _ _ H) as [A B]. auto.
  - destruct (ceval_toks _ _ _ _ _ _ H) as [A B]. destruct IHhalt as [A2 B2].
    split; [apply Forall_app; auto|]. intros k b0 S N. apply andb_true_iff in S as [S1 S2].
    apply Forall_app. split; auto. destruct x.
    + apply (B2 _ _ S1). intro E. destruct (excludes_ok _ _ _ E _ _ _ H) as (_ & -> & M). auto.
    + apply (B2 _ _ S2). discriminate.
  - destruct (ceval_toks _ _ _ _ _ _ H) as [A B]. auto.
  - destruct (ceval_toks _ _ _ _ _ _ H) as [A B]. destruct IHhalt as [A2 B2].
    split; [apply Forall_app; auto|]. intros k b0 S N.
    apply Forall_app. split; auto.
    apply (B2 _ _ S). intro E. destruct (excludes_ok _ _ _ E _ _ _ H) as (_ & -> & M). auto.
  - destruct (ceval_toks _ _ _ _ _ _ H) as [A B]. destruct (okr_unbarred _ _ _ _ _ _ H0) as [A2 B2].
    destruct IHhalt as [A3 B3].
    split; [repeat (apply Forall_app; split; auto)|]. intros k b0 S N.
    apply Forall_app. split; auto. apply Forall_app. split.
    + apply (B2 _ _ S). intro E. destruct (excludes_ok _ _ _ E _ _ _ H) as (_ & -> & M). auto.
    + apply (B3 k false); auto. discriminate.
  - destruct IHhalt as [A B]. split; auto.
Qed.

(** * The first error of a parse *)
Lemma advs_ok : forallb (fun k => advs (body k)) all_skinds = true.
Proof. vm_compute. reflexivity. Qed.

Lemma parse_halts ts evs e er : parse_events ts KStoredDefinition = Ok (evs, e :: er) ->
  exists o r, in_front ts r e /\ says r o (emsg e) /\
    forall W, fits W o -> exists cs, halt body W TEOF (SCall KStoredDefinition) ts cs r.
Proof.
  intro H. unfold parse_events in H. rewrite parse_events_unfold in H by discriminate.
  apply bind_ok in H as [[g p] [H1 H2]]. inversion H2 as [[H3 H4]]. clear H2.
  destruct (parse_fuel ts) as [|f]; [discriminate|].
  destruct (exec_halt body (skind_all _ advs_ok) (S f) _ _ _ _ _ H1 eq_refl eq_refl) as [(cs & O & D & R)|(o & r & NO & HA)].
  - apply did_errs in D; [|reflexivity]. rewrite D in H4. discriminate.
  - exists o, r. destruct NO as (_ & _ & _ & NO). destruct (NO _ _ H4) as [A B]. split; [exact A|]. split; auto.
Qed.

(** All tokens of a conforming tree have a spelling. *)
Lemma conforms_fine c : conforms false c -> match c with CTok _ => True | _ => Forall (fun x => fine_token (tkind_of x) = true) (leaves c) end.
Proof.
  induction c as [x|k cs IH] using child_ind2; intro C; [exact I|].
  apply conforms_kids in C as [L C]. apply letters_ok in L.
  pose proof (skind_all _ spread_ok k) as SP. unfold spread in SP. rewrite forallb_forall in SP.
  change (leaves (CTree k cs)) with (yield cs). induction IH as [|c cs H _ IHcs]; [constructor|].
  inversion C; inversion L; subst. change (yield (c :: cs)) with (leaves c ++ yield cs).
  apply Forall_app. split; [|auto]. destruct c as [x|k1 ds]; [|auto].
  constructor; [|constructor]. apply (SP (Term (tkind_of x))). auto.
Qed.

Lemma halt_completes W ts cs r : halt body W TEOF (SCall KStoredDefinition) ts cs r ->
  exists more evs, Forall made more /\ Forall (fun x => fine_token (tkind_of x) = true) (yield cs) /\
    parse_events (yield cs ++ more) KStoredDefinition = Ok (evs, []).
Proof.
  intro HA.
  destruct (halt_unbarred _ _ _ _ _ _ HA) as [U _].
  assert (exists c, yield cs = leaves c /\ sym_of c = Rule KStoredDefinition /\ begun prod_of part_of c /\ unbarred c)
    as (c & LC & SC & BC & UC).
  { inversion HA as [| | | | | | | |reg k ts' cs' r' HB| | | | | |]; subst.
    - destruct (part_ok KStoredDefinition) as (q & Q & L & _); [discriminate|].
      exists (CTree KStoredDefinition []). split; [reflexivity|]. split; [reflexivity|]. split.
      + constructor; [|constructor]. apply L. eapply tp_nil; eauto.
      + constructor; constructor.
    - exists (CTree KStoredDefinition cs'). split; [cbn; rewrite app_nil_r; reflexivity|]. split; [reflexivity|].
      split; [|inversion U; auto].
      destruct (part_ok KStoredDefinition) as (q & Q & L & _); [discriminate|].
      destruct (tp_sound body pre_tab prod_of part_of body_ok pre_part _ _ _ _ _ _ HB _ _ Q) as [A B].
      { split; simpl; auto; try apply full_in. discriminate. }
      constructor; auto. }
  destruct (finish c BC UC) as (c' & F1 & F2 & F3 & _ & more & F5 & F6).
  destruct c' as [x|k cs']; [rewrite SC in F1; discriminate|]. rewrite SC in F1. inversion F1; subst k.
  exists more, (flat (CTree KStoredDefinition cs')). split; auto. split.
  - pose proof (conforms_fine _ F2) as FI. cbv beta iota in FI. rewrite F5, <- LC in FI. apply Forall_app in FI. tauto.
  - rewrite LC, <- F5. apply complete. split; auto.
Qed.

(** * How far the parser looks *)
Definition at_ (ts : list token) (i : nat) : option tkind := nth_error (map tkind_of ts) i.
Definition near (m : nat) (ts ts' : list token) : Prop := forall i, (i < m)%nat -> at_ ts i = at_ ts' i.

Lemma near_weaken m n ts ts' : (n <= m)%nat -> near m ts ts' -> near n ts ts'.
Proof. intros L N i I. apply N. lia. Qed.
Lemma near_skip m a a' t t' : length a = length a' -> near (length a + m) (a ++ t) (a' ++ t') -> near m t t'.
Proof.
  intros L N i I. specialize (N (length a + i)%nat ltac:(lia)). unfold at_ in *.
  rewrite !map_app in N. rewrite !nth_error_app2 in N by (rewrite map_length; lia).
  rewrite !map_length in N. replace (length a + i - length a)%nat with i in N by lia.
  replace (length a + i - length a')%nat with i in N by lia. exact N.
Qed.
Lemma kind_at_at ts i : kind_at ts i = match at_ ts i with Some k => k | None => TEOF end.
Proof. unfold kind_at, at_. rewrite nth_error_map. destruct (nth_error ts i); reflexivity. Qed.
Lemma near_kind m ts ts' i : near m ts ts' -> (i < m)%nat -> kind_at ts i = kind_at ts' i.
Proof. intros N L. rewrite !kind_at_at, (N i L). reflexivity. Qed.

Fixpoint clooks (c : cond) : bool :=
  match c with
  | CNth n _ => Nat.leb n 1
  | CReg _ | CConsume _ | CEof => true
  | CNot c => clooks c
  | CAnd a b | COr a b => clooks a && clooks b
  end.
(** The one place with a further look: at the third token of a class specifier. *)
Definition far_if (c : cond) (a b : stmt) : bool :=
  match c, a, b with
  | CNth 2 _, SCall KDerClassSpecifier, SCall KShortClassSpecifier => true
  | _, _, _ => false
  end.
Fixpoint looks (s : stmt) : bool :=
  match s with
  | SSkip | SExpect _ | SAdvance | SAdvErr _ _ _ | SCall _ | SBreak => true
  | SSeq a b => looks a && looks b
  | SDo c => clooks c
  | SIf c a b => (clooks c && looks a && looks b) || far_if c a b
  | SWhile c a => clooks c && looks a
  | SLet n a => Nat.leb n 1 && looks a
  end.
Lemma looks_ok : forallb (fun k => looks (body k)) all_skinds = true.
Proof. vm_compute. reflexivity. Qed.

Definition size (cs : list child) : nat := length (yield cs).
Lemma size_app a b : size (a ++ b) = (size a + size b)%nat.
Proof. unfold size. rewrite yield_app, app_length. reflexivity. Qed.

Lemma ceval_near reg c : clooks c = true -> forall ts ts' b cs r b' cs' r',
  ceval reg c ts = (b, cs, r) -> ceval reg c ts' = (b', cs', r') ->
  near (size cs + 2) ts ts' -> b = b' /\ size cs = size cs'.
Proof.
  induction c as [n l|l|t| |c IHc|c1 IHc1 c2 IHc2|c1 IHc1 c2 IHc2]; cbn [clooks]; intros L ts ts' b cs r b' cs' r' H H' N.
  - cbn [ceval] in H, H'. inversion H; inversion H'; subst. split; auto. apply Nat.leb_le in L.
    rewrite (near_kind _ _ _ n N); auto. cbn. lia.
  - cbn [ceval] in H, H'. inversion H; inversion H'; subst. auto.
  - cbn [ceval] in H, H'. pose proof (N 0%nat ltac:(lia)) as Z. unfold at_ in Z.
    destruct ts as [|x ts], ts' as [|x' ts']; cbn in Z; try discriminate.
    + inversion H; inversion H'; auto.
    + inversion Z as [Z']. rewrite Z' in H. destruct (tkind_eqb (tkind_of x') t); inversion H; inversion H'; auto.
  - cbn [ceval] in H, H'. pose proof (N 0%nat ltac:(lia)) as Z. unfold at_ in Z.
    destruct ts as [|x ts], ts' as [|x' ts']; cbn in Z; try discriminate; inversion H; inversion H'; auto.
  - cbn [ceval] in H, H'. destruct (ceval reg c ts) as [[x l] r1] eqn:E. destruct (ceval reg c ts') as [[x' l'] r1'] eqn:E'.
    inversion H; inversion H'; subst. destruct (IHc L _ _ _ _ _ _ _ _ E E' N) as [-> ->]. auto.
  - apply andb_true_iff in L as [L1 L2]. cbn [ceval] in H, H'.
    destruct (ceval reg c1 ts) as [[x l] r1] eqn:E. destruct (ceval reg c1 ts') as [[x' l'] r1'] eqn:E'.
    assert (size l <= size cs)%nat as LE.
    { destruct x; [destruct (ceval reg c2 r1) as [[y l2] r2]|]; inversion H; subst; rewrite ?size_app; lia. }
    destruct (IHc1 L1 _ _ _ _ _ _ _ _ E E') as [-> LL]; [eapply near_weaken; [|exact N]; lia|].
    destruct x'; [|inversion H; inversion H'; subst; auto].
    destruct (ceval reg c2 r1) as [[y l2] r2] eqn:F. destruct (ceval reg c2 r1') as [[y' l2'] r2'] eqn:F'.
    inversion H; inversion H'; subst. rewrite !size_app in *.
    destruct (IHc2 L2 _ _ _ _ _ _ _ _ F F') as [-> LL2]; [|split; auto; lia].
    apply ceval_yield in E. apply ceval_yield in E'. subst ts ts'.
    apply (near_skip _ (yield l) (yield l')); auto. eapply near_weaken; [|exact N]. unfold size. lia.
  - apply andb_true_iff in L as [L1 L2]. cbn [ceval] in H, H'.
    destruct (ceval reg c1 ts) as [[x l] r1] eqn:E. destruct (ceval reg c1 ts') as [[x' l'] r1'] eqn:E'.
    assert (size l <= size cs)%nat as LE.
    { destruct x; [|destruct (ceval reg c2 r1) as [[y l2] r2]]; inversion H; subst; rewrite ?size_app; lia. }
    destruct (IHc1 L1 _ _ _ _ _ _ _ _ E E') as [-> LL]; [eapply near_weaken; [|exact N]; lia|].
    destruct x'; [inversion H; inversion H'; subst; auto|].
    destruct (ceval reg c2 r1) as [[y l2] r2] eqn:F. destruct (ceval reg c2 r1') as [[y' l2'] r2'] eqn:F'.
    inversion H; inversion H'; subst. rewrite !size_app in *.
    destruct (IHc2 L2 _ _ _ _ _ _ _ _ F F') as [-> LL2]; [|split; auto; lia].
    apply ceval_yield in E. apply ceval_yield in E'. subst ts ts'.
    apply (near_skip _ (yield l) (yield l')); auto. eapply near_weaken; [|exact N]. unfold size. lia.
Qed.

(** Both kinds of short class specifiers begin with their name. *)
Lemma far_name c a b : far_if c a b = true ->
  (exists l, c = CNth 2 l) /\
  forall x : bool, exists k rest, (if x then a else b) = SCall k /\ body k = SSeq (SExpect TIdentifier) rest.
Proof.
  unfold far_if. destruct c; try discriminate. destruct n as [|[|[|n]]]; try discriminate.
  destruct a; try discriminate. destruct k; try discriminate. destruct b; try discriminate.
  destruct k; try discriminate. intros _. split; [eexists; reflexivity|].
  intros [|]; eexists; eexists; split; reflexivity.
Qed.
Lemma named_okr reg k rest ts g cs r : body k = SSeq (SExpect TIdentifier) rest ->
  okr body reg (SCall k) ts g cs r -> kind_at ts 0 = TIdentifier /\ (1 <= size cs)%nat.
Proof.
  intros E H. inversion H as [| | | | | |reg' k' ts' g' cs' r' O| | | | | |]; subst. rewrite E in O.
  assert (kind_at ts 0 = TIdentifier /\ (1 <= size cs')%nat) as [A B].
  { inversion O as [|? ? ? ? c1 t1 ? c2 ? O1 O2|? ? ? ? c1 t1 O1| | | | | | | | | |]; subst; inversion O1; subst.
    split; auto. rewrite size_app. cbn. lia. }
  split; auto. unfold size in *. cbn. rewrite app_nil_r. exact B.
Qed.
Lemma named_halt reg k rest ts cs r : body k = SSeq (SExpect TIdentifier) rest -> r <> [] ->
  halt body None reg (SCall k) ts cs r -> kind_at ts 0 <> TIdentifier \/ (1 <= size cs)%nat.
Proof.
  intros E NE H. inversion H as [| | | | | | | |reg' k' ts' cs' r' O| | | | | |]; subst; [contradiction|]. rewrite E in O.
  assert (kind_at ts 0 <> TIdentifier \/ (1 <= size cs')%nat) as A.
  { inversion O as [|? ? ? ? ? ? O1|? ? ? ? c1 t1 c2 ? O1 N1 O2| | | | | | | | | | | |]; subst; [contradiction| |].
    - inversion O1; subst; auto; contradiction.
    - right. inversion O1; subst. rewrite size_app. cbn. lia. }
  destruct A as [A|A]; auto. right. unfold size in *. cbn. rewrite app_nil_r. exact A.
Qed.

Lemma far_ceval l reg ts b cs r : ceval reg (CNth 2 l) ts = (b, cs, r) -> b = memk (kind_at ts 2) l /\ cs = [] /\ r = ts.
Proof. cbn [ceval]. intro H. inversion H; auto. Qed.

Lemma okr_near reg s ts g cs r : okr body reg s ts g cs r -> looks s = true ->
  forall ts' g' cs' r', okr body reg s ts' g' cs' r' -> near (size cs + 2) ts ts' ->
  g = g' /\ size cs = size cs'.
Proof.
  induction 1; cbn [looks]; intros L ts' g' cs' r' H' N.
  - inversion H'; subst. auto.
  - apply andb_true_iff in L as [L1 L2]. rewrite size_app in *.
    inversion H' as [|? ? ? ? d1 u1 ? d2 ? O1 O2|? ? ? ? d1 u1 O1| | | | | | | | | |]; subst.
    + destruct (IHokr1 L1 _ _ _ _ O1) as [_ S1]; [eapply near_weaken; [|exact N]; lia|].
      destruct (IHokr2 L2 _ _ _ _ O2) as [-> S2]; [|rewrite size_app; split; auto; lia].
      apply okr_yield in H. apply okr_yield in O1. subst ts ts'.
      apply (near_skip _ (yield c1) (yield d1)); auto. eapply near_weaken; [|exact N]. unfold size. lia.
    + destruct (IHokr1 L1 _ _ _ _ O1) as [Z _]; [eapply near_weaken; [|exact N]; lia|discriminate].
  - apply andb_true_iff in L as [L1 L2].
    inversion H' as [|? ? ? ? d1 u1 ? d2 ? O1 O2|? ? ? ? d1 u1 O1| | | | | | | | | |]; subst.
    + destruct (IHokr L1 _ _ _ _ O1 N) as [Z _]. discriminate.
    + destruct (IHokr L1 _ _ _ _ O1 N) as [_ S]. auto.
  - inversion H'; subst. split; auto. eapply ceval_near; eauto.
  - inversion H'; subst. auto.
  - inversion H'; subst. auto.
  - inversion H' as [| | | | | |? ? ? g2 d ? O| | | | | |]; subst.
    destruct (IHokr (skind_all _ looks_ok k) _ _ _ _ O) as [_ S].
    { unfold size in *. cbn in N. rewrite app_nil_r in N. exact N. }
    split; auto. unfold size in *. cbn. rewrite !app_nil_r. exact S.
  - inversion H' as [| | | | | | |? ? ? ? ? x' d1 u1 ? d2 ? E' O| | | | |]; subst. rewrite !size_app in *.
    apply orb_true_iff in L as [L|L].
    + apply andb_true_iff in L as [L L2]. apply andb_true_iff in L as [L0 L1].
      destruct (ceval_near _ _ L0 _ _ _ _ _ _ _ _ H E') as [<- S1]; [eapply near_weaken; [|exact N]; lia|].
      assert (looks (if x then a else b) = true) as LX by (destruct x; auto).
      destruct (IHokr LX _ _ _ _ O) as [-> S2]; [|split; auto; lia].
      apply ceval_yield in H. apply ceval_yield in E'. subst ts ts'.
      apply (near_skip _ (yield c1) (yield d1)); auto. eapply near_weaken; [|exact N]. unfold size. lia.
    + destruct (far_name _ _ _ L) as [[l ->] F].
      apply far_ceval in H as (-> & -> & ->). apply far_ceval in E' as (-> & -> & ->). cbn in N.
      destruct (F (memk (kind_at ts 2) l)) as (k & rest & E1 & E2). rewrite E1 in *.
      destruct (named_okr _ _ _ _ _ _ _ E2 H0) as [_ S].
      rewrite <- (near_kind _ _ _ 2 N ltac:(lia)), E1 in O.
      destruct (IHokr eq_refl _ _ _ _ O N) as [-> S2]. auto.
  - apply andb_true_iff in L as [L1 L2].
    inversion H' as [| | | | | | | |? ? ? ? d1 u1 E'|? ? ? ? d1 u1 d2 ? E' O|? ? ? ? d1 u1 d2 u2 d3 ? E' O O2| |]; subst.
    + split; auto. eapply ceval_near; eauto.
    + destruct (ceval_near _ _ L1 _ _ _ _ _ _ _ _ H E' N) as [Z _]. discriminate.
    + destruct (ceval_near _ _ L1 _ _ _ _ _ _ _ _ H E' N) as [Z _]. discriminate.
  - apply andb_true_iff in L as [L1 L2]. rewrite size_app in *.
    assert (near (size c1 + 2) ts ts') as N1 by (eapply near_weaken; [|exact N]; lia).
    inversion H' as [| | | | | | | |? ? ? ? d1 u1 E'|? ? ? ? d1 u1 d2 ? E' O|? ? ? ? d1 u1 d2 u2 d3 ? E' O O2| |]; subst;
      destruct (ceval_near _ _ L1 _ _ _ _ _ _ _ _ H E' N1) as [Z S]; try discriminate;
      (assert (near (size c2 + 2) t1 u1) as N2 by
        (apply ceval_yield in H; apply ceval_yield in E'; subst ts ts';
         apply (near_skip _ (yield c1) (yield d1)); auto; eapply near_weaken; [|exact N]; unfold size; lia));
      destruct (IHokr L2 _ _ _ _ O N2) as [Z2 S2]; try discriminate.
    split; auto. rewrite size_app. lia.
  - pose proof L as L0. apply andb_true_iff in L as [L1 L2]. rewrite !size_app in *.
    assert (near (size c1 + 2) ts ts') as N1 by (eapply near_weaken; [|exact N]; lia).
    inversion H' as [| | | | | | | |? ? ? ? d1 u1 E'|? ? ? ? d1 u1 d2 ? E' O|? ? ? ? d1 u1 d2 u2 d3 ? E' O O2| |]; subst;
      destruct (ceval_near _ _ L1 _ _ _ _ _ _ _ _ H E' N1) as [Z S]; try discriminate;
      (assert (near (size c2 + (size c3 + 2)) t1 u1) as N2 by
        (apply ceval_yield in H; apply ceval_yield in E'; subst ts ts';
         apply (near_skip _ (yield c1) (yield d1)); auto; eapply near_weaken; [|exact N]; unfold size; lia));
      (destruct (IHokr1 L2 _ _ _ _ O) as [Z2 S2]; [eapply near_weaken; [|exact N2]; lia|]); try discriminate.
    destruct (IHokr2 L0 _ _ _ _ O2) as [_ S3].
    { apply okr_yield in H0. apply okr_yield in O. subst t1 u1.
      apply (near_skip _ (yield c2) (yield d2)); auto. }
    split; auto. rewrite !size_app. lia.
  - apply andb_true_iff in L as [L1 L2]. apply Nat.leb_le in L1.
    inversion H' as [| | | | | | | | | | |? ? ? ? ? ? ? O|]; subst.
    rewrite <- (near_kind _ _ _ n N ltac:(lia)) in O. eauto.
  - inversion H'; subst. auto.
Qed.

Lemma halt_near reg s ts cs r : halt body None reg s ts cs r -> r <> [] -> looks s = true ->
  forall ts' g' cs' r', okr body reg s ts' g' cs' r' -> ~ near (size cs + 2) ts ts'.
Proof.
  induction 1; cbn [looks]; intros NE L ts' g' cs' r' H' N; try contradiction.
  - apply andb_true_iff in L as [L1 L2].
    inversion H' as [|? ? ? ? d1 u1 ? d2 ? O1 O2|? ? ? ? d1 u1 O1| | | | | | | | | |]; subst; eapply IHhalt; eauto.
  - apply andb_true_iff in L as [L1 L2]. rewrite size_app in *.
    inversion H' as [|? ? ? ? d1 u1 ? d2 ? O1 O2|? ? ? ? d1 u1 O1| | | | | | | | | |]; subst;
      (destruct (okr_near _ _ _ _ _ _ H L1 _ _ _ _ O1) as [Z S]; [eapply near_weaken; [|exact N]; lia|]); try discriminate.
    apply (IHhalt NE L2 _ _ _ _ O2).
    apply okr_yield in H. apply okr_yield in O1. subst ts ts'.
    apply (near_skip _ (yield c1) (yield d1)); auto. eapply near_weaken; [|exact N]. unfold size. lia.
  - inversion H'; subst. apply H. rewrite (near_kind _ _ _ 0 N) by lia. reflexivity.
  - inversion H'.
  - inversion H' as [| | | | | |? ? ? g2 d ? O| | | | | |]; subst.
    apply (IHhalt NE (skind_all _ looks_ok k) _ _ _ _ O).
    unfold size in *. cbn in N. rewrite app_nil_r in N. exact N.
  - inversion H' as [| | | | | | |? ? ? ? ? x' d1 u1 ? d2 ? E' O| | | | |]; subst. rewrite !size_app in *.
    apply orb_true_iff in L as [L|L].
    + apply andb_true_iff in L as [L L2]. apply andb_true_iff in L as [L0 L1].
      destruct (ceval_near _ _ L0 _ _ _ _ _ _ _ _ H E') as [<- S1]; [eapply near_weaken; [|exact N]; lia|].
      assert (looks (if x then a else b) = true) as LX by (destruct x; auto).
      apply (IHhalt NE LX _ _ _ _ O).
      apply ceval_yield in H. apply ceval_yield in E'. subst ts ts'.
      apply (near_skip _ (yield c1) (yield d1)); auto. eapply near_weaken; [|exact N]. unfold size. lia.
    + destruct (far_name _ _ _ L) as [[l ->] F].
      apply far_ceval in H as (-> & -> & ->). apply far_ceval in E' as (-> & -> & ->). cbn in N.
      destruct (F (memk (kind_at ts 2) l)) as (k & rest & E1 & E2). rewrite E1 in *.
      destruct (named_halt _ _ _ _ _ _ E2 NE H1) as [K|S].
      * destruct (F (memk (kind_at ts' 2) l)) as (k' & rest' & E1' & E2'). rewrite E1' in O.
        destruct (named_okr _ _ _ _ _ _ _ E2' O) as [K' _].
        rewrite <- (near_kind _ _ _ 0 N ltac:(lia)) in K'. contradiction.
      * rewrite <- (near_kind _ _ _ 2 N ltac:(lia)), E1 in O. exact (IHhalt NE eq_refl _ _ _ _ O N).
  - apply andb_true_iff in L as [L1 L2]. rewrite size_app in *.
    assert (near (size c1 + 2) ts ts') as N1 by (eapply near_weaken; [|exact N]; lia).
    inversion H' as [| | | | | | | |? ? ? ? d1 u1 E'|? ? ? ? d1 u1 d2 ? E' O|? ? ? ? d1 u1 d2 u2 d3 ? E' O O2| |]; subst;
      destruct (ceval_near _ _ L1 _ _ _ _ _ _ _ _ H E' N1) as [Z S]; try discriminate;
      (assert (near (size c2 + 2) t1 u1) as N2 by
        (apply ceval_yield in H; apply ceval_yield in E'; subst ts ts';
         apply (near_skip _ (yield c1) (yield d1)); auto; eapply near_weaken; [|exact N]; unfold size; lia));
      exact (IHhalt NE L2 _ _ _ _ O N2).
  - pose proof L as L0. apply andb_true_iff in L as [L1 L2]. rewrite !size_app in *.
    assert (near (size c1 + 2) ts ts') as N1 by (eapply near_weaken; [|exact N]; lia).
    inversion H' as [| | | | | | | |? ? ? ? d1 u1 E'|? ? ? ? d1 u1 d2 ? E' O|? ? ? ? d1 u1 d2 u2 d3 ? E' O O2| |]; subst;
      destruct (ceval_near _ _ L1 _ _ _ _ _ _ _ _ H E' N1) as [Z S]; try discriminate;
      (assert (near (size c2 + (size c3 + 2)) t1 u1) as N2 by
        (apply ceval_yield in H; apply ceval_yield in E'; subst ts ts';
         apply (near_skip _ (yield c1) (yield d1)); auto; eapply near_weaken; [|exact N]; unfold size; lia));
      (destruct (okr_near _ _ _ _ _ _ H0 L2 _ _ _ _ O) as [Z2 S2]; [eapply near_weaken; [|exact N2]; lia|]); try discriminate.
    apply (IHhalt NE L0 _ _ _ _ O2).
    apply okr_yield in H0. apply okr_yield in O. subst t1 u1.
    apply (near_skip _ (yield c2) (yield d2)); auto.
  - apply andb_true_iff in L as [L1 L2]. apply Nat.leb_le in L1.
    inversion H' as [| | | | | | | | | | |? ? ? ? ? ? ? O|]; subst.
    rewrite <- (near_kind _ _ _ n N ltac:(lia)) in O. eapply IHhalt; eauto.
Qed.

(** Both halves together. *)
Lemma first_error ts evs e er : parse_events ts KStoredDefinition = Ok (evs, e :: er) ->
  exists before rest o,
    ts = before ++ rest /\ in_front ts rest e /\ says rest o (emsg e) /\
    (exists more evs', Forall made more /\ parse_events (before ++ more) KStoredDefinition = Ok (evs', [])) /\
    (rest <> [] -> forall ts' evs', parse_events ts' KStoredDefinition = Ok (evs', []) -> ~ near (length before + 2) ts ts') /\
    (forall t, o = Some t -> exists more evs', Forall made (token_for t :: more) /\
       parse_events (before ++ token_for t :: more) KStoredDefinition = Ok (evs', [])).
Proof.
  intro H. apply parse_halts in H as (o & r & F & S & HA).
  destruct (HA None I) as [cs H0]. pose proof (halt_yield _ _ _ _ _ _ _ H0) as (before & E & Y).
  assert (yield cs = before) as YB by (destruct r; rewrite app_nil_r in Y; exact Y).
  exists before, r, o. split; auto. split; auto. split; auto. split; [|split].
  - destruct (halt_completes _ _ _ _ H0) as (more & evs' & M & _ & P). rewrite YB in P. eauto.
  - intros NE ts' evs' H'. unfold parse_events in H'. apply parse_shape in H' as (cs' & rest' & g & _ & _ & _ & O).
    specialize (O eq_refl). apply (ok_call body TEOF) in O.
    rewrite <- YB. exact (halt_near _ _ _ _ _ H0 NE eq_refl _ _ _ _ O).
  - intros t ->. destruct (HA (Some (token_for t)) eq_refl) as [cs' H1].
    pose proof (halt_yield _ _ _ _ _ _ _ H1) as (before' & E' & Y').
    destruct S as [NE _]. rewrite E in E'. apply app_inv_tail in E'. subst before'.
    destruct r as [|y r]; [contradiction|].
    destruct (halt_completes _ _ _ _ H1) as (more & evs' & M & FI & P). rewrite Y' in P, FI.
    rewrite <- app_assoc in P. cbn in P. exists more, evs'. split; auto. constructor; auto.
    apply Forall_app in FI as [_ FI]. apply Forall_inv in FI. split; [exact FI|reflexivity].
Qed.
