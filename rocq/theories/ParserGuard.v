(** The guard of [Parser::nth] never stops an error-free run: at most [most] lookups happen
    between two advances. A static count per statement. *)
From Verif Require Import ProofBase Tokens Syntax Lexer ParserCore Grammar Tree ParserSem
  ParserFuel.

Definition most : N := 34.

(** Ways a statement can complete: [th = Some n] without consuming a token and after at
    most [n] lookups; [po = Some n] after consuming one, with at most [n] lookups after the
    last token consumed. *)
Record out := mkO { th : option N; po : option N }.
Definition dead : out := mkO None None.

Definition omax (a b : option N) : option N :=
  match a, b with
  | Some x, Some y => Some (N.max x y)
  | Some x, None => Some x
  | None, y => y
  end.
Definition oplus (a b : option N) : option N :=
  match a, b with Some x, Some y => Some (x + y) | _, _ => None end.
Definition orelse (x y : out) : out := mkO (omax (th x) (th y)) (omax (po x) (po y)).
Definition andthen (x y : out) : out :=
  match th x, po x with
  | None, None => dead
  | _, _ => mkO (oplus (th x) (th y)) (omax (po y) (oplus (po x) (th y)))
  end.
(** Lookups before the first token consumed, for [x] followed by something that does at
    most [n] of them. *)
Definition ahead (x : out) (n : N) : N := match th x with Some m => m + n | None => 0 end.
Definition gap_ok (x : out) (n : N) : bool :=
  match po x with Some m => m + n <=? most | None => true end.

Record can := mkC { cpre : N; cT : out; cF : out; cok : bool }.
Record san := mkS { spre : N; sN : out; sB : out; sok : bool }.

Fixpoint ca (c : cond) : can :=
  match c with
  | CNth _ _ => mkC 1 (mkO (Some 1) None) (mkO (Some 1) None) true
  | CReg _ | CEof => mkC 0 (mkO (Some 0) None) (mkO (Some 0) None) true
  | CConsume t => mkC 1 (mkO None (Some 0)) (mkO (Some 1) None) (negb (tkind_eqb t TEOF))
  | CNot c => let a := ca c in mkC (cpre a) (cF a) (cT a) (cok a)
  | CAnd c d =>
      let a := ca c in let b := ca d in
      mkC (N.max (cpre a) (ahead (cT a) (cpre b)))
          (andthen (cT a) (cT b)) (orelse (cF a) (andthen (cT a) (cF b)))
          (cok a && cok b && gap_ok (cT a) (cpre b))
  | COr c d =>
      let a := ca c in let b := ca d in
      mkC (N.max (cpre a) (ahead (cF a) (cpre b)))
          (orelse (cT a) (andthen (cF a) (cT b))) (andthen (cF a) (cF b))
          (cok a && cok b && gap_ok (cF a) (cpre b))
  end.

Section Sa.
Variable tab : skind -> N * out.

Fixpoint sa (s : stmt) : san :=
  match s with
  | SSkip => mkS 0 (mkO (Some 0) None) dead true
  | SSeq a b =>
      let x := sa a in let y := sa b in
      mkS (N.max (spre x) (ahead (sN x) (spre y)))
          (andthen (sN x) (sN y)) (orelse (sB x) (andthen (sN x) (sB y)))
          (sok x && sok y && gap_ok (sN x) (spre y))
  | SDo c => let a := ca c in mkS (cpre a) (orelse (cT a) (cF a)) dead (cok a)
  | SExpect _ => mkS 1 (mkO None (Some 0)) dead true
  | SAdvance => mkS 0 (mkO None (Some 0)) dead true
  | SAdvErr _ _ _ => mkS 0 dead dead true
  | SCall k => mkS (fst (tab k)) (snd (tab k)) dead true
  | SIf c a b =>
      let z := ca c in let x := sa a in let y := sa b in
      mkS (N.max (cpre z) (N.max (ahead (cT z) (spre x)) (ahead (cF z) (spre y))))
          (orelse (andthen (cT z) (sN x)) (andthen (cF z) (sN y)))
          (orelse (andthen (cT z) (sB x)) (andthen (cF z) (sB y)))
          (cok z && sok x && sok y && gap_ok (cT z) (spre x) && gap_ok (cF z) (spre y))
  | SWhile c a =>
      let z := ca c in let x := sa a in
      let again := andthen (cT z) (sN x) in
      let pre := N.max (cpre z) (ahead (cT z) (spre x)) in
      let done := orelse (cF z) (andthen (cT z) (sB x)) in
      mkS pre (orelse done (andthen again done)) dead
          (cok z && sok x && gap_ok (cT z) (spre x) && gap_ok again pre &&
           match th again with None => true | _ => false end)
  | SLet _ a => let x := sa a in
      mkS (1 + spre x) (andthen (mkO (Some 1) None) (sN x))
          (andthen (mkO (Some 1) None) (sB x)) (sok x)
  | SBreak => mkS 0 dead (mkO (Some 0) None) true
  end.
End Sa.

Definition gk_look (l : list (N * out)) (k : skind) : N * out :=
  nth (N.to_nat (skind_code k)) l (0, dead).
Definition gk_next (l : list (N * out)) : list (N * out) :=
  map (fun k => let x := sa (gk_look l) (body k) in (spre x, orelse (sN x) (sB x))) all_skinds.
Definition gk_list : list (N * out) := Eval vm_compute in Nat.iter 40 gk_next [].
Definition gk_tab : skind -> N * out := gk_look gk_list.

Definition oleb (a b : option N) : bool :=
  match a, b with
  | None, _ => true
  | Some x, Some y => x <=? y
  | _, _ => false
  end.
Definition gk_check : bool := forallb (fun k =>
  let x := sa gk_tab (body k) in
  sok x && (spre x <=? fst (gk_tab k)) && (fst (gk_tab k) <=? most) &&
  oleb (th (sN x)) (th (snd (gk_tab k))) && oleb (po (sN x)) (po (snd (gk_tab k))) &&
  oleb (th (sB x)) (th (snd (gk_tab k))) && oleb (po (sB x)) (po (snd (gk_tab k)))) all_skinds.
Lemma gk_check_ok : gk_check = true.
Proof. vm_compute. reflexivity. Qed.

(** What the guard may be after a run that consumed [ts], started with [L] lookups left. *)
Definition meets (o : out) (L : N) (ts : list token) (L' : N) : Prop :=
  (ts = [] /\ exists n, th o = Some n /\ L <= L' + n) \/
  (ts <> [] /\ exists n, po o = Some n /\ most <= L' + n).

Definition ole (a b : option N) : Prop := forall x, a = Some x -> exists y, b = Some y /\ x <= y.

Lemma meets_le o o' L ts L' :
  ole (th o) (th o') -> ole (po o) (po o') -> meets o L ts L' -> meets o' L ts L'.
Proof.
  intros A B [[E (n & H & K)]|[E (n & H & K)]]; [left|right]; split; auto.
  - destruct (A _ H) as (y & Y & Z). exists y. split; auto. lia.
  - destruct (B _ H) as (y & Y & Z). exists y. split; auto. lia.
Qed.

Lemma omax_l a b : ole a (omax a b).
Proof. intros x H; subst. destruct b; simpl; eexists; split; eauto; lia. Qed.
Lemma omax_r a b : ole b (omax a b).
Proof. intros x H; subst. destruct a; simpl; eexists; split; eauto; lia. Qed.
Lemma oleb_ok a b : oleb a b = true -> ole a b.
Proof.
  intros H x E; subst. destruct b; simpl in H; [|discriminate]. apply N.leb_le in H. eauto.
Qed.

Lemma meets_l x y L ts L' : meets x L ts L' -> meets (orelse x y) L ts L'.
Proof. apply meets_le; simpl; apply omax_l. Qed.
Lemma meets_r x y L ts L' : meets y L ts L' -> meets (orelse x y) L ts L'.
Proof. apply meets_le; simpl; apply omax_r. Qed.

(** Enough lookups left for what follows. *)
Lemma meets_next x n L ts L' :
  meets x L ts L' -> gap_ok x n = true -> ahead x n <= L -> n <= L'.
Proof.
  unfold gap_ok, ahead. intros [[E (m & H & K)]|[E (m & H & K)]] G A; rewrite H in *.
  - lia.
  - apply N.leb_le in G. lia.
Qed.

Lemma meets_then x y L ts1 L1 ts2 L2 :
  meets x L ts1 L1 -> meets y L1 ts2 L2 -> meets (andthen x y) L (ts1 ++ ts2) L2.
Proof.
  intros M1 M2.
  assert (andthen x y = mkO (oplus (th x) (th y)) (omax (po y) (oplus (po x) (th y)))) as ->.
  { unfold andthen. destruct M1 as [[_ (n & H & _)]|[_ (n & H & _)]]; rewrite H; auto.
    destruct (th x); auto. }
  destruct M2 as [[E2 (n & H & K)]|[E2 (n & H & K)]].
  - subst. rewrite app_nil_r. destruct M1 as [[E1 (m & H1 & K1)]|[E1 (m & H1 & K1)]].
    + left. split; auto. exists (m + n). cbn [th]. rewrite H1, H. split; auto. lia.
    + right. split; auto. cbn [po]. rewrite H1, H. simpl.
      destruct (omax_r (po y) (Some (m + n)) _ eq_refl) as (z & Z1 & Z2).
      exists z. split; auto. lia.
  - right. split. { destruct ts1; auto. discriminate. }
    cbn [po]. destruct (omax_l (po y) (oplus (po x) (th y)) _ H) as (z & Z1 & Z2).
    exists z. split; auto. lia.
Qed.

(** Conditions. *)
Lemma p_nth_ok n p : 1 <= plifes p -> exists p', p_nth n p = Ok (kind_at (prest p) n, p') /\
  did p p' [] [] /\ prest p' = prest p /\ plifes p <= plifes p' + 1.
Proof.
  intro H. unfold p_nth. assert (plifes p =? 0 = false) as -> by (apply N.eqb_neq; lia).
  eexists; split; [reflexivity|]. simpl. split; [split; reflexivity|]. split; auto. lia.
Qed.

Lemma p_advance_ok x r p : prest p = x :: r -> exists p', p_advance p = Ok p' /\
  did p p' [CTok x] [] /\ prest p' = r /\ plifes p' = plimit p.
Proof.
  intro H. unfold p_advance. rewrite H. eexists; split; [reflexivity|].
  simpl. split; auto. split; simpl; auto.
Qed.

Lemma did_pair p p1 p2 cs1 cs2 : did p p1 cs1 [] -> did p1 p2 cs2 [] -> did p p2 (cs1 ++ cs2) [].
Proof. intros A B. exact (did_trans _ _ _ _ _ _ _ A B). Qed.

Lemma p_consume_ok t p :
  tkind_eqb t TEOF = false -> 1 <= plifes p -> most <= plimit p ->
  exists b cs p', p_consume t p = Ok (b, p') /\
    ceval TEOF (CConsume t) (prest p) = (b, cs, prest p') /\ did p p' cs [] /\
    meets (if b : bool then mkO None (Some 0) else mkO (Some 1) None)
          (plifes p) (yield cs) (plifes p').
Proof.
  intros NE H1 H2. destruct (p_nth_ok 0 p H1) as (q & E & D & R & L).
  unfold p_consume. rewrite E. cbn [bind]. rewrite kind_at_0.
  destruct (prest p) as [|x r] eqn:P.
  - assert (tkind_eqb TEOF t = false) as ->.
    { destruct (tkind_eqb TEOF t) eqn:K; auto. apply tkind_eqb_eq in K. subst t.
      rewrite tkind_eqb_refl in NE. discriminate. }
    exists false, [], q. rewrite R. repeat split; auto; try apply D.
    left. split; auto. exists 1. auto.
  - cbn [ceval]. destruct (tkind_eqb (tkind_of x) t) eqn:K.
    + destruct (p_advance_ok x r q R) as (q2 & E2 & D2 & R2 & L2). rewrite E2. cbn [bind].
      exists true, [CTok x], q2. rewrite R2. split; auto. split; auto. split.
      { exact (did_pair _ _ _ _ _ D D2). }
      right. split; [discriminate|]. exists 0. split; auto.
      rewrite L2, (did_lim _ _ _ _ D). lia.
    + exists false, [], q. rewrite R. split; auto. split; auto. split; auto.
      left. split; auto. exists 1. auto.
Qed.

Lemma eval_ok reg c : forall p, cok (ca c) = true -> cpre (ca c) <= plifes p -> most <= plimit p ->
  exists b cs p', eval reg c p = Ok (b, p') /\
    ceval reg c (prest p) = (b, cs, prest p') /\ did p p' cs [] /\
    meets (if b : bool then cT (ca c) else cF (ca c)) (plifes p) (yield cs) (plifes p').
Proof.
  induction c as [n l|l|t| |c IHc|c1 IHc1 c2 IHc2|c1 IHc1 c2 IHc2]; intros p OK P LM;
    cbn [ca cok cpre cT cF] in *.
  - destruct (p_nth_ok n p P) as (q & E & D & R & L). cbn [eval]. rewrite E. cbn [bind ceval].
    exists (memk (kind_at (prest p) n) l), [], q. rewrite R. split; auto. split; auto. split; auto.
    left. split; auto. exists 1. destruct (memk _ l); auto.
  - exists (memk reg l), [], p. cbn [eval ceval]. split; auto. split; auto.
    split; [apply did_refl|]. left. split; auto. exists 0. destruct (memk reg l); split; auto; lia.
  - apply negb_true_iff in OK. apply p_consume_ok; auto.
  - exists (p_eof p), [], p. cbn [eval ceval]. split; auto. split; auto.
    split; [apply did_refl|]. left. split; auto. exists 0. destruct (p_eof p); split; auto; lia.
  - destruct (IHc p OK P LM) as (b & cs & p' & E & C & D & M).
    exists (negb b), cs, p'. cbn [eval ceval]. rewrite E, C. cbn [bind].
    split; auto. split; auto. split; auto. destruct b; exact M.
  - apply andb_true_iff in OK as [OK G]. apply andb_true_iff in OK as [O1 O2].
    destruct (IHc1 p O1) as (b & cs & q & E & C & D & M); [lia|auto|].
    cbn [eval ceval]. rewrite E, C. cbn [bind]. destruct b.
    + destruct (IHc2 q O2) as (b & cs2 & q2 & E2 & C2 & D2 & M2).
      { eapply meets_next; [exact M|exact G|lia]. }
      { rewrite (did_lim _ _ _ _ D). exact LM. }
      rewrite E2, C2. exists b, (cs ++ cs2), q2. split; auto. split; auto.
      split; [eapply did_pair; eauto|]. rewrite yield_app.
      destruct b; [|apply meets_r]; eapply meets_then; eauto.
    + exists false, cs, q. split; auto. split; auto. split; auto. apply meets_l, M.
  - apply andb_true_iff in OK as [OK G]. apply andb_true_iff in OK as [O1 O2].
    destruct (IHc1 p O1) as (b & cs & q & E & C & D & M); [lia|auto|].
    cbn [eval ceval]. rewrite E, C. cbn [bind]. destruct b.
    + exists true, cs, q. split; auto. split; auto. split; auto. apply meets_l, M.
    + destruct (IHc2 q O2) as (b & cs2 & q2 & E2 & C2 & D2 & M2).
      { eapply meets_next; [exact M|exact G|lia]. }
      { rewrite (did_lim _ _ _ _ D). exact LM. }
      rewrite E2, C2. exists b, (cs ++ cs2), q2. split; auto. split; auto.
      split; [eapply did_pair; eauto|]. rewrite yield_app.
      destruct b; [apply meets_r|]; eapply meets_then; eauto.
Qed.

(** Runs. *)
Section Runs.
Variable body : skind -> stmt.
Variable tab : skind -> N * out.
Hypothesis tab_ok : forall k,
  sok (sa tab (body k)) = true /\ spre (sa tab (body k)) <= fst (tab k) /\
  (forall L ts L', meets (sN (sa tab (body k))) L ts L' -> meets (snd (tab k)) L ts L') /\
  (forall L ts L', meets (sB (sa tab (body k))) L ts L' -> meets (snd (tab k)) L ts L').

Definition sig_out (x : san) (g : signal) : out := match g with Normal => sN x | Broke => sB x end.

Definition exec_ok (reg : tkind) (s : stmt) (p : pstate) (g : signal) (cs : list child)
  (r : list token) (p' : pstate) : Prop :=
  exists n, forall m, (n <= m)%nat ->
    exec body m reg s p = Ok (g, p').

Lemma okr_exec reg s ts g cs r :
  okr body reg s ts g cs r -> forall p,
  prest p = ts -> sok (sa tab s) = true -> spre (sa tab s) <= plifes p -> most <= plimit p ->
  exists p', exec_ok reg s p g cs r p' /\ prest p' = r /\ did p p' cs [] /\
    meets (sig_out (sa tab s) g) (plifes p) (yield cs) (plifes p').
Proof.
  induction 1 as [reg ts|reg a b ts c1 t1 g c2 t2 H1 IH1 H2 IH2|reg a b ts c1 t1 H1 IH1
    |reg c ts b cs r CE|reg x ts|reg x ts|reg k ts g cs r H IH
    |reg c a b ts x c1 t1 g c2 t2 CE H2 IH2|reg c a ts c1 t1 CE
    |reg c a ts c1 t1 c2 t2 CE H2 IH2|reg c a ts c1 t1 c2 t2 c3 t3 CE H2 IH2 H3 IH3
    |reg n a ts g cs r H IH|reg ts]; intros p PR OK PL LM; cbn [sa sok spre sN sB] in *.
  - exists p. split. { exists 1%nat. intros [|m] F; [lia|reflexivity]. }
    split; auto. split; [apply did_refl|]. left. split; auto. exists 0. split; auto. lia.
  - apply andb_true_iff in OK as [OK G]. apply andb_true_iff in OK as [O1 O2].
    destruct (IH1 p PR O1) as (q & (n1 & E1) & R1 & D1 & M1); [lia|auto|]; cbn [sig_out] in M1.
    destruct (IH2 q R1 O2) as (q2 & (n2 & E2) & R2 & D2 & M2).
    { eapply meets_next; [exact M1|exact G|lia]. }
    { rewrite (did_lim _ _ _ _ D1). exact LM. }
    exists q2. split.
    { exists (S (n1 + n2)). intros [|m] F; [lia|]. rewrite exec_seq, E1 by lia. cbn [bind].
      apply E2. lia. }
    split; auto. split; [eapply did_pair; eauto|]. rewrite yield_app.
    destruct g; [|apply meets_r]; eapply meets_then; eauto.
  - apply andb_true_iff in OK as [OK G]. apply andb_true_iff in OK as [O1 O2].
    destruct (IH1 p PR O1) as (q & (n1 & E1) & R1 & D1 & M1); [lia|auto|]; cbn [sig_out] in M1.
    exists q. split.
    { exists (S n1). intros [|m] F; [lia|]. rewrite exec_seq, E1 by lia. reflexivity. }
    split; auto. split; auto. apply meets_l, M1.
  - destruct (eval_ok reg c p OK PL LM) as (b' & cs' & q & E & C & D & M).
    rewrite PR, CE in C. inversion C; subst. exists q. split.
    { exists 1%nat. intros [|m] F; [lia|]. rewrite exec_do, E. reflexivity. }
    split; auto. split; auto. cbn [sig_out sN]. destruct b'; [apply meets_l|apply meets_r]; auto.
  - destruct (p_nth_ok 0 p PL) as (q & E & D & R & L). rewrite PR in R.
    destruct (p_advance_ok _ _ _ R) as (q2 & E2 & D2 & R2 & L2). exists q2. split.
    { exists 1%nat. intros [|m] F; [lia|]. rewrite exec_expect. unfold p_expect, p_consume.
      rewrite E. cbn [bind]. rewrite PR. cbn [kind_at nth_error]. rewrite tkind_eqb_refl, E2.
      reflexivity. }
    split; auto. split; [exact (did_pair _ _ _ _ _ D D2)|].
    right. split; [discriminate|]. exists 0. split; auto. rewrite L2, (did_lim _ _ _ _ D). lia.
  - destruct (p_advance_ok _ _ _ PR) as (q2 & E2 & D2 & R2 & L2). exists q2. split.
    { exists 1%nat. intros [|m] F; [lia|]. rewrite exec_advance, E2. reflexivity. }
    split; auto. split; auto.
    right. split; [discriminate|]. exists 0. split; auto. rewrite L2. lia.
  - destruct (tab_ok k) as (T1 & T2 & T3 & T4).
    destruct (p_enter p) as [m q] eqn:E.
    assert (prest q = ts /\ plifes q = plifes p /\ plimit q = plimit p) as (Q1 & Q2 & Q3)
      by (inversion E; auto).
    destruct (IH q Q1 T1) as (q2 & (n & E2) & R2 & D2 & M2); [lia|lia|].
    exists (p_exit m k q2). split.
    { exists (S n). intros [|m'] F; [lia|]. rewrite exec_call, E, E2 by lia. reflexivity. }
    split; auto. split; [eapply enter_exit_did; eauto|].
    rewrite Q2 in M2. cbn [yield flat_map leaves]. rewrite app_nil_r.
    cbn [sig_out sN p_exit plifes]. destruct g; auto.
  - repeat (apply andb_true_iff in OK as [OK ?]).
    destruct (eval_ok reg c p OK) as (b' & cs' & q & E & C & D & M); [lia|auto|].
    rewrite PR, CE in C. inversion C; subst x cs' t1.
    assert (plimit q = plimit p) as QL by apply (did_lim _ _ _ _ D).
    destruct b'.
    + destruct (IH2 q eq_refl) as (q2 & (n2 & E2) & R2 & D2 & M2); auto.
      { eapply meets_next; [exact M|eassumption|lia]. }
      { lia. }
      exists q2. split.
      { exists (S n2). intros [|m] F; [lia|]. rewrite exec_if, E. cbn [bind]. apply E2. lia. }
      split; auto. split; [eapply did_pair; eauto|]. rewrite yield_app.
      destruct g; apply meets_l; eapply meets_then; eauto.
    + destruct (IH2 q eq_refl) as (q2 & (n2 & E2) & R2 & D2 & M2); auto.
      { eapply meets_next; [exact M|eassumption|lia]. }
      { lia. }
      exists q2. split.
      { exists (S n2). intros [|m] F; [lia|]. rewrite exec_if, E. cbn [bind]. apply E2. lia. }
      split; auto. split; [eapply did_pair; eauto|]. rewrite yield_app.
      destruct g; apply meets_r; eapply meets_then; eauto.
  - repeat (apply andb_true_iff in OK as [OK ?]).
    destruct (eval_ok reg c p OK) as (b' & cs' & q & E & C & D & M); [lia|auto|].
    rewrite PR, CE in C. inversion C; subst. exists q. split.
    { exists 1%nat. intros [|m] F; [lia|]. rewrite exec_while, E. reflexivity. }
    split; auto. split; auto. cbn [sig_out sN]. apply meets_l, meets_l, M.
  - repeat (apply andb_true_iff in OK as [OK ?]).
    destruct (eval_ok reg c p OK) as (b' & cs' & q & E & C & D & M); [lia|auto|].
    rewrite PR, CE in C. inversion C; subst b' cs' t1.
    assert (plimit q = plimit p) as QL by apply (did_lim _ _ _ _ D).
    destruct (IH2 q eq_refl) as (q2 & (n2 & E2) & R2 & D2 & M2); auto.
    { eapply meets_next; [exact M|eassumption|lia]. }
    { lia. }
    exists q2. split.
    { exists (S n2). intros [|m] F; [lia|]. rewrite exec_while, E. cbn [bind].
      rewrite E2 by lia. reflexivity. }
    split; auto. split; [eapply did_pair; eauto|]. rewrite yield_app.
    apply meets_l, meets_r. eapply meets_then; eauto.
  - pose proof OK as OK'.
    repeat (apply andb_true_iff in OK as [OK ?]).
    destruct (eval_ok reg c p OK) as (b' & cs' & q & E & C & D & M); [lia|auto|].
    rewrite PR, CE in C. inversion C; subst b' cs' t1.
    assert (plimit q = plimit p) as QL by apply (did_lim _ _ _ _ D).
    destruct (IH2 q eq_refl) as (q2 & (n2 & E2) & R2 & D2 & M2); auto.
    { eapply meets_next; [exact M|eassumption|lia]. }
    { lia. }
    pose proof (meets_then _ _ _ _ _ _ _ M M2) as MA. rewrite <- yield_app in MA.
    cbn [sig_out] in MA.
    assert (plimit q2 = plimit q) as QL2 by apply (did_lim _ _ _ _ D2).
    destruct (IH3 q2 R2 OK') as (q3 & (n3 & E3) & R3 & D3 & M3).
    { eapply meets_next; [exact MA|eassumption|]. unfold ahead.
      destruct (th (andthen _ _)); [discriminate|lia]. }
    { lia. }
    exists q3. split.
    { exists (S (n2 + n3)). intros [|m] F; [lia|]. rewrite exec_while, E. cbn [bind].
      rewrite E2 by lia. cbn [bind]. apply E3. lia. }
    split; auto. split.
    { eapply did_pair; [eauto|]. eapply did_pair; eauto. }
    rewrite app_assoc, yield_app. cbn [sig_out sN] in *.
    set (done := orelse (cF (ca c)) (andthen (cT (ca c)) (sB (sa tab a)))) in *.
    set (again := andthen (cT (ca c)) (sN (sa tab a))) in *.
    assert (th again = None) as TN by (destruct (th again); [discriminate|reflexivity]).
    destruct MA as [[_ (z & Z & _)]|[NE (z & Z & K)]]; [congruence|].
    apply meets_r.
    assert (andthen again done = mkO None (omax (po done) (oplus (po again) (th done)))) as AD.
    { unfold andthen. rewrite TN, Z. reflexivity. }
    rewrite AD in *.
    right. split. { destruct (yield (c1 ++ c2)); [contradiction|discriminate]. }
    cbn [po]. destruct M3 as [[Y3 (w & W & K3)]|[Y3 (w & W & K3)]].
    + cbn [orelse th] in W. rewrite Z. 
      assert (th done = Some w) as TD by (destruct (th done); exact W).
      rewrite TD. cbn [oplus]. destruct (omax_r (po done) (Some (z + w)) _ eq_refl) as (v & V & V2).
      exists v. split; auto. lia.
    + cbn [orelse po] in W.
      assert (ole (Some w) (omax (po done) (oplus (po again) (th done)))) as OL.
      { rewrite <- W. intros u U. exists u. split; [|lia]. clear -U.
        destruct (po done), (oplus (po again) (th done)); simpl in *; auto; rewrite <- U; f_equal; lia. }
      destruct (OL w eq_refl) as (v & V & V2). exists v. split; auto. lia.
  - destruct (p_nth_ok n p) as (q & E & D & R & L); [lia|].
    assert (plimit q = plimit p) as QL by apply (did_lim _ _ _ _ D).
    rewrite PR in *.
    destruct (IH q R OK) as (q2 & (n2 & E2) & R2 & D2 & M2); [lia|lia|].
    exists q2. split.
    { exists (S n2). intros [|m] F; [lia|]. rewrite exec_let, E. cbn [bind]. apply E2. lia. }
    split; auto. split; [exact (did_pair _ _ _ _ _ D D2)|].
    assert (meets (mkO (Some 1) None) (plifes p) [] (plifes q)) as M0.
    { left. split; auto. exists 1. auto. }
    destruct g; exact (meets_then _ _ _ _ _ _ _ M0 M2).
  - exists p. split. { exists 1%nat. intros [|m] F; [lia|reflexivity]. }
    split; auto. split; [apply did_refl|]. left. split; auto. exists 0. split; auto. lia.
Qed.
End Runs.

Lemma gk_all : gk_check = true -> forall k,
  sok (sa gk_tab (body k)) = true /\ spre (sa gk_tab (body k)) <= fst (gk_tab k) /\
  (forall L ts L', meets (sN (sa gk_tab (body k))) L ts L' -> meets (snd (gk_tab k)) L ts L') /\
  (forall L ts L', meets (sB (sa gk_tab (body k))) L ts L' -> meets (snd (gk_tab k)) L ts L') /\
  fst (gk_tab k) <= most.
Proof.
  intros H k. unfold gk_check in H. pose proof (skind_all _ H k) as K. cbv beta zeta in K.
  repeat (apply andb_true_iff in K as [K ?]).
  split; auto. split. { apply N.leb_le; auto. }
  split; [|split]; [| |apply N.leb_le; auto]; intros L ts L'; apply meets_le; apply oleb_ok; auto.
Qed.

Lemma parse_guard limit fuel ts k evs limit' :
  parse_events_with limit fuel ts k = Ok (evs, []) -> most <= limit' ->
  exists n, forall m, (n <= m)%nat -> parse_events_with limit' m ts k = Ok (evs, []).
Proof.
  intros H LM. pose proof H as H0. pose proof (gk_all gk_check_ok) as GA.
  assert (k <> KError) as NE by (intro Z; subst; discriminate).
  assert (forall l f, parse_events_with l f ts k =
    ('(_, p) <- exec body f TEOF (SCall k) (parser_with l ts) ;;
     Ok (rev (pevents p), rev (perrs p)))) as U by (destruct k; try reflexivity; contradiction).
  rewrite U in H. apply bind_ok in H as [[g p] [H1 H2]]. inversion H2 as [[EV ER]]; subst evs.
  apply exec_did in H1 as (cs & es & D & O).
  assert (es = []) as ->.
  { pose proof (did_err _ _ _ _ D) as DE. cbn [perrs parser_with] in DE.
    rewrite app_nil_r in DE. rewrite DE in ER.
    rewrite <- (rev_involutive es), ER. reflexivity. }
  specialize (O eq_refl).
  assert (forall k,
    sok (sa gk_tab (body k)) = true /\ spre (sa gk_tab (body k)) <= fst (gk_tab k) /\
    (forall L ts L', meets (sN (sa gk_tab (body k))) L ts L' -> meets (snd (gk_tab k)) L ts L') /\
    (forall L ts L', meets (sB (sa gk_tab (body k))) L ts L' -> meets (snd (gk_tab k)) L ts L')) as GB.
  { intro k'. destruct (GA k') as (A & B & C & E & _). auto. }
  destruct (okr_exec body gk_tab GB _ _ _ _ _ _ O (parser_with limit' ts)) as (p' & (n & E) & R & D' & _);
    auto.
  { cbn [sa spre]. destruct (GA k) as (_ & _ & _ & _ & X). cbn [plifes parser_with]. lia. }
  exists n. intros m F. rewrite U, E by auto. cbn [bind]. f_equal. f_equal.
  - rewrite (did_ev _ _ _ _ D), (did_ev _ _ _ _ D'). reflexivity.
  - rewrite ?ER, (did_err _ _ _ _ D'). reflexivity.
Qed.

(** Fuel included: the program's parser. *)
Lemma parse_guard_any limit fuel ts k evs limit' fuel' :
  parse_events_with limit fuel ts k = Ok (evs, []) -> most <= limit' ->
  (enough limit' (length ts) <= fuel')%nat ->
  parse_events_with limit' fuel' ts k = Ok (evs, []).
Proof.
  intros H LM F. destruct (parse_guard _ _ _ _ _ _ H LM) as (n & E).
  pose proof (parse_events_with_fuel limit' fuel' ts k F) as NF.
  rewrite <- (parse_events_with_mono limit' fuel' (fuel' + n) ts k _ eq_refl NF ltac:(lia)).
  apply E. lia.
Qed.
