(** Texts of expressions: how they are read between other parts. *)
From Verif Require Import ProofBase Tokens Syntax Lexer SpecLex LexInv LexMain LexFacts FmtRelex FmtConcat FmtMoved FmtSame SpecEdit SpecExpr LexSplice FmtSplice.

Definition opener_kind (k : tkind) : bool :=
  match k with TLParen | TLBracket | TLCurly | TComma | TSemicolon | TEqual | TAssign | TEq | TGeq | TLeq => true | _ => false end.
Lemma lexeme_opener k w : lexeme k w -> forall u c, w = u ++ [c] -> opener c -> k = TLineComment \/ opener_kind k = true.
Proof.
  assert (forall (l : text) x u c, l ++ [x] = u ++ [c] -> x = c) as TL by (intros l x u c E; apply app_inj_tail in E; tauto).
  assert (forall (P : N -> Prop) l u c, Forall P l -> l = u ++ [c] -> P c) as FA.
  { intros P l u c F ->. apply Forall_app in F as [_ F]. inversion F; subst. auto. }
  assert (forall tbl, forallb (fun s => negb (existsb (N.eqb (last (str (fst s)) 0)) [9; 10; 12; 13; 32; 40; 91; 123; 44; 59; 61]) || opener_kind (snd s)) tbl = true ->
    forall w0 k0 u c, spelled tbl w0 k0 -> w0 = u ++ [c] -> opener c -> opener_kind k0 = true) as SP.
  { intros tbl C w0 k0 u c (s & I & ->) E P. rewrite forallb_forall in C. apply C in I. cbn [fst snd] in I. rewrite E, last_last in I.
    apply orb_true_iff in I as [I|I]; [|exact I]. exfalso. apply negb_true_iff in I.
    destruct P as [P|P]; unfold space in P; cbn [In] in P; repeat destruct P as [P|P]; try subst c; try discriminate; contradiction. }
  assert (forall c, opener c -> ~ digit c) as ND by (intros c [S|S]; unfold space, digit in *; cbn [In] in S; lia).
  assert (forall c, opener c -> ~ idchar c) as NI by (intros c [S|S]; unfold space, idchar, nondigit, letter, digit in *; cbn [In] in S; lia).
  assert (forall c, opener c -> c <> squote /\ c <> dquote /\ c <> slash /\ c <> dot) as NQ by (intros c [S|S]; unfold space, squote, dquote, slash, dot in *; cbn [In] in S; lia).
  intros L u c E P. destruct L as [k w S|k w S|x b C F R|b Q|b Q|d NE F|d f e NE F X Y Z|b F|x X|]; auto.
  - right. eapply SP; [|exact S|exact E|exact P]. reflexivity.
  - right. eapply SP; [|exact S|exact E|exact P]. reflexivity.
  - exfalso. apply (NI c P). eapply (FA idchar (x :: b)); eauto. constructor; [unfold idchar; auto|exact F].
  - exfalso. apply (TL (squote :: b)) in E. symmetry in E. apply NQ in P. tauto.
  - exfalso. apply (TL (dquote :: b)) in E. symmetry in E. apply NQ in P. tauto.
  - exfalso. apply (ND c P). eapply FA; eauto.
  - exfalso. destruct Y as [->|(m & sg & g & M & SG & FG & ->)].
    + rewrite app_nil_r in E. assert (digit c \/ c = dot) as K.
      { revert E. eapply (FA (fun c => digit c \/ c = dot)). apply Forall_app. split; [eapply Forall_impl; [|exact F]; auto|].
        destruct X as [->|(g & FG & ->)]; [constructor|]. constructor; [auto|]. eapply Forall_impl; [|exact FG]; auto. }
      destruct K as [K|K]; [exact (ND c P K)|apply NQ in P; tauto].
    + rewrite app_assoc in E. destruct (@exists_last _ (m :: sg ++ g)) as (l & z & EL); [discriminate|]. rewrite EL, app_assoc in E. apply TL in E. subst z.
      assert (exp_mark c \/ SpecLex.sign c \/ digit c) as K.
      { eapply (FA (fun c => exp_mark c \/ SpecLex.sign c \/ digit c)); [|exact EL].
        constructor; [auto|]. apply Forall_app. split; [|eapply Forall_impl; [|exact FG]; auto].
        destruct SG as [->|(y & Y & ->)]; [constructor|]. constructor; auto. }
      revert K P. clear. unfold exp_mark, SpecLex.sign, digit, opener, space. cbn [In]. lia.
  - exfalso. replace (slash :: star :: x ++ [star; slash]) with ((slash :: star :: x ++ [star]) ++ [slash]) in E by (cbn [app]; rewrite <- app_assoc; reflexivity).
    apply TL in E. symmetry in E. apply NQ in P. tauto.
  - exfalso. apply (TL [slash; star] slash) in E. symmetry in E. apply NQ in P. tauto.
Qed.
Lemma opener_follow k w r : opener_kind k = true -> (exists c v, r = c :: v /\ c <> 61) -> follow_ok k w r.
Proof.
  intros K (c & v & -> & N). destruct k; try discriminate; cbn [follow_ok]; auto. intros (c' & v' & E & ->). injection E as E _. contradiction.
Qed.
Lemma walks_into a i r : walks a i r -> (exists u c, a = u ++ [c] /\ opener c) -> (exists c v, r = c :: v /\ ~ space c) ->
  forall r', (exists c v, r' = c :: v /\ c <> 61) -> walks a i r'.
Proof.
  induction 1 as [R|c r its R S W IH|k w r its R X F W IH]; intros (u & z & E & Z) NS r' NE; [constructor| |].
  - constructor; auto. destruct u as [|y u]; cbn [app] in E; injection E as E1 E2; [subst r; inversion W; subst; [constructor|]|apply IH; auto; exists u, z; auto].
    exfalso. match goal with H : lexeme _ _, E : _ ++ _ = [] |- _ => apply app_eq_nil in E as [E _]; subst; apply lexeme_starts in H as (? & ? & H & _); discriminate end.
  - destruct r as [|y r0].
    + rewrite app_nil_r in E. constructor; auto; [|inversion W; subst; [constructor|]].
      * cbn [app] in *. destruct (lexeme_opener _ _ X u z E Z) as [->|K]; [|apply opener_follow; auto]. cbn [follow_ok] in F. exfalso. destruct NS as (c & v & -> & NS).
        destruct F as [F|(c' & v' & F & NL)]; [discriminate|]. injection F as <- <-. apply NS. unfold newline_char, space in *. cbn [In]. lia.
      * exfalso. match goal with H : lexeme _ _, E : _ ++ _ = [] |- _ => apply app_eq_nil in E as [E _]; subst; apply lexeme_starts in H as (? & ? & H & _); discriminate end.
    + constructor; auto; [apply follow_app; [discriminate|]; eapply follow_cut; [discriminate|exact F]|]. apply IH; auto.
      destruct (@exists_last _ (y :: r0)) as (v & q & EV); [discriminate|]. rewrite EV in E. rewrite app_assoc in E. apply app_inj_tail in E as [_ <-]. exists v, q. auto.
Qed.
Lemma lexeme_equal k w c v : lexeme k w -> w = c :: v -> c = 61 -> k = TEqual \/ k = TEq.
Proof.
  assert (forall tbl, forallb (fun s => negb (match str (fst s) with c :: _ => c =? 61 | [] => false end) || tkind_eqb (snd s) TEqual || tkind_eqb (snd s) TEq) tbl = true ->
    forall w0 k0, spelled tbl w0 k0 -> w0 = c :: v -> c = 61 -> k0 = TEqual \/ k0 = TEq) as SP.
  { intros tbl C w0 k0 (s & I & ->) E ->. rewrite forallb_forall in C. apply C in I. cbn [fst snd] in I. rewrite E in I. cbn [negb N.eqb] in I. change (61 =? 61) with true in I. cbn [negb orb] in I.
    apply orb_true_iff in I as [I|I]; apply tkind_eqb_eq in I; auto. }
  intros L E EC. destruct L as [k w S|k w S|x b C F R|b Q|b Q|d NE F|d f e NE F X Y Z|b F|x X|].
  - eapply SP; [|exact S|exact E|exact EC]. reflexivity.
  - eapply SP; [|exact S|exact E|exact EC]. reflexivity.
  - exfalso. injection E as -> _. subst c. revert C. unfold nondigit, letter. lia.
  - exfalso. injection E as E _. subst c. discriminate.
  - exfalso. injection E as E _. subst c. discriminate.
  - exfalso. destruct d as [|x d]; [contradiction|]. inversion F as [|? ? FX _]; subst. injection E as -> _. revert FX. unfold digit. lia.
  - exfalso. destruct d as [|x d]; [contradiction|]. inversion F as [|? ? FX _]; subst. cbn [app] in E. injection E as -> _. revert FX. unfold digit. lia.
  - exfalso. injection E as E _. subst c. discriminate.
  - exfalso. injection E as E _. subst c. discriminate.
  - exfalso. injection E as E _. subst c. discriminate.
Qed.
Lemma closer_follow k w r : match k with TIdentifier | TUInt | TUReal | TString | TBool | TRParen | TRBracket | TRCurly | TEnd => true | _ => false end = true ->
  (exists c v, r = c :: v /\ closer c) -> follow_ok k w r.
Proof.
  intros K (c & v & -> & C).
  assert (forall P : N -> Prop, ~ P c -> ~ SpecLex.starts P (c :: v)) as N by (intros P H (c' & v' & E & X); injection E as <- _; contradiction).
  assert (~ digit c) as ND by (destruct C as [C|C]; unfold space, digit in *; cbn [In] in C; lia).
  assert (~ idchar c) as NI by (destruct C as [C|C]; unfold space, idchar, nondigit, letter, digit in *; cbn [In] in C; lia).
  assert (c <> dot /\ ~ exp_mark c /\ ~ SpecLex.sign c) as (D & M & G) by (destruct C as [C|C]; unfold space, dot, exp_mark, SpecLex.sign in *; cbn [In] in C; lia).
  destruct k; try discriminate; cbn [follow_ok]; auto; repeat split; auto; try (apply N; tauto).
Qed.

(** ** A part of a text that consists of one or more items *)
Definition head_of (m : list token) (b : token) : token := match m with a :: _ => a | [] => b end.
Record piece (s A y B : text) (IA m : list token) (b : token) (IB : list token) : Prop := {
  pc_text : s = A ++ (y ++ ttext b) ++ B;
  pc_before : walks A (map item_of IA) ((y ++ ttext b) ++ B);
  pc_starts : exists c r, y ++ ttext b = c :: r /\ ~ space c;
  pc_head : exists k w r, y ++ ttext b = w ++ r /\ lexeme k w /\ k = tkind_of (head_of m b);
  pc_part : walks y (map item_of m) (ttext b ++ B);
  pc_end : lexeme (tkind_of b) (ttext b);
  pc_after : lexes B (map item_of IB);
  pc_set : set_out [] 0 IA A;
  pc_set_part : set_out A (length IA) (m ++ [b]) (y ++ ttext b);
  pc_set_after : set_out (A ++ y ++ ttext b) (length IA + length (m ++ [b])) IB B;
  pc_first : coords_after A (tstart (head_of m b)) /\ pos (tstart (head_of m b)) = bytes_of A;
  pc_last : coords_after (A ++ y ++ ttext b) (tend b) /\ pos (tend b) = bytes_of (A ++ y ++ ttext b) }.
Lemma piece_of s IA m b IB : laid space s (IA ++ (m ++ [b]) ++ IB) -> lexes s (map item_of (IA ++ (m ++ [b]) ++ IB)) -> exists A y B, piece s A y B IA m b IB.
Proof.
  intros LA LX. destruct m as [|a mid].
  - apply laid_set in LA. cbn [app] in LA, LX.
    destruct (cut_before _ _ _ _ _ _ LA LX) as (A & B & E1 & W1 & X1 & L1 & S1 & S2 & P1 & P2 & C1 & C2 & I1). cbn [app] in *.
    exists A, [], B. split; cbn [app map head_of]; auto.
    + apply lexeme_starts in X1. exact X1.
    + exists (tkind_of b), (ttext b), []. rewrite app_nil_r. auto.
    + constructor.
    + change (ttext b) with ([] ++ ttext b). rewrite <- (app_nil_r (ttext b)). constructor; cbn [app]; auto.
      * rewrite app_nil_r. exact C1.
      * rewrite app_nil_r. exact P1.
      * constructor. constructor.
    + replace (length IA + length [b])%nat with (S (length IA)) by (cbn [length]; lia). exact S2.
  - destruct (cut_two s IA a mid b IB LA LX) as (A & y & B & CT). exists A, y, B.
    destruct CT as [T1 T2 T3 T4 T5 T6 T7 T8 T9 T10 T11]. split; auto.
    cbn [map] in T4. remember (item_of a :: map item_of mid) as its eqn:EI.
    assert (forall y its R, walks y its R -> its = item_of a :: map item_of mid -> (exists c r, y ++ ttext b = c :: r /\ ~ space c) -> exists k w r, y ++ ttext b = w ++ r /\ lexeme k w /\ k = tkind_of a) as G.
    { clear. intros y its R W. induction W as [R|c r its R S W IH|k w r its R X F W IH]; intros E NS; [discriminate| |].
      - exfalso. destruct NS as (c' & r' & NS & N). cbn [app] in NS. injection NS as -> _. contradiction.
      - exists k, w, (r ++ ttext b). rewrite <- app_assoc. split; [reflexivity|]. split; [exact X|]. unfold item_of in E. congruence. }
    cbn [head_of]. eapply G; eauto.
Qed.
Lemma piece_known s A y B IA m b A' m' IA' b' IB' y' B' :
  piece s A' y' B' IA' m' b' IB' -> s = A ++ (y ++ ttext b) ++ B -> walks A (map item_of IA) ((y ++ ttext b) ++ B) ->
  (exists c r, y ++ ttext b = c :: r /\ ~ space c) -> walks y (map item_of m) (ttext b ++ B) -> lexeme (tkind_of b) (ttext b) ->
  map item_of IA' = map item_of IA -> map item_of m' = map item_of m -> item_of b' = item_of b ->
  A' = A /\ y' = y /\ ttext b' = ttext b /\ B' = B.
Proof.
  intros CT E W1 ST W2 X M1 M2 M3. pose proof (pc_text _ _ _ _ _ _ _ _ CT) as E'. pose proof (pc_before _ _ _ _ _ _ _ _ CT) as W1'.
  pose proof (pc_starts _ _ _ _ _ _ _ _ CT) as ST'. pose proof (pc_part _ _ _ _ _ _ _ _ CT) as W2'. pose proof (pc_end _ _ _ _ _ _ _ _ CT) as X'. rewrite M1 in W1'. rewrite M2 in W2'.
  assert (forall (l m : text), (exists c r, l = c :: r /\ ~ space c) -> exists c r, l ++ m = c :: r /\ ~ space c) as G by (intros l n (c & r & -> & N); exists c, (r ++ n); auto).
  assert (A = A') as <-. { apply (walks_end _ _ _ W1 _ _ W1'); [congruence|apply G, ST|apply G, ST']. }
  assert (y ++ ttext b ++ B = y' ++ ttext b' ++ B') as EY. { apply (app_inv_head A). rewrite !app_assoc in *. congruence. }
  assert (y = y') as <-. { apply (walks_end _ _ _ W2 _ _ W2'); auto; apply G; eapply lexeme_starts; eauto. }
  assert (ttext b' = ttext b) as TB by (unfold item_of in M3; congruence). rewrite TB in *. apply app_inv_head in EY. apply app_inv_head in EY. auto.
Qed.
(** Items of a text without line breaks. *)
Lemma set_out_line c n l r : set_out c n l r -> newlines r = 0 -> Forall (fun t => line (tstart t) = 1 + newlines c /\ line (tend t) = 1 + newlines c) l.
Proof.
  induction 1 as [|c n sp t its r S A1 A2 A3 A4 A5 L IH]; intro Z; [constructor|]. rewrite !newlines_app in Z. destruct A1 as [A1 _], A3 as [A3 _]. rewrite !newlines_app in A1, A3.
  rewrite !newlines_app in A3. constructor; [lia|]. rewrite !newlines_app in IH. eapply Forall_impl; [|apply IH; lia]. cbn beta. intros a [H1 H2]. lia.
Qed.
