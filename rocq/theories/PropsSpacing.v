(** Properties C33-C36, C48, C49: white space in formatted files. *)
From Coq Require Import Sorted.
From Verif Require Import ProofBase Tokens Syntax Lexer SpecLex LexInv LexMain LexFacts ParserCore Grammar
  Tree Printer Formatter Lib FmtAbs FmtPlan FmtSound SpecLayout FmtExec FmtTop FmtFacts FmtRelex FmtNeat.

(** ** C33: commas and semicolons hug the left and are followed by white space. *)
Theorem C33_separators : forall eol s p, accepted s p ->
  exists l, layout_of eol s p l /\ forall a e, consecutive l a e ->
    (kd e = TSemicolon -> kd a <> TWithin -> e_white e = WNone) /\
    (kd e = TComma -> kd a <> TLParen -> kd a <> TComma -> e_white e = WNone) /\
    (kd a = TSemicolon \/ kd a = TComma -> e_white e <> WNone).
Proof.
  intros eol s p ACC. destruct (accepted_layout eol s p ACC) as (items & l & LO & _ & _ & _ & _ & _ & AR).
  exists l. split; auto. intros a e C. pose proof (consecutive_in _ _ _ C) as [IA IE].
  split; [|split].
  - intros K NW. destruct (code_kind _ _ _ _ _ AR e IE _ K) as [r R]; try discriminate.
    destruct (e_rule a) as [q|] eqn:Q.
    + destruct (pair_neat _ _ _ _ _ AR a e q r C Q R) as (G & N & I). neat_facts N.
      rewrite K in *. rewrite is_kind_refl in *. apply (gap_none _ _ _ I).
      match goal with H : imp true (_ || is_kind (kd a) TWithin) = true |- _ => rename H into HX end.
      pose proof (imp_true _ _ HX eq_refl) as HY. clear HX. rename HY into HX. apply orb_true_iff in HX as [HX|HX]; auto. apply is_kind_eq in HX. contradiction.
    + destruct (after_comment _ _ _ _ _ AR a e r C Q R) as (_ & q & b & N). neat_facts N. rewrite K in *. discriminate.
  - intros K N1 N2. destruct (code_kind _ _ _ _ _ AR e IE _ K) as [r R]; try discriminate.
    destruct (e_rule a) as [q|] eqn:Q.
    + destruct (pair_neat _ _ _ _ _ AR a e q r C Q R) as (G & N & I). neat_facts N.
      rewrite K in *. rewrite is_kind_refl in *. apply (gap_none _ _ _ I).
      match goal with H : imp true (_ || memk (kd a) [TLParen; TComma]) = true |- _ => rename H into HX end.
      pose proof (imp_true _ _ HX eq_refl) as HY. clear HX. rename HY into HX. apply orb_true_iff in HX as [HX|HX]; auto. apply memk_in in HX. simpl in HX. intuition congruence.
    + destruct (after_comment _ _ _ _ _ AR a e r C Q R) as (_ & q & b & N). neat_facts N. rewrite K in *. discriminate.
  - intros K. destruct (e_rule e) as [r|] eqn:R; [|eapply comment_white; eauto].
    assert (exists q, e_rule a = Some q) as [q Q]
      by (destruct K as [K|K]; eapply code_kind; eauto; discriminate).
    destruct (pair_neat _ _ _ _ _ AR a e q r C Q R) as (G & N & I). neat_facts N.
    apply (gap_some _ _ _ I).
    match goal with H : imp (memk (kd a) [TComma; TSemicolon]) _ = true |- _ => apply (imp_true _ _ H) end.
    apply memk_in. simpl. intuition.
Qed.
Print Assumptions C33_separators.

Example C33_applies : formats
  (lines ["model M Real x[2,3]; equation (a,,b)=f(x ,-y) ; x=[1,2;3,4]; end M ;"]%string)
  (lines ["model M"; ""; "  Real x[2, 3];"; ""; "equation"; ""; "  (a, , b) = f(x, -y);"; "  x = [1, 2; 3, 4];"; ""; "end M;"]%string).
Proof. formatted. Qed.

(** ** C34: operators, [=] and [:=] stand between white space. *)
Theorem C34_infix : forall eol s p, accepted s p ->
  exists l, layout_of eol s p l /\ forall a e, consecutive l a e ->
    (forall r, e_rule e = Some r -> infix r (kd e) = true -> e_white e <> WNone) /\
    (forall q, e_rule a = Some q -> infix q (kd a) = true -> e_white e <> WNone).
Proof.
  intros eol s p ACC. destruct (accepted_layout eol s p ACC) as (items & l & LO & _ & _ & _ & _ & _ & AR).
  exists l. split; auto. intros a e C. split.
  - intros r R IN. destruct (e_rule a) as [q|] eqn:Q.
    + destruct (pair_neat _ _ _ _ _ AR a e q r C Q R) as (G & N & I). neat_facts N.
      apply (gap_some _ _ _ I).
      match goal with H : imp (infix r (kd e)) _ = true |- _ => apply (imp_true _ _ H IN) end.
    + destruct (after_comment _ _ _ _ _ AR a e r C Q R) as (B & _). apply break_some, B.
  - intros q Q IN. destruct (e_rule e) as [r|] eqn:R; [|eapply comment_white; eauto].
    destruct (pair_neat _ _ _ _ _ AR a e q r C Q R) as (G & N & I). neat_facts N.
    apply (gap_some _ _ _ I).
    match goal with H : imp (infix q (kd a)) _ = true |- _ => apply (imp_true _ _ H IN) end.
Qed.
Print Assumptions C34_infix.

Example C34_applies : formats
  (lines ["model M equation a=b*c^2+d/e; z=not b and c<=d or e; y=a:b:c; y=.a.*b; end M;"]%string)
  (lines ["model M"; ""; "equation"; ""; "  a = b * c ^ 2 + d / e;"; "  z = not b and c <= d or e;"; "  y = a : b : c;"; "  y = .a .* b;"; ""; "end M;"]%string).
Proof. formatted. Qed.

(** ** C35: section words stand below a blank line. *)
Definition unruled_between (q : layout) : Prop := Forall (fun e => e_rule e = None) q.

Theorem C35_sections : forall eol s p, accepted s p ->
  exists l, layout_of eol s p l /\ forall l0 e l2 r, l = l0 ++ e :: l2 ->
    e_rule e = Some r -> section_word r (kd e) = true ->
    exists l1 a q, l0 = l1 ++ a :: q /\ e_rule a <> None /\ Forall (fun c => comment (e_tok c)) q /\
      (kd a = TInitial \/
       exists x n, In x (q ++ [e]) /\ e_white x = WLine true n /\
         (forall c, In c q -> e_white c = WSpace \/ is_break (e_white c) = true)).
Proof.
  intros eol s p ACC. destruct (accepted_layout eol s p ACC) as (items & l & LO & _ & _ & _ & _ & _ & AR).
  exists l. split; auto. intros l0 e l2 r E R SW.
  destruct (arranged_group _ _ _ _ _ _ AR l0 e l2 r E R) as (l1 & q & -> & ER & U & GR).
  assert (Forall (fun c => comment (e_tok c)) q) as CQ.
  { pose proof (lo_rules _ _ _ _ LO) as RU. subst l. apply Forall_app in RU as [RU _]. apply Forall_app in RU as [_ RU].
    clear - U RU. unfold unruled in U. rewrite Forall_forall in *. intros c I. apply RU; auto. }
  assert (forall G, adjacent (prev_code None l1) G (r, tkind_of (e_tok e)) ->
            (l1 <> []) /\ (last_kind (prev_code None l1) <> TInitial -> G = [GB Required])) as NEAT.
  { intros G A. apply (all_adjacent_sound _ neat_checked) in A. neat_facts A. fold (kd e) in *.
    match goal with H : imp (section_word r (kd e) && _) _ = true |- _ => rename H into HS end. rewrite SW in HS.
    cbn [andb] in HS. split.
    - intros ->. cbn in HS. rewrite andb_false_r in HS. discriminate.
    - intro NI. destruct (is_kind (last_kind (prev_code None l1)) TInitial) eqn:K; [apply is_kind_eq in K; contradiction|].
      pose proof (imp_true _ _ HS eq_refl) as HT. apply andb_true_iff in HT as [HT _].
      destruct G as [|[|[| |]] [|]]; try discriminate. reflexivity. }
  assert (l1 <> []) as NL by (inversion GR as [A EQ|A EQ|b n ins cs first A I1 I2 F EQ]; apply (NEAT _ A)).
  destruct ER as [->|(l3 & a & r' & -> & Q)]; [contradiction|].
  assert (prev_code None (l3 ++ [a]) = Some (r', kd a)) as PC.
  { unfold prev_code. rewrite fold_left_app. cbn [fold_left]. rewrite Q. reflexivity. }
  rewrite PC in *. cbn [last_kind snd] in NEAT.
  exists l3, a, q. rewrite <- app_assoc. split; auto. split; [congruence|]. split; auto.
  destruct (tkind_eq_dec (kd a) TInitial) as [|NI]; auto. right.
  inversion GR as [A EQ|A EQ|b n ins cs first A I1 I2 F EQ].
  - destruct (NEAT _ A) as [_ Z]. specialize (Z NI). discriminate.
  - destruct (NEAT _ A) as [_ Z]. specialize (Z NI). discriminate.
  - destruct (NEAT _ A) as [_ Z]. specialize (Z NI). inversion Z; subst b.
    assert (first = false) as -> by (destruct first; auto; specialize (F eq_refl); discriminate).
    unfold broken in EQ. rewrite app_assoc in EQ. apply app_inj_tail in EQ as [<- EE].
    assert (forall c, In c (beside false ins ++ above Required n (line_of 1 (l3 ++ [a])) cs) ->
              e_white c = WSpace \/ is_break (e_white c) = true) as WS.
    { intros c I. apply in_app_iff in I as [I|I].
      - destruct ins; [destruct I|]. destruct I as [<-|I]; auto. apply in_map_iff in I as [x [<- _]]. auto.
      - right. assert (forall cs m, In c (stack n m cs) -> is_break (e_white c) = true) as S.
        { clear. induction cs as [|x cs IH]; intros m I; [destruct I|]. destruct I as [<-|I]; eauto. }
        destruct cs as [|x cs]; cbn [above] in I; [destruct I|]. destruct I as [<-|I]; eauto. }
    destruct cs as [|c cs].
    + exists e, n. split; [apply in_app_iff; right; left; auto|]. rewrite <- EE. split; auto.
    + exists (mkE (WLine true n) None c), n. split; [|split; auto].
      apply in_app_iff. right. left. reflexivity.
Qed.
Print Assumptions C35_sections.

Example C35_applies : formats
  (lines ["function M protected // p"; "Real x; public Real y; initial algorithm x:=y; external ""C"" f(x); end M;"]%string)
  (lines ["function M"; ""; "protected // p"; ""; "  Real x;"; ""; "public"; ""; "  Real y;"; ""; "initial algorithm"; ""; "  x := y;"; ""; "external ""C"""; ""; "  f(x);"; ""; "end M;"]%string).
Proof. formatted. Qed.

(** ** C36: blank lines between elements, equations and statements are those of the source. *)
Theorem C36_blank_lines : forall eol s p, accepted s p ->
  exists l, layout_of eol s p l /\ forall a e q r, consecutive l a e ->
    e_rule a = Some q -> e_rule e = Some r ->
    ends_item q (kd a) = true \/ opens_block q (kd a) = true ->
    section_word r (kd e) = false -> kd e <> TAnnotation ->
    exists n, e_white e = WLine (1 <? line (tstart (e_tok e)) - line (tend (e_tok a))) n.
Proof.
  intros eol s p ACC. destruct (accepted_layout eol s p ACC) as (items & l & LO & _ & _ & _ & _ & _ & AR).
  exists l. split; auto. intros a e q r C Q R H SW NA.
  destruct (pair_neat _ _ _ _ _ AR a e q r C Q R) as (G & N & I). neat_facts N.
  assert (a_legal G = true) as AL.
  { destruct H as [H|H].
    - match goal with X : imp (ends_item q (kd a)) _ = true |- _ => pose proof (imp_true _ _ X H) as E end.
      apply orb_true_iff in E as [E|E]; auto. rewrite SW in E. cbn [orb] in E.
      apply andb_true_iff in E as [_ E]. apply is_kind_eq in E. contradiction.
    - match goal with X : imp (opens_block q (kd a)) _ = true |- _ => exact (imp_true _ _ X H) end. }
  destruct I as [[-> W]|[[-> W]|(b & n & -> & W)]]; try discriminate.
  destruct b; try discriminate. exists n. rewrite W. reflexivity.
Qed.
Print Assumptions C36_blank_lines.

Example C36_applies : formats
  (lines ["model M Real a; Real b;"; ""; ""; "Real c;"; "equation if a > 1 then"; ""; "b=1; end if; end M;"]%string)
  (lines ["model M"; ""; "  Real a;"; "  Real b;"; ""; "  Real c;"; ""; "equation"; ""; "  if a > 1 then"; ""; "    b = 1;"; "  end if;"; ""; "end M;"]%string).
Proof. formatted. Qed.

(** ** C48: brackets and dots hug what they belong to. *)
Theorem C48_brackets : forall eol s p, accepted s p ->
  exists l, layout_of eol s p l /\ forall a e q r, consecutive l a e ->
    e_rule a = Some q -> e_rule e = Some r ->
    (In (kd e) [TRParen; TRBracket; TRCurly] -> kd a <> TComma -> e_white e = WNone) /\
    (In (kd a) [TLParen; TLBracket; TLCurly] -> kd e <> TComma -> e_white e <> WSpace) /\
    (kd a = TDot -> e_white e = WNone) /\
    (kd e = TDot -> r = KName -> e_white e = WNone) /\
    (kd e = TLParen -> r <> KPrimary -> r <> KStatement -> kd a <> TAnnotation -> e_white e = WNone).
Proof.
  intros eol s p ACC. destruct (accepted_layout eol s p ACC) as (items & l & LO & _ & _ & _ & _ & _ & AR).
  exists l. split; auto. intros a e q r C Q R.
  destruct (pair_neat _ _ _ _ _ AR a e q r C Q R) as (G & N & I). neat_facts N.
  repeat split.
  - intros K NC. apply memk_in in K. apply (gap_none _ _ _ I).
    match goal with X : imp (memk (kd e) [TRParen; _; _]) _ = true |- _ => pose proof (imp_true _ _ X K) as HX end.
    apply orb_true_iff in HX as [HX|HX]; auto. apply andb_true_iff in HX as [_ HX]. apply is_kind_eq in HX. contradiction.
  - intros K NC W. apply memk_in in K.
    match goal with X : imp (memk (kd a) [TLParen; _; _]) _ = true |- _ => pose proof (imp_true _ _ X K) as HX end.
    apply orb_true_iff in HX as [HX|HX]; [|apply is_kind_eq in HX; contradiction].
    destruct I as [[-> W']|[[-> W']|(b & n & -> & W')]]; rewrite W' in W; discriminate.
  - intro K. apply is_kind_eq in K. apply (gap_none _ _ _ I).
    match goal with X : imp (is_kind (kd a) TDot) _ = true |- _ => exact (imp_true _ _ X K) end.
  - intros K ->. apply (gap_none _ _ _ I).
    match goal with X : imp (is_kind (kd e) TDot && _) _ = true |- _ => apply (imp_true _ _ X) end.
    rewrite K. reflexivity.
  - intros K N1 N2 NA. apply (gap_none _ _ _ I).
    match goal with X : imp (is_kind (kd e) TLParen && _) _ = true |- _ => rename X into HX end.
    rewrite K, is_kind_refl in HX. cbn [andb] in HX.
    assert (memk (kd a) [TAnnotation] = false) as M.
    { destruct (memk (kd a) [TAnnotation]) eqn:M; auto. apply memk_in in M. destruct M as [M|[]]. congruence. }
    rewrite M in HX. pose proof (imp_true _ _ HX eq_refl) as HY.
    apply orb_true_iff in HY as [HY|HY]; [apply orb_true_iff in HY as [HY|HY]; auto|]; apply skind_eqb_eq in HY; contradiction.
Qed.
Print Assumptions C48_brackets.

Example C48_applies : formats
  (lines ["model M A . B . C c ( d ( e=1 ) ) ; equation f ( { a , b } , [ c ] ) = d . e [ 1 ] . g ; end M;"]%string)
  (lines ["model M"; ""; "  A.B.C c(d(e = 1));"; ""; "equation"; ""; "  f({a, b}, [c]) = d.e[1].g;"; ""; "end M;"]%string).
Proof. formatted. Qed.

(** ** C49: every element, equation, statement and block starts a new line. *)
Definition next_code_entry (l : layout) (a e : entry) : Prop :=
  exists l1 q l2, l = l1 ++ a :: q ++ e :: l2 /\ Forall (fun c => comment (e_tok c)) q /\ e_rule e <> None.

Lemma next_pair l a e : Forall (fun e => e_rule e = None <-> comment (e_tok e)) l -> next_code_entry l a e ->
  consecutive l a e \/ exists c, e_rule c = None /\ consecutive l c e.
Proof.
  intros RU (l1 & q & l2 & -> & CQ & NE). destruct q as [|c q' _] using rev_ind.
  - left. exists l1, l2. reflexivity.
  - right. exists c. split.
    + rewrite Forall_forall in RU. apply RU.
      * apply in_app_iff. right. right. apply in_app_iff. left. apply in_app_iff. right. left. reflexivity.
      * apply Forall_app in CQ as [_ CQ]. apply Forall_inv in CQ. exact CQ.
    + exists (l1 ++ a :: q'), l2. rewrite <- !app_assoc. reflexivity.
Qed.

Theorem C49_lines : forall eol s p, accepted s p ->
  exists l, layout_of eol s p l /\ forall a e q r, next_code_entry l a e ->
    e_rule a = Some q -> e_rule e = Some r ->
    ends_item q (kd a) = true \/ opens_block q (kd a) = true \/ closes_block r (kd e) = true \/
    (own_row r (kd e) = true /\ kd a <> TPlus) ->
    is_break (e_white e) = true.
Proof.
  intros eol s p ACC. destruct (accepted_layout eol s p ACC) as (items & l & LO & _ & _ & _ & _ & _ & AR).
  exists l. split; auto. intros a e q r N Q R H.
  destruct (next_pair l a e (lo_rules _ _ _ _ LO) N) as [C|(c & CN & C)].
  - destruct (pair_neat _ _ _ _ _ AR a e q r C Q R) as (G & NT & I). neat_facts NT.
    assert (a_break G = true) as B.
    { destruct H as [H|[H|[H|[H NP]]]].
      - match goal with X : imp (ends_item q (kd a)) _ = true |- _ => pose proof (imp_true _ _ X H) as HX end.
        destruct G as [|[|[| |]] [|]]; try discriminate HX; reflexivity.
      - match goal with X : imp (opens_block q (kd a)) _ = true |- _ => pose proof (imp_true _ _ X H) as HX end.
        destruct G as [|[|[| |]] [|]]; try discriminate HX; reflexivity.
      - match goal with X : imp (closes_block r (kd e)) _ = true |- _ => pose proof (imp_true _ _ X H) as HX end.
        destruct G as [|[|[| |]] [|]]; try discriminate HX; reflexivity.
      - match goal with X : imp (own_row r (kd e) && _) _ = true |- _ => apply (imp_true _ _ X) end.
        rewrite H. destruct (is_kind (kd a) TPlus) eqn:K; auto. apply is_kind_eq in K. contradiction. }
    destruct I as [[-> W]|[[-> W]|(b & n & -> & W)]]; try discriminate. rewrite W. reflexivity.
  - apply (after_comment _ _ _ _ _ AR c e r C CN R).
Qed.
Print Assumptions C49_lines.

Example C49_applies : formats
  (lines ["model M Real a ""d"" + ""e"" annotation(x=1); replaceable A b constrainedby C; equation for i in 1:2 loop if a then x=1; elseif b then else y=1; end if; end for; end M;"]%string)
  (lines ["model M"; ""; "  Real a"; "    ""d"" + ""e"""; "    annotation (x = 1);"; "  replaceable A b"; "    constrainedby C;"; ""; "equation"; ""; "  for i in 1 : 2 loop"; "    if a then"; "      x = 1;"; "    elseif b then"; "    else"; "      y = 1;"; "    end if;"; "  end for;"; ""; "end M;"]%string).
Proof. formatted. Qed.
