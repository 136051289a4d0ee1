(** Facts about arrangements used by the formatter properties. *)
From Coq Require Import Sorted.
From Verif Require Import ProofBase Tokens Syntax Lexer SpecLex LexInv LexScan LexMain LexFacts ParserCore
  Tree Printer Formatter FmtAbs FmtPlan FmtTables FmtSound SpecLayout FmtExec FmtTop.

Definition unruled (l : layout) : Prop := Forall (fun e => e_rule e = None) l.

Lemma unruled_stack n cs : forall ln, unruled (stack n ln cs).
Proof. induction cs; intro ln; constructor; auto. apply IHcs. Qed.
Lemma unruled_above b n ln cs : unruled (above b n ln cs).
Proof. destruct b, cs; try apply unruled_stack. constructor; auto. apply unruled_stack. Qed.
Lemma unruled_beside first cs : unruled (beside first cs).
Proof.
  destruct cs; constructor; auto. apply Forall_forall. intros e I. apply in_map_iff in I as [c [<- _]]. auto.
Qed.

Lemma toks_stack n cs : forall ln, map e_tok (stack n ln cs) = cs.
Proof. induction cs; intro ln; simpl; auto. f_equal. auto. Qed.
Lemma toks_above b n ln cs : map e_tok (above b n ln cs) = cs.
Proof. destruct b, cs; try apply toks_stack. simpl. f_equal. apply toks_stack. Qed.
Lemma toks_beside first cs : map e_tok (beside first cs) = cs.
Proof. destruct cs; simpl; auto. f_equal. rewrite map_map. apply map_id. Qed.

(** A break consists of comment entries followed by the token. *)
Lemma break_shape first ins b n ln cs fn t :
  exists q, beside first ins ++ broken b n ln cs fn t
            = q ++ [mkE (WLine (own_line b ln cs t) n) (Some fn) t] /\
    unruled q /\ map e_tok q = ins ++ cs.
Proof.
  exists (beside first ins ++ above b n ln cs). unfold broken. rewrite app_assoc. split; auto. split.
  - apply Forall_app. split; [apply unruled_beside | apply unruled_above].
  - rewrite map_app, toks_beside, toks_above. reflexivity.
Qed.

Lemma codes_app a b : codes (a ++ b) = codes a ++ codes b.
Proof. apply flat_map_app. Qed.
Lemma codes_unruled q : unruled q -> codes q = [].
Proof. induction 1 as [|e q E _ IH]; auto. simpl. rewrite E. exact IH. Qed.

Section Facts.
Variable A : option dk -> gap -> dk -> Prop.

Lemma arranged_codes p ln items ds l : arranged A p ln items ds l -> codes l = ds.
Proof.
  induction 1 as [| | |p ln ins cs fn t b n items ds l first N C T I1 I2 AA R IH]; simpl; auto; try congruence.
  destruct (break_shape first ins b n ln cs fn t) as (q & E & U & _).
  rewrite app_assoc, E, !codes_app, codes_unruled by auto. simpl. congruence.
Qed.

(** Code tokens have rules, comments have none. *)
Lemma arranged_ruled p ln items ds l : arranged A p ln items ds l ->
  Forall (fun e => match e_rule e with None => commentary (e_tok e) = true | Some _ => commentary (e_tok e) = false end) l.
Proof.
  induction 1 as [| | |p ln ins cs fn t b n items ds l first N C T I1 I2 AA R IH]; auto.
  destruct (break_shape first ins b n ln cs fn t) as (q & E & U & M).
  rewrite app_assoc, E, <- app_assoc. rewrite <- M in C. apply Forall_app. split.
  - clear - C U. induction U as [|e q E U IH]; constructor.
    + rewrite E. apply Forall_inv in C. exact C.
    + apply IH. apply Forall_inv_tail in C. exact C.
  - simpl. constructor; auto.
Qed.

(** Some comments are dropped, nothing else changes. *)
Lemma is_comment_of t : commentary t = true -> comment t.
Proof.
  unfold commentary, is_comment_kind, comment. intro H. apply orb_true_iff in H. rewrite !tkind_eqb_eq in H. exact H.
Qed.
Lemma drops_all cs : Forall (fun c => commentary c = true) cs -> forall items l,
  drops comment items l -> drops comment (cs ++ items) l.
Proof. induction 1; intros; simpl; auto. constructor; auto using is_comment_of. Qed.
Lemma drops_keep (cs : list token) items l : drops comment items l -> drops comment (cs ++ items) (cs ++ l).
Proof. induction cs; intros; simpl; auto. constructor; auto. Qed.

Lemma arranged_drops p ln items ds l : arranged A p ln items ds l -> drops comment items (map e_tok l).
Proof.
  induction 1 as [p ln cs C| | |p ln ins cs fn t b n items ds l first N C T I1 I2 AA R IH]; simpl.
  - rewrite <- (app_nil_r cs). apply drops_all; auto. constructor.
  - apply drops_all; auto. constructor; auto.
  - apply drops_all; auto. constructor; auto.
  - destruct (break_shape first ins b n ln cs fn t) as (q & E & U & M).
    rewrite !app_assoc, E, map_app, map_app, M. cbn [map e_tok]. rewrite <- !app_assoc. cbn [app].
    rewrite (app_assoc ins cs), (app_assoc ins cs). apply drops_keep. constructor; auto.
Qed.

(** ** Neighbours *)
Definition in_gap (G : gap) (ln : N) (e : entry) : Prop :=
  (G = [] /\ e_white e = WNone) \/ (G = [GS] /\ e_white e = WSpace) \/
  (exists b n, G = [GB b] /\ e_white e = WLine (own_line b ln [] (e_tok e)) n).

(** Neighbouring code tokens. *)
Definition linked (a e : entry) : Prop :=
  forall q r, e_rule a = Some q -> e_rule e = Some r ->
    exists G, A (Some (q, tkind_of (e_tok a))) G (r, tkind_of (e_tok e)) /\
      in_gap G (line (tend (e_tok a))) e.

Lemma consecutive_cons x l a b :
  consecutive (x :: l) a b <-> (x = a /\ exists l', l = b :: l') \/ consecutive l a b.
Proof.
  split.
  - intros ([|y l1] & l2 & E); inversion E; subst; [left; eauto | right; exists l1, l2; auto].
  - intros [[-> [l' ->]]|(l1 & l2 & ->)]; [exists [], l' | exists (x :: l1), l2]; auto.
Qed.
Lemma consecutive_in l a b : consecutive l a b -> In a l /\ In b l.
Proof. intros (l1 & l2 & ->). split; apply in_app_iff; simpl; auto. Qed.

(** Entries [q] followed by [e :: l]: a neighbouring pair is inside [q], at the seam, or later. *)
Lemma consecutive_app q : forall e l a b,
  consecutive (q ++ e :: l) a b ->
  consecutive q a b \/ (exists q', q = q' ++ [a] /\ b = e) \/ consecutive (e :: l) a b.
Proof.
  induction q as [|x q IH]; intros e l a b C; auto. cbn [app] in C.
  apply consecutive_cons in C as [[-> [l' E]]|C].
  - destruct q as [|y q]; cbn [app] in E; inversion E; subst.
    + right. left. exists []. auto.
    + left. exists [], q. auto.
  - apply IH in C as [C|[(q' & -> & ->)|C]]; auto.
    + left. apply consecutive_cons. auto.
    + right. left. exists (x :: q'). auto.
Qed.

Lemma arranged_linked p ln items ds l : arranged A p ln items ds l ->
  forall a0, (forall q, e_rule a0 = Some q -> p = Some (q, tkind_of (e_tok a0)) /\ ln = line (tend (e_tok a0))) ->
  forall a e, consecutive (a0 :: l) a e -> linked a e.
Proof.
  induction 1 as [p ln cs C|p ln cs fn t items ds l C T AA R IH|p ln cs fn t items ds l C T AA R IH
                 |p ln ins cs fn t b n items ds l first N C T I1 I2 AA R IH]; intros a0 H0 a e CO.
  - apply consecutive_cons in CO as [[_ [l' E]]|([|] & l2 & E)]; discriminate.
  - apply consecutive_cons in CO as [[-> [l' E]]|CO].
    + inversion E; subst. intros q r Q1 Q2. cbn [e_rule e_tok] in *. inversion Q2; subst.
      destruct (H0 _ Q1) as [-> ->]. exists []. split; auto. left. auto.
    + eapply IH; [|exact CO]. cbn [e_rule e_tok]. intros q Q. inversion Q; subst. auto.
  - apply consecutive_cons in CO as [[-> [l' E]]|CO].
    + inversion E; subst. intros q r Q1 Q2. cbn [e_rule e_tok] in *. inversion Q2; subst.
      destruct (H0 _ Q1) as [-> ->]. exists [GS]. split; auto. right. left. auto.
    + eapply IH; [|exact CO]. cbn [e_rule e_tok]. intros q Q. inversion Q; subst. auto.
  - destruct (break_shape first ins b n ln cs fn t) as (q & E & U & M).
    rewrite app_assoc, E, <- app_assoc in CO. cbn [app] in CO.
    change (a0 :: q ++ ?x) with ((a0 :: q) ++ x) in CO.
    apply consecutive_app in CO as [CO|[(q' & EQ & ->)|CO]].
    + intros x y X Y. apply consecutive_cons in CO as [[_ [l' ->]]|CO].
      * apply Forall_inv in U. congruence.
      * apply consecutive_in in CO as [_ CO]. unfold unruled in U. rewrite Forall_forall in U. apply U in CO. congruence.
    + intros x y X Y. cbn [e_rule e_tok] in *. inversion Y; subst y. destruct q' as [|c q'].
      * cbn [app] in EQ. inversion EQ; subst. cbn [map] in M. symmetry in M. apply app_eq_nil in M as [-> ->].
        destruct (H0 _ X) as [-> ->]. exists [GB b]. split; auto. right. right. exists b, n. auto.
      * cbn [app] in EQ. inversion EQ; subst. apply Forall_app in U as [_ U]. apply Forall_inv in U. congruence.
    + eapply IH; [|exact CO]. cbn [e_rule e_tok]. intros z Q. inversion Q; subst. auto.
Qed.

(** The code token after a comment stands on a new line; and comments of one gap stand
    next to each other or below each other. *)
Lemma arranged_after_comment p ln items ds l : arranged A p ln items ds l ->
  forall a e, consecutive l a e -> e_rule a = None ->
    (is_break (e_white e) = true) \/
    (e_white e = WSpace /\ e_rule e = None /\ line (tstart (e_tok a)) = line (tstart (e_tok e))).
Proof.
  induction 1 as [p ln cs C|p ln cs fn t items ds l C T AA R IH|p ln cs fn t items ds l C T AA R IH
                 |p ln ins cs fn t b n items ds l first N C T I1 I2 AA R IH]; intros a e CO RU.
  - destruct CO as ([|] & ? & E); discriminate.
  - apply consecutive_cons in CO as [[<- _]|CO]; eauto. discriminate.
  - apply consecutive_cons in CO as [[<- _]|CO]; eauto. discriminate.
  - rewrite app_assoc in CO. unfold broken in CO. rewrite app_assoc in CO. rewrite <- app_assoc in CO.
    cbn [app] in CO. apply consecutive_app in CO as [CO|[(q' & _ & ->)|CO]].
    + assert (forall cs' e l', Forall (fun e => is_break (e_white e) = true) l' ->
                consecutive (beside first cs' ++ l') a e -> Forall (fun c => line (tstart c) = ln) cs' ->
                is_break (e_white e) = true \/ (e_white e = WSpace /\ e_rule e = None /\ line (tstart (e_tok a)) = line (tstart (e_tok e)))) as G.
      { clear. intros cs' e l' F CO I. destruct cs' as [|c cs'].
        - apply consecutive_in in CO as [_ CO]. rewrite Forall_forall in F. auto.
        - cbn [beside app] in CO.
          assert (forall f x, In x (beside f (c :: cs')) -> line (tstart (e_tok x)) = ln) as LL.
          { intros f x X. rewrite Forall_forall in I. apply I. rewrite <- (toks_beside f (c :: cs')). apply in_map. exact X. }
          apply consecutive_cons in CO as [[<- [l'' E]]|CO].
          + destruct cs' as [|c2 cs']; cbn [map app] in E.
            * subst l'. apply Forall_inv in F. auto.
            * inversion E; subst. right. repeat split; auto.
              cbn [e_tok]. inversion I as [|? ? J1 J2]; subst. apply Forall_inv in J2. congruence.
          + destruct l' as [|e' l'].
            * rewrite app_nil_r in CO. apply consecutive_in in CO as [I1 I2].
              right. pose proof I2 as I3. apply in_map_iff in I3 as [x [<- _]]. split; [reflexivity|]. split; [reflexivity|].
              transitivity ln; [|symmetry]; eapply (LL first); right; eassumption.
            * apply consecutive_app in CO as [CO|[(q' & _ & ->)|CO]].
              -- apply consecutive_in in CO as [I1 I2].
                 right. pose proof I2 as I3. apply in_map_iff in I3 as [x [<- _]]. split; [reflexivity|]. split; [reflexivity|].
                 transitivity ln; [|symmetry]; eapply (LL first); right; eassumption.
              -- apply Forall_inv in F. auto.
              -- apply consecutive_in in CO as [_ CO]. rewrite Forall_forall in F. auto. }
      apply (G ins e (above b n ln cs)); auto.
      assert (forall cs m, Forall (fun e => is_break (e_white e) = true) (stack n m cs)) as S.
      { clear. induction cs as [|c cs IH]; intro m; constructor; auto. }
      destruct b, cs as [|c cs]; cbn [above]; auto.
    + left. reflexivity.
    + apply consecutive_cons in CO as [[<- _]|CO]; eauto. discriminate.
Qed.

(** A code token after a comment is there because of a break. *)
Lemma arranged_breaks p ln items ds l : arranged A p ln items ds l ->
  forall e r, In e l -> e_rule e = Some r -> is_break (e_white e) = true ->
    exists q b, A q [GB b] (r, tkind_of (e_tok e)).
Proof.
  induction 1 as [p ln cs C|p ln cs fn t items ds l C T AA R IH|p ln cs fn t items ds l C T AA R IH
                 |p ln ins cs fn t b n items ds l first N C T I1 I2 AA R IH]; intros e r I RU B.
  - destruct I.
  - destruct I as [<-|I]; [discriminate|eauto].
  - destruct I as [<-|I]; [discriminate|eauto].
  - destruct (break_shape first ins b n ln cs fn t) as (q & E & U & M).
    rewrite app_assoc, E, <- app_assoc in I. apply in_app_iff in I as [I|[<-|I]]; eauto.
    + unfold unruled in U. rewrite Forall_forall in U. apply U in I. congruence.
    + cbn [e_rule e_tok] in *. inversion RU; subst. eauto.
Qed.
End Facts.

(** ** Which comments survive *)
Lemma drops_in {X} (P : X -> Prop) l l' x : drops P l l' -> In x l' -> In x l.
Proof. induction 1; simpl; intuition. Qed.

Definition next_code (i2 : list token) (t : token) : Prop :=
  exists cs i3, i2 = cs ++ t :: i3 /\ Forall (fun c => commentary c = true) cs /\ commentary t = false.

Lemma split_place cs t items : forall i1 c i2,
  cs ++ t :: items = i1 ++ c :: i2 -> commentary c = true -> commentary t = false ->
  (exists cs2, cs = i1 ++ c :: cs2 /\ i2 = cs2 ++ t :: items) \/
  (exists i1', items = i1' ++ c :: i2 /\ i1 = cs ++ t :: i1').
Proof.
  induction cs as [|x cs IH]; intros [|y i1] c i2 E C T; cbn [app] in E; inversion E; subst.
  - congruence.
  - right. exists i1. auto.
  - left. exists cs. auto.
  - destruct (IH _ _ _ H1 C T) as [(cs2 & -> & ->)|(i1' & -> & ->)].
    + left. exists cs2. auto.
    + right. exists i1'. auto.
Qed.

Section Survival.
Variable A : option dk -> gap -> dk -> Prop.

Definition survives (l : layout) (i2 : list token) : Prop :=
  exists t e, next_code i2 t /\ In e l /\ e_tok e = t /\ is_break (e_white e) = true.

Lemma next_unique i2 t t' : next_code i2 t -> next_code i2 t' -> t = t'.
Proof.
  intros (cs & i3 & -> & C & T) (cs' & i3' & E & C' & T').
  destruct (split_unique _ _ _ _ _ _ E) as (_ & -> & _); auto.
Qed.

Lemma arranged_survival p ln items ds l : arranged A p ln items ds l -> NoDup items ->
  forall i1 c i2, items = i1 ++ c :: i2 -> commentary c = true ->
  (In c (map e_tok l) <-> survives l i2).
Proof.
  assert (forall cs t items l w fn i1 c i2,
            NoDup (cs ++ t :: items) -> Forall (fun c => commentary c = true) cs -> commentary t = false ->
            (forall x, In x (map e_tok l) -> In x items) -> is_break w = false ->
            (forall i1 c i2, items = i1 ++ c :: i2 -> commentary c = true -> (In c (map e_tok l) <-> survives l i2)) ->
            cs ++ t :: items = i1 ++ c :: i2 -> commentary c = true ->
            (In c (map e_tok (mkE w fn t :: l)) <-> survives (mkE w fn t :: l) i2)) as PLAIN.
  { intros cs t items' l' w fn i1 c i2 ND CS T SUB W IH E C.
    apply NoDup_remove in ND as [ND NI]. pose proof (split_place _ _ _ _ _ _ E C T) as [(cs2 & -> & ->)|(i1' & -> & ->)].
    - split.
      + intros [I|I]; [cbn [e_tok] in I; congruence|]. exfalso. apply SUB in I. clear - ND I.
        rewrite <- app_assoc in ND. cbn [app] in ND. apply NoDup_remove in ND as [_ ND]. apply ND. apply in_app_iff. right.
        apply in_app_iff. auto.
      + intros (t' & e & N & I & ET & B). exfalso.
        assert (next_code (cs2 ++ t :: items') t) as N'.
        { exists cs2, items'. split; auto. split; auto. apply Forall_app in CS as [_ CS]. apply Forall_inv_tail in CS. auto. }
        rewrite (next_unique _ _ _ N N') in ET. destruct I as [<-|I].
        * cbn [e_white] in B. congruence.
        * apply NI. apply in_app_iff. right. apply SUB. rewrite <- ET. apply in_map. exact I.
    - assert (survives (mkE w fn t :: l') i2 <-> survives l' i2) as ->.
      { split; intros (t' & e & N & I & ET & B); exists t', e; repeat split; auto.
        - destruct I as [<-|I]; auto. cbn [e_white] in B. congruence.
        - right. auto. }
      rewrite <- (IH i1' c i2 eq_refl C). cbn [map In e_tok]. split; [|auto].
      intros [I|I]; auto. congruence. }
  intro R.
  pose proof (arranged_drops _ _ _ _ _ _ R) as DR.
  induction R as [p ln cs C|p ln cs fn t items ds l C T AA R IH|p ln cs fn t items ds l C T AA R IH
                 |p ln ins cs fn t b n items ds l first N C T I1 I2 AA R IH]; intros ND i1 c i2 E CC.
  - split; [intros []|]. intros (t & e & _ & [] & _).
  - eapply PLAIN; eauto.
    + intros x I. eapply drops_in; [eapply arranged_drops; eauto|exact I].
    + apply IH; [eapply arranged_drops; eauto|]. clear - ND. apply NoDup_remove in ND as [ND _].
      induction cs; auto. apply IHcs. inversion ND; auto.
  - eapply PLAIN; eauto.
    + intros x I. eapply drops_in; [eapply arranged_drops; eauto|exact I].
    + apply IH; [eapply arranged_drops; eauto|]. clear - ND. apply NoDup_remove in ND as [ND _].
      induction cs; auto. apply IHcs. inversion ND; auto.
  - destruct (break_shape first ins b n ln cs fn t) as (q & EQ & U & M).
    rewrite app_assoc, EQ, <- app_assoc. cbn [app]. rewrite app_assoc in E, ND. clear DR.
    assert (forall x, In x (map e_tok l) -> In x items) as SUB.
    { intros x I. eapply drops_in; [eapply arranged_drops; eauto|exact I]. }
    apply NoDup_remove in ND as [ND NI].
    assert (NoDup items) as ND'.
    { clear - ND. induction (ins ++ cs); auto. apply IHl. inversion ND; auto. }
    pose proof (split_place _ _ _ _ _ _ E CC T) as [(cs2 & E1 & ->)|(i1' & -> & ->)].
    + split.
      * intros _. exists t, (mkE (WLine (own_line b ln cs t) n) (Some fn) t). repeat split; auto.
        -- exists cs2, items. split; auto. split; auto. rewrite E1 in C. apply Forall_app in C as [_ C]. apply Forall_inv_tail in C. auto.
        -- apply in_app_iff. right. left. reflexivity.
      * intros _. rewrite map_app, M. apply in_app_iff. left. rewrite E1. apply in_app_iff. right. left. reflexivity.
    + assert (~ In c (ins ++ cs)) as NC.
      { intro I. apply in_split in I as (u & v & EU). rewrite EU in ND. rewrite <- app_assoc in ND. cbn [app] in ND.
        apply NoDup_remove in ND as [_ ND]. apply ND. apply in_app_iff. right. apply in_app_iff. right.
        apply in_app_iff. right. left. reflexivity. }
      assert (~ In t (i1' ++ c :: i2)) as NT by (intro I; apply NI; apply in_app_iff; auto).
      rewrite map_app, M, in_app_iff. cbn [map In e_tok].
      rewrite <- ?IH by (eauto using arranged_drops).
      assert (survives (q ++ mkE (WLine (own_line b ln cs t) n) (Some fn) t :: l) i2 <-> survives l i2) as ->.
      { split; intros (t' & e & NX & I & ET & B); exists t', e; repeat split; auto.
        - assert (In t' i2) as IT by (destruct NX as (u & v & -> & _); apply in_app_iff; right; left; auto).
          assert (commentary t' = false) as CT by (destruct NX as (u & v & _ & _ & Z); exact Z).
          apply in_app_iff in I as [I|[<-|I]]; auto.
          + exfalso. apply (in_map e_tok) in I. rewrite M, ET in I. rewrite Forall_forall in C. apply C in I. congruence.
          + exfalso. cbn [e_tok] in ET. subst t'. apply NT. apply in_app_iff. right. right. exact IT.
        - apply in_app_iff. right. right. exact I. }
      rewrite <- (IH (arranged_drops _ _ _ _ _ _ R) ND' i1' c i2 eq_refl CC).
      split; [|auto]. intros [I|[I|I]]; auto; [contradiction|congruence].
Qed.
End Survival.

(** ** Reading formatted text again *)
Definition solitary (k : tkind) : bool :=
  memk k [TComma; TSemicolon; TLParen; TRParen; TLCurly; TRCurly; TLBracket; TRBracket;
          TAssign; TPlus; TMinus; TStar; TFlex; TDotPlus; TDotMinus; TDotStar; TDotSlash;
          TDotFlex; TGeq; TLeq; TNeq; TEq; TString; TBlockComment].
Definition glue_ok (k1 k2 : tkind) : bool :=
  solitary k1 ||
  (negb (tkind_eqb k1 TLineComment) && memk k2 [TComma; TSemicolon; TLParen; TRParen; TLBracket; TRBracket; TRCurly]) ||
  (tkind_eqb k1 TDot && memk k2 [TIdentifier; TLCurly]) ||
  (tkind_eqb k1 TIdentifier && memk k2 [TDot; TDotStar]).

Lemma follow_space k w c r : space c -> (k = TLineComment -> newline_char c) -> follow_ok k w (c :: r).
Proof.
  intros S NL. assert (forall P : N -> Prop, ~ P c -> ~ SpecLex.starts P (c :: r)) as G.
  { intros P NP (x & r' & E & X). inversion E; subst. contradiction. }
  unfold space in S. simpl In in S.
  assert (~ idchar c) as NI by (unfold idchar, nondigit, letter, digit; lia).
  destruct k; simpl follow_ok; auto;
    try (apply G; unfold digit, exp_mark, dot, slash, star in *; simpl In; lia).
  all: lazymatch goal with
       | |- _ = [] \/ _ => right; exists c, r; auto
       | |- SpecLex.starts _ _ \/ _ => right; apply G; exact NI
       | |- _ => repeat split; intros; apply G; unfold digit, exp_mark, sign in *; lia
       end.
Qed.

Definition opening : list tkind :=
  [TComma; TSemicolon; TLParen; TRParen; TLBracket; TRBracket; TRCurly; TLCurly; TDot; TDotStar].
Definition opening_chars : list N := map ch [","; ";"; "("; ")"; "["; "]"; "}"; "{"; "."]%char.
Lemma opening_checked :
  forallb (fun x => negb (memk (snd x) opening) ||
                    match str (fst x) with c :: _ => existsb (N.eqb c) (if memk (snd x) [TDot; TDotStar] then [ch "."] else removelast opening_chars) | [] => false end)
    (spellings ++ reserved) = true.
Proof. vm_compute. reflexivity. Qed.

Lemma first_of_symbol k w : memk k opening = true -> lexeme k w ->
  exists c b, w = c :: b /\ In c (if memk k [TDot; TDotStar] then [ch "."] else removelast opening_chars).
Proof.
  intros I L. pose proof opening_checked as T. rewrite forallb_forall in T.
  assert (spelled (spellings ++ reserved) w k) as (s & H & ->).
  { inversion L; subst; try discriminate;
      match goal with H : spelled _ _ _ |- _ => destruct H as (s & H & ->) end; exists s; rewrite in_app_iff; auto. }
  apply T in H. cbn [fst snd] in H. rewrite I in H. cbn [negb orb] in H.
  destruct (str s) as [|c b]; [discriminate|]. exists c, b. split; auto.
  apply existsb_exists in H as (x & X & E). apply N.eqb_eq in E. subst. exact X.
Qed.

Lemma follow_glue k1 k2 w1 w2 r : glue_ok k1 k2 = true -> lexeme k2 w2 -> follow_ok k1 w1 (w2 ++ r).
Proof.
  unfold glue_ok. intros G L. apply orb_true_iff in G as [G|G]; [apply orb_true_iff in G as [G|G];
    [apply orb_true_iff in G as [G|G]|]|].
  - destruct k1; try discriminate G; exact I.
  - apply andb_true_iff in G as [NE G].
    assert (memk k2 opening = true /\ memk k2 [TDot; TDotStar] = false) as [O D] by (destruct k2; try discriminate G; auto).
    destruct (first_of_symbol k2 w2 O L) as (c & b & -> & I). rewrite D in I. cbn [app].
    assert (forall P : N -> Prop, ~ P c -> ~ SpecLex.starts P (c :: b ++ r)) as S.
    { intros P NP (x & r' & E & X). inversion E; subst. contradiction. }
    assert (c = 44 \/ c = 59 \/ c = 40 \/ c = 41 \/ c = 91 \/ c = 93 \/ c = 125 \/ c = 123) as I'
      by (vm_compute in I; intuition).
    clear I. assert (~ idchar c) as NI by (unfold idchar, nondigit, letter, digit; lia).
    destruct k1; simpl follow_ok; auto;
      try (apply S; unfold digit, exp_mark, dot, slash, star in *; simpl In; lia).
    all: lazymatch goal with
       | |- _ = [] \/ _ => discriminate NE
       | |- SpecLex.starts _ _ \/ _ => right; apply S; exact NI
       | |- _ => repeat split; intros; apply S; unfold digit, exp_mark, sign in *; lia
       end.
  - apply andb_true_iff in G as [NE G]. apply tkind_eqb_eq in NE. subst k1. simpl follow_ok.
    assert (k2 = TIdentifier \/ k2 = TLCurly) as [->| ->] by (destruct k2; try discriminate G; auto).
    + inversion L; subst.
      * destruct H as (s & H & ->). simpl In in H. intuition discriminate.
      * destruct H as (s & H & ->). simpl In in H. intuition discriminate.
      * cbn [app]. intros (x & r' & E & X). inversion E; subst. simpl In in X. unfold nondigit, letter in H. lia.
      * cbn [app]. intros (x & r' & E & X). inversion E; subst. simpl In in X. unfold squote in X. lia.
    + destruct (first_of_symbol TLCurly w2 eq_refl L) as (c & b & -> & I). vm_compute in I.
      cbn [app]. intros (x & r' & E & X). inversion E; subst. simpl In in X. lia.
  - apply andb_true_iff in G as [NE G]. apply tkind_eqb_eq in NE. subst k1. simpl follow_ok. right.
    assert (memk k2 opening = true /\ memk k2 [TDot; TDotStar] = true) as [O D] by (destruct k2; try discriminate G; auto).
    destruct (first_of_symbol k2 w2 O L) as (c & b & -> & I). rewrite D in I. vm_compute in I.
    cbn [app]. intros (x & r' & E & X). inversion E; subst.
    destruct I as [<-|[]]. unfold idchar, nondigit, letter, digit in X. lia.
Qed.

(** Neighbours that can be told apart again. *)
Definition apt (a e : entry) : Prop :=
  match e_white e with
  | WNone => glue_ok (tkind_of (e_tok a)) (tkind_of (e_tok e)) = true
  | WSpace => tkind_of (e_tok a) <> TLineComment
  | WLine _ _ => True
  end.

Definition is_eol (eol : text) : Prop := eol = [10] \/ eol = [13; 10].

Lemma space_some : space 10 /\ space 13 /\ space 32.
Proof. unfold space. simpl. tauto. Qed.
Lemma white_space eol w : is_eol eol -> Forall space (white_text eol w).
Proof.
  intro E. destruct space_some as (S1 & S2 & S3).
  assert (Forall space eol) as FE by (destruct E; subst; auto).
  assert (forall n, Forall space (times n (str "  "))) as FT.
  { induction n; simpl; [constructor|]. constructor; [exact S3|]. constructor; [exact S3|]. auto. }
  destruct w as [| |b n]; simpl; [constructor| |].
  - constructor; [exact S3|constructor].
  - apply Forall_app. split; [destruct b; auto|]. apply Forall_app. auto.
Qed.

Lemma relex eol l : is_eol eol ->
  Forall (fun e => lexeme (tkind_of (e_tok e)) (ttext (e_tok e))) l ->
  (forall a e, consecutive l a e -> apt a e) ->
  forall tail, lexes tail [] -> tail = [] \/ SpecLex.starts newline_char tail ->
  lexes (render eol l ++ tail) (map (fun e => item_of (e_tok e)) l).
Proof.
  intros E L. induction L as [|e l LE L IH]; intros AP tail LT ST.
  - exact LT.
  - cbn [render flat_map map]. fold (render eol l). rewrite <- !app_assoc.
    apply lexes_spaces; [apply white_space; auto|].
    assert (lexes (render eol l ++ tail) (map (fun e => item_of (e_tok e)) l)) as R.
    { apply IH; auto. intros a b C. apply AP. apply consecutive_cons. auto. }
    unfold item_of at 1. constructor; auto.
    destruct l as [|e2 l].
    + cbn [render flat_map app]. destruct ST as [->|(c & r & -> & N)]; [apply follow_nil|].
      apply follow_space; auto. unfold space. destruct N; subst; simpl; tauto.
    + assert (apt e e2) as AE by (apply AP; exists [], l; auto).
      cbn [render flat_map]. unfold apt in AE. destruct (e_white e2) as [| |b n]; cbn [white_text].
      * cbn [app]. rewrite <- app_assoc. apply follow_glue with (k2 := tkind_of (e_tok e2)); auto. inversion L; auto.
      * apply follow_space; [unfold space; simpl; tauto|contradiction].
      * destruct E as [->| ->]; destruct b; cbn [app]; apply follow_space; unfold space, newline_char; simpl; tauto.
Qed.
