(** One more comment in a text. *)
From Coq Require Import Sorted.
From Verif Require Import ProofBase Tokens Syntax Lexer SpecLex LexInv LexMain LexFacts LexCut ParserCore Grammar
  Tree Printer Formatter Lib ParserSem ParserFuel SpecGrammar Regex ParserGrammar ParserTree ParserFacts Recognise PropsParser
  SpecLanguage ParserComplete PropsLanguage
  FmtAbs FmtPlan FmtShape FmtTables FmtSound SpecLayout FmtExec FmtTop FmtFacts FmtRelex FmtNeat SpecNodes FmtTree FmtLists FmtOps
  FmtWrap SpecGaps SpecReference FmtNode FmtReference FmtSame PropsFormat PropsReference PropsSame FmtBreaks FmtAgree FmtPrinted FmtStable
  FmtMoved FmtConcat SpecTold PropsModular FmtOnce FmtNear PropsVertical FmtLocal SpecCode FmtCode SpecInsert.

(** ** Lexing *)
Lemma lexes_head k w r its : lexeme k w -> lexes (w ++ r) ((k, w) :: its) -> lexes r its /\ follow_ok k w r.
Proof.
  intros L X. pose proof (lexeme_starts _ _ L) as (z & y & EX & NX). inversion X as [|c u ? S _ E1 E2|k1 w1 r1 ? L1 F1 X1 E1 E2]; subst.
  - exfalso. cbn [app] in E1. injection E1 as -> _. contradiction.
  - apply app_inv_head in E1. subst r1. auto.
Qed.
Lemma lexes_skip c r its : space c -> lexes (c :: r) its -> lexes r its.
Proof.
  intros S X. inversion X as [|? ? ? _ ? E1|k1 w1 r1 ? L1 F1 X1 E1 E2]; subst; [assumption|].
  exfalso. apply lexeme_starts in L1 as (z & y & -> & NX). cbn [app] in E1. injection E1 as -> _. contradiction.
Qed.
Lemma lexes_skips sp r its : Forall space sp -> lexes (sp ++ r) its -> lexes r its.
Proof. induction 1; auto. cbn [app]. intro X. apply lexes_skip in X; auto. Qed.
Lemma lexes_rest a A : lexes a A -> forall r B, lexes (a ++ r) (A ++ B) -> lexes r B.
Proof.
  induction 1 as [|c a A S L IH|k w a A X F L IH]; intros r B H; cbn [app] in *; auto.
  - apply lexes_skip in H; auto.
  - rewrite <- app_assoc in H. apply lexes_head in H as [H _]; auto.
Qed.
Lemma lexes_swap a A : lexes a A -> forall h r r' B B', lexes (a ++ h :: r) (A ++ B) -> lexes (h :: r') B' -> lexes (a ++ h :: r') (A ++ B').
Proof.
  induction 1 as [|c a A S L IH|k w a A X F L IH]; intros h r r' B B' H K; cbn [app] in *; auto.
  - apply lexes_skip in H; auto. constructor; eauto.
  - rewrite <- app_assoc in *. apply lexes_head in H as [H G]; auto. constructor; eauto.
    destruct a; cbn [app] in *; eapply follow_head; eauto.
Qed.

(** ** Places *)
Notation lexemes := (Forall (fun t => exists k, lexeme k (ttext t))).
Lemma set_out_cut a A : lexes a A -> forall c n IA IB r, map item_of IA = A -> lexemes IB -> set_out c n (IA ++ IB) (a ++ r) ->
  set_out c n IA a /\ set_out (c ++ a) (n + length IA) IB r.
Proof.
  induction 1 as [|x a A S L IH|k w a A X F L IH]; intros c n IA IB r M LM H.
  - destruct IA; [|discriminate]. cbn [app length] in *. rewrite app_nil_r, Nat.add_0_r. split; [constructor; constructor|exact H].
  - cbn [app] in H. assert (lexemes IA) as LA by (apply (items_lexemes a); rewrite M; exact L). apply set_out_skip in H; auto; [|apply Forall_app; auto].
    apply IH in H as [H1 H2]; auto. rewrite <- app_assoc in H2. cbn [app] in H2. split; [|exact H2].
    clear - H1 S LA. inversion H1 as [? ? sp SP|? ? sp t its r SP A1 A2 A3 A4 A5 H]; subst.
    + constructor. constructor; auto.
    + rewrite <- !app_assoc in *. cbn [app] in *. change (x :: sp ++ ttext t ++ r) with ((x :: sp) ++ ttext t ++ r). constructor; auto.
  - destruct IA as [|t IA]; [discriminate|]. cbn [map app] in *. assert (item_of t = (k, w)) as IT by congruence. apply (f_equal (@List.tl _)) in M. cbn [List.tl] in M.
    assert (ttext t = w) as TW by (unfold item_of in IT; congruence). rewrite <- app_assoc in H.
    apply set_out_inv in H as (sp & r2 & E & SP & A1 & A2 & A3 & A4 & A5 & H). pose proof (lexeme_starts _ _ X) as (z & y & EX & NX).
    destruct sp as [|x sp]; [|exfalso; rewrite EX in E; cbn [app] in E; injection E as -> _; inversion SP; contradiction]. cbn [app] in *. rewrite TW in *.
    apply app_inv_head in E. subst r2. apply IH in H as [H1 H2]; auto. rewrite <- app_assoc in H2. cbn [length]. replace (n + S (length IA))%nat with (S n + length IA)%nat by lia. split; [|exact H2].
    rewrite <- TW in *. change (ttext t ++ a) with ([] ++ ttext t ++ a). constructor; auto.
Qed.
Lemma set_out_moved d c n its r : set_out c n its r -> forall c' n' its', set_out c' n' its' r -> map item_of its = map item_of its' -> lexemes its ->
  newlines c' = newlines c + d -> (0 < n)%nat -> (0 < n')%nat -> Forall2 (moved same_text d) its its'.
Proof.
  induction 1 as [c n sp S|c n sp t its r S A1 A2 A3 A4 A5 L IH]; intros c' n' its' B M X NL P P'; destruct its' as [|t' its']; try discriminate; [constructor|].
  apply set_out_inv in B as (sp' & r2 & E & S' & B1 & B2 & B3 & B4 & B5 & L'). cbn [map] in M.
  assert (item_of t = item_of t') as IT by congruence. apply (f_equal (@List.tl _)) in M. cbn [List.tl] in M.
  assert (ttext t' = ttext t /\ tkind_of t' = tkind_of t) as [T1 T2] by (unfold item_of in IT; split; congruence).
  inversion X as [|? ? [k LX] X']; subst. rewrite T1 in *. apply lexeme_starts in LX as (x & y & EX & NX).
  apply spaces_prefix in E as [-> E2]; auto; try (rewrite EX; cbn [app]; eauto). apply app_inv_head in E2. subst r2.
  apply coords_line in A1, A3, B1, B3. rewrite !FmtSame.newlines_app in *. constructor.
  - unfold moved, same_text. rewrite T1, T2, A1, A3, B1, B3, A5, B5. repeat split; try lia. intros _. apply eq_true_iff_eq. rewrite !N.ltb_lt. lia.
  - eapply IH; eauto. rewrite !FmtSame.newlines_app. lia.
Qed.

(** ** Layouts *)
Lemma moved_alike d e e' : entry_moved same_text d e e' -> alike e e'.
Proof. intros (A & B & T & K & _). repeat split; auto. Qed.
Lemma moved_alikes d l l' : Forall2 (entry_moved same_text d) l l' -> Forall2 alike l l'.
Proof. induction 1; constructor; auto. eapply moved_alike; eauto. Qed.
Definition heads (cs : list token) (t : token) : token := match cs with [] => t | c :: _ => c end.
Definition sinks (b : blanks) : blanks := match b with Always => Kept | _ => b end.
Lemma rows_app n r t F : forall b ln X, exists L, forall t', rows b n ln (F ++ X) r t = L ++ rows (match F with [] => b | _ => sinks b end) n (end_line ln F) X r t /\
  (forall X', rows b n ln (F ++ X') r t' = L ++ rows (match F with [] => b | _ => sinks b end) n (end_line ln F) X' r t') /\ written L = [].
Proof.
  induction F as [|c F IH]; intros b ln X; cbn [app end_line].
  - exists []. intro t'. auto.
  - cbn [rows]. change (match b with Always => Kept | _ => b end) with (sinks b). destruct (IH (sinks b) (line (tend c)) X) as (L & H). eexists (_ :: L). intro t'. destruct (H t') as (H1 & H2 & H3).
    assert (sinks (sinks b) = sinks b) as SS by (destruct b; reflexivity).
    assert (match F with [] => sinks b | _ => sinks (sinks b) end = sinks b) as E by (destruct F; auto). rewrite E in *.
    split; [cbn [app]; f_equal; exact H1|]. split; [intro X'; cbn [app]; f_equal; apply H2|exact H3].
Qed.
Lemma gap_next K : gap_between K (K + 1) = false.
Proof. unfold gap_between. replace (K + 1 - K) with 1 by lia. reflexivity. Qed.
(** A comment right above the next item. *)
Lemma rows_own b n ln c X X' r t t' : Forall2 (moved same_text 1) X X' -> moved same_text 1 t t' -> 
  line (tstart c) = line (tstart (heads X t)) -> line (tend c) = line (tstart c) ->
  exists e bl R R', rows b n ln X r t = mkE (WLine bl n) (e_rule e) (e_tok e) :: R /\
    exists bl' t2, rows b n ln (c :: X') r t' = mkE (WLine bl' n) None c :: mkE (WLine false n) (e_rule e) t2 :: R' /\
      moved same_text 1 (e_tok e) t2 /\ Forall2 alike R R' /\ (bl = true -> bl' = true) /\
      (bl' = true -> bl = true \/ e_rule e <> None /\ 1 < line (tstart c) - ln).
Proof.
  intros M T HC EC. cbn [rows]. rewrite EC.
  destruct M as [|x x' X X' MX M]; cbn [heads rows] in *.
  - do 4 eexists. split; [apply f_equal2; [|reflexivity]; instantiate (2 := mkE WNone (Some r) t); reflexivity|].
    do 2 eexists. split; [apply f_equal2; [reflexivity|]; apply f_equal2; [|reflexivity]|].
    + destruct T as (_ & _ & TS & _). rewrite TS, HC. cbn [e_rule]. f_equal. f_equal. destruct b; cbn [sinks]; rewrite ?gap_next; reflexivity.
    + split; [exact T|]. split; [constructor|]. rewrite HC. cbn [e_rule]. split; [destruct b; auto; discriminate|].
      destruct b; auto. intro G. right. split; [discriminate|]. unfold gap_between in G. apply N.ltb_lt in G. exact G.
  - do 4 eexists. split; [apply f_equal2; [|reflexivity]; instantiate (2 := mkE WNone None x); reflexivity|].
    assert (MX0 := MX). destruct MX0 as (_ & _ & XS & XE & _). do 2 eexists. split; [apply f_equal2; [reflexivity|]; apply f_equal2; [|reflexivity]|].
    + rewrite XS, HC. cbn [e_rule]. f_equal. f_equal. destruct b; rewrite ?gap_next; reflexivity.
    + split; [exact MX|]. split.
      * rewrite XE. change (match match b with Always => Kept | _ => b end with Always => Kept | _ => match b with Always => Kept | _ => b end end) with (sinks (sinks b)).
        replace (sinks (sinks b)) with (sinks b) by (destruct b; reflexivity). apply (moved_alikes 1), rows_moved; auto.
      * rewrite HC. cbn [e_rule]. split; [destruct b; auto|]. destruct b; auto.
Qed.

Lemma written_code l : written l = map (fun e => ttext (e_tok e)) (filter code l).
Proof. induction l as [|e l IH]; [reflexivity|]. unfold written in *. cbn [flat_map filter code]. unfold code. destruct (e_rule e); cbn [app map]; rewrite IH; reflexivity. Qed.
Lemma written_app a b : written (a ++ b) = written a ++ written b.
Proof. apply flat_map_app. Qed.
Lemma written_weave items xs : filter plain items = map at_tok xs -> forall p ln cs, written (weave p ln cs items xs) = map ttext (filter plain items).
Proof.
  intros SP p ln cs. rewrite written_code, SP, map_map. pose proof (code_weave items p ln cs xs SP) as W. revert W. generalize (filter code (weave p ln cs items xs)). clear.
  intro l. revert p xs. induction l as [|e l IH]; intros p xs W; destruct xs as [|x xs]; inversion W as [|? ? ? ? (_ & _ & T) W']; subst; [reflexivity|]. cbn [map e_tok] in *. rewrite T. f_equal. eapply IH; eauto.
Qed.
Lemma starts_code f B L : starts_line (behind f B ++ L) = starts_line L.
Proof. unfold starts_line. rewrite filter_app. pose proof (code_behind f B) as E. unfold code in E. rewrite E. reflexivity. Qed.
Lemma starts_rows b n ln C r t L : starts_line (rows b n ln C r t ++ L) = true.
Proof. unfold starts_line. rewrite filter_app. destruct (code_rows n r t C b ln) as (w & E). unfold code in E. rewrite E. reflexivity. Qed.
Lemma behind_written f B : written (behind f B) = [].
Proof. rewrite written_code, code_behind. reflexivity. Qed.

(** ** Rows of tokens *)
Lemma moved_token d t t' : moved same_text d t t' -> same_token t t'.
Proof.
  intros (_ & K & A & B & W). split; [exact K|]. split; [rewrite A, B; lia|]. intro E. specialize (W E). destruct (N.ltb_spec 0 (tidx t')), (N.ltb_spec 0 (tidx t)); try discriminate; lia.
Qed.
Lemma same_token_refl t : same_token t t.
Proof. repeat split; tauto. Qed.
Lemma moved_rows d l l' : Forall2 (moved same_text d) l l' -> same_rows l l'.
Proof.
  induction 1 as [|t t' l l' T M IH]; [constructor|]. inversion M as [|u u' r r' U M']; subst; [constructor; eapply moved_token; eauto|].
  constructor; [eapply moved_token; eauto| |exact IH]. destruct T as (_ & _ & _ & T & _), U as (_ & _ & U & _). rewrite T, U. lia.
Qed.
Lemma insert_rows d P t0 l l' : Forall2 (moved same_text d) l l' -> (forall b, In b l -> (line (tend t0) < line (tstart b) <-> line (tend t0) < line (tstart b) + d)) ->
  same_rows (P ++ t0 :: l) (P ++ t0 :: l').
Proof.
  intros M H. induction P as [|a P IH]; cbn [app].
  - pose proof (moved_rows _ _ _ M) as R. inversion M as [|u u' r r' U M']; subst; [constructor; apply same_token_refl|].
    constructor; [apply same_token_refl| |exact R]. destruct U as (_ & _ & U & _). rewrite U. apply H. left. reflexivity.
  - destruct P as [|a2 P]; cbn [app] in *; (constructor; [apply same_token_refl|tauto|exact IH]).
Qed.
Lemma moved_plain d l l' : Forall2 (moved same_text d) l l' -> Forall2 (moved same_text d) (filter plain l) (filter plain l').
Proof. apply moved_filter. intros t t' (_ & K & _). unfold plain. rewrite K. reflexivity. Qed.
Lemma moved_heads d l l' : Forall2 (moved same_text d) l l' -> Forall (fun c => commentary c = true) l -> Forall (fun c => commentary c = true) l'.
Proof. induction 1 as [|t t' l l' (_ & K & _) M IH]; intro F; [constructor|]. inversion F; subst. constructor; auto. unfold commentary in *. rewrite K. assumption. Qed.

(** All further items are comments, or there is a next token. *)
Lemma insert_next d l l' : Forall2 (moved same_text d) l l' -> (Forall (fun x => commentary x = true) l) \/
  exists Cb u r Cb' u' r', l = Cb ++ u :: r /\ l' = Cb' ++ u' :: r' /\ Forall (fun x => commentary x = true) Cb /\ Forall (fun x => commentary x = true) Cb' /\
    commentary u = false /\ commentary u' = false /\ Forall2 (moved same_text d) Cb Cb' /\ moved same_text d u u' /\ Forall2 (moved same_text d) r r'.
Proof.
  induction 1 as [|t t' l l' T M IH]; [left; constructor|]. assert (commentary t' = commentary t) as K by (destruct T as (_ & K & _); unfold commentary; rewrite K; reflexivity).
  destruct (commentary t) eqn:C.
  - destruct IH as [IH|(Cb & u & r & Cb' & u' & r' & -> & -> & F1 & F2 & U1 & U2 & M1 & M2 & M3)]; [left; constructor; auto|].
    right. exists (t :: Cb), u, r, (t' :: Cb'), u', r'. repeat split; auto; try constructor; auto; apply M2.
  - right. exists [], t, l, [], t', l'. repeat split; auto; apply T.
Qed.
Lemma next_spot xs Cb u r : Forall (fun x => commentary x = true) Cb -> commentary u = false -> filter plain (Cb ++ u :: r) = map at_tok xs ->
  exists x xs0, xs = x :: xs0 /\ at_tok x = u /\ filter plain r = map at_tok xs0.
Proof.
  intros F U E. rewrite filter_app, (comments_plain _ F) in E. cbn [filter app] in E. unfold plain in E at 1. unfold commentary in U. rewrite U in E. cbn [negb] in E.
  destruct xs as [|x xs]; [discriminate|]. cbn [map] in E. exists x, xs. split; [reflexivity|]. split; congruence.
Qed.

(** ** One token with the comments in front of it *)
Lemma behind_false B : behind false B = map (mkE WSpace None) B.
Proof. destruct B; reflexivity. Qed.
Lemma put_starts p ln cs x L : starts_line (put p ln cs x ++ L) = match at_pos x with Below _ => true | _ => false end.
Proof.
  unfold put. destruct (at_pos x); try reflexivity.
  - unfold starts_line. cbn [app filter e_rule e_white]. destruct p as [[q a]|]; [destruct (SpecGaps.tight a (at_rule x) (tkind_of (at_tok x)))|]; reflexivity.
  - rewrite <- app_assoc, starts_code. apply starts_rows.
Qed.
Lemma put_behind q ln c cs cs' x x' L : strip x' = strip x -> Forall2 (moved same_text 0) cs cs' -> moved same_text 0 (at_tok x) (at_tok x') -> line (tstart c) = ln ->
  exists P, Forall2 alike (put (Some q) ln cs x) P /\
    put (Some q) ln (c :: cs') x' = (if starts_line (put (Some q) ln cs x ++ L) then [mkE WSpace None c] else []) ++ P.
Proof.
  intros SX M T LC. rewrite put_starts. exists (put (Some q) (ln + 0) cs' x'). split; [eapply moved_alikes, put_moved; eauto|]. rewrite N.add_0_r.
  assert (at_pos x' = at_pos x) as S2 by (unfold strip in SX; congruence). unfold put. rewrite S2. destruct (at_pos x); try reflexivity.
  cbn [filter]. rewrite LC, N.eqb_refl. cbn [negb]. rewrite !behind_false. reflexivity.
Qed.
Lemma filter_off (f : token -> bool) l : Forall (fun x => f x = false) l -> filter f l = [].
Proof. induction 1 as [|x l X _ IH]; [reflexivity|]. cbn [filter]. rewrite X. exact IH. Qed.
Lemma filter_on (f : token -> bool) l : Forall (fun x => f x = true) l -> filter f l = l.
Proof. induction 1 as [|x l X _ IH]; [reflexivity|]. cbn [filter]. rewrite X. f_equal. exact IH. Qed.
Lemma moved_later d ln l l' : Forall2 (moved same_text d) l l' -> Forall (fun t => ln < line (tstart t)) l -> Forall (fun t => ln < line (tstart t)) l'.
Proof. induction 1 as [|t t' l l' (_ & _ & T & _) M IH]; intro F; [constructor|]. inversion F; subst. constructor; auto. lia. Qed.
Lemma put_own q ln C1 c cs cs' x x' b : at_pos x = Below b -> strip x' = strip x -> Forall2 (moved same_text 1) cs cs' -> moved same_text 1 (at_tok x) (at_tok x') ->
  ln < line (tstart c) -> Forall (fun t => ln < line (tstart t)) cs -> line (tstart c) = line (tstart (heads cs (at_tok x))) -> line (tend c) = line (tstart c) ->
  exists K e e' bl bl' n R R', written K = [] /\
    put (Some q) ln (C1 ++ cs) x = K ++ e :: R /\ put (Some q) ln (C1 ++ c :: cs') x' = K ++ mkE (WLine bl' n) None c :: e' :: R' /\
    e_white e = WLine bl n /\ e_white e' = WLine false n /\ e_rule e' = e_rule e /\ moved same_text 1 (e_tok e) (e_tok e') /\ Forall2 alike R R' /\
    (bl = true -> bl' = true) /\
    (bl' = true -> bl = true \/ 1 < line (tstart c) - end_line ln (filter (fun t => negb (line (tstart t) =? ln)) C1)).
Proof.
  intros B SX M T LC LM HC EC. assert (at_rule x' = at_rule x /\ at_pos x' = at_pos x /\ at_level x' = at_level x) as (S1 & S2 & S3) by (unfold strip in SX; repeat split; congruence).
  unfold put. rewrite S2, B, S1, S3. rewrite !filter_app. cbn [filter]. pose proof (moved_later _ _ _ _ M LM) as LM'.
  assert ((line (tstart c) =? ln) = false) as -> by (apply N.eqb_neq; lia). cbn [negb].
  assert (forall l, Forall (fun t => ln < line (tstart t)) l -> filter (fun c => line (tstart c) =? ln) l = [] /\ filter (fun c => negb (line (tstart c) =? ln)) l = l) as FL.
  { intros l F. split; [apply filter_off|apply filter_on]; (eapply Forall_impl; [|exact F]); cbn beta; intros t H; [|apply negb_true_iff]; apply N.eqb_neq; lia. }
  destruct (FL cs LM) as [-> ->]. destruct (FL cs' LM') as [-> ->]. rewrite !app_nil_r.
  set (F := filter (fun t => negb (line (tstart t) =? ln)) C1). set (H := behind false (filter (fun c => line (tstart c) =? ln) C1)).
  destruct (rows_app (at_level x) (at_rule x) (at_tok x) F b ln cs) as (K & HK). destruct (HK (at_tok x')) as (H1 & H2 & H3).
  destruct (rows_own (match F with [] => b | _ => sinks b end) (at_level x) (end_line ln F) c cs cs' (at_rule x) (at_tok x) (at_tok x') M T HC EC)
    as (e & bl & R & R' & E1 & bl' & t2 & E2 & M2 & AL & I1 & I2).
  exists (H ++ K), (mkE (WLine bl (at_level x)) (e_rule e) (e_tok e)), (mkE (WLine false (at_level x)) (e_rule e) t2), bl, bl', (at_level x), R, R'.
  split; [unfold H; rewrite written_app, behind_written, H3; reflexivity|]. rewrite H1, H2, E1, E2, <- !app_assoc. repeat split; auto; try apply M2.
  intro Q. destruct (I2 Q) as [?|[_ ?]]; auto.
Qed.

(** ** The layouts of both texts *)
Section Insert.
Variables (s s' : text) (p p' : parsed) (tree tree' : child) (d : N) (A1 C1 IB IB' : list token) (t0 c : token).
Hypothesis R : reading s p (A1 ++ t0 :: C1 ++ IB) tree.
Hypothesis R' : reading s' p' (A1 ++ t0 :: C1 ++ c :: IB') tree'.
Hypothesis EV : p_events p' = p_events p.
Hypothesis P0 : plain t0 = true.
Hypothesis CC : commentary c = true.
Hypothesis FC : Forall (fun x => commentary x = true) C1.
Hypothesis MB : Forall2 (moved same_text d) IB IB'.
Hypothesis NB : forall b, In b IB -> (line (tend t0) < line (tstart b) <-> line (tend t0) < line (tstart b) + d).
Let l := reference tree (A1 ++ t0 :: C1 ++ IB).
Let l' := reference tree' (A1 ++ t0 :: C1 ++ c :: IB').

Lemma insert_split : exists L1 r ys ys', (written L1 = map ttext (filter plain (A1 ++ [t0])) /\ exists L0 e, L1 = L0 ++ [e] /\ e_tok e = t0) /\
  l = L1 ++ weave (Some (r, tkind_of t0)) (line (tend t0)) [] (C1 ++ IB) ys /\
  l' = L1 ++ weave (Some (r, tkind_of t0)) (line (tend t0)) [] (C1 ++ c :: IB') ys' /\
  map strip ys' = map strip ys /\ filter plain IB = map at_tok ys /\ filter plain IB' = map at_tok ys'.
Proof.
  assert (forall X, filter plain (A1 ++ t0 :: C1 ++ X) = filter plain (A1 ++ [t0]) ++ filter plain X) as FP.
  { intro X. rewrite !filter_app. cbn [filter]. rewrite P0, filter_app, (comments_plain _ FC), <- app_assoc. reflexivity. }
  pose proof (reading_spots _ _ _ _ R) as SP. pose proof (reading_spots _ _ _ _ R') as SP'.
  assert (filter plain (c :: IB') = filter plain IB') as FCC by (cbn [filter]; unfold plain at 1; unfold commentary in CC; rewrite CC; reflexivity).
  rewrite FP in SP, SP'. rewrite FCC in SP'.
  assert (map strip (spots KStoredDefinition Beside 0 0 false false tree') = map strip (spots KStoredDefinition Beside 0 0 false false tree)) as ST.
  { eapply reading_strip; eauto. rewrite !FP, FCC. rewrite filter_app. cbn [filter]. rewrite P0, <- !app_assoc. cbn [app]. eapply insert_rows; [apply moved_plain; exact MB|].
    intros b I. apply filter_In in I as [I _]. auto. }
  symmetry in SP, SP'. apply map_eq_app in SP as (xs & ys & E & X & Y). apply map_eq_app in SP' as (xs' & ys' & E' & X' & Y').
  subst l l'. unfold reference. rewrite E, E' in *. rewrite !map_app in ST.
  assert (length (map strip xs') = length (map strip xs)) as LEN by (rewrite !map_length, <- (map_length at_tok xs'), <- (map_length at_tok xs), X, X'; reflexivity).
  assert (map strip xs' = map strip xs /\ map strip ys' = map strip ys) as [S1 S2].
  { clear - ST LEN. revert ST LEN. generalize (map strip xs') (map strip xs) (map strip ys') (map strip ys). intros a b c d E L. revert b E L.
    induction a as [|x a IH]; intros [|y b] E L; try discriminate; [auto|]. cbn [app length] in *. injection E as -> E. destruct (IH b E) as [-> ->]; [lia|]. auto. }
  assert (xs' = xs) as ->.
  { clear - S1 X X'. rewrite <- X in X'. clear X. revert xs S1 X'. induction xs' as [|x' xs' IH]; intros [|x xs] S T; try discriminate; [reflexivity|]. cbn [map] in *.
    unfold strip in S at 1 3. assert (x' = x) as -> by (destruct x', x; cbn in *; congruence). f_equal. apply IH; congruence. }
  destruct (weave_app A1 t0 P0 None 1 [] xs (eq_sym X)) as (r & W).
  exists (weave None 1 [] (A1 ++ [t0]) xs), r, ys, ys'. split.
  { split; [apply written_weave; auto|]. rewrite filter_app in X. cbn [filter] in X. rewrite P0 in X. apply map_eq_app in X as (X1 & X2 & -> & X3 & X4).
    destruct X2 as [|x [|? ?]]; try discriminate. cbn [map] in X4. destruct (weave_pass A1 None 1 [] X1 x t0 [] [] (eq_sym X3) P0) as (L0 & w & EL & _); [congruence|]. eauto. }
  replace (A1 ++ t0 :: C1 ++ IB) with ((A1 ++ [t0]) ++ C1 ++ IB) by (rewrite <- app_assoc; reflexivity).
  replace (A1 ++ t0 :: C1 ++ c :: IB') with ((A1 ++ [t0]) ++ C1 ++ c :: IB') by (rewrite <- app_assoc; reflexivity).
  rewrite !W. auto 10.
Qed.

(** A comment on the line of the last token. *)
Theorem insert_behind : C1 = [] -> d = 0 -> line (tstart c) = line (tend t0) -> exists L1 L2 L2', l = L1 ++ L2 /\ written L1 = map ttext (filter plain (A1 ++ [t0])) /\
  Forall2 alike L2 L2' /\ l' = L1 ++ (if starts_line L2 then [mkE WSpace None c] else []) ++ L2' /\ exists L0 e, L1 = L0 ++ [e] /\ e_tok e = t0.
Proof.
  intros EC ED LC. destruct insert_split as (L1 & r & ys & ys' & [W LAST] & E & E' & ST & Y & Y').
  rewrite EC in E, E'. cbn [app] in E, E'. destruct (insert_next _ _ _ MB) as [F|(Cb & u & r2 & Cb' & u' & r2' & EB & EB' & F1 & F2 & U1 & U2 & M1 & M2 & M3)].
  - pose proof (moved_heads _ _ _ MB F) as F'. rewrite weave_rest in E by exact F. rewrite weave_rest in E' by (constructor; auto). exists L1, [], []. repeat split; auto.
  - rewrite EB in E, Y. rewrite EB' in E', Y'. destruct (next_spot _ _ _ _ F1 U1 Y) as (x & xs & -> & XU & X2). destruct (next_spot _ _ _ _ F2 U2 Y') as (x' & xs' & -> & XU' & X2').
    rewrite weave_comments in E by auto. change (c :: Cb' ++ u' :: r2') with ((c :: Cb') ++ u' :: r2') in E'. rewrite weave_comments in E' by (try constructor; auto).
    cbn [app] in E, E'. cbn [map] in ST. assert (strip x' = strip x) as SX by congruence. apply (f_equal (@List.tl _)) in ST. cbn [List.tl] in ST.
    assert (at_rule x' = at_rule x) as S1 by (unfold strip in SX; congruence).
    assert (Forall2 alike (weave (Some (at_rule x, tkind_of u)) (line (tend u)) [] r2 xs) (weave (Some (at_rule x', tkind_of u')) (line (tend u')) [] r2' xs')) as REST.
    { rewrite S1. assert (M0 := M2). destruct M0 as (_ & K & _ & T & _). rewrite K, T. eapply moved_alikes, weave_moved; eauto. rewrite <- X2, <- X2'. apply moved_plain, M3. }
    rewrite ED in M1, M2. subst u u'.
    destruct (put_behind (r, tkind_of t0) (line (tend t0)) c Cb Cb' x x' (weave (Some (at_rule x, tkind_of (at_tok x))) (line (tend (at_tok x))) [] r2 xs) SX M1 M2 LC) as (P & AP & EP).
    rewrite EP in E'. do 3 eexists. split; [exact E|]. split; [exact W|]. split; [apply Forall2_app; [exact AP|exact REST]|]. split; [|exact LAST]. rewrite <- app_assoc in E'. exact E'.
Qed.

(** A comment right above the line of the next item. *)
Theorem insert_own : d = 1 -> line (tend t0) < line (tstart c) -> Forall (fun t => line (tstart c) <= line (tstart t)) IB ->
  (forall t r, IB = t :: r -> line (tstart t) = line (tstart c)) -> line (tend c) = line (tstart c) ->
  exists L1 L2 L2', l = L1 ++ L2 /\ l' = L1 ++ L2' /\ written L1 = map ttext (filter plain (A1 ++ [t0])) /\
    if starts_line L2 then
      exists e e' bl bl' n R R', L2 = e :: R /\ L2' = mkE (WLine bl' n) None c :: e' :: R' /\
        e_white e = WLine bl n /\ e_white e' = WLine false n /\ e_rule e' = e_rule e /\ moved same_text 1 (e_tok e) (e_tok e') /\ Forall2 alike R R' /\
        (bl = true -> bl' = true) /\
        (bl' = true -> bl = true \/ 1 < line (tstart c) - end_line (line (tend t0)) (filter (fun t => negb (line (tstart t) =? line (tend t0))) C1))
    else Forall2 alike L2 L2'.
Proof.
  intros ED LC LM FI EC. destruct insert_split as (L1 & r & ys & ys' & [W _] & E & E' & ST & Y & Y').
  destruct (insert_next _ _ _ MB) as [F|(Cb & u & r2 & Cb' & u' & r2' & EB & EB' & F1 & F2 & U1 & U2 & M1 & M2 & M3)].
  - pose proof (moved_heads _ _ _ MB F) as F'. rewrite weave_rest in E by (apply Forall_app; auto). rewrite weave_rest in E' by (apply Forall_app; split; auto; constructor; auto).
    exists L1, [], []. split; [auto|]. split; [auto|]. split; [auto|]. constructor.
  - rewrite EB in E, Y. rewrite EB' in E', Y'. destruct (next_spot _ _ _ _ F1 U1 Y) as (x & xs & -> & XU & X2). destruct (next_spot _ _ _ _ F2 U2 Y') as (x' & xs' & -> & XU' & X2').
    rewrite app_assoc in E. rewrite weave_comments in E by (auto; apply Forall_app; auto).
    replace (C1 ++ c :: Cb' ++ u' :: r2') with ((C1 ++ c :: Cb') ++ u' :: r2') in E' by (rewrite <- app_assoc; reflexivity). rewrite weave_comments in E' by (auto; apply Forall_app; auto).
    cbn [app] in E, E'. cbn [map] in ST. assert (strip x' = strip x) as SX by congruence. apply (f_equal (@List.tl _)) in ST. cbn [List.tl] in ST.
    assert (at_rule x' = at_rule x /\ at_pos x' = at_pos x) as [S1 S2] by (unfold strip in SX; split; congruence).
    assert (Forall2 alike (weave (Some (at_rule x, tkind_of u)) (line (tend u)) [] r2 xs) (weave (Some (at_rule x', tkind_of u')) (line (tend u')) [] r2' xs')) as REST.
    { rewrite S1. assert (M0 := M2). destruct M0 as (_ & K & _ & T & _). rewrite K, T. eapply moved_alikes, weave_moved; eauto. rewrite <- X2, <- X2'. apply moved_plain, M3. }
    pose proof (put_starts (Some (r, tkind_of t0)) (line (tend t0)) (C1 ++ Cb) x (weave (Some (at_rule x, tkind_of u)) (line (tend u)) [] r2 xs)) as PS.
    destruct (at_pos x) as [| | |b] eqn:B.
    4: { rewrite ED in M1, M2. subst u u'.
      destruct (put_own (r, tkind_of t0) (line (tend t0)) C1 c Cb Cb' x x' b B SX M1 M2 LC) as (K & e & e' & bl & bl' & n & R1 & R2 & WK & P1 & P2 & X3 & X4 & X5 & X6 & X7 & X8 & X9).
      - rewrite EB in LM. apply Forall_app in LM as [LM _]. eapply Forall_impl; [|exact LM]. cbn beta. intros. lia.
      - destruct Cb as [|c1 Cb]; cbn [heads app] in *; symmetry; eapply FI; exact EB.
      - exact EC.
      - rewrite P1 in E, PS. rewrite P2 in E'. rewrite <- !app_assoc in E, E', PS. rewrite app_assoc in E, E'. exists (L1 ++ K). do 2 eexists. split; [exact E|]. split; [exact E'|].
        split; [rewrite written_app, WK, app_nil_r; exact W|].
        match goal with |- context [starts_line ?a] => assert (starts_line a = true) as SL end.
        { unfold starts_line in PS. rewrite filter_app in PS. rewrite written_code in WK. apply map_eq_nil in WK. unfold code in WK. rewrite WK in PS. exact PS. }
        rewrite SL. cbn [app]. exists e, e', bl, bl', n. do 2 eexists. split; [reflexivity|]. split; [reflexivity|]. repeat split; auto; try apply X6. apply Forall2_app; auto. }
    all: do 3 eexists; split; [exact E|]; split; [exact E'|]; split; [exact W|]; rewrite PS; apply Forall2_app; [|exact REST]; unfold put; rewrite S2, S1, B; subst u u';
      (assert (M0 := M2); destruct M0 as (MT & K & _); rewrite ?K; apply Forall2_cons; [|apply Forall2_nil]; unfold alike; cbn [e_white e_rule e_tok]; unfold same_text in MT; rewrite MT, K; auto).
Qed.
End Insert.
