(** Properties C74 to C77: comments on lines of their own, beginning and end of files, names, and files
    put together. *)
From Verif Require Import ProofBase Tokens Syntax Lexer SpecLex LexInv LexMain LexFacts ParserCore Grammar
  Tree Printer Formatter Lib ParserSem ParserFuel SpecGrammar Regex ParserGrammar ParserTree ParserFacts Recognise PropsParser
  SpecLanguage ParserComplete PropsLanguage
  FmtAbs FmtPlan FmtShape FmtTables FmtSound SpecLayout FmtExec FmtTop FmtFacts FmtRelex FmtNeat SpecNodes FmtTree FmtLists FmtOps
  FmtWrap SpecGaps SpecReference FmtNode FmtReference FmtSame PropsFormat PropsReference PropsSame FmtBreaks FmtAgree FmtPrinted FmtStable
  FmtMoved FmtConcat SpecTold.

(** ** C74: comments *)

(** The line on which the code before the rest of a layout ends. *)
Definition code_line (l : layout) : N :=
  match rev (codes l) with [] => 1 | (_, t) :: _ => line (tend t) end.

Fixpoint tidy (first : bool) (ln : N) (l : layout) : Prop :=
  match l with
  | [] => True
  | e :: r =>
      (e_rule e = None ->
         (is_break (e_white e) = true <-> line (tstart (e_tok e)) <> ln) /\
         exists e' r', r = e' :: r' /\
           match e_white e with
           | WLine _ n => exists b, e_white e' = WLine b n
           | w => (w = WSpace \/ w = WNone /\ first = true) /\
                  (is_break (e_white e') = true \/ e_rule e' = None /\ e_white e' = WSpace)
           end) /\
      tidy false (match e_rule e with None => ln | Some _ => line (tend (e_tok e)) end) r
  end.

Lemma tidy_rows n r t cs : forall b ln ln' rest, Forall (fun c => negb (line (tstart c) =? ln) = true) cs -> tidy false (line (tend t)) rest ->
  tidy false ln (rows b n ln' cs r t ++ rest).
Proof.
  induction cs as [|c cs IH]; intros b ln ln' rest F T; cbn [rows app tidy e_rule e_white e_tok].
  - split; [discriminate|exact T].
  - inversion F as [|? ? F1 F2]; subst. split; [|apply IH; auto]. intros _. split.
    + cbn [is_break]. apply negb_true_iff, N.eqb_neq in F1. split; auto.
    + destruct cs; cbn [rows app]; do 2 eexists; (split; [reflexivity|]); cbn [e_white]; eauto.
Qed.
Lemma tidy_first l : forall ln, tidy false ln l -> tidy true ln l.
Proof.
  destruct l as [|e l]; intros ln T; [exact Logic.I|]. cbn [tidy] in *. destruct T as [T1 T2]. split; [|exact T2]. intro N.
  destruct (T1 N) as (A & e' & r' & E & M). split; [exact A|]. exists e', r'. split; [exact E|]. destruct (e_white e); auto; destruct M as [[M|[M1 M2]] M']; auto; discriminate.
Qed.
Lemma tidy_spaces ln B : Forall (fun c => line (tstart c) =? ln = true) B -> forall rest e r, rest = e :: r -> is_break (e_white e) = true ->
  tidy false ln rest -> tidy false ln (map (mkE WSpace None) B ++ rest).
Proof.
  induction 1 as [|c B C F IH]; intros rest e r E W T; [exact T|]. cbn [map app tidy e_rule e_white e_tok]. split; [|eapply IH; eauto]. intros _. split.
  - cbn [is_break]. apply N.eqb_eq in C. split; [discriminate|congruence].
  - destruct B as [|d B]; cbn [map app].
    + subst rest. exists e, r. split; [reflexivity|]. auto.
    + do 2 eexists. split; [reflexivity|]. cbn [e_rule e_white]. auto.
Qed.
Lemma tidy_behind first ln B rest e r : Forall (fun c => line (tstart c) =? ln = true) B -> rest = e :: r -> is_break (e_white e) = true ->
  tidy false ln rest -> tidy first ln (behind first B ++ rest).
Proof.
  intros F E W T. destruct B as [|c B]; [destruct first; [apply tidy_first|]; exact T|]. inversion F as [|? ? C F']; subst. cbn [behind app tidy e_rule e_white e_tok].
  split; [|eapply tidy_spaces; eauto]. intros _. split.
  - apply N.eqb_eq in C. destruct first; split; discriminate || congruence.
  - assert (exists e' r', map (mkE WSpace None) B ++ e :: r = e' :: r' /\ (is_break (e_white e') = true \/ e_rule e' = None /\ e_white e' = WSpace)) as (e' & r' & E & K).
    { destruct B as [|d B]; cbn [map app]; do 2 eexists; (split; [reflexivity|]); cbn [e_rule e_white]; auto. }
    exists e', r'. split; [exact E|]. destruct first; auto.
Qed.
Lemma filter_all {A} (f : A -> bool) l : Forall (fun x => f x = true) (filter f l).
Proof. apply Forall_forall. intros x I. apply filter_In in I. apply I. Qed.
Lemma weave_tidy items : forall p ln cs xs, filter plain items = map at_tok xs ->
  tidy (match p with None => true | Some _ => false end) ln (weave p ln cs items xs).
Proof.
  induction items as [|t items IH]; intros p ln cs xs E; [exact Logic.I|]. cbn [weave]. cbn [filter] in E. rewrite is_commentary. unfold plain in E at 1. unfold commentary.
  destruct (is_comment_kind (tkind_of t)) eqn:K; cbn [negb] in E; [apply IH, E|].
  destruct xs as [|x xs]; [discriminate|]. cbn [map] in E. injection E as -> E.
  pose proof (IH (Some (at_rule x, tkind_of (at_tok x))) (line (tend (at_tok x))) [] xs E) as T. unfold put.
  destruct (at_pos x) as [| | |b]; try (cbn [app tidy e_rule e_white e_tok]; split; [discriminate|exact T]).
  rewrite <- app_assoc.
  assert (exists e r, rows b (at_level x) ln (filter (fun c => negb (line (tstart c) =? ln)) cs) (at_rule x) (at_tok x) ++ weave (Some (at_rule x, tkind_of (at_tok x))) (line (tend (at_tok x))) [] items xs = e :: r /\ is_break (e_white e) = true) as (e & r & R1 & R2).
  { destruct (filter _ cs); cbn [rows app]; eauto. }
  eapply tidy_behind; [apply (filter_all (fun c => line (tstart c) =? ln))|exact R1|exact R2|].
  apply tidy_rows; [apply (filter_all (fun c => negb (line (tstart c) =? ln)))|exact T].
Qed.
Lemma tidy_at l1 : forall first ln c l2, tidy first ln (l1 ++ c :: l2) ->
  tidy (match l1 with [] => first | _ => false end) (match rev (codes l1) with [] => ln | (_, t) :: _ => line (tend t) end) (c :: l2).
Proof.
  induction l1 as [|e l1 IH]; intros first ln c l2 T; [exact T|]. cbn [app] in T. destruct T as [_ T]. apply IH in T.
  replace (match rev (codes (e :: l1)) with [] => ln | (_, t) :: _ => line (tend t) end) with
    (match rev (codes l1) with [] => match e_rule e with None => ln | Some _ => line (tend (e_tok e)) end | (_, t) :: _ => line (tend t) end).
  - destruct l1; exact T.
  - unfold codes. cbn [flat_map]. destruct (e_rule e); cbn [app rev]; [|reflexivity]. destruct (rev (flat_map _ l1)) as [|[? ?] ?]; reflexivity.
Qed.

(** A comment stays behind the code (and comments) of the line it starts on; otherwise it gets a line of its
    own. It is always followed by something; a comment on its own line by a line with the same
    indentation, a comment behind code by a new line or by another comment. *)
Theorem C74_comments : forall eol s p, accepted s p ->
  exists l, layout_of eol s p l /\ forall l1 c l2, l = l1 ++ c :: l2 -> comment (e_tok c) ->
    (is_break (e_white c) = true <-> line (tstart (e_tok c)) <> code_line l1) /\
    exists e l3, l2 = e :: l3 /\
      match e_white c with
      | WLine _ n => exists b, e_white e = WLine b n
      | w => (w = WSpace \/ w = WNone /\ l1 = []) /\
             (is_break (e_white e) = true \/ comment (e_tok e) /\ e_white e = WSpace)
      end.
Proof.
  intros eol s p ACC. destruct (reading_of s p ACC) as (items & tree & R). exists (reference tree items).
  destruct (reading_reference eol s p items tree R) as [LO _]. split; [exact LO|]. intros l1 c l2 E C.
  pose proof (weave_tidy items None 1 [] _ (reading_spots _ _ _ _ R)) as T. change (weave None 1 [] items _) with (reference tree items) in T. rewrite E in T.
  apply tidy_at in T as [T _]. pose proof (lo_rules _ _ _ _ LO) as RU. rewrite E in RU. apply Forall_app in RU as [_ RU]. inversion RU as [|? ? R1 R2]; subst.
  destruct (T (proj2 R1 C)) as (A & e & l3 & E3 & M). split; [exact A|]. exists e, l3. split; [exact E3|]. rewrite E3 in R2. inversion R2 as [|? ? R3 _]; subst.
  destruct (e_white c); auto.
  - destruct M as [M1 M2]. split; [destruct M1 as [M1|[_ M1]]; [discriminate|right; split; auto; destruct l1; [reflexivity|discriminate]]|]. rewrite R3 in M2. exact M2.
  - destruct M as [M1 M2]. split; [auto|]. rewrite R3 in M2. exact M2.
Qed.
Print Assumptions C74_comments.

Definition comments_sample : text := lines ["model M // a /* b"; "  Real x; /* c */ // d"; "/* e */ // f"; ""; "    // g"; "  Real y; end M;"]%string.
Example C74_applies : formats comments_sample
  (lines ["model M // a /* b"; ""; "  Real x; /* c */ // d"; "  /* e */"; "  // f"; ""; "  // g"; "  Real y;"; ""; "end M;"]%string).
Proof. formatted. Qed.

(** ** C75: beginning and end *)
Lemma semicolon_text w : lexeme TSemicolon w -> w = str ";".
Proof.
  intro L. inversion L as [? ? (z & I & ->)|? ? (z & I & ->)| | | | | | | |]; subst; cbn [spellings reserved In] in I; intuition (try discriminate); congruence.
Qed.
Lemma lexeme_of s items t : lexes s (map item_of items) -> In t items -> lexeme (tkind_of t) (ttext t).
Proof.
  intro L. remember (map item_of items) as its eqn:E. revert items E. induction L as [|c r its S L IH|k w r its X F L IH]; intros items E I.
  - destruct items; [destruct I|discriminate].
  - eauto.
  - destruct items as [|u items]; [discriminate|]. cbn [map] in E. assert ((k, w) = item_of u) as IT by congruence. apply (f_equal (@tl _)) in E. cbn [tl] in E.
    destruct I as [<-|I]; [|eauto]. unfold item_of in IT. injection IT as -> ->. exact X.
Qed.
Lemma codes_last l e : e_rule e <> None -> exists r, codes (l ++ [e]) = codes l ++ [(r, e_tok e)].
Proof. intro N. unfold codes. rewrite flat_map_app. cbn [flat_map]. destruct (e_rule e) as [r|]; [|contradiction]. exists r. reflexivity. Qed.
Lemma weave_codes items : forall p ln cs xs, filter plain items = map at_tok xs -> Forall (fun c => commentary c = true) cs ->
  map snd (codes (weave p ln cs items xs)) = map at_tok xs.
Proof.
  assert (forall x, codes x = flat_map (fun e => match e_rule e with Some r => [(r, e_tok e)] | None => [] end) x) as CE by reflexivity.
  assert (forall b n r t cs ln, codes (rows b n ln cs r t) = [(r, t)]) as CR.
  { intros b n r t cs. revert b. induction cs as [|c cs IH]; intros b ln; [reflexivity|]. cbn [rows]. rewrite CE. cbn [flat_map e_rule app]. rewrite <- CE. apply IH. }
  assert (forall f cs, codes (behind f cs) = []) as CB.
  { intros f [|c cs]; [reflexivity|]. rewrite CE. cbn [behind flat_map e_rule app]. induction cs as [|d cs IH]; [reflexivity|]. exact IH. }
  induction items as [|t items IH]; intros p ln cs xs E F; [destruct xs; [reflexivity|discriminate]|]. cbn [weave]. cbn [filter] in E. rewrite is_commentary. unfold plain in E at 1. unfold commentary at 1.
  destruct (is_comment_kind (tkind_of t)) eqn:K; cbn [negb] in E; [apply IH; auto; apply Forall_app; auto|].
  destruct xs as [|x xs]; [discriminate|]. cbn [map] in E. injection E as -> E.
  specialize (IH (Some (at_rule x, tkind_of (at_tok x))) (line (tend (at_tok x))) [] xs E (Forall_nil _)).
  rewrite CE, flat_map_app, map_app, <- !CE. match goal with |- _ ++ ?y = _ => change y with (map snd (codes (weave (Some (at_rule x, tkind_of (at_tok x))) (line (tend (at_tok x))) [] items xs))) end. rewrite IH. cbn [map]. change (at_tok x :: map at_tok xs) with ([at_tok x] ++ map at_tok xs). f_equal.
  unfold put. destruct (at_pos x); try reflexivity. rewrite CE, flat_map_app, <- !CE, CB, CR. reflexivity.
Qed.

Theorem C75_end : forall eol s p, accepted s p ->
  exists out, pretty_print eol p = Ok out /\
    if match p_tokens p with [] => true | _ => false end then out = [] else exists body, out = body ++ str ";".
Proof.
  intros eol s p ACC. destruct (reading_of s p ACC) as (items & tree & R). destruct (reading_reference eol s p items tree R) as [LO _].
  exists (render eol (reference tree items)). split; [apply LO|].
  pose proof (reading_spots _ _ _ _ R) as SP. pose proof (weave_codes items None 1 [] _ SP (Forall_nil _)) as WC. change (weave None 1 [] items _) with (reference tree items) in WC.
  rewrite <- SP, <- (rd_tokens _ _ _ _ R) in WC.
  pose proof (weave_tidy items None 1 [] _ SP) as T. change (weave None 1 [] items _) with (reference tree items) in T.
  destruct (p_tokens p) as [|t0 ts] eqn:PT.
  - destruct (reference tree items) as [|e l]; [reflexivity|]. exfalso.
    assert (forall l, map snd (codes l) = [] -> tidy false 1 l -> l = []) as K.
    { clear. intros l. destruct (list_eq_dec N.eq_dec (@nil N) []) as [_|]; [|contradiction]. generalize 1 as ln. induction l as [|e l IH]; intros ln C T; [reflexivity|]. exfalso.
      unfold codes in C. cbn [flat_map] in C. destruct (e_rule e) eqn:RU; [discriminate|]. cbn [app] in C. destruct T as [T1 T2]. rewrite RU in T2.
      destruct (T1 RU) as (_ & e' & r' & -> & _). specialize (IH ln C T2). discriminate. }
    unfold codes in WC. cbn [flat_map] in WC. destruct (e_rule e) eqn:RU; [discriminate|]. destruct T as [T1 T2]. rewrite RU in T2. cbn [app] in WC.
    destruct (T1 RU) as (_ & e' & r' & -> & _). specialize (K _ WC T2). discriminate.
  - destruct (rd_fits _ _ _ _ R) as (cs & -> & [->|F]); [pose proof (rd_toks _ _ _ _ R) as TK; rewrite PT in TK; discriminate|].
    destruct (stored_last cs F) as (u & t & -> & KT).
    assert (exists w, t0 :: ts = w ++ [t]) as (w & EW).
    { rewrite <- PT, <- (rd_toks _ _ _ _ R). cbn [toks]. rewrite flat_map_app. eexists. cbn [flat_map toks app]. reflexivity. }
    assert (In t items) as IT.
    { assert (In t (p_tokens p)) as I by (rewrite PT, EW; apply in_or_app; right; left; reflexivity). rewrite (rd_tokens _ _ _ _ R) in I. apply filter_In in I. apply I. }
    pose proof (lexeme_of _ _ _ (rd_lexes _ _ _ _ R) IT) as LX. rewrite KT in LX. apply semicolon_text in LX.
    set (l := reference _ items) in *. destruct l as [|e0 l0] eqn:EL; [discriminate|]. destruct (@exists_last _ (e0 :: l0)) as (l1 & e & E1); [discriminate|].
    rewrite E1 in T, WC |- *. apply tidy_at in T as [T _].
    assert (e_rule e <> None) as NR by (intro RU; destruct (T RU) as (_ & e' & r' & E' & _); discriminate).
    destruct (codes_last l1 e NR) as (r & EC). rewrite EC, map_app, EW in WC. apply app_inj_tail in WC as [_ WC]. cbn [snd] in WC.
    exists (render eol l1 ++ white_text eol (e_white e)). rewrite render_app. unfold render at 2. cbn [flat_map]. rewrite app_nil_r, WC, LX, app_assoc. reflexivity.
Qed.
Print Assumptions C75_end.

(** The first token of a file starts a line of its own only if it is [final], or [within] behind comments. *)
Definition begins_line (t : token) : bool :=
  match tkind_of t with TFinal => true | TWithin => 0 <? tidx t | _ => false end.
Lemma stored_head cs t r : fits (CTree KStoredDefinition cs) -> toks (CTree KStoredDefinition cs) = t :: r ->
  exists q pos rest, stored_all None 0 cs = mkAt q t pos 0 :: rest /\
    if begins_line t then exists b, pos = Below b else pos = Beside.
Proof.
  intros F T. assert (F' := F). inversion F' as [|? ? NE L FC]; subst. destruct cs as [|c v]; [contradiction|].
  assert (In (sym_of c) (firsts (pruned (production false KStoredDefinition)))) as A by (eapply firsts_complete; exact L).
  change (In (sym_of c) [Term TWithin; Term TFinal; Rule KClassDefinition]) in A. destruct c as [x|k ds]; cbn [sym_of In] in A.
  - cbn [toks flat_map app] in T. assert (x = t) as -> by congruence. cbn [stored_all]. unfold stored_spots. cbn [kind_of]. unfold begins_line.
    destruct A as [A|[A|[A|[]]]]; try discriminate; injection A as A; rewrite <- A.
    + cbn. destruct (0 <? tidx t); do 3 eexists; (split; [reflexivity|]); [eexists|]; reflexivity.
    + cbn. do 3 eexists. split; [reflexivity|]. eexists. reflexivity.
  - assert (k = KClassDefinition) as -> by intuition congruence. inversion FC as [|? ? FD _]; subst.
    destruct (class_second ds v FD) as (r0 & t0 & rest & E & _). pose proof (stored_toks _ F) as TT. rewrite E, T in TT. cbn [map at_tok] in TT. injection TT as -> _.
    exists r0, Beside, rest. split; [exact E|].
    assert (tkind_of t <> TFinal /\ tkind_of t <> TWithin) as [N1 N2].
    { inversion FD as [|? ? NE' L' FC']; subst. destruct ds as [|d ds]; [contradiction|].
      assert (In (sym_of d) (firsts (pruned (production false KClassDefinition)))) as A' by (eapply firsts_complete; exact L').
      change (In (sym_of d) [Term TEncapsulated; Rule KClassPrefixes]) in A'. cbn [In] in A'. destruct d as [x|k ds']; cbn [sym_of] in A'.
      - cbn [toks flat_map app] in T. assert (x = t) as -> by congruence. intuition congruence.
      - assert (k = KClassPrefixes) as -> by intuition congruence. inversion FC' as [|? ? FP _]; subst. inversion FP as [|? ? NP LP _]; subst. destruct ds' as [|e ds']; [contradiction|].
        assert (In (sym_of e) (firsts (pruned (production false KClassPrefixes)))) as A2 by (eapply firsts_complete; exact LP).
        assert (forallb (fun y => match y with Term TFinal | Term TWithin | Rule _ => false | _ => true end) (firsts (pruned (production false KClassPrefixes))) = true) as TB by (vm_compute; reflexivity).
        rewrite forallb_forall in TB. specialize (TB _ A2). destruct e as [x|k2 ds2]; [|discriminate]. cbn [sym_of] in TB. cbn [toks flat_map app] in T. assert (x = t) as -> by congruence.
        split; intro K; rewrite K in TB; discriminate. }
    unfold begins_line. destruct (tkind_of t); congruence.
Qed.
Lemma weave_first pre t post x xs : Forall (fun c => commentary c = true) pre -> plain t = true -> at_tok x = t -> forall cs,
  exists rest, weave None 1 cs (pre ++ t :: post) (x :: xs) = put None 1 (cs ++ pre) x ++ rest.
Proof.
  intros F P E. induction F as [|c pre C F IH]; intro cs; cbn [app weave]; rewrite is_commentary.
  - replace (commentary t) with false by (unfold plain, commentary in *; destruct (is_comment_kind (tkind_of t)); [discriminate|reflexivity]). rewrite app_nil_r. eexists. reflexivity.
  - rewrite C. destruct (IH (cs ++ [c])) as (rest & ->). rewrite <- app_assoc. exists rest. reflexivity.
Qed.
Lemma first_plain items t r : filter plain items = t :: r -> exists pre post, items = pre ++ t :: post /\ Forall (fun c => commentary c = true) pre /\ plain t = true.
Proof.
  induction items as [|c items IH]; intro E; [discriminate|]. cbn [filter] in E. destruct (plain c) eqn:P.
  - injection E as <- E. exists [], items. repeat split; auto.
  - destruct (IH E) as (pre & post & -> & F & Q). exists (c :: pre), post. repeat split; auto. constructor; auto. unfold plain, commentary in *. destruct (is_comment_kind (tkind_of c)); auto.
Qed.
Definition comment_above (t c : token) : bool := (line (tstart c) =? 1) && (tidx c <? tidx t).
Lemma find_above items pre t post s : laid space s items -> items = pre ++ t :: post -> Forall (fun c => commentary c = true) pre ->
  find (comment_above t) (filter commentary items) = match filter (fun c => line (tstart c) =? 1) pre with c :: _ => Some c | [] => None end.
Proof.
  intros L E F. pose proof (laid_index _ _ L) as IX. assert (tidx t = N.of_nat (length pre)) as IT by (eapply IX; exact E).
  assert (forall c, In c pre -> tidx c < tidx t) as I1.
  { intros c I. apply in_split in I as (x & y & ->). rewrite (IX x c (y ++ t :: post)) by (rewrite E, <- app_assoc; reflexivity). rewrite IT, app_length. cbn [length]. lia. }
  assert (forall c, In c post -> tidx t < tidx c) as I2.
  { intros c I. apply in_split in I as (x & y & ->). rewrite (IX (pre ++ t :: x) c y) by (rewrite E, <- app_assoc; reflexivity). rewrite IT, !app_length. cbn [length]. lia. }
  assert (filter commentary pre = pre) as FP by (clear - F; induction F as [|c l H F IH]; [reflexivity|]; cbn [filter]; rewrite H, IH; reflexivity).
  rewrite E, filter_app, FP. clear - I1 I2. induction pre as [|c pre IH].
  - cbn [app]. match goal with |- find _ ?l = _ => assert (forall x, In x l -> tidx t <= tidx x) as K end.
    { intros x I. apply filter_In in I as [I _]. destruct I as [<-|I]; [lia|]. apply I2 in I. lia. }
    change (filter (fun c => line (tstart c) =? 1) []) with (@nil token). induction (filter commentary (t :: post)) as [|c l IH]; [reflexivity|]. cbn [find].
    replace (comment_above t c) with false; [apply IH; intros x I; apply K; right; exact I|]. unfold comment_above. specialize (K c (or_introl eq_refl)). apply N.ltb_ge in K. rewrite K, andb_false_r. reflexivity.
  - cbn [app find]. change (filter (fun c => line (tstart c) =? 1) (c :: pre)) with (if line (tstart c) =? 1 then c :: filter (fun c => line (tstart c) =? 1) pre else filter (fun c => line (tstart c) =? 1) pre). unfold comment_above at 1. replace (tidx c <? tidx t) with true by (symmetry; apply N.ltb_lt, I1; left; reflexivity). rewrite andb_true_r.
    destruct (line (tstart c) =? 1); [reflexivity|]. apply IH. intros x I. apply I1. right. exact I.
Qed.

Theorem C75_start : forall eol s p t r, accepted s p -> p_tokens p = t :: r ->
  exists out rest, pretty_print eol p = Ok out /\
    out = (if begins_line t
           then match find (comment_above t) (p_comments p) with Some c => ttext c | None => eol end
           else ttext t) ++ rest.
Proof.
  intros eol s p t r ACC PT. destruct (reading_of s p ACC) as (items & tree & R). destruct (reading_reference eol s p items tree R) as [LO _].
  exists (render eol (reference tree items)). destruct (rd_fits _ _ _ _ R) as (cs & -> & [->|F]); [pose proof (rd_toks _ _ _ _ R) as TK; rewrite PT in TK; discriminate|].
  rewrite stored_reference in * by exact F. destruct (stored_head cs t r F) as (q & pos & rest & E & B); [rewrite (rd_toks _ _ _ _ R); exact PT|].
  assert (filter plain items = t :: r) as FT by (rewrite <- (rd_tokens _ _ _ _ R); exact PT). destruct (first_plain _ _ _ FT) as (pre & post & EI & FC & PL).
  pose proof (find_above items pre t post s (rd_laid _ _ _ _ R) EI FC) as FA. rewrite <- (rd_comments _ _ _ _ R) in FA. rewrite FA.
  rewrite E in LO |- *. rewrite EI in LO |- *. destruct (weave_first pre t post (mkAt q t pos 0) rest FC PL eq_refl []) as (l & W). rewrite W in LO |- *. cbn [app] in LO |- *.
  assert (forall x y, exists z, render eol (x ++ y) = render eol x ++ z) as RA by (intros x y; eexists; apply render_app).
  destruct (begins_line t).
  - destruct B as (b & ->). cbn [put at_pos at_rule at_tok at_level] in LO |- *. destruct (filter (fun c => line (tstart c) =? 1) pre) as [|c cs'].
    + cbn [behind app] in *. match goal with |- context [rows ?b ?n ?ln ?cs ?q ?t] => assert (exists g e z, rows b n ln cs q t = mkE (WLine g 0) e (e_tok z) :: List.tl (rows b n ln cs q t)) as (g & e & z & RW) end.
      { destruct (filter _ pre) as [|c cs']; cbn [rows List.tl]; [exists (match b with Always => true | Kept => gap_between 1 (line (tstart t)) | Never => false end), (Some q), (mkE WNone None t)|
          exists (match b with Always => true | _ => gap_between 1 (line (tstart c)) end), None, (mkE WNone None c)]; reflexivity. }
      rewrite RW in LO |- *. unfold render. cbn [app flat_map e_white white_text times].
      destruct g; rewrite ?app_nil_l, <- !app_assoc; eexists; (split; [|reflexivity]); rewrite (lo_text _ _ _ _ LO); unfold render; cbn [app flat_map e_white white_text times]; rewrite ?app_nil_l, <- !app_assoc; reflexivity.
    + cbn [behind app] in *. unfold render. cbn [flat_map e_white e_tok white_text app]. eexists. split; [apply LO|]. unfold render. cbn [flat_map e_white e_tok white_text app]. rewrite <- ?app_assoc. reflexivity.
  - subst pos. cbn [put at_pos at_rule at_tok app] in LO |- *. eexists. split; [apply LO|]. unfold render. cbn [flat_map e_white e_tok white_text app]. reflexivity.
Qed.
Print Assumptions C75_start.

Example C75_applies : formats (lines ["/* a */ // b"; "// c"; "within A;"; "model M"; "end M; // d"]%string)
  (lines ["/* a */ // b"; "// c"; "within A;"; "model M"; ""; "end M;"]%string).
Proof. formatted. Qed.
(** Files whose first token is [final] start with an empty line; comments at the top of a file are lost. *)
Example C75_empty_line : formats (str "final model M end M;") (lines [""; "final model M"; ""; "end M;"]%string).
Proof. formatted. Qed.
Example C75_lost : formats (lines ["// a"; "model M"; "end M;"]%string) (lines ["model M"; ""; "end M;"]%string).
Proof. formatted. Qed.
Example C75_nothing : formats (lines ["// a"; "/* b */"]%string) [].
Proof. formatted. Qed.

(** ** C76: names, numbers, strings and comments *)
Definition same_index (t t' : token) : Prop := tidx t' = tidx t.
Lemma coords_line c x : coords_after c x -> line x = 1 + newlines c.
Proof. intros [H _]. lia. Qed.
Lemma retold_items s s' : retold s s' -> exists its its', lexes s its /\ lexes s' its' /\
  forall c c' n items items', newlines c = newlines c' -> set_out c n items s -> set_out c' n items' s' ->
    map item_of items = its -> map item_of items' = its' -> Forall2 (moved same_index 0) items items'.
Proof.
  induction 1 as [g g' S S'|g g' k w w' r r' S S' NG LX LX' NW FO FO' R IH].
  - exists [], []. split; [|split].
    + clear S'. induction S; [constructor|apply lexes_space; auto].
    + clear S. induction S'; [constructor|apply lexes_space; auto].
    + intros c c' n items items' _ _ _ E E'. destruct items, items'; try discriminate. constructor.
  - destruct IH as (its & its' & L & L' & IH). exists ((k, w) :: its), ((k, w') :: its').
    assert (forall g its s, Forall space g -> lexes s its -> lexes (g ++ s) its) as SP.
    { clear. intros g its s S L. induction S; [exact L|]. cbn [app]. constructor; auto. }
    split; [apply SP; auto; constructor; auto|]. split; [apply SP; auto; constructor; auto|].
    intros c c' n items items' NC SO SO' E E'. destruct items as [|t items]; [discriminate|]. destruct items' as [|t' items']; [discriminate|]. cbn [map] in E, E'.
    assert (item_of t = (k, w)) as T1 by congruence. assert (item_of t' = (k, w')) as T2 by congruence.
    apply (f_equal (@List.tl _)) in E, E'. cbn [List.tl] in E, E'. unfold item_of in T1, T2.
    assert (tkind_of t = k /\ ttext t = w) as [K1 W1] by (split; congruence). assert (tkind_of t' = k /\ ttext t' = w') as [K2 W2] by (split; congruence).
    apply set_out_inv in SO as (sp & r2 & EQ & FS & A1 & _ & A2 & _ & A3 & SO). apply set_out_inv in SO' as (sp' & r2' & EQ' & FS' & B1 & _ & B2 & _ & B3 & SO').
    rewrite W1 in *. rewrite W2 in *.
    pose proof (lexeme_starts _ _ LX) as (x & y & EX & NX). pose proof (lexeme_starts _ _ LX') as (x' & y' & EX' & NX').
    apply spaces_prefix in EQ as [-> EQ]; auto; try (rewrite EX; cbn [app]; eauto). apply app_inv_head in EQ. subst r2.
    apply spaces_prefix in EQ' as [-> EQ']; auto; try (rewrite EX'; cbn [app]; eauto). apply app_inv_head in EQ'. subst r2'.
    constructor; [|apply (IH (c ++ sp ++ w) (c' ++ sp' ++ w') (Datatypes.S n)); auto; rewrite !newlines_app; lia].
    apply coords_line in A1, A2, B1, B2. rewrite !newlines_app in *. unfold moved, same_index. repeat split; try lia; congruence.
Qed.
Lemma ascii_decides its : comments_ascii its \/ ~ comments_ascii its.
Proof.
  destruct (forallb (fun i => negb (tkind_eqb (fst i) TLineComment) || ends_ascii_b (snd i)) its) eqn:E.
  - left. intros w I. rewrite forallb_forall in E. apply E in I. apply ends_ascii_iff. exact I.
  - right. intro CA. assert (F : forallb (fun i => negb (tkind_eqb (fst i) TLineComment) || ends_ascii_b (snd i)) its = true); [|congruence].
    apply forallb_forall. intros [k w] I. cbn [fst snd]. destruct (tkind_eqb k TLineComment) eqn:K; [|reflexivity]. apply tkind_eqb_eq in K. subst. apply ends_ascii_iff, CA, I.
Qed.
Lemma lexed_items s its toks coms errs : lexes s its -> lex s = Ok (toks, coms, errs) ->
  exists items, map item_of items = its /\ laid space s items /\ toks = filter plain items /\ coms = filter commentary items /\ errs = [].
Proof.
  intros L E. destruct (ascii_decides its) as [CA|CA]; [|rewrite (lex_crash _ _ L CA) in E; discriminate].
  destruct (lex_complete _ _ L CA) as (items & LE & M & LA). rewrite LE in E. injection E as <- <- <-. eauto 7.
Qed.
Lemma moved_plain items items' : Forall2 (moved same_index 0) items items' -> Forall2 (moved same_index 0) (filter plain items) (filter plain items').
Proof. apply moved_filter. intros t t' (_ & K & _). unfold plain. rewrite K. reflexivity. Qed.
Lemma moved_kinds_of R d l l' : Forall2 (moved R d) l l' -> map tkind_of l = map tkind_of l'.
Proof. induction 1 as [|t t' l l' (_ & K & _) _ IH]; [reflexivity|]. cbn [map]. congruence. Qed.
(** A function that sends the tokens of one text to those of the other. *)
Definition twin (items' : list token) (t : token) : token := nth (N.to_nat (tidx t)) items' t.
Lemma twin_maps s items items' : laid space s items -> Forall2 (moved same_index 0) items items' -> forall t, In t items -> moved same_index 0 t (twin items' t).
Proof.
  intros L F t I. apply in_split in I as (a & b & ->). unfold twin. rewrite (laid_index _ _ L a t b eq_refl), Nnat.Nat2N.id.
  apply Forall2_app_inv_l in F as (a' & b' & FA & FB & ->). inversion FB as [|? t' ? ? T _]; subst.
  replace (length a) with (length a') by (eapply moved_length; exact FA). rewrite app_nth2, Nat.sub_diag by lia. exact T.
Qed.
Lemma twin_plain s items items' : laid space s items -> Forall2 (moved same_index 0) items items' -> map (twin items') (filter plain items) = filter plain items'.
Proof.
  intros L F. pose proof (laid_index _ _ L) as IX.
  assert (forall b b', Forall2 (moved same_index 0) b b' -> forall a a', items = a ++ b -> items' = a' ++ b' -> length a = length a' -> map (twin items') (filter plain b) = filter plain b') as K.
  { induction 1 as [|t t' b b' T B IH]; intros a a' E E' LN; [reflexivity|].
    assert (twin items' t = t') as TW.
    { unfold twin. rewrite (IX a t b E), Nnat.Nat2N.id, E', LN, app_nth2, Nat.sub_diag by lia. reflexivity. }
    specialize (IH (a ++ [t]) (a' ++ [t'])). rewrite <- !app_assoc, !app_length in IH. cbn [app length] in IH. specialize (IH E E' ltac:(lia)).
    cbn [filter]. replace (plain t') with (plain t) by (destruct T as (_ & Q & _); unfold plain; rewrite Q; reflexivity).
    destruct (plain t); [|exact IH]. cbn [map]. congruence. }
  apply (K _ _ F [] []); reflexivity.
Qed.

Theorem C76_retold : forall s s' p p', accepted s p -> retold s s' -> parse s' KStoredDefinition = Ok p' ->
  accepted s' p' /\ exists l l', (forall eol, layout_of eol s p l /\ layout_of eol s' p' l') /\
    Forall2 (fun e e' => e_white e' = e_white e /\ e_rule e' = e_rule e /\
                         tkind_of (e_tok e') = tkind_of (e_tok e) /\ tidx (e_tok e') = tidx (e_tok e)) l l'.
Proof.
  intros s s' p p' ACC RT P'. destruct (retold_items _ _ RT) as (its & its' & LX & LX' & MV).
  destruct (reading_of s p ACC) as (items & tree & R). assert (ACC' := ACC). destruct ACC' as [P Z].
  destruct (lex s) as [[[toks coms] errs]|x|] eqn:LE; [|unfold parse in P; rewrite LE in P; discriminate|unfold parse in P; rewrite LE in P; discriminate].
  destruct (lex s') as [[[toks' coms'] errs']|x|] eqn:LE'; [|unfold parse in P'; rewrite LE' in P'; discriminate|unfold parse in P'; rewrite LE' in P'; discriminate].
  destruct (lexed_items _ _ _ _ _ LX LE) as (i0 & M0 & L0 & T0 & C0 & ->). destruct (lexed_items _ _ _ _ _ LX' LE') as (i1 & M1 & L1 & T1 & C1 & ->).
  assert (Forall2 (moved same_index 0) i0 i1) as MI by (apply (MV [] [] 0%nat); auto using laid_set).
  pose proof (moved_plain _ _ MI) as MP.
  assert (p_tokens p = toks /\ p_comments p = coms) as [E1 E2].
  { unfold parse in P. rewrite LE in P. cbn [bind] in P. destruct (parse_events toks KStoredDefinition) as [[ev er]|x|]; cbn [bind] in P; try discriminate. injection P as <-. split; reflexivity. }
  assert (p_tokens p' = toks' /\ p_comments p' = coms') as [E1' E2'].
  { unfold parse in P'. rewrite LE' in P'. cbn [bind] in P'. destruct (parse_events toks' KStoredDefinition) as [[ev er]|x|]; cbn [bind] in P'; try discriminate. injection P' as <-. split; reflexivity. }
  assert (items = i0) as ->.
  { apply (items_unique s); [apply R|exact L0| |]; [rewrite <- (rd_tokens _ _ _ _ R)|rewrite <- (rd_comments _ _ _ _ R)]; congruence. }
  destruct (C17_layout_irrelevant s s' KStoredDefinition p p' P P') as (EV & lx & lx' & sy & sy' & X1 & X2 & X3 & X4 & X5).
  { rewrite E1, E1', T0, T1. eapply moved_kinds_of, MP. }
  assert (accepted s' p') as ACC1.
  { split; [exact P'|]. rewrite X4. rewrite Z in X3. symmetry in X3. apply app_eq_nil in X3 as [_ ->].
    assert (lx' = []) as -> by congruence. cbn [map] in X5. destruct sy'; [reflexivity|discriminate]. }
  split; [exact ACC1|]. destruct (reading_of s' p' ACC1) as (items' & tree' & R').
  assert (items' = i1) as ->.
  { apply (items_unique s'); [apply R'|exact L1| |]; [rewrite <- (rd_tokens _ _ _ _ R')|rewrite <- (rd_comments _ _ _ _ R')]; congruence. }
  exists (reference tree i0), (reference tree' i1). split; [intro eol; split; apply reading_reference; [exact R|exact R']|].
  assert (tree' = tmap (twin i1) tree) as ET.
  { pose proof (rd_tree _ _ _ _ R') as B'. rewrite (rd_tokens _ _ _ _ R'), <- (twin_plain s i0 i1 L0 MI), <- EV, build_tree_map in B'.
    rewrite <- (rd_tokens _ _ _ _ R), (rd_tree _ _ _ _ R) in B'. cbn [rmap] in B'. congruence. }
  assert (tree_moved same_index 0 tree tree') as TM.
  { rewrite ET. apply tmap_moved. intros t I. rewrite (rd_toks _ _ _ _ R), (rd_tokens _ _ _ _ R) in I. apply filter_In in I as [I _]. exact (twin_maps s i0 i1 L0 MI t I). }
  assert (map strip (spots KStoredDefinition Beside 0 0 false false tree') = map strip (spots KStoredDefinition Beside 0 0 false false tree)) as MS.
  { destruct (rd_fits _ _ _ _ R) as (cs & E & [K|F]); [|apply (moved_spots same_index 0); auto].
    rewrite ET, E, K. reflexivity. }
  assert (Forall2 (entry_moved same_index 0) (reference tree i0) (reference tree' i1)) as RR.
  { unfold reference. change 1 with (1 + 0) at 2. apply weave_moved; auto. rewrite <- (reading_spots _ _ _ _ R), <- (reading_spots _ _ _ _ R'). exact MP. }
  revert RR. clear. induction 1 as [|e e' l l' (W & U & I & K & _) _ IH]; constructor; auto.
Qed.
Print Assumptions C76_retold.

(** The relation [retold] holds exactly for texts with items of the same kinds on the same lines. *)
Definition same_role (t t' : token) : Prop :=
  tidx t = tidx t' /\ tkind_of t = tkind_of t' /\ line (tstart t) = line (tstart t') /\ line (tend t) = line (tend t').
Lemma moved_role l l' : Forall2 (moved same_index 0) l l' -> Forall2 same_role l l'.
Proof. induction 1 as [|t t' l l' (I & K & S & E & _) _ IH]; constructor; auto. unfold same_index in I. repeat split; congruence || lia. Qed.
Lemma role_retold items : forall s s' c c' n items',
  lexes s (map item_of items) -> lexes s' (map item_of items') ->
  set_out c n items s -> set_out c' n items' s' -> newlines c = newlines c' ->
  Forall2 same_role items items' -> retold s s'.
Proof.
  induction items as [|t items IH]; intros s s' c c' n items' X X' W W' NL F.
  - inversion F; subst. apply lexes_inv in X. apply lexes_inv in X'. apply rt_end; auto.
  - inversion F as [|? t' ? items0 SR F0]; subst. destruct SR as (_ & K & LS & LE).
    apply lexes_inv in X. cbn [map] in X. unfold item_of at 1 in X.
    destruct X as (sp & r & -> & S & LX & FO & X).
    apply lexes_inv in X'. cbn [map] in X'. unfold item_of at 1 in X'.
    destruct X' as (sp' & r' & -> & S' & LX' & FO' & X').
    pose proof (lexeme_starts _ _ LX) as ST. pose proof (lexeme_starts _ _ LX') as ST'.
    assert (G : forall (w r : text), (exists c b, w = c :: b /\ ~ space c) -> exists c b, w ++ r = c :: b /\ ~ space c).
    { intros w0 r0 (x & b & -> & NS). exists x, (b ++ r0). auto. }
    apply set_out_inv in W as (g & q & E & SG & A1 & _ & A2 & _ & _ & W1).
    apply spaces_prefix in E as [-> E]; auto. apply app_inv_head in E. subst q.
    apply set_out_inv in W' as (g' & q & E & SG' & B1 & _ & B2 & _ & _ & W1').
    apply spaces_prefix in E as [-> E]; auto. apply app_inv_head in E. subst q.
    apply coords_line in A1, A2, B1, B2. rewrite !newlines_app in *.
    apply (rt_item g g' (tkind_of t)); auto; try lia; try congruence.
    eapply (IH _ _ _ _ (Datatypes.S n)); [exact X|exact X'|exact W1|exact W1'| |exact F0]. rewrite !newlines_app. lia.
Qed.
Lemma role_items s s' items items' :
  laid space s items -> laid space s' items' ->
  Forall2 same_role (filter plain items) (filter plain items') ->
  Forall2 same_role (filter commentary items) (filter commentary items') ->
  Forall2 same_role items items'.
Proof.
  intros L L' P C. apply forall2_nth.
  - rewrite (split_length items), (split_length items').
    apply forall2_length in P. apply forall2_length in C. lia.
  - intros n x Hn.
    assert (exists y, In y items' /\ same_role x y) as (y & I & S).
    { apply nth_error_In in Hn. apply split_in in Hn as [Hn|Hn].
      - destruct (forall2_in _ _ _ _ P Hn) as (y & I & S). exists y. split; auto. apply split_in. auto.
      - destruct (forall2_in _ _ _ _ C Hn) as (y & I & S). exists y. split; auto. apply split_in. auto. }
    exists y. split; auto. apply In_nth_error in I as [m Hm].
    pose proof (laid_idx _ _ _ L _ _ Hn) as E1. pose proof (laid_idx _ _ _ L' _ _ Hm) as E2.
    destruct S as (E & _). replace n with m by lia. exact Hm.
Qed.
Theorem C76_retold_iff : forall s s' toks toks' coms coms',
  lex s = Ok (toks, coms, []) -> lex s' = Ok (toks', coms', []) ->
  (retold s s' <-> Forall2 same_role toks toks' /\ Forall2 same_role coms coms').
Proof.
  intros s s' toks toks' coms coms' L L'.
  destruct (lex_sound _ _ _ L) as (items & X & CA & LA & T & C). destruct (lex_sound _ _ _ L') as (items' & X' & CA' & LA' & T' & C'). split.
  - intro R. destruct (retold_items _ _ R) as (its & its' & Y & Y' & MV).
    pose proof (lexes_unique _ _ _ X Y) as E. pose proof (lexes_unique _ _ _ X' Y') as E'.
    assert (Forall2 (moved same_index 0) items items') as MI by (apply (MV [] [] 0%nat); auto using laid_set). subst. split; apply moved_role; apply moved_filter; auto.
    + intros t t' (_ & K & _). unfold plain. rewrite K. reflexivity.
    + intros t t' (_ & K & _). unfold commentary. rewrite K. reflexivity.
  - intros [F1 F2]. subst. eapply (role_retold items _ _ [] [] 0%nat); eauto using laid_set. eapply role_items; eauto.
Qed.
Print Assumptions C76_retold_iff.

(** A model with other names, numbers, operators' operands, strings and comments. *)
Definition told : text := lines
  ["model A ""x"" // first"; "  Real alpha(start = 1);"; "equation"; "  f(alpha, b[1], c) = if alpha > 2 then"; "    1 else 2; /* c */"; "end A;"]%string.
Definition told_again : text := lines
  ["model  Pendulum ""No name"" // another comment"; "Real y( start=3500 );"; "equation"; "  sin(y, verylongname[77], 'q z')=if y>2 then"; "10000 else 0;/* - */"; "end Pendulum;"]%string.
Example C76_applies : retold told told_again /\ formats told (lines
  ["model A"; "  ""x"" // first"; ""; "  Real alpha(start = 1);"; ""; "equation"; ""; "  f(alpha, b[1], c) ="; "    if alpha > 2 then"; "      1"; "    else"; "      2; /* c */"; ""; "end A;"]%string).
Proof.
  split.
  - destruct (lex told) as [[[t c] [|e1 er]]| |] eqn:E1; [|vm_compute in E1; discriminate ..].
    destruct (lex told_again) as [[[t' c'] [|e1 er]]| |] eqn:E2; [|vm_compute in E2; discriminate ..].
    apply (C76_retold_iff _ _ _ _ _ _ E1 E2).
    vm_compute in E1. injection E1 as <- <-. vm_compute in E2. injection E2 as <- <-.
    split; repeat (constructor; [repeat split|]); constructor.
  - formatted.
Qed.

(** ** C77: files one behind the other

    If a file ends with a token and a line feed, and another one starts with a token other than [within] and
    [final], the text of both is formatted like each of them: between the two results stands a line ending, and
    an empty line if there was one. The condition on [leak] says that no left-hand side of an equation or of a
    statement is wrapped in the first file (C28). *)
Theorem C77_joined : forall eol a pa ta ua treea outa b pb tb ub outb,
  accepted a pa -> accepted b pb -> (exists u, a = u ++ [10]) ->
  p_tokens pa = ua ++ [ta] -> Forall (fun c => tidx c < tidx ta) (p_comments pa) ->
  p_tokens pb = tb :: ub -> tidx tb = 0 -> tkind_of tb <> TWithin -> tkind_of tb <> TFinal ->
  build_tree (p_tokens pa) (p_events pa) = Ok treea -> leak treea = 0%nat ->
  pretty_print eol pa = Ok outa -> pretty_print eol pb = Ok outb ->
  exists p, accepted (a ++ b) p /\
    pretty_print eol p =
      Ok (outa ++ (if 1 <? newlines a + line (tstart tb) - line (tend ta) then eol else []) ++ eol ++ outb).
Proof.
  intros eol a pa ta ua treea outa b pb tb ub outb AA AB FN PA CA PB IB NW NF TA LK OA OB.
  destruct (reading_of a pa AA) as (ia & ta' & RA). destruct (reading_of b pb AB) as (ib & tb' & RB).
  assert (ta' = treea) as -> by (pose proof (rd_tree _ _ _ _ RA); congruence).
  destruct (rd_fits _ _ _ _ RA) as (csa & -> & _). destruct (rd_fits _ _ _ _ RB) as (csb & -> & _).
  assert (exists ia', ia = ia' ++ [ta]) as (ia' & ->).
  { assert (In ta ia) as I.
    { assert (In ta (p_tokens pa)) as I by (rewrite PA; apply in_or_app; right; left; reflexivity). rewrite (rd_tokens _ _ _ _ RA) in I. apply filter_In in I. apply I. }
    destruct (@exists_last _ ia) as (x & z & E); [intros ->; destruct I|]. exists x. rewrite E. f_equal. f_equal.
    pose proof (laid_index _ _ (rd_laid _ _ _ _ RA)) as IX. destruct (plain z) eqn:PZ.
    - pose proof (rd_tokens _ _ _ _ RA) as TT. rewrite E, filter_app in TT. cbn [filter] in TT. rewrite PZ, PA in TT. apply app_inj_tail in TT as [_ TT]. congruence.
    - exfalso. rewrite Forall_forall in CA. assert (tidx z < tidx ta) as LT.
      { apply CA. rewrite (rd_comments _ _ _ _ RA). apply filter_In. split; [rewrite E; apply in_or_app; right; left; reflexivity|]. unfold plain, commentary in *. destruct (is_comment_kind (tkind_of z)); auto; discriminate. }
      apply in_split in I as (y1 & y2 & EY). rewrite (IX y1 ta y2 EY), (IX x z [] E) in LT.
      assert (length (x ++ [z]) = length (y1 ++ ta :: y2)) as LL by congruence. rewrite !app_length in LL. cbn [length] in LL. lia. }
  assert (exists ib', ib = tb :: ib') as (ib' & ->).
  { pose proof (laid_index _ _ (rd_laid _ _ _ _ RB)) as IX.
    assert (In tb ib) as I by (assert (In tb (p_tokens pb)) as I by (rewrite PB; left; reflexivity); rewrite (rd_tokens _ _ _ _ RB) in I; apply filter_In in I; apply I).
    apply in_split in I as (y1 & y2 & E). rewrite (IX y1 tb y2 E) in IB. destruct y1; [exists y2; exact E|cbn [length] in IB; lia]. }
  assert (plain ta = true) as P1 by (assert (In ta (p_tokens pa)) as I by (rewrite PA; apply in_or_app; right; left; reflexivity); rewrite (rd_tokens _ _ _ _ RA) in I; apply filter_In in I; apply I).
  assert (plain tb = true) as P2 by (assert (In tb (p_tokens pb)) as I by (rewrite PB; left; reflexivity); rewrite (rd_tokens _ _ _ _ RB) in I; apply filter_In in I; apply I).
  destruct (join_layout eol a pa ia' ta csa b pb tb ib' csb RA RB (or_intror FN) P1 P2 NW NF LK) as (p & AP & H). exists p. split; [exact AP|]. rewrite (H _ _ OA OB).
  unfold gap_between. cbn [white_text times]. rewrite app_nil_r, <- !app_assoc. reflexivity.
Qed.
Print Assumptions C77_joined.

Definition part_a : text := lines ["within A; // w"; "model M"; "  Real x;"; "end M;"; ""; ""]%string.
Definition part_b : text := lines ["function f"; "  input Real x; // i"; "end f;"]%string.
Example C77_applies :
  formats part_a (lines ["within A; // w"; "model M"; ""; "  Real x;"; ""; "end M;"]%string) /\
  formats part_b (lines ["function f"; ""; "  input Real x; // i"; ""; "end f;"]%string) /\
  formats (part_a ++ part_b)
    (lines ["within A; // w"; "model M"; ""; "  Real x;"; ""; "end M;"; ""; "function f"; ""; "  input Real x; // i"; ""; "end f;"]%string).
Proof. repeat split; formatted. Qed.
(** A wrapped left-hand side in the first file indents the second one. *)
Definition part_c : text := lines ["model M equation (x +"; "y) = 0; end M;"; ""]%string.
Example C77_leaks : exists out, formats part_c out /\
  formats (part_c ++ part_b) (out ++ lines [""; "  function f"; ""; "    input Real x; // i"; ""; "  end f;"]%string).
Proof. eexists. split; formatted. Qed.
Example C77_meets : exists pa, accepted part_a pa /\ exists pb, accepted part_b pb /\
  exists ua ta, p_tokens pa = ua ++ [ta] /\ Forall (fun c => tidx c < tidx ta) (p_comments pa) /\
  exists tb ub, p_tokens pb = tb :: ub /\ tidx tb = 0 /\ tkind_of tb = TFunction /\
  exists tree, build_tree (p_tokens pa) (p_events pa) = Ok tree /\ leak tree = 0%nat.
Proof.
  eexists. split; [split; vm_compute; reflexivity|]. eexists. split; [split; vm_compute; reflexivity|]. cbn [p_tokens p_comments p_events].
  match goal with |- exists ua ta, [?a1; ?a2; ?a3; ?a4; ?a5; ?a6; ?a7; ?a8; ?a9; ?b1; ?b2] = _ /\ _ =>
    exists [a1; a2; a3; a4; a5; a6; a7; a8; a9; b1], b2 end.
  split; [reflexivity|]. split; [repeat constructor|]. do 2 eexists. split; [reflexivity|]. split; [reflexivity|]. split; [reflexivity|].
  eexists. split; vm_compute; reflexivity.
Qed.
