(** A pure scanner for one lexical item, and the proof that the lexer follows it. *)
From Verif Require Import ProofBase Tokens Lexer SpecLex LexInv.

Fixpoint span (p : N -> bool) (r : text) : text * text :=
  match r with
  | [] => ([], [])
  | c :: r' => if p c then let '(a, b) := span p r' in (c :: a, b) else ([], r)
  end.

Fixpoint scan_string (r : text) : option (text * text) :=
  match r with
  | [] => None
  | c :: r' =>
      if c =? ch "\" then
        match r' with
        | [] => None
        | d :: r'' => match scan_string r'' with
                      | Some (w, t) => Some (c :: d :: w, t)
                      | None => None
                      end
        end
      else if c =? ch """" then Some ([c], r')
      else match scan_string r' with Some (w, t) => Some (c :: w, t) | None => None end
  end.

Definition is_qchar (c : N) : bool :=
  is_ascii_alphanumeric c || (c =? ch "_") || contains_char qident_allowed c.

Global Arguments is_qchar : simpl never.

Fixpoint scan_qident (r : text) : option (text * text) :=
  match r with
  | [] => None
  | c :: r' =>
      if c =? ch "\" then
        match r' with
        | [] => None
        | d :: r'' => match scan_qident r'' with
                      | Some (w, t) => Some (c :: d :: w, t)
                      | None => None
                      end
        end
      else if c =? ch "'" then Some ([c], r')
      else if is_qchar c then
        match scan_qident r' with Some (w, t) => Some (c :: w, t) | None => None end
      else None
  end.

Fixpoint scan_block (r : text) : option (text * text) :=
  match r with
  | [] => None
  | c :: r' =>
      if c =? ch "*" then
        match r' with
        | d :: r'' => if d =? ch "/" then Some ([c; d], r'')
                      else match scan_block r' with
                           | Some (w, t) => Some (c :: w, t) | None => None end
        | [] => None
        end
      else match scan_block r' with Some (w, t) => Some (c :: w, t) | None => None end
  end.

Definition not_newline (c : N) : bool := negb ((c =? 13) || (c =? 10)).
Definition is_idchar (c : N) : bool := is_ascii_alphanumeric c || (c =? ch "_").

Definition opt_char (s : text) (r : text) : text * text :=
  match r with
  | c :: r' => if contains_char s c then ([c], r') else ([], r)
  | [] => ([], [])
  end.

Definition scan_exp (r : text) : text * text :=
  let '(m, r1) := opt_char (str "eE") r in
  match m with
  | [] => ([], r1)
  | _ => let '(s, r2) := opt_char (str "+-") r1 in
         let '(d, r3) := span is_ascii_digit r2 in (m ++ s ++ d, r3)
  end.

(** After the first digit. *)
Definition scan_numeral (r : text) : tkind * text * text :=
  let '(d, r1) := span is_ascii_digit r in
  let '(p, r2) := opt_char (str ".") r1 in
  match p with
  | [] => let '(e, r3) := scan_exp r2 in
          match e with [] => (TUInt, d, r3) | _ => (TUReal, d ++ e, r3) end
  | _ => let '(g, r3) := span is_ascii_digit r2 in
         let '(e, r4) := scan_exp r3 in (TUReal, d ++ p ++ g ++ e, r4)
  end.

(** Longest of the given second characters. *)
Fixpoint scan_second (alts : list (ascii * tkind)) (k : tkind) (c : N) (r : text)
  : option (tkind * text * text) :=
  match alts with
  | [] => Some (k, [c], r)
  | (a, k') :: alts' =>
      match r with
      | d :: r' => if d =? ch a then Some (k', [c; d], r') else scan_second alts' k c r
      | [] => Some (k, [c], r)
      end
  end.

Definition with_kind (k : tkind) (p : text) (o : option (text * text))
  : option (tkind * text * text) :=
  match o with Some (w, t) => Some (k, p ++ w, t) | None => None end.

(** One item from a text that starts with a character [c] that is not white space. *)
Definition scan_item (c : N) (r : text) : option (tkind * text * text) :=
  match lookup_char c single_char with
  | Some k => Some (k, [c], r)
  | None =>
      if c =? ch ":" then scan_second [("="%char, TAssign)] TColon c r
      else if c =? ch "=" then scan_second [("="%char, TEq)] TEqual c r
      else if c =? ch "<" then scan_second [(">"%char, TNeq); ("="%char, TLeq)] TLes c r
      else if c =? ch ">" then scan_second [("="%char, TGeq)] TGre c r
      else if c =? ch "." then
        scan_second [("+"%char, TDotPlus); ("-"%char, TDotMinus); ("*"%char, TDotStar);
                     ("/"%char, TDotSlash); ("^"%char, TDotFlex)] TDot c r
      else if c =? ch """" then with_kind TString [c] (scan_string r)
      else if c =? ch "'" then with_kind TIdentifier [c] (scan_qident r)
      else if c =? ch "/" then
        match r with
        | d :: r' =>
            if d =? ch "/" then let '(w, t) := span not_newline r in Some (TLineComment, c :: w, t)
            else if d =? ch "*" then with_kind TBlockComment [c] (scan_block r)
            else Some (TSlash, [c], r)
        | [] => Some (TSlash, [c], r)
        end
      else if is_ascii_digit c then
        let '(k, w, t) := scan_numeral r in Some (k, c :: w, t)
      else if is_ascii_alphabetic c || (c =? ch "_") then
        let '(w, t) := span is_idchar r in Some (lookup_word (c :: w) keywords, c :: w, t)
      else None
  end.

(** ** The lexer follows the scanner *)
Fixpoint nexts (n : nat) (l : lexer) : lexer :=
  match n with O => l | S n' => nexts n' (next l) end.

Lemma nexts_add : forall n m l, nexts (n + m) l = nexts m (nexts n l).
Proof. induction n; simpl; intros; auto. Qed.

Lemma next_rest : forall l, lrest (next l) = tl (lrest l).
Proof. intro l. unfold next. destruct (lrest l); reflexivity. Qed.

Lemma nexts_rest : forall n l, lrest (nexts n l) = skipn n (lrest l).
Proof.
  induction n; simpl; intros; auto. rewrite IHn, next_rest.
  destruct (lrest l); simpl; [rewrite skipn_nil|]; reflexivity.
Qed.

Lemma span_app : forall p r a b, span p r = (a, b) -> r = a ++ b.
Proof.
  induction r; simpl; intros a' b H; [inversion H; reflexivity|].
  destruct (p a); [|inversion H; reflexivity].
  destruct (span p r) as [x y]. inversion H; subst. simpl. f_equal. apply IHr. reflexivity.
Qed.

Lemma skipn_app_exact : forall (a b : text), skipn (length a) (a ++ b) = b.
Proof. induction a; simpl; auto. Qed.

Lemma accept_spec : forall s l p r,
  opt_char s (lrest l) = (p, r) ->
  accept s l = (negb (match p with [] => true | _ => false end), nexts (length p) l) /\
  lrest l = p ++ r.
Proof.
  intros s l p r H. unfold accept, peek, opt_char in *. destruct (lrest l).
  - inversion H; subst. auto.
  - destruct (contains_char s n); inversion H; subst; auto.
Qed.

Lemma accept_digits_spec : forall l d r,
  span is_ascii_digit (lrest l) = (d, r) ->
  accept_digits l = nexts (length d) l /\ lrest l = d ++ r.
Proof.
  intros l d r H. split; [|eapply span_app; eassumption].
  unfold accept_digits. revert l d r H. intro l. generalize (lrest l) as x. intro x. revert l.
  induction x; simpl; intros l d r H; [inversion H; reflexivity|].
  destruct (is_ascii_digit a); simpl.
  - destruct (span is_ascii_digit x). inversion H; subst. simpl. eapply IHx. reflexivity.
  - inversion H; reflexivity.
Qed.

Lemma nondigit_loop_spec : forall x l d r,
  span is_idchar x = (d, r) -> nondigit_loop x l = nexts (length d) l.
Proof.
  induction x; simpl; intros l d r H; [inversion H; reflexivity|].
  unfold is_idchar at 1 in H. simpl in H.
  match goal with |- (if negb ?b then _ else _) = _ => destruct b end; simpl.
  - destruct (span is_idchar x). inversion H; subst. simpl. eapply IHx. reflexivity.
  - inversion H; reflexivity.
Qed.

(** The effect of a lexing function started in [l], given the scanner's verdict. *)
Definition follows (l : lexer) (o : option (tkind * text * text)) (r : res lexer) : Prop :=
  match o with
  | Some (k, w, t) => r = generate_token k (nexts (length w) l) /\ lrest l = w ++ t
  | None => exists l', r = Ok l' /\ lerrs l' <> []
  end.

Lemma follows_string : forall n x l, (length x <= n)%nat -> lrest l = x ->
  follows l (with_kind TString [] (scan_string x)) (lex_string_loop x l).
Proof.
  induction n; intros [|c x] l H E; simpl in H; try lia; simpl.
  - eexists; split; [reflexivity|]. discriminate.
  - eexists; split; [reflexivity|]. discriminate.
  - destruct (c =? ch "\").
    + destruct x as [|d x]; simpl.
      * eexists; split; [reflexivity|]. discriminate.
      * specialize (IHn x (next (next l))). simpl in H.
        assert (K : follows (next (next l)) (with_kind TString [] (scan_string x))
                      (lex_string_loop x (next (next l)))).
        { apply IHn; [lia|]. rewrite !next_rest, E. reflexivity. }
        destruct (scan_string x) as [[w t]|]; unfold follows, with_kind in *; simpl in *; [|exact K].
        destruct K as [K1 K2]. split; [exact K1|].
        rewrite !next_rest, E in K2. simpl in K2. rewrite E, K2. reflexivity.
    + destruct (c =? ch """"); simpl; [split; [reflexivity | assumption]|].
      specialize (IHn x (next l)).
      assert (K : follows (next l) (with_kind TString [] (scan_string x))
                    (lex_string_loop x (next l))).
      { apply IHn; [lia|]. rewrite !next_rest, E. reflexivity. }
      destruct (scan_string x) as [[w t]|]; unfold follows, with_kind in *; simpl in *; [|exact K].
      destruct K as [K1 K2]. split; [exact K1|].
      rewrite !next_rest, E in K2. simpl in K2. rewrite E, K2. reflexivity.
Qed.

Lemma follows_qident : forall n x l, (length x <= n)%nat -> lrest l = x ->
  follows l (with_kind TIdentifier [] (scan_qident x)) (lex_qident_loop x l).
Proof.
  induction n; intros [|c x] l H E; simpl in H; try lia; simpl.
  - eexists; split; [reflexivity|]. discriminate.
  - eexists; split; [reflexivity|]. discriminate.
  - destruct (c =? ch "\").
    + destruct x as [|d x]; simpl.
      * eexists; split; [reflexivity|]. discriminate.
      * specialize (IHn x (next (next l))). simpl in H.
        assert (K : follows (next (next l)) (with_kind TIdentifier [] (scan_qident x))
                      (lex_qident_loop x (next (next l)))).
        { apply IHn; [lia|]. rewrite !next_rest, E. reflexivity. }
        destruct (scan_qident x) as [[w t]|]; unfold follows, with_kind in *; simpl in *; [|exact K].
        destruct K as [K1 K2]. split; [exact K1|].
        rewrite !next_rest, E in K2. simpl in K2. rewrite E, K2. reflexivity.
    + destruct (c =? ch "'"); simpl; [split; [reflexivity | assumption]|].
      change (is_ascii_alphanumeric c || (c =? ch "_") || contains_char qident_allowed c)
        with (is_qchar c).
      destruct (is_qchar c); simpl.
      2:{ eexists; split; [reflexivity|]. discriminate. }
      specialize (IHn x (next l)).
      assert (K : follows (next l) (with_kind TIdentifier [] (scan_qident x))
                    (lex_qident_loop x (next l))).
      { apply IHn; [lia|]. rewrite !next_rest, E. reflexivity. }
      destruct (scan_qident x) as [[w t]|]; unfold follows, with_kind in *; simpl in *; [|exact K].
      destruct K as [K1 K2]. split; [exact K1|].
      rewrite !next_rest, E in K2. simpl in K2. rewrite E, K2. reflexivity.
Qed.

Lemma follows_block : forall x l, lrest l = x ->
  follows l (with_kind TBlockComment [] (scan_block x)) (lex_blockcomment_loop x l).
Proof.
  induction x as [|c x IH]; intros l E; simpl.
  - eexists; split; [reflexivity|]. discriminate.
  - assert (E' : lrest (next l) = x) by (rewrite next_rest, E; reflexivity).
    assert (K : forall o, o = with_kind TBlockComment [] (scan_block x) ->
                follows l (match o with Some (k, w, t) => Some (k, c :: w, t) | None => None end)
                  (lex_blockcomment_loop x (next l))).
    { intros o ->. specialize (IH (next l) E').
      destruct (scan_block x) as [[w t]|]; unfold follows, with_kind in *; simpl in *; [|exact IH].
      destruct IH as [K1 K2]. split; [exact K1|]. rewrite E' in K2. rewrite E, K2. reflexivity. }
    specialize (K _ eq_refl).
    destruct (c =? ch "*").
    + unfold peek. rewrite E'. destruct x as [|d x].
      * eexists; split; [reflexivity|]. discriminate.
      * destruct (d =? ch "/").
        -- simpl. split; [reflexivity | exact E].
        -- destruct (scan_block (d :: x)) as [[w t]|]; exact K.
    + destruct (scan_block x) as [[w t]|]; exact K.
Qed.

Lemma follows_line : forall x l w t, lrest l = x -> span not_newline x = (w, t) ->
  lex_linecomment_loop x l = generate_token TLineComment (nexts (length w) l).
Proof.
  induction x as [|c x IH]; intros l w t E H; simpl in *.
  - inversion H; reflexivity.
  - unfold not_newline at 1 in H. destruct ((c =? 13) || (c =? 10)); simpl in H.
    + inversion H; reflexivity.
    + destruct (span not_newline x). inversion H; subst. simpl.
      eapply IH; [|reflexivity]. rewrite next_rest, E. reflexivity.
Qed.

Lemma exp_spec : forall l e r,
  scan_exp (lrest l) = (e, r) ->
  lrest l = e ++ r /\
  (let '(b, l') := accept (str "eE") l in
   if b then let '(_, l'') := accept (str "+-") l' in
             generate_token TUReal (accept_digits l'')
   else generate_token TUReal l')
  = generate_token TUReal (nexts (length e) l) /\
  (let '(b, l') := accept (str "eE") l in
   if negb b then generate_token TUInt l'
   else let '(_, l'') := accept (str "+-") l' in
             generate_token TUReal (accept_digits l''))
  = generate_token (match e with [] => TUInt | _ => TUReal end) (nexts (length e) l).
Proof.
  intros l e r H. unfold scan_exp in H.
  destruct (opt_char (str "eE") (lrest l)) as [m r1] eqn:M.
  destruct (accept_spec _ _ _ _ M) as [A E]. rewrite A.
  destruct m as [|c m].
  - inversion H; subst. simpl. auto.
  - assert (m = []).
    { unfold opt_char in M. destruct (lrest l); [discriminate|].
      destruct (contains_char (str "eE") n); inversion M; reflexivity. }
    subst m. cbn [negb length nexts].
    assert (E1 : lrest (next l) = r1) by (rewrite next_rest, E; reflexivity).
    destruct (opt_char (str "+-") r1) as [s r2] eqn:S. rewrite <- E1 in S.
    destruct (accept_spec _ _ _ _ S) as [A2 E2]. rewrite A2.
    assert (E3 : lrest (nexts (length s) (next l)) = r2).
    { rewrite nexts_rest, E2. apply skipn_app_exact. }
    destruct (span is_ascii_digit r2) as [d r3] eqn:D. rewrite <- E3 in D.
    destruct (accept_digits_spec _ _ _ D) as [A3 E4]. rewrite A3.
    inversion H; subst e r. simpl. rewrite app_length, nexts_add.
    rewrite E3 in E4. rewrite E, <- E1, E2, E4, <- app_assoc. auto.
Qed.

Lemma follows_numeral : forall l k w t,
  scan_numeral (lrest l) = (k, w, t) ->
  lex_numeral l = generate_token k (nexts (length w) l) /\ lrest l = w ++ t.
Proof.
  intros l k w t H. unfold scan_numeral in H.
  destruct (span is_ascii_digit (lrest l)) as [d r1] eqn:D.
  destruct (accept_digits_spec _ _ _ D) as [A1 E1].
  unfold lex_numeral. cbv zeta. rewrite A1.
  assert (E2 : lrest (nexts (length d) l) = r1).
  { rewrite nexts_rest, E1. apply skipn_app_exact. }
  destruct (opt_char (str ".") r1) as [p r2] eqn:P. rewrite <- E2 in P.
  destruct (accept_spec _ _ _ _ P) as [A2 E3]. rewrite A2, E2 in *.
  destruct p as [|c p].
  - cbn [negb length nexts].
    destruct (scan_exp r2) as [e r3] eqn:X.
    assert (E4 : lrest (nexts (length d) l) = r2) by (rewrite E2, E3; reflexivity).
    rewrite <- E4 in X. destruct (exp_spec _ _ _ X) as (Y1 & _ & Y2).
    rewrite Y2. rewrite E2, E3 in Y1. simpl in Y1.
    destruct e as [|x e]; inversion H; subst k w t.
    + split; [reflexivity|]. rewrite E1, E3, Y1. reflexivity.
    + rewrite app_length, nexts_add. split; [reflexivity|].
      rewrite E1, E3, Y1, <- app_assoc. reflexivity.
  - cbn [negb].
    assert (E4 : lrest (nexts (length (c :: p)) (nexts (length d) l)) = r2).
    { rewrite nexts_rest, E2, E3. apply skipn_app_exact. }
    destruct (span is_ascii_digit r2) as [g r3] eqn:G. rewrite <- E4 in G.
    destruct (accept_digits_spec _ _ _ G) as [A3 E5]. rewrite A3, E4 in *.
    assert (E6 : lrest (nexts (length g) (nexts (length (c :: p)) (nexts (length d) l))) = r3).
    { rewrite nexts_rest, E4, E5. apply skipn_app_exact. }
    destruct (scan_exp r3) as [e r4] eqn:X. rewrite <- E6 in X.
    destruct (exp_spec _ _ _ X) as (Y1 & Y2 & _). rewrite Y2.
    inversion H; subst k w t. rewrite E6 in Y1.
    change (c :: p ++ g ++ e) with ((c :: p) ++ g ++ e).
    rewrite !app_length, !nexts_add. split; [reflexivity|].
    rewrite E1, E3, E5, Y1, <- !app_assoc. reflexivity.
Qed.

Lemma accept_one : forall a l c r,
  lrest l = c :: r ->
  accept (str (String.String a EmptyString)) l =
  if c =? ch a then (true, next l) else (false, l).
Proof.
  intros. unfold accept, peek. rewrite H.
  change (str (String.String a EmptyString)) with [ch a]. unfold contains_char. cbn [existsb]. rewrite orb_false_r. reflexivity.
Qed.

Lemma accept_nil : forall s l, lrest l = [] -> accept s l = (false, l).
Proof. intros. unfold accept, peek. rewrite H. reflexivity. Qed.

Lemma follows_item : forall fuel l c r,
  lrest l = c :: r -> is_ascii_whitespace c = false ->
  (forall t, slice (lsrc (nexts (S (length (fst (span is_idchar r)))) l))
     (pos (lstart (nexts (S (length (fst (span is_idchar r)))) l)))
     (pos (lcur (nexts (S (length (fst (span is_idchar r)))) l))) = Ok t ->
     t = c :: fst (span is_idchar r)) ->
  follows l (scan_item c r) (lex_source (S fuel) l).
Proof.
  intros fuel l c r E W SL. cbn [lex_source]. unfold peek. rewrite E.
  assert (E' : lrest (next l) = r) by (rewrite next_rest, E; reflexivity).
  unfold scan_item.
  assert (J : forall o b, follows (next l) o b ->
              follows l (match o with Some (k, w, t) => Some (k, c :: w, t) | None => None end) b).
  { intros [[[k w] t]|] b; simpl; [|auto]. intros [-> X]. split; [reflexivity|].
    rewrite E' in X. rewrite E, X. reflexivity. }
  destruct (lookup_char c single_char); [split; [reflexivity | exact E]|].
  destruct (c =? ch ":").
  { unfold lex_colon. destruct r as [|d r]; simpl.
    - rewrite accept_nil by assumption. split; [reflexivity | exact E].
    - erewrite accept_one by eassumption.
      destruct (d =? ch "="); split; try reflexivity; exact E. }
  destruct (c =? ch "=").
  { unfold lex_equal. destruct r as [|d r]; simpl.
    - rewrite accept_nil by assumption. split; [reflexivity | exact E].
    - erewrite accept_one by eassumption.
      destruct (d =? ch "="); split; try reflexivity; exact E. }
  destruct (c =? ch "<").
  { unfold lex_lesser. destruct r as [|d r]; simpl.
    - rewrite !accept_nil by assumption. split; [reflexivity | exact E].
    - erewrite accept_one by eassumption.
      destruct (d =? ch ">"); [split; try reflexivity; exact E|].
      erewrite accept_one by eassumption.
      destruct (d =? ch "="); split; try reflexivity; exact E. }
  destruct (c =? ch ">").
  { unfold lex_greater. destruct r as [|d r]; simpl.
    - rewrite accept_nil by assumption. split; [reflexivity | exact E].
    - erewrite accept_one by eassumption.
      destruct (d =? ch "="); split; try reflexivity; exact E. }
  destruct (c =? ch ".").
  { unfold lex_dot. destruct r as [|d r].
    - rewrite !accept_nil by assumption. split; [reflexivity | exact E].
    - unfold scan_second.
      repeat (erewrite accept_one by eassumption;
              match goal with |- context [d =? ?a] => destruct (d =? a) end;
              [split; try reflexivity; exact E|]).
      split; try reflexivity; exact E. }
  destruct (c =? ch """").
  { pose proof (follows_string _ r (next l) (le_n _) E') as K. apply J in K.
    unfold lex_string. rewrite E'. destruct (scan_string r) as [[? ?]|]; exact K. }
  destruct (c =? ch "'").
  { pose proof (follows_qident _ r (next l) (le_n _) E') as K. apply J in K.
    unfold lex_qident. rewrite E'. destruct (scan_qident r) as [[? ?]|]; exact K. }
  destruct (c =? ch "/").
  { unfold lex_slash, peek. rewrite E'. destruct r as [|d r].
    - split; [reflexivity | exact E].
    - destruct (d =? ch "/").
      + destruct (span not_newline (d :: r)) as [w t] eqn:S.
        unfold lex_linecomment. rewrite E'. rewrite (follows_line _ _ _ _ E' S).
        split; [reflexivity|]. apply span_app in S. rewrite E, S. reflexivity.
      + destruct (d =? ch "*").
        * pose proof (follows_block _ (next l) E') as K. apply J in K.
          unfold lex_blockcomment. rewrite E'.
          destruct (scan_block (d :: r)) as [[? ?]|]; exact K.
        * split; [reflexivity | exact E]. }
  rewrite W.
  destruct (is_ascii_digit c).
  { rewrite <- E'. destruct (scan_numeral (lrest (next l))) as [[k w] t] eqn:S.
    apply follows_numeral in S. destruct S as [-> S]. split; [reflexivity|].
    rewrite E, <- E', S. reflexivity. }
  destruct (is_ascii_alphabetic c || (c =? ch "_")).
  { destruct (span is_idchar r) as [w t] eqn:S. unfold lex_nondigit. cbv zeta. rewrite E'.
    rewrite (nondigit_loop_spec _ _ _ _ S).
    simpl fst in SL. cbn [nexts] in SL. unfold follows. simpl length. cbn [nexts].
    split.
    - destruct (slice (lsrc (nexts (length w) (next l))) (pos (lstart (nexts (length w) (next l))))
         (pos (lcur (nexts (length w) (next l))))) eqn:SS.
      + simpl bind. rewrite (SL _ eq_refl). reflexivity.
      + unfold generate_token. rewrite SS. reflexivity.
      + unfold generate_token. rewrite SS. reflexivity.
    - apply span_app in S. rewrite E, S. reflexivity. }
  eexists; split; [reflexivity|]. discriminate.
Qed.
