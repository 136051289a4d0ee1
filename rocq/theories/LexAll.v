(** What the lexer does with an arbitrary text. *)
From Verif Require Import ProofBase Tokens Lexer SpecLex LexInv LexScan LexSpecProofs LexMain SpecPieces.

(** ** Rejected pieces *)
Fixpoint bad_q (r : text) : text * text * text :=
  match r with
  | [] => ([], str "unclosed Q-IDENT", [])
  | c :: r' =>
      if c =? ch "\" then
        match r' with
        | [] => ([c], str "unclosed Q-IDENT", [])
        | d :: r'' => let '(w, m, t) := bad_q r'' in (c :: d :: w, m, t)
        end
      else if is_qchar c then let '(w, m, t) := bad_q r' in (c :: w, m, t)
      else ([c], str "unexpected character inside Q-IDENT: '" ++ [c] ++ str "'", r')
  end.

Definition scan_bad (c : N) (r : text) : text * text * text :=
  if c =? dquote then (c :: r, str "unclosed string", [])
  else if c =? squote then let '(w, m, t) := bad_q r in (c :: w, m, t)
  else if c =? slash then (c :: r, str "unclosed block comment", [])
  else ([c], str "unexpected character: '" ++ [c] ++ str "'", r).

Lemma open_string : forall n r, (length r <= n)%nat -> scan_string r = None ->
  exists b e, string_body b /\ (e = [] \/ e = [backslash]) /\ r = b ++ e.
Proof.
  induction n; intros [|c r] L H; simpl in L; try lia.
  - exists [], []. repeat split; auto. constructor.
  - exists [], []. repeat split; auto. constructor.
  - simpl in H. destruct (c =? ch "\") eqn:E1.
    + apply N.eqb_eq in E1. destruct r as [|d r].
      * exists [], [c]. subst. repeat split; auto. constructor.
      * simpl in L. destruct (scan_string r) as [[w t]|] eqn:S; [discriminate|].
        apply IHn in S; [|lia]. destruct S as (b & e & B & E & ->).
        exists (backslash :: d :: b), e. subst. repeat split; auto. constructor; assumption.
    + apply N.eqb_neq in E1. destruct (c =? ch """") eqn:E2; [discriminate|]. apply N.eqb_neq in E2.
      destruct (scan_string r) as [[w t]|] eqn:S; [discriminate|].
      apply IHn in S; [|lia]. destruct S as (b & e & B & E & ->).
      exists (c :: b), e. repeat split; auto. constructor; assumption.
Qed.

Lemma string_open : forall b e, string_body b -> e = [] \/ e = [backslash] ->
  scan_string (b ++ e) = None.
Proof.
  intros b e B E. induction B; simpl.
  - destruct E as [-> | ->]; reflexivity.
  - apply N.eqb_neq in H, H0. change (ch "\") with backslash. change (ch """") with dquote.
    rewrite H, H0, IHB. reflexivity.
  - rewrite IHB. reflexivity.
Qed.

Lemma open_qident : forall n r, (length r <= n)%nat -> scan_qident r = None ->
  exists w m t, bad_q r = (w, m, t) /\ r = w ++ t /\ rejected (squote :: w) m t.
Proof.
  assert (NIL : rejected (squote :: []) (str "unclosed Q-IDENT") []).
  { change (squote :: []) with (squote :: [] ++ []). apply rj_qident; [constructor | auto]. }
  assert (ESC : forall d w m t, rejected (squote :: w) m t -> rejected (squote :: backslash :: d :: w) m t).
  { intros d w m t H. inversion H; subst.
    - exfalso. match goal with X : forall k b, ~ lexeme k (squote :: b) |- _ => apply (X TIdentifier [squote]) end.
      apply (lx_qident []). constructor.
    - apply (rj_qchar (backslash :: d :: b)); auto. constructor; assumption.
    - apply (rj_qident (backslash :: d :: b)); auto. constructor; assumption. }
  assert (CHR : forall c w m t, qchar c -> rejected (squote :: w) m t -> rejected (squote :: c :: w) m t).
  { intros c w m t Q H. inversion H; subst.
    - exfalso. match goal with X : forall k b, ~ lexeme k (squote :: b) |- _ => apply (X TIdentifier [squote]) end.
      apply (lx_qident []). constructor.
    - apply (rj_qchar (c :: b)); auto. constructor; assumption.
    - apply (rj_qident (c :: b)); auto. constructor; assumption. }
  induction n; intros [|c r] L H; simpl in L; try lia.
  - exists [], (str "unclosed Q-IDENT"), []. auto.
  - exists [], (str "unclosed Q-IDENT"), []. auto.
  - simpl in H. simpl bad_q. destruct (c =? ch "\") eqn:E1.
    + apply N.eqb_eq in E1. subst. destruct r as [|d r].
      * eexists _, _, _. split; [reflexivity|]. split; [reflexivity|].
        apply (rj_qident []); [constructor | auto].
      * simpl in L. destruct (scan_qident r) as [[w t]|] eqn:S; [discriminate|].
        apply IHn in S; [|lia]. destruct S as (w & m & t & -> & -> & R).
        eexists _, _, _. split; [reflexivity|]. split; [reflexivity|]. apply ESC. exact R.
    + apply N.eqb_neq in E1. destruct (c =? ch "'") eqn:E2; [discriminate|]. apply N.eqb_neq in E2.
      destruct (is_qchar c) eqn:Q.
      * destruct (scan_qident r) as [[w t]|] eqn:S; [discriminate|].
        apply IHn in S; [|lia]. destruct S as (w & m & t & -> & -> & R).
        eexists _, _, _. split; [reflexivity|]. split; [reflexivity|].
        apply CHR; [apply qchar_iff; assumption | exact R].
      * eexists _, _, _. split; [reflexivity|]. split; [reflexivity|].
        apply (rj_qchar []); auto; [constructor|]. rewrite <- qchar_iff. congruence.
Qed.

Lemma qident_stuck : forall b c r, qident_body b -> ~ qchar c -> c <> squote -> c <> backslash ->
  scan_qident (b ++ c :: r) = None /\
  bad_q (b ++ c :: r) = (b ++ [c], str "unexpected character inside Q-IDENT: '" ++ [c] ++ str "'", r).
Proof.
  intros b c r B Q E1 E2. induction B.
  - cbn [app scan_qident bad_q]. apply N.eqb_neq in E1, E2. change (ch "\") with backslash. change (ch "'") with squote.
    rewrite E1, E2. destruct (is_qchar c) eqn:X; [apply qchar_iff in X; contradiction|]. auto.
  - destruct IHB as [I1 I2]. pose proof (qchar_not _ H) as [H1 H2]. apply N.eqb_neq in H1, H2.
    apply qchar_iff in H. cbn [app scan_qident bad_q].
    change (ch "\") with 92. change (ch "'") with 39. rewrite H1, H2, H, I1, I2. auto.
  - destruct IHB as [I1 I2]. cbn [app scan_qident bad_q].
    change (backslash =? ch "\") with true. cbv iota. rewrite I1, I2. auto.
Qed.

Lemma qident_unclosed : forall b e, qident_body b -> e = [] \/ e = [backslash] ->
  scan_qident (b ++ e) = None /\ bad_q (b ++ e) = (b ++ e, str "unclosed Q-IDENT", []).
Proof.
  intros b e B E. induction B.
  - destruct E as [-> | ->]; auto.
  - destruct IHB as [I1 I2]. pose proof (qchar_not _ H) as [H1 H2]. apply N.eqb_neq in H1, H2.
    apply qchar_iff in H. cbn [app scan_qident bad_q].
    change (ch "\") with 92. change (ch "'") with 39. rewrite H1, H2, H, I1, I2. auto.
  - destruct IHB as [I1 I2]. cbn [app scan_qident bad_q].
    change (backslash =? ch "\") with true. cbv iota. rewrite I1, I2. auto.
Qed.

Lemma open_block : forall r, scan_block r = None <-> ~ has_close r.
Proof.
  intro r. split.
  - intros H (u & v & ->). revert H. induction u as [|c u IH]; cbn [app]; intro H.
    + discriminate.
    + cbn [scan_block] in H. destruct (c =? ch "*").
      * destruct (u ++ star :: slash :: v) as [|d x] eqn:E; [destruct u; discriminate|].
        destruct (d =? ch "/"); [discriminate|].
        destruct (scan_block (d :: x)) as [[? ?]|]; [discriminate | auto].
      * destruct (scan_block (u ++ star :: slash :: v)) as [[? ?]|]; [discriminate | auto].
  - intro H. destruct (scan_block r) as [[w t]|] eqn:S; [|reflexivity]. exfalso. apply H.
    apply scan_block_sound in S. destruct S as (-> & u & -> & _). exists u, t.
    rewrite <- app_assoc. reflexivity.
Qed.

Lemma follow_nil : forall k w, follow_ok k w [].
Proof.
  intros k w. destruct k; simpl; try apply starts_nil; auto.
  - right. apply starts_nil.
  - repeat split; intros; apply starts_nil.
Qed.

(** Where the scanner finds no item. *)
Lemma scan_none : forall c r, scan_item c r = None ->
  (c = dquote /\ scan_string r = None) \/ (c = squote /\ scan_qident r = None) \/
  (c = slash /\ exists r', r = star :: r' /\ scan_block r = None) \/
  (c <> dquote /\ c <> squote /\ c <> slash /\ forall r', scan_item c r' = None).
Proof.
  intros c r H. unfold scan_item in *.
  destruct (lookup_char c single_char); [discriminate|].
  destruct (c =? ch ":"); [destruct r as [|d r]; simpl in H; [|destruct (d =? _)]; discriminate|].
  destruct (c =? ch "="); [destruct r as [|d r]; simpl in H; [|destruct (d =? _)]; discriminate|].
  destruct (c =? ch "<"); [destruct r as [|d r]; simpl in H; [|repeat destruct (d =? _)]; discriminate|].
  destruct (c =? ch ">"); [destruct r as [|d r]; simpl in H; [|destruct (d =? _)]; discriminate|].
  destruct (c =? ch "."); [destruct r as [|d r]; simpl in H; [|repeat destruct (d =? _)]; discriminate|].
  destruct (c =? ch """") eqn:E1.
  { apply N.eqb_eq in E1. left. split; [exact E1|].
    destruct (scan_string r) as [[? ?]|]; [discriminate | reflexivity]. }
  destruct (c =? ch "'") eqn:E2.
  { apply N.eqb_eq in E2. right. left. split; [exact E2|].
    destruct (scan_qident r) as [[? ?]|]; [discriminate | reflexivity]. }
  destruct (c =? ch "/") eqn:E3.
  { apply N.eqb_eq in E3. right. right. left. split; [exact E3|].
    destruct r as [|d r]; [discriminate|]. destruct (d =? ch "/") eqn:D1.
    - destruct (span not_newline (d :: r)). discriminate.
    - destruct (d =? ch "*") eqn:D2; [|discriminate]. apply N.eqb_eq in D2. exists r.
      split; [f_equal; exact D2|]. destruct (scan_block (d :: r)) as [[? ?]|]; [discriminate | reflexivity]. }
  destruct (is_ascii_digit c).
  { destruct (scan_numeral r) as [[? ?] ?]. discriminate. }
  destruct (is_ascii_alphabetic c || (c =? ch "_")).
  { destruct (span is_idchar r). discriminate. }
  apply N.eqb_neq in E1, E2, E3. right. right. right. auto.
Qed.

Lemma scan_bad_sound : forall c r w m t, scan_item c r = None -> ~ space c ->
  scan_bad c r = (w, m, t) -> c :: r = w ++ t /\ rejected w m t.
Proof.
  intros c r w m t H NS B.
  destruct (scan_none _ _ H) as [[-> S]|[[-> S]|[(-> & r' & -> & S)|(N1 & N2 & N3 & S)]]];
    unfold scan_bad in B.
  - cbn in B. inversion B; subst. rewrite app_nil_r. split; [reflexivity|].
    destruct (open_string _ _ (le_n _) S) as (b & e & X & Y & ->). apply rj_string; assumption.
  - change (squote =? dquote) with false in B. change (squote =? squote) with true in B. cbv iota in B.
    destruct (open_qident _ _ (le_n _) S) as (w' & m' & t' & Q & -> & R). rewrite Q in B.
    inversion B; subst. auto.
  - cbn in B. inversion B; subst. rewrite app_nil_r. split; [reflexivity|].
    apply rj_block. apply open_block. exact S.
  - apply N.eqb_neq in N1, N2, N3. rewrite N1, N2, N3 in B. inversion B; subst.
    split; [reflexivity|]. apply rj_char; [assumption|]. intros k b L.
    destruct (scan_item_complete k (c :: b) [] L (follow_nil _ _)) as (c' & b' & E & _ & X).
    inversion E; subst. rewrite S in X. discriminate.
Qed.

Lemma scan_bad_complete : forall w m t, rejected w m t ->
  exists c b, w = c :: b /\ ~ space c /\ scan_item c (b ++ t) = None /\ scan_bad c (b ++ t) = (w, m, t).
Proof.
  intros w m t R. destruct R.
  - exists c, []. split; [reflexivity|]. split; [assumption|]. split.
    + destruct (scan_item c ([] ++ r)) as [[[k w] t]|] eqn:S; [|reflexivity]. exfalso.
      destruct (scan_item_sound _ _ _ _ _ S) as (E & L & _).
      destruct w as [|x w]; [apply lexeme_nonempty in L; congruence|].
      inversion E; subst. apply (H0 _ _ L).
    + unfold scan_bad.
      assert (N1 : c <> dquote).
      { intros ->. apply (H0 TString [dquote]). apply (lx_string []). constructor. }
      assert (N2 : c <> squote).
      { intros ->. apply (H0 TIdentifier [squote]). apply (lx_qident []). constructor. }
      assert (N3 : c <> slash).
      { intros ->. apply (H0 TSlash []). apply lx_symbol. exists "/"%string. split; [|reflexivity].
        unfold spellings. simpl. tauto. }
      apply N.eqb_neq in N1, N2, N3. rewrite N1, N2, N3. reflexivity.
  - exists dquote, (b ++ e). split; [reflexivity|]. split; [unfold space, dquote; simpl; lia|].
    rewrite app_nil_r. split; [|reflexivity].
    change (with_kind TString [dquote] (scan_string (b ++ e)) = None). rewrite string_open; auto.
  - exists squote, (b ++ [c]). split; [reflexivity|]. split; [unfold space, squote; simpl; lia|].
    rewrite <- app_assoc. cbn [app]. destruct (qident_stuck b c r H H0 H1 H2) as [Q1 Q2]. split.
    + change (with_kind TIdentifier [squote] (scan_qident (b ++ c :: r)) = None). rewrite Q1. reflexivity.
    + unfold scan_bad. change (squote =? dquote) with false. change (squote =? squote) with true.
      cbv iota. rewrite Q2. reflexivity.
  - exists squote, (b ++ e). split; [reflexivity|]. split; [unfold space, squote; simpl; lia|].
    rewrite app_nil_r. destruct (qident_unclosed b e H H0) as [Q1 Q2]. split.
    + change (with_kind TIdentifier [squote] (scan_qident (b ++ e)) = None). rewrite Q1. reflexivity.
    + unfold scan_bad. change (squote =? dquote) with false. change (squote =? squote) with true.
      cbv iota. rewrite Q2. reflexivity.
  - exists slash, (star :: x). split; [reflexivity|]. split; [unfold space, slash; simpl; lia|].
    rewrite app_nil_r. split; [|reflexivity].
    change (with_kind TBlockComment [slash] (scan_block (star :: x)) = None).
    apply open_block in H. rewrite H. reflexivity.
Qed.

(** ** The pieces of a text *)
Lemma rejected_nonempty : forall w m t, rejected w m t -> w <> [].
Proof. intros w m t R. destruct R; discriminate. Qed.

(** The pieces, computed. *)
Fixpoint cut (n : nat) (s : text) : list piece :=
  match n, s with
  | S n, c :: r =>
      if is_ascii_whitespace c then PSpace c :: cut n r
      else match scan_item c r with
           | Some (k, w, t) => PItem k w :: cut n t
           | None => let '(w, m, t) := scan_bad c r in PBad w m :: cut n t
           end
  | _, _ => []
  end.

Lemma cut_pieces : forall n s, (length s <= n)%nat -> pieces s (cut n s).
Proof.
  induction n; intros [|c r] L; simpl in L; try lia; try constructor. cbn [cut].
  destruct (is_ascii_whitespace c) eqn:W.
  - constructor; [apply space_iff; assumption | apply IHn; lia].
  - assert (NS : ~ space c) by (rewrite <- space_iff; congruence).
    destruct (scan_item c r) as [[[k w] t]|] eqn:S.
    + destruct (scan_item_sound _ _ _ _ _ S) as (E & LX & FO). rewrite E.
      constructor; try assumption. apply IHn.
      apply lexeme_nonempty in LX. destruct w; [congruence|]. inversion E; subst.
      rewrite app_length in L. lia.
    + destruct (scan_bad c r) as [[w m] t] eqn:B.
      destruct (scan_bad_sound _ _ _ _ _ S NS B) as [E R]. rewrite E.
      constructor; try assumption. apply IHn.
      apply rejected_nonempty in R. destruct w; [congruence|]. inversion E; subst.
      rewrite app_length in L. lia.
Qed.

(** Reading a derivation from the left. *)
Lemma pieces_inv : forall s ps, pieces s ps ->
  match s with
  | [] => ps = []
  | c :: r =>
      if is_ascii_whitespace c then exists ps', ps = PSpace c :: ps' /\ pieces r ps'
      else match scan_item c r with
           | Some (k, w, t) => exists ps', ps = PItem k w :: ps' /\ pieces t ps'
           | None => let '(w, m, t) := scan_bad c r in exists ps', ps = PBad w m :: ps' /\ pieces t ps'
           end
  end.
Proof.
  intros s ps H. destruct H.
  - reflexivity.
  - apply space_iff in H. rewrite H. eauto.
  - destruct (scan_item_complete _ _ _ H H0) as (c & b & -> & NS & S). cbn [app].
    assert (W : is_ascii_whitespace c = false).
    { destruct (is_ascii_whitespace c) eqn:W; [apply space_iff in W; contradiction | reflexivity]. }
    rewrite W, S. eauto.
  - destruct (scan_bad_complete _ _ _ H) as (c & b & -> & NS & S & B). cbn [app].
    assert (W : is_ascii_whitespace c = false).
    { destruct (is_ascii_whitespace c) eqn:W; [apply space_iff in W; contradiction | reflexivity]. }
    rewrite W, S, B. eauto.
Qed.

Lemma pieces_one : forall s ps, pieces s ps -> forall ps', pieces s ps' -> ps' = ps.
Proof.
  induction 1; intros ps' P; apply pieces_inv in P.
  - exact P.
  - apply space_iff in H. rewrite H in P. destruct P as (q & -> & P). f_equal. auto.
  - destruct (scan_item_complete _ _ _ H H0) as (c & b & -> & NS & S). cbn [app] in P.
    assert (W : is_ascii_whitespace c = false).
    { destruct (is_ascii_whitespace c) eqn:W; [apply space_iff in W; contradiction | reflexivity]. }
    rewrite W, S in P. destruct P as (q & -> & P). f_equal. auto.
  - destruct (scan_bad_complete _ _ _ H) as (c & b & -> & NS & S & B). cbn [app] in P.
    assert (W : is_ascii_whitespace c = false).
    { destruct (is_ascii_whitespace c) eqn:W; [apply space_iff in W; contradiction | reflexivity]. }
    rewrite W, S, B in P. destruct P as (q & -> & P). f_equal. auto.
Qed.

(** ** The lexer on rejected pieces *)
Definition with_eof (e : bool) (l : lexer) : lexer :=
  mkLexer (lsrc l) (lrest l) (loff l) (lstart l) (lcur l) (ltoks l) (lcoms l) (lerrs l) (lcount l) e.

(** From [l] on, [w] is consumed and reported with the message [m]. *)
Definition fails (l : lexer) (o : text * text * text) (r : res lexer) : Prop :=
  let '(w, m, t) := o in
  exists e, r = Ok (generate_error m (with_eof e (nexts (length w) l))) /\ lrest l = w ++ t /\
    (e = true -> t = []).

Lemma next_end : forall l, lrest l = [] -> next l = with_eof true l.
Proof. intros l E. unfold next, with_eof. rewrite E. reflexivity. Qed.

Lemma with_eof_same : forall l, with_eof (lateof l) l = l.
Proof. intros []. reflexivity. Qed.

Lemma eof_next : forall e l, next (with_eof e l) = with_eof (if match lrest l with [] => true | _ => false end then true else e) (next l).
Proof. intros e l. unfold next, with_eof. simpl. destruct (lrest l); reflexivity. Qed.

Lemma fails_step : forall l c x o r, lrest l = c :: x -> fails (next l) o r ->
  fails l (let '(w, m, t) := o in (c :: w, m, t)) r.
Proof.
  intros l c x [[w m] t] r E (e & -> & L & T). exists e. cbn [length nexts].
  split; [reflexivity|]. split; [|exact T]. rewrite next_rest, E in L. cbn in L. rewrite E, L. reflexivity.
Qed.

Lemma fails_string : forall n x l, (length x <= n)%nat -> lrest l = x -> scan_string x = None ->
  fails l (x, str "unclosed string", []) (lex_string_loop x l).
Proof.
  assert (NIL : forall l, lrest l = [] -> fails l ([], str "unclosed string", []) (lex_string_loop [] l)).
  { intros l E. exists true. cbn. rewrite next_end by assumption. auto. }
  induction n; intros [|c x] l H E S; simpl in H; try lia; auto.
  cbn [lex_string_loop]. cbn [scan_string] in S. destruct (c =? ch "\").
  - destruct x as [|d x].
    + exists true. assert (E' : lrest (next l) = []) by (rewrite next_rest, E; reflexivity).
      split; [|auto]. rewrite (next_end _ E'). rewrite eof_next, E'. cbv iota.
      rewrite (next_end _ E'). reflexivity.
    + destruct (scan_string x) as [[? ?]|] eqn:S'; [discriminate|].
      apply (fails_step l c (d :: x) (d :: x, str "unclosed string", [])); [exact E|].
      apply (fails_step (next l) d x (x, str "unclosed string", [])); [rewrite next_rest, E; reflexivity|].
      apply IHn; [simpl in H; lia | rewrite !next_rest, E; reflexivity | exact S'].
  - destruct (c =? ch """"); [discriminate|].
    destruct (scan_string x) as [[? ?]|] eqn:S'; [discriminate|].
    apply (fails_step l c x (x, str "unclosed string", [])); [exact E|].
    apply IHn; [lia | rewrite !next_rest, E; reflexivity | exact S'].
Qed.

Lemma fails_qident : forall n x l, (length x <= n)%nat -> lrest l = x -> lateof l = false ->
  scan_qident x = None -> fails l (bad_q x) (lex_qident_loop x l).
Proof.
  assert (NE : forall l c x, lrest l = c :: x -> lateof l = false -> lateof (next l) = false).
  { intros l c x E A. unfold next. rewrite E. exact A. }
  assert (NIL : forall l, lrest l = [] -> fails l ([], str "unclosed Q-IDENT", []) (lex_qident_loop [] l)).
  { intros l E. exists true. cbn. rewrite next_end by assumption. auto. }
  induction n; intros [|c x] l H E A S; simpl in H; try lia; try (apply NIL; assumption).
  cbn [lex_qident_loop]. cbn [scan_qident] in S. cbn [bad_q]. destruct (c =? ch "\").
  - destruct x as [|d x].
    + exists true. assert (E' : lrest (next l) = []) by (rewrite next_rest, E; reflexivity).
      split; [|auto]. rewrite (next_end _ E'). rewrite eof_next, E'. cbv iota.
      rewrite (next_end _ E'). reflexivity.
    + destruct (scan_qident x) as [[? ?]|] eqn:S'; [discriminate|].
      assert (E1 : lrest (next l) = d :: x) by (rewrite next_rest, E; reflexivity).
      assert (E2 : lrest (next (next l)) = x) by (rewrite next_rest, E1; reflexivity).
      assert (Q : fails (next (next l)) (bad_q x) (lex_qident_loop x (next (next l)))).
      { apply IHn; [simpl in H; lia | exact E2 | eauto | exact S']. }
      apply (fails_step _ _ _ _ _ E1), (fails_step _ _ _ _ _ E) in Q.
      destruct (bad_q x) as [[w m] t]. exact Q.
  - destruct (c =? ch "'"); [discriminate|].
    change (is_ascii_alphanumeric c || (c =? ch "_") || contains_char qident_allowed c) with (is_qchar c).
    destruct (is_qchar c); cbn [negb].
    + destruct (scan_qident x) as [[? ?]|] eqn:S'; [discriminate|].
      assert (E1 : lrest (next l) = x) by (rewrite next_rest, E; reflexivity).
      assert (Q : fails (next l) (bad_q x) (lex_qident_loop x (next l))).
      { apply IHn; [lia | exact E1 | eauto | exact S']. }
      apply (fails_step _ _ _ _ _ E) in Q. exact Q.
    + exists false. cbn [length nexts]. split; [|split; [exact E | discriminate]].
      rewrite <- (NE l c x E A), with_eof_same. reflexivity.
Qed.

Lemma fails_block : forall x l, lrest l = x -> lateof l = false -> scan_block x = None ->
  fails l (x, str "unclosed block comment", []) (lex_blockcomment_loop x l).
Proof.
  induction x as [|c x IH]; intros l E A S.
  - exists true. cbn. rewrite next_end by assumption. auto.
  - assert (E' : lrest (next l) = x) by (rewrite next_rest, E; reflexivity).
    assert (A' : lateof (next l) = false) by (unfold next; rewrite E; exact A).
    cbn [lex_blockcomment_loop]. cbn [scan_block] in S. destruct (c =? ch "*").
    + unfold peek. rewrite E'. destruct x as [|d x].
      * exists false. cbn [length nexts]. split; [|split; [exact E | discriminate]].
        rewrite <- A', with_eof_same. reflexivity.
      * destruct (d =? ch "/"); [discriminate|].
        destruct (scan_block (d :: x)) as [[? ?]|] eqn:S'; [discriminate|].
        apply (fails_step l c (d :: x) (d :: x, str "unclosed block comment", [])); [exact E|].
        apply IH; auto.
    + destruct (scan_block x) as [[? ?]|] eqn:S'; [discriminate|].
      apply (fails_step l c x (x, str "unclosed block comment", [])); [exact E|]. apply IH; auto.
Qed.

Lemma fails_item : forall fuel l c r, lrest l = c :: r -> lateof l = false ->
  is_ascii_whitespace c = false -> scan_item c r = None ->
  fails l (scan_bad c r) (lex_source (S fuel) l).
Proof.
  intros fuel l c r E A W H. cbn [lex_source]. unfold peek. rewrite E.
  assert (E' : lrest (next l) = r) by (rewrite next_rest, E; reflexivity).
  assert (A' : lateof (next l) = false) by (unfold next; rewrite E; exact A).
  destruct (scan_none _ _ H) as [[-> S]|[[-> S]|[(-> & r' & -> & S)|(N1 & N2 & N3 & S)]]].
  - pose proof (fails_string _ _ _ (le_n _) E' S) as Q. apply (fails_step _ _ _ _ _ E) in Q.
    rewrite <- E' in Q at 2. exact Q.
  - pose proof (fails_qident _ _ _ (le_n _) E' A' S) as Q. apply (fails_step _ _ _ _ _ E) in Q.
    rewrite <- E' in Q at 2. exact Q.
  - pose proof (fails_block _ _ E' A' S) as Q. apply (fails_step _ _ _ _ _ E) in Q.
    assert (X : lex_slash (next l) = lex_blockcomment_loop (star :: r') (next l)).
    { unfold lex_slash, peek, lex_blockcomment. rewrite E'. reflexivity. }
    rewrite <- X in Q. exact Q.
  - unfold scan_item in H. unfold scan_bad. apply N.eqb_neq in N1, N2, N3. rewrite N1, N2, N3.
    destruct (lookup_char c single_char); [discriminate|].
    destruct (c =? ch ":"); [destruct r as [|d r]; simpl in H; [|destruct (d =? _)]; discriminate|].
    destruct (c =? ch "="); [destruct r as [|d r]; simpl in H; [|destruct (d =? _)]; discriminate|].
    destruct (c =? ch "<"); [destruct r as [|d r]; simpl in H; [|repeat destruct (d =? _)]; discriminate|].
    destruct (c =? ch ">"); [destruct r as [|d r]; simpl in H; [|destruct (d =? _)]; discriminate|].
    destruct (c =? ch "."); [destruct r as [|d r]; simpl in H; [|repeat destruct (d =? _)]; discriminate|].
    change (ch """") with dquote in *. change (ch "'") with squote in *. change (ch "/") with slash in *.
    rewrite N1, N2, N3, W in *.
    destruct (is_ascii_digit c); [destruct (scan_numeral r) as [[? ?] ?]; discriminate|].
    destruct (is_ascii_alphabetic c || (c =? ch "_")); [destruct (span is_idchar r); discriminate|].
    exists false. cbn [length nexts]. split; [|split; [exact E | discriminate]].
    rewrite <- A', with_eof_same. reflexivity.
Qed.

(** ** The state between two pieces *)
Record on (s c : text) (ts : list token) (es : list err) (l : lexer) : Prop := {
  on_src : lsrc l = s;
  on_split : s = c ++ lrest l;
  on_off : loff l = bytes_of c;
  on_pos : pos_ok c (lcur l);
  on_start : lstart l = lcur l;
  on_eof : lateof l = true -> lrest l = [];
  on_toks : ltoks l = rev (filter is_code ts);
  on_coms : lcoms l = rev (filter is_comment ts);
  on_count : lcount l = N.of_nat (length ts);
  on_errs : lerrs l = rev es
}.

Lemma on_new : forall s, on s [] [] [] (lexer_new s).
Proof. intro s. constructor; simpl; auto; [repeat split; reflexivity | discriminate]. Qed.

Lemma on_moved : forall s c ts es l, on s c ts es l -> moved s c l l.
Proof. intros s c ts es l []. constructor; auto. Qed.

Definition clean (c : text) : bool := bytes_of c =? rust_pos c.

Lemma clean_iff : forall c, clean c = true <-> bytes_of c = rust_pos c.
Proof. intro c. apply N.eqb_eq. Qed.

Lemma clean_app : forall c w, w <> [] -> clean (c ++ w) = ends_ascii_b w.
Proof.
  intros c w N. apply eq_true_iff_eq. rewrite clean_iff, ends_ascii_iff. symmetry. apply boundary_iff. exact N.
Qed.

Lemma comment_kind : forall i w k a b, is_comment (mkTok i w k a b) = is_comment_kind k.
Proof. intros i w k a b. destruct k; reflexivity. Qed.

Lemma pos_place : forall c p, pos_ok c p -> bytes_of c = rust_pos c -> p = place_of c.
Proof.
  intros c [a b d] ((P1 & P2) & P3) B. simpl in *. unfold place_of. rewrite B, <- P1, <- P2, <- P3. reflexivity.
Qed.

Lemma on_token : forall s c ts es l w t k,
  on s c ts es l -> lrest l = w ++ t -> w <> [] -> lateof l = false ->
  if clean c && ends_ascii_b w
  then exists l', generate_token k (nexts (length w) l) = Ok l' /\
         on s (c ++ w) (ts ++ [mkTok (N.of_nat (length ts)) w k (place_of c) (place_of (c ++ w))]) es l' /\
         lrest l' = t /\ slice (lsrc (nexts (length w) l)) (pos (lstart (nexts (length w) l)))
                           (pos (lcur (nexts (length w) l))) = Ok w
  else generate_token k (nexts (length w) l) = Panic PSlice /\
       slice (lsrc (nexts (length w) l)) (pos (lstart (nexts (length w) l)))
                           (pos (lcur (nexts (length w) l))) = Panic PSlice.
Proof.
  intros s c ts es l w t k A E N EO.
  destruct (moved_nexts _ _ _ _ _ _ (on_moved _ _ _ _ _ A) E) as [M E'].
  destruct A. destruct M. set (l1 := nexts (length w) l) in *.
  pose proof (clean_app c w N) as CW.
  destruct on_pos0 as [V1 V2]. pose proof mv_pos as [W1 W2].
  destruct (clean c && ends_ascii_b w) eqn:G.
  - apply andb_true_iff in G. destruct G as [G1 G2]. rewrite G2 in CW. apply clean_iff in G1, CW.
    assert (ST : pos (lstart l1) = bytes_of c) by (rewrite mv_start, on_start0, G1; exact V2).
    assert (SL : slice (lsrc l1) (pos (lstart l1)) (pos (lcur l1)) = Ok w).
    { rewrite mv_src, on_src0, mv_split, ST, W2, <- CW, <- app_assoc. apply slice_app. }
    unfold generate_token. rewrite SL. cbn [bind].
    eexists. split; [reflexivity|].
    assert (K1 : lstart l1 = place_of c).
    { rewrite mv_start, on_start0. apply pos_place; [split|]; assumption. }
    assert (K2 : lcur l1 = place_of (c ++ w)) by (apply pos_place; assumption).
    split; [|split; [destruct (is_comment_kind k); exact E' | reflexivity]].
    rewrite K1, K2.
    assert (KC : lcount l1 = N.of_nat (length ts)) by congruence. rewrite KC.
    set (tok := mkTok _ w k _ _).
    assert (KT : is_comment tok = is_comment_kind k) by apply comment_kind.
    assert (KD : is_code tok = negb (is_comment_kind k)) by (unfold is_code; rewrite KT; reflexivity).
    unfold jump.
    constructor; simpl; try (destruct (is_comment_kind k); simpl; congruence).
    + rewrite filter_app, rev_app_distr. cbn [filter]. rewrite KD. destruct (is_comment_kind k); simpl; congruence.
    + rewrite filter_app, rev_app_distr. cbn [filter].
      rewrite KT. destruct (is_comment_kind k); simpl; congruence.
    + rewrite app_length. cbn [length]. destruct (is_comment_kind k); cbn [lcount]; lia.
  - assert (SL : slice (lsrc l1) (pos (lstart l1)) (pos (lcur l1)) = Panic PSlice).
    { destruct (slice_cases (lsrc l1) (pos (lstart l1)) (pos (lcur l1))) as [[u SL]|SL]; [|exact SL].
      exfalso. apply andb_false_iff in G.
      apply slice_spec in SL. destruct SL as (p & q & F & B1 & B2). destruct G as [G|G].
      - assert (X : bytes_of c = rust_pos c /\ p = c).
        { apply rust_pos_boundary with (r := w ++ t) (q := u ++ q); [|congruence].
          rewrite <- F. congruence. }
        destruct X as [X _]. apply clean_iff in X. congruence.
      - assert (X : bytes_of (c ++ w) = rust_pos (c ++ w) /\ p ++ u = c ++ w).
        { apply rust_pos_boundary with (r := lrest l1) (q := q); [|congruence].
          rewrite <- mv_split, <- app_assoc. congruence. }
        destruct X as [X _]. apply clean_iff in X. congruence. }
    unfold generate_token. rewrite SL. auto.
Qed.

(** Does the lexer crash on these pieces, if it stands cleanly between two characters
    according to [b]? *)
Fixpoint trips (b : bool) (ps : list piece) : bool :=
  match ps with
  | [] => false
  | PSpace _ :: ps => trips true ps
  | PItem _ w :: ps => negb (b && ends_ascii_b w) || trips true ps
  | PBad w _ :: ps => trips (ends_ascii_b w) ps
  end.

Lemma on_item : forall s c ts es l x r fuel,
  on s c ts es l -> lateof l = false -> lrest l = x :: r -> is_ascii_whitespace x = false ->
  match scan_item x r with
  | Some (k, w, t) =>
      if clean c && ends_ascii_b w
      then exists l', lex_source (S fuel) l = Ok l' /\
             on s (c ++ w) (ts ++ [mkTok (N.of_nat (length ts)) w k (place_of c) (place_of (c ++ w))]) es l' /\
             lrest l' = t
      else lex_source (S fuel) l = Panic PSlice
  | None => let '(w, m, t) := scan_bad x r in
      exists l', lex_source (S fuel) l = Ok l' /\
        on s (c ++ w) ts (es ++ [mkErr (1 + newlines c) (1 + columns c) m]) l' /\ lrest l' = t
  end.
Proof.
  intros s c ts es l x r fuel A EO E W.
  assert (NS : ~ space x) by (rewrite <- space_iff; congruence).
  destruct (scan_item x r) as [[[k w] t]|] eqn:SC.
  - assert (F : follows l (scan_item x r) (lex_source (S fuel) l)).
    { apply follows_item; auto. intros u SL. destruct (span is_idchar r) as [v r'] eqn:SP. simpl fst in *.
      apply span_app in SP.
      assert (E1 : lrest l = (x :: v) ++ r') by (rewrite E, SP; reflexivity).
      pose proof (on_token _ _ _ _ _ _ _ TIdentifier A E1 ltac:(discriminate) EO) as T.
      destruct (clean c && ends_ascii_b (x :: v)).
      - destruct T as (l' & _ & _ & _ & SL'). cbn [length] in SL'. congruence.
      - destruct T as [_ SL']. cbn [length] in SL'. congruence. }
    rewrite SC in F. destruct F as [F1 F2]. destruct (scan_item_sound _ _ _ _ _ SC) as (S1 & S2 & S3).
    pose proof (on_token _ _ _ _ _ _ _ k A F2 (lexeme_nonempty _ _ S2) EO) as T.
    rewrite F1. destruct (clean c && ends_ascii_b w).
    + destruct T as (l' & T1 & T2 & T3 & _). exists l'. auto.
    + apply T.
  - pose proof (fails_item fuel _ _ _ E EO W SC) as F.
    destruct (scan_bad x r) as [[w m] t] eqn:B. destruct F as (e & F1 & F2 & F3).
    destruct (scan_bad_sound _ _ _ _ _ SC NS B) as [_ RJ].
    eexists. split; [exact F1|].
    destruct (moved_nexts _ _ _ _ _ _ (on_moved _ _ _ _ _ A) F2) as [M E'].
    split; [|exact E'].
    destruct A, M. set (l1 := nexts (length w) l) in *. destruct on_pos0 as ((V1 & V2) & V3).
    constructor; cbn; try congruence.
    + intro X. rewrite E'. auto.
    + rewrite rev_app_distr. cbn. rewrite mv_start, on_start0, V1, V2. congruence.
Qed.

Lemma on_space : forall s c ts es l sp t,
  on s c ts es l -> lrest l = sp ++ t -> Forall space sp -> sp <> [] -> lateof l = false ->
  on s (c ++ sp) ts es (jump (nexts (length sp) l)) /\ lrest (jump (nexts (length sp) l)) = t /\
  lateof (jump (nexts (length sp) l)) = false.
Proof.
  intros s c ts es l sp t A E S N EO.
  destruct (moved_nexts _ _ _ _ _ _ (on_moved _ _ _ _ _ A) E) as [M E'].
  destruct A, M. split; [|split; [exact E' | simpl; congruence]].
  constructor; simpl; congruence.
Qed.

Lemma source_space : forall fuel l y sp r,
  lrest l = (y :: sp) ++ r -> Forall space (y :: sp) -> ~ starts space r ->
  lex_source (S fuel) l = lex_source fuel (jump (nexts (length (y :: sp)) l)).
Proof.
  intros fuel l y sp r E S1 S2. inversion S1; subst.
  cbn [lex_source]. unfold peek. rewrite E. cbn [app].
  assert (W : is_ascii_whitespace y = true) by (apply space_iff; assumption).
  assert (L : lookup_char y single_char = None).
  { destruct (lookup_char y single_char) eqn:L; [|reflexivity]. exfalso.
    apply lookup_char_in in L. destruct L as (a & I & ->). unfold space in H1. simpl In in I, H1.
    repeat destruct I as [I|I]; try (inversion I; subst; chv; lia); destruct I. }
  assert (Z : forall a, ~ space (ch a) -> y =? ch a = false).
  { intros a N. apply N.eqb_neq. intros ->. contradiction. }
  rewrite L, !Z by (unfold space; vm_compute; intuition discriminate). rewrite W.
  f_equal. f_equal. simpl length. cbn [nexts].
  eapply space_loop_spec with (r := r). rewrite next_rest, E. cbn [app tl].
  apply span_ws_nonspace; assumption.
Qed.

(** The white space in front is read together with what follows it. *)
Lemma pieces_spaces : forall sp r ps, Forall space sp -> pieces (sp ++ r) ps ->
  exists ps', ps = map PSpace sp ++ ps' /\ pieces r ps'.
Proof.
  induction sp as [|c sp IH]; intros r ps F P; [exists ps; auto|].
  inversion F; subst. apply pieces_inv in P. cbn [app] in P. apply space_iff in H1. rewrite H1 in P.
  destruct P as (q & -> & P). destruct (IH _ _ H2 P) as (ps' & -> & P'). exists ps'. auto.
Qed.

Lemma report_spaces : forall sp c n ps, report c n (map PSpace sp ++ ps) = report (c ++ sp) n ps.
Proof.
  induction sp as [|x sp IH]; intros c n ps; cbn [map app report].
  - rewrite app_nil_r. reflexivity.
  - rewrite IH, <- app_assoc. reflexivity.
Qed.

Lemma trips_spaces : forall sp b ps, sp <> [] -> trips b (map PSpace sp ++ ps) = trips true ps.
Proof.
  induction sp as [|x sp IH]; intros b ps N; [congruence|]. cbn [map app trips].
  destruct sp; [reflexivity|]. apply IH. discriminate.
Qed.

Lemma spaces_clean : forall c sp, Forall space sp -> sp <> [] -> clean (c ++ sp) = true.
Proof.
  intros c sp S N. rewrite clean_app by assumption. apply ends_ascii_iff.
  destruct sp as [|x sp] using rev_ind; [congruence|].
  exists sp, x. split; [reflexivity|]. apply space_ascii.
  apply Forall_app in S. destruct S as [_ S]. inversion S; assumption.
Qed.

Definition ended (s : text) (ts : list token) (es : list err) (r : res lexer) : Prop :=
  exists l', r = Ok l' /\ ltoks l' = rev (filter is_code ts) /\
    lcoms l' = rev (filter is_comment ts) /\ lerrs l' = rev es.

Lemma tokenize_all : forall f s c ts es l ps,
  on s c ts es l -> (length (lrest l) + 2 <= f)%nat -> pieces (lrest l) ps ->
  if trips (clean c) ps then tokenize f l = Panic PSlice
  else let '(ts', es') := report c (N.of_nat (length ts)) ps in
       ended s (ts ++ ts') (es ++ es') (tokenize f l).
Proof.
  induction f; intros s c ts es l ps A F P; [lia|].
  destruct (lateof l) eqn:EO.
  { pose proof (on_eof _ _ _ _ _ A EO) as X. rewrite X in P. apply pieces_inv in P. subst ps.
    cbn. rewrite EO, !app_nil_r. exists l. destruct A. auto. }
  cbn [tokenize]. rewrite EO.
  (* one call, after leading white space *)
  assert (ONE : forall fuel c l ps, on s c ts es l -> lateof l = false -> (length (lrest l) + 1 <= f)%nat ->
    pieces (lrest l) ps -> ~ starts space (lrest l) ->
    if trips (clean c) ps then bind (lex_source (S fuel) l) (tokenize f) = Panic PSlice
    else let '(ts', es') := report c (N.of_nat (length ts)) ps in
         ended s (ts ++ ts') (es ++ es') (bind (lex_source (S fuel) l) (tokenize f))).
  { clear c l ps A F P EO. intros fuel c l ps A EO F P NS.
    destruct (lrest l) as [|x r] eqn:E.
    - apply pieces_inv in P. subst ps. cbn [trips report lex_source]. unfold peek. rewrite E.
      cbn [bind]. rewrite !app_nil_r. rewrite next_end by exact E.
      exists (with_eof true l). destruct A. destruct f; cbn; auto.
    - rewrite starts_cons in NS.
      assert (W : is_ascii_whitespace x = false).
      { destruct (is_ascii_whitespace x) eqn:W; [apply space_iff in W; contradiction | reflexivity]. }
      pose proof (on_item _ _ _ _ _ _ _ fuel A EO E W) as ST.
      apply pieces_inv in P. rewrite W in P.
      destruct (scan_item x r) as [[[k w] t]|] eqn:SC.
      + destruct P as (ps' & -> & P). destruct (scan_item_sound _ _ _ _ _ SC) as (E1 & L & FO).
        apply lexeme_nonempty in L. cbn [trips report].
        destruct (clean c && ends_ascii_b w) eqn:G; cbn [negb orb].
        2:{ rewrite ST. reflexivity. }
        destruct ST as (l' & Q & A' & ER). rewrite Q. cbn [bind].
        assert (F' : (length (lrest l') + 2 <= f)%nat).
        { rewrite ER. destruct w; [congruence|]. inversion E1; subst. cbn [length] in F.
          rewrite app_length in F. lia. }
        rewrite <- ER in P.
        specialize (IHf _ _ _ _ _ _ A' F' P). rewrite clean_app in IHf by assumption.
        apply andb_true_iff in G. destruct G as [_ G]. rewrite G in IHf.
        destruct (trips true ps'); [exact IHf|].
        rewrite app_length in IHf. cbn [length] in IHf.
        replace (N.of_nat (length ts + 1)) with (N.of_nat (length ts) + 1) in IHf by lia.
        destruct (report (c ++ w) (N.of_nat (length ts) + 1) ps') as [ts' es'].
        rewrite <- app_assoc in IHf. exact IHf.
      + assert (NS' : ~ space x) by exact NS.
        destruct (scan_bad x r) as [[w m] t] eqn:B.
        destruct (scan_bad_sound _ _ _ _ _ SC NS' B) as [E1 RJ]. apply rejected_nonempty in RJ.
        destruct P as (ps' & -> & P). cbn [trips report].
        destruct ST as (l' & Q & A' & ER). rewrite Q. cbn [bind].
        assert (F' : (length (lrest l') + 2 <= f)%nat).
        { rewrite ER. destruct w; [congruence|]. inversion E1; subst. cbn [length] in F.
          rewrite app_length in F. lia. }
        rewrite <- ER in P.
        specialize (IHf _ _ _ _ _ _ A' F' P). rewrite clean_app in IHf by assumption.
        destruct (trips (ends_ascii_b w) ps'); [exact IHf|].
        destruct (report (c ++ w) (N.of_nat (length ts)) ps') as [ts' es'].
        rewrite <- app_assoc in IHf. exact IHf. }
  destruct (span is_ascii_whitespace (lrest l)) as [sp r] eqn:SP.
  pose proof (span_app _ _ _ _ SP) as E.
  destruct (span_sound _ _ space_iff _ _ _ SP) as [S1 S2].
  destruct sp as [|y sp].
  - apply ONE; auto; [lia|]. cbn in E. rewrite E. exact S2.
  - rewrite (source_space f l y sp r E S1 S2).
    destruct (on_space _ _ _ _ _ _ _ A E S1 ltac:(discriminate) EO) as (A' & E' & EO').
    set (l1 := jump (nexts (length (y :: sp)) l)) in *.
    rewrite E in P. destruct (pieces_spaces _ _ _ S1 P) as (ps' & -> & P').
    rewrite trips_spaces, report_spaces by discriminate.
    rewrite <- (spaces_clean c (y :: sp) S1 ltac:(discriminate)).
    assert (F' : (length (lrest l1) + 1 <= f)%nat).
    { rewrite E'. rewrite E, app_length in F. cbn [length] in F. lia. }
    destruct f as [|f']; [lia|].
    apply ONE; auto; rewrite E'; assumption.
Qed.

(** ** When the lexer crashes *)
Lemma wide_iff : forall w, w <> [] -> (ends_wide w <-> ends_ascii_b w = false).
Proof.
  intros w N. destruct w as [|x w _] using rev_ind; [congruence|]. unfold ends_ascii_b.
  rewrite rev_app_distr. cbn. rewrite N.ltb_ge. split.
  - intros (u & y & E & H). apply app_inj_tail in E. destruct E as [_ ->]. exact H.
  - intro H. exists w, x. auto.
Qed.

Definition item_first (ps : list piece) : Prop := exists k w r, ps = PItem k w :: r.

Lemma stumbles_iff : forall s ps, pieces s ps -> forall b,
  trips b ps = true <-> stumbles ps \/ (b = false /\ item_first ps).
Proof.
  induction 1; intro b; cbn [trips].
  - split; [discriminate|]. intros [X|[_ (k & w & r & X)]]; inversion X.
  - rewrite IHpieces. split.
    + intros [X|[X _]]; [|discriminate]. left. apply st_later. exact X.
    + intros [X|[_ (k & w & r' & X)]]; [|discriminate]. inversion X; subst. left. assumption.
  - rewrite orb_true_iff, negb_true_iff, andb_false_iff, IHpieces.
    pose proof (lexeme_nonempty _ _ H) as N. split.
    + intros [[X|X]|[X|[X _]]].
      * right. split; [exact X|]. eexists _, _, _. reflexivity.
      * left. assert (k = TLineComment).
        { destruct (tkind_eqb k TLineComment) eqn:K; [destruct k; first [reflexivity | discriminate]|].
          exfalso. assert (K' : k <> TLineComment) by (intros ->; discriminate).
          pose proof (lexeme_ends_ascii _ _ H K') as Y. apply ends_ascii_iff in Y. congruence. }
        subst. apply st_comment, wide_iff; assumption.
      * left. apply st_later. exact X.
      * discriminate.
    + intros [X|[-> _]]; [|auto]. inversion X; subst; [|auto].
      left. right. apply wide_iff; assumption.
  - rewrite IHpieces. pose proof (rejected_nonempty _ _ _ H) as N. split.
    + intros [X|[X (k & v & r' & ->)]]; left; [apply st_later; exact X|].
      apply st_bad, wide_iff; assumption.
    + intros [X|[_ (k & v & r' & X)]]; [|discriminate]. inversion X; subst; [|auto].
      right. split; [apply wide_iff; assumption|]. eexists _, _, _. reflexivity.
Qed.

Theorem lex_all : forall s ps, pieces s ps ->
  (stumbles ps -> lex s = Panic PSlice) /\
  (~ stumbles ps ->
   lex s = Ok (filter is_code (fst (report [] 0 ps)), filter is_comment (fst (report [] 0 ps)),
               snd (report [] 0 ps))).
Proof.
  intros s ps P. pose proof (tokenize_all (length s + 2) s [] [] [] (lexer_new s) ps (on_new s)
    (le_n _) P) as T.
  pose proof (stumbles_iff s ps P (clean [])) as ST. change (clean []) with true in *.
  unfold lex. destruct (trips true ps) eqn:TR.
  - destruct ST as [ST _]. specialize (ST eq_refl). destruct ST as [ST|[ST _]]; [|discriminate].
    rewrite T. split; [reflexivity|]. intro X. contradiction.
  - split.
    + intro X. destruct ST as [_ ST]. specialize (ST (or_introl X)). discriminate.
    + intros _. destruct (report [] (N.of_nat (length (@nil token))) ps) as [ts es] eqn:R.
      change (N.of_nat (length (@nil token))) with 0 in R. rewrite R.
      destruct T as (l' & -> & T1 & T2 & T3). cbn [bind app fst snd] in *.
      rewrite T1, T2, T3, !rev_involutive. reflexivity.
Qed.

Theorem pieces_exactly : forall s, exists ps, pieces s ps /\ forall ps', pieces s ps' -> ps' = ps.
Proof.
  intro s. pose proof (cut_pieces _ s (le_n _)) as P. exists (cut (length s) s). split; [exact P|].
  apply pieces_one. exact P.
Qed.
