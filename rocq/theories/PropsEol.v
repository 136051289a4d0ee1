(** Property C82: files with the line breaks of Windows. *)
From Verif Require Import ProofBase Tokens Syntax Lexer SpecLex LexInv LexMain LexFacts LexSpecProofs ParserCore Grammar Tree
  Printer Formatter Lib ParserSem ParserFacts PropsParser FmtPlan SpecLayout FmtExec FmtFacts FmtRelex FmtNeat SpecSpacing FmtSame
  SpecTold FmtStable PropsFormat PropsSame PropsModular.

Lemma windows_app a b : windows (a ++ b) = windows a ++ windows b.
Proof. apply flat_map_app. Qed.
Lemma windows_newlines s : newlines (windows s) = newlines s.
Proof.
  induction s as [|c s IH]; [reflexivity|]. unfold windows in *. cbn [flat_map]. rewrite newlines_app, IH. cbn [newlines].
  destruct (c =? 10) eqn:E; cbn [newlines]; rewrite ?E; reflexivity.
Qed.
Lemma windows_flat s : newlines s = 0 -> windows s = s.
Proof.
  induction s as [|c s IH]; [reflexivity|]. unfold windows in *. cbn [flat_map newlines]. destruct (c =? 10); [lia|].
  intro H. rewrite IH by lia. reflexivity.
Qed.
Lemma windows_cons c s : windows (c :: s) = (if c =? 10 then [13; 10] else [c]) ++ windows s.
Proof. reflexivity. Qed.
Lemma flat_all (P : N -> Prop) w : ~ P 10 -> Forall P w -> newlines w = 0.
Proof.
  intros N F. induction F as [|c w H F IH]; [reflexivity|]. cbn [newlines]. rewrite IH.
  destruct (c =? 10) eqn:E; [|reflexivity]. apply N.eqb_eq in E. subst. contradiction.
Qed.
Lemma digit_nl : ~ digit 10.
Proof. unfold digit. lia. Qed.

Lemma windows_starts P r : ~ P 13 -> SpecLex.starts P (windows r) -> SpecLex.starts P r.
Proof.
  intros N (c & q & E & H). destruct r as [|x r]; [discriminate|]. rewrite windows_cons in E. destruct (x =? 10).
  - injection E as <- _. contradiction.
  - injection E as -> _. exists c, r. auto.
Qed.

(** Lexemes that span lines: strings, block comments and quoted identifiers. *)
Lemma lexeme_flat k w : lexeme k w -> k <> TIdentifier -> k <> TString -> k <> TBlockComment -> newlines w = 0.
Proof.
  intros L A B C. destruct L as [k w S|k w S|c b|b|b|d _ D|d f e _ D F E _|b L|x|]; try contradiction.
  - assert (forallb (fun p => newlines (str (fst p)) =? 0) spellings = true) as T by (vm_compute; reflexivity).
    destruct S as (s & I & ->). rewrite forallb_forall in T. apply T, N.eqb_eq in I. exact I.
  - assert (forallb (fun p => newlines (str (fst p)) =? 0) reserved = true) as T by (vm_compute; reflexivity).
    destruct S as (s & I & ->). rewrite forallb_forall in T. apply T, N.eqb_eq in I. exact I.
  - apply (flat_all digit); auto using digit_nl.
  - rewrite !newlines_app, (flat_all digit d) by auto using digit_nl.
    assert (newlines f = 0) as ->.
    { destruct F as [->|(g & G & ->)]; [reflexivity|]. cbn [newlines]. rewrite (flat_all digit g) by auto using digit_nl. reflexivity. }
    destruct E as [->|(m & s & g & M & S & G & ->)]; [reflexivity|]. cbn [newlines]. rewrite newlines_app, (flat_all digit g) by auto using digit_nl.
    destruct M as [->| ->]; destruct S as [->|(z & [->| ->] & ->)]; reflexivity.
  - cbn [newlines]. rewrite (flat_all (fun c => ~ newline_char c) b); auto. unfold newline_char. tauto.
Qed.

Lemma windows_close x : has_close (windows x) -> has_close x.
Proof.
  intros (u & v & E). revert u E. induction x as [|c x IH]; intros u E; [destruct u; discriminate|].
  rewrite windows_cons in E. destruct (c =? 10) eqn:C.
  - cbn [app] in E. destruct u as [|a [|b u]]; [discriminate|discriminate|]. injection E as _ _ E.
    apply IH in E as (p & q & ->). exists (c :: p), q. reflexivity.
  - cbn [app] in E. destruct u as [|a u].
    + injection E as -> E. destruct x as [|d x]; [discriminate|]. rewrite windows_cons in E. destruct (d =? 10); [discriminate|].
      injection E as -> _. exists [], x. reflexivity.
    + injection E as _ E. apply IH in E as (p & q & ->). exists (c :: p), q. reflexivity.
Qed.
Lemma windows_string b : string_body b -> string_body (windows b).
Proof.
  assert (forall r, string_body r -> string_body (10 :: r)) as NL by (intros r R; apply sb_char; auto; discriminate).
  assert (forall r, string_body r -> string_body (13 :: r)) as CR by (intros r R; apply sb_char; auto; discriminate).
  induction 1 as [|c b D B S IH|c b S IH]; [constructor| |].
  - rewrite windows_cons. destruct (c =? 10); cbn [app]; [apply CR, NL, IH|apply sb_char; auto].
  - rewrite windows_cons. change (backslash =? 10) with false. cbn [app]. rewrite windows_cons.
    destruct (c =? 10); cbn [app]; [apply sb_esc, NL, IH|apply sb_esc, IH].
Qed.
Lemma windows_lexeme k w : lexeme k w -> (k = TIdentifier -> newlines w = 0) -> lexeme k (windows w).
Proof.
  intros L H. assert (newlines w = 0 \/ k = TString \/ k = TBlockComment) as [F|[->| ->]].
  { destruct (tkind_eqb k TIdentifier) eqn:E1; [apply tkind_eqb_eq in E1; auto|].
    destruct (tkind_eqb k TString) eqn:E2; [apply tkind_eqb_eq in E2; auto|].
    destruct (tkind_eqb k TBlockComment) eqn:E3; [apply tkind_eqb_eq in E3; auto|].
    left. apply (lexeme_flat k); auto; intros ->; discriminate. }
  - rewrite windows_flat; auto.
  - inversion L as [? ? S|? ? S| | |b S| | | | |]; subst.
    + exfalso. assert (forallb (fun p => negb (tkind_eqb (snd p) TString)) spellings = true) as T by (vm_compute; reflexivity).
      destruct S as (s & I & _). rewrite forallb_forall in T. apply T in I. discriminate.
    + exfalso. assert (forallb (fun p => negb (tkind_eqb (snd p) TString)) reserved = true) as T by (vm_compute; reflexivity).
      destruct S as (s & I & _). rewrite forallb_forall in T. apply T in I. discriminate.
    + rewrite windows_cons, windows_app. apply (lx_string (windows b)). apply windows_string, S.
  - inversion L as [? ? S|? ? S| | | | | | |x S|]; subst.
    + exfalso. assert (forallb (fun p => negb (tkind_eqb (snd p) TBlockComment)) spellings = true) as T by (vm_compute; reflexivity).
      destruct S as (s & I & _). rewrite forallb_forall in T. apply T in I. discriminate.
    + exfalso. assert (forallb (fun p => negb (tkind_eqb (snd p) TBlockComment)) reserved = true) as T by (vm_compute; reflexivity).
      destruct S as (s & I & _). rewrite forallb_forall in T. apply T in I. discriminate.
    + rewrite !windows_cons, windows_app. apply (lx_block (windows x)). intro C. apply S, windows_close.
      rewrite windows_cons, windows_app. exact C.
    + exact L.
Qed.
Lemma windows_follow k w r : lexeme k w -> (k = TIdentifier -> newlines w = 0) -> follow_ok k w r ->
  follow_ok k (windows w) (windows r).
Proof.
  intros L H F.
  destruct (tkind_eqb k TString) eqn:E2; [apply tkind_eqb_eq in E2; subst; exact Logic.I|].
  destruct (tkind_eqb k TBlockComment) eqn:E3; [apply tkind_eqb_eq in E3; subst; exact Logic.I|].
  rewrite (windows_flat w).
  2:{ destruct (tkind_eqb k TIdentifier) eqn:E1; [apply tkind_eqb_eq in E1; auto|]. apply (lexeme_flat k); auto; intros ->; discriminate. }
  assert (~ idchar 13) as I13 by (unfold idchar, nondigit, letter, digit; lia).
  assert (~ digit 13) as D13 by (unfold digit; lia).
  assert (forall P, ~ P 13 -> ~ SpecLex.starts P r -> ~ SpecLex.starts P (windows r)) as K.
  { intros P N S Q. apply S. eapply windows_starts; eauto. }
  destruct k; cbn [follow_ok] in *; auto; try (apply K; auto; fail).
  all: try (apply K; [|exact F]; cbv; intuition discriminate).
  all: cbv [exp_mark sign digit dot] in *.
  all: try (apply K; [|exact F]; lia).
  all: match goal with
    | F : _ = [] \/ _ |- _ => destruct F as [->|(c & q & -> & C)]; [left; reflexivity|]; right;
        destruct C as [->| ->]; (eexists _, _; split; [reflexivity|]; right; reflexivity)
    | F : _ \/ _ |- _ => destruct F as [F|F]; [left; exact F|right; apply K; auto]
    | F : _ /\ _ |- _ => destruct F as (F1 & F2 & F3); split; [apply K; auto|split; intro N; (apply K; [lia|auto])]
    end.
Qed.

Definition windows_item (i : tkind * text) : tkind * text := (fst i, windows (snd i)).
Lemma windows_space c : space c -> Forall space (windows [c]).
Proof.
  intro S. assert (space 13 /\ space 10) as [A B] by (unfold space; cbn; auto 8).
  rewrite windows_cons. destruct (c =? 10); cbn [app windows flat_map]; auto.
Qed.
Lemma windows_lexes s items : lexes s items -> names_on_lines items -> lexes (windows s) (map windows_item items).
Proof.
  induction 1 as [|c r items S L IH|k w r items LX FO L IH]; intro N.
  - constructor.
  - change (c :: r) with ([c] ++ r). rewrite windows_app. pose proof (windows_space c S) as W. specialize (IH N).
    induction W; [exact IH|]. cbn [app]. constructor; auto.
  - rewrite windows_app. cbn [map windows_item fst snd].
    assert (k = TIdentifier -> newlines w = 0) as H by (intros ->; apply N; left; reflexivity).
    constructor; [apply windows_lexeme; auto|apply windows_follow; auto|apply IH]. intros x I. apply N. right. exact I.
Qed.
Lemma retold_space g g' r r' : Forall space g -> Forall space g' -> newlines g = newlines g' -> retold r r' -> retold (g ++ r) (g' ++ r').
Proof.
  intros S S' N R. destruct R as [h h' H H'|h h' k w w' r r' H H' NH L L' NW F F' R].
  - apply rt_end; apply Forall_app; auto.
  - rewrite !(app_assoc g h), !(app_assoc g' h'). apply (rt_item _ _ k); auto; try (apply Forall_app; auto).
    rewrite !newlines_app. congruence.
Qed.
Lemma windows_retold s items : lexes s items -> names_on_lines items -> retold s (windows s).
Proof.
  induction 1 as [|c r items S L IH|k w r items LX FO L IH]; intro N.
  - apply rt_end; constructor.
  - change (c :: r) with ([c] ++ r). rewrite windows_app. apply retold_space; auto using windows_space.
    rewrite windows_newlines. reflexivity.
  - rewrite windows_app. assert (k = TIdentifier -> newlines w = 0) as H by (intros ->; apply N; left; reflexivity).
    apply (rt_item [] [] k); auto using windows_lexeme, windows_follow.
    + rewrite windows_newlines. reflexivity.
    + apply IH. intros x I. apply N. right. exact I.
Qed.

(** The item with the same number. *)
Lemma same_number s s' items items' t t' f :
  laid space s items -> laid space s' items' -> map item_of items' = map f (map item_of items) ->
  In t items -> In t' items' -> tidx t' = tidx t -> item_of t' = f (item_of t).
Proof.
  intros L L' E I I' N. apply In_nth_error in I as [n Hn]. apply In_nth_error in I' as [m Hm].
  pose proof (laid_idx _ _ _ L _ _ Hn) as E1. pose proof (laid_idx _ _ _ L' _ _ Hm) as E2.
  assert (m = n) as -> by lia.
  apply (map_nth_error item_of) in Hm. rewrite E in Hm. apply (map_nth_error item_of) in Hn. apply (map_nth_error f) in Hn. congruence.
Qed.
Lemma windows_white w : windows (white_text lf w) = white_text crlf w.
Proof.
  destruct w as [| |b n]; [reflexivity|reflexivity|]. cbn [white_text]. rewrite !windows_app.
  assert (windows (times n (str "  ")) = times n (str "  ")) as ->.
  { induction n as [|n IH]; [reflexivity|]. cbn [times]. rewrite windows_app, IH. reflexivity. }
  destruct b; reflexivity.
Qed.
Lemma windows_render l l' :
  Forall2 (fun e e' => e_white e' = e_white e /\ ttext (e_tok e') = windows (ttext (e_tok e))) l l' ->
  render crlf l' = windows (render lf l).
Proof.
  induction 1 as [|e e' l l' [W T] _ IH]; [reflexivity|]. unfold render in *. cbn [flat_map].
  rewrite !windows_app, IH, windows_white, W, T. reflexivity.
Qed.

Lemma windows_ascii items : Forall (fun i => lexeme (fst i) (snd i)) items -> comments_ascii items -> comments_ascii (map windows_item items).
Proof.
  intros F A w I. apply in_map_iff in I as ([k v] & E & I). unfold windows_item in E. cbn [fst snd] in E. injection E as -> <-.
  rewrite Forall_forall in F. pose proof (F _ I) as L. cbn [fst snd] in L.
  rewrite windows_flat; [apply A, I|]. apply (lexeme_flat TLineComment); auto; discriminate.
Qed.
Lemma lexes_lexemes s items : lexes s items -> Forall (fun i => lexeme (fst i) (snd i)) items.
Proof. induction 1; auto. Qed.

(** ** C82: converting the line breaks of a file and formatting it commute. *)
Theorem C82_windows : forall s items,
  lexes s items -> names_on_lines items ->
  format_source crlf (windows s) = rmap (option_map windows) (format_source lf s).
Proof.
  intros s items LX N. pose proof (windows_lexes _ _ LX N) as LX'. pose proof (windows_retold _ _ LX N) as RT.
  destruct (ascii_decides items) as [CA|CA].
  2:{ unfold format_source, parse. rewrite (lex_crash _ _ LX CA). rewrite (lex_crash _ _ LX'); [reflexivity|].
      intro C. apply CA. intros w I. pose proof (lexes_lexemes _ _ LX) as F. rewrite Forall_forall in F. pose proof (F _ I) as L. cbn [fst snd] in L.
      rewrite <- (windows_flat w); [|apply (lexeme_flat TLineComment); auto; discriminate].
      apply C. apply in_map_iff. exists (TLineComment, w). auto. }
  pose proof (windows_ascii _ (lexes_lexemes _ _ LX) CA) as CA'.
  destruct (lex_complete _ _ LX CA) as (its & LE & M & LA). destruct (lex_complete _ _ LX' CA') as (its' & LE' & M' & LA').
  assert (map tkind_of (filter plain its) = map tkind_of (filter plain its')) as MK.
  { rewrite <- M in M'. clear -M'. revert its' M'. induction its as [|t its IH]; intros [|t' its'] E; try discriminate; [reflexivity|].
    cbn [map] in E. injection E as K _ E. unfold windows_item in K. apply IH in E. cbn [filter]. cbn in K.
    replace (plain t') with (plain t) by (unfold plain; rewrite K; reflexivity).
    destruct (plain t); cbn [map]; congruence. }
  pose proof (parse_bare _ _ KStoredDefinition MK) as PB.
  destruct (parse_events (filter plain its) KStoredDefinition) as [[e er]|x|] eqn:P1,
           (parse_events (filter plain its') KStoredDefinition) as [[e' er']|x'|] eqn:P2; try contradiction.
  - destruct PB as [-> EM].
    assert (parse s KStoredDefinition = Ok (mkParsed (filter plain its) (filter commentary its) e' er)) as P.
    { unfold parse. rewrite LE. cbn [bind]. rewrite P1. reflexivity. }
    assert (parse (windows s) KStoredDefinition = Ok (mkParsed (filter plain its') (filter commentary its') e' er')) as P'.
    { unfold parse. rewrite LE'. cbn [bind]. rewrite P2. reflexivity. }
    unfold format_source. rewrite P, P'. cbn [bind p_errors]. destruct er, er'; try discriminate; [|reflexivity].
    assert (accepted s (mkParsed (filter plain its) (filter commentary its) e' [])) as ACC by (split; [exact P|reflexivity]).
    destruct (C76_retold _ _ _ _ ACC RT P') as (_ & l & l' & LO & F).
    destruct (LO lf) as [L1 _]. destruct (LO crlf) as [_ L2]. rewrite (lo_text _ _ _ _ L1), (lo_text _ _ _ _ L2). cbn [bind rmap option_map].
    do 2 f_equal. apply windows_render.
    destruct (lo_items _ _ _ _ L1) as (i1 & B1 & T1 & C1 & D1). destruct (lo_items _ _ _ _ L2) as (i2 & B2 & T2 & C2 & D2). cbn [p_tokens p_comments] in *.
    assert (its = i1) as <- by (apply (items_unique s); auto). assert (its' = i2) as <- by (apply (items_unique (windows s)); auto).
    assert (forall e, In e l -> In (e_tok e) its) as I1 by (intros z I; apply (drops_in _ _ _ _ D1), in_map, I).
    assert (forall e, In e l' -> In (e_tok e) its') as I2 by (intros z I; apply (drops_in _ _ _ _ D2), in_map, I).
    revert F I1 I2. clear -LA LA' M M'. induction 1 as [|a a' l l' (W & _ & _ & X) F IH]; intros I1 I2; constructor.
    + split; [exact W|]. pose proof (same_number _ _ _ _ (e_tok a) (e_tok a') windows_item LA LA') as Q.
      rewrite M, M' in Q. specialize (Q eq_refl (I1 _ (or_introl eq_refl)) (I2 _ (or_introl eq_refl)) X).
      apply (f_equal snd) in Q. exact Q.
    + apply IH; intros z I; [apply I1|apply I2]; right; exact I.
  - subst. unfold format_source, parse. rewrite LE, LE'. cbn [bind]. rewrite P1, P2. reflexivity.
  - unfold format_source, parse. rewrite LE, LE'. cbn [bind]. rewrite P1, P2. reflexivity.
Qed.
Print Assumptions C82_windows.

(** If no string, quoted identifier or comment spans lines, the line breaks of the source make no
    difference to the formatted text. *)
Lemma windows_respaced s items : lexes s items -> Forall (fun i => newlines (snd i) = 0) items -> respaced s (windows s).
Proof.
  induction 1 as [|c r items S L IH|k w r items LX FO L IH]; intro N.
  - apply rs_end; constructor.
  - change (c :: r) with ([c] ++ r). rewrite windows_app. apply rs_gap; auto using windows_space. rewrite windows_newlines. reflexivity.
  - inversion N as [|? ? NW NR]; subst. cbn [snd] in NW. rewrite windows_app. pose proof (windows_follow k w r LX (fun _ => NW) FO) as FO'.
    rewrite (windows_flat w NW) in *. apply (rs_item k); auto.
Qed.
Theorem C82_same : forall eol s items,
  lexes s items -> Forall (fun i => newlines (snd i) = 0) items ->
  format_source eol (windows s) = format_source eol s.
Proof. intros eol s items L N. symmetry. apply C31_horizontal_space. eapply windows_respaced; eauto. Qed.
Print Assumptions C82_same.

(** A file with a comment and a string over two lines. *)
Definition spanning : text := lines
  ["model A /* one"; "two */"; "  parameter String s = ""a"; "b"";"; "equation"; "  f(x,"; "   y); // c"; "end A;"]%string.
Example C82_applies :
  (exists items, lexes spanning items /\ names_on_lines items /\ ~ Forall (fun i => newlines (snd i) = 0) items) /\
  format_source lf spanning = Ok (Some (lines
    ["model A /* one"; "two */"; ""; "  parameter String s = ""a"; "b"";"; ""; "equation"; ""; "  f("; "    x,"; "    y); // c"; ""; "end A;"]%string)) /\
  windows spanning <> spanning.
Proof.
  split; [|split; [vm_compute; reflexivity|vm_compute; discriminate]].
  destruct (lex spanning) as [[[t c] [|e er]]| |] eqn:E; [|vm_compute in E; discriminate ..].
  destruct (lex_sound _ _ _ E) as (items & X & CA & LA & T & C). exists (map item_of items). split; [exact X|].
  vm_compute in E. injection E as Et Ec. rewrite <- Et in T. rewrite <- Ec in C.
  assert (forall i, In i items <-> In i (filter plain items) \/ In i (filter commentary items)) as SP by (intro; apply split_in).
  split.
  - intros w I. apply in_map_iff in I as (i & Q & I). unfold item_of in Q. injection Q as K <-. apply SP in I. rewrite <- T, <- C in I.
    destruct I as [I|I]; repeat (destruct I as [<-|I]; [vm_compute; vm_compute in K; reflexivity || discriminate|]); destruct I.
  - intro F. rewrite Forall_map, Forall_forall in F.
    assert (In (hd (mkTok 0 [] TEOF (mkPos 0 0 0) (mkPos 0 0 0)) (filter commentary items)) items) as I.
    { apply SP. right. rewrite <- C. left. reflexivity. }
    apply F in I. rewrite <- C in I. vm_compute in I. discriminate.
Qed.

(** A quoted identifier with a protected line break is no identifier any more. *)
Definition broken_name : text := str "model A Real 'a\
b'; end A;".
Example C82_names_needed :
  (exists out, format_source lf broken_name = Ok (Some out)) /\
  format_source crlf (windows broken_name) = Ok None.
Proof. split; [eexists|]; vm_compute; reflexivity. Qed.
