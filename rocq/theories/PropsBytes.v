(** Properties C63, C65 and C66: files as bytes. *)
From Verif Require Import ProofBase Tokens Syntax Lexer SpecLex LexMain ParserCore Lib PropsParser FmtFacts FmtNeat PropsFormat
  Utf8 SpecUtf8 Utf8Facts Cli SpecCli CliFacts CliFind PropsCli.

(** ** C63: texts and bytes *)
Theorem C63_utf8 :
  (* reading: exactly the well-formed bytes are read, as the text they stand for *)
  (forall b t, decode b = Some t <-> utf8 b t) /\
  (* writing: every text of scalar values is written, as bytes that stand for it *)
  (forall t, Forall scalar t -> utf8 (encode t) t) /\
  (* bytes and texts correspond one to one *)
  (forall b t t', utf8 b t -> utf8 b t' -> t = t') /\
  (forall b b' t, utf8 b t -> utf8 b' t -> b = b') /\
  (forall b t, utf8 b t -> Forall scalar t /\ N.of_nat (length b) = bytes_of t) /\
  (* names that are not UTF-8 are shown with replacement characters, in one way *)
  (forall b, shows b (display b)) /\
  (forall b t t', shows b t -> shows b t' -> t = t') /\
  (forall b t, utf8 b t -> display b = t).
Proof.
  split; [exact decode_iff|]. split; [exact encode_utf8|]. split; [exact utf8_fun|]. split; [|split; [|split; [exact display_shows|split]]].
  - intros b b' t U U'. rewrite (utf8_encode _ _ U), (utf8_encode _ _ U'). reflexivity.
  - intros b t U. split; [eapply utf8_scalar; eauto|]. rewrite (utf8_encode _ _ U). apply encode_length.
  - intros b t t' S S'. eapply shows_fun; eauto.
  - exact display_utf8.
Qed.
Print Assumptions C63_utf8.
(** One character of each length; the euro sign cut off, and a surrogate. *)
Example C63_applies :
  encode [65; 233; 8364; 128512] = [65; 195; 169; 226; 130; 172; 240; 159; 152; 128] /\
  decode [65; 195; 169; 226; 130; 172; 240; 159; 152; 128] = Some [65; 233; 8364; 128512] /\
  decode [65; 226; 130] = None /\ display [65; 226; 130; 66] = [65; 65533; 66] /\
  decode [237; 160; 128] = None /\ display [237; 160; 128] = [65533; 65533; 65533] /\
  decode [192; 128] = None /\ decode [244; 144; 128; 128] = None.
Proof. vm_compute. repeat split. Qed.

(** ** C65: files that are not UTF-8 *)
Lemma garbled_kept eol w check code q s c es i : processed eol w check code q s (inl c) es -> ~ readable (s i) ->
  after_effects s es i = s i.
Proof.
  intros P NR. destruct (processed_shape _ _ _ _ _ _ _ _ P) as [Q|(j & src & new & b & _ & _ & _ & SJ & _ & _ & ->)].
  - rewrite (after_quiet _ _ Q). reflexivity.
  - rewrite (after_file j b s i). unfold update. destruct (i =? j) eqn:E; auto. apply N.eqb_eq in E. subst j.
    exfalso. apply NR. exists src. exact SJ.
Qed.
Definition error_line (q : path) (e : effect) : Prop :=
  exists name msg, shows q name /\ e = EErr (name ++ str ": error: " ++ msg ++ [10]).
Lemma garbled_reported eol w check code qs s c es q i : processed_all eol w check code qs s (inl c) es ->
  In q qs -> w_node w q = Some (NFile i) -> ~ readable (s i) -> c = 1 /\ exists e, In e es /\ error_line q e.
Proof.
  intros P IQ NQ. remember (inl c) as r eqn:ER.
  induction P as [code s|code p qs s c1 e1 r e2 P1 P2 IH|]; intro NR; try discriminate; [destruct IQ|].
  destruct IQ as [->|IQ].
  - assert (forall src, ~ holds w s q src) as NH.
    { intros src (_ & j & NJ & U). apply NR. exists src. congruence. }
    assert (c1 = 1 /\ exists e, In e e1 /\ error_line q e) as (-> & e & IE & EL).
    { inversion P1 as [e CO|name src new _ HO|name src _ HO|j src new b _ MO NJ SJ| |]; subst; try (destruct (NH _ HO)).
      - split; auto. exists e. split; [left; auto|]. destruct CO as [name msg _ SH|name src p HO]; [exists name, msg; auto|destruct (NH _ HO)].
      - exfalso. apply (NH src). split; eauto. }
    split.
    + subst r. destruct (processed_all_code _ _ _ _ _ _ _ _ P2); auto.
    + exists e. split; auto. apply in_or_app. auto.
  - destruct (IH ER IQ) as (-> & e & IE & EL).
    + rewrite (garbled_kept _ _ _ _ _ _ _ _ _ P1 NR). exact NR.
    + split; auto. exists e. split; auto. apply in_or_app. auto.
Qed.
(** Such a file keeps its contents at every moment of any run; a run that comes to its end reports
    it and has exit code 1; and without faults, it does not stop the run. *)
Theorem C65_not_utf8 : forall fuel eol w s0 argv check paths files q i x es,
  is_eol eol -> dispatch argv (AWork check paths) -> listing w paths files -> In q files ->
  w_node w q = Some (NFile i) -> ~ readable (s0 i) -> run fuel eol w s0 argv = (x, es) ->
  (forall a b, es = a ++ b -> after_effects s0 a i = s0 i) /\
  (forall c, x = SExit c -> c = 1 /\ exists e, In e es /\ error_line q e) /\
  (calm w -> x = SPanic -> exists p j t src y, p <> q /\ w_node w p = Some (NFile j) /\ utf8 (s0 j) t /\
     rewrites_star eol t src /\ parse src KStoredDefinition = Panic y).
Proof.
  intros fuel eol w s0 argv check paths files q i x es EO D L IQ NQ NR R. split; [|split].
  - intros a b E. eapply C39_others_unchanged; eauto. intros src p U _. apply NR. exists src. exact U.
  - intros c ->. destruct (run_work _ _ _ _ _ _ _ _ _ (fun _ => EO) D R) as [[_ [H|[H _]]]|(files' & L' & [(c' & E & P)|P])]; try discriminate.
    + injection E as <-. rewrite (listing_fun _ _ _ L' _ L) in P. eapply garbled_reported; eauto.
    + apply processed_all_stop in P. discriminate.
  - intros C ->. destruct C40_exit_code as (_ & _ & _ & PA).
    destruct (PA _ _ _ _ _ _ _ _ EO C D R) as (files' & p & t & src & y & _ & _ & (MO & j & NJ & U) & RS & _ & PX).
    exists p, j, t, src, y. repeat split; auto. intros ->. apply NR. exists t. congruence.
Qed.
Print Assumptions C65_not_utf8.
(** [latin.mo] is not UTF-8; [src/a.mo] behind it is formatted. *)
Definition latin : world :=
  mkWorld (fun p => if text_eqb p (str "latin.mo") then Some (NFile 7) else demo_node p) (fun _ => FNone)
    (str "stream did not contain valid UTF-8").
Definition latin_store (i : inode) : bytes := if i =? 7 then str "model A """ ++ [233] ++ str """ end A;" else demo_store i.
Example C65_applies :
  ~ readable (latin_store 7) /\
  run 5 lf latin latin_store [str "mofmt"; str "latin.mo"; str "src/a.mo"] =
    (SExit 1, EErr (str "latin.mo: error: stream did not contain valid UTF-8" ++ [10]) :: ETrunc 1 :: map (EWrite 1) neat_text).
Proof. split; [apply decode_none|]; vm_compute; reflexivity. Qed.

(** ** C66: where characters outside ASCII may stand *)
Definition free_text (k : tkind) (w : text) : Prop :=
  k = TString \/ k = TLineComment \/ k = TBlockComment \/ (k = TIdentifier /\ SpecLex.starts (fun c => c = squote) w).
Lemma spelled_ascii tbl : forallb (fun e => forallb (fun c => c <? 128) (str (fst e))) tbl = true ->
  forall w k, spelled tbl w k -> Forall (fun c => c < 128) w.
Proof.
  intros F w k (x & I & ->). rewrite forallb_forall in F. specialize (F _ I). cbn [fst] in F.
  apply Forall_forall. intros c IC. rewrite forallb_forall in F. apply N.ltb_lt, F, IC.
Qed.
Lemma digits_ascii d : Forall digit d -> Forall (fun c => c < 128) d.
Proof. apply Forall_impl. unfold digit. intros. lia. Qed.
Lemma idchars_ascii d : Forall idchar d -> Forall (fun c => c < 128) d.
Proof. apply Forall_impl. unfold idchar, nondigit, letter, digit. intros. lia. Qed.
Lemma lexeme_ascii k w : lexeme k w -> free_text k w \/ Forall (fun c => c < 128) w.
Proof.
  destruct 1 as [k w S|k w S|c b NC ID _|b _|b _|d _ D|d f e _ D F E _|b _|x _|]; unfold free_text; auto 6.
  - right. eapply spelled_ascii; [|exact S]. reflexivity.
  - right. eapply spelled_ascii; [|exact S]. reflexivity.
  - right. apply idchars_ascii. constructor; [left; auto|auto].
  - left. right. right. right. split; auto. exists squote, (b ++ [squote]). auto.
  - right. auto using digits_ascii.
  - right. rewrite !Forall_app. split; [auto using digits_ascii|]. split.
    + destruct F as [->|(g & G & ->)]; [constructor|]. constructor; [reflexivity|auto using digits_ascii].
    + destruct E as [->|(m & s & ds & M & S & DS & ->)]; [constructor|].
      constructor; [destruct M as [->| ->]; reflexivity|]. apply Forall_app. split; [|auto using digits_ascii].
      destruct S as [->|(c & [->| ->] & ->)]; repeat constructor.
Qed.
Lemma lexes_foreign s its : lexes s its -> forall u c v, s = u ++ c :: v -> 128 <= c ->
  exists a k w1 w2 b, u = a ++ w1 /\ v = w2 ++ b /\ lexeme k (w1 ++ c :: w2) /\ free_text k (w1 ++ c :: w2).
Proof.
  induction 1 as [|x r its SP L IH|k w r its LX FO L IH]; intros u c v E GE.
  - destruct u; discriminate.
  - destruct u as [|y u]; injection E as -> E.
    + exfalso. unfold space in SP. cbn in SP. lia.
    + destruct (IH u c v E GE) as (a & k & w1 & w2 & b & -> & -> & LX & FT).
      exists (y :: a), k, w1, w2, b. auto.
  - apply app_eq_app in E as (l & [(-> & E)|(-> & E)]).
    + destruct l as [|y l].
      * cbn [app] in E. destruct (IH [] c v (eq_sym E) GE) as (a & k' & w1 & w2 & b & E1 & -> & LX' & FT).
        symmetry in E1. apply app_eq_nil in E1 as [-> ->]. exists u, k', [], w2, b. rewrite app_nil_r. auto.
      * injection E as -> E. subst v. exists [], k, u, l, r. repeat split; auto.
        destruct (lexeme_ascii _ _ LX) as [FT|AS]; auto.
        apply Forall_app in AS as [_ AS]. inversion AS. subst. lia.
    + destruct (IH l c v E GE) as (a & k' & w1 & w2 & b & -> & -> & LX' & FT).
      exists (w ++ a), k', w1, w2, b. rewrite app_assoc. auto.
Qed.
Theorem C66_foreign_characters : forall s p u c v, accepted s p -> s = u ++ c :: v -> 128 <= c ->
  exists a k w1 w2 b, u = a ++ w1 /\ v = w2 ++ b /\ lexeme k (w1 ++ c :: w2) /\ free_text k (w1 ++ c :: w2).
Proof.
  intros s p u c v ACC E GE. destruct (accepted_layout lf s p ACC) as (items & l & _ & L & _). eapply lexes_foreign; eauto.
Qed.
Print Assumptions C66_foreign_characters.
(** In particular the tool reports an error in a file with a byte order mark and leaves it alone. *)
Theorem C66_byte_order_mark :
  (forall s p, ~ accepted (65279 :: s) p) /\
  (forall fuel eol w s0 argv x es a b i r, is_eol eol -> run fuel eol w s0 argv = (x, es) -> es = a ++ b ->
     s0 i = [239; 187; 191] ++ r -> after_effects s0 a i = s0 i).
Proof.
  assert (forall s p, ~ accepted (65279 :: s) p) as NA.
  { intros s p ACC. destruct (C66_foreign_characters _ _ [] 65279 s ACC eq_refl ltac:(lia)) as (a & k & w1 & w2 & b & E & _ & LX & FT).
    symmetry in E. apply app_eq_nil in E as [_ ->]. cbn [app] in *.
    remember (65279 :: w2) as w eqn:EW.
    assert (forall tbl, forallb (fun e => forallb (fun c => c <? 128) (str (fst e))) tbl = true -> spelled tbl w k -> False) as NS.
    { intros tbl T S. apply (spelled_ascii tbl T) in S. subst w. inversion S as [|? ? LT]. discriminate LT. }
    destruct LX as [k w S|k w S|c d NC|d _|d _|d _ D|d f e _ D F1 E1 _|d _|x _|]; try discriminate EW.
    - exact (NS spellings eq_refl S).
    - exact (NS reserved eq_refl S).
    - injection EW as -> _. unfold nondigit, letter in NC. lia.
    - destruct FT as [F|[F|[F|[F _]]]]; discriminate F.
    - destruct FT as [F|[F|[F|[F _]]]]; discriminate F. }
  split; [exact NA|]. intros fuel eol w s0 argv x es a b i r EO R E SI.
  eapply C39_others_unchanged; eauto. intros src p U. rewrite SI in U.
  inversion U as [|c b1 bs t C U' EB]; subst. cbn [app] in EB.
  assert (coded 65279 [239; 187; 191]) as CB by (change [239; 187; 191] with (encode_char 65279); apply encode_coded; right; split; [discriminate|reflexivity]).
  destruct (coded_prefix _ _ _ _ bs r C CB EB) as (-> & _). apply NA.
Qed.
Print Assumptions C66_byte_order_mark.
Example C66_applies : exists p, accepted (str "model A ""caf" ++ [233] ++ str """ end A;") p.
Proof. eexists. split; vm_compute; reflexivity. Qed.
