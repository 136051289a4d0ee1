(** The layout of classes inside a package. *)
From Verif Require Import ProofBase Tokens Syntax Lexer SpecLex LexInv LexMain LexFacts ParserCore Grammar
  Tree Printer Formatter Lib ParserSem ParserFuel SpecGrammar Regex ParserGrammar ParserTree ParserFacts Recognise PropsParser
  SpecLanguage ParserComplete PropsLanguage
  FmtAbs FmtPlan FmtShape FmtTables FmtSound SpecLayout FmtExec FmtTop FmtFacts FmtRelex FmtNeat SpecNodes FmtTree FmtLists FmtOps
  FmtWrap SpecGaps SpecReference FmtNode FmtReference FmtSame PropsFormat PropsReference FmtBreaks FmtAgree FmtPrinted FmtStable FmtMoved
  FmtConcat SpecLevels FmtLevels SpecLocal FmtLocal SpecNest.

(** ** Text and items *)
Definition head (name : text) : text := str "package " ++ name ++ [10].
Definition tail (name : text) : text := str "end " ++ name ++ str ";".
Lemma head_lexes name : lexeme TIdentifier name -> lexes (head name) [(TPackage, str "package"); (TIdentifier, name)].
Proof.
  intro N. unfold head. change (str "package ") with (str "package" ++ [32]). rewrite <- app_assoc. cbn [app].
  change (112 :: 97 :: 99 :: 107 :: 97 :: 103 :: 101 :: 32 :: name ++ [10]) with (str "package" ++ 32 :: name ++ [10]).
  apply lexes_item.
  - apply lx_keyword. exists "package"%string. split; [|reflexivity]. vm_compute. intuition.
  - cbn. intros (c & r & E & I). injection E as <- _. unfold idchar, nondigit, letter, digit in I. lia.
  - apply lexes_space; [vm_compute; auto 10|]. apply lexes_item; [exact N| |apply lexes_space; [vm_compute; auto 10|constructor]].
    cbn. right. intros (c & r & E & I). injection E as <- _. unfold idchar, nondigit, letter, digit in I. lia.
Qed.
Lemma tail_lexes name : lexeme TIdentifier name -> lexes (tail name) [(TEnd, str "end"); (TIdentifier, name); (TSemicolon, str ";")].
Proof.
  intro N. unfold tail. change (str "end ") with (str "end" ++ [32]). rewrite <- app_assoc. cbn [app].
  change (101 :: 110 :: 100 :: 32 :: name ++ str ";") with (str "end" ++ 32 :: name ++ str ";").
  apply lexes_item.
  - apply lx_keyword. exists "end"%string. split; [|reflexivity]. vm_compute. intuition.
  - cbn. intros (c & r & E & I). injection E as <- _. unfold idchar, nondigit, letter, digit in I. lia.
  - apply lexes_space; [vm_compute; auto 10|]. apply lexes_item; [exact N| |].
    + cbn [follow_ok]. change (str ";") with [59]. right. intros (c & r & E & I). injection E as <- _. unfold idchar, nondigit, letter, digit in I. lia.
    + change (str ";") with (str ";" ++ []) at 1. apply lexes_item; [|exact Logic.I|constructor]. apply lx_symbol. exists ";"%string. split; [|reflexivity]. vm_compute. intuition.
Qed.

(** ** Trees *)
Definition element_of (c : child) : child := match c with CTree _ _ => CTree KElement [c] | CTok _ => c end.
Definition package_of (t1 t2 t3 t4 t5 : token) (es : list child) : child :=
  CTree KStoredDefinition
    [CTree KClassDefinition
       [CTree KClassPrefixes [CTok t1];
        CTree KClassSpecifier
          [CTree KLongClassSpecifier
             [CTok t2; CTree KDescriptionString []; CTree KComposition [CTree KElementList es]; CTok t3; CTok t4]]];
     CTok t5].
Definition package_pruned (t1 t2 t3 t4 t5 : token) (es : list child) : child :=
  CTree KStoredDefinition
    [CTree KClassDefinition
       [CTree KClassPrefixes [CTok t1];
        CTree KClassSpecifier
          [CTree KLongClassSpecifier
             [CTok t2; CTree KComposition [CTree KElementList es]; CTok t3; CTok t4]]];
     CTok t5].
Definition classes_only (cs : list child) : Prop :=
  Forall (fun c => sym_of c = Rule KClassDefinition \/ sym_of c = Term TSemicolon) cs.

Lemma prune_element c : prune (element_of c) = match prune c with CTok t => CTok t | CTree k [] => CTree KElement [] | d => element_of d end.
Proof.
  destruct c as [t|k cs]; [reflexivity|]. cbn [element_of]. rewrite prune_tree. unfold prunes. cbn [map]. rewrite prune_tree. destruct (prunes cs); reflexivity.
Qed.
Lemma prune_elements ca : prunes (map element_of ca) = map element_of (prunes ca).
Proof.
  unfold prunes. induction ca as [|c ca IH]; [reflexivity|]. cbn [map filter]. rewrite IH, prune_element. destruct (prune c) as [t|k [|x v]]; reflexivity.
Qed.
Lemma package_prune t1 t2 t3 t4 t5 ca : prunes ca <> [] ->
  prune (package_of t1 t2 t3 t4 t5 (map element_of ca)) = package_pruned t1 t2 t3 t4 t5 (map element_of (prunes ca)).
Proof.
  intro NE. unfold package_of, package_pruned.
  assert (prune (CTree KElementList (map element_of ca)) = CTree KElementList (map element_of (prunes ca))) as E by (rewrite prune_tree, prune_elements; reflexivity).
  assert (empty_tree (CTree KElementList (map element_of (prunes ca))) = false) as EE by (destruct (prunes ca); [contradiction|reflexivity]).
  assert (forall k cs, prune (CTree k cs) = CTree k (filter (fun c => negb (empty_tree c)) (map prune cs))) as P by (intros; rewrite prune_tree; reflexivity).
  assert (prune (CTree KComposition [CTree KElementList (map element_of ca)]) = CTree KComposition [CTree KElementList (map element_of (prunes ca))]) as E1.
  { rewrite P. cbn [map filter]. rewrite E, EE. reflexivity. }
  rewrite P. cbn [map filter]. rewrite P. cbn [map filter]. rewrite (P KClassSpecifier). cbn [map filter]. rewrite (P KLongClassSpecifier). cbn [map filter]. rewrite E1. reflexivity.
Qed.
Lemma star_elements v : lang (Star (sq [opt [Sy (Term TFinal)]; Sy (Rule KClassDefinition); Sy (Term TSemicolon)])) v -> Forall (fun x => x = Rule KClassDefinition \/ x = Term TSemicolon) v ->
  lang (many [Sy (Rule KElement); Sy (Term TSemicolon)]) (map (fun x => match x with Rule _ => Rule KElement | Term k => Term k end) v).
Proof.
  unfold many, opt. cbn [sq]. intro L. match type of L with lang (Star ?r) _ => remember (Star r) as R eqn:E end. induction L; try discriminate; intro F; [constructor|].
  injection E as ->. rewrite map_app. apply Forall_app in F as [F1 F2]. constructor; [|auto].
  inversion L1 as [| |? ? u1 u2 U1 U2| | | |]; subst. inversion U2 as [| |? ? u3 u4 U3 U4| | | |]; subst. inversion U3; subst. inversion U4; subst.
  assert (u1 = []) as ->.
  { inversion U1 as [| | |? ? ? W|? ? ? W| |]; subst; inversion W; subst; [reflexivity|]. exfalso. inversion F1 as [|? ? F _]; subst. destruct F; discriminate. }
  cbn [app map]. apply (l_cat (Sy (Rule KElement)) (Sy (Term TSemicolon)) [_] [_]); constructor.
Qed.
Lemma package_parsable t1 t2 t3 t4 t5 ca : tkind_of t1 = TPackage -> tkind_of t2 = TIdentifier -> tkind_of t3 = TEnd -> tkind_of t4 = TIdentifier -> tkind_of t5 = TSemicolon ->
  parsable (CTree KStoredDefinition ca) -> classes_only ca -> parsable (package_of t1 t2 t3 t4 t5 (map element_of ca)).
Proof.
  intros K1 K2 K3 K4 K5 [C U] O. apply conforms_kids in C as [L C]. apply unbarred_kids in U as [A U].
  assert (lang (production false KElementList) (syms (map element_of ca))) as LE.
  { cbn [production]. unfold syms in *. assert (map sym_of (map element_of ca) = map (fun x => match x with Rule _ => Rule KElement | Term k => Term k end) (map sym_of ca)) as E.
    { rewrite !map_map. apply map_ext. intros [t|k cs]; reflexivity. }
    rewrite E. apply star_elements; [|unfold classes_only in O; rewrite Forall_forall in *; intros x I; apply in_map_iff in I as (c & <- & I); auto].
    cbn [production] in L. unfold opt in L at 1. cbn [sq] in L. inversion L as [| |? ? u1 u2 U1 U2| | | |]; subst.
    assert (u1 = []) as ->; [|exact U2].
    inversion U1 as [| | |? ? ? W|? ? ? W| |]; subst; inversion W as [| |? ? w1 w2 W1 W2| | | |]; subst; [reflexivity|]. inversion W1; subst. exfalso.
    unfold classes_only in O. destruct ca as [|c ca]; [discriminate|]. inversion O as [|? ? OC _]; subst.
    match goal with H : _ = map sym_of (c :: ca) |- _ => cbn [map app] in H; injection H as H _ end. destruct OC; congruence. }
  assert (Forall (conforms false) (map element_of ca)) as CE.
  { rewrite Forall_forall in *. intros d D. apply in_map_iff in D as (c & <- & I). specialize (C c I). unfold classes_only in O. rewrite Forall_forall in O. specialize (O c I).
    destruct c as [t|k cs]; cbn [element_of]; [constructor|]. constructor; [|constructor; auto]. destruct O as [O|O]; cbn [sym_of] in O; [|discriminate].
    cbn [map sym_of syms]. rewrite O. apply matchb_sound. vm_compute. reflexivity. }
  assert (forall k c, sym_of c <> Rule KEquation -> allowed k c) as AL.
  { intros k [t|k' cs] N; unfold allowed; [exact Logic.I|]. destruct (leaves (CTree k' cs)); [exact Logic.I|]. destruct k'; cbn [barred]; try (intros []; fail). contradiction N. reflexivity. }
  assert (Forall unbarred (map element_of ca)) as UE.
  { rewrite Forall_forall in *. intros d D. apply in_map_iff in D as (c & <- & I). specialize (U c I). unfold classes_only in O. rewrite Forall_forall in O. specialize (O c I).
    destruct c as [t|k cs]; cbn [element_of]; [constructor|]. constructor; [|constructor; auto]. constructor; [|constructor]. apply AL. destruct O as [O|O]; rewrite O; discriminate. }
  unfold package_of. split.
  - repeat match goal with
    | |- conforms false (CTok _) => constructor
    | |- Forall _ (_ :: _) => constructor
    | |- Forall _ [] => constructor
    | |- conforms false (CTree KElementList _) => constructor; [exact LE|exact CE]
    | |- conforms false (CTree _ _) => constructor; [cbn [map sym_of syms]; rewrite ?K1, ?K2, ?K3, ?K4, ?K5; apply matchb_sound; vm_compute; reflexivity|]
    end.
  - repeat match goal with
    | |- unbarred (CTok _) => constructor
    | |- Forall _ (_ :: _) => constructor
    | |- Forall _ [] => constructor
    | |- allowed _ _ => apply AL; discriminate
    | |- unbarred (CTree KElementList _) => constructor; [|exact UE]
    | |- unbarred (CTree _ _) => constructor
    end.
    rewrite Forall_forall in *. intros d D. apply AL. apply in_map_iff in D as (c & <- & I). destruct c; discriminate.
Qed.
Lemma prunes_tok t cs : In (CTok t) cs -> In (CTok t) (prunes cs).
Proof. intro I. unfold prunes. apply filter_In. split; [apply in_map_iff; exists (CTok t); auto|reflexivity]. Qed.
Lemma star_rules v : lang (Star (sq [opt [Sy (Term TFinal)]; Sy (Rule KClassDefinition); Sy (Term TSemicolon)])) v -> forall k, In (Rule k) v -> k = KClassDefinition.
Proof.
  unfold opt. cbn [sq]. intro L. match type of L with lang (Star ?r) _ => remember (Star r) as R eqn:E end. induction L; try discriminate; intros k I; [destruct I|].
  injection E as ->. apply in_app_or in I as [I|I]; [|auto].
  inversion L1 as [| |? ? u1 u2 U1 U2| | | |]; subst. inversion U2 as [| |? ? u3 u4 U3 U4| | | |]; subst. inversion U3; subst. inversion U4; subst.
  apply in_app_or in I as [I|[I|[I|[]]]]; [|congruence|discriminate]. inversion U1 as [| | |? ? ? W|? ? ? W| |]; subst; inversion W; subst; [destruct I|]. destruct I as [I|[]]. discriminate.
Qed.
Lemma stored_only ca : lang (production false KStoredDefinition) (syms ca) -> classes_only (prunes ca) -> classes_only ca.
Proof.
  intros L O.
  assert (forall k, In (Term k) (syms ca) -> k = TSemicolon) as TK.
  { intros k I. unfold syms in I. apply in_map_iff in I as ([t|] & E & I); [|discriminate]. unfold classes_only in O. rewrite Forall_forall in O. destruct (O _ (prunes_tok _ _ I)) as [X|X]; cbn [sym_of] in *; congruence. }
  assert (forall k, In (Rule k) (syms ca) -> k = KClassDefinition \/ In (Term TWithin) (syms ca)) as RK.
  { cbn [production] in L. unfold opt in L at 1. cbn [sq] in L. inversion L as [| |? ? u1 u2 U1 U2| | | |]; subst.
    intros k I. apply in_app_or in I as [I|I].
    - right. apply in_or_app. left. inversion U1 as [| | |? ? ? W|? ? ? W| |]; subst; inversion W as [| |? ? w1 w2 W1 W2| | | |]; subst; [destruct I|]. inversion W1; subst. left. reflexivity.
    - left. exact (star_rules _ U2 k I). }
  unfold classes_only. apply Forall_forall. intros [t|k ks] I.
  - right. cbn [sym_of]. f_equal. apply TK. unfold syms. apply in_map_iff. exists (CTok t). auto.
  - left. cbn [sym_of]. f_equal. destruct (RK k) as [X|X]; [unfold syms; apply in_map_iff; exists (CTree k ks); auto|exact X|]. apply TK in X. discriminate.
Qed.
Lemma element_leaves c : leaves (element_of c) = leaves c.
Proof. destruct c; [reflexivity|]. cbn [element_of leaves flat_map]. apply app_nil_r. Qed.
Lemma package_leaves t1 t2 t3 t4 t5 ca : leaves (package_of t1 t2 t3 t4 t5 (map element_of ca)) = t1 :: t2 :: leaves (CTree KStoredDefinition ca) ++ [t3; t4; t5].
Proof.
  unfold package_of. cbn [leaves flat_map app]. f_equal. f_equal. rewrite !app_nil_r, <- !app_assoc. cbn [app]. f_equal.
  induction ca as [|c ca IH]; [reflexivity|]. cbn [map flat_map]. rewrite element_leaves, IH. reflexivity.
Qed.

(** ** The package is read as intended *)
Theorem reading_package name a pa ia csa : lexeme TIdentifier name ->
  reading a pa ia (CTree KStoredDefinition csa) -> finished a -> csa <> [] -> classes_only csa ->
  let g := later (head name) 2 in
  exists p t1 t2 t3 t4 t5,
    tkind_of t1 = TPackage /\ ttext t1 = str "package" /\ tkind_of t2 = TIdentifier /\ ttext t2 = name /\
    tkind_of t3 = TEnd /\ ttext t3 = str "end" /\ tkind_of t4 = TIdentifier /\ ttext t4 = name /\ tkind_of t5 = TSemicolon /\ ttext t5 = str ";" /\
    reading (packaged name a) p (t1 :: t2 :: map g ia ++ [t3; t4; t5]) (package_pruned t1 t2 t3 t4 t5 (map element_of (map (tmap g) csa))).
Proof.
  intros NM RA F NE O g. assert (RA' := RA). destruct RA' as [AA LXA CAA LA PTA PCA BTA TKA FTA].
  destruct (reading_cs _ _ _ _ RA) as (ca & [PA1 PA2] & YA & TA).
  assert (csa = prunes ca) as EA by (rewrite prune_tree in TA; congruence).
  assert (classes_only ca) as OC.
  { apply conforms_kids in PA1 as [L _]. apply stored_only; [exact L|]. rewrite <- EA. exact O. }
  assert (comments_ascii [(TPackage, str "package"); (TIdentifier, name)]) as CH by (intros w [I|[I|[]]]; discriminate).
  assert (comments_ascii [(TEnd, str "end"); (TIdentifier, name); (TSemicolon, str ";")]) as CT by (intros w [I|[I|[I|[]]]]; discriminate).
  destruct (lex_complete _ _ (head_lexes name NM) CH) as (ih & _ & MH & LH). destruct (lex_complete _ _ (tail_lexes name NM) CT) as (it & _ & MT & LT).
  destruct ih as [|t1 [|t2 [|? ?]]]; try discriminate. destruct it as [|u3 [|u4 [|u5 [|? ?]]]]; try discriminate.
  cbn [map] in MH, MT. unfold item_of in MH, MT. injection MH as M1 M2 M3 M4. injection MT as M5 M6 M7 M8 M9 M10.
  assert (finished (head name)) as FH by (right; exists (str "package " ++ name); unfold head; rewrite app_assoc; reflexivity).
  set (ga := later (head name ++ a) (2 + length ia)).
  assert (finished (head name ++ a)) as FA.
  { destruct F as [->|(u & ->)]; [rewrite app_nil_r; exact FH|]. right. exists (head name ++ u). apply app_assoc. }
  set (items := t1 :: t2 :: map g ia ++ [ga u3; ga u4; ga u5]).
  assert (packaged name a = (head name ++ a) ++ tail name) as ET by (unfold packaged, head, tail; rewrite <- !app_assoc; reflexivity).
  assert (laid space (packaged name a) items) as LL.
  { rewrite ET. change items with (([t1; t2] ++ map g ia) ++ map ga [u3; u4; u5]). apply laid_behind; auto; [|rewrite app_length, map_length; reflexivity].
    apply laid_behind; auto. }
  assert (lexes (packaged name a) (map item_of items)) as LX.
  { rewrite ET. change items with (([t1; t2] ++ map g ia) ++ map ga [u3; u4; u5]). rewrite !map_app, map_map. 
    apply lexes_join; [|exact FA|]. 
    - apply lexes_join; auto. replace (map item_of [t1; t2]) with [(TPackage, str "package"); (TIdentifier, name)]; [apply head_lexes; exact NM|]. unfold item_of. cbn [map]. congruence.
    - replace (map item_of (map ga [u3; u4; u5])) with [(TEnd, str "end"); (TIdentifier, name); (TSemicolon, str ";")]; [apply tail_lexes; exact NM|].
      unfold item_of. cbn [map ga later tkind_of ttext]. congruence. }
  assert (comments_ascii (map item_of items)) as CA.
  { change items with (([t1; t2] ++ map g ia) ++ map ga [u3; u4; u5]). rewrite !map_app, (map_map g). intros w I. apply in_app_or in I as [I|I]; [apply in_app_or in I as [I|I]|].
    - cbn [map In] in I. unfold item_of in I. rewrite M1, M3 in I. intuition discriminate.
    - apply CAA. exact I.
    - cbn [map In] in I. unfold item_of in I. cbn [ga later tkind_of] in I. rewrite M5, M7, M9 in I. intuition discriminate. }
  destruct (lex_complete _ _ LX CA) as (items' & LE & ME & LA').
  assert (items' = items) as ->.
  { apply (set_out_unique [] 0 _ (packaged name a)); [apply laid_set, LA'|apply laid_set, LL|exact ME|]. apply (items_lexemes (packaged name a)). rewrite ME. exact LX. }
  assert (filter plain items = leaves (package_of t1 t2 (ga u3) (ga u4) (ga u5) (map element_of (map (tmap g) ca)))) as TK.
  { rewrite package_leaves. unfold items. cbn [filter]. 
    assert (forall t k, tkind_of t = k -> is_comment_kind k = false -> plain t = true) as PK by (intros t k E1 E2; unfold plain; rewrite E1, E2; reflexivity).
    rewrite (PK t1 _ M1), (PK t2 _ M3) by reflexivity. rewrite filter_app. cbn [filter].
    rewrite (PK (ga u3) TEnd), (PK (ga u4) TIdentifier), (PK (ga u5) TSemicolon) by (assumption || reflexivity).
    rewrite (filter_later (head name) 2 plain) by reflexivity. rewrite <- PTA, <- YA. fold g.
    change (CTree KStoredDefinition (map (tmap g) ca)) with (tmap g (CTree KStoredDefinition ca)). rewrite leaves_tmap. reflexivity. }
  assert (parsable (CTree KStoredDefinition (map (tmap g) ca))) as PG.
  { split; [apply (conforms_tmap g (fun t => eq_refl) _ _ PA1)|apply (unbarred_tmap g (fun t => eq_refl) _ PA2)]. }
  assert (classes_only (map (tmap g) ca)) as OG.
  { unfold classes_only in *. rewrite Forall_forall in *. intros d D. apply in_map_iff in D as (c & <- & I). rewrite (sym_tmap g (fun t => eq_refl)). auto. }
  assert (PP := package_parsable t1 t2 (ga u3) (ga u4) (ga u5) (map (tmap g) ca) M1 M3 M5 M7 M9 PG OG).
  destruct (C60_finds_tree _ PP) as [C1 C2]. cbv zeta in C1, C2. fold (package_of t1 t2 (ga u3) (ga u4) (ga u5) (map element_of (map (tmap g) ca))) in C1, C2. rewrite <- TK in C1, C2.
  assert (accepted (packaged name a) (mkParsed (filter plain items) (filter commentary items) (ParserSem.flat (package_of t1 t2 (ga u3) (ga u4) (ga u5) (map element_of (map (tmap g) ca)))) [])) as ACC.
  { split; [|reflexivity]. unfold parse. rewrite LE. cbn [bind]. rewrite C1. cbn [bind]. reflexivity. }
  destruct (reading_of _ _ ACC) as (items' & tree' & RD). assert (RD' := RD). destruct RD' as [_ _ _ LA2 PT2 PC2 BT2 _ _]. cbn [p_tokens p_comments p_events] in *.
  assert (items' = items) as -> by (apply (items_unique (packaged name a)); auto).
  pose proof (prune_tmap g (CTree KStoredDefinition ca)) as K. cbn [tmap] in K. rewrite !prune_tree in K. cbn [tmap] in K.
  assert (prunes (map (tmap g) ca) = map (tmap g) csa) as EM by (rewrite EA; congruence).
  rewrite C2, package_prune, EM in BT2; [|rewrite EM; destruct csa; [contradiction|discriminate]].
  eexists _, t1, t2, (ga u3), (ga u4), (ga u5). split; [exact M1|]. split; [exact M2|]. split; [exact M3|]. split; [exact M4|].
  assert (tree' = package_pruned t1 t2 (ga u3) (ga u4) (ga u5) (map element_of (map (tmap g) csa))) as -> by congruence.
  split; [exact M5|]. split; [exact M6|]. split; [exact M7|]. split; [exact M8|]. split; [exact M9|]. split; [exact M10|]. exact RD.
Qed.

(** ** Spots of the package *)
Inductive paired : list child -> Prop :=
| pd_nil : paired []
| pd_cons ds t r : tkind_of t = TSemicolon -> paired r -> paired (CTree KClassDefinition ds :: CTok t :: r).
Lemma star_paired v : lang (Star (Cat (Alt Eps (Sy (Term TFinal))) (Cat (Sy (Rule KClassDefinition)) (Sy (Term TSemicolon))))) v ->
  forall cs, v = map sym_of cs -> classes_only cs -> paired cs.
Proof.
  intro L. match type of L with lang (Star ?r) _ => remember (Star r) as R eqn:E end. induction L; try discriminate; intros cs EC O.
  - destruct cs; [constructor|discriminate].
  - injection E as ->.
    inversion L1 as [| |? ? u1 u2 U1 U2| | | |]; subst. inversion U2 as [| |? ? u3 u4 U3 U4| | | |]; subst. inversion U3; subst. inversion U4; subst.
    inversion U1 as [| | |? ? ? W|? ? ? W| |]; subst; inversion W; subst; cbn [app] in EC.
    + destruct cs as [|c [|d cs]]; try discriminate. cbn [map] in EC. injection EC as E1 E2 E3. destruct c as [|k ds]; [discriminate|]. destruct d as [t|]; [|discriminate].
      cbn [sym_of] in E1, E2. injection E1 as <-. injection E2 as E2. constructor; [congruence|]. apply IHL2; auto. unfold classes_only in *. inversion O as [|? ? _ O1]; subst. inversion O1; subst. assumption.
    + destruct cs as [|c cs]; [discriminate|]. cbn [map] in EC. injection EC as E1 _. exfalso. unfold classes_only in O. inversion O as [|? ? [X|X] _]; subst; congruence.
Qed.
Lemma fits_paired cs : fits (CTree KStoredDefinition cs) -> classes_only cs -> paired cs.
Proof.
  intros F O. inversion F as [|? ? _ L _]; subst. match type of L with lang ?r _ => let r' := eval vm_compute in r in change (lang r' (map sym_of cs)) in L end.
  inversion L as [| |? ? u1 u2 U1 U2| | | |]; subst. apply (star_paired (u1 ++ u2)); auto.
  assert (u1 = []) as ->; [|exact U2].
  inversion U1 as [| | |? ? ? W|? ? ? W| |]; subst; inversion W as [| |? ? w1 w2 W1 W2| | | |]; subst; [reflexivity|]. inversion W1; subst. exfalso.
  destruct cs as [|c cs]; [discriminate|]. unfold classes_only in O. inversion O as [|? ? OC _]; subst.
  match goal with H : _ = map sym_of (c :: cs) |- _ => cbn [map app] in H; injection H as H _ end. destruct OC; congruence.
Qed.

(** Semicolons behind elements and classes look the same. *)
Definition akin (x y : spot) : Prop :=
  at_tok y = at_tok x /\ at_pos y = at_pos x /\ at_level y = at_level x /\ (at_rule y = at_rule x \/ tkind_of (at_tok x) = TSemicolon).
Lemma akin_refl x : akin x x.
Proof. repeat split. left. reflexivity. Qed.
Lemma akin_all xs : Forall2 akin xs xs.
Proof. induction xs; constructor; auto using akin_refl. Qed.
Lemma element_spots ds q pos first n : spots q pos first n false false (CTree KElement [CTree KClassDefinition ds]) = spots KStoredDefinition pos first n false false (CTree KClassDefinition ds).
Proof.
  rewrite (spots_tree q). change (wide KElement [CTree KClassDefinition ds] false) with false. cbn [children]. cbv zeta.
  change (turns KElement (last_of []) (CTree KClassDefinition ds) []) with false. cbn [orb]. 
  change (position_of KElement false false (multi_if (CTree KClassDefinition ds)) (is_late (CTree KClassDefinition ds)) (after_first []) (kind_last []) (kind_of (CTree KClassDefinition ds))) with Beside.
  cbv iota. rewrite app_nil_r. change (continues KElement (CTree KClassDefinition ds)) with false. cbv iota. cbn [andb].
  change (bequeathed KElement false [CTree KClassDefinition ds] (CTree KClassDefinition ds)) with false.
  change (deeper KElement false (multi_if (CTree KClassDefinition ds)) (kind_last []) (kind_of (CTree KClassDefinition ds))) with O. cbn [one_if]. rewrite !Nat.add_0_r.
  apply spots_inherit. reflexivity.
Qed.
Lemma element_leak c : leak (element_of c) = leak c.
Proof. destruct c; [reflexivity|]. cbn [element_of]. rewrite leak_tree. cbn [leak_in]. change (keeps_level KElement (CTree k cs)) with false. cbn [one_if]. lia. Qed.
Lemma listed_turns a c v : turns KElementList a c v = false.
Proof. destruct a, v; reflexivity. Qed.
Lemma listed_continues c : continues KElementList c = false.
Proof. destruct c; reflexivity. Qed.
Lemma listed_keeps c : keeps_level KElementList c = false.
Proof. destruct c; reflexivity. Qed.
Lemma listed_bequeathed all c : bequeathed KElementList false all c = false.
Proof. destruct c; reflexivity. Qed.
Definition continued (r : list child) : Prop := forall all pos first u n, kind_last u = Some (Term TSemicolon) ->
  Forall2 akin (map (raise 1) (stored_all (Some (Term TSemicolon)) n r)) (children KElementList false all pos first u (1 + n) false (map element_of r)).
Lemma listed_semicolon t r : tkind_of t = TSemicolon -> continued r -> forall all pos first c u n,
  Forall2 akin (map (raise 1) (stored_all (Some (Rule KClassDefinition)) n (CTok t :: r)))
    (children KElementList false all pos first (CTree KElement [c] :: u) (1 + n) false (CTok t :: map element_of r)).
Proof.
  intros KT C all pos first c u n. cbn [children stored_all]. cbv zeta. rewrite listed_turns, listed_continues, listed_keeps, listed_bequeathed. cbn [orb andb kind_last kind_of]. rewrite KT. cbv iota.
  change (leak (CTok t)) with O. cbn [one_if]. rewrite !Nat.add_0_r. rewrite map_app. apply Forall2_app; [|apply C; cbn [kind_last kind_of]; congruence].
  unfold stored_spots. cbv zeta. cbn [kind_of]. rewrite KT. cbn [spots map]. constructor; [|constructor].
  unfold akin, raise. cbn [at_tok at_pos at_level at_rule]. split; [reflexivity|]. split; [|split; [|right; exact KT]].
  - unfold position_of. cbn [fixed_position trailing value andb orb spread_position]. rewrite !andb_false_r. reflexivity.
  - change (deeper KStoredDefinition false (multi_if (CTok t)) (Some (Rule KClassDefinition)) (Term TSemicolon)) with O.
    change (deeper KElementList false (multi_if (CTok t)) (Some (Rule KElement)) (Term TSemicolon)) with O. lia.
Qed.
Lemma listed cs : paired cs -> continued cs.
Proof.
  induction 1 as [|ds t r KT PR IH]; intros all pos first u n KU; [constructor|]. destruct u as [|a u]; [discriminate|].
  cbn [map]. pose proof (listed_semicolon t r KT IH all pos first (CTree KClassDefinition ds) (a :: u) (n + leak (CTree KClassDefinition ds))) as L.
  change (element_of (CTok t)) with (CTok t). remember (CTok t :: r) as v. remember (CTok t :: map element_of r) as v'.
  cbn [element_of children stored_all]. cbv zeta. rewrite listed_turns, listed_continues, listed_keeps, listed_bequeathed. cbn [orb andb].
  rewrite KU. cbn [kind_of]. cbv iota.
  match goal with |- context [position_of ?a1 ?a2 ?a3 ?a4 ?a5 ?a6 ?a7 ?a8] => change (position_of a1 a2 a3 a4 a5 a6 a7 a8) with (Below Kept) end.
  match goal with |- context [deeper ?a1 ?a2 ?a3 ?a4 ?a5] => change (deeper a1 a2 a3 a4 a5) with O end.
  rewrite element_spots. rewrite map_app. apply Forall2_app.
  - unfold stored_spots. cbv zeta. cbn [kind_of].
    match goal with |- context [position_of ?a1 ?a2 ?a3 ?a4 ?a5 ?a6 ?a7 ?a8] => change (position_of a1 a2 a3 a4 a5 a6 a7 a8) with (Below Kept) end.
    match goal with |- context [deeper ?a1 ?a2 ?a3 ?a4 ?a5] => change (deeper a1 a2 a3 a4 a5) with O end. cbv iota. cbn [one_if].
    rewrite <- spots_raise. rewrite !Nat.add_0_r. apply akin_all.
  - change (CTree KElement [CTree KClassDefinition ds]) with (element_of (CTree KClassDefinition ds)) at 2. rewrite element_leak. cbn [one_if]. rewrite Nat.add_0_r, <- Nat.add_assoc. exact L.
Qed.
Lemma listed_first ds v : fits (CTree KClassDefinition ds) -> paired (CTree KClassDefinition ds :: v) -> forall all, exists r t rest rest',
  stored_all None 0 (CTree KClassDefinition ds :: v) = mkAt r t Beside 0 :: rest /\
  children KElementList false all (Below Always) 1 [] 1 false (map element_of (CTree KClassDefinition ds :: v)) = mkAt r t (Below Always) 1 :: rest' /\
  Forall2 akin (map (raise 1) rest) rest'.
Proof.
  intros F P all. inversion P as [|ds0 t w KT PR]; subst ds0 v. pose proof (listed w PR) as C.
  pose proof (listed_semicolon t w KT C all (Below Always) 1%nat (CTree KClassDefinition ds) [] (leak (CTree KClassDefinition ds))) as L.
  cbn [map]. change (element_of (CTok t)) with (CTok t). remember (CTok t :: w) as v. remember (CTok t :: map element_of w) as v'.
  cbn [element_of children stored_all]. cbv zeta. rewrite listed_turns, listed_continues, listed_keeps, listed_bequeathed. cbn [orb andb].
  match goal with |- context [position_of ?a1 ?a2 ?a3 ?a4 ?a5 ?a6 ?a7 ?a8] => change (position_of a1 a2 a3 a4 a5 a6 a7 a8) with Beside end.
  match goal with |- context [deeper ?a1 ?a2 ?a3 ?a4 ?a5] => change (deeper a1 a2 a3 a4 a5) with O end. cbv iota.
  rewrite element_spots. unfold stored_spots. cbv zeta. cbn [kind_of].
  match goal with |- context [position_of ?a1 ?a2 ?a3 ?a4 ?a5 ?a6 ?a7 ?a8] => change (position_of a1 a2 a3 a4 a5 a6 a7 a8) with Beside end.
  match goal with |- context [deeper ?a1 ?a2 ?a3 ?a4 ?a5] => change (deeper a1 a2 a3 a4 a5) with O end. cbv iota. cbn [one_if].
  destruct (class_head ds F KStoredDefinition 0%nat false false) as (r & t0 & rest & H).
  exists r, t0. do 2 eexists. split; [cbn [Nat.add]; rewrite H; reflexivity|]. split.
  - change (1 + 0 + 0)%nat with (1 + 0)%nat. change (1%nat) with (1 + 0)%nat at 1. rewrite spots_raise, H. cbn [map raise at_rule at_tok at_pos at_level app]. reflexivity.
  - rewrite map_app. apply Forall2_app; [apply akin_all|].
    change (CTree KElement [CTree KClassDefinition ds]) with (element_of (CTree KClassDefinition ds)) at 2. rewrite element_leak, Nat.add_0_r. exact L.
Qed.

(** What is written does not depend on the rule of semicolons. *)
Definition bare (e : entry) : white * token := (e_white e, e_tok e).
Definition kindred (p p' : option (skind * tkind)) : Prop := option_map snd p = option_map snd p'.
Lemma rows_bare r r' t cs : forall b n ln, map bare (rows b n ln cs r t) = map bare (rows b n ln cs r' t).
Proof. induction cs as [|c cs IH]; intros b n ln; [reflexivity|]. cbn [rows map]. rewrite (IH (match b with Always => Kept | _ => b end)). reflexivity. Qed.
Lemma put_bare p p' ln cs x y : kindred p p' -> akin x y -> map bare (put p ln cs x) = map bare (put p' ln cs y).
Proof.
  intros K (T & P & L & R). unfold put. rewrite T, P, L. destruct (at_pos x) as [| | |b]; try reflexivity.
  - unfold bare. cbn [map e_white e_tok]. destruct p as [[q a]|], p' as [[q' a']|]; try discriminate; [|reflexivity]. injection K as <-.
    destruct R as [R|R]; [rewrite R; reflexivity|]. rewrite R. unfold tight. reflexivity.
  - rewrite !map_app. f_equal; [|apply rows_bare]. destruct p, p'; try discriminate; reflexivity.
Qed.
Lemma weave_bare items : forall p p' ln cs xs ys, kindred p p' -> Forall2 akin xs ys -> map bare (weave p ln cs items xs) = map bare (weave p' ln cs items ys).
Proof.
  induction items as [|t items IH]; intros p p' ln cs xs ys K F; [reflexivity|]. cbn [weave]. destruct (is_comment t); [apply IH; auto|].
  inversion F as [|x y xs' ys' A F']; subst; [reflexivity|]. rewrite !map_app. f_equal; [apply put_bare; auto|]. apply IH; auto. reflexivity.
Qed.
Lemma render_bare eol l l' : map bare l = map bare l' -> render eol l = render eol l'.
Proof.
  revert l'. induction l as [|e l IH]; intros [|e' l'] E; try discriminate; [reflexivity|]. cbn [map] in E. injection E as E1 E2 E3. 
  unfold render in *. cbn [flat_map]. rewrite E1, E2, (IH l' E3). reflexivity.
Qed.
Lemma word_position k m l s prev a : fixed_position k prev (Term a) = None -> value k (Term a) = false -> a <> TWithin -> (forall x, prev <> Some (Rule x) \/ x <> KAddOperator) ->
  position_of k false false m l s prev (Term a) = Beside.
Proof.
  intros F V W P. unfold position_of. rewrite F, V. cbn [trailing andb orb]. replace (match a with TWithin => true | _ => false end) with false by (destruct a; auto; contradiction).
  rewrite andb_false_r. destruct prev as [[|x]|]; try reflexivity. destruct (P x) as [N|N]; [contradiction N; reflexivity|]. destruct x; try reflexivity. contradiction N. reflexivity.
Qed.
Lemma body_spots q es pos f inh : spots q pos f 0 false inh (CTree KComposition [CTree KElementList es]) = children KElementList false es (Below Always) 1 [] 1 false es.
Proof.
  rewrite spots_tree. cbn [children]. cbv zeta. rewrite app_nil_r.
  match goal with |- context [position_of ?a1 ?a2 ?a3 ?a4 ?a5 ?a6 ?a7 ?a8] => change (position_of a1 a2 a3 a4 a5 a6 a7 a8) with (Below Always) end.
  match goal with |- context [deeper ?a1 ?a2 ?a3 ?a4 ?a5] => change (deeper a1 a2 a3 a4 a5) with 1%nat end.
  match goal with |- context [turns ?a1 ?a2 ?a3 ?a4] => change (turns a1 a2 a3 a4) with false end. cbv iota. cbn [orb one_if Nat.add andb].
  change (continues KComposition (CTree KElementList es)) with false. cbv iota. rewrite spots_tree. reflexivity.
Qed.
Lemma body_leak es : leak (CTree KComposition [CTree KElementList es]) = leak (CTree KElementList es).
Proof. rewrite leak_tree. cbn [leak_in]. change (keeps_level KComposition (CTree KElementList es)) with false. cbn [one_if]. lia. Qed.
Lemma long_spots q es t2 t3 t4 pos f inh : tkind_of t2 = TIdentifier -> tkind_of t3 = TEnd -> tkind_of t4 = TIdentifier -> exists n4,
  spots q pos f 0 false inh (CTree KLongClassSpecifier [CTok t2; CTree KComposition [CTree KElementList es]; CTok t3; CTok t4]) =
  mkAt KLongClassSpecifier t2 pos f :: children KElementList false es (Below Always) 1 [] 1 false es ++
  [mkAt KLongClassSpecifier t3 (Below Always) (leak (CTree KElementList es)); mkAt KLongClassSpecifier t4 Beside n4].
Proof.
  intros K2 K3 K4. eexists. rewrite spots_tree. set (B := CTree KComposition [CTree KElementList es]). set (all := [CTok t2; B; CTok t3; CTok t4]) at 1 2.
  change (wide KLongClassSpecifier all inh) with false. cbn [children]. cbv zeta.
  repeat match goal with |- context [turns KLongClassSpecifier ?a2 ?a3 ?a4] => replace (turns KLongClassSpecifier a2 a3 a4) with false by (destruct a2, a4; reflexivity) end.
  cbn [orb andb kind_last kind_of].  rewrite K2, K3, K4.
  rewrite (word_position KLongClassSpecifier) by (reflexivity || discriminate || (intro; left; discriminate)). cbv iota.
  change (kind_of B) with (Rule KComposition).
  repeat match goal with |- context [position_of KLongClassSpecifier ?a2 ?a3 ?a4 ?a5 ?a6 ?a7 (Rule KComposition)] => change (position_of KLongClassSpecifier a2 a3 a4 a5 a6 a7 (Rule KComposition)) with Beside end.
  repeat match goal with |- context [position_of KLongClassSpecifier ?a2 ?a3 ?a4 ?a5 ?a6 ?a7 (Term TEnd)] => change (position_of KLongClassSpecifier a2 a3 a4 a5 a6 a7 (Term TEnd)) with (Below Always) end.
  repeat match goal with |- context [deeper ?a1 ?a2 ?a3 ?a4 ?a5] => change (deeper a1 a2 a3 a4 a5) with O end.
  change (leak (CTok t2)) with O. change (keeps_level KLongClassSpecifier (CTok t2)) with false. change (continues KLongClassSpecifier (CTok t2)) with false. change (continues KLongClassSpecifier B) with false.
  change (keeps_level KLongClassSpecifier B) with false. cbn [andb orb one_if Nat.add]. cbv iota. subst B. rewrite body_spots, body_leak, !Nat.add_0_r.
  rewrite (word_position KLongClassSpecifier _ _ _ (Some (Term TEnd)) TIdentifier) by (reflexivity || discriminate || (intro; left; discriminate)). reflexivity.
Qed.
Lemma package_spots t1 t2 t3 t4 t5 es : tkind_of t1 = TPackage -> tkind_of t2 = TIdentifier -> tkind_of t3 = TEnd -> tkind_of t4 = TIdentifier -> tkind_of t5 = TSemicolon ->
  exists n4 n5, spots KStoredDefinition Beside 0 0 false false (package_pruned t1 t2 t3 t4 t5 es) =
    [mkAt KClassPrefixes t1 Beside 0; mkAt KLongClassSpecifier t2 Beside 0] ++ children KElementList false es (Below Always) 1 [] 1 false es ++
    [mkAt KLongClassSpecifier t3 (Below Always) (leak (CTree KElementList es)); mkAt KLongClassSpecifier t4 Beside n4; mkAt KStoredDefinition t5 Beside n5].
Proof.
  intros K1 K2 K3 K4 K5. unfold package_pruned. set (G := CTree KLongClassSpecifier [CTok t2; CTree KComposition [CTree KElementList es]; CTok t3; CTok t4]).
  set (H := CTree KClassSpecifier [G]). set (P := CTree KClassPrefixes [CTok t1]). set (D := CTree KClassDefinition [P; H]).
  assert (forall q inh, spots q Beside 0 0 false inh P = [mkAt KClassPrefixes t1 Beside 0]) as SP.
  { intros q inh. unfold P. rewrite spots_tree. cbn [children]. cbv zeta. cbn [kind_last kind_of]. rewrite K1.
    change (wide KClassPrefixes [CTok t1] inh) with false. replace (turns KClassPrefixes (last_of []) (CTok t1) []) with false by reflexivity.
    rewrite (word_position KClassPrefixes) by (reflexivity || discriminate || (intro; left; discriminate)). reflexivity. }
  assert (forall q inh, exists n4, spots q Beside 0 0 false inh H = mkAt KLongClassSpecifier t2 Beside 0 :: children KElementList false es (Below Always) 1 [] 1 false es ++
    [mkAt KLongClassSpecifier t3 (Below Always) (leak (CTree KElementList es)); mkAt KLongClassSpecifier t4 Beside n4]) as SH.
  { intros q inh. unfold H. rewrite spots_tree. cbn [children]. cbv zeta. rewrite app_nil_r.
    match goal with |- context [position_of ?a1 ?a2 ?a3 ?a4 ?a5 ?a6 ?a7 ?a8] => change (position_of a1 a2 a3 a4 a5 a6 a7 a8) with Beside end.
    match goal with |- context [deeper ?a1 ?a2 ?a3 ?a4 ?a5] => change (deeper a1 a2 a3 a4 a5) with 0%nat end.
    match goal with |- context [turns ?a1 ?a2 ?a3 ?a4] => change (turns a1 a2 a3 a4) with false end. cbv iota. cbn [orb one_if Nat.add andb].
    change (continues KClassSpecifier G) with false. cbv iota. apply long_spots; auto. }
  assert (forall q inh, exists n4, spots q Beside 0 0 false inh D = mkAt KClassPrefixes t1 Beside 0 :: mkAt KLongClassSpecifier t2 Beside 0 :: children KElementList false es (Below Always) 1 [] 1 false es ++
    [mkAt KLongClassSpecifier t3 (Below Always) (leak (CTree KElementList es)); mkAt KLongClassSpecifier t4 Beside n4]) as SD.
  { intros q inh. unfold D. rewrite spots_tree. cbn [children]. cbv zeta. rewrite app_nil_r.
    repeat match goal with |- context [turns ?a1 ?a2 ?a3 ?a4] => change (turns a1 a2 a3 a4) with false end. cbn [orb]. 
    repeat match goal with |- context [position_of ?a1 ?a2 ?a3 ?a4 ?a5 ?a6 ?a7 ?a8] => change (position_of a1 a2 a3 a4 a5 a6 a7 a8) with Beside end.
    repeat match goal with |- context [deeper ?a1 ?a2 ?a3 ?a4 ?a5] => change (deeper a1 a2 a3 a4 a5) with 0%nat end.
    change (continues KClassDefinition P) with false. change (continues KClassDefinition H) with false. change (leak P) with O. change (keeps_level KClassDefinition P) with false. cbv iota. cbn [orb one_if Nat.add andb].
    rewrite SP. cbn [app]. destruct (SH KClassDefinition (bequeathed KClassDefinition (wide KClassDefinition [P; H] inh) [P; H] H)) as (n4 & E). exists n4. rewrite E. reflexivity. }
  rewrite spots_tree. cbn [children]. cbv zeta. 
  repeat match goal with |- context [turns KStoredDefinition ?a2 ?a3 ?a4] => rewrite (stored_turns a2 a3 a4) end. rewrite !stored_continues, stored_keeps. cbn [orb andb].
  change (wide KStoredDefinition [D; CTok t5] false) with false. rewrite !stored_bequeathed. cbn [kind_last kind_of]. rewrite K5.
  rewrite (word_position KStoredDefinition) by (reflexivity || discriminate || (right; discriminate) || (intro x; destruct x; ((left; discriminate) || (right; discriminate)))).
  change (kind_of D) with (Rule KClassDefinition).
  match goal with |- context [position_of ?a1 ?a2 ?a3 ?a4 ?a5 ?a6 ?a7 ?a8] => change (position_of a1 a2 a3 a4 a5 a6 a7 a8) with Beside end.
  repeat match goal with |- context [deeper ?a1 ?a2 ?a3 ?a4 ?a5] => change (deeper a1 a2 a3 a4 a5) with 0%nat end. cbv iota. cbn [one_if Nat.add].
  destruct (SD KStoredDefinition false) as (n4 & E). rewrite E. exists n4. eexists. cbn [app]. rewrite <- app_assoc. cbn [app spots]. reflexivity.
Qed.

(** ** The package is laid out as intended *)
Lemma lift_moved_render eol d n l l' : Forall2 (entry_moved same_text d) l l' -> render eol (map (lift n) l') = render eol (map (lift n) l).
Proof.
  induction 1 as [|e e' l l' (W & _ & T & _) _ IH]; [reflexivity|]. unfold render in *. cbn [map flat_map lift e_white e_tok]. rewrite W, IH, <- T. reflexivity.
Qed.
Lemma deepened_lift l : deepened l = map (lift 1) l.
Proof. unfold deepened. apply map_ext. intros [w r t]. unfold lift. cbn [e_white e_rule e_tok]. destruct w; reflexivity. Qed.
Lemma comment_plain t : plain t = true -> is_comment t = false.
Proof. rewrite plain_comment. destruct (is_comment t); auto. Qed.

Theorem nest_layout eol name a pa ia tb ib iy ta csa : lexeme TIdentifier name ->
  reading a pa ia (CTree KStoredDefinition csa) -> finished a -> ia = tb :: ib -> ia = iy ++ [ta] -> plain tb = true -> plain ta = true ->
  classes_only csa -> leak (CTree KStoredDefinition csa) = 0%nat ->
  exists p, accepted (packaged name a) p /\
    pretty_print eol p = Ok (str "package " ++ name ++ eol ++ eol ++ str "  " ++
      render eol (deepened (reference (CTree KStoredDefinition csa) ia)) ++ eol ++ eol ++ str "end " ++ name ++ str ";").
Proof.
  intros NM RA F EB EY PB PA O LK. set (g := later (head name) 2).
  assert (RA' := RA). destruct RA' as [AA LXA CAA LA PTA PCA BTA TKA FTA].
  assert (csa <> []) as NE.
  { intros ->. cbn [toks flat_map] in TKA. rewrite PTA, EB in TKA. cbn [filter] in TKA. rewrite PB in TKA. discriminate. }
  assert (fits (CTree KStoredDefinition csa)) as FA.
  { destruct FTA as (cs & E & [->|FF]); [|congruence]. injection E as ->. contradiction. }
  pose proof (fits_paired _ FA O) as PD. inversion PD as [|ds t r KT PR E]; subst csa; [contradiction|]. remember (CTok t :: r) as v eqn:Ev.
  destruct (reading_package name a pa ia _ NM RA F NE O) as (p & t1 & t2 & t3 & t4 & t5 & K1 & X1 & K2 & X2 & K3 & X3 & K4 & X4 & K5 & X5 & RD). fold g in RD.
  exists p. split; [apply (rd_accepted _ _ _ _ RD)|].
  pose proof (lo_text _ _ _ _ (proj1 (reading_reference eol _ _ _ _ RD))) as ED. rewrite ED. f_equal. clear ED.
  unfold reference at 1. destruct (package_spots t1 t2 t3 t4 t5 (map element_of (map (tmap g) (CTree KClassDefinition ds :: v))) K1 K2 K3 K4 K5) as (n4 & n5 & ES). rewrite ES.
  assert (fits (CTree KStoredDefinition (map (tmap g) (CTree KClassDefinition ds :: v)))) as FM by (apply (fits_tmap g (fun t => eq_refl)) in FA; exact FA).
  assert (fits (CTree KClassDefinition ds)) as FC by (inversion FA as [|? ? _ _ FF]; subst; inversion FF; assumption).
  assert (fits (CTree KClassDefinition (map (tmap g) ds))) as FC' by (inversion FM as [|? ? _ _ FF]; subst; inversion FF; assumption).
  assert (classes_only (map (tmap g) (CTree KClassDefinition ds :: v))) as OG.
  { unfold classes_only in *. rewrite Forall_forall in *. intros d D. apply in_map_iff in D as (c & <- & I). rewrite (sym_tmap g (fun t => eq_refl)). auto. }
  pose proof (fits_paired _ FM OG) as PM. cbn [map tmap] in PM.
  destruct (listed_first (map (tmap g) ds) (map (tmap g) v) FC' PM (map element_of (map (tmap g) (CTree KClassDefinition ds :: v)))) as (r2 & u2 & rest2 & rest' & E2 & E3 & AK).
  cbn [map tmap] in E3 |- *. rewrite E3.
  assert (forall t, In t ia -> moved same_text (newlines (head name)) t (g t)) as MV.
  { intros x I. apply later_moved. intro K. exfalso.
    assert (In x (toks (CTree KStoredDefinition (CTree KClassDefinition ds :: v)))) as T by (rewrite TKA, PTA; apply filter_In; split; [exact I|unfold plain; rewrite K; reflexivity]).
    cbn [toks] in T. apply in_flat_map in T as (c & D & T). revert K. apply (no_within c); auto.
    - inversion FA as [|? ? _ _ FF]; subst. rewrite Forall_forall in FF. auto.
    - unfold classes_only in O. rewrite Forall_forall in O. destruct (O c D) as [X|X]; rewrite X; discriminate.
    - unfold classes_only in O. rewrite Forall_forall in O. destruct (O c D) as [X|X]; rewrite X; discriminate. }
  assert (tree_moved same_text (newlines (head name)) (CTree KStoredDefinition (CTree KClassDefinition ds :: v)) (tmap g (CTree KStoredDefinition (CTree KClassDefinition ds :: v)))) as TM.
  { apply tmap_moved. intros x I. apply MV. rewrite TKA, PTA in I. apply filter_In in I. apply I. }
  assert (leak (CTree KElementList (map element_of (map (tmap g) (CTree KClassDefinition ds :: v)))) = 0%nat) as LE.
  { rewrite <- (moved_leak _ _ _ _ FA TM) in LK. cbn [tmap] in LK. rewrite stored_leak in LK. rewrite leak_tree. clear - LK. remember (map (tmap g) (CTree KClassDefinition ds :: v)) as cs eqn:E. clear E.
    induction cs as [|c cs IH]; [reflexivity|]. cbn [map leak_in fold_right] in *. rewrite element_leak, listed_keeps. cbn [one_if]. rewrite IH by lia. lia. }
  cbn [map tmap] in LE. rewrite LE. clear LE ES.
  pose proof (moved_spots same_text _ _ _ FA TM KStoredDefinition Beside 0%nat 0%nat false false) as MS.
  cbn [tmap] in MS. rewrite !spots_tree in MS. rewrite !stored_children in MS; try discriminate; try (apply stored_unsigned; assumption).
  change (kind_last (@nil child)) with (@None sym) in MS. cbn [map tmap] in MS.
  destruct (class_second ds v FC) as (r1 & u1 & rest1 & E1 & _). rewrite E1, E2 in MS. cbn [map] in MS.
  assert (r2 = r1) as -> by (unfold strip at 1 3 in MS; cbn [at_rule at_pos at_level] in MS; congruence).
  assert (map strip rest2 = map strip rest1) as MR by (apply (f_equal (@List.tl _)) in MS; exact MS).
  assert (p_tokens pa = tb :: filter plain ib) as PB0 by (rewrite PTA, EB; cbn [filter]; rewrite PB; reflexivity).
  pose proof (stored_toks _ FA) as T1. rewrite E1, TKA, PB0 in T1. cbn [map at_tok] in T1.
  pose proof (stored_toks _ FM) as T2. cbn [map tmap] in T2. rewrite E2 in T2. cbn [map at_tok] in T2.
  assert (toks (CTree KStoredDefinition (CTree KClassDefinition (map (tmap g) ds) :: map (tmap g) v)) = map g (p_tokens pa)) as T3.
  { rewrite <- TKA. rewrite !toks_leaves. change (CTree KStoredDefinition (CTree KClassDefinition (map (tmap g) ds) :: map (tmap g) v)) with (tmap g (CTree KStoredDefinition (CTree KClassDefinition ds :: v))).
    apply leaves_tmap. }
  rewrite T3, PB0 in T2. cbn [map] in T2. injection T1 as -> T1. injection T2 as -> T2.
  rewrite (stored_reference (CTree KClassDefinition ds :: v)) by exact FA. rewrite E1.
  assert (is_comment t1 = false /\ is_comment t2 = false /\ is_comment t3 = false /\ is_comment t4 = false /\ is_comment t5 = false) as (N1 & N2 & N3 & N4 & N5) by (unfold is_comment; rewrite K1, K2, K3, K4, K5; auto).
  cbn [app]. cbn [weave]. rewrite N1, N2. cbn [put at_pos at_rule at_tok app]. rewrite K1, K2. 
  set (w := tight TPackage KLongClassSpecifier TIdentifier). change w with false. clear w. cbv iota.
  destruct (weave_app (map g iy) (g ta) PA (Some (KLongClassSpecifier, TIdentifier)) (line (tend t2)) [] (mkAt r1 (g tb) (Below Always) 1 :: rest')) as (r0 & WA).
  { replace (map g iy ++ [g ta]) with (map g ia) by (rewrite EY, map_app; reflexivity). rewrite (filter_later (head name) 2 plain) by reflexivity. rewrite <- PTA, PB0. fold g.
    assert (map at_tok rest' = map at_tok rest2) as ER.
    { clear - AK. remember (map (raise 1) rest2) as l eqn:E. revert rest2 E. induction AK as [|x y l l' (A & _) _ IH]; intros [|z r] E; try discriminate; [reflexivity|].
      cbn [map] in *. injection E as -> E. rewrite A, (IH r E). reflexivity. }
    cbn [map at_tok]. rewrite ER, T2. reflexivity. }
  replace (map g ia ++ [t3; t4; t5]) with ((map g iy ++ [g ta]) ++ [t3; t4; t5]) by (rewrite EY, map_app; reflexivity).
  match goal with |- context [weave ?p ?l ?c ?i (mkAt r1 (g tb) (Below Always) 1 :: rest' ++ ?z)] => change (weave p l c i (mkAt r1 (g tb) (Below Always) 1 :: rest' ++ z)) with (weave p l c i ((mkAt r1 (g tb) (Below Always) 1 :: rest') ++ z)) end.
  rewrite WA. clear WA. replace (map g iy ++ [g ta]) with (map g (tb :: ib)) by (rewrite <- EB, EY, map_app; reflexivity).
  rewrite EB. cbn [map]. cbn [weave]. change (is_comment (g tb)) with (is_comment tb). rewrite (comment_plain _ PB), N3, N4, N5.
  cbn [put at_pos at_rule at_tok at_level filter behind rows app]. rewrite K3, K4, K5.
  repeat match goal with |- context [tight ?a ?b ?c] => let x := eval vm_compute in (tight a b c) in change (tight a b c) with x end. cbv iota.
  rewrite deepened_lift. cbn [map lift e_white lift_white].
  assert (render eol (weave (Some (r1, tkind_of (g tb))) (line (tend (g tb))) [] (map g ib) rest') = render eol (map (lift 1) (weave (Some (r1, tkind_of tb)) (line (tend tb)) [] ib rest1))) as EW.
  { rewrite <- (render_bare eol _ _ (weave_bare (map g ib) (Some (r1, tkind_of (g tb))) (Some (r1, tkind_of (g tb))) _ _ _ _ eq_refl AK)).
    rewrite weave_raise. apply (lift_moved_render eol (newlines (head name))). change (tkind_of (g tb)) with (tkind_of tb).
    replace (line (tend (g tb))) with (line (tend tb) + newlines (head name)) by (cbn; lia).
    assert (forall l, (forall x, In x l -> In x ia) -> Forall2 (moved same_text (newlines (head name))) l (map g l)) as MG.
    { intro l. induction l as [|x l IH]; intro I; [constructor|]. cbn [map]. constructor; [apply MV, I; left; reflexivity|]. apply IH. intros y J. apply I. right. exact J. }
    apply weave_moved; auto.
    - apply MG. intros x I. rewrite EB. right. exact I.
    - rewrite T1, T2. apply MG. intros x I. apply filter_In in I. rewrite EB. right. apply I. }
  unfold render in *. cbn [flat_map e_white e_tok white_text app]. rewrite flat_map_app, EW. cbn [flat_map e_white e_tok white_text app times].
  rewrite X1, X2, X3, X4, X5. change (ttext (g tb)) with (ttext tb). rewrite ?app_nil_r, <- ?app_assoc. cbn [app]. rewrite <- ?app_assoc.
  reflexivity.
Qed.

(** ** Indented texts *)
Lemma indent_plain u v : ~ In 10 u -> indent (u ++ v) = u ++ indent v.
Proof.
  induction u as [|c u IH]; intro N; [reflexivity|]. cbn [app indent]. destruct (N.eqb_spec c 10) as [->|_]; [contradiction N; left; reflexivity|].
  rewrite IH by (intro I; apply N; right; exact I). reflexivity.
Qed.
Lemma indent_break eol u : eol = [10] \/ eol = [13; 10] -> indent (eol ++ u) = eol ++ match u with [] => [] | x :: _ => if (x =? 10) || (x =? 13) then [] else str "  " end ++ indent u.
Proof. intros [->| ->]; reflexivity. Qed.
Lemma indent_render eol l : eol = [10] \/ eol = [13; 10] -> Forall (fun e => ~ In 10 (ttext (e_tok e)) /\ exists c b, ttext (e_tok e) = c :: b /\ ~ space c) l ->
  render eol (deepened l) = indent (render eol l).
Proof.
  intro E. unfold render, deepened. induction 1 as [|e l [N (c & b & T & S)] _ IH]; [reflexivity|]. cbn [map flat_map e_white e_tok].
  assert (forall n, ~ In 10 (times n (str "  "))) as NS by (induction n as [|n IHn]; [intros []|]; intros [X|[X|X]]; [discriminate|discriminate|exact (IHn X)]).
  rewrite IH, <- !app_assoc. destruct (e_white e) as [| |x n].
  - cbn [white_text app]. rewrite indent_plain by exact N. reflexivity.
  - cbn [white_text]. rewrite (indent_plain (str " ")) by (intros [X|[]]; discriminate). rewrite indent_plain by exact N. reflexivity.
  - cbn [white_text]. rewrite <- !app_assoc.
    assert (indent (eol ++ times n (str "  ") ++ ttext (e_tok e) ++ flat_map (fun e => white_text eol (e_white e) ++ ttext (e_tok e)) l) =
      eol ++ times (Datatypes.S n) (str "  ") ++ ttext (e_tok e) ++ indent (flat_map (fun e => white_text eol (e_white e) ++ ttext (e_tok e)) l)) as K.
    { rewrite indent_break by exact E. rewrite indent_plain by apply NS. rewrite indent_plain by exact N. f_equal. cbn [times]. rewrite <- app_assoc. f_equal.
      destruct n as [|n]; [|reflexivity]. cbn [times app]. rewrite T. cbn [app].
      destruct (N.eqb_spec c 10) as [->|_]; [exfalso; apply N; rewrite T; left; reflexivity|]. destruct (N.eqb_spec c 13) as [->|_]; [|reflexivity].
      exfalso. apply S. vm_compute. auto 10. }
    destruct x; [|cbn [app]; symmetry; exact K]. rewrite indent_break by exact E. rewrite K. f_equal.
    destruct E as [->| ->]; reflexivity.
Qed.
