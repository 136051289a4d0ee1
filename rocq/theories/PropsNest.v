(** Property C87: classes inside a package are formatted as they are alone, one level further to the right. *)
From Verif Require Import ProofBase Tokens Syntax Lexer SpecLex LexInv LexMain LexFacts ParserCore Grammar
  Tree Printer Formatter Lib ParserSem ParserFuel SpecGrammar Regex ParserGrammar ParserTree ParserFacts Recognise PropsParser
  SpecLanguage ParserComplete PropsLanguage
  FmtAbs FmtPlan FmtShape FmtTables FmtSound SpecLayout FmtExec FmtTop FmtFacts FmtRelex FmtNeat SpecNodes FmtTree FmtLists FmtOps
  FmtWrap SpecGaps SpecReference FmtNode FmtReference FmtSame PropsFormat PropsReference FmtBreaks FmtAgree FmtPrinted FmtStable FmtMoved
  FmtConcat SpecLevels FmtLevels PropsTree PropsLevels SpecLocal FmtLocal SpecNest FmtNest.

(** ** C87

    If a file of classes starts and ends with a token, a package with the same text is accepted. In the result the
    layout of the file stands between empty lines, each of its lines indented by one more level. There must not be
    [within] or [final] in front of a class. The condition on [leak] says that no left-hand side is wrapped (C28):
    otherwise the end of the package would be indented. *)
Lemma nest_reading a pa cs tb ub ta ua : accepted a pa ->
  p_tokens pa = tb :: ub -> tidx tb = 0 -> p_tokens pa = ua ++ [ta] -> Forall (fun c => tidx c < tidx ta) (p_comments pa) ->
  build_tree (p_tokens pa) (p_events pa) = Ok (CTree KStoredDefinition cs) ->
  exists ia ib iy, reading a pa ia (CTree KStoredDefinition cs) /\ ia = tb :: ib /\ ia = iy ++ [ta] /\ plain tb = true /\ plain ta = true.
Proof.
  intros AA PB IB PA CA TA. destruct (reading_of a pa AA) as (ia & tree & RA).
  assert (tree = CTree KStoredDefinition cs) as -> by (pose proof (rd_tree _ _ _ _ RA); congruence).
  pose proof (laid_index _ _ (rd_laid _ _ _ _ RA)) as IX. pose proof (rd_tokens _ _ _ _ RA) as TT.
  assert (In ta (filter plain ia)) as I by (rewrite <- TT, PA; apply in_or_app; right; left; reflexivity). apply filter_In in I as [I PTA].
  assert (In tb (filter plain ia)) as J by (rewrite <- TT, PB; left; reflexivity). apply filter_In in J as [J PTB].
  destruct (@exists_last _ ia) as (iy & z & E); [intros ->; destruct I|].
  apply in_split in J as (y1 & y2 & EB). assert (y1 = []) as -> by (rewrite (IX y1 tb y2 EB) in IB; destruct y1; [reflexivity|cbn [length] in IB; lia]).
  exists ia, y2, iy. split; [exact RA|]. split; [exact EB|]. split; [|auto]. rewrite E. f_equal. f_equal. destruct (plain z) eqn:PZ.
  - rewrite E, filter_app in TT. cbn [filter] in TT. rewrite PZ, PA in TT. apply app_inj_tail in TT as [_ TT]. congruence.
  - exfalso. rewrite Forall_forall in CA. assert (tidx z < tidx ta) as LT.
    { apply CA. rewrite (rd_comments _ _ _ _ RA). apply filter_In. split; [rewrite E; apply in_or_app; right; left; reflexivity|]. unfold plain, commentary in *. destruct (is_comment_kind (tkind_of z)); auto; discriminate. }
    apply in_split in I as (x1 & x2 & EY). rewrite (IX x1 ta x2 EY), (IX iy z [] E) in LT.
    assert (length (iy ++ [z]) = length (x1 ++ ta :: x2)) as LL by congruence. rewrite !app_length in LL. cbn [length] in LL. lia.
Qed.

Theorem C87_nested : forall name a pa cs tb ub ta ua, lexeme TIdentifier name ->
  accepted a pa -> (exists u, a = u ++ [10]) ->
  p_tokens pa = tb :: ub -> tidx tb = 0 -> p_tokens pa = ua ++ [ta] -> Forall (fun c => tidx c < tidx ta) (p_comments pa) ->
  build_tree (p_tokens pa) (p_events pa) = Ok (CTree KStoredDefinition cs) ->
  Forall (fun c => kind_of c = Rule KClassDefinition \/ kind_of c = Term TSemicolon) cs -> leak (CTree KStoredDefinition cs) = 0%nat ->
  exists p, accepted (packaged name a) p /\ forall eol, exists l, layout_of eol a pa l /\
    pretty_print eol p = Ok (str "package " ++ name ++ eol ++ eol ++
      str "  " ++ render eol (deepened l) ++ eol ++ eol ++ str "end " ++ name ++ str ";").
Proof.
  intros name a pa cs tb ub ta ua NM AA FN PB IB PA CA TA O LK. destruct (nest_reading a pa cs tb ub ta ua AA PB IB PA CA TA) as (ia & ib & iy & RA & EB & EY & P1 & P2).
  assert (classes_only cs) as OC by (unfold classes_only; rewrite Forall_forall in *; intros c I; rewrite <- kind_is; auto).
  destruct (nest_layout [10] name a pa ia tb ib iy ta cs NM RA (or_intror FN) EB EY P1 P2 OC LK) as (p & AP & _). exists p. split; [exact AP|]. intro eol.
  destruct (nest_layout eol name a pa ia tb ib iy ta cs NM RA (or_intror FN) EB EY P1 P2 OC LK) as (p' & AP' & H).
  assert (p' = p) as -> by (destruct AP as [X _], AP' as [Y _]; congruence).
  exists (reference (CTree KStoredDefinition cs) ia). split; [apply (reading_reference eol _ _ _ _ RA)|exact H].
Qed.
Print Assumptions C87_nested.

(** If nothing in the file spans lines, it is its output that is indented. *)
Theorem C87_indented : forall eol name a pa cs tb ub ta ua out, eol = [10] \/ eol = [13; 10] -> lexeme TIdentifier name ->
  accepted a pa -> (exists u, a = u ++ [10]) ->
  p_tokens pa = tb :: ub -> tidx tb = 0 -> p_tokens pa = ua ++ [ta] -> Forall (fun c => tidx c < tidx ta) (p_comments pa) ->
  build_tree (p_tokens pa) (p_events pa) = Ok (CTree KStoredDefinition cs) ->
  Forall (fun c => kind_of c = Rule KClassDefinition \/ kind_of c = Term TSemicolon) cs -> leak (CTree KStoredDefinition cs) = 0%nat ->
  Forall (fun t => ~ In 10 (ttext t)) (p_tokens pa ++ p_comments pa) ->
  pretty_print eol pa = Ok out ->
  exists p, accepted (packaged name a) p /\
    pretty_print eol p = Ok (str "package " ++ name ++ eol ++ eol ++
      str "  " ++ indent out ++ eol ++ eol ++ str "end " ++ name ++ str ";").
Proof.
  intros eol name a pa cs tb ub ta ua out E NM AA FN PB IB PA CA TA O LK NL OUT.
  destruct (nest_reading a pa cs tb ub ta ua AA PB IB PA CA TA) as (ia & ib & iy & RA & EB & EY & P1 & P2).
  assert (classes_only cs) as OC by (unfold classes_only; rewrite Forall_forall in *; intros c I; rewrite <- kind_is; auto).
  destruct (nest_layout eol name a pa ia tb ib iy ta cs NM RA (or_intror FN) EB EY P1 P2 OC LK) as (p & AP & H). exists p. split; [exact AP|]. rewrite H.
  destruct (reading_reference eol _ _ _ _ RA) as [LO _]. pose proof (lo_text _ _ _ _ LO) as LT.
  assert (out = render eol (reference (CTree KStoredDefinition cs) ia)) as -> by congruence. rewrite indent_render; auto.
  rewrite Forall_forall in *. intros e I.
  assert (In (e_tok e) ia) as J.
  { unfold reference in I. apply weave_in in I; [exact I|]. apply (reading_spots _ _ _ _ RA). }
  split.
  - apply NL. apply in_or_app. rewrite (rd_tokens _ _ _ _ RA), (rd_comments _ _ _ _ RA), !filter_In. unfold plain, commentary. destruct (is_comment_kind (tkind_of (e_tok e))); auto.
  - pose proof (items_lexemes _ _ (rd_lexes _ _ _ _ RA)) as LX. rewrite Forall_forall in LX. destruct (LX _ J) as (k & X). apply (lexeme_starts k _ X).
Qed.
Print Assumptions C87_indented.

Definition loose : text := lines
  ["model A Real x; // c"; "  // d"; "equation"; "  x = 1 +"; "    2;"; ""; ""; "end A;"; ""; "partial function f"; "  input Real x;"; "end f; type T = Real;"; ""]%string.
Example C87_applies :
  formats loose (lines
    ["model A"; ""; "  Real x; // c"; ""; "// d"; "equation"; ""; "  x = 1"; "    + 2;"; ""; "end A;"; ""; "partial function f"; ""; "  input Real x;"; ""; "end f;";
     "type T = Real;"]%string) /\
  packaged (str "P") loose = lines
    ["package P"; "model A Real x; // c"; "  // d"; "equation"; "  x = 1 +"; "    2;"; ""; ""; "end A;"; ""; "partial function f"; "  input Real x;"; "end f; type T = Real;";
     "end P;"]%string /\
  formats (packaged (str "P") loose) (lines
    ["package P"; ""; "  model A"; ""; "    Real x; // c"; ""; "  // d"; "  equation"; ""; "    x = 1"; "      + 2;"; ""; "  end A;"; ""; "  partial function f"; "";
     "    input Real x;"; ""; "  end f;"; "  type T = Real;"; ""; "end P;"]%string).
Proof. split; [|split]; [formatted|vm_compute; reflexivity|formatted]. Qed.
Definition loose_parsed : parsed := Eval vm_compute in match parse loose KStoredDefinition with Ok p => p | _ => mkParsed [] [] [] [] end.
Example C87_meets : exists cs tb ub ta ua, lexeme TIdentifier (str "P") /\ accepted loose loose_parsed /\ (exists u, loose = u ++ [10]) /\
  p_tokens loose_parsed = tb :: ub /\ tidx tb = 0 /\ p_tokens loose_parsed = ua ++ [ta] /\ Forall (fun c => tidx c < tidx ta) (p_comments loose_parsed) /\
  build_tree (p_tokens loose_parsed) (p_events loose_parsed) = Ok (CTree KStoredDefinition cs) /\
  Forall (fun c => kind_of c = Rule KClassDefinition \/ kind_of c = Term TSemicolon) cs /\ leak (CTree KStoredDefinition cs) = 0%nat /\
  Forall (fun t => ~ In 10 (ttext t)) (p_tokens loose_parsed ++ p_comments loose_parsed).
Proof.
  set (tr := match build_tree (p_tokens loose_parsed) (p_events loose_parsed) with Ok (CTree _ cs) => cs | _ => [] end).
  set (ts := p_tokens loose_parsed). set (d := hd (mkTok 0 [] TSemicolon (mkPos 0 0 0) (mkPos 0 0 0)) ts).
  exists tr, d, (List.tl ts), (last ts d), (removelast ts).
  split; [|split; [|split; [|split; [|split; [|split; [|split; [|split; [|split; [|split]]]]]]]]].
  - apply (lx_ident 80 []); [left; unfold letter; lia|constructor|].
    intros k (w & I & E). assert (forallb (fun p => negb (text_eqb (str "P") (str (fst p)))) reserved = true) as R by (vm_compute; reflexivity).
    rewrite forallb_forall in R. specialize (R _ I). cbn [fst] in R. change (80 :: []) with (str "P") in E. rewrite <- E in R. vm_compute in R. discriminate.
  - split; vm_compute; reflexivity.
  - exists (removelast loose). vm_compute. reflexivity.
  - vm_compute. reflexivity.
  - vm_compute. reflexivity.
  - vm_compute. reflexivity.
  - vm_compute. repeat constructor.
  - vm_compute. reflexivity.
  - vm_compute. repeat (constructor; [auto|]). constructor.
  - vm_compute. reflexivity.
  - assert (forallb (fun t => negb (existsb (N.eqb 10) (ttext t))) (p_tokens loose_parsed ++ p_comments loose_parsed) = true) as K by (vm_compute; reflexivity).
    apply Forall_forall. intros t I J. rewrite forallb_forall in K. specialize (K t I). apply negb_true_iff in K.
    assert (existsb (N.eqb 10) (ttext t) = true) by (apply existsb_exists; exists 10; auto). congruence.
Qed.
