(** The layout of a formatted file: what the formatter theorems are about, and the checks on
    all pairs of adjacent tokens. *)
From Coq Require Import Sorted.
From Verif Require Import ProofBase Tokens Syntax Lexer SpecLex LexInv LexMain LexFacts ParserCore Grammar
  Tree Printer Formatter Lib ParserSem SpecGrammar ParserGrammar ParserTree ParserFacts Recognise PropsParser
  FmtAbs FmtPlan FmtShape FmtTables FmtSound SpecLayout FmtExec FmtTop FmtFacts FmtRelex.

(** ** What the theorems are about *)

(** A source accepted without error. *)
Definition accepted (s : text) (p : parsed) : Prop :=
  parse s KStoredDefinition = Ok p /\ p_errors p = [].

(** The leaves of a syntax tree, each with the rule of the node it is a child of. *)
Fixpoint owners (r : skind) (c : child) : list (skind * token) :=
  match c with
  | CTok t => [(r, t)]
  | CTree k cs => flat_map (owners k) cs
  end.

(** [l] lays out the formatted text of [s]: the formatted text is the rendering of [l]; the
    code tokens in [l] are those of the syntax tree, with their rules; all printed items
    are those of the source, in order, except for some comments. *)
Record layout_of (eol s : text) (p : parsed) (l : layout) : Prop := mk_layout_of {
  lo_text : pretty_print eol p = Ok (render eol l);
  lo_tree : exists tree, build_tree (p_tokens p) (p_events p) = Ok tree /\ codes l = owners KStoredDefinition tree;
  lo_items : exists items, laid space s items /\
    p_tokens p = filter plain items /\ p_comments p = filter commentary items /\
    drops comment items (map e_tok l);
  lo_rules : Forall (fun e => e_rule e = None <-> comment (e_tok e)) l
}.

Lemma comment_of t : comment t <-> commentary t = true.
Proof.
  split; [|apply is_comment_of].
  unfold comment, commentary, is_comment_kind. intros [->| ->]; reflexivity.
Qed.

Lemma accepted_plan eol s p : accepted s p ->
  exists tree items l,
    layout_of eol s p l /\
    lexes s (map item_of items) /\ comments_ascii (map item_of items) /\ laid space s items /\
    p_tokens p = filter plain items /\ p_comments p = filter commentary items /\
    arranged adjacent None 1 items (codes l) l /\
    build_tree (p_tokens p) (p_events p) = Ok tree /\ planned tree items l /\
    (exists cs, tree = CTree KStoredDefinition cs).
Proof.
  intros [H Z]. destruct (format_layout eol s p H Z) as (t & items & l & T & L & CA & LA & PT & PC & PP & AR & PL).
  exists (prune t), items, l.
  assert (codes l = dleaves KStoredDefinition (prune t)) as EC by (eapply arranged_codes; eauto).
  destruct T as (cs & ET & CF & LV & EV & BT).
  split; [constructor; auto|].
  - exists (prune t). split; auto.
  - exists items. split; auto. split; auto. split; auto. eapply arranged_drops; eauto.
  - eapply Forall_impl; [|eapply arranged_ruled; eauto]. intros e E. cbv beta in E. rewrite comment_of.
    destruct (e_rule e); split; congruence.
  - rewrite EC. repeat (split; auto). subst t. eexists. reflexivity.
Qed.
Lemma accepted_layout eol s p : accepted s p ->
  exists items l,
    layout_of eol s p l /\
    lexes s (map item_of items) /\ comments_ascii (map item_of items) /\ laid space s items /\
    p_tokens p = filter plain items /\ p_comments p = filter commentary items /\
    arranged adjacent None 1 items (codes l) l.
Proof.
  intro H. destruct (accepted_plan eol s p H) as (t & items & l & H1 & H2 & H3 & H4 & H5 & H6 & H7 & _).
  exists items, l. repeat (split; auto).
Qed.

(** The sample file of the examples. *)
Definition sample : text :=
  str "model  M Real x ( start= 1 ) ""d""; // inline" ++ [10] ++ [10] ++
  str "  Real y;" ++ [10] ++ str "/* above */ Real z = f ( x ,2* y );" ++ [10] ++
  str "equation der(x)=- x; if y>1 then" ++ [10] ++ str "z=1; end if ; end M ; // lost".
Definition sample_out : text :=
  str "model M" ++ [10; 10] ++
  str "  Real x(start = 1)" ++ [10] ++
  str "    ""d""; // inline" ++ [10; 10] ++
  str "  Real y;" ++ [10] ++
  str "  /* above */" ++ [10] ++
  str "  Real z = f(x, 2 * y);" ++ [10; 10] ++
  str "equation" ++ [10; 10] ++
  str "  der(x) = -x;" ++ [10] ++
  str "  if y > 1 then" ++ [10] ++
  str "    z = 1;" ++ [10] ++
  str "  end if;" ++ [10; 10] ++
  str "end M;".
Example sample_accepted : exists p, accepted sample p /\ pretty_print lf p = Ok sample_out.
Proof. eexists. split; [split|]; vm_compute; reflexivity. Qed.

(** For the examples: lines of text, and the formatted text of an accepted source. *)
Fixpoint lines (ls : list String.string) : text :=
  match ls with [] => [] | [l] => str l | l :: ls' => str l ++ [10] ++ lines ls' end.
Definition formats (s out : text) : Prop := exists p, accepted s p /\ pretty_print lf p = Ok out.
Ltac formatted := eexists; split; [split|]; vm_compute; reflexivity.

(** ** Checks on all pairs of adjacent tokens *)
Definition kd (e : entry) : tkind := tkind_of (e_tok e).
Definition last_kind (p : option dk) : tkind := match p with Some k => snd k | None => TEOF end.
Definition is_kind (k k' : tkind) : bool := tkind_eqb k k'.
Definition imp (a b : bool) : bool := negb a || b.
Definition no_gap (G : gap) : bool := match G with [] => true | _ => false end.
Definition a_space (G : gap) : bool := match G with [GS] => true | _ => false end.
Definition a_break (G : gap) : bool := match G with [GB _] => true | _ => false end.
Definition a_required (G : gap) : bool := match G with [GB Required] => true | _ => false end.
Definition a_legal (G : gap) : bool := match G with [GB Legal] => true | _ => false end.

(** Operators between two operands, [=] and [:=]. *)
Definition infix (r : skind) (k : tkind) : bool :=
  memk k [TEqual; TAssign; TEq; TNeq; TLes; TLeq; TGre; TGeq; TStar; TSlash; TDotSlash; TFlex; TDotFlex; TAnd; TOr] ||
  (tkind_eqb k TDotStar && skind_eqb r KMulOperator) ||
  (tkind_eqb k TColon && skind_eqb r KSimpleExpression) ||
  (tkind_eqb k TPlus && skind_eqb r KDescriptionString).

(** Words that start a section or end a class; the word after [initial] does not count. *)
Definition section_word (r : skind) (k : tkind) : bool :=
  match r with
  | KComposition => memk k [TPublic; TProtected; TExternal]
  | KEquationSection => memk k [TInitial; TEquation]
  | KAlgorithmSection => memk k [TInitial; TAlgorithm]
  | KLongClassSpecifier => memk k [TEnd]
  | _ => false
  end.

(** The end of an element, equation or statement. *)
Definition ends_item (r : skind) (k : tkind) : bool := tkind_eqb k TSemicolon && negb (skind_eqb r KPrimary).

(** Rules of control structures, and their words that are followed by a block. *)
Definition control (r : skind) : bool :=
  match r with
  | KIfEquation | KIfStatement | KForEquation | KForStatement | KWhenEquation | KWhenStatement | KWhileStatement => true
  | _ => false
  end.
Definition opens_block (r : skind) (k : tkind) : bool := control r && memk k [TThen; TElse; TLoop].
Definition closes_block (r : skind) (k : tkind) : bool := control r && memk k [TElse; TElseIf; TElseWhen; TEnd].

(** Words printed at the beginning of a line: descriptions, annotations, constraints. *)
Definition own_row (r : skind) (k : tkind) : bool :=
  match r with
  | KDescriptionString => tkind_eqb k TString
  | KAnnotationClause => tkind_eqb k TAnnotation
  | KConstrainingClause => tkind_eqb k TConstrainedby
  | _ => false
  end.

Definition neat (p : option dk) (G : gap) (k : dk) : bool :=
  let pk := last_kind p in
  let ck := snd k in
  let pr := match p with Some q => fst q | None => KError end in
  imp (no_gap G) (match p with None => true | Some _ => glue_ok pk ck end) &&
  imp (is_kind ck TSemicolon) (no_gap G || is_kind pk TWithin) &&
  imp (is_kind ck TSemicolon) (negb (a_break G)) &&
  imp (is_kind ck TComma) (no_gap G || memk pk [TLParen; TComma]) &&
  imp (is_kind ck TComma) (negb (a_break G)) &&
  imp (memk pk [TComma; TSemicolon]) (negb (no_gap G)) &&
  imp (infix (fst k) ck) (negb (no_gap G)) &&
  imp (infix pr pk) (negb (no_gap G)) &&
  imp (section_word (fst k) ck && negb (is_kind pk TInitial)) (a_required G && match p with None => false | _ => true end) &&
  imp (ends_item pr pk) (a_legal G || (a_required G && (section_word (fst k) ck || is_kind ck TAnnotation))) &&
  imp (opens_block pr pk) (a_legal G) &&
  imp (closes_block (fst k) ck) (a_legal G) &&
  imp (own_row (fst k) ck && negb (is_kind pk TPlus)) (a_break G) &&
  imp (memk ck [TRParen; TRBracket; TRCurly]) (no_gap G || (a_space G && is_kind pk TComma)) &&
  imp (memk pk [TLParen; TLBracket; TLCurly]) (no_gap G || a_break G || is_kind ck TComma) &&
  imp (is_kind pk TDot) (no_gap G) &&
  imp (is_kind ck TDot && skind_eqb (fst k) KName) (no_gap G) &&
  imp (is_kind ck TLParen && negb (memk pk [TAnnotation])) (no_gap G || skind_eqb (fst k) KPrimary || skind_eqb (fst k) KStatement).
Lemma neat_checked : all_adjacent neat = true.
Proof. vm_compute. reflexivity. Qed.

Lemma imp_true a b : imp a b = true -> a = true -> b = true.
Proof. intros H ->. exact H. Qed.
Lemma is_kind_refl k : is_kind k k = true.
Proof. apply tkind_eqb_eq. reflexivity. Qed.
Lemma is_kind_eq k k' : is_kind k k' = true <-> k = k'.
Proof. apply tkind_eqb_eq. Qed.
Lemma memk_in k ks : memk k ks = true <-> In k ks.
Proof.
  unfold memk. rewrite existsb_exists. split.
  - intros (x & I & E). apply tkind_eqb_eq in E. subst. exact I.
  - intro I. exists k. split; auto. apply tkind_eqb_eq. reflexivity.
Qed.

Section Pairs.
Variables (p0 : option dk) (ln : N) (items : list token) (ds : list (skind * token)) (l : layout).
Hypothesis AR : arranged adjacent p0 ln items ds l.

Lemma pair_neat a e q r : consecutive l a e -> e_rule a = Some q -> e_rule e = Some r ->
  exists G, neat (Some (q, kd a)) G (r, kd e) = true /\ in_gap G (line (tend (e_tok a))) e.
Proof.
  intros C Q R.
  assert (linked adjacent a e) as L.
  { eapply (arranged_linked adjacent _ _ _ _ _ AR (mkE WNone None (e_tok a))).
    - discriminate.
    - apply consecutive_cons. right. exact C. }
  destruct (L q r Q R) as (G & A & I). exists G. split; auto.
  apply (all_adjacent_sound _ neat_checked) in A. exact A.
Qed.

Lemma after_comment a e r : consecutive l a e -> e_rule a = None -> e_rule e = Some r ->
  is_break (e_white e) = true /\ exists q b, neat q [GB b] (r, kd e) = true.
Proof.
  intros C Q R. destruct (arranged_after_comment _ _ _ _ _ _ AR _ _ C Q) as [B|(_ & N & _)]; [|congruence].
  split; auto. pose proof (consecutive_in _ _ _ C) as [_ I].
  destruct (arranged_breaks _ _ _ _ _ _ AR e r I R B) as (q' & b & A). exists q', b.
  apply (all_adjacent_sound _ neat_checked) in A. exact A.
Qed.

Lemma comment_white a e : consecutive l a e -> e_rule e = None -> e_white e <> WNone.
Proof. eapply arranged_comment_white. exact AR. Qed.

Lemma code_kind e : In e l -> forall k, kd e = k -> k <> TLineComment -> k <> TBlockComment -> exists r, e_rule e = Some r.
Proof.
  intros I k K N1 N2. pose proof (arranged_ruled _ _ _ _ _ _ AR) as RU. rewrite Forall_forall in RU.
  specialize (RU e I). cbv beta in RU. destruct (e_rule e) as [r|]; eauto. exfalso.
  apply comment_of in RU. unfold comment in RU. fold (kd e) in RU. rewrite K in RU. destruct RU; contradiction.
Qed.
End Pairs.

Ltac neat_facts H :=
  unfold neat in H; cbn [last_kind fst snd] in H; rewrite !andb_true_iff in H;
  decompose [and] H; clear H.

Lemma gap_none G ln e : in_gap G ln e -> no_gap G = true -> e_white e = WNone.
Proof. intros [[-> W]|[[-> _]|(b & n & -> & _)]]; auto; discriminate. Qed.
Lemma gap_some G ln e : in_gap G ln e -> negb (no_gap G) = true -> e_white e <> WNone.
Proof. intros [[-> W]|[[-> W]|(b & n & -> & W)]] H; rewrite W; discriminate. Qed.
Lemma break_some w : is_break w = true -> w <> WNone.
Proof. intros H ->. discriminate. Qed.
