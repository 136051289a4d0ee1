(** Properties C69 to C73: levels of indentation. *)
From Verif Require Import ProofBase Tokens Syntax Lexer SpecLex LexInv LexMain LexFacts ParserCore Grammar
  Tree Printer Formatter Lib ParserSem ParserFuel SpecGrammar Regex ParserGrammar ParserTree ParserFacts Recognise PropsParser
  FmtAbs FmtPlan FmtShape FmtTables FmtSound SpecLayout FmtExec FmtTop FmtFacts FmtRelex FmtNeat SpecNodes FmtTree FmtLists FmtOps
  FmtWrap SpecGaps SpecReference FmtNode FmtReference PropsFormat PropsReference PropsTree FmtAgree FmtPrinted FmtStable
  SpecLevels FmtLevels.

(** What the lemmas about levels need. *)
Record levels (tree : child) (items : list token) : Prop := {
  lv_items : filter plain items = map at_tok (spots_at root_args tree);
  lv_nodup : NoDup (map e_tok (reference tree items));
  lv_fits : fits tree;
  lv_root : exists cs, tree = CTree KStoredDefinition cs;
  lv_sound : sound_tokens (toks tree)
}.
Lemma accepted_levels eol s p : accepted s p ->
  exists tree items, laid_tree eol s p tree (reference tree items) /\ (tree = CTree KStoredDefinition [] \/ levels tree items).
Proof.
  intro ACC. destruct (reading_of s p ACC) as (items & tree & R). exists tree, items.
  destruct (reading_reference eol s p items tree R) as [LO _]. split; [split; [apply R|exact LO]|].
  destruct (rd_fits _ _ _ _ R) as (cs & E & [->|F]); [left; exact E|right]. split; auto.
  - apply (reading_spots _ _ _ _ R).
  - eapply layout_nodup; eauto.
  - eauto.
  - eapply tree_sound; [exact ACC|apply R].
Qed.
Lemma inside_empty k k' cs : inside (CTree k cs) (CTree k' []) -> cs = [] /\ k = k'.
Proof. intro I. inversion I as [|? ? ? d ID IN]; subst; [auto|destruct ID]. Qed.

(** A node that begins a line: its place. *)
Lemma solid_place tree items m i : levels tree items -> inside m tree -> solid m = true -> leads (reference tree items) m i ->
  exists a, seat tree root_args m a /\ (forall k cs, m = CTree k cs -> base a = i /\ a_on a = false).
Proof.
  intros [V1 V2 V3 V4 V5] I SO LD. destruct (inside_seat tree root_args _ I) as (a & S). exists a. split; [exact S|]. intros k cs ->.
  assert (is_opener (CTree k cs) = false) as NO by (destruct k; try discriminate; reflexivity).
  destruct (leads_seat _ _ V1 V2 V3 _ _ _ S NO LD) as (E & b & P). split.
  - rewrite <- E. symmetry. eapply base_first; eauto. intros ->. discriminate SO.
  - eapply below_off; eauto.
Qed.

(** ** C69: in if-, for-, when- and while-equations and -statements, the statements are indented by one
    level more than the words around them. *)
Theorem C69_blocks : forall eol s p, accepted s p ->
  exists tree l, laid_tree eol s p tree l /\
    forall k cs, inside (CTree k cs) tree -> block k = true -> leak (CTree k cs) = O ->
    exists n, leads l (CTree k cs) n /\
      forall d, In d cs -> (block_word (kind_of d) = true -> leads l d n) /\ (statement (kind_of d) = true -> leads l d (S n)).
Proof.
  intros eol s p ACC. destruct (accepted_levels eol s p ACC) as (tree & items & LT & V).
  exists tree, (reference tree items). split; [exact LT|]. intros k cs I B L. destruct V as [->|[V1 V2 V3 V4 V5]].
  - apply inside_empty in I as [_ ->]. discriminate B.
  - apply block_levels; auto.
Qed.
Print Assumptions C69_blocks.

(** ** C70: classes. Their end, sections and keywords are aligned; what is in between is indented. *)
Theorem C70_classes : forall eol s p, accepted s p ->
  exists tree l, laid_tree eol s p tree l /\
    (* all lines of a class are placed relative to one level ... *)
    (forall cs, inside (CTree KLongClassSpecifier cs) tree -> leak (CTree KLongClassSpecifier cs) = O -> exists n, class_at l n cs) /\
    (* ... which is that of the line on which the class begins ... *)
    (forall m i cs, inside m tree -> solid m = true -> leak m = O -> leads l m i ->
       part (CTree KLongClassSpecifier cs) m -> class_at l i cs) /\
    (* ... and the left margin for classes that are not inside others *)
    (forall ds c cs, tree = CTree KStoredDefinition ds -> In c ds -> leak tree = O ->
       part (CTree KLongClassSpecifier cs) c -> class_at l 0 cs).
Proof.
  intros eol s p ACC. destruct (accepted_levels eol s p ACC) as (tree & items & LT & V).
  exists tree, (reference tree items). split; [exact LT|]. destruct V as [->|V].
  { split; [|split].
    - intros cs I _. apply inside_empty in I as [_ E]. discriminate E.
    - intros m i cs I SO. inversion I as [|? ? ? d ID IN]; subst; [discriminate SO|destruct ID].
    - intros ds c cs E I. injection E as <-. destruct I. }
  assert (V0 := V). destruct V as [V1 V2 V3 V4 V5]. split; [|split].
  - intros cs I L. destruct (inside_seat tree root_args _ I) as (a & S). exists (base a). apply class_levels; auto.
  - intros m i cs I SO L LD P. destruct (solid_place _ _ _ _ V0 I SO LD) as (a & S & B).
    destruct (part_seat _ V3 _ _ P a S L) as (a' & S' & E & L' & _).
    destruct m as [t|k ms]; [inversion P|]. destruct (B k ms eq_refl) as [B1 _]. rewrite <- B1, <- E. apply class_levels; auto.
  - intros ds c cs E I L P. apply in_split in I as (u & v & ->).
    assert (seat tree root_args c (next KStoredDefinition u c v root_args)) as S.
    { apply seat_next. rewrite <- E. constructor. }
    rewrite E in L. destruct (no_leak _ _ _ _ L) as [LU LC].
    destruct (part_seat _ V3 _ _ P _ S LC) as (a' & S' & EB & L' & _).
    replace O with (base a'); [apply class_levels; auto|]. rewrite EB, quiet_base by auto.
    assert (trailing (kind_of c) = false) as TR.
    { rewrite E in V3. apply child_symbol in V3. rewrite <- kind_sym in V3. revert V3. generalize (kind_of c). intros y Y. vm_compute in Y. intuition (subst; reflexivity). }
    unfold depth. destruct (kind_of c) as [|kc] eqn:KC; cbn; rewrite ?andb_false_r; [reflexivity|].
    rewrite E in V3. apply child_symbol in V3. rewrite <- kind_sym, KC in V3. clear - V3. vm_compute in V3.
    repeat destruct V3 as [V3|V3]; try discriminate V3; try (injection V3 as <-; reflexivity). destruct V3.
Qed.
Print Assumptions C70_classes.

(** ** C71: what stands at the end of elements, equations, arguments and statements. *)
Theorem C71_trailing : forall eol s p, accepted s p ->
  exists tree l, laid_tree eol s p tree l /\
    forall m i k u d v, inside m tree -> solid m = true -> leak m = O -> leads l m i ->
      part (CTree k (u ++ d :: v)) m -> u <> [] -> trailing (kind_of d) = true -> k <> KDescription -> k <> KComposition ->
      leads l d (S i) /\ forall ds x, d = CTree KDescription ds -> In x ds -> leads l x (S i).
Proof.
  intros eol s p ACC. destruct (accepted_levels eol s p ACC) as (tree & items & LT & V).
  exists tree, (reference tree items). split; [exact LT|]. intros m i k u d v I SO L LD P NU T N1 N2. destruct V as [->|V].
  { inversion I as [|? ? ? e ID IN]; subst; [discriminate SO|destruct ID]. }
  destruct (solid_place _ _ _ _ V I SO LD) as (a & S & B). destruct V as [V1 V2 V3 V4 V5].
  destruct (part_seat _ V3 _ _ P a S L) as (a' & S' & E & L' & _).
  destruct m as [t|km ms]; [inversion P|]. destruct (B km ms eq_refl) as [B1 _]. rewrite <- B1, <- E. apply (trailing_levels _ _ V1 V2 V3 k u d v a'); auto.
Qed.
Print Assumptions C71_trailing.

(** ** C72: wrapped operators, at every depth of one expression, are indented by one level. *)
Theorem C72_operators : forall eol s p, accepted s p ->
  exists tree l, laid_tree eol s p tree l /\
    forall m i e k u x o y v t, inside m tree -> solid m = true -> leak m = O -> leads l m i ->
      part e m -> chained (CTree k (u ++ x :: o :: y :: v)) e -> SpecNodes.operator k o = Some t ->
      SpecNodes.last_line x < first_line y -> begins l t (S i).
Proof.
  intros eol s p ACC. destruct (accepted_levels eol s p ACC) as (tree & items & LT & V).
  exists tree, (reference tree items). split; [exact LT|]. intros m i e k u x o y v t I SO L LD P CH OP LT'. destruct V as [->|V].
  { inversion I as [|? ? ? d ID IN]; subst; [discriminate SO|destruct ID]. }
  destruct (solid_place _ _ _ _ V I SO LD) as (a & S & B). destruct V as [V1 V2 V3 V4 V5].
  destruct (part_seat _ V3 _ _ P a S L) as (a' & S' & E & L' & ON).
  destruct m as [t'|km ms]; [inversion P; subst; inversion CH|]. destruct (B km ms eq_refl) as [B1 B2].
  destruct (chain_seat _ V3 _ _ CH a' S') as (a2 & S2 & N2).
  replace i with (a_n a2).
  - eapply operator_level; eauto.
  - rewrite N2, <- B1, <- E. unfold base. rewrite (ON B2). cbn. lia.
Qed.
Print Assumptions C72_operators.

(** ** C73: lists in brackets. *)
Theorem C73_lists : forall eol s p, accepted s p ->
  exists tree l, laid_tree eol s p tree l /\
    (* elements of one list that begin lines are aligned *)
    (forall k cs d e n n', inside (CTree k cs) tree -> holder k = true ->
       slot (CTree k cs) d -> slot (CTree k cs) e -> leads l d n -> leads l e n' -> n = n') /\
    (* elements of a list inside an element of another list are indented more *)
    (forall k cs d e k' cs' d' n n', inside (CTree k cs) tree -> holder k = true ->
       slot (CTree k cs) d -> slot (CTree k cs) e -> leads l e n ->
       inside (CTree k' cs') d -> holder k' = true -> k' <> KFunctionPartialApplication ->
       slot (CTree k' cs') d' -> leads l d' n' -> (n < n')%nat) /\
    (* by one level more than the line on which the list begins, unless an operator was wrapped *)
    (forall m i e k cs c d n, inside m tree -> solid m = true -> leak m = O -> leads l m i ->
       part e m -> wraps e = false -> chained (CTree k cs) e -> k <> KComposition ->
       (c = CTree k cs \/ In c cs) ->
       forall k' cs', c = CTree k' cs' -> holder k' = true -> k' <> KFunctionPartialApplication ->
       slot c d -> leads l d n -> n = S i).
Proof.
  intros eol s p ACC. destruct (accepted_levels eol s p ACC) as (tree & items & LT & V).
  exists tree, (reference tree items). split; [exact LT|]. destruct V as [->|V].
  { split; [|split].
    - intros k cs d e n n' I H. apply inside_empty in I as [-> ->]. discriminate H.
    - intros k cs d e k' cs' d' n n' I H. apply inside_empty in I as [-> ->]. discriminate H.
    - intros m i e k cs c d n I SO. inversion I as [|? ? ? x ID IN]; subst; [discriminate SO|destruct ID]. }
  assert (V0 := V). destruct V as [V1 V2 V3 V4 V5]. split; [|split].
  - intros k cs d e n n' I H S1 S2 L1 L2. eapply (slots_level tree items V1 V2 V3 k cs d e); eauto.
  - intros k cs d e k' cs' d' n n' I H S1 S2 L1 I' H' NP S3 L3. eapply (nested_levels tree items V1 V2 V3 V5 k cs d e k' cs' d'); eauto.
  - intros m i e k cs c d n I SO L LD P W CH NC HC k' cs' EC H NP SL LS.
    destruct (solid_place _ _ _ _ V0 I SO LD) as (a & S & B).
    destruct (part_seat _ V3 _ _ P a S L) as (a1 & S1 & E1 & L1 & ON).
    destruct m as [t'|km ms]; [inversion P; subst; inversion CH|]. destruct (B km ms eq_refl) as [B1 B2]. specialize (ON B2).
    destruct (chain_off _ _ _ CH a1 S1 ON W L1) as (a2 & S2 & N2 & O2 & W2 & L2).
    assert (base a2 = i) as BA by (unfold base in *; rewrite O2, N2; rewrite ON in E1; lia).
    subst c. rewrite <- BA. destruct HC as [HC|HC].
    + injection HC as -> ->. exact (slot_shift tree items V1 V2 V3 V5 _ _ _ _ _ S2 H NP SL LS).
    + apply in_split in HC as (u & v & ->). destruct (no_leak _ _ _ _ L2) as [LU _].
      assert (seat tree root_args (CTree k' cs') (next k u (CTree k' cs') v a2)) as S3 by (constructor; exact S2).
      rewrite (slot_shift tree items V1 V2 V3 V5 _ _ _ _ _ S3 H NP SL LS).
      rewrite calm_base by assumption. rewrite (held_base tree V3) by assumption. lia.
Qed.
Print Assumptions C73_lists.

(** Components of a declaration on several lines of the source. *)
Theorem C73_components : forall eol s p, accepted s p ->
  exists tree l, laid_tree eol s p tree l /\
    forall m i cs d, inside m tree -> solid m = true -> leak m = O -> leads l m i ->
      part (CTree KComponentList cs) m -> first_line (CTree KComponentList cs) < SpecNodes.last_line (CTree KComponentList cs) ->
      (1 < length cs)%nat -> In d cs -> (forall t, d <> CTok t) -> leads l d (S i).
Proof.
  intros eol s p ACC. destruct (accepted_levels eol s p ACC) as (tree & items & LT & V).
  exists tree, (reference tree items). split; [exact LT|]. intros m i cs d I SO L LD P SP LE IN NT. destruct V as [->|V].
  { inversion I as [|? ? ? e ID IN']; subst; [discriminate SO|destruct ID]. }
  destruct (solid_place _ _ _ _ V I SO LD) as (a & S & B). destruct V as [V1 V2 V3 V4 V5].
  destruct (part_seat _ V3 _ _ P a S L) as (a' & S' & E & L' & _).
  destruct m as [t|km ms]; [inversion P|]. destruct (B km ms eq_refl) as [B1 _]. rewrite <- B1, <- E.
  apply (component_levels _ _ V1 V2 V3 cs d a'); auto; [apply N.ltb_lt, SP|apply Nat.ltb_lt, LE].
Qed.
Print Assumptions C73_components.

(** ** Examples: nodes that meet the hypotheses, and the formatted text *)
Fixpoint parts (c : child) : list child :=
  c :: match c with
       | CTok _ => []
       | CTree k cs =>
           if plain_part k && (negb (skind_eqb k KComponentList) || (first_line c =? SpecNodes.last_line c)) then
             flat_map (fun d => if negb (trailing (kind_of d)) && negb (value k (kind_of d) && multi_if d) then parts d else []) cs
           else []
       end.
Lemma parts_sound m : forall c, In c (parts m) -> part c m.
Proof.
  induction m as [t|k cs IH] using child_ind2; intros c I.
  - cbn [parts In] in I. destruct I as [<-|[]]. constructor.
  - cbn [parts] in I. destruct I as [<-|I]; [constructor|].
    destruct (plain_part k && _) eqn:Q; [|destruct I]. apply andb_true_iff in Q as [Q1 Q2].
    apply in_flat_map in I as (d & ID & I). rewrite Forall_forall in IH.
    destruct (negb (trailing (kind_of d)) && _) eqn:Q; [|destruct I]. apply andb_true_iff in Q as [Q3 Q4]. apply negb_true_iff in Q3, Q4.
    apply (part_below _ k cs d); auto.
    + intros ->. apply N.eqb_eq. exact Q2.
    + intro X. rewrite X in Q4. exact Q4.
Qed.
Fixpoint chains (c : child) : list child :=
  c :: match c with CTok _ => [] | CTree k cs => flat_map (fun d => if continues k d then chains d else []) cs end.
Lemma chains_sound m : forall c, In c (chains m) -> chained c m.
Proof.
  induction m as [t|k cs IH] using child_ind2; intros c I.
  - cbn [chains In] in I. destruct I as [<-|[]]. constructor.
  - cbn [chains] in I. destruct I as [<-|I]; [constructor|]. apply in_flat_map in I as (d & ID & I). rewrite Forall_forall in IH.
    destruct (continues k d) eqn:Q; [|destruct I]. apply (ch_below _ k cs d); auto.
Qed.
(** A line-leading kind of node without leak whose parts include one with [P]. *)
Definition holds_part (k : skind) (P : child -> bool) (m : child) : bool :=
  match m with CTree k' _ => skind_eqb k k' && solid m && Nat.eqb (leak m) 0 && existsb P (parts m) | CTok _ => false end.

Definition levels_sample : text := lines
  ["package P model M"; "Real x, y(start = 1,"; " min = f(a, {1,"; " 2})) = 3 annotation(a=1);"; "Real u,"; "v;"; "equation";
   "for i loop if a then x = a + b * (c"; " - d)"; "+ e; else y = if b then 1"; "else 2; end if; end for; x = f(1,"; "2) ""d"" annotation(b=2); end M; type E = enumeration(a,"; "b); end P;"]%string.
Example levels_applies : formats levels_sample (lines
  ["package P"; ""; "  model M"; ""; "    Real"; "      x,"; "      y("; "        start = 1,"; "        min = f("; "          a,"; "          {"; "            1,"; "            2})) = 3"; "        annotation (a = 1);"; "    Real"; "      u,"; "      v;"; ""; "  equation"; ""; "    for i loop"; "      if a then"; "        x = a + b * (c"; "          - d)"; "          + e;"; "      else"; "        y ="; "          if b then"; "            1"; "          else"; "            2;"; "      end if;"; "    end for;"; "    x = f("; "      1,"; "      2)"; "      ""d"""; "      annotation (b = 2);"; ""; "  end M;"; "  type E = enumeration("; "    a,"; "    b);"; ""; "end P;"]%string).
Proof. formatted. Qed.
(* C69: an if-equation in a for-equation *)
Example C69_applies : has_node levels_sample (fun c =>
  match c with CTree KForEquation _ => Nat.eqb (leak c) 0 && existsb (fun d => match d with CTree KIfEquation _ => true | _ => false end) (nodes c) | _ => false end).
Proof. apply find_has. vm_compute. reflexivity. Qed.
(* C70: a class in an element, and at the top of the file *)
Example C70_applies :
  has_node levels_sample (holds_part KElement (fun c => match c with CTree KLongClassSpecifier _ => true | _ => false end)) /\
  has_node levels_sample (fun c => match c with
    | CTree KStoredDefinition cs => Nat.eqb (leak c) 0 && existsb (fun d => existsb (fun e => match e with CTree KLongClassSpecifier _ => true | _ => false end) (parts d)) cs
    | _ => false end).
Proof. split; apply find_has; vm_compute; reflexivity. Qed.
(* C71: annotation of a component, description of an equation *)
Example C71_applies :
  has_node levels_sample (holds_part KEquation (fun c => match c with CTree KEquation [_; _; _; d] => trailing (kind_of d) | _ => false end)) /\
  has_node levels_sample (holds_part KElement (fun c => match c with CTree KElement [CTree KComponentClause _] => true | _ => false end)).
Proof. split; apply find_has; vm_compute; reflexivity. Qed.
(* C72: operators of the expression and in parentheses *)
Example C72_applies : has_node levels_sample (holds_part KEquation (fun e =>
  match e with
  | CTree KExpression _ =>
      existsb (fun c => match c with
        | CTree KArithmeticExpression [a; o; b; o'; b'] => SpecNodes.last_line b <? first_line b' | _ => false end) (chains e) &&
      existsb (fun c => match c with
        | CTree KArithmeticExpression [a; o; b] => SpecNodes.last_line a <? first_line b | _ => false end) (chains e)
  | _ => false end)).
Proof. apply find_has. vm_compute. reflexivity. Qed.
(* C73: a call in an expression that is not wrapped, a list in a list, components on two lines *)
Example C73_applies :
  has_node levels_sample (holds_part KEquation (fun e =>
    match e with
    | CTree KExpression _ => negb (wraps e) && existsb (fun c => match c with
        | CTree KPrimary [_; CTree KFunctionCallArgs [CTok o; CTree KFunctionArguments _; CTok c]] => line (tstart o) <? line (tstart c) | _ => false end) (chains e)
    | _ => false end)) /\
  has_node levels_sample (fun c => match c with
    | CTree KFunctionCallArgs [CTok o; CTree KFunctionArguments ds; CTok c'] =>
        existsb (fun d => match d with CTree KPrimary [CTok o'; CTree KArrayArguments _; CTok c'] => line (tstart o') <? line (tstart c') | _ => false end) (nodes c)
    | _ => false end) /\
  has_node levels_sample (holds_part KElement (fun c => match c with
    | CTree KComponentList (_ :: _ :: _) => first_line c <? SpecNodes.last_line c | _ => false end)).
Proof. repeat split; apply find_has; vm_compute; reflexivity. Qed.

(** The arguments of a function as an argument are not indented more than the list around them. *)
Definition application_sample : text := lines
  ["model M equation x=f(a,function g(b=1,"; "c=2)); end M;"]%string.
Example C73_application : formats application_sample (lines
  ["model M"; ""; "equation"; ""; "  x = f("; "    a,"; "    function g("; "    b = 1,"; "    c = 2));"; ""; "end M;"]%string).
Proof. formatted. Qed.
