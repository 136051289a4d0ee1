(** Model of src/formatter/formatting.rs.

    Every Rust function [fn f(f: &mut Formatter, tree: Tree, args)] is a loop over the
    children of [tree]. It is modelled by
    - [prologue]: what happens before the loop (flags computed from the tree, markers);
    - [step_f]: the loop body, as a function from the local variables and a finite
      [view] of the current child to a list of actions and new local variables. All
      tests on the formatter state in the Rust bodies happen before the first
      effect of that iteration, so the view is taken once per iteration;
    - [epilogue]: markers pushed after the loop.
    Line numbers are inserted by tools/gen_formatter.py. *)
From Verif Require Import Base Tokens Syntax Lexer ParserCore Tree Printer.

(** formatting.rs 7-11 *)
Inductive blank := Required | Legal | Illegal.

(** formatting.rs 116-121: [struct Formatter]. [fmarks] is reversed. *)
Record fstate := mkF {
  fcoms : list token;
  fmarks : list marker;
  fprev : tkind;
  fline : N
}.

(** formatting.rs 124-131: [Formatter::new] *)
Definition formatter_new (comments : list token) : fstate := mkF comments [] TEOF 1.

Definition push (m : marker) (f : fstate) : fstate :=
  mkF (fcoms f) (m :: fmarks f) (fprev f) (fline f).

(** formatting.rs 191-206: [comments_before]; returns inlines, comments, remaining. *)
Fixpoint comments_before (prev_line : N) (tok : token) (coms : list token)
  : list token * list token * list token :=
  match coms with
  | [] => ([], [], [])
  | c :: coms' =>
      if tidx c <? tidx tok then
        let '(inls, com, rest) := comments_before prev_line tok coms' in
        if line (tstart c) =? prev_line then (c :: inls, com, rest) else (inls, c :: com, rest)
      else ([], [], coms)
  end.

(** [usize] subtraction *)
Definition sub_usize (a b : N) : res N := if a <? b then Panic PUnderflow else Ok (a - b).

(** formatting.rs 145-150: inline comments *)
Fixpoint push_inlines (cs : list token) (ms : list marker) : list marker :=
  match cs with
  | [] => ms
  | c :: cs' =>
      push_inlines cs'
        (MToken (ttext c) :: match ms with [] => [] | _ => MSpace :: ms end)
  end.

(** [if a - b > 1 { push(Blank) } else { push(Break) }] *)
Definition blank_or_break (a b : N) (ms : list marker) : res (list marker) :=
  d <- sub_usize a b ;;
  Ok ((if 1 <? d then MBlank else MBreak) :: ms).

(** formatting.rs 154-171: the comment loop of [handle_break]; returns markers and [line]. *)
Fixpoint push_comments (b : blank) (prev_line : N) (ln : N) (cs : list token)
    (ms : list marker) : res (list marker * N) :=
  match cs with
  | [] => Ok (ms, ln)
  | c :: cs' =>
      ms <- match b with
            | Required => if prev_line <? ln
                          then blank_or_break (line (tstart c)) ln ms
                          else Ok ms
            | _ => blank_or_break (line (tstart c)) ln ms
            end ;;
      push_comments b prev_line (line (tend c)) cs' (MToken (ttext c) :: ms)
  end.

(** formatting.rs 143-186: [handle_break] *)
Definition handle_break (tok : token) (b : blank) (f : fstate) : res fstate :=
  let '(inls, com, rest) := comments_before (fline f) tok (fcoms f) in
  let ms := push_inlines inls (fmarks f) in
  let ms := match b with Required => MBlank :: ms | _ => ms end in
  '(ms, ln) <- push_comments b (fline f) (fline f) com ms ;;
  ms <- match b with
        | Legal => blank_or_break (line (tstart tok)) ln ms
        | Illegal => Ok (MBreak :: ms)
        | Required => if fline f <? ln
                      then blank_or_break (line (tstart tok)) ln ms
                      else Ok ms
        end ;;
  Ok (mkF rest ms (fprev f) (fline f)).

(** formatting.rs 209-215: [handle_token] *)
Definition handle_token (tok : token) (f : fstate) : fstate :=
  let '(_, _, rest) := comments_before (fline f) tok (fcoms f) in
  mkF rest (MToken (ttext tok) :: fmarks f) (tkind_of tok) (line (tend tok)).

(** What a child looks like: a token of some kind or a tree of some kind. *)
Inductive label := LT (k : tkind) | LN (k : skind).

Definition label_of (c : child) : label :=
  match c with CTok t => LT (tkind_of t) | CTree k _ => LN k end.

(** Where a break belongs: before the current child or before the next one. *)
Inductive target := TSelf | TPeek.

Inductive action :=
| AMark (m : marker)                      (** [f.markers.push(m)] *)
| ABreak (t : target) (b : blank)         (** [f.handle_break(child.start(), b)] *)
| AHandle                                 (** [f.handle_token(tok)] *)
| ACall (fn : skind) (ml w oel keep : bool)
    (** call of the function for [fn] on the child; [keep]: [wrapped = ...] *)
| APanic (p : panic).

(** Local variables of the Rust functions: [is_multiline], [wrapped], [conditional],
    [in_oel], a test on [children_count], [prev_rule]. *)
Record locals := mkL {
  l_ml : bool; l_w : bool; l_cnd : bool; l_oel : bool; l_cnt : bool; l_rule : skind
}.
Definition set_ml (b : bool) (l : locals) : locals :=
  mkL b (l_w l) (l_cnd l) (l_oel l) (l_cnt l) (l_rule l).
Definition set_w (b : bool) (l : locals) : locals :=
  mkL (l_ml l) b (l_cnd l) (l_oel l) (l_cnt l) (l_rule l).
Definition set_cnd (b : bool) (l : locals) : locals :=
  mkL (l_ml l) (l_w l) b (l_oel l) (l_cnt l) (l_rule l).
Definition set_rule (k : skind) (l : locals) : locals :=
  mkL (l_ml l) (l_w l) (l_cnd l) (l_oel l) (l_cnt l) k.

(** What a loop body may look at. *)
Record view := mkV {
  v_child : label;         (** the current child *)
  v_peek : option label;   (** [children.peek()] *)
  v_prev : tkind;          (** [f.prev_tok] *)
  v_idx : N;               (** index of the child (3 stands for "3 or more") *)
  v_nl : bool;             (** [next_tree.start().start.line > f.prev_line] *)
  v_mlif : bool;           (** [tree.is_multiline() && tree.start().kind == If] *)
  v_desc : bool;           (** [tree.contains(SyntaxKind::Description)] *)
  v_empty : bool;          (** [tree.len() == 0] *)
  v_idxpos : bool          (** [tok.idx > 0] *)
}.

Definition call (k : skind) : action := ACall k false false false false.
Definition call_ml (k : skind) (ml : bool) : action := ACall k ml false false false.
Definition call_w (k : skind) (w oel keep : bool) : action := ACall k false w oel keep.
Definition unreachable : list action := [APanic PUnreachable].
(** formatting.rs 134-140: [break_or_space] *)
Definition bos (ml : bool) (t : target) : action :=
  if ml then ABreak t Illegal else AMark MSpace.

(** The block shared by [logical_expression], [logical_term], [relation],
    [arithmetic_expression], [term] and [factor], e.g. formatting.rs 1596-1606. *)
Definition op_break (l : locals) (v : view) : list action * locals :=
  match v_peek v with
  | Some (LN _) =>
      let ml := v_nl v in
      ((if ml && negb (l_w l) then [AMark MIndent] else []) ++ [bos ml TSelf],
       set_w (if negb (l_w l) then ml else l_w l) l)
  | _ => ([], l)
  end.


(** formatting.rs 218-245: loop body of [stored_definition] *)
Definition step_stored_definition (l : locals) (v : view) : list action * locals :=
  match v_child v with
  | LN k =>
      match k with
      | KName => ([call KName], l)
      | KClassDefinition => ((if tkind_eqb (v_prev v) TSemicolon then [ABreak TSelf Legal] else [])
          ++ [call KClassDefinition], l)
      | _ => (unreachable, l)
      end
  | LT t =>
      ((if tkind_eqb t TFinal then [ABreak TSelf Legal]
        else if tkind_eqb t TWithin && v_idxpos v then [ABreak TSelf Illegal] else [])
       ++ [AHandle]
       ++ (if tkind_eqb t TFinal || tkind_eqb t TWithin then [AMark MSpace] else []), l)
  end.

(** formatting.rs 247-264: loop body of [class_definition] *)
Definition step_class_definition (l : locals) (v : view) : list action * locals :=
  match v_child v with
  | LN k =>
      match k with
      | KClassSpecifier => ([AMark MSpace; call KClassSpecifier], l)
      | KClassPrefixes => ([call KClassPrefixes], l)
      | _ => (unreachable, l)
      end
  | LT t =>
      ([AHandle; AMark MSpace], l)
  end.

(** formatting.rs 266-275: loop body of [class_prefixes] *)
Definition step_class_prefixes (l : locals) (v : view) : list action * locals :=
  match v_child v with
  | LN k =>
      ([], l)
  | LT t =>
      ((if v_idx v =? 0 then [] else [AMark MSpace]) ++ [AHandle], l)
  end.

(** formatting.rs 277-288: loop body of [class_specifier] *)
Definition step_class_specifier (l : locals) (v : view) : list action * locals :=
  match v_child v with
  | LN k =>
      match k with
      | KLongClassSpecifier => ([call KLongClassSpecifier], l)
      | KShortClassSpecifier => ([call KShortClassSpecifier], l)
      | KDerClassSpecifier => ([call KDerClassSpecifier], l)
      | _ => (unreachable, l)
      end
  | LT t =>
      ([], l)
  end.

(** formatting.rs 290-316: loop body of [long_class_specifier] *)
Definition step_long_class_specifier (l : locals) (v : view) : list action * locals :=
  match v_child v with
  | LN k =>
      match k with
      | KDescriptionString => ([AMark MIndent; ABreak TSelf Illegal; call KDescriptionString; AMark MDedent], l)
      | KClassModification => ([call KClassModification], l)
      | KComposition => ([call KComposition], l)
      | _ => (unreachable, l)
      end
  | LT t =>
      ((if tkind_eqb t TEnd then [ABreak TSelf Required] else [])
       ++ [AHandle]
       ++ (if tkind_eqb t TEnd || tkind_eqb t TExtends then [AMark MSpace] else []), l)
  end.

(** formatting.rs 318-382: loop body of [short_class_specifier] *)
Definition step_short_class_specifier (l : locals) (v : view) : list action * locals :=
  match v_child v with
  | LN k =>
      match k with
      | KBasePrefix => ([call KBasePrefix] ++ (if v_empty v then [] else [AMark MSpace]), l)
      | KTypeSpecifier => ([call KTypeSpecifier], l)
      | KArraySubscripts => ([call KArraySubscripts], l)
      | KClassModification => ([call KClassModification], l)
      | KEnumList => let ml := l_ml l || v_desc v in
          ((if ml then [AMark MIndent; ABreak TSelf Illegal] else [])
           ++ [call_ml KEnumList ml]
           ++ (if ml then [AMark MDedent] else []), set_ml ml l)
      | KDescription => ([AMark MIndent; ABreak TSelf Illegal; call KDescription; AMark MDedent], l)
      | _ => (unreachable, l)
      end
  | LT t =>
      ((if tkind_eqb t TEqual then [AMark MSpace] else [])
       ++ [AHandle]
       ++ (if tkind_eqb t TEqual then [AMark MSpace] else []), l)
  end.

(** formatting.rs 384-435: loop body of [der_class_specifier] *)
Definition step_der_class_specifier (l : locals) (v : view) : list action * locals :=
  match v_child v with
  | LN k =>
      match k with
      | KTypeSpecifier => ((if l_ml l then [ABreak TSelf Illegal] else []) ++ [call KTypeSpecifier], l)
      | KDescription => ([AMark MIndent; ABreak TSelf Illegal; call KDescription; AMark MDedent], l)
      | _ => (unreachable, l)
      end
  | LT t =>
      ((if tkind_eqb t TEqual then [AMark MSpace]
        else if tkind_eqb t TIdentifier && tkind_eqb (v_prev v) TComma then [bos (l_ml l) TSelf] else [])
       ++ [AHandle]
       ++ (if tkind_eqb t TEqual then [AMark MSpace]
           else if tkind_eqb t TLParen then [AMark MIndent]
           else if tkind_eqb t TRParen then [AMark MDedent] else []), l)
  end.

(** formatting.rs 437-443: loop body of [base_prefix] *)
Definition step_base_prefix (l : locals) (v : view) : list action * locals :=
  match v_child v with
  | LN k =>
      ([], l)
  | LT t =>
      ([AHandle], l)
  end.

(** formatting.rs 445-461: loop body of [enum_list] *)
Definition step_enum_list (l : locals) (v : view) : list action * locals :=
  match v_child v with
  | LN k =>
      ([call KEnumerationLiteral], l)
  | LT t =>
      match v_peek v with
      | None => ([AHandle; APanic PUnwrap], l)
      | Some (LN _) => ([AHandle; bos (l_ml l) TPeek], l)
      | Some (LT _) => ([AHandle], l)
      end
  end.

(** formatting.rs 463-475: loop body of [enumeration_literal] *)
Definition step_enumeration_literal (l : locals) (v : view) : list action * locals :=
  match v_child v with
  | LN k =>
      ([AMark MIndent; ABreak TSelf Illegal; call KDescription; AMark MDedent], l)
  | LT t =>
      ([AHandle], l)
  end.

(** formatting.rs 477-553: loop body of [composition] *)
Definition step_composition (l : locals) (v : view) : list action * locals :=
  match v_child v with
  | LN k =>
      let l' := set_rule k l in
      match k with
      | KElementList =>
          ([AMark MIndent; ABreak TSelf Required; call KElementList; AMark MDedent], l')
      | KEquationSection => ([ABreak TSelf Required; call KEquationSection], l')
      | KAlgorithmSection => ([ABreak TSelf Required; call KAlgorithmSection], l')
      | KLanguageSpecification => ([AMark MSpace; call KLanguageSpecification], l')
      | KExternalFunctionCall =>
          ([AMark MIndent; ABreak TSelf Required; call KExternalFunctionCall; AMark MDedent], l')
      | KAnnotationClause =>
          let ext := tkind_eqb (v_prev v) TExternal
                     || ((skind_eqb (l_rule l) KLanguageSpecification
                          || skind_eqb (l_rule l) KExternalFunctionCall)
                         && negb (tkind_eqb (v_prev v) TSemicolon)) in
          ([AMark MIndent]
           ++ (if ext then [AMark MIndent] else [])
           ++ [ABreak TSelf (if negb ext then Required else Illegal);
               call KAnnotationClause; AMark MDedent]
           ++ (if ext then [AMark MDedent] else []), l')
      | _ => (unreachable, l')
      end
  | LT t =>
      ((if memk t [TProtected; TPublic; TExternal] then [ABreak TSelf Required] else []) ++ [AHandle], l)
  end.

(** formatting.rs 555-561: loop body of [language_specification] *)
Definition step_language_specification (l : locals) (v : view) : list action * locals :=
  match v_child v with
  | LN k =>
      ([], l)
  | LT t =>
      ([AHandle], l)
  end.

(** formatting.rs 563-605: loop body of [external_function_call] *)
Definition step_external_function_call (l : locals) (v : view) : list action * locals :=
  match v_child v with
  | LN k =>
      match k with
      | KComponentReference => ([call KComponentReference], l)
      | KExpressionList => ([call_ml KExpressionList (l_ml l)], l)
      | _ => (unreachable, l)
      end
  | LT t =>
      if tkind_eqb t TEqual then ([AMark MSpace; AHandle; AMark MSpace], l)
      else if tkind_eqb t TLParen && l_ml l then
        match v_peek v with
        | None => ([AHandle; APanic PUnwrap], l)
        | Some (LN _) => ([AHandle; ABreak TPeek Illegal], l)
        | Some (LT _) => ([AHandle], l)
        end
      else ([AHandle], l)
  end.

(** formatting.rs 607-619: loop body of [element_list] *)
Definition step_element_list (l : locals) (v : view) : list action * locals :=
  match v_child v with
  | LN k =>
      ((if tkind_eqb (v_prev v) TSemicolon then [ABreak TSelf Legal] else []) ++ [call KElement], l)
  | LT t =>
      ([AHandle], l)
  end.

(** formatting.rs 621-649: loop body of [element] *)
Definition step_element (l : locals) (v : view) : list action * locals :=
  match v_child v with
  | LN k =>
      match k with
      | KImportClause => ([call KImportClause], l)
      | KExtendsClause => ([call KExtendsClause], l)
      | KClassDefinition => ([call KClassDefinition], l)
      | KComponentClause => ([call KComponentClause], l)
      | KConstrainingClause => ([AMark MIndent; ABreak TSelf Illegal; call KConstrainingClause; AMark MDedent], l)
      | KDescription => ([AMark MIndent; ABreak TSelf Illegal; call KDescription; AMark MDedent], l)
      | _ => (unreachable, l)
      end
  | LT t =>
      ([AHandle; AMark MSpace], l)
  end.

(** formatting.rs 651-700: loop body of [import_clause] *)
Definition step_import_clause (l : locals) (v : view) : list action * locals :=
  match v_child v with
  | LN k =>
      match k with
      | KName => ([call KName], l)
      | KImportList => ([call_ml KImportList (l_ml l)], l)
      | KDescription => ([AMark MIndent; ABreak TSelf Illegal; call KDescription; AMark MDedent], l)
      | _ => (unreachable, l)
      end
  | LT t =>
      let pre := if tkind_eqb t TEqual then [AMark MSpace] else [] in
      if tkind_eqb t TImport || tkind_eqb t TEqual then (pre ++ [AHandle; AMark MSpace], l)
      else if tkind_eqb t TLCurly && l_ml l then
        match v_peek v with
        | None => (pre ++ [AHandle; AMark MIndent; APanic PUnwrap], l)
        | Some (LN _) => (pre ++ [AHandle; AMark MIndent; ABreak TPeek Illegal], l)
        | Some (LT _) => (pre ++ [AHandle; AMark MIndent], l)
        end
      else if tkind_eqb t TRCurly && l_ml l then (pre ++ [AHandle; AMark MDedent], l)
      else (pre ++ [AHandle], l)
  end.

(** formatting.rs 702-714: loop body of [import_list] *)
Definition step_import_list (l : locals) (v : view) : list action * locals :=
  match v_child v with
  | LN k =>
      ([], l)
  | LT t =>
      ((if tkind_eqb t TIdentifier && (1 <? v_idx v) then [bos (l_ml l) TSelf] else []) ++ [AHandle], l)
  end.

(** formatting.rs 716-738: loop body of [extends_clause] *)
Definition step_extends_clause (l : locals) (v : view) : list action * locals :=
  match v_child v with
  | LN k =>
      match k with
      | KTypeSpecifier => ([call KTypeSpecifier], l)
      | KClassOrInheritanceModification => ([call KClassOrInheritanceModification], l)
      | KAnnotationClause => ([AMark MIndent; ABreak TSelf Illegal; call KAnnotationClause; AMark MDedent], l)
      | _ => (unreachable, l)
      end
  | LT t =>
      ([AHandle; AMark MSpace], l)
  end.

(** formatting.rs 740-754: loop body of [constraining_clause] *)
Definition step_constraining_clause (l : locals) (v : view) : list action * locals :=
  match v_child v with
  | LN k =>
      match k with
      | KTypeSpecifier => ([call KTypeSpecifier], l)
      | KClassModification => ([call KClassModification], l)
      | _ => (unreachable, l)
      end
  | LT t =>
      ([AHandle; AMark MSpace], l)
  end.

(** formatting.rs 756-775: loop body of [class_or_inheritance_modification] *)
Definition step_class_or_inheritance_modification (l : locals) (v : view) : list action * locals :=
  match v_child v with
  | LN k =>
      ([call_ml KArgumentOrInheritanceModificationList (l_ml l)], l)
  | LT t =>
      if tkind_eqb t TLParen && l_ml l then
        match v_peek v with
        | None => ([AHandle; APanic PUnwrap], l)
        | Some (LN _) => ([AHandle; ABreak TPeek Illegal], l)
        | Some (LT _) => ([AHandle], l)
        end
      else ([AHandle], l)
  end.

(** formatting.rs 777-801: loop body of [argument_or_inheritance_modification_list] *)
Definition step_argument_or_inheritance_modification_list (l : locals) (v : view) : list action * locals :=
  match v_child v with
  | LN k =>
      match k with
      | KArgument => ([call KArgument], l)
      | KInheritanceModification => ([call KInheritanceModification], l)
      | _ => (unreachable, l)
      end
  | LT t =>
      match v_peek v with
      | None => ([AHandle; APanic PUnwrap], l)
      | Some (LN _) => ([AHandle; bos (l_ml l) TPeek], l)
      | Some (LT _) => ([AHandle], l)
      end
  end.

(** formatting.rs 803-816: loop body of [inheritance_modification] *)
Definition step_inheritance_modification (l : locals) (v : view) : list action * locals :=
  match v_child v with
  | LN k =>
      ([call KConnectEquation], l)
  | LT t =>
      ([AHandle] ++ (if tkind_eqb t TBreak then [AMark MSpace] else []), l)
  end.

(** formatting.rs 818-836: loop body of [component_clause] *)
Definition step_component_clause (l : locals) (v : view) : list action * locals :=
  match v_child v with
  | LN k =>
      match k with
      | KTypePrefix => ([call KTypePrefix] ++ (if v_empty v then [] else [AMark MSpace]), l)
      | KTypeSpecifier => ([call KTypeSpecifier], l)
      | KArraySubscripts => ([call KArraySubscripts], l)
      | KComponentList => ([call KComponentList], l)
      | _ => (unreachable, l)
      end
  | LT t =>
      ([], l)
  end.

(** formatting.rs 838-847: loop body of [type_prefix] *)
Definition step_type_prefix (l : locals) (v : view) : list action * locals :=
  match v_child v with
  | LN k =>
      ([], l)
  | LT t =>
      ((if v_idx v =? 0 then [] else [AMark MSpace]) ++ [AHandle], l)
  end.

(** formatting.rs 849-867: loop body of [component_list] *)
Definition step_component_list (l : locals) (v : view) : list action * locals :=
  match v_child v with
  | LN k =>
      ([bos (l_ml l) TSelf; call KComponentDeclaration], l)
  | LT t =>
      ([AHandle], l)
  end.

(** formatting.rs 869-888: loop body of [component_declaration] *)
Definition step_component_declaration (l : locals) (v : view) : list action * locals :=
  match v_child v with
  | LN k =>
      match k with
      | KDeclaration => ([call KDeclaration], l)
      | KConditionAttribute => ([AMark MSpace; call KConditionAttribute], l)
      | KDescription => ([AMark MIndent; ABreak TSelf Illegal; call KDescription; AMark MDedent], l)
      | _ => (unreachable, l)
      end
  | LT t =>
      ([], l)
  end.

(** formatting.rs 890-900: loop body of [condition_attribute] *)
Definition step_condition_attribute (l : locals) (v : view) : list action * locals :=
  match v_child v with
  | LN k =>
      ([call_w KExpression false false false], l)
  | LT t =>
      ([AHandle; AMark MSpace], l)
  end.

(** formatting.rs 902-913: loop body of [declaration] *)
Definition step_declaration (l : locals) (v : view) : list action * locals :=
  match v_child v with
  | LN k =>
      match k with
      | KArraySubscripts => ([call KArraySubscripts], l)
      | KModification => ([call KModification], l)
      | _ => (unreachable, l)
      end
  | LT t =>
      ([AHandle], l)
  end.

(** formatting.rs 915-940: loop body of [modification] *)
Definition step_modification (l : locals) (v : view) : list action * locals :=
  match v_child v with
  | LN k =>
      match k with
      | KClassModification => ([call KClassModification], l)
      | KModificationExpression => ((if v_mlif v then [AMark MIndent] else [])
           ++ [bos (v_mlif v) TSelf; call KModificationExpression]
           ++ (if v_mlif v then [AMark MDedent] else []), l)
      | _ => (unreachable, l)
      end
  | LT t =>
      ([AMark MSpace; AHandle], l)
  end.

(** formatting.rs 942-949: loop body of [modification_expression] *)
Definition step_modification_expression (l : locals) (v : view) : list action * locals :=
  match v_child v with
  | LN k =>
      ([call_w KExpression false false false], l)
  | LT t =>
      ([AHandle], l)
  end.

(** formatting.rs 951-972: loop body of [class_modification] *)
Definition step_class_modification (l : locals) (v : view) : list action * locals :=
  match v_child v with
  | LN k =>
      ([call_ml KArgumentList (l_ml l)], l)
  | LT t =>
      if tkind_eqb t TLParen && l_ml l then
        match v_peek v with
        | None => ([AHandle; APanic PUnwrap], l)
        | Some (LN _) => ([AHandle; ABreak TPeek Illegal], l)
        | Some (LT _) => ([AHandle], l)
        end
      else ([AHandle], l)
  end.

(** formatting.rs 974-990: loop body of [argument_list] *)
Definition step_argument_list (l : locals) (v : view) : list action * locals :=
  match v_child v with
  | LN k =>
      ([call KArgument], l)
  | LT t =>
      match v_peek v with
      | None => ([AHandle; APanic PUnwrap], l)
      | Some (LN _) => ([AHandle; bos (l_ml l) TPeek], l)
      | Some (LT _) => ([AHandle], l)
      end
  end.

(** formatting.rs 992-1004: loop body of [argument] *)
Definition step_argument (l : locals) (v : view) : list action * locals :=
  match v_child v with
  | LN k =>
      match k with
      | KElementModificationOrReplaceable => ([call KElementModificationOrReplaceable], l)
      | KElementRedeclaration => ([call KElementRedeclaration], l)
      | _ => (unreachable, l)
      end
  | LT t =>
      ([], l)
  end.

(** formatting.rs 1006-1020: loop body of [element_modification_or_replaceable] *)
Definition step_element_modification_or_replaceable (l : locals) (v : view) : list action * locals :=
  match v_child v with
  | LN k =>
      match k with
      | KElementModification => ([call KElementModification], l)
      | KElementReplaceable => ([call KElementReplaceable], l)
      | _ => (unreachable, l)
      end
  | LT t =>
      ([AHandle; AMark MSpace], l)
  end.

(** formatting.rs 1022-1038: loop body of [element_modification] *)
Definition step_element_modification (l : locals) (v : view) : list action * locals :=
  match v_child v with
  | LN k =>
      match k with
      | KName => ([call KName], l)
      | KModification => ([call KModification], l)
      | KDescriptionString => ([AMark MIndent; ABreak TSelf Illegal; call KDescriptionString; AMark MDedent], l)
      | _ => (unreachable, l)
      end
  | LT t =>
      ([], l)
  end.

(** formatting.rs 1040-1055: loop body of [element_redeclaration] *)
Definition step_element_redeclaration (l : locals) (v : view) : list action * locals :=
  match v_child v with
  | LN k =>
      match k with
      | KShortClassDefinition => ([call KShortClassDefinition], l)
      | KComponentClause1 => ([call KComponentClause1], l)
      | KElementReplaceable => ([call KElementReplaceable], l)
      | _ => (unreachable, l)
      end
  | LT t =>
      ([AHandle; AMark MSpace], l)
  end.

(** formatting.rs 1057-1077: loop body of [element_replaceable] *)
Definition step_element_replaceable (l : locals) (v : view) : list action * locals :=
  match v_child v with
  | LN k =>
      match k with
      | KShortClassDefinition => ([call KShortClassDefinition], l)
      | KComponentClause1 => ([call KComponentClause1], l)
      | KConstrainingClause => ([AMark MIndent; ABreak TSelf Illegal; call KConstrainingClause; AMark MDedent], l)
      | _ => (unreachable, l)
      end
  | LT t =>
      ([AHandle; AMark MSpace], l)
  end.

(** formatting.rs 1079-1099: loop body of [component_clause1] *)
Definition step_component_clause1 (l : locals) (v : view) : list action * locals :=
  match v_child v with
  | LN k =>
      match k with
      | KTypePrefix => ([call KTypePrefix], l)
      | KTypeSpecifier => ((if l_cnt l then [AMark MSpace] else []) ++ [call KTypeSpecifier], l)
      | KComponentDeclaration1 => ([AMark MSpace; call KComponentDeclaration1], l)
      | _ => (unreachable, l)
      end
  | LT t =>
      ([], l)
  end.

(** formatting.rs 1101-1116: loop body of [component_declaration1] *)
Definition step_component_declaration1 (l : locals) (v : view) : list action * locals :=
  match v_child v with
  | LN k =>
      match k with
      | KDeclaration => ([call KDeclaration], l)
      | KDescription => ([AMark MIndent; ABreak TSelf Illegal; call KDescription; AMark MDedent], l)
      | _ => (unreachable, l)
      end
  | LT t =>
      ([], l)
  end.

(** formatting.rs 1118-1131: loop body of [short_class_definition] *)
Definition step_short_class_definition (l : locals) (v : view) : list action * locals :=
  match v_child v with
  | LN k =>
      match k with
      | KClassPrefixes => ([call KClassPrefixes], l)
      | KShortClassSpecifier => ([AMark MSpace; call KShortClassSpecifier], l)
      | _ => (unreachable, l)
      end
  | LT t =>
      ([], l)
  end.

(** formatting.rs 1133-1158: loop body of [equation_section] *)
Definition step_equation_section (l : locals) (v : view) : list action * locals :=
  match v_child v with
  | LN k =>
      ([ABreak TSelf (if tkind_eqb (v_prev v) TEquation then Required else Legal); call KEquation], l)
  | LT t =>
      ([AHandle] ++ (if tkind_eqb t TInitial then [AMark MSpace] else []), l)
  end.

(** formatting.rs 1160-1185: loop body of [algorithm_section] *)
Definition step_algorithm_section (l : locals) (v : view) : list action * locals :=
  match v_child v with
  | LN k =>
      ([ABreak TSelf (if tkind_eqb (v_prev v) TAlgorithm then Required else Legal); call KStatement], l)
  | LT t =>
      ([AHandle] ++ (if tkind_eqb t TInitial then [AMark MSpace] else []), l)
  end.

(** formatting.rs 1187-1227: loop body of [equation] *)
Definition step_equation (l : locals) (v : view) : list action * locals :=
  match v_child v with
  | LN k =>
      match k with
      | KSimpleExpression => ([call_w KSimpleExpression false false false], l)
      | KExpression => ((if v_mlif v then [AMark MIndent] else [])
           ++ [bos (v_mlif v) TSelf; call_w KExpression false false false]
           ++ (if v_mlif v then [AMark MDedent] else []), l)
      | KIfEquation => ([call KIfEquation], l)
      | KForEquation => ([call KForEquation], l)
      | KConnectEquation => ([call KConnectEquation], l)
      | KWhenEquation => ([call KWhenEquation], l)
      | KComponentReference => ([call KComponentReference], l)
      | KFunctionCallArgs => ([call KFunctionCallArgs], l)
      | KDescription => ([AMark MIndent; ABreak TSelf Illegal; call KDescription; AMark MDedent], l)
      | _ => (unreachable, l)
      end
  | LT t =>
      ((if tkind_eqb t TEqual then [AMark MSpace] else []) ++ [AHandle], l)
  end.

(** formatting.rs 1229-1274: loop body of [statement] *)
Definition step_statement (l : locals) (v : view) : list action * locals :=
  match v_child v with
  | LN k =>
      match k with
      | KComponentReference => ((if tkind_eqb (v_prev v) TAssign then [AMark MSpace] else []) ++ [call KComponentReference], l)
      | KExpression => ((if v_mlif v then [AMark MIndent] else [])
           ++ [bos (v_mlif v) TSelf; call_w KExpression false false false]
           ++ (if v_mlif v then [AMark MDedent] else []), l)
      | KFunctionCallArgs => ([call KFunctionCallArgs], l)
      | KOutputExpressionList => ([call_w KOutputExpressionList false false false], l)
      | KIfStatement => ([call KIfStatement], l)
      | KForStatement => ([call KForStatement], l)
      | KWhileStatement => ([call KWhileStatement], l)
      | KWhenStatement => ([call KWhenStatement], l)
      | KDescription => ([AMark MIndent; ABreak TSelf Illegal; call KDescription; AMark MDedent], l)
      | _ => (unreachable, l)
      end
  | LT t =>
      ((if tkind_eqb t TAssign then [AMark MSpace] else []) ++ [AHandle], l)
  end.

(** formatting.rs 1276-1309: loop body of [if_equation] *)
Definition step_if_equation (l : locals) (v : view) : list action * locals :=
  match v_child v with
  | LN k =>
      match k with
      | KExpression => ([AMark MSpace; call_w KExpression false false false; AMark MSpace], l)
      | KEquation => ([AMark MIndent; ABreak TSelf Legal; call KEquation; AMark MDedent], l)
      | _ => (unreachable, l)
      end
  | LT t =>
      ((if tkind_eqb t TIf && tkind_eqb (v_prev v) TEnd then [AMark MSpace]
        else if memk t [TElseIf; TElse; TEnd] then [ABreak TSelf Legal] else []) ++ [AHandle], l)
  end.

(** formatting.rs 1311-1344: loop body of [if_statement] *)
Definition step_if_statement (l : locals) (v : view) : list action * locals :=
  match v_child v with
  | LN k =>
      match k with
      | KExpression => ([AMark MSpace; call_w KExpression false false false; AMark MSpace], l)
      | KStatement => ([AMark MIndent; ABreak TSelf Legal; call KStatement; AMark MDedent], l)
      | _ => (unreachable, l)
      end
  | LT t =>
      ((if tkind_eqb t TIf && tkind_eqb (v_prev v) TEnd then [AMark MSpace]
        else if memk t [TElseIf; TElse; TEnd] then [ABreak TSelf Legal] else []) ++ [AHandle], l)
  end.

(** formatting.rs 1346-1373: loop body of [for_equation] *)
Definition step_for_equation (l : locals) (v : view) : list action * locals :=
  match v_child v with
  | LN k =>
      match k with
      | KForIndices => ([AMark MSpace; call KForIndices; AMark MSpace], l)
      | KEquation => ([AMark MIndent; ABreak TSelf Legal; call KEquation; AMark MDedent], l)
      | _ => (unreachable, l)
      end
  | LT t =>
      ((if tkind_eqb t TFor && tkind_eqb (v_prev v) TEnd then [AMark MSpace]
        else if memk t [TEnd] then [ABreak TSelf Legal] else []) ++ [AHandle], l)
  end.

(** formatting.rs 1375-1402: loop body of [for_statement] *)
Definition step_for_statement (l : locals) (v : view) : list action * locals :=
  match v_child v with
  | LN k =>
      match k with
      | KForIndices => ([AMark MSpace; call KForIndices; AMark MSpace], l)
      | KStatement => ([AMark MIndent; ABreak TSelf Legal; call KStatement; AMark MDedent], l)
      | _ => (unreachable, l)
      end
  | LT t =>
      ((if tkind_eqb t TFor && tkind_eqb (v_prev v) TEnd then [AMark MSpace]
        else if memk t [TEnd] then [ABreak TSelf Legal] else []) ++ [AHandle], l)
  end.

(** formatting.rs 1404-1414: loop body of [for_indices] *)
Definition step_for_indices (l : locals) (v : view) : list action * locals :=
  match v_child v with
  | LN k =>
      ([call KForIndex], l)
  | LT t =>
      ([AHandle; AMark MSpace], l)
  end.

(** formatting.rs 1416-1432: loop body of [for_index] *)
Definition step_for_index (l : locals) (v : view) : list action * locals :=
  match v_child v with
  | LN k =>
      ([call_w KExpression false false false], l)
  | LT t =>
      ((if tkind_eqb t TIn then [AMark MSpace] else []) ++ [AHandle]
       ++ (if tkind_eqb t TIn then [AMark MSpace] else []), l)
  end.

(** formatting.rs 1434-1461: loop body of [while_statement] *)
Definition step_while_statement (l : locals) (v : view) : list action * locals :=
  match v_child v with
  | LN k =>
      match k with
      | KExpression => ([AMark MSpace; call_w KExpression false false false; AMark MSpace], l)
      | KStatement => ([AMark MIndent; ABreak TSelf Legal; call KStatement; AMark MDedent], l)
      | _ => (unreachable, l)
      end
  | LT t =>
      ((if tkind_eqb t TWhile && tkind_eqb (v_prev v) TEnd then [AMark MSpace]
        else if memk t [TEnd] then [ABreak TSelf Legal] else []) ++ [AHandle], l)
  end.

(** formatting.rs 1463-1490: loop body of [when_equation] *)
Definition step_when_equation (l : locals) (v : view) : list action * locals :=
  match v_child v with
  | LN k =>
      match k with
      | KExpression => ([AMark MSpace; call_w KExpression false false false; AMark MSpace], l)
      | KEquation => ([AMark MIndent; ABreak TSelf Legal; call KEquation; AMark MDedent], l)
      | _ => (unreachable, l)
      end
  | LT t =>
      ((if tkind_eqb t TWhen && tkind_eqb (v_prev v) TEnd then [AMark MSpace]
        else if memk t [TElseWhen; TEnd] then [ABreak TSelf Legal] else []) ++ [AHandle], l)
  end.

(** formatting.rs 1492-1519: loop body of [when_statement] *)
Definition step_when_statement (l : locals) (v : view) : list action * locals :=
  match v_child v with
  | LN k =>
      match k with
      | KExpression => ([AMark MSpace; call_w KExpression false false false; AMark MSpace], l)
      | KStatement => ([AMark MIndent; ABreak TSelf Legal; call KStatement; AMark MDedent], l)
      | _ => (unreachable, l)
      end
  | LT t =>
      ((if tkind_eqb t TWhen && tkind_eqb (v_prev v) TEnd then [AMark MSpace]
        else if memk t [TElseWhen; TEnd] then [ABreak TSelf Legal] else []) ++ [AHandle], l)
  end.

(** formatting.rs 1521-1540: loop body of [connect_equation] *)
Definition step_connect_equation (l : locals) (v : view) : list action * locals :=
  match v_child v with
  | LN k =>
      ((if v_idx v =? 2 then (if l_ml l then [ABreak TSelf Illegal] else [])
        else [bos (l_ml l) TSelf]) ++ [call KComponentReference], l)
  | LT t =>
      ([AHandle], l)
  end.

(** formatting.rs 1542-1583: loop body of [expression] *)
Definition step_expression (l : locals) (v : view) : list action * locals :=
  match v_child v with
  | LN k =>
      match k with
      | KExpression => ((if l_cnd l then [bos (l_ml l) TSelf] else [AMark MSpace])
           ++ [call_w KExpression false false false]
           ++ (if l_cnd l then
                 [AMark MDedent]
                 ++ match v_peek v with
                    | Some (LT _) => [bos (l_ml l) TPeek]
                    | _ => []
                    end
               else [AMark MSpace]), set_cnd false l)
      | KSimpleExpression => ([call_w KSimpleExpression (l_w l) false true], l)
      | _ => (unreachable, l)
      end
  | LT t =>
      if tkind_eqb t TThen || tkind_eqb t TElse
      then ([AHandle; AMark MIndent], set_cnd true l)
      else ([AHandle], l)
  end.

(** formatting.rs 1585-1597: loop body of [simple_expression] *)
Definition step_simple_expression (l : locals) (v : view) : list action * locals :=
  match v_child v with
  | LN k =>
      ([call_w KLogicalExpression (l_w l) false true], l)
  | LT t =>
      ([AMark MSpace; AHandle; AMark MSpace], l)
  end.

(** formatting.rs 1599-1621: loop body of [logical_expression] *)
Definition step_logical_expression (l : locals) (v : view) : list action * locals :=
  match v_child v with
  | LN k =>
      ([call_w KLogicalTerm (l_w l) false true], l)
  | LT t =>
      let '(pre, l) := op_break l v in
      (pre ++ [AHandle; AMark MSpace], l)
  end.

(** formatting.rs 1623-1645: loop body of [logical_term] *)
Definition step_logical_term (l : locals) (v : view) : list action * locals :=
  match v_child v with
  | LN k =>
      ([call_w KLogicalFactor (l_w l) false true], l)
  | LT t =>
      let '(pre, l) := op_break l v in
      (pre ++ [AHandle; AMark MSpace], l)
  end.

(** formatting.rs 1647-1658: loop body of [logical_factor] *)
Definition step_logical_factor (l : locals) (v : view) : list action * locals :=
  match v_child v with
  | LN k =>
      ([call_w KRelation (l_w l) false true], l)
  | LT t =>
      ([AHandle; AMark MSpace], l)
  end.

(** formatting.rs 1660-1683: loop body of [relation] *)
Definition step_relation (l : locals) (v : view) : list action * locals :=
  match v_child v with
  | LN k =>
      if skind_eqb k KRelationalOperator then
        let '(pre, l) := op_break l v in
        (pre ++ [call KRelationalOperator; AMark MSpace], l)
      else ([call_w KArithmeticExpression (l_w l) false true], l)
  | LT t =>
      ([], l)
  end.

(** formatting.rs 1685-1691: loop body of [relational_operator] *)
Definition step_relational_operator (l : locals) (v : view) : list action * locals :=
  match v_child v with
  | LN k =>
      ([], l)
  | LT t =>
      ([AHandle], l)
  end.

(** formatting.rs 1693-1720: loop body of [arithmetic_expression] *)
Definition step_arithmetic_expression (l : locals) (v : view) : list action * locals :=
  match v_child v with
  | LN k =>
      if skind_eqb k KAddOperator then
        if v_idx v =? 0 then ([call KAddOperator], l)
        else
          let '(pre, l) := op_break l v in
          (pre ++ [call KAddOperator; AMark MSpace], l)
      else ([call_w KTerm (l_w l) false true], l)
  | LT t =>
      ([], l)
  end.

(** formatting.rs 1722-1728: loop body of [add_operator] *)
Definition step_add_operator (l : locals) (v : view) : list action * locals :=
  match v_child v with
  | LN k =>
      ([], l)
  | LT t =>
      ([AHandle], l)
  end.

(** formatting.rs 1730-1753: loop body of [term] *)
Definition step_term (l : locals) (v : view) : list action * locals :=
  match v_child v with
  | LN k =>
      if skind_eqb k KMulOperator then
        let '(pre, l) := op_break l v in
        (pre ++ [call KMulOperator; AMark MSpace], l)
      else ([call_w KFactor (l_w l) false true], l)
  | LT t =>
      ([], l)
  end.

(** formatting.rs 1755-1761: loop body of [mul_operator] *)
Definition step_mul_operator (l : locals) (v : view) : list action * locals :=
  match v_child v with
  | LN k =>
      ([], l)
  | LT t =>
      ([AHandle], l)
  end.

(** formatting.rs 1763-1785: loop body of [factor] *)
Definition step_factor (l : locals) (v : view) : list action * locals :=
  match v_child v with
  | LN k =>
      ([call_w KPrimary (l_w l) false true], l)
  | LT t =>
      let '(pre, l) := op_break l v in
      (pre ++ [AHandle; AMark MSpace], l)
  end.

(** formatting.rs 1787-1841: loop body of [primary] *)
Definition step_primary (l : locals) (v : view) : list action * locals :=
  match v_child v with
  | LN k =>
      match k with
      | KComponentReference => ([call KComponentReference], l)
      | KFunctionCallArgs => ([call KFunctionCallArgs], l)
      | KArraySubscripts => ([call KArraySubscripts], l)
      | KArrayArguments => ([call_ml KArrayArguments (l_ml l)], l)
      | KExpressionList => ([call_ml KExpressionList (l_ml l && l_cnt l)], l)
      | KOutputExpressionList => ([call_w KOutputExpressionList (l_w l) false true], l)
      | _ => (unreachable, l)
      end
  | LT t =>
      if memk t [TUInt; TUReal; TString; TBool; TDer; TInitial; TPure; TEnd] then ([AHandle], l)
      else if tkind_eqb t TSemicolon then
        match v_peek v with
        | None => ([AHandle; APanic PUnwrap], l)
        | Some (LN _) => ([AHandle; bos (l_ml l) TPeek], l)
        | Some (LT _) => ([AHandle], l)
        end
      else if memk t [TLCurly; TLBracket] then
        ([AHandle; AMark MIndent]
         ++ (if l_ml l then
               match v_peek v with
               | None => [APanic PUnwrap]
               | Some (LN _) => [ABreak TPeek Illegal]
               | Some (LT _) => []
               end
             else []), l)
      else if memk t [TRCurly; TRBracket] then ([AMark MDedent; AHandle], l)
      else if memk t [TLParen; TRParen] then ([AHandle], l)
      else (unreachable, l)
  end.

(** formatting.rs 1843-1850: loop body of [type_specifier] *)
Definition step_type_specifier (l : locals) (v : view) : list action * locals :=
  match v_child v with
  | LN k =>
      ([call KName], l)
  | LT t =>
      ([AHandle], l)
  end.

(** formatting.rs 1852-1858: loop body of [name] *)
Definition step_name (l : locals) (v : view) : list action * locals :=
  match v_child v with
  | LN k =>
      ([], l)
  | LT t =>
      ([AHandle], l)
  end.

(** formatting.rs 1860-1867: loop body of [component_reference] *)
Definition step_component_reference (l : locals) (v : view) : list action * locals :=
  match v_child v with
  | LN k =>
      ([call KArraySubscripts], l)
  | LT t =>
      ([AHandle], l)
  end.

(** formatting.rs 1869-1882: loop body of [result_reference] *)
Definition step_result_reference (l : locals) (v : view) : list action * locals :=
  match v_child v with
  | LN k =>
      ([call KComponentReference], l)
  | LT t =>
      ([AHandle] ++ (if tkind_eqb t TComma then [AMark MSpace] else []), l)
  end.

(** formatting.rs 1884-1903: loop body of [function_call_args] *)
Definition step_function_call_args (l : locals) (v : view) : list action * locals :=
  match v_child v with
  | LN k =>
      ([call_ml KFunctionArguments (l_ml l)], l)
  | LT t =>
      if tkind_eqb t TLParen && l_ml l then
        match v_peek v with
        | None => ([AHandle; APanic PUnwrap], l)
        | Some (LN _) => ([AHandle; ABreak TPeek Illegal], l)
        | Some (LT _) => ([AHandle], l)
        end
      else ([AHandle], l)
  end.

(** formatting.rs 1905-1930: loop body of [function_arguments] *)
Definition step_function_arguments (l : locals) (v : view) : list action * locals :=
  match v_child v with
  | LN k =>
      match k with
      | KExpression => ([call_w KExpression false false false], l)
      | KFunctionPartialApplication => ([call KFunctionPartialApplication], l)
      | KForIndices => ([call KForIndices], l)
      | KFunctionArgumentsNonFirst => ([bos (l_ml l) TSelf; call_ml KFunctionArgumentsNonFirst (l_ml l)], l)
      | KNamedArguments => ([call_ml KNamedArguments (l_ml l)], l)
      | _ => (unreachable, l)
      end
  | LT t =>
      if tkind_eqb t TFor then ([bos (l_ml l) TSelf; AHandle; AMark MSpace], l)
      else ([AHandle], l)
  end.

(** formatting.rs 1932-1947: loop body of [function_arguments_non_first] *)
Definition step_function_arguments_non_first (l : locals) (v : view) : list action * locals :=
  match v_child v with
  | LN k =>
      match k with
      | KFunctionArgument => ([call KFunctionArgument], l)
      | KFunctionArgumentsNonFirst => ([bos (l_ml l) TSelf; call_ml KFunctionArgumentsNonFirst (l_ml l)], l)
      | KNamedArguments => ([call_ml KNamedArguments (l_ml l)], l)
      | _ => (unreachable, l)
      end
  | LT t =>
      ([AHandle], l)
  end.

(** formatting.rs 1949-1972: loop body of [array_arguments] *)
Definition step_array_arguments (l : locals) (v : view) : list action * locals :=
  match v_child v with
  | LN k =>
      match k with
      | KExpression => ([call_w KExpression false false false], l)
      | KArrayArgumentsNonFirst => ([bos (l_ml l) TSelf; call_ml KArrayArgumentsNonFirst (l_ml l)], l)
      | KForIndices => ([call KForIndices], l)
      | _ => (unreachable, l)
      end
  | LT t =>
      if tkind_eqb t TFor then ([bos (l_ml l) TSelf; AHandle; AMark MSpace], l)
      else ([AHandle], l)
  end.

(** formatting.rs 1974-1988: loop body of [array_arguments_non_first] *)
Definition step_array_arguments_non_first (l : locals) (v : view) : list action * locals :=
  match v_child v with
  | LN k =>
      match k with
      | KExpression => ([call_w KExpression false false false], l)
      | KArrayArgumentsNonFirst => ([bos (l_ml l) TSelf; call_ml KArrayArgumentsNonFirst (l_ml l)], l)
      | _ => (unreachable, l)
      end
  | LT t =>
      ([AHandle], l)
  end.

(** formatting.rs 1990-2004: loop body of [named_arguments] *)
Definition step_named_arguments (l : locals) (v : view) : list action * locals :=
  match v_child v with
  | LN k =>
      match k with
      | KNamedArgument => ([call KNamedArgument], l)
      | KNamedArguments => ([bos (l_ml l) TSelf; call_ml KNamedArguments (l_ml l)], l)
      | _ => (unreachable, l)
      end
  | LT t =>
      ([AHandle], l)
  end.

(** formatting.rs 2006-2025: loop body of [named_argument] *)
Definition step_named_argument (l : locals) (v : view) : list action * locals :=
  match v_child v with
  | LN k =>
      ((if v_mlif v then [AMark MIndent] else [])
           ++ [bos (v_mlif v) TSelf; call KFunctionArgument]
           ++ (if v_mlif v then [AMark MDedent] else []), l)
  | LT t =>
      ((if tkind_eqb t TEqual then [AMark MSpace] else []) ++ [AHandle], l)
  end.

(** formatting.rs 2027-2037: loop body of [function_argument] *)
Definition step_function_argument (l : locals) (v : view) : list action * locals :=
  match v_child v with
  | LN k =>
      match k with
      | KFunctionPartialApplication => ([call KFunctionPartialApplication], l)
      | KExpression => ([call_w KExpression false false false], l)
      | _ => (unreachable, l)
      end
  | LT t =>
      ([], l)
  end.

(** formatting.rs 2039-2077: loop body of [function_partial_application] *)
Definition step_function_partial_application (l : locals) (v : view) : list action * locals :=
  match v_child v with
  | LN k =>
      match k with
      | KTypeSpecifier => ([AMark MSpace; call KTypeSpecifier], l)
      | KNamedArguments => ([call_ml KNamedArguments (l_ml l)], l)
      | _ => (unreachable, l)
      end
  | LT t =>
      if tkind_eqb t TLParen && l_ml l then
        match v_peek v with
        | None => ([AHandle; APanic PUnwrap], l)
        | Some (LN _) => ([AHandle; ABreak TPeek Illegal], l)
        | Some (LT _) => ([AHandle], l)
        end
      else ([AHandle], l)
  end.

(** formatting.rs 2079-2093: loop body of [output_expression_list] *)
Definition step_output_expression_list (l : locals) (v : view) : list action * locals :=
  match v_child v with
  | LN k =>
      ([call_w KExpression (l_w l) true true], l)
  | LT t =>
      ((if tkind_eqb (v_prev v) TLParen then [AMark MSpace] else []) ++ [AHandle; AMark MSpace], l)
  end.

(** formatting.rs 2095-2113: loop body of [expression_list] *)
Definition step_expression_list (l : locals) (v : view) : list action * locals :=
  match v_child v with
  | LN k =>
      ([call_w KExpression false false false], l)
  | LT t =>
      match v_peek v with
      | None => ([AHandle; APanic PUnwrap], l)
      | Some (LN _) => ([AHandle; bos (l_ml l) TPeek], l)
      | Some (LT _) => ([AHandle], l)
      end
  end.

(** formatting.rs 2115-2138: loop body of [array_subscripts] *)
Definition step_array_subscripts (l : locals) (v : view) : list action * locals :=
  match v_child v with
  | LN k =>
      ([call KSubscript], l)
  | LT t =>
      if tkind_eqb t TLBracket && l_ml l then
        match v_peek v with
        | None => ([AHandle; APanic PUnwrap], l)
        | Some (LN _) => ([AHandle; ABreak TPeek Illegal], l)
        | Some (LT _) => ([AHandle], l)
        end
      else if tkind_eqb t TComma then
        match v_peek v with
        | None => ([AHandle; APanic PUnwrap], l)
        | Some (LN _) => ([AHandle; bos (l_ml l) TPeek], l)
        | Some (LT _) => ([AHandle], l)
        end
      else ([AHandle], l)
  end.

(** formatting.rs 2140-2147: loop body of [subscript] *)
Definition step_subscript (l : locals) (v : view) : list action * locals :=
  match v_child v with
  | LN k =>
      ([call_w KExpression false false false], l)
  | LT t =>
      ([AHandle], l)
  end.

(** formatting.rs 2149-2164: loop body of [description] *)
Definition step_description (l : locals) (v : view) : list action * locals :=
  match v_child v with
  | LN k =>
      match k with
      | KDescriptionString => ([call KDescriptionString], l)
      | KAnnotationClause => ((if v_idx v =? 0 then [] else [ABreak TSelf Illegal]) ++ [call KAnnotationClause], l)
      | _ => (unreachable, l)
      end
  | LT t =>
      ([], l)
  end.

(** formatting.rs 2166-2183: loop body of [description_string] *)
Definition step_description_string (l : locals) (v : view) : list action * locals :=
  match v_child v with
  | LN k =>
      ([], l)
  | LT t =>
      if tkind_eqb t TPlus then ([bos (l_ml l) TSelf; AHandle; AMark MSpace], l)
      else if tkind_eqb t TString then ([AHandle], l)
      else (unreachable, l)
  end.

(** formatting.rs 2185-2197: loop body of [annotation_clause] *)
Definition step_annotation_clause (l : locals) (v : view) : list action * locals :=
  match v_child v with
  | LN k =>
      ([call KClassModification], l)
  | LT t =>
      ([AHandle; AMark MSpace], l)
  end.

Definition step (fn : skind) : locals -> view -> list action * locals :=
  match fn with
  | KError => fun l _ => ([], l)
  | KStoredDefinition => step_stored_definition
  | KClassDefinition => step_class_definition
  | KClassPrefixes => step_class_prefixes
  | KClassSpecifier => step_class_specifier
  | KLongClassSpecifier => step_long_class_specifier
  | KShortClassSpecifier => step_short_class_specifier
  | KDerClassSpecifier => step_der_class_specifier
  | KBasePrefix => step_base_prefix
  | KEnumList => step_enum_list
  | KEnumerationLiteral => step_enumeration_literal
  | KComposition => step_composition
  | KLanguageSpecification => step_language_specification
  | KExternalFunctionCall => step_external_function_call
  | KElementList => step_element_list
  | KElement => step_element
  | KImportClause => step_import_clause
  | KImportList => step_import_list
  | KExtendsClause => step_extends_clause
  | KConstrainingClause => step_constraining_clause
  | KClassOrInheritanceModification => step_class_or_inheritance_modification
  | KArgumentOrInheritanceModificationList => step_argument_or_inheritance_modification_list
  | KInheritanceModification => step_inheritance_modification
  | KComponentClause => step_component_clause
  | KTypePrefix => step_type_prefix
  | KComponentList => step_component_list
  | KComponentDeclaration => step_component_declaration
  | KConditionAttribute => step_condition_attribute
  | KDeclaration => step_declaration
  | KModification => step_modification
  | KModificationExpression => step_modification_expression
  | KClassModification => step_class_modification
  | KArgumentList => step_argument_list
  | KArgument => step_argument
  | KElementModificationOrReplaceable => step_element_modification_or_replaceable
  | KElementModification => step_element_modification
  | KElementRedeclaration => step_element_redeclaration
  | KElementReplaceable => step_element_replaceable
  | KComponentClause1 => step_component_clause1
  | KComponentDeclaration1 => step_component_declaration1
  | KShortClassDefinition => step_short_class_definition
  | KEquationSection => step_equation_section
  | KAlgorithmSection => step_algorithm_section
  | KEquation => step_equation
  | KStatement => step_statement
  | KIfEquation => step_if_equation
  | KIfStatement => step_if_statement
  | KForEquation => step_for_equation
  | KForStatement => step_for_statement
  | KForIndices => step_for_indices
  | KForIndex => step_for_index
  | KWhileStatement => step_while_statement
  | KWhenEquation => step_when_equation
  | KWhenStatement => step_when_statement
  | KConnectEquation => step_connect_equation
  | KExpression => step_expression
  | KSimpleExpression => step_simple_expression
  | KLogicalExpression => step_logical_expression
  | KLogicalTerm => step_logical_term
  | KLogicalFactor => step_logical_factor
  | KRelation => step_relation
  | KRelationalOperator => step_relational_operator
  | KArithmeticExpression => step_arithmetic_expression
  | KAddOperator => step_add_operator
  | KTerm => step_term
  | KMulOperator => step_mul_operator
  | KFactor => step_factor
  | KPrimary => step_primary
  | KTypeSpecifier => step_type_specifier
  | KName => step_name
  | KComponentReference => step_component_reference
  | KResultReference => step_result_reference
  | KFunctionCallArgs => step_function_call_args
  | KFunctionArguments => step_function_arguments
  | KFunctionArgumentsNonFirst => step_function_arguments_non_first
  | KArrayArguments => step_array_arguments
  | KArrayArgumentsNonFirst => step_array_arguments_non_first
  | KNamedArguments => step_named_arguments
  | KNamedArgument => step_named_argument
  | KFunctionArgument => step_function_argument
  | KFunctionPartialApplication => step_function_partial_application
  | KOutputExpressionList => step_output_expression_list
  | KExpressionList => step_expression_list
  | KArraySubscripts => step_array_subscripts
  | KSubscript => step_subscript
  | KDescription => step_description
  | KDescriptionString => step_description_string
  | KAnnotationClause => step_annotation_clause
  end.

(** Tree facts used before the loops. *)

(** First child token of kind [open], then the last child token of kind [close] after it:
    [close.start.line > open.start.line]; e.g. formatting.rs 321-335. *)
Fixpoint last_close (close : tkind) (open_line : N) (cs : list child) (acc : bool) : bool :=
  match cs with
  | [] => acc
  | CTok t :: cs' =>
      last_close close open_line cs'
        (if tkind_eqb (tkind_of t) close then open_line <? line (tstart t) else acc)
  | CTree _ _ :: cs' => last_close close open_line cs' acc
  end.
Fixpoint paren_multiline (open close : tkind) (cs : list child) : bool :=
  match cs with
  | [] => false
  | CTok t :: cs' =>
      if tkind_eqb (tkind_of t) open then last_close close (line (tstart t)) cs' false
      else paren_multiline open close cs'
  | CTree _ _ :: cs' => paren_multiline open close cs'
  end.

Definition unwrap {A} (o : option A) : res A :=
  match o with Some a => Ok a | None => Panic PUnwrap end.

Definition len_cmp (f : N -> bool) (cs : list child) : bool := f (N.of_nat (length cs)).

(** Statements before the loop. Arguments [ml], [w], [oel] are the parameters
    [is_multiline], [wrapped], [in_oel] of the Rust function (where it has them).
    The functions listed together do the same. *)
Definition prologue (fn : skind) (ml w oel : bool) (t : child) (cs : list child)
  : res (list marker * locals) :=
  let dflt := mkL ml w false oel false KError in
  match fn with
  (* short_class_specifier (318-382), der_class_specifier (384-435), function_partial_application (2039-2077) *)
  | KShortClassSpecifier | KDerClassSpecifier | KFunctionPartialApplication =>
      Ok ([], set_ml (paren_multiline TLParen TRParen cs) dflt)
  (* import_clause (651-700) *)
  | KImportClause => Ok ([], set_ml (paren_multiline TLCurly TRCurly cs) dflt)
  (* external_function_call (563-605) *)
  | KExternalFunctionCall => Ok ([MIndent], set_ml (paren_multiline TLParen TRParen cs) dflt)
  (* enum_list (445-461), import_list (702-714), argument_or_inheritance_modification_list (777-801),
     argument_list (974-990), expression_list (2095-2113) *)
  | KEnumList | KImportList | KArgumentOrInheritanceModificationList | KArgumentList
  | KExpressionList =>
      if ml then Ok ([], dflt) else m <- unwrap (is_multiline t) ;; Ok ([], set_ml m dflt)
  (* class_or_inheritance_modification (756-775) *)
  | KClassOrInheritanceModification =>
      m <- unwrap (is_multiline t) ;;
      Ok ([MIndent], set_ml (m && len_cmp (fun n => 2 <? n) cs) dflt)
  (* component_list (849-867) *)
  | KComponentList =>
      m <- unwrap (is_multiline t) ;;
      let b := m && len_cmp (fun n => 1 <? n) cs in
      Ok (if b then [MIndent] else [], set_ml b dflt)
  (* class_modification (951-972) *)
  | KClassModification =>
      m <- unwrap (is_multiline t) ;;
      Ok ([MIndent],
          set_ml (m || contains KDescriptionString t || contains KDescription t) dflt)
  (* component_clause1 (1079-1099) *)
  | KComponentClause1 =>
      Ok ([], mkL ml w false oel (len_cmp (fun n => 2 <? n) cs) KError)
  (* equation_section (1133-1158), algorithm_section (1160-1185) *)
  | KEquationSection | KAlgorithmSection => Ok ([MIndent], dflt)
  (* connect_equation (1521-1540), function_call_args (1884-1903), array_subscripts (2115-2138), description_string (2166-2183) *)
  | KConnectEquation | KFunctionCallArgs | KArraySubscripts | KDescriptionString =>
      m <- unwrap (is_multiline t) ;; Ok ([MIndent], set_ml m dflt)
  (* expression (1542-1583) *)
  | KExpression => m <- unwrap (is_multiline t) ;; Ok ([], set_ml m dflt)
  (* primary (1787-1841) *)
  | KPrimary =>
      m <- unwrap (is_multiline t) ;;
      Ok ([], mkL m w false oel (len_cmp (fun n => n =? 3) cs) KError)
  | _ => Ok ([], dflt)
  end.

(** Statements after the loop. *)
Definition epilogue (fn : skind) (l : locals) : list marker :=
  match fn with
  (* external_function_call (563-605), class_or_inheritance_modification (756-775), class_modification (951-972),
     equation_section (1133-1158), algorithm_section (1160-1185), connect_equation (1521-1540), function_call_args (1884-1903),
     array_subscripts (2115-2138), description_string (2166-2183) *)
  | KExternalFunctionCall | KClassOrInheritanceModification | KClassModification
  | KEquationSection | KAlgorithmSection | KConnectEquation | KFunctionCallArgs
  | KArraySubscripts | KDescriptionString => [MDedent]
  (* component_list (849-867) *)
  | KComponentList => if l_ml l then [MDedent] else []
  (* expression (1542-1583) *)
  | KExpression => if l_w l && negb (l_oel l) then [MDedent] else []
  | _ => []
  end.

Definition push_all (ms : list marker) (f : fstate) : fstate :=
  fold_left (fun f m => push m f) ms f.

Definition opt_true (o : option bool) : bool := match o with Some b => b | None => false end.

(** The view of child [c], the [i]-th one, with following siblings [cs]. On empty
    inner trees (which [build_tree] never produces) the Rust tests [is_multiline()] and
    [start()] would panic; the view has [false] there. *)
Definition view_of (f : fstate) (i : N) (c : child) (cs : list child) : view :=
  mkV (label_of c)
      (match cs with [] => None | p :: _ => Some (label_of p) end)
      (fprev f)
      (if i <? 3 then i else 3)
      (match cs with
       | [] => false
       | p :: _ => match start_of p with
                   | Some t => fline f <? line (tstart t)
                   | None => false
                   end
       end)
      (opt_true (is_multiline c)
       && match start_of c with Some t => tkind_eqb (tkind_of t) TIf | None => false end)
      (contains KDescription c)
      (match c with CTree _ [] => true | _ => false end)
      (match c with CTok t => 0 <? tidx t | _ => false end).

(** The functions themselves. [fmt fn ml w oel t f] runs the Rust function for [fn]
    on tree [t]; the result is [wrapped] (for functions that return it). *)
Fixpoint fmt (fn : skind) (ml w oel : bool) (t : child) (f : fstate) {struct t}
  : res (bool * fstate) :=
  match t with
  | CTok _ => Panic PUnreachable
  | CTree _ cs =>
      '(ms, l) <- prologue fn ml w oel t cs ;;
      '(l, f) <-
        (fix loop (cs : list child) (i : N) (l : locals) (f : fstate) {struct cs}
           : res (locals * fstate) :=
           match cs with
           | [] => Ok (l, f)
           | c :: cs' =>
               let '(acts, l) := step fn l (view_of f i c cs') in
               '(l, f) <-
                 (fix run (acts : list action) (l : locals) (f : fstate) {struct acts}
                    : res (locals * fstate) :=
                    match acts with
                    | [] => Ok (l, f)
                    | a :: acts' =>
                        '(l, f) <-
                          match a with
                          | AMark m => Ok (l, push m f)
                          | ABreak tg b =>
                              tok <- unwrap
                                (match tg with
                                 | TSelf => start_of c
                                 | TPeek => match cs' with
                                            | [] => None
                                            | p :: _ => start_of p
                                            end
                                 end) ;;
                              f <- handle_break tok b f ;; Ok (l, f)
                          | AHandle =>
                              match c with
                              | CTok tok => Ok (l, handle_token tok f)
                              | CTree _ _ => Panic PUnreachable
                              end
                          | ACall fn' ml' w' oel' keep =>
                              '(r, f) <- fmt fn' ml' w' oel' c f ;;
                              Ok (if keep : bool then set_w r l else l, f)
                          | APanic p => Panic p
                          end ;;
                        run acts' l f
                    end) acts l f ;;
               loop cs' (i + 1) l f
           end) cs 0 l (push_all ms f) ;;
      Ok (l_w l, push_all (epilogue fn l) f)
  end.

(** formatting.rs 14-113: [format]. *)
Definition format (t : child) (comments : list token) : res (list marker) :=
  match t with
  | CTok _ => Panic PUnreachable
  | CTree k _ =>
      '(_, f) <- fmt k false false false t (formatter_new comments) ;;
      Ok (rev (fmarks f))
  end.
