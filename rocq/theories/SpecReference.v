(** Specification: a reference formatter. It says, for every token of a syntax tree, if the token
    stands on the line of the previous one or starts a line, at which level of indentation that line
    starts, whether there is a blank line above it, and where comments go. It is written as rules about
    syntax trees, without markers, flags or states; compare code-style.md. *)
From Verif Require Import Base Tokens Syntax Tree SpecGrammar SpecLayout SpecNodes SpecGaps.

(** ** Positions *)

(** Blank lines above a line: one in any case, as in the source (several become one), or none. *)
Inductive blanks := Always | Kept | Never.

Inductive position :=
| Beside              (* on the line of the previous token; [tight] tells if there is a space *)
| Attached            (* the same, without space: after a sign *)
| Detached            (* the same, with a space: after binary [+] and [-] *)
| Below (b : blanks).  (* at the beginning of a line *)

(** A token with the rule of its node, its position, and the level of indentation it has at the
    beginning of a line. *)
Record spot := mkAt { at_rule : skind; at_tok : token; at_pos : position; at_level : nat }.

Definition kind_of (c : child) : sym := match c with CTok t => Term (tkind_of t) | CTree k _ => Rule k end.
Definition one_if (b : bool) : nat := if b then 1 else 0.

(** ** The layout of the source, as far as it matters *)

(** A node that spans lines of the source. *)
Definition spans (c : child) : bool := first_line c <? last_line c.
(** The brackets among the children stand on different lines. *)
Definition brackets_apart (k : skind) (cs : list child) : bool :=
  existsb (fun o => existsb (fun c =>
    match o, c with
    | CTok a, CTok b => opens k a && closes k b && (line (tstart a) <? line (tstart b))
    | _, _ => false
    end) cs) cs.
(** There is a node of kind [k] in [c]. *)
Fixpoint holds (k : skind) (c : child) : bool :=
  match c with CTok _ => false | CTree k' cs => skind_eqb k k' || existsb (holds k) cs end.

(** [wide k cs inherited]: the elements of the list in this node stand on lines of their own, and
    likewise for the branches of [if] expressions, and parts of descriptions. Lists that are nodes of
    their own [inherit] this from the node with the brackets. *)
Definition wide (k : skind) (cs : list child) (inherited : bool) : bool :=
  match k with
  | KFunctionArguments | KFunctionArgumentsNonFirst | KNamedArguments
  | KArrayArguments | KArrayArgumentsNonFirst => inherited
  | KEnumList | KImportList | KArgumentOrInheritanceModificationList | KArgumentList | KExpressionList =>
      inherited || spans (CTree k cs)
  | KDerClassSpecifier | KFunctionPartialApplication | KExternalFunctionCall | KImportClause =>
      brackets_apart k cs
  | KShortClassSpecifier =>
      brackets_apart k cs ||
      existsb (fun d => match d with CTree KEnumList _ => holds KDescription d | _ => false end) cs
  | KClassModification =>
      spans (CTree k cs) || holds KDescription (CTree k cs) || holds KDescriptionString (CTree k cs)
  | KComponentList => spans (CTree k cs) && Nat.ltb 1 (length cs)
  | KClassOrInheritanceModification => spans (CTree k cs) && Nat.ltb 2 (length cs)
  | KFunctionCallArgs | KArraySubscripts | KConnectEquation | KPrimary
  | KExpression | KDescriptionString => spans (CTree k cs)
  | _ => false
  end.
(** What the children inherit: the rows of a matrix only if there is just one. *)
Definition bequeathed (k : skind) (w : bool) (cs : list child) (d : child) : bool :=
  match k, d with
  | KPrimary, CTree KExpressionList _ => w && Nat.eqb (length cs) 3
  | _, _ => w
  end.

(** A multi-line [if] as a value. *)
Definition multi_if (d : child) : bool :=
  spans d && match toks d with t :: _ => tkind_eqb (tkind_of t) TIf | [] => false end.

(** [turns k prev d v]: [d] is an operator whose operands stand on different lines. *)
Definition operates (k : skind) (d : sym) : bool :=
  match k, d with
  | KLogicalExpression, Term _ | KLogicalTerm, Term _ | KFactor, Term _
  | KRelation, Rule KRelationalOperator | KArithmeticExpression, Rule KAddOperator
  | KTerm, Rule KMulOperator => true
  | _, _ => false
  end.
Definition turns (k : skind) (prev : option child) (d : child) (v : list child) : bool :=
  match prev, v with
  | Some a, b :: _ => operates k (kind_of d) && (last_line a <? first_line b)
  | _, _ => false
  end.

(** ** Positions of children *)
Definition value (k : skind) (d : sym) : bool :=
  match k, d with
  | KModification, Rule KModificationExpression | KNamedArgument, Rule KFunctionArgument
  | KEquation, Rule KExpression | KStatement, Rule KExpression => true
  | _, _ => false
  end.
Definition block (k : skind) : bool :=
  match k with
  | KIfEquation | KIfStatement | KForEquation | KForStatement
  | KWhenEquation | KWhenStatement | KWhileStatement => true
  | _ => false
  end.
Definition branch (prev : option sym) : bool :=
  match prev with Some (Term TThen) | Some (Term TElse) => true | _ => false end.
Definition external_part (prev : option sym) : bool :=
  match prev with
  | Some (Term TExternal) | Some (Rule KLanguageSpecification) | Some (Rule KExternalFunctionCall) => true
  | _ => false
  end.
(** The next element of a list: after a separator, or the first one after an opening bracket. *)
Definition element (k : skind) (prev : option sym) (d : sym) : bool :=
  match prev with
  | Some (Term TComma) | Some (Term TSemicolon) => true
  | Some (Term b) => opening k b && match d with Rule _ => true | Term _ => false end
  | _ => false
  end.

(** What stands at the end of declarations, equations and classes. *)
Definition trailing (d : sym) : bool :=
  match d with
  | Rule KDescription | Rule KDescriptionString | Rule KAnnotationClause | Rule KConstrainingClause => true
  | _ => false
  end.
Definition statement (d : sym) : bool :=
  match d with Rule KEquation | Rule KStatement => true | _ => false end.
Definition block_word (d : sym) : bool :=
  match d with Term TElse | Term TElseIf | Term TElseWhen | Term TEnd => true | _ => false end.
Definition after_semicolon (prev : option sym) : bool :=
  match prev with Some (Term TSemicolon) => true | _ => false end.

(** Children that start a line in the nodes where this depends on their kind only. *)
Definition fixed_position (k : skind) (prev : option sym) (d : sym) : option position :=
  match k with
  | KStoredDefinition =>
      match d with
      | Term TFinal => Some (Below Kept)
      | Rule _ => Some (if after_semicolon prev then Below Kept else Beside)
      | _ => None
      end
  | KComposition =>
      match d with
      | Term TSemicolon | Rule KLanguageSpecification => Some Beside
      | Rule KAnnotationClause => Some (Below (if external_part prev then Never else Always))
      | _ => Some (Below Always)
      end
  | KLongClassSpecifier => match d with Term TEnd => Some (Below Always) | _ => None end
  | KElementList =>
      match d, prev with Rule _, Some _ => Some (Below Kept) | _, _ => None end
  | KEquationSection | KAlgorithmSection =>
      if statement d then Some (Below (if after_semicolon prev then Kept else Always)) else None
  | KIfEquation | KIfStatement | KForEquation | KForStatement
  | KWhenEquation | KWhenStatement | KWhileStatement =>
      if statement d || block_word d then Some (Below Kept) else None
  | _ => None
  end.

(** Children that start a line, without blank line, if their node is [wide]. *)
Definition spread_position (k : skind) (prev : option sym) (d : sym) : bool :=
  match k with
  | KExpression => match d with Rule KExpression => branch prev | Term TElse | Term TElseIf => true | _ => false end
  | KDescriptionString => match d with Term TPlus => true | _ => false end
  | KComponentList | KConnectEquation => match d with Rule _ => true | Term _ => false end
  | KFunctionArguments | KArrayArguments => match d with Term TFor => true | _ => element k prev d end
  | _ => element k prev d
  end.

(** [wide], [turn], [multi]: see above; [late]: the token is not the first item of the source;
    [second]: there is just one child before. *)
Definition position_of (k : skind) (wide turn multi late second : bool) (prev : option sym) (d : sym) : position :=
  match fixed_position k prev d with
  | Some p => p
  | None =>
      if (trailing d && match prev with Some _ => true | None => false end)
         || (value k d && multi) || turn || (wide && spread_position k prev d)
         || (late && match d with Term TWithin => true | _ => false end)
      then Below Never
      else match prev with
           | Some (Rule KAddOperator) => if second then Attached else Detached
           | _ => Beside
           end
  end.

(** Levels of indentation a child has in addition to those of its node. *)
Definition indented (k : skind) (wide : bool) : bool :=
  match k with
  | KEquationSection | KAlgorithmSection | KExternalFunctionCall
  | KClassModification | KClassOrInheritanceModification | KFunctionCallArgs | KArraySubscripts
  | KConnectEquation | KDescriptionString => true
  | KComponentList => wide
  | _ => false
  end.
Definition deeper (k : skind) (wide multi : bool) (prev : option sym) (d : sym) : nat :=
  one_if (indented k wide) +
  match k with
  | KComposition =>
      match d with
      | Rule KElementList | Rule KExternalFunctionCall => 1
      | Rule KAnnotationClause => if external_part prev then 2 else 1
      | _ => 0
      end
  | KDescription => 0
  | KPrimary => match d with Rule KArrayArguments | Rule KExpressionList => 1 | _ => 0 end
  | KExpression => match d with Rule KExpression => one_if (branch prev) | _ => 0 end
  | KDerClassSpecifier =>
      match d with Rule KTypeSpecifier => 1 | Rule _ => one_if (trailing d) | Term _ => one_if (element k prev d) end
  | _ =>
      one_if (trailing d || (block k && statement d) || (value k d && multi)
              || (wide && match d with Rule KEnumList | Rule KImportList => true | _ => false end))
  end.

(** ** Wrapped expressions

    From the first operator at the beginning of a line on, the lines of an expression are indented by
    one level more. Operands and results in parentheses belong to the expression around them. *)
Definition continues (k : skind) (d : child) : bool :=
  match k, d with
  | KExpression, CTree KSimpleExpression _ | KSimpleExpression, CTree KLogicalExpression _
  | KLogicalExpression, CTree KLogicalTerm _ | KLogicalTerm, CTree KLogicalFactor _
  | KLogicalFactor, CTree KRelation _ | KRelation, CTree KArithmeticExpression _
  | KArithmeticExpression, CTree KTerm _ | KTerm, CTree KFactor _ | KFactor, CTree KPrimary _
  | KPrimary, CTree KOutputExpressionList _ | KOutputExpressionList, CTree KExpression _ => true
  | _, _ => false
  end.
Fixpoint wraps (c : child) : bool :=
  match c with
  | CTok _ => false
  | CTree k cs =>
      (fix go (prev : option child) (cs : list child) : bool :=
         match cs with
         | [] => false
         | d :: v => turns k prev d v || (continues k d && wraps d) || go (Some d) v
         end) None cs
  end.

(** On the left-hand sides of equations and assignments the program never takes that indentation back:
    everything that follows is indented by one more level, up to the end of the file. *)
Definition keeps_level (k : skind) (d : child) : bool :=
  match k, d with
  | KEquation, CTree KSimpleExpression _ | KStatement, CTree KOutputExpressionList _ => wraps d
  | _, _ => false
  end.
Fixpoint leak (c : child) : nat :=
  match c with
  | CTok _ => O
  | CTree k cs =>
      (fix go (cs : list child) : nat :=
         match cs with [] => O | d :: v => (leak d + one_if (keeps_level k d) + go v)%nat end) cs
  end.

(** ** All tokens of a tree

    [q]: the rule to which [c] belongs if it is a token; [pos], [first]: position and level of its first
    token; [n]: level of indentation; [on]: [c] continues an expression that has been wrapped. *)
Definition after_first (u : list child) : bool := match u with [_] => true | _ => false end.
Definition last_of (u : list child) : option child := match u with [] => None | a :: _ => Some a end.
Definition is_late (d : child) : bool := match d with CTok t => 0 <? tidx t | CTree _ _ => false end.
Definition kind_last (u : list child) : option sym := match u with [] => None | a :: _ => Some (kind_of a) end.

Fixpoint spots (q : skind) (pos : position) (first n : nat) (on inherited : bool) (c : child) : list spot :=
  match c with
  | CTok t => [mkAt q t pos first]
  | CTree k cs =>
      let w := wide k cs inherited in
      (fix go (u : list child) (n : nat) (on : bool) (v : list child) : list spot :=
         match v with
         | [] => []
         | d :: v' =>
             let turn := turns k (last_of u) d v' in
             let on := on || turn in
             let p := position_of k w turn (multi_if d) (is_late d) (after_first u) (kind_last u) (kind_of d) in
             let m := (n + deeper k w (multi_if d) (kind_last u) (kind_of d))%nat in
             let lvl := (m + one_if on)%nat in
             let new := match u, p with [], Below _ => true | [], _ => false | _, _ => true end in
             spots k (if new then p else pos) (if new then lvl else first)
               (if continues k d then m else lvl) (continues k d && on) (bequeathed k w cs d) d
             ++ go (d :: u) (n + leak d + one_if (keeps_level k d))%nat
                   (on || (continues k d && wraps d)) v'
         end) [] n on cs
  end.

(** ** Comments

    Comments stand behind the token after which they were found on the same line, or else on lines of
    their own. They get lost where no line starts, and at the end of the file. *)
Definition is_comment (t : token) : bool :=
  match tkind_of t with TLineComment | TBlockComment => true | _ => false end.
(** A blank line between items that end and start on these lines. *)
Definition gap_between (a b : N) : bool := 1 <? b - a.
Fixpoint rows (b : blanks) (n : nat) (ln : N) (cs : list token) (r : skind) (t : token) : layout :=
  match cs with
  | [] =>
      [mkE (WLine (match b with Always => true | Kept => gap_between ln (line (tstart t)) | Never => false end) n)
           (Some r) t]
  | c :: cs' =>
      mkE (WLine (match b with Always => true | _ => gap_between ln (line (tstart c)) end) n) None c
      :: rows (match b with Always => Kept | _ => b end) n (line (tend c)) cs' r t
  end.
Definition behind (first : bool) (cs : list token) : layout :=
  match cs with
  | [] => []
  | c :: cs' => mkE (if first then WNone else WSpace) None c :: map (mkE WSpace None) cs'
  end.

(** [prev]: the previous token with its rule; [ln]: the line on which it ends; [cs]: the comments since. *)
Definition put (prev : option (skind * tkind)) (ln : N) (cs : list token) (x : spot) : layout :=
  let r := at_rule x in let t := at_tok x in
  match at_pos x with
  | Beside =>
      [mkE (match prev with
            | None => WNone
            | Some (_, a) => if tight a r (tkind_of t) then WNone else WSpace
            end) (Some r) t]
  | Attached => [mkE WNone (Some r) t]
  | Detached => [mkE WSpace (Some r) t]
  | Below b =>
      behind (match prev with None => true | Some _ => false end) (filter (fun c => line (tstart c) =? ln) cs)
      ++ rows b (at_level x) ln (filter (fun c => negb (line (tstart c) =? ln)) cs) r t
  end.
Fixpoint weave (prev : option (skind * tkind)) (ln : N) (cs : list token) (items : list token) (xs : list spot)
  : layout :=
  match items with
  | [] => []
  | t :: items' =>
      if is_comment t then weave prev ln (cs ++ [t]) items' xs
      else match xs with
           | [] => []
           | x :: xs' =>
               put prev ln cs x ++ weave (Some (at_rule x, tkind_of t)) (line (tend t)) [] items' xs'
           end
  end.

(** The layout of a file with the given syntax tree, tokens and comments. *)
Definition reference (tree : child) (items : list token) : layout :=
  weave None 1 [] items (spots KStoredDefinition Beside 0 0 false false tree).
