(** Specification for C99: line breaks that matter, and line breaks that do not. *)
From Verif Require Import Base Tokens Syntax Tree SpecNodes.

(** Lists, expressions and descriptions: whether they are written on one line or on several is up to the source. *)
Definition delicate (k : skind) (cs : list child) : bool :=
  match k with
  | KEnumList | KImportList | KArgumentOrInheritanceModificationList | KArgumentList | KExpressionList
  | KClassModification | KFunctionCallArgs | KArraySubscripts | KConnectEquation
  | KPrimary | KFactor | KTerm | KArithmeticExpression | KRelation | KLogicalTerm | KLogicalExpression | KExpression
  | KModificationExpression | KFunctionArgument | KDescriptionString => true
  | KComponentList => Nat.ltb 1 (length cs)
  | KClassOrInheritanceModification => Nat.ltb 2 (length cs)
  | _ => false
  end.
(** In these nodes only what stands between the brackets counts. *)
Definition bracketed (k : skind) : bool :=
  match k with
  | KDerClassSpecifier | KFunctionPartialApplication | KExternalFunctionCall | KImportClause | KShortClassSpecifier => true
  | _ => false
  end.
Definition is_opening (k : skind) (c : child) : bool := match c with CTok t => opens k t | CTree _ _ => false end.
Definition is_closing (k : skind) (c : child) : bool := match c with CTok t => closes k t | CTree _ _ => false end.
Definition in_brackets (k : skind) (u : list child) : bool :=
  bracketed k && existsb (is_opening k) u && negb (existsb (is_closing k) u).

(** For every token of a tree: does it belong together with the token in front of it to such a list or expression?
    [deep]: the tree is part of one; [b]: the answer for its first token. *)
Fixpoint tied (deep b : bool) (c : child) : list bool :=
  match c with
  | CTok _ => [b]
  | CTree k cs =>
      (fix go (u v : list child) : list bool :=
         match v with
         | [] => []
         | d :: v' =>
             let here := deep || delicate k cs || in_brackets k u in
             tied here (match u with [] => b | _ => here end) d ++ go (d :: u) v'
         end) [] cs
  end.

(** Behind these tokens an empty line is kept. *)
Definition ending (k : tkind) : bool := match k with TSemicolon | TThen | TElse | TLoop => true | _ => false end.
Definition remark (t : token) : bool := match tkind_of t with TLineComment | TBlockComment => true | _ => false end.
(** The number of line breaks between items. *)
Definition breaks (x y : token) : N := line (tstart y) - line (tend x).
(** Two sequences of the same items behind [x] and [x'] whose line breaks differ only where it does not matter:
    next to comments, none, one and more line breaks are different things; between tokens that belong together, none
    and some are; otherwise just one or none and more, and only behind certain tokens. *)
Inductive loose : token -> token -> list bool -> list token -> list token -> Prop :=
| loose_nil x x' : loose x x' [] [] []
| loose_comment x x' bs y y' r r' :
    remark y = true -> tkind_of y' = tkind_of y -> ttext y' = ttext y ->
    N.min 2 (breaks x y) = N.min 2 (breaks x' y') ->
    loose y y' bs r r' -> loose x x' bs (y :: r) (y' :: r')
| loose_token x x' b bs y y' r r' :
    remark y = false -> tkind_of y' = tkind_of y -> ttext y' = ttext y ->
    (remark x = true -> N.min 2 (breaks x y) = N.min 2 (breaks x' y')) ->
    (b = true -> (0 <? breaks x y) = (0 <? breaks x' y')) ->
    (b = false -> ending (tkind_of x) = true -> (1 <? breaks x y) = (1 <? breaks x' y')) ->
    loose y y' bs r r' -> loose x x' (b :: bs) (y :: r) (y' :: r').
(** Whole files: the first item starts on the first, the second or a later line of both. *)
Inductive loosely : list bool -> list token -> list token -> Prop :=
| loosely_nil : loosely [] [] []
| loosely_comment bs y y' r r' :
    remark y = true -> tkind_of y' = tkind_of y -> ttext y' = ttext y ->
    N.min 3 (line (tstart y)) = N.min 3 (line (tstart y')) -> loose y y' bs r r' -> loosely bs (y :: r) (y' :: r')
| loosely_token b bs y y' r r' :
    remark y = false -> tkind_of y' = tkind_of y -> ttext y' = ttext y ->
    N.min 3 (line (tstart y)) = N.min 3 (line (tstart y')) -> loose y y' bs r r' -> loosely (b :: bs) (y :: r) (y' :: r').
