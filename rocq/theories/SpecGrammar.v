(** Specification: the concrete syntax of Modelica (Modelica Language Specification,
    appendix "Concrete Syntax") as regular right-hand sides over terminals and rules,
    written from the language definition and not from the parser. *)
From Verif Require Import Base Tokens Syntax Tree.

Inductive sym := Term (k : tkind) | Rule (k : skind).

Inductive rx :=
| Void | Eps
| Sy (x : sym)
| Cat (a b : rx)
| Alt (a b : rx)
| Star (a : rx).

(** Words of an expression. *)
Inductive lang : rx -> list sym -> Prop :=
| l_eps : lang Eps []
| l_sy x : lang (Sy x) [x]
| l_cat a b u v : lang a u -> lang b v -> lang (Cat a b) (u ++ v)
| l_altl a b u : lang a u -> lang (Alt a b) u
| l_altr a b u : lang b u -> lang (Alt a b) u
| l_star0 a : lang (Star a) []
| l_star a u v : lang a u -> lang (Star a) v -> lang (Star a) (u ++ v).

(** EBNF: sequence, choice, [ ... ] and { ... }. *)
Local Notation t k := (Sy (Term k)).
Local Notation n k := (Sy (Rule k)).
Fixpoint sq (l : list rx) : rx :=
  match l with [] => Eps | [r] => r | r :: l' => Cat r (sq l') end.
Fixpoint alt (l : list rx) : rx :=
  match l with [] => Void | [r] => r | r :: l' => Alt r (alt l') end.
Definition opt (l : list rx) : rx := Alt Eps (sq l).
Definition many (l : list rx) : rx := Star (sq l).

(** The productions. [strict = true] is the published grammar. The tool's grammar
    ([strict = false]) differs in one production: an equation may be any simple
    expression, where the published grammar has a function call. *)
Definition production (strict : bool) (k : skind) : rx :=
  match k with
  | KError => Void
  | KStoredDefinition =>
      sq [opt [t TWithin; opt [n KName]; t TSemicolon];
          many [opt [t TFinal]; n KClassDefinition; t TSemicolon]]
  | KClassDefinition =>
      sq [opt [t TEncapsulated]; n KClassPrefixes; n KClassSpecifier]
  | KClassPrefixes =>
      sq [opt [t TPartial];
          alt [t TClass; t TModel; sq [opt [t TOperator]; t TRecord]; t TBlock;
               sq [opt [t TExpandable]; t TConnector]; t TType; t TPackage;
               sq [opt [alt [t TPure; t TImpure]]; opt [t TOperator]; t TFunction];
               t TOperator]]
  | KClassSpecifier =>
      alt [n KLongClassSpecifier; n KShortClassSpecifier; n KDerClassSpecifier]
  | KLongClassSpecifier =>
      alt [sq [t TIdentifier; n KDescriptionString; n KComposition; t TEnd; t TIdentifier];
           sq [t TExtends; t TIdentifier; opt [n KClassModification]; n KDescriptionString;
               n KComposition; t TEnd; t TIdentifier]]
  | KShortClassSpecifier =>
      sq [t TIdentifier; t TEqual;
          alt [sq [n KBasePrefix; n KTypeSpecifier; opt [n KArraySubscripts];
                   opt [n KClassModification]; n KDescription];
               sq [t TEnumeration; t TLParen; alt [opt [n KEnumList]; t TColon]; t TRParen;
                   n KDescription]]]
  | KDerClassSpecifier =>
      sq [t TIdentifier; t TEqual; t TDer; t TLParen; n KTypeSpecifier; t TComma;
          t TIdentifier; many [t TComma; t TIdentifier]; t TRParen; n KDescription]
  | KBasePrefix => opt [alt [t TInput; t TOutput]]
  | KEnumList => sq [n KEnumerationLiteral; many [t TComma; n KEnumerationLiteral]]
  | KEnumerationLiteral => sq [t TIdentifier; n KDescription]
  | KComposition =>
      sq [n KElementList;
          many [alt [sq [t TPublic; n KElementList]; sq [t TProtected; n KElementList];
                     n KEquationSection; n KAlgorithmSection]];
          opt [t TExternal; opt [n KLanguageSpecification]; opt [n KExternalFunctionCall];
               opt [n KAnnotationClause]; t TSemicolon];
          opt [n KAnnotationClause; t TSemicolon]]
  | KLanguageSpecification => t TString
  | KExternalFunctionCall =>
      sq [opt [n KComponentReference; t TEqual]; t TIdentifier; t TLParen;
          opt [n KExpressionList]; t TRParen]
  | KElementList => many [n KElement; t TSemicolon]
  | KElement =>
      alt [n KImportClause; n KExtendsClause;
           sq [opt [t TRedeclare]; opt [t TFinal]; opt [t TInner]; opt [t TOuter];
               alt [alt [n KClassDefinition; n KComponentClause];
                    sq [t TReplaceable; alt [n KClassDefinition; n KComponentClause];
                        opt [n KConstrainingClause; n KDescription]]]]]
  | KImportClause =>
      sq [t TImport;
          alt [sq [t TIdentifier; t TEqual; n KName];
               sq [n KName;
                   opt [alt [t TDotStar;
                             sq [t TDot; t TLCurly; n KImportList; t TRCurly]]]]];
          n KDescription]
  | KImportList => sq [t TIdentifier; many [t TComma; t TIdentifier]]
  | KExtendsClause =>
      sq [t TExtends; n KTypeSpecifier; opt [n KClassOrInheritanceModification];
          opt [n KAnnotationClause]]
  | KConstrainingClause => sq [t TConstrainedby; n KTypeSpecifier; opt [n KClassModification]]
  | KClassOrInheritanceModification =>
      sq [t TLParen; opt [n KArgumentOrInheritanceModificationList]; t TRParen]
  | KArgumentOrInheritanceModificationList =>
      sq [alt [n KArgument; n KInheritanceModification];
          many [t TComma; alt [n KArgument; n KInheritanceModification]]]
  | KInheritanceModification => sq [t TBreak; alt [n KConnectEquation; t TIdentifier]]
  | KComponentClause =>
      sq [n KTypePrefix; n KTypeSpecifier; opt [n KArraySubscripts]; n KComponentList]
  | KTypePrefix =>
      sq [opt [alt [t TFlow; t TStream]]; opt [alt [t TDiscrete; t TParameter; t TConstant]];
          opt [alt [t TInput; t TOutput]]]
  | KComponentList => sq [n KComponentDeclaration; many [t TComma; n KComponentDeclaration]]
  | KComponentDeclaration => sq [n KDeclaration; opt [n KConditionAttribute]; n KDescription]
  | KConditionAttribute => sq [t TIf; n KExpression]
  | KDeclaration => sq [t TIdentifier; opt [n KArraySubscripts]; opt [n KModification]]
  | KModification =>
      alt [sq [n KClassModification; opt [t TEqual; n KModificationExpression]];
           sq [t TEqual; n KModificationExpression];
           sq [t TAssign; n KModificationExpression]]
  | KModificationExpression => alt [n KExpression; t TBreak]
  | KClassModification => sq [t TLParen; opt [n KArgumentList]; t TRParen]
  | KArgumentList => sq [n KArgument; many [t TComma; n KArgument]]
  | KArgument => alt [n KElementModificationOrReplaceable; n KElementRedeclaration]
  | KElementModificationOrReplaceable =>
      sq [opt [t TEach]; opt [t TFinal]; alt [n KElementModification; n KElementReplaceable]]
  | KElementModification => sq [n KName; opt [n KModification]; n KDescriptionString]
  | KElementRedeclaration =>
      sq [t TRedeclare; opt [t TEach]; opt [t TFinal];
          alt [alt [n KShortClassDefinition; n KComponentClause1]; n KElementReplaceable]]
  | KElementReplaceable =>
      sq [t TReplaceable; alt [n KShortClassDefinition; n KComponentClause1];
          opt [n KConstrainingClause]]
  | KComponentClause1 => sq [n KTypePrefix; n KTypeSpecifier; n KComponentDeclaration1]
  | KComponentDeclaration1 => sq [n KDeclaration; n KDescription]
  | KShortClassDefinition => sq [n KClassPrefixes; n KShortClassSpecifier]
  | KEquationSection => sq [opt [t TInitial]; t TEquation; many [n KEquation; t TSemicolon]]
  | KAlgorithmSection => sq [opt [t TInitial]; t TAlgorithm; many [n KStatement; t TSemicolon]]
  | KEquation =>
      sq [alt [if strict then
                 alt [sq [n KSimpleExpression; t TEqual; n KExpression];
                      sq [n KComponentReference; n KFunctionCallArgs]]
               else sq [n KSimpleExpression; opt [t TEqual; n KExpression]];
               n KIfEquation; n KForEquation; n KConnectEquation; n KWhenEquation];
          n KDescription]
  | KStatement =>
      sq [alt [sq [n KComponentReference;
                   alt [sq [t TAssign; n KExpression]; n KFunctionCallArgs]];
               sq [t TLParen; n KOutputExpressionList; t TRParen; t TAssign;
                   n KComponentReference; n KFunctionCallArgs];
               t TBreak; t TReturn;
               n KIfStatement; n KForStatement; n KWhileStatement; n KWhenStatement];
          n KDescription]
  | KIfEquation =>
      sq [t TIf; n KExpression; t TThen; many [n KEquation; t TSemicolon];
          many [t TElseIf; n KExpression; t TThen; many [n KEquation; t TSemicolon]];
          opt [t TElse; many [n KEquation; t TSemicolon]];
          t TEnd; t TIf]
  | KIfStatement =>
      sq [t TIf; n KExpression; t TThen; many [n KStatement; t TSemicolon];
          many [t TElseIf; n KExpression; t TThen; many [n KStatement; t TSemicolon]];
          opt [t TElse; many [n KStatement; t TSemicolon]];
          t TEnd; t TIf]
  | KForEquation =>
      sq [t TFor; n KForIndices; t TLoop; many [n KEquation; t TSemicolon]; t TEnd; t TFor]
  | KForStatement =>
      sq [t TFor; n KForIndices; t TLoop; many [n KStatement; t TSemicolon]; t TEnd; t TFor]
  | KForIndices => sq [n KForIndex; many [t TComma; n KForIndex]]
  | KForIndex => sq [t TIdentifier; opt [t TIn; n KExpression]]
  | KWhileStatement =>
      sq [t TWhile; n KExpression; t TLoop; many [n KStatement; t TSemicolon]; t TEnd; t TWhile]
  | KWhenEquation =>
      sq [t TWhen; n KExpression; t TThen; many [n KEquation; t TSemicolon];
          many [t TElseWhen; n KExpression; t TThen; many [n KEquation; t TSemicolon]];
          t TEnd; t TWhen]
  | KWhenStatement =>
      sq [t TWhen; n KExpression; t TThen; many [n KStatement; t TSemicolon];
          many [t TElseWhen; n KExpression; t TThen; many [n KStatement; t TSemicolon]];
          t TEnd; t TWhen]
  | KConnectEquation =>
      sq [t TConnect; t TLParen; n KComponentReference; t TComma; n KComponentReference;
          t TRParen]
  | KExpression =>
      alt [n KSimpleExpression;
           sq [t TIf; n KExpression; t TThen; n KExpression;
               many [t TElseIf; n KExpression; t TThen; n KExpression];
               t TElse; n KExpression]]
  | KSimpleExpression =>
      sq [n KLogicalExpression;
          opt [t TColon; n KLogicalExpression; opt [t TColon; n KLogicalExpression]]]
  | KLogicalExpression => sq [n KLogicalTerm; many [t TOr; n KLogicalTerm]]
  | KLogicalTerm => sq [n KLogicalFactor; many [t TAnd; n KLogicalFactor]]
  | KLogicalFactor => sq [opt [t TNot]; n KRelation]
  | KRelation => sq [n KArithmeticExpression; opt [n KRelationalOperator; n KArithmeticExpression]]
  | KRelationalOperator => alt [t TLes; t TLeq; t TGre; t TGeq; t TEq; t TNeq]
  | KArithmeticExpression => sq [opt [n KAddOperator]; n KTerm; many [n KAddOperator; n KTerm]]
  | KAddOperator => alt [t TPlus; t TMinus; t TDotPlus; t TDotMinus]
  | KTerm => sq [n KFactor; many [n KMulOperator; n KFactor]]
  | KMulOperator => alt [t TStar; t TSlash; t TDotStar; t TDotSlash]
  | KFactor => sq [n KPrimary; opt [alt [t TFlex; t TDotFlex]; n KPrimary]]
  | KPrimary =>
      alt [t TUInt; t TUReal; t TString; t TBool;
           sq [alt [n KComponentReference; t TDer; t TInitial; t TPure]; n KFunctionCallArgs];
           n KComponentReference;
           sq [t TLParen; n KOutputExpressionList; t TRParen; opt [n KArraySubscripts]];
           sq [t TLBracket; n KExpressionList; many [t TSemicolon; n KExpressionList];
               t TRBracket];
           sq [t TLCurly; n KArrayArguments; t TRCurly];
           t TEnd]
  | KTypeSpecifier => sq [opt [t TDot]; n KName]
  | KName => sq [t TIdentifier; many [t TDot; t TIdentifier]]
  | KComponentReference =>
      sq [opt [t TDot]; t TIdentifier; opt [n KArraySubscripts];
          many [t TDot; t TIdentifier; opt [n KArraySubscripts]]]
  | KResultReference =>
      alt [n KComponentReference;
           sq [t TDer; t TLParen; n KComponentReference; opt [t TComma; t TUInt]; t TRParen]]
  | KFunctionCallArgs => sq [t TLParen; opt [n KFunctionArguments]; t TRParen]
  | KFunctionArguments =>
      alt [sq [n KExpression;
               opt [alt [sq [t TComma; n KFunctionArgumentsNonFirst];
                         sq [t TFor; n KForIndices]]]];
           sq [n KFunctionPartialApplication; opt [t TComma; n KFunctionArgumentsNonFirst]];
           n KNamedArguments]
  | KFunctionArgumentsNonFirst =>
      alt [sq [n KFunctionArgument; opt [t TComma; n KFunctionArgumentsNonFirst]];
           n KNamedArguments]
  | KArrayArguments =>
      sq [n KExpression;
          opt [alt [sq [t TComma; n KArrayArgumentsNonFirst]; sq [t TFor; n KForIndices]]]]
  | KArrayArgumentsNonFirst => sq [n KExpression; opt [t TComma; n KArrayArgumentsNonFirst]]
  | KNamedArguments => sq [n KNamedArgument; opt [t TComma; n KNamedArguments]]
  | KNamedArgument => sq [t TIdentifier; t TEqual; n KFunctionArgument]
  | KFunctionArgument => alt [n KFunctionPartialApplication; n KExpression]
  | KFunctionPartialApplication =>
      sq [t TFunction; n KTypeSpecifier; t TLParen; opt [n KNamedArguments]; t TRParen]
  | KOutputExpressionList => sq [opt [n KExpression]; many [t TComma; opt [n KExpression]]]
  | KExpressionList => sq [n KExpression; many [t TComma; n KExpression]]
  | KArraySubscripts => sq [t TLBracket; n KSubscript; many [t TComma; n KSubscript]; t TRBracket]
  | KSubscript => alt [t TColon; n KExpression]
  | KDescription => sq [n KDescriptionString; opt [n KAnnotationClause]]
  | KDescriptionString => opt [t TString; many [t TPlus; t TString]]
  | KAnnotationClause => sq [t TAnnotation; n KClassModification]
  end.

(** Sequences of token kinds derivable from a rule. *)
Inductive derives (strict : bool) : skind -> list tkind -> Prop :=
| d_rule k w ks : lang (production strict k) w -> expands strict w ks -> derives strict k ks
with expands (strict : bool) : list sym -> list tkind -> Prop :=
| e_nil : expands strict [] []
| e_term k w ks : expands strict w ks -> expands strict (Term k :: w) (k :: ks)
| e_rule k w a b : derives strict k a -> expands strict w b -> expands strict (Rule k :: w) (a ++ b).

(** Syntax trees that follow the productions, node by node. *)
Definition sym_of (c : child) : sym :=
  match c with CTok x => Term (tkind_of x) | CTree k _ => Rule k end.

Inductive conforms (strict : bool) : child -> Prop :=
| c_tok x : conforms strict (CTok x)
| c_tree k cs :
    lang (production strict k) (map sym_of cs) -> Forall (conforms strict) cs ->
    conforms strict (CTree k cs).

(** A tree without its empty subtrees. *)
Fixpoint prune (c : child) : child :=
  match c with
  | CTok x => CTok x
  | CTree k cs =>
      CTree k ((fix go (l : list child) : list child :=
        match l with
        | [] => []
        | c' :: l' => match prune c' with
                      | CTree _ [] => go l'
                      | c'' => c'' :: go l'
                      end
        end) cs)
  end.
