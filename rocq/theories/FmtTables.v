(** Generated by tools/gen_tables.py; checked by [FmtAbs.check] in FmtSound.v. *)
From Verif Require Import Base Tokens Syntax Formatter FmtAbs.

(** White space pushed before the first token of a function, and that token. *)
Definition t_heads (k : skind) : list (gap * dk) :=
  match k with
  | KError =>
     []
  | KStoredDefinition =>
     [([GB Legal], (KStoredDefinition, TFinal)); ([], (KStoredDefinition, TWithin));
     ([GB Illegal], (KStoredDefinition, TWithin)); ([], (KClassDefinition, TEncapsulated));
     ([], (KClassPrefixes, TOperator)); ([], (KClassPrefixes, TFunction));
     ([], (KClassPrefixes, TImpure)); ([], (KClassPrefixes, TPure));
     ([], (KClassPrefixes, TPackage)); ([], (KClassPrefixes, TType));
     ([], (KClassPrefixes, TConnector)); ([], (KClassPrefixes, TExpandable));
     ([], (KClassPrefixes, TBlock)); ([], (KClassPrefixes, TRecord));
     ([], (KClassPrefixes, TModel)); ([], (KClassPrefixes, TClass));
     ([], (KClassPrefixes, TPartial))]
  | KClassDefinition =>
     [([], (KClassDefinition, TEncapsulated)); ([], (KClassPrefixes, TOperator));
     ([], (KClassPrefixes, TFunction)); ([], (KClassPrefixes, TImpure));
     ([], (KClassPrefixes, TPure)); ([], (KClassPrefixes, TPackage));
     ([], (KClassPrefixes, TType)); ([], (KClassPrefixes, TConnector));
     ([], (KClassPrefixes, TExpandable)); ([], (KClassPrefixes, TBlock));
     ([], (KClassPrefixes, TRecord)); ([], (KClassPrefixes, TModel));
     ([], (KClassPrefixes, TClass)); ([], (KClassPrefixes, TPartial))]
  | KClassPrefixes =>
     [([], (KClassPrefixes, TOperator)); ([], (KClassPrefixes, TFunction));
     ([], (KClassPrefixes, TImpure)); ([], (KClassPrefixes, TPure));
     ([], (KClassPrefixes, TPackage)); ([], (KClassPrefixes, TType));
     ([], (KClassPrefixes, TConnector)); ([], (KClassPrefixes, TExpandable));
     ([], (KClassPrefixes, TBlock)); ([], (KClassPrefixes, TRecord));
     ([], (KClassPrefixes, TModel)); ([], (KClassPrefixes, TClass));
     ([], (KClassPrefixes, TPartial))]
  | KClassSpecifier =>
     [([], (KDerClassSpecifier, TIdentifier)); ([], (KShortClassSpecifier, TIdentifier));
     ([], (KLongClassSpecifier, TExtends)); ([], (KLongClassSpecifier, TIdentifier))]
  | KLongClassSpecifier =>
     [([], (KLongClassSpecifier, TExtends)); ([], (KLongClassSpecifier, TIdentifier))]
  | KShortClassSpecifier =>
     [([], (KShortClassSpecifier, TIdentifier))]
  | KDerClassSpecifier =>
     [([], (KDerClassSpecifier, TIdentifier))]
  | KBasePrefix =>
     [([], (KBasePrefix, TOutput)); ([], (KBasePrefix, TInput))]
  | KEnumList =>
     [([], (KEnumerationLiteral, TIdentifier))]
  | KEnumerationLiteral =>
     [([], (KEnumerationLiteral, TIdentifier))]
  | KComposition =>
     [([GB Required], (KComposition, TExternal)); ([GB Required], (KComposition, TProtected));
     ([GB Required], (KComposition, TPublic)); ([GB Required], (KAnnotationClause, TAnnotation));
     ([GB Required], (KAlgorithmSection, TAlgorithm));
     ([GB Required], (KAlgorithmSection, TInitial));
     ([GB Required], (KEquationSection, TEquation));
     ([GB Required], (KEquationSection, TInitial)); ([GB Required], (KElement, TReplaceable));
     ([GB Required], (KElement, TOuter)); ([GB Required], (KElement, TInner));
     ([GB Required], (KElement, TFinal)); ([GB Required], (KElement, TRedeclare));
     ([GB Required], (KClassDefinition, TEncapsulated));
     ([GB Required], (KExtendsClause, TExtends)); ([GB Required], (KImportClause, TImport));
     ([GB Required], (KTypeSpecifier, TDot)); ([GB Required], (KTypePrefix, TOutput));
     ([GB Required], (KTypePrefix, TInput)); ([GB Required], (KTypePrefix, TConstant));
     ([GB Required], (KTypePrefix, TParameter)); ([GB Required], (KTypePrefix, TDiscrete));
     ([GB Required], (KTypePrefix, TStream)); ([GB Required], (KTypePrefix, TFlow));
     ([GB Required], (KClassPrefixes, TOperator)); ([GB Required], (KClassPrefixes, TFunction));
     ([GB Required], (KClassPrefixes, TImpure)); ([GB Required], (KClassPrefixes, TPure));
     ([GB Required], (KClassPrefixes, TPackage)); ([GB Required], (KClassPrefixes, TType));
     ([GB Required], (KClassPrefixes, TConnector));
     ([GB Required], (KClassPrefixes, TExpandable)); ([GB Required], (KClassPrefixes, TBlock));
     ([GB Required], (KClassPrefixes, TRecord)); ([GB Required], (KClassPrefixes, TModel));
     ([GB Required], (KClassPrefixes, TClass)); ([GB Required], (KClassPrefixes, TPartial));
     ([GB Required], (KName, TIdentifier))]
  | KLanguageSpecification =>
     [([], (KLanguageSpecification, TString))]
  | KExternalFunctionCall =>
     [([], (KExternalFunctionCall, TIdentifier)); ([], (KComponentReference, TIdentifier));
     ([], (KComponentReference, TDot))]
  | KElementList =>
     [([], (KElement, TReplaceable)); ([], (KElement, TOuter)); ([], (KElement, TInner));
     ([], (KElement, TFinal)); ([], (KElement, TRedeclare));
     ([], (KClassDefinition, TEncapsulated)); ([], (KExtendsClause, TExtends));
     ([], (KImportClause, TImport)); ([], (KTypeSpecifier, TDot)); ([], (KTypePrefix, TOutput));
     ([], (KTypePrefix, TInput)); ([], (KTypePrefix, TConstant)); ([], (KTypePrefix, TParameter));
     ([], (KTypePrefix, TDiscrete)); ([], (KTypePrefix, TStream)); ([], (KTypePrefix, TFlow));
     ([], (KClassPrefixes, TOperator)); ([], (KClassPrefixes, TFunction));
     ([], (KClassPrefixes, TImpure)); ([], (KClassPrefixes, TPure));
     ([], (KClassPrefixes, TPackage)); ([], (KClassPrefixes, TType));
     ([], (KClassPrefixes, TConnector)); ([], (KClassPrefixes, TExpandable));
     ([], (KClassPrefixes, TBlock)); ([], (KClassPrefixes, TRecord));
     ([], (KClassPrefixes, TModel)); ([], (KClassPrefixes, TClass));
     ([], (KClassPrefixes, TPartial)); ([], (KName, TIdentifier))]
  | KElement =>
     [([], (KElement, TReplaceable)); ([], (KElement, TOuter)); ([], (KElement, TInner));
     ([], (KElement, TFinal)); ([], (KElement, TRedeclare));
     ([], (KClassDefinition, TEncapsulated)); ([], (KExtendsClause, TExtends));
     ([], (KImportClause, TImport)); ([], (KTypeSpecifier, TDot)); ([], (KTypePrefix, TOutput));
     ([], (KTypePrefix, TInput)); ([], (KTypePrefix, TConstant)); ([], (KTypePrefix, TParameter));
     ([], (KTypePrefix, TDiscrete)); ([], (KTypePrefix, TStream)); ([], (KTypePrefix, TFlow));
     ([], (KClassPrefixes, TOperator)); ([], (KClassPrefixes, TFunction));
     ([], (KClassPrefixes, TImpure)); ([], (KClassPrefixes, TPure));
     ([], (KClassPrefixes, TPackage)); ([], (KClassPrefixes, TType));
     ([], (KClassPrefixes, TConnector)); ([], (KClassPrefixes, TExpandable));
     ([], (KClassPrefixes, TBlock)); ([], (KClassPrefixes, TRecord));
     ([], (KClassPrefixes, TModel)); ([], (KClassPrefixes, TClass));
     ([], (KClassPrefixes, TPartial)); ([], (KName, TIdentifier))]
  | KImportClause =>
     [([], (KImportClause, TImport))]
  | KImportList =>
     [([], (KImportList, TIdentifier))]
  | KExtendsClause =>
     [([], (KExtendsClause, TExtends))]
  | KConstrainingClause =>
     [([], (KConstrainingClause, TConstrainedby))]
  | KClassOrInheritanceModification =>
     [([], (KClassOrInheritanceModification, TLParen))]
  | KArgumentOrInheritanceModificationList =>
     [([], (KInheritanceModification, TBreak)); ([], (KElementRedeclaration, TRedeclare));
     ([], (KElementModificationOrReplaceable, TFinal));
     ([], (KElementModificationOrReplaceable, TEach)); ([], (KElementReplaceable, TReplaceable));
     ([], (KName, TIdentifier))]
  | KInheritanceModification =>
     [([], (KInheritanceModification, TBreak))]
  | KComponentClause =>
     [([], (KTypeSpecifier, TDot)); ([], (KTypePrefix, TOutput)); ([], (KTypePrefix, TInput));
     ([], (KTypePrefix, TConstant)); ([], (KTypePrefix, TParameter));
     ([], (KTypePrefix, TDiscrete)); ([], (KTypePrefix, TStream)); ([], (KTypePrefix, TFlow));
     ([], (KName, TIdentifier))]
  | KTypePrefix =>
     [([], (KTypePrefix, TOutput)); ([], (KTypePrefix, TInput)); ([], (KTypePrefix, TConstant));
     ([], (KTypePrefix, TParameter)); ([], (KTypePrefix, TDiscrete));
     ([], (KTypePrefix, TStream)); ([], (KTypePrefix, TFlow))]
  | KComponentList =>
     [([GB Illegal], (KDeclaration, TIdentifier)); ([GS], (KDeclaration, TIdentifier))]
  | KComponentDeclaration =>
     [([], (KDeclaration, TIdentifier))]
  | KConditionAttribute =>
     [([], (KConditionAttribute, TIf))]
  | KDeclaration =>
     [([], (KDeclaration, TIdentifier))]
  | KModification =>
     [([GS], (KModification, TAssign)); ([GS], (KModification, TEqual));
     ([], (KClassModification, TLParen))]
  | KModificationExpression =>
     [([], (KModificationExpression, TBreak)); ([], (KExpression, TIf));
     ([], (KLogicalFactor, TNot)); ([], (KAddOperator, TDotMinus));
     ([], (KAddOperator, TDotPlus)); ([], (KAddOperator, TMinus)); ([], (KAddOperator, TPlus));
     ([], (KPrimary, TEnd)); ([], (KPrimary, TLCurly)); ([], (KPrimary, TLBracket));
     ([], (KPrimary, TLParen)); ([], (KPrimary, TPure)); ([], (KPrimary, TInitial));
     ([], (KPrimary, TDer)); ([], (KPrimary, TBool)); ([], (KPrimary, TString));
     ([], (KPrimary, TUReal)); ([], (KPrimary, TUInt)); ([], (KComponentReference, TIdentifier));
     ([], (KComponentReference, TDot))]
  | KClassModification =>
     [([], (KClassModification, TLParen))]
  | KArgumentList =>
     [([], (KElementRedeclaration, TRedeclare));
     ([], (KElementModificationOrReplaceable, TFinal));
     ([], (KElementModificationOrReplaceable, TEach)); ([], (KElementReplaceable, TReplaceable));
     ([], (KName, TIdentifier))]
  | KArgument =>
     [([], (KElementRedeclaration, TRedeclare));
     ([], (KElementModificationOrReplaceable, TFinal));
     ([], (KElementModificationOrReplaceable, TEach)); ([], (KElementReplaceable, TReplaceable));
     ([], (KName, TIdentifier))]
  | KElementModificationOrReplaceable =>
     [([], (KElementModificationOrReplaceable, TFinal));
     ([], (KElementModificationOrReplaceable, TEach)); ([], (KElementReplaceable, TReplaceable));
     ([], (KName, TIdentifier))]
  | KElementModification =>
     [([], (KName, TIdentifier))]
  | KElementRedeclaration =>
     [([], (KElementRedeclaration, TRedeclare))]
  | KElementReplaceable =>
     [([], (KElementReplaceable, TReplaceable))]
  | KComponentClause1 =>
     [([], (KTypePrefix, TOutput)); ([], (KTypePrefix, TInput)); ([], (KTypePrefix, TConstant));
     ([], (KTypePrefix, TParameter)); ([], (KTypePrefix, TDiscrete));
     ([], (KTypePrefix, TStream)); ([], (KTypePrefix, TFlow)); ([], (KTypeSpecifier, TDot));
     ([], (KName, TIdentifier))]
  | KComponentDeclaration1 =>
     [([], (KDeclaration, TIdentifier))]
  | KShortClassDefinition =>
     [([], (KClassPrefixes, TOperator)); ([], (KClassPrefixes, TFunction));
     ([], (KClassPrefixes, TImpure)); ([], (KClassPrefixes, TPure));
     ([], (KClassPrefixes, TPackage)); ([], (KClassPrefixes, TType));
     ([], (KClassPrefixes, TConnector)); ([], (KClassPrefixes, TExpandable));
     ([], (KClassPrefixes, TBlock)); ([], (KClassPrefixes, TRecord));
     ([], (KClassPrefixes, TModel)); ([], (KClassPrefixes, TClass));
     ([], (KClassPrefixes, TPartial))]
  | KEquationSection =>
     [([], (KEquationSection, TEquation)); ([], (KEquationSection, TInitial))]
  | KAlgorithmSection =>
     [([], (KAlgorithmSection, TAlgorithm)); ([], (KAlgorithmSection, TInitial))]
  | KEquation =>
     [([], (KWhenEquation, TWhen)); ([], (KConnectEquation, TConnect));
     ([], (KForEquation, TFor)); ([], (KIfEquation, TIf)); ([], (KLogicalFactor, TNot));
     ([], (KAddOperator, TDotMinus)); ([], (KAddOperator, TDotPlus));
     ([], (KAddOperator, TMinus)); ([], (KAddOperator, TPlus)); ([], (KPrimary, TEnd));
     ([], (KPrimary, TLCurly)); ([], (KPrimary, TLBracket)); ([], (KPrimary, TLParen));
     ([], (KPrimary, TPure)); ([], (KPrimary, TInitial)); ([], (KPrimary, TDer));
     ([], (KPrimary, TBool)); ([], (KPrimary, TString)); ([], (KPrimary, TUReal));
     ([], (KPrimary, TUInt)); ([], (KComponentReference, TIdentifier));
     ([], (KComponentReference, TDot))]
  | KStatement =>
     [([], (KStatement, TReturn)); ([], (KStatement, TBreak)); ([], (KStatement, TLParen));
     ([], (KWhenStatement, TWhen)); ([], (KWhileStatement, TWhile)); ([], (KForStatement, TFor));
     ([], (KIfStatement, TIf)); ([], (KComponentReference, TIdentifier));
     ([], (KComponentReference, TDot))]
  | KIfEquation =>
     [([], (KIfEquation, TIf))]
  | KIfStatement =>
     [([], (KIfStatement, TIf))]
  | KForEquation =>
     [([], (KForEquation, TFor))]
  | KForStatement =>
     [([], (KForStatement, TFor))]
  | KForIndices =>
     [([], (KForIndex, TIdentifier))]
  | KForIndex =>
     [([], (KForIndex, TIdentifier))]
  | KWhileStatement =>
     [([], (KWhileStatement, TWhile))]
  | KWhenEquation =>
     [([], (KWhenEquation, TWhen))]
  | KWhenStatement =>
     [([], (KWhenStatement, TWhen))]
  | KConnectEquation =>
     [([], (KConnectEquation, TConnect))]
  | KExpression =>
     [([], (KExpression, TIf)); ([], (KLogicalFactor, TNot)); ([], (KAddOperator, TDotMinus));
     ([], (KAddOperator, TDotPlus)); ([], (KAddOperator, TMinus)); ([], (KAddOperator, TPlus));
     ([], (KPrimary, TEnd)); ([], (KPrimary, TLCurly)); ([], (KPrimary, TLBracket));
     ([], (KPrimary, TLParen)); ([], (KPrimary, TPure)); ([], (KPrimary, TInitial));
     ([], (KPrimary, TDer)); ([], (KPrimary, TBool)); ([], (KPrimary, TString));
     ([], (KPrimary, TUReal)); ([], (KPrimary, TUInt)); ([], (KComponentReference, TIdentifier));
     ([], (KComponentReference, TDot))]
  | KSimpleExpression =>
     [([], (KLogicalFactor, TNot)); ([], (KAddOperator, TDotMinus));
     ([], (KAddOperator, TDotPlus)); ([], (KAddOperator, TMinus)); ([], (KAddOperator, TPlus));
     ([], (KPrimary, TEnd)); ([], (KPrimary, TLCurly)); ([], (KPrimary, TLBracket));
     ([], (KPrimary, TLParen)); ([], (KPrimary, TPure)); ([], (KPrimary, TInitial));
     ([], (KPrimary, TDer)); ([], (KPrimary, TBool)); ([], (KPrimary, TString));
     ([], (KPrimary, TUReal)); ([], (KPrimary, TUInt)); ([], (KComponentReference, TIdentifier));
     ([], (KComponentReference, TDot))]
  | KLogicalExpression =>
     [([], (KLogicalFactor, TNot)); ([], (KAddOperator, TDotMinus));
     ([], (KAddOperator, TDotPlus)); ([], (KAddOperator, TMinus)); ([], (KAddOperator, TPlus));
     ([], (KPrimary, TEnd)); ([], (KPrimary, TLCurly)); ([], (KPrimary, TLBracket));
     ([], (KPrimary, TLParen)); ([], (KPrimary, TPure)); ([], (KPrimary, TInitial));
     ([], (KPrimary, TDer)); ([], (KPrimary, TBool)); ([], (KPrimary, TString));
     ([], (KPrimary, TUReal)); ([], (KPrimary, TUInt)); ([], (KComponentReference, TIdentifier));
     ([], (KComponentReference, TDot))]
  | KLogicalTerm =>
     [([], (KLogicalFactor, TNot)); ([], (KAddOperator, TDotMinus));
     ([], (KAddOperator, TDotPlus)); ([], (KAddOperator, TMinus)); ([], (KAddOperator, TPlus));
     ([], (KPrimary, TEnd)); ([], (KPrimary, TLCurly)); ([], (KPrimary, TLBracket));
     ([], (KPrimary, TLParen)); ([], (KPrimary, TPure)); ([], (KPrimary, TInitial));
     ([], (KPrimary, TDer)); ([], (KPrimary, TBool)); ([], (KPrimary, TString));
     ([], (KPrimary, TUReal)); ([], (KPrimary, TUInt)); ([], (KComponentReference, TIdentifier));
     ([], (KComponentReference, TDot))]
  | KLogicalFactor =>
     [([], (KLogicalFactor, TNot)); ([], (KAddOperator, TDotMinus));
     ([], (KAddOperator, TDotPlus)); ([], (KAddOperator, TMinus)); ([], (KAddOperator, TPlus));
     ([], (KPrimary, TEnd)); ([], (KPrimary, TLCurly)); ([], (KPrimary, TLBracket));
     ([], (KPrimary, TLParen)); ([], (KPrimary, TPure)); ([], (KPrimary, TInitial));
     ([], (KPrimary, TDer)); ([], (KPrimary, TBool)); ([], (KPrimary, TString));
     ([], (KPrimary, TUReal)); ([], (KPrimary, TUInt)); ([], (KComponentReference, TIdentifier));
     ([], (KComponentReference, TDot))]
  | KRelation =>
     [([], (KAddOperator, TDotMinus)); ([], (KAddOperator, TDotPlus));
     ([], (KAddOperator, TMinus)); ([], (KAddOperator, TPlus)); ([], (KPrimary, TEnd));
     ([], (KPrimary, TLCurly)); ([], (KPrimary, TLBracket)); ([], (KPrimary, TLParen));
     ([], (KPrimary, TPure)); ([], (KPrimary, TInitial)); ([], (KPrimary, TDer));
     ([], (KPrimary, TBool)); ([], (KPrimary, TString)); ([], (KPrimary, TUReal));
     ([], (KPrimary, TUInt)); ([], (KComponentReference, TIdentifier));
     ([], (KComponentReference, TDot))]
  | KRelationalOperator =>
     [([], (KRelationalOperator, TNeq)); ([], (KRelationalOperator, TEq));
     ([], (KRelationalOperator, TGeq)); ([], (KRelationalOperator, TGre));
     ([], (KRelationalOperator, TLeq)); ([], (KRelationalOperator, TLes))]
  | KArithmeticExpression =>
     [([], (KAddOperator, TDotMinus)); ([], (KAddOperator, TDotPlus));
     ([], (KAddOperator, TMinus)); ([], (KAddOperator, TPlus)); ([], (KPrimary, TEnd));
     ([], (KPrimary, TLCurly)); ([], (KPrimary, TLBracket)); ([], (KPrimary, TLParen));
     ([], (KPrimary, TPure)); ([], (KPrimary, TInitial)); ([], (KPrimary, TDer));
     ([], (KPrimary, TBool)); ([], (KPrimary, TString)); ([], (KPrimary, TUReal));
     ([], (KPrimary, TUInt)); ([], (KComponentReference, TIdentifier));
     ([], (KComponentReference, TDot))]
  | KAddOperator =>
     [([], (KAddOperator, TDotMinus)); ([], (KAddOperator, TDotPlus));
     ([], (KAddOperator, TMinus)); ([], (KAddOperator, TPlus))]
  | KTerm =>
     [([], (KPrimary, TEnd)); ([], (KPrimary, TLCurly)); ([], (KPrimary, TLBracket));
     ([], (KPrimary, TLParen)); ([], (KPrimary, TPure)); ([], (KPrimary, TInitial));
     ([], (KPrimary, TDer)); ([], (KPrimary, TBool)); ([], (KPrimary, TString));
     ([], (KPrimary, TUReal)); ([], (KPrimary, TUInt)); ([], (KComponentReference, TIdentifier));
     ([], (KComponentReference, TDot))]
  | KMulOperator =>
     [([], (KMulOperator, TDotSlash)); ([], (KMulOperator, TDotStar));
     ([], (KMulOperator, TSlash)); ([], (KMulOperator, TStar))]
  | KFactor =>
     [([], (KPrimary, TEnd)); ([], (KPrimary, TLCurly)); ([], (KPrimary, TLBracket));
     ([], (KPrimary, TLParen)); ([], (KPrimary, TPure)); ([], (KPrimary, TInitial));
     ([], (KPrimary, TDer)); ([], (KPrimary, TBool)); ([], (KPrimary, TString));
     ([], (KPrimary, TUReal)); ([], (KPrimary, TUInt)); ([], (KComponentReference, TIdentifier));
     ([], (KComponentReference, TDot))]
  | KPrimary =>
     [([], (KPrimary, TEnd)); ([], (KPrimary, TLCurly)); ([], (KPrimary, TLBracket));
     ([], (KPrimary, TLParen)); ([], (KPrimary, TPure)); ([], (KPrimary, TInitial));
     ([], (KPrimary, TDer)); ([], (KPrimary, TBool)); ([], (KPrimary, TString));
     ([], (KPrimary, TUReal)); ([], (KPrimary, TUInt)); ([], (KComponentReference, TIdentifier));
     ([], (KComponentReference, TDot))]
  | KTypeSpecifier =>
     [([], (KTypeSpecifier, TDot)); ([], (KName, TIdentifier))]
  | KName =>
     [([], (KName, TIdentifier))]
  | KComponentReference =>
     [([], (KComponentReference, TIdentifier)); ([], (KComponentReference, TDot))]
  | KResultReference =>
     [([], (KResultReference, TDer)); ([], (KComponentReference, TIdentifier));
     ([], (KComponentReference, TDot))]
  | KFunctionCallArgs =>
     [([], (KFunctionCallArgs, TLParen))]
  | KFunctionArguments =>
     [([], (KFunctionPartialApplication, TFunction)); ([], (KExpression, TIf));
     ([], (KNamedArgument, TIdentifier)); ([], (KLogicalFactor, TNot));
     ([], (KAddOperator, TDotMinus)); ([], (KAddOperator, TDotPlus));
     ([], (KAddOperator, TMinus)); ([], (KAddOperator, TPlus)); ([], (KPrimary, TEnd));
     ([], (KPrimary, TLCurly)); ([], (KPrimary, TLBracket)); ([], (KPrimary, TLParen));
     ([], (KPrimary, TPure)); ([], (KPrimary, TInitial)); ([], (KPrimary, TDer));
     ([], (KPrimary, TBool)); ([], (KPrimary, TString)); ([], (KPrimary, TUReal));
     ([], (KPrimary, TUInt)); ([], (KComponentReference, TIdentifier));
     ([], (KComponentReference, TDot))]
  | KFunctionArgumentsNonFirst =>
     [([], (KNamedArgument, TIdentifier)); ([], (KExpression, TIf));
     ([], (KFunctionPartialApplication, TFunction)); ([], (KLogicalFactor, TNot));
     ([], (KAddOperator, TDotMinus)); ([], (KAddOperator, TDotPlus));
     ([], (KAddOperator, TMinus)); ([], (KAddOperator, TPlus)); ([], (KPrimary, TEnd));
     ([], (KPrimary, TLCurly)); ([], (KPrimary, TLBracket)); ([], (KPrimary, TLParen));
     ([], (KPrimary, TPure)); ([], (KPrimary, TInitial)); ([], (KPrimary, TDer));
     ([], (KPrimary, TBool)); ([], (KPrimary, TString)); ([], (KPrimary, TUReal));
     ([], (KPrimary, TUInt)); ([], (KComponentReference, TIdentifier));
     ([], (KComponentReference, TDot))]
  | KArrayArguments =>
     [([], (KExpression, TIf)); ([], (KLogicalFactor, TNot)); ([], (KAddOperator, TDotMinus));
     ([], (KAddOperator, TDotPlus)); ([], (KAddOperator, TMinus)); ([], (KAddOperator, TPlus));
     ([], (KPrimary, TEnd)); ([], (KPrimary, TLCurly)); ([], (KPrimary, TLBracket));
     ([], (KPrimary, TLParen)); ([], (KPrimary, TPure)); ([], (KPrimary, TInitial));
     ([], (KPrimary, TDer)); ([], (KPrimary, TBool)); ([], (KPrimary, TString));
     ([], (KPrimary, TUReal)); ([], (KPrimary, TUInt)); ([], (KComponentReference, TIdentifier));
     ([], (KComponentReference, TDot))]
  | KArrayArgumentsNonFirst =>
     [([], (KExpression, TIf)); ([], (KLogicalFactor, TNot)); ([], (KAddOperator, TDotMinus));
     ([], (KAddOperator, TDotPlus)); ([], (KAddOperator, TMinus)); ([], (KAddOperator, TPlus));
     ([], (KPrimary, TEnd)); ([], (KPrimary, TLCurly)); ([], (KPrimary, TLBracket));
     ([], (KPrimary, TLParen)); ([], (KPrimary, TPure)); ([], (KPrimary, TInitial));
     ([], (KPrimary, TDer)); ([], (KPrimary, TBool)); ([], (KPrimary, TString));
     ([], (KPrimary, TUReal)); ([], (KPrimary, TUInt)); ([], (KComponentReference, TIdentifier));
     ([], (KComponentReference, TDot))]
  | KNamedArguments =>
     [([], (KNamedArgument, TIdentifier))]
  | KNamedArgument =>
     [([], (KNamedArgument, TIdentifier))]
  | KFunctionArgument =>
     [([], (KExpression, TIf)); ([], (KFunctionPartialApplication, TFunction));
     ([], (KLogicalFactor, TNot)); ([], (KAddOperator, TDotMinus));
     ([], (KAddOperator, TDotPlus)); ([], (KAddOperator, TMinus)); ([], (KAddOperator, TPlus));
     ([], (KPrimary, TEnd)); ([], (KPrimary, TLCurly)); ([], (KPrimary, TLBracket));
     ([], (KPrimary, TLParen)); ([], (KPrimary, TPure)); ([], (KPrimary, TInitial));
     ([], (KPrimary, TDer)); ([], (KPrimary, TBool)); ([], (KPrimary, TString));
     ([], (KPrimary, TUReal)); ([], (KPrimary, TUInt)); ([], (KComponentReference, TIdentifier));
     ([], (KComponentReference, TDot))]
  | KFunctionPartialApplication =>
     [([], (KFunctionPartialApplication, TFunction))]
  | KOutputExpressionList =>
     [([GS], (KOutputExpressionList, TComma)); ([], (KExpression, TIf));
     ([], (KLogicalFactor, TNot)); ([], (KAddOperator, TDotMinus));
     ([], (KAddOperator, TDotPlus)); ([], (KAddOperator, TMinus)); ([], (KAddOperator, TPlus));
     ([], (KPrimary, TEnd)); ([], (KPrimary, TLCurly)); ([], (KPrimary, TLBracket));
     ([], (KPrimary, TLParen)); ([], (KPrimary, TPure)); ([], (KPrimary, TInitial));
     ([], (KPrimary, TDer)); ([], (KPrimary, TBool)); ([], (KPrimary, TString));
     ([], (KPrimary, TUReal)); ([], (KPrimary, TUInt)); ([], (KComponentReference, TIdentifier));
     ([], (KComponentReference, TDot))]
  | KExpressionList =>
     [([], (KExpression, TIf)); ([], (KLogicalFactor, TNot)); ([], (KAddOperator, TDotMinus));
     ([], (KAddOperator, TDotPlus)); ([], (KAddOperator, TMinus)); ([], (KAddOperator, TPlus));
     ([], (KPrimary, TEnd)); ([], (KPrimary, TLCurly)); ([], (KPrimary, TLBracket));
     ([], (KPrimary, TLParen)); ([], (KPrimary, TPure)); ([], (KPrimary, TInitial));
     ([], (KPrimary, TDer)); ([], (KPrimary, TBool)); ([], (KPrimary, TString));
     ([], (KPrimary, TUReal)); ([], (KPrimary, TUInt)); ([], (KComponentReference, TIdentifier));
     ([], (KComponentReference, TDot))]
  | KArraySubscripts =>
     [([], (KArraySubscripts, TLBracket))]
  | KSubscript =>
     [([], (KSubscript, TColon)); ([], (KExpression, TIf)); ([], (KLogicalFactor, TNot));
     ([], (KAddOperator, TDotMinus)); ([], (KAddOperator, TDotPlus));
     ([], (KAddOperator, TMinus)); ([], (KAddOperator, TPlus)); ([], (KPrimary, TEnd));
     ([], (KPrimary, TLCurly)); ([], (KPrimary, TLBracket)); ([], (KPrimary, TLParen));
     ([], (KPrimary, TPure)); ([], (KPrimary, TInitial)); ([], (KPrimary, TDer));
     ([], (KPrimary, TBool)); ([], (KPrimary, TString)); ([], (KPrimary, TUReal));
     ([], (KPrimary, TUInt)); ([], (KComponentReference, TIdentifier));
     ([], (KComponentReference, TDot))]
  | KDescription =>
     [([], (KAnnotationClause, TAnnotation)); ([], (KDescriptionString, TString))]
  | KDescriptionString =>
     [([], (KDescriptionString, TString))]
  | KAnnotationClause =>
     [([], (KAnnotationClause, TAnnotation))]
  end.

(** Last token of a function, and white space pushed after it. *)
Definition t_tails (k : skind) : list (dk * gap) :=
  match k with
  | KError =>
     []
  | KStoredDefinition =>
     [(KStoredDefinition, TSemicolon, [])]
  | KClassDefinition =>
     [(KShortClassSpecifier, TRParen, []); (KLongClassSpecifier, TIdentifier, []);
     (KDescriptionString, TString, []); (KDerClassSpecifier, TRParen, []);
     (KClassModification, TRParen, []); (KArraySubscripts, TRBracket, []);
     (KName, TIdentifier, [])]
  | KClassPrefixes =>
     [(KClassPrefixes, TOperator, []); (KClassPrefixes, TFunction, []);
     (KClassPrefixes, TPackage, []); (KClassPrefixes, TType, []);
     (KClassPrefixes, TConnector, []); (KClassPrefixes, TBlock, []);
     (KClassPrefixes, TRecord, []); (KClassPrefixes, TModel, []); (KClassPrefixes, TClass, [])]
  | KClassSpecifier =>
     [(KShortClassSpecifier, TRParen, []); (KLongClassSpecifier, TIdentifier, []);
     (KDescriptionString, TString, []); (KDerClassSpecifier, TRParen, []);
     (KClassModification, TRParen, []); (KArraySubscripts, TRBracket, []);
     (KName, TIdentifier, [])]
  | KLongClassSpecifier =>
     [(KLongClassSpecifier, TIdentifier, [])]
  | KShortClassSpecifier =>
     [(KShortClassSpecifier, TRParen, []); (KDescriptionString, TString, []);
     (KClassModification, TRParen, []); (KArraySubscripts, TRBracket, []);
     (KName, TIdentifier, [])]
  | KDerClassSpecifier =>
     [(KDescriptionString, TString, []); (KDerClassSpecifier, TRParen, []);
     (KClassModification, TRParen, [])]
  | KBasePrefix =>
     [(KBasePrefix, TOutput, []); (KBasePrefix, TInput, [])]
  | KEnumList =>
     [(KEnumerationLiteral, TIdentifier, []); (KDescriptionString, TString, []);
     (KClassModification, TRParen, [])]
  | KEnumerationLiteral =>
     [(KEnumerationLiteral, TIdentifier, []); (KDescriptionString, TString, []);
     (KClassModification, TRParen, [])]
  | KComposition =>
     [(KComposition, TSemicolon, []); (KComposition, TProtected, []); (KComposition, TPublic, []);
     (KAlgorithmSection, TAlgorithm, []); (KEquationSection, TEquation, []);
     (KAlgorithmSection, TSemicolon, []); (KEquationSection, TSemicolon, []);
     (KElementList, TSemicolon, [])]
  | KLanguageSpecification =>
     [(KLanguageSpecification, TString, [])]
  | KExternalFunctionCall =>
     [(KExternalFunctionCall, TRParen, [])]
  | KElementList =>
     [(KElementList, TSemicolon, [])]
  | KElement =>
     [(KImportClause, TRCurly, []); (KImportClause, TDotStar, []); (KName, TIdentifier, []);
     (KDescriptionString, TString, []); (KClassModification, TRParen, []);
     (KShortClassSpecifier, TRParen, []); (KLongClassSpecifier, TIdentifier, []);
     (KClassOrInheritanceModification, TRParen, []); (KDeclaration, TIdentifier, []);
     (KDerClassSpecifier, TRParen, []); (KArraySubscripts, TRBracket, []);
     (KModificationExpression, TBreak, []); (KPrimary, TEnd, []); (KPrimary, TRParen, []);
     (KPrimary, TBool, []); (KPrimary, TString, []); (KPrimary, TUReal, []);
     (KPrimary, TUInt, []); (KComponentReference, TIdentifier, []);
     (KFunctionCallArgs, TRParen, []); (KPrimary, TRCurly, []); (KPrimary, TRBracket, [])]
  | KImportClause =>
     [(KImportClause, TRCurly, []); (KImportClause, TDotStar, []); (KName, TIdentifier, []);
     (KDescriptionString, TString, []); (KClassModification, TRParen, [])]
  | KImportList =>
     [(KImportList, TIdentifier, [])]
  | KExtendsClause =>
     [(KClassModification, TRParen, []); (KClassOrInheritanceModification, TRParen, []);
     (KName, TIdentifier, [])]
  | KConstrainingClause =>
     [(KClassModification, TRParen, []); (KName, TIdentifier, [])]
  | KClassOrInheritanceModification =>
     [(KClassOrInheritanceModification, TRParen, [])]
  | KArgumentOrInheritanceModificationList =>
     [(KInheritanceModification, TIdentifier, []); (KConnectEquation, TRParen, []);
     (KShortClassSpecifier, TRParen, []); (KDescriptionString, TString, []);
     (KName, TIdentifier, []); (KDeclaration, TIdentifier, []);
     (KModificationExpression, TBreak, []); (KClassModification, TRParen, []);
     (KArraySubscripts, TRBracket, []); (KPrimary, TEnd, []); (KPrimary, TRParen, []);
     (KPrimary, TBool, []); (KPrimary, TString, []); (KPrimary, TUReal, []);
     (KPrimary, TUInt, []); (KComponentReference, TIdentifier, []);
     (KFunctionCallArgs, TRParen, []); (KPrimary, TRCurly, []); (KPrimary, TRBracket, [])]
  | KInheritanceModification =>
     [(KInheritanceModification, TIdentifier, []); (KConnectEquation, TRParen, [])]
  | KComponentClause =>
     [(KDeclaration, TIdentifier, []); (KDescriptionString, TString, []);
     (KClassModification, TRParen, []); (KModificationExpression, TBreak, []);
     (KArraySubscripts, TRBracket, []); (KPrimary, TEnd, []); (KPrimary, TRParen, []);
     (KPrimary, TBool, []); (KPrimary, TString, []); (KPrimary, TUReal, []);
     (KPrimary, TUInt, []); (KComponentReference, TIdentifier, []);
     (KFunctionCallArgs, TRParen, []); (KPrimary, TRCurly, []); (KPrimary, TRBracket, [])]
  | KTypePrefix =>
     [(KTypePrefix, TStream, []); (KTypePrefix, TConstant, []); (KTypePrefix, TParameter, []);
     (KTypePrefix, TOutput, []); (KTypePrefix, TInput, []); (KTypePrefix, TDiscrete, []);
     (KTypePrefix, TFlow, [])]
  | KComponentList =>
     [(KDeclaration, TIdentifier, []); (KDescriptionString, TString, []);
     (KClassModification, TRParen, []); (KModificationExpression, TBreak, []);
     (KArraySubscripts, TRBracket, []); (KPrimary, TEnd, []); (KPrimary, TRParen, []);
     (KPrimary, TBool, []); (KPrimary, TString, []); (KPrimary, TUReal, []);
     (KPrimary, TUInt, []); (KComponentReference, TIdentifier, []);
     (KFunctionCallArgs, TRParen, []); (KPrimary, TRCurly, []); (KPrimary, TRBracket, [])]
  | KComponentDeclaration =>
     [(KDeclaration, TIdentifier, []); (KDescriptionString, TString, []);
     (KClassModification, TRParen, []); (KModificationExpression, TBreak, []);
     (KArraySubscripts, TRBracket, []); (KPrimary, TEnd, []); (KPrimary, TRParen, []);
     (KPrimary, TBool, []); (KPrimary, TString, []); (KPrimary, TUReal, []);
     (KPrimary, TUInt, []); (KComponentReference, TIdentifier, []);
     (KFunctionCallArgs, TRParen, []); (KPrimary, TRCurly, []); (KPrimary, TRBracket, [])]
  | KConditionAttribute =>
     [(KPrimary, TEnd, []); (KPrimary, TRParen, []); (KPrimary, TBool, []);
     (KPrimary, TString, []); (KPrimary, TUReal, []); (KPrimary, TUInt, []);
     (KComponentReference, TIdentifier, []); (KFunctionCallArgs, TRParen, []);
     (KArraySubscripts, TRBracket, []); (KPrimary, TRCurly, []); (KPrimary, TRBracket, [])]
  | KDeclaration =>
     [(KDeclaration, TIdentifier, []); (KModificationExpression, TBreak, []);
     (KClassModification, TRParen, []); (KArraySubscripts, TRBracket, []); (KPrimary, TEnd, []);
     (KPrimary, TRParen, []); (KPrimary, TBool, []); (KPrimary, TString, []);
     (KPrimary, TUReal, []); (KPrimary, TUInt, []); (KComponentReference, TIdentifier, []);
     (KFunctionCallArgs, TRParen, []); (KPrimary, TRCurly, []); (KPrimary, TRBracket, [])]
  | KModification =>
     [(KModificationExpression, TBreak, []); (KClassModification, TRParen, []);
     (KPrimary, TEnd, []); (KPrimary, TRParen, []); (KPrimary, TBool, []);
     (KPrimary, TString, []); (KPrimary, TUReal, []); (KPrimary, TUInt, []);
     (KComponentReference, TIdentifier, []); (KFunctionCallArgs, TRParen, []);
     (KArraySubscripts, TRBracket, []); (KPrimary, TRCurly, []); (KPrimary, TRBracket, [])]
  | KModificationExpression =>
     [(KModificationExpression, TBreak, []); (KPrimary, TEnd, []); (KPrimary, TRParen, []);
     (KPrimary, TBool, []); (KPrimary, TString, []); (KPrimary, TUReal, []);
     (KPrimary, TUInt, []); (KComponentReference, TIdentifier, []);
     (KFunctionCallArgs, TRParen, []); (KArraySubscripts, TRBracket, []); (KPrimary, TRCurly, []);
     (KPrimary, TRBracket, [])]
  | KClassModification =>
     [(KClassModification, TRParen, [])]
  | KArgumentList =>
     [(KShortClassSpecifier, TRParen, []); (KDescriptionString, TString, []);
     (KName, TIdentifier, []); (KDeclaration, TIdentifier, []);
     (KModificationExpression, TBreak, []); (KClassModification, TRParen, []);
     (KArraySubscripts, TRBracket, []); (KPrimary, TEnd, []); (KPrimary, TRParen, []);
     (KPrimary, TBool, []); (KPrimary, TString, []); (KPrimary, TUReal, []);
     (KPrimary, TUInt, []); (KComponentReference, TIdentifier, []);
     (KFunctionCallArgs, TRParen, []); (KPrimary, TRCurly, []); (KPrimary, TRBracket, [])]
  | KArgument =>
     [(KShortClassSpecifier, TRParen, []); (KDescriptionString, TString, []);
     (KName, TIdentifier, []); (KDeclaration, TIdentifier, []);
     (KModificationExpression, TBreak, []); (KClassModification, TRParen, []);
     (KArraySubscripts, TRBracket, []); (KPrimary, TEnd, []); (KPrimary, TRParen, []);
     (KPrimary, TBool, []); (KPrimary, TString, []); (KPrimary, TUReal, []);
     (KPrimary, TUInt, []); (KComponentReference, TIdentifier, []);
     (KFunctionCallArgs, TRParen, []); (KPrimary, TRCurly, []); (KPrimary, TRBracket, [])]
  | KElementModificationOrReplaceable =>
     [(KDescriptionString, TString, []); (KName, TIdentifier, []);
     (KShortClassSpecifier, TRParen, []); (KModificationExpression, TBreak, []);
     (KClassModification, TRParen, []); (KDeclaration, TIdentifier, []);
     (KArraySubscripts, TRBracket, []); (KPrimary, TEnd, []); (KPrimary, TRParen, []);
     (KPrimary, TBool, []); (KPrimary, TString, []); (KPrimary, TUReal, []);
     (KPrimary, TUInt, []); (KComponentReference, TIdentifier, []);
     (KFunctionCallArgs, TRParen, []); (KPrimary, TRCurly, []); (KPrimary, TRBracket, [])]
  | KElementModification =>
     [(KDescriptionString, TString, []); (KName, TIdentifier, []);
     (KModificationExpression, TBreak, []); (KClassModification, TRParen, []);
     (KPrimary, TEnd, []); (KPrimary, TRParen, []); (KPrimary, TBool, []);
     (KPrimary, TString, []); (KPrimary, TUReal, []); (KPrimary, TUInt, []);
     (KComponentReference, TIdentifier, []); (KFunctionCallArgs, TRParen, []);
     (KArraySubscripts, TRBracket, []); (KPrimary, TRCurly, []); (KPrimary, TRBracket, [])]
  | KElementRedeclaration =>
     [(KShortClassSpecifier, TRParen, []); (KDeclaration, TIdentifier, []);
     (KClassModification, TRParen, []); (KName, TIdentifier, []);
     (KDescriptionString, TString, []); (KArraySubscripts, TRBracket, []);
     (KModificationExpression, TBreak, []); (KPrimary, TEnd, []); (KPrimary, TRParen, []);
     (KPrimary, TBool, []); (KPrimary, TString, []); (KPrimary, TUReal, []);
     (KPrimary, TUInt, []); (KComponentReference, TIdentifier, []);
     (KFunctionCallArgs, TRParen, []); (KPrimary, TRCurly, []); (KPrimary, TRBracket, [])]
  | KElementReplaceable =>
     [(KShortClassSpecifier, TRParen, []); (KDeclaration, TIdentifier, []);
     (KClassModification, TRParen, []); (KName, TIdentifier, []);
     (KDescriptionString, TString, []); (KArraySubscripts, TRBracket, []);
     (KModificationExpression, TBreak, []); (KPrimary, TEnd, []); (KPrimary, TRParen, []);
     (KPrimary, TBool, []); (KPrimary, TString, []); (KPrimary, TUReal, []);
     (KPrimary, TUInt, []); (KComponentReference, TIdentifier, []);
     (KFunctionCallArgs, TRParen, []); (KPrimary, TRCurly, []); (KPrimary, TRBracket, [])]
  | KComponentClause1 =>
     [(KDeclaration, TIdentifier, []); (KDescriptionString, TString, []);
     (KClassModification, TRParen, []); (KModificationExpression, TBreak, []);
     (KArraySubscripts, TRBracket, []); (KPrimary, TEnd, []); (KPrimary, TRParen, []);
     (KPrimary, TBool, []); (KPrimary, TString, []); (KPrimary, TUReal, []);
     (KPrimary, TUInt, []); (KComponentReference, TIdentifier, []);
     (KFunctionCallArgs, TRParen, []); (KPrimary, TRCurly, []); (KPrimary, TRBracket, [])]
  | KComponentDeclaration1 =>
     [(KDeclaration, TIdentifier, []); (KDescriptionString, TString, []);
     (KClassModification, TRParen, []); (KModificationExpression, TBreak, []);
     (KArraySubscripts, TRBracket, []); (KPrimary, TEnd, []); (KPrimary, TRParen, []);
     (KPrimary, TBool, []); (KPrimary, TString, []); (KPrimary, TUReal, []);
     (KPrimary, TUInt, []); (KComponentReference, TIdentifier, []);
     (KFunctionCallArgs, TRParen, []); (KPrimary, TRCurly, []); (KPrimary, TRBracket, [])]
  | KShortClassDefinition =>
     [(KShortClassSpecifier, TRParen, []); (KDescriptionString, TString, []);
     (KClassModification, TRParen, []); (KArraySubscripts, TRBracket, []);
     (KName, TIdentifier, [])]
  | KEquationSection =>
     [(KEquationSection, TEquation, []); (KEquationSection, TSemicolon, [])]
  | KAlgorithmSection =>
     [(KAlgorithmSection, TAlgorithm, []); (KAlgorithmSection, TSemicolon, [])]
  | KEquation =>
     [(KDescriptionString, TString, []); (KConnectEquation, TRParen, []);
     (KClassModification, TRParen, []); (KForEquation, TFor, []); (KPrimary, TEnd, []);
     (KPrimary, TRParen, []); (KPrimary, TBool, []); (KPrimary, TString, []);
     (KPrimary, TUReal, []); (KPrimary, TUInt, []); (KComponentReference, TIdentifier, []);
     (KFunctionCallArgs, TRParen, []); (KWhenEquation, TWhen, []); (KIfEquation, TIf, []);
     (KArraySubscripts, TRBracket, []); (KPrimary, TRCurly, []); (KPrimary, TRBracket, [])]
  | KStatement =>
     [(KStatement, TReturn, []); (KStatement, TBreak, []); (KFunctionCallArgs, TRParen, []);
     (KDescriptionString, TString, []); (KForStatement, TFor, []);
     (KClassModification, TRParen, []); (KPrimary, TEnd, []); (KPrimary, TRParen, []);
     (KPrimary, TBool, []); (KPrimary, TString, []); (KPrimary, TUReal, []);
     (KPrimary, TUInt, []); (KWhenStatement, TWhen, []); (KWhileStatement, TWhile, []);
     (KIfStatement, TIf, []); (KComponentReference, TIdentifier, []);
     (KArraySubscripts, TRBracket, []); (KPrimary, TRCurly, []); (KPrimary, TRBracket, [])]
  | KIfEquation =>
     [(KIfEquation, TIf, [])]
  | KIfStatement =>
     [(KIfStatement, TIf, [])]
  | KForEquation =>
     [(KForEquation, TFor, [])]
  | KForStatement =>
     [(KForStatement, TFor, [])]
  | KForIndices =>
     [(KForIndex, TIdentifier, []); (KPrimary, TEnd, []); (KPrimary, TRParen, []);
     (KPrimary, TBool, []); (KPrimary, TString, []); (KPrimary, TUReal, []);
     (KPrimary, TUInt, []); (KComponentReference, TIdentifier, []);
     (KFunctionCallArgs, TRParen, []); (KArraySubscripts, TRBracket, []); (KPrimary, TRCurly, []);
     (KPrimary, TRBracket, [])]
  | KForIndex =>
     [(KForIndex, TIdentifier, []); (KPrimary, TEnd, []); (KPrimary, TRParen, []);
     (KPrimary, TBool, []); (KPrimary, TString, []); (KPrimary, TUReal, []);
     (KPrimary, TUInt, []); (KComponentReference, TIdentifier, []);
     (KFunctionCallArgs, TRParen, []); (KArraySubscripts, TRBracket, []); (KPrimary, TRCurly, []);
     (KPrimary, TRBracket, [])]
  | KWhileStatement =>
     [(KWhileStatement, TWhile, [])]
  | KWhenEquation =>
     [(KWhenEquation, TWhen, [])]
  | KWhenStatement =>
     [(KWhenStatement, TWhen, [])]
  | KConnectEquation =>
     [(KConnectEquation, TRParen, [])]
  | KExpression =>
     [(KPrimary, TEnd, []); (KPrimary, TRParen, []); (KPrimary, TBool, []);
     (KPrimary, TString, []); (KPrimary, TUReal, []); (KPrimary, TUInt, []);
     (KComponentReference, TIdentifier, []); (KFunctionCallArgs, TRParen, []);
     (KArraySubscripts, TRBracket, []); (KPrimary, TRCurly, []); (KPrimary, TRBracket, [])]
  | KSimpleExpression =>
     [(KPrimary, TEnd, []); (KPrimary, TRParen, []); (KPrimary, TBool, []);
     (KPrimary, TString, []); (KPrimary, TUReal, []); (KPrimary, TUInt, []);
     (KComponentReference, TIdentifier, []); (KFunctionCallArgs, TRParen, []);
     (KArraySubscripts, TRBracket, []); (KPrimary, TRCurly, []); (KPrimary, TRBracket, [])]
  | KLogicalExpression =>
     [(KPrimary, TEnd, []); (KPrimary, TRParen, []); (KPrimary, TBool, []);
     (KPrimary, TString, []); (KPrimary, TUReal, []); (KPrimary, TUInt, []);
     (KComponentReference, TIdentifier, []); (KFunctionCallArgs, TRParen, []);
     (KArraySubscripts, TRBracket, []); (KPrimary, TRCurly, []); (KPrimary, TRBracket, [])]
  | KLogicalTerm =>
     [(KPrimary, TEnd, []); (KPrimary, TRParen, []); (KPrimary, TBool, []);
     (KPrimary, TString, []); (KPrimary, TUReal, []); (KPrimary, TUInt, []);
     (KComponentReference, TIdentifier, []); (KFunctionCallArgs, TRParen, []);
     (KArraySubscripts, TRBracket, []); (KPrimary, TRCurly, []); (KPrimary, TRBracket, [])]
  | KLogicalFactor =>
     [(KPrimary, TEnd, []); (KPrimary, TRParen, []); (KPrimary, TBool, []);
     (KPrimary, TString, []); (KPrimary, TUReal, []); (KPrimary, TUInt, []);
     (KComponentReference, TIdentifier, []); (KFunctionCallArgs, TRParen, []);
     (KArraySubscripts, TRBracket, []); (KPrimary, TRCurly, []); (KPrimary, TRBracket, [])]
  | KRelation =>
     [(KPrimary, TEnd, []); (KPrimary, TRParen, []); (KPrimary, TBool, []);
     (KPrimary, TString, []); (KPrimary, TUReal, []); (KPrimary, TUInt, []);
     (KComponentReference, TIdentifier, []); (KFunctionCallArgs, TRParen, []);
     (KArraySubscripts, TRBracket, []); (KPrimary, TRCurly, []); (KPrimary, TRBracket, [])]
  | KRelationalOperator =>
     [(KRelationalOperator, TNeq, []); (KRelationalOperator, TEq, []);
     (KRelationalOperator, TGeq, []); (KRelationalOperator, TGre, []);
     (KRelationalOperator, TLeq, []); (KRelationalOperator, TLes, [])]
  | KArithmeticExpression =>
     [(KPrimary, TEnd, []); (KPrimary, TRParen, []); (KPrimary, TBool, []);
     (KPrimary, TString, []); (KPrimary, TUReal, []); (KPrimary, TUInt, []);
     (KComponentReference, TIdentifier, []); (KFunctionCallArgs, TRParen, []);
     (KArraySubscripts, TRBracket, []); (KPrimary, TRCurly, []); (KPrimary, TRBracket, [])]
  | KAddOperator =>
     [(KAddOperator, TDotMinus, []); (KAddOperator, TDotPlus, []); (KAddOperator, TMinus, []);
     (KAddOperator, TPlus, [])]
  | KTerm =>
     [(KPrimary, TEnd, []); (KPrimary, TRParen, []); (KPrimary, TBool, []);
     (KPrimary, TString, []); (KPrimary, TUReal, []); (KPrimary, TUInt, []);
     (KComponentReference, TIdentifier, []); (KFunctionCallArgs, TRParen, []);
     (KArraySubscripts, TRBracket, []); (KPrimary, TRCurly, []); (KPrimary, TRBracket, [])]
  | KMulOperator =>
     [(KMulOperator, TDotSlash, []); (KMulOperator, TDotStar, []); (KMulOperator, TSlash, []);
     (KMulOperator, TStar, [])]
  | KFactor =>
     [(KPrimary, TEnd, []); (KPrimary, TRParen, []); (KPrimary, TBool, []);
     (KPrimary, TString, []); (KPrimary, TUReal, []); (KPrimary, TUInt, []);
     (KComponentReference, TIdentifier, []); (KFunctionCallArgs, TRParen, []);
     (KArraySubscripts, TRBracket, []); (KPrimary, TRCurly, []); (KPrimary, TRBracket, [])]
  | KPrimary =>
     [(KPrimary, TEnd, []); (KPrimary, TRParen, []); (KPrimary, TBool, []);
     (KPrimary, TString, []); (KPrimary, TUReal, []); (KPrimary, TUInt, []);
     (KComponentReference, TIdentifier, []); (KFunctionCallArgs, TRParen, []);
     (KArraySubscripts, TRBracket, []); (KPrimary, TRCurly, []); (KPrimary, TRBracket, [])]
  | KTypeSpecifier =>
     [(KName, TIdentifier, [])]
  | KName =>
     [(KName, TIdentifier, [])]
  | KComponentReference =>
     [(KComponentReference, TIdentifier, []); (KArraySubscripts, TRBracket, [])]
  | KResultReference =>
     [(KResultReference, TRParen, []); (KComponentReference, TIdentifier, []);
     (KArraySubscripts, TRBracket, [])]
  | KFunctionCallArgs =>
     [(KFunctionCallArgs, TRParen, [])]
  | KFunctionArguments =>
     [(KFunctionPartialApplication, TRParen, []); (KForIndex, TIdentifier, []);
     (KPrimary, TEnd, []); (KPrimary, TRParen, []); (KPrimary, TBool, []);
     (KPrimary, TString, []); (KPrimary, TUReal, []); (KPrimary, TUInt, []);
     (KComponentReference, TIdentifier, []); (KFunctionCallArgs, TRParen, []);
     (KArraySubscripts, TRBracket, []); (KPrimary, TRCurly, []); (KPrimary, TRBracket, [])]
  | KFunctionArgumentsNonFirst =>
     [(KFunctionPartialApplication, TRParen, []); (KPrimary, TEnd, []); (KPrimary, TRParen, []);
     (KPrimary, TBool, []); (KPrimary, TString, []); (KPrimary, TUReal, []);
     (KPrimary, TUInt, []); (KComponentReference, TIdentifier, []);
     (KFunctionCallArgs, TRParen, []); (KArraySubscripts, TRBracket, []); (KPrimary, TRCurly, []);
     (KPrimary, TRBracket, [])]
  | KArrayArguments =>
     [(KForIndex, TIdentifier, []); (KPrimary, TEnd, []); (KPrimary, TRParen, []);
     (KPrimary, TBool, []); (KPrimary, TString, []); (KPrimary, TUReal, []);
     (KPrimary, TUInt, []); (KComponentReference, TIdentifier, []);
     (KFunctionCallArgs, TRParen, []); (KArraySubscripts, TRBracket, []); (KPrimary, TRCurly, []);
     (KPrimary, TRBracket, [])]
  | KArrayArgumentsNonFirst =>
     [(KPrimary, TEnd, []); (KPrimary, TRParen, []); (KPrimary, TBool, []);
     (KPrimary, TString, []); (KPrimary, TUReal, []); (KPrimary, TUInt, []);
     (KComponentReference, TIdentifier, []); (KFunctionCallArgs, TRParen, []);
     (KArraySubscripts, TRBracket, []); (KPrimary, TRCurly, []); (KPrimary, TRBracket, [])]
  | KNamedArguments =>
     [(KFunctionPartialApplication, TRParen, []); (KPrimary, TEnd, []); (KPrimary, TRParen, []);
     (KPrimary, TBool, []); (KPrimary, TString, []); (KPrimary, TUReal, []);
     (KPrimary, TUInt, []); (KComponentReference, TIdentifier, []);
     (KFunctionCallArgs, TRParen, []); (KArraySubscripts, TRBracket, []); (KPrimary, TRCurly, []);
     (KPrimary, TRBracket, [])]
  | KNamedArgument =>
     [(KFunctionPartialApplication, TRParen, []); (KPrimary, TEnd, []); (KPrimary, TRParen, []);
     (KPrimary, TBool, []); (KPrimary, TString, []); (KPrimary, TUReal, []);
     (KPrimary, TUInt, []); (KComponentReference, TIdentifier, []);
     (KFunctionCallArgs, TRParen, []); (KArraySubscripts, TRBracket, []); (KPrimary, TRCurly, []);
     (KPrimary, TRBracket, [])]
  | KFunctionArgument =>
     [(KFunctionPartialApplication, TRParen, []); (KPrimary, TEnd, []); (KPrimary, TRParen, []);
     (KPrimary, TBool, []); (KPrimary, TString, []); (KPrimary, TUReal, []);
     (KPrimary, TUInt, []); (KComponentReference, TIdentifier, []);
     (KFunctionCallArgs, TRParen, []); (KArraySubscripts, TRBracket, []); (KPrimary, TRCurly, []);
     (KPrimary, TRBracket, [])]
  | KFunctionPartialApplication =>
     [(KFunctionPartialApplication, TRParen, [])]
  | KOutputExpressionList =>
     [(KOutputExpressionList, TComma, [GS]); (KPrimary, TEnd, []); (KPrimary, TRParen, []);
     (KPrimary, TBool, []); (KPrimary, TString, []); (KPrimary, TUReal, []);
     (KPrimary, TUInt, []); (KComponentReference, TIdentifier, []);
     (KFunctionCallArgs, TRParen, []); (KArraySubscripts, TRBracket, []); (KPrimary, TRCurly, []);
     (KPrimary, TRBracket, [])]
  | KExpressionList =>
     [(KPrimary, TEnd, []); (KPrimary, TRParen, []); (KPrimary, TBool, []);
     (KPrimary, TString, []); (KPrimary, TUReal, []); (KPrimary, TUInt, []);
     (KComponentReference, TIdentifier, []); (KFunctionCallArgs, TRParen, []);
     (KArraySubscripts, TRBracket, []); (KPrimary, TRCurly, []); (KPrimary, TRBracket, [])]
  | KArraySubscripts =>
     [(KArraySubscripts, TRBracket, [])]
  | KSubscript =>
     [(KSubscript, TColon, []); (KPrimary, TEnd, []); (KPrimary, TRParen, []);
     (KPrimary, TBool, []); (KPrimary, TString, []); (KPrimary, TUReal, []);
     (KPrimary, TUInt, []); (KComponentReference, TIdentifier, []);
     (KFunctionCallArgs, TRParen, []); (KArraySubscripts, TRBracket, []); (KPrimary, TRCurly, []);
     (KPrimary, TRBracket, [])]
  | KDescription =>
     [(KDescriptionString, TString, []); (KClassModification, TRParen, [])]
  | KDescriptionString =>
     [(KDescriptionString, TString, [])]
  | KAnnotationClause =>
     [(KClassModification, TRParen, [])]
  end.

(** Classes of the tokens that may precede a function. *)
Definition t_pcls (k : skind) : list tkind :=
  match k with
  | KError =>
     [TEOF]
  | KStoredDefinition =>
     [TEOF]
  | KClassDefinition =>
     [TEOF; TSemicolon]
  | KClassPrefixes =>
     [TEOF; TSemicolon]
  | KClassSpecifier =>
     [TEOF]
  | KLongClassSpecifier =>
     [TEOF]
  | KShortClassSpecifier =>
     [TEOF]
  | KDerClassSpecifier =>
     [TEOF]
  | KBasePrefix =>
     [TEOF]
  | KEnumList =>
     [TEOF; TLParen]
  | KEnumerationLiteral =>
     [TEOF; TComma; TLParen]
  | KComposition =>
     [TEOF]
  | KLanguageSpecification =>
     [TEOF; TExternal]
  | KExternalFunctionCall =>
     [TEOF; TExternal]
  | KElementList =>
     [TEOF]
  | KElement =>
     [TEOF; TSemicolon]
  | KImportClause =>
     [TEOF; TSemicolon]
  | KImportList =>
     [TEOF]
  | KExtendsClause =>
     [TEOF; TSemicolon]
  | KConstrainingClause =>
     [TEOF; TEnd]
  | KClassOrInheritanceModification =>
     [TEOF]
  | KArgumentOrInheritanceModificationList =>
     [TEOF; TLParen]
  | KInheritanceModification =>
     [TEOF; TComma; TLParen]
  | KComponentClause =>
     [TEOF; TSemicolon]
  | KTypePrefix =>
     [TEOF; TSemicolon]
  | KComponentList =>
     [TEOF]
  | KComponentDeclaration =>
     [TEOF; TComma]
  | KConditionAttribute =>
     [TEOF; TEnd]
  | KDeclaration =>
     [TEOF; TComma]
  | KModification =>
     [TEOF]
  | KModificationExpression =>
     [TEOF; TAssign]
  | KClassModification =>
     [TEOF]
  | KArgumentList =>
     [TEOF; TLParen]
  | KArgument =>
     [TEOF; TComma; TLParen]
  | KElementModificationOrReplaceable =>
     [TEOF; TComma; TLParen]
  | KElementModification =>
     [TEOF; TComma; TLParen]
  | KElementRedeclaration =>
     [TEOF; TComma; TLParen]
  | KElementReplaceable =>
     [TEOF; TComma; TLParen]
  | KComponentClause1 =>
     [TEOF]
  | KComponentDeclaration1 =>
     [TEOF]
  | KShortClassDefinition =>
     [TEOF]
  | KEquationSection =>
     [TEOF; TAlgorithm; TEquation; TSemicolon]
  | KAlgorithmSection =>
     [TEOF; TAlgorithm; TEquation; TSemicolon]
  | KEquation =>
     [TEOF; TEquation; TSemicolon]
  | KStatement =>
     [TEOF; TAlgorithm; TSemicolon]
  | KIfEquation =>
     [TEOF; TEquation; TSemicolon]
  | KIfStatement =>
     [TEOF; TAlgorithm; TSemicolon]
  | KForEquation =>
     [TEOF; TEquation; TSemicolon]
  | KForStatement =>
     [TEOF; TAlgorithm; TSemicolon]
  | KForIndices =>
     [TEOF]
  | KForIndex =>
     [TEOF; TComma]
  | KWhileStatement =>
     [TEOF; TAlgorithm; TSemicolon]
  | KWhenEquation =>
     [TEOF; TEquation; TSemicolon]
  | KWhenStatement =>
     [TEOF; TAlgorithm; TSemicolon]
  | KConnectEquation =>
     [TEOF; TEquation; TSemicolon]
  | KExpression =>
     [TEOF; TAssign; TLParen; TComma; TSemicolon]
  | KSimpleExpression =>
     [TEOF; TEquation; TAssign; TLParen; TComma; TSemicolon]
  | KLogicalExpression =>
     [TEOF; TEquation; TAssign; TLParen; TComma; TSemicolon]
  | KLogicalTerm =>
     [TEOF; TEquation; TAssign; TLParen; TComma; TSemicolon]
  | KLogicalFactor =>
     [TEOF; TEquation; TAssign; TLParen; TComma; TSemicolon]
  | KRelation =>
     [TEOF; TEquation; TAssign; TLParen; TComma; TSemicolon]
  | KRelationalOperator =>
     [TEOF; TEnd]
  | KArithmeticExpression =>
     [TEOF; TEquation; TAssign; TLParen; TComma; TSemicolon]
  | KAddOperator =>
     [TEOF; TEnd; TEquation; TAssign; TLParen; TComma; TSemicolon]
  | KTerm =>
     [TEOF; TEquation; TAssign; TLParen; TComma; TSemicolon]
  | KMulOperator =>
     [TEOF; TEnd]
  | KFactor =>
     [TEOF; TEquation; TAssign; TLParen; TComma; TSemicolon]
  | KPrimary =>
     [TEOF; TEquation; TAssign; TLParen; TComma; TSemicolon]
  | KTypeSpecifier =>
     [TEOF; TLParen; TSemicolon]
  | KName =>
     [TEOF; TLParen; TComma; TSemicolon]
  | KComponentReference =>
     [TEOF; TAssign; TLParen; TExternal; TAlgorithm; TComma; TSemicolon; TEquation]
  | KResultReference =>
     [TEOF]
  | KFunctionCallArgs =>
     [TEOF]
  | KFunctionArguments =>
     [TEOF; TLParen]
  | KFunctionArgumentsNonFirst =>
     [TEOF; TComma]
  | KArrayArguments =>
     [TEOF]
  | KArrayArgumentsNonFirst =>
     [TEOF; TComma]
  | KNamedArguments =>
     [TEOF; TLParen; TComma]
  | KNamedArgument =>
     [TEOF; TLParen; TComma]
  | KFunctionArgument =>
     [TEOF; TComma]
  | KFunctionPartialApplication =>
     [TEOF; TLParen; TComma]
  | KOutputExpressionList =>
     [TLParen]
  | KExpressionList =>
     [TEOF; TLParen; TSemicolon]
  | KArraySubscripts =>
     [TEOF]
  | KSubscript =>
     [TEOF; TComma]
  | KDescription =>
     [TEOF; TEnd]
  | KDescriptionString =>
     [TEOF; TEnd]
  | KAnnotationClause =>
     [TEOF; TSemicolon; TExternal; TAlgorithm; TEquation; TEnd]
  end.

(** For arguments [wrapped] and [in_oel]: results, with a lower bound for the growth
    of the indentation. *)
Definition t_outs_all (k : skind) : list (bool * bool * (bool * nat)) :=
  match k with
  | KError => []
  | KStoredDefinition => [(false, false, (false, 0%nat))]
  | KClassDefinition => [(false, false, (false, 0%nat))]
  | KClassPrefixes => [(false, false, (false, 0%nat))]
  | KClassSpecifier => [(false, false, (false, 0%nat))]
  | KLongClassSpecifier => [(false, false, (false, 0%nat))]
  | KShortClassSpecifier => [(false, false, (false, 0%nat))]
  | KDerClassSpecifier => [(false, false, (false, 0%nat))]
  | KBasePrefix => [(false, false, (false, 0%nat))]
  | KEnumList => [(false, false, (false, 0%nat))]
  | KEnumerationLiteral => [(false, false, (false, 0%nat))]
  | KComposition => [(false, false, (false, 0%nat))]
  | KLanguageSpecification => [(false, false, (false, 0%nat))]
  | KExternalFunctionCall => [(false, false, (false, 0%nat))]
  | KElementList => [(false, false, (false, 0%nat))]
  | KElement => [(false, false, (false, 0%nat))]
  | KImportClause => [(false, false, (false, 0%nat))]
  | KImportList => [(false, false, (false, 0%nat))]
  | KExtendsClause => [(false, false, (false, 0%nat))]
  | KConstrainingClause => [(false, false, (false, 0%nat))]
  | KClassOrInheritanceModification => [(false, false, (false, 0%nat))]
  | KArgumentOrInheritanceModificationList => [(false, false, (false, 0%nat))]
  | KInheritanceModification => [(false, false, (false, 0%nat))]
  | KComponentClause => [(false, false, (false, 0%nat))]
  | KTypePrefix => [(false, false, (false, 0%nat))]
  | KComponentList => [(false, false, (false, 0%nat))]
  | KComponentDeclaration => [(false, false, (false, 0%nat))]
  | KConditionAttribute => [(false, false, (false, 0%nat))]
  | KDeclaration => [(false, false, (false, 0%nat))]
  | KModification => [(false, false, (false, 0%nat))]
  | KModificationExpression => [(false, false, (false, 0%nat))]
  | KClassModification => [(false, false, (false, 0%nat))]
  | KArgumentList => [(false, false, (false, 0%nat))]
  | KArgument => [(false, false, (false, 0%nat))]
  | KElementModificationOrReplaceable => [(false, false, (false, 0%nat))]
  | KElementModification => [(false, false, (false, 0%nat))]
  | KElementRedeclaration => [(false, false, (false, 0%nat))]
  | KElementReplaceable => [(false, false, (false, 0%nat))]
  | KComponentClause1 => [(false, false, (false, 0%nat))]
  | KComponentDeclaration1 => [(false, false, (false, 0%nat))]
  | KShortClassDefinition => [(false, false, (false, 0%nat))]
  | KEquationSection => [(false, false, (false, 0%nat))]
  | KAlgorithmSection => [(false, false, (false, 0%nat))]
  | KEquation => [(false, false, (false, 0%nat))]
  | KStatement => [(false, false, (false, 0%nat))]
  | KIfEquation => [(false, false, (false, 0%nat))]
  | KIfStatement => [(false, false, (false, 0%nat))]
  | KForEquation => [(false, false, (false, 0%nat))]
  | KForStatement => [(false, false, (false, 0%nat))]
  | KForIndices => [(false, false, (false, 0%nat))]
  | KForIndex => [(false, false, (false, 0%nat))]
  | KWhileStatement => [(false, false, (false, 0%nat))]
  | KWhenEquation => [(false, false, (false, 0%nat))]
  | KWhenStatement => [(false, false, (false, 0%nat))]
  | KConnectEquation => [(false, false, (false, 0%nat))]
  | KExpression => [(false, false, (true, 0%nat)); (false, false, (false, 0%nat)); (false, true, (true, 1%nat)); (false, true, (false, 0%nat)); (true, true, (true, 0%nat))]
  | KSimpleExpression => [(false, false, (true, 1%nat)); (false, false, (false, 0%nat)); (true, false, (true, 0%nat))]
  | KLogicalExpression => [(false, false, (true, 1%nat)); (false, false, (false, 0%nat)); (true, false, (true, 0%nat))]
  | KLogicalTerm => [(false, false, (true, 1%nat)); (false, false, (false, 0%nat)); (true, false, (true, 0%nat))]
  | KLogicalFactor => [(false, false, (true, 1%nat)); (false, false, (false, 0%nat)); (true, false, (true, 0%nat))]
  | KRelation => [(false, false, (true, 1%nat)); (false, false, (false, 0%nat)); (true, false, (true, 0%nat))]
  | KRelationalOperator => [(false, false, (false, 0%nat))]
  | KArithmeticExpression => [(false, false, (true, 1%nat)); (false, false, (false, 0%nat)); (true, false, (true, 0%nat))]
  | KAddOperator => [(false, false, (false, 0%nat))]
  | KTerm => [(false, false, (true, 1%nat)); (false, false, (false, 0%nat)); (true, false, (true, 0%nat))]
  | KMulOperator => [(false, false, (false, 0%nat))]
  | KFactor => [(false, false, (true, 1%nat)); (false, false, (false, 0%nat)); (true, false, (true, 0%nat))]
  | KPrimary => [(false, false, (false, 0%nat)); (true, false, (true, 0%nat)); (false, false, (true, 1%nat))]
  | KTypeSpecifier => [(false, false, (false, 0%nat))]
  | KName => [(false, false, (false, 0%nat))]
  | KComponentReference => [(false, false, (false, 0%nat))]
  | KResultReference => [(false, false, (false, 0%nat))]
  | KFunctionCallArgs => [(false, false, (false, 0%nat))]
  | KFunctionArguments => [(false, false, (false, 0%nat))]
  | KFunctionArgumentsNonFirst => [(false, false, (false, 0%nat))]
  | KArrayArguments => [(false, false, (false, 0%nat))]
  | KArrayArgumentsNonFirst => [(false, false, (false, 0%nat))]
  | KNamedArguments => [(false, false, (false, 0%nat))]
  | KNamedArgument => [(false, false, (false, 0%nat))]
  | KFunctionArgument => [(false, false, (false, 0%nat))]
  | KFunctionPartialApplication => [(false, false, (false, 0%nat))]
  | KOutputExpressionList => [(false, false, (false, 0%nat)); (true, false, (true, 0%nat)); (false, false, (true, 1%nat))]
  | KExpressionList => [(false, false, (false, 0%nat))]
  | KArraySubscripts => [(false, false, (false, 0%nat))]
  | KSubscript => [(false, false, (false, 0%nat))]
  | KDescription => [(false, false, (false, 0%nat))]
  | KDescriptionString => [(false, false, (false, 0%nat))]
  | KAnnotationClause => [(false, false, (false, 0%nat))]
  end.

Definition t_outs (k : skind) (w oel : bool) : list (bool * nat) :=
  map snd (filter (fun p => Bool.eqb w (fst (fst p)) && Bool.eqb oel (snd (fst p))) (t_outs_all k)).

(** Places where two tokens meet. *)
Definition t_sites : list (src * gap * dst) :=
    [(STok (KStoredDefinition, TWithin), [GS], DTok (KStoredDefinition, TSemicolon));
     (STok (KStoredDefinition, TSemicolon), [GB Legal], DFn KClassDefinition);
     (SFn KClassDefinition, [], DTok (KStoredDefinition, TSemicolon));
     (STok (KStoredDefinition, TFinal), [GS], DFn KClassDefinition);
     (STok (KStoredDefinition, TSemicolon), [GB Legal], DTok (KStoredDefinition, TFinal));
     (SFn KName, [], DTok (KStoredDefinition, TSemicolon));
     (STok (KStoredDefinition, TWithin), [GS], DFn KName);
     (SFn KClassPrefixes, [GS], DFn KClassSpecifier);
     (STok (KClassDefinition, TEncapsulated), [GS], DFn KClassPrefixes);
     (STok (KClassPrefixes, TOperator), [GS], DTok (KClassPrefixes, TRecord));
     (STok (KClassPrefixes, TPartial), [GS], DTok (KClassPrefixes, TOperator));
     (STok (KClassPrefixes, TPartial), [GS], DTok (KClassPrefixes, TFunction));
     (STok (KClassPrefixes, TImpure), [GS], DTok (KClassPrefixes, TFunction));
     (STok (KClassPrefixes, TImpure), [GS], DTok (KClassPrefixes, TOperator));
     (STok (KClassPrefixes, TPartial), [GS], DTok (KClassPrefixes, TImpure));
     (STok (KClassPrefixes, TPure), [GS], DTok (KClassPrefixes, TFunction));
     (STok (KClassPrefixes, TOperator), [GS], DTok (KClassPrefixes, TFunction));
     (STok (KClassPrefixes, TPure), [GS], DTok (KClassPrefixes, TOperator));
     (STok (KClassPrefixes, TPartial), [GS], DTok (KClassPrefixes, TPure));
     (STok (KClassPrefixes, TPartial), [GS], DTok (KClassPrefixes, TPackage));
     (STok (KClassPrefixes, TPartial), [GS], DTok (KClassPrefixes, TType));
     (STok (KClassPrefixes, TPartial), [GS], DTok (KClassPrefixes, TConnector));
     (STok (KClassPrefixes, TExpandable), [GS], DTok (KClassPrefixes, TConnector));
     (STok (KClassPrefixes, TPartial), [GS], DTok (KClassPrefixes, TExpandable));
     (STok (KClassPrefixes, TPartial), [GS], DTok (KClassPrefixes, TBlock));
     (STok (KClassPrefixes, TPartial), [GS], DTok (KClassPrefixes, TRecord));
     (STok (KClassPrefixes, TPartial), [GS], DTok (KClassPrefixes, TModel));
     (STok (KClassPrefixes, TPartial), [GS], DTok (KClassPrefixes, TClass));
     (SFn KClassModification, [GB Required], DTok (KLongClassSpecifier, TEnd));
     (SFn KClassModification, [], DFn KComposition);
     (SFn KClassModification, [GB Illegal], DFn KDescriptionString);
     (STok (KLongClassSpecifier, TIdentifier), [], DFn KClassModification);
     (STok (KLongClassSpecifier, TExtends), [GS], DTok (KLongClassSpecifier, TIdentifier));
     (STok (KLongClassSpecifier, TIdentifier), [GB Required], DTok (KLongClassSpecifier, TEnd));
     (STok (KLongClassSpecifier, TIdentifier), [], DFn KComposition);
     (SFn KDescriptionString, [GB Required], DTok (KLongClassSpecifier, TEnd));
     (STok (KLongClassSpecifier, TEnd), [GS], DTok (KLongClassSpecifier, TIdentifier));
     (SFn KComposition, [GB Required], DTok (KLongClassSpecifier, TEnd));
     (SFn KDescriptionString, [], DFn KComposition);
     (STok (KLongClassSpecifier, TIdentifier), [GB Illegal], DFn KDescriptionString);
     (STok (KShortClassSpecifier, TLParen), [], DTok (KShortClassSpecifier, TRParen));
     (STok (KShortClassSpecifier, TColon), [], DTok (KShortClassSpecifier, TRParen));
     (STok (KShortClassSpecifier, TLParen), [], DTok (KShortClassSpecifier, TColon));
     (STok (KShortClassSpecifier, TRParen), [GB Illegal], DFn KDescription);
     (SFn KEnumList, [], DTok (KShortClassSpecifier, TRParen));
     (STok (KShortClassSpecifier, TLParen), [], DFn KEnumList);
     (STok (KShortClassSpecifier, TLParen), [GB Illegal], DFn KEnumList);
     (STok (KShortClassSpecifier, TEnumeration), [], DTok (KShortClassSpecifier, TLParen));
     (STok (KShortClassSpecifier, TEqual), [GS], DTok (KShortClassSpecifier, TEnumeration));
     (STok (KShortClassSpecifier, TEqual), [GS], DFn KTypeSpecifier);
     (SFn KTypeSpecifier, [GB Illegal], DFn KDescription);
     (SFn KTypeSpecifier, [], DFn KClassModification);
     (SFn KArraySubscripts, [GB Illegal], DFn KDescription);
     (SFn KClassModification, [GB Illegal], DFn KDescription);
     (SFn KArraySubscripts, [], DFn KClassModification);
     (SFn KTypeSpecifier, [], DFn KArraySubscripts); (SFn KBasePrefix, [GS], DFn KTypeSpecifier);
     (STok (KShortClassSpecifier, TEqual), [GS], DFn KBasePrefix);
     (STok (KShortClassSpecifier, TIdentifier), [GS], DTok (KShortClassSpecifier, TEqual));
     (STok (KDerClassSpecifier, TComma), [GB Illegal], DTok (KDerClassSpecifier, TIdentifier));
     (STok (KDerClassSpecifier, TLParen), [GB Illegal], DFn KTypeSpecifier);
     (STok (KDerClassSpecifier, TRParen), [GB Illegal], DFn KDescription);
     (STok (KDerClassSpecifier, TIdentifier), [], DTok (KDerClassSpecifier, TRParen));
     (STok (KDerClassSpecifier, TIdentifier), [], DTok (KDerClassSpecifier, TComma));
     (STok (KDerClassSpecifier, TComma), [GS], DTok (KDerClassSpecifier, TIdentifier));
     (SFn KTypeSpecifier, [], DTok (KDerClassSpecifier, TComma));
     (STok (KDerClassSpecifier, TLParen), [], DFn KTypeSpecifier);
     (STok (KDerClassSpecifier, TDer), [], DTok (KDerClassSpecifier, TLParen));
     (STok (KDerClassSpecifier, TEqual), [GS], DTok (KDerClassSpecifier, TDer));
     (STok (KDerClassSpecifier, TIdentifier), [GS], DTok (KDerClassSpecifier, TEqual));
     (STok (KEnumList, TComma), [GB Illegal], DFn KEnumerationLiteral);
     (STok (KEnumList, TComma), [GS], DFn KEnumerationLiteral);
     (SFn KEnumerationLiteral, [], DTok (KEnumList, TComma));
     (STok (KEnumerationLiteral, TIdentifier), [GB Illegal], DFn KDescription);
     (STok (KComposition, TPublic), [GB Required], DFn KAnnotationClause);
     (STok (KComposition, TPublic), [GB Required], DTok (KComposition, TExternal));
     (STok (KComposition, TPublic), [GB Required], DFn KAlgorithmSection);
     (STok (KComposition, TProtected), [GB Required], DFn KAnnotationClause);
     (STok (KComposition, TProtected), [GB Required], DTok (KComposition, TExternal));
     (SFn KAlgorithmSection, [GB Required], DFn KAnnotationClause);
     (SFn KAlgorithmSection, [GB Required], DTok (KComposition, TExternal));
     (SFn KAlgorithmSection, [GB Required], DFn KAlgorithmSection);
     (SFn KAlgorithmSection, [GB Required], DFn KEquationSection);
     (STok (KComposition, TProtected), [GB Required], DFn KAlgorithmSection);
     (SFn KEquationSection, [GB Required], DFn KAnnotationClause);
     (SFn KEquationSection, [GB Required], DTok (KComposition, TExternal));
     (SFn KAlgorithmSection, [GB Required], DTok (KComposition, TProtected));
     (SFn KEquationSection, [GB Required], DFn KAlgorithmSection);
     (SFn KEquationSection, [GB Required], DFn KEquationSection);
     (STok (KComposition, TProtected), [GB Required], DFn KEquationSection);
     (STok (KComposition, TProtected), [GB Required], DTok (KComposition, TProtected));
     (SFn KEquationSection, [GB Required], DTok (KComposition, TProtected));
     (STok (KComposition, TPublic), [GB Required], DFn KEquationSection);
     (STok (KComposition, TProtected), [GB Required], DTok (KComposition, TPublic));
     (STok (KComposition, TPublic), [GB Required], DTok (KComposition, TProtected));
     (STok (KComposition, TPublic), [GB Required], DTok (KComposition, TPublic));
     (SFn KElementList, [GB Required], DFn KAnnotationClause);
     (STok (KComposition, TExternal), [], DTok (KComposition, TSemicolon));
     (STok (KComposition, TExternal), [GB Illegal], DFn KAnnotationClause);
     (STok (KComposition, TExternal), [GB Required], DFn KExternalFunctionCall);
     (SFn KLanguageSpecification, [], DTok (KComposition, TSemicolon));
     (SFn KLanguageSpecification, [GB Illegal], DFn KAnnotationClause);
     (SFn KExternalFunctionCall, [], DTok (KComposition, TSemicolon));
     (STok (KComposition, TSemicolon), [GB Required], DFn KAnnotationClause);
     (SFn KAnnotationClause, [], DTok (KComposition, TSemicolon));
     (SFn KExternalFunctionCall, [GB Illegal], DFn KAnnotationClause);
     (SFn KLanguageSpecification, [GB Required], DFn KExternalFunctionCall);
     (STok (KComposition, TExternal), [GS], DFn KLanguageSpecification);
     (SFn KElementList, [GB Required], DTok (KComposition, TExternal));
     (SFn KAlgorithmSection, [GB Required], DTok (KComposition, TPublic));
     (SFn KElementList, [GB Required], DFn KAlgorithmSection);
     (SFn KEquationSection, [GB Required], DTok (KComposition, TPublic));
     (SFn KElementList, [GB Required], DFn KEquationSection);
     (STok (KComposition, TProtected), [GB Required], DFn KElementList);
     (SFn KElementList, [GB Required], DTok (KComposition, TProtected));
     (STok (KComposition, TPublic), [GB Required], DFn KElementList);
     (SFn KElementList, [GB Required], DTok (KComposition, TPublic));
     (STok (KExternalFunctionCall, TLParen), [GB Illegal], DFn KExpressionList);
     (STok (KExternalFunctionCall, TLParen), [], DTok (KExternalFunctionCall, TRParen));
     (SFn KExpressionList, [], DTok (KExternalFunctionCall, TRParen));
     (STok (KExternalFunctionCall, TLParen), [], DFn KExpressionList);
     (STok (KExternalFunctionCall, TIdentifier), [], DTok (KExternalFunctionCall, TLParen));
     (STok (KExternalFunctionCall, TEqual), [GS], DTok (KExternalFunctionCall, TIdentifier));
     (SFn KComponentReference, [GS], DTok (KExternalFunctionCall, TEqual));
     (STok (KElementList, TSemicolon), [GB Legal], DFn KElement);
     (SFn KElement, [], DTok (KElementList, TSemicolon));
     (STok (KElement, TRedeclare), [GS], DTok (KElement, TReplaceable));
     (STok (KElement, TRedeclare), [GS], DFn KComponentClause);
     (STok (KElement, TRedeclare), [GS], DFn KClassDefinition);
     (STok (KElement, TRedeclare), [GS], DTok (KElement, TOuter));
     (STok (KElement, TRedeclare), [GS], DTok (KElement, TInner));
     (STok (KElement, TFinal), [GS], DTok (KElement, TReplaceable));
     (STok (KElement, TFinal), [GS], DFn KComponentClause);
     (STok (KElement, TFinal), [GS], DFn KClassDefinition);
     (STok (KElement, TFinal), [GS], DTok (KElement, TOuter));
     (STok (KElement, TInner), [GS], DTok (KElement, TReplaceable));
     (STok (KElement, TInner), [GS], DFn KComponentClause);
     (STok (KElement, TInner), [GS], DFn KClassDefinition);
     (SFn KComponentClause, [GB Illegal], DFn KConstrainingClause);
     (STok (KElement, TReplaceable), [GS], DFn KComponentClause);
     (SFn KConstrainingClause, [GB Illegal], DFn KDescription);
     (SFn KClassDefinition, [GB Illegal], DFn KConstrainingClause);
     (STok (KElement, TReplaceable), [GS], DFn KClassDefinition);
     (STok (KElement, TOuter), [GS], DTok (KElement, TReplaceable));
     (STok (KElement, TOuter), [GS], DFn KComponentClause);
     (STok (KElement, TOuter), [GS], DFn KClassDefinition);
     (STok (KElement, TInner), [GS], DTok (KElement, TOuter));
     (STok (KElement, TFinal), [GS], DTok (KElement, TInner));
     (STok (KElement, TRedeclare), [GS], DTok (KElement, TFinal));
     (STok (KImportClause, TLCurly), [GB Illegal], DFn KImportList);
     (STok (KImportClause, TRCurly), [GB Illegal], DFn KDescription);
     (SFn KImportList, [], DTok (KImportClause, TRCurly));
     (STok (KImportClause, TLCurly), [], DFn KImportList);
     (STok (KImportClause, TDot), [], DTok (KImportClause, TLCurly));
     (SFn KName, [], DTok (KImportClause, TDot));
     (STok (KImportClause, TDotStar), [GB Illegal], DFn KDescription);
     (SFn KName, [], DTok (KImportClause, TDotStar));
     (STok (KImportClause, TImport), [GS], DFn KName);
     (SFn KName, [GB Illegal], DFn KDescription); (STok (KImportClause, TEqual), [GS], DFn KName);
     (STok (KImportClause, TIdentifier), [GS], DTok (KImportClause, TEqual));
     (STok (KImportClause, TImport), [GS], DTok (KImportClause, TIdentifier));
     (STok (KImportList, TComma), [GB Illegal], DTok (KImportList, TIdentifier));
     (STok (KImportList, TComma), [GS], DTok (KImportList, TIdentifier));
     (STok (KImportList, TIdentifier), [], DTok (KImportList, TComma));
     (SFn KTypeSpecifier, [GB Illegal], DFn KAnnotationClause);
     (SFn KClassOrInheritanceModification, [GB Illegal], DFn KAnnotationClause);
     (SFn KTypeSpecifier, [], DFn KClassOrInheritanceModification);
     (STok (KExtendsClause, TExtends), [GS], DFn KTypeSpecifier);
     (STok (KConstrainingClause, TConstrainedby), [GS], DFn KTypeSpecifier);
     (STok (KClassOrInheritanceModification, TLParen), [GB Illegal], DFn KArgumentOrInheritanceModificationList);
     (STok (KClassOrInheritanceModification, TLParen), [], DTok (KClassOrInheritanceModification, TRParen));
     (SFn KArgumentOrInheritanceModificationList, [], DTok (KClassOrInheritanceModification, TRParen));
     (STok (KClassOrInheritanceModification, TLParen), [], DFn KArgumentOrInheritanceModificationList);
     (STok (KArgumentOrInheritanceModificationList, TComma), [GB Illegal], DFn KInheritanceModification);
     (STok (KArgumentOrInheritanceModificationList, TComma), [GB Illegal], DFn KArgument);
     (SFn KInheritanceModification, [], DTok (KArgumentOrInheritanceModificationList, TComma));
     (STok (KArgumentOrInheritanceModificationList, TComma), [GS], DFn KInheritanceModification);
     (STok (KArgumentOrInheritanceModificationList, TComma), [GS], DFn KArgument);
     (SFn KArgument, [], DTok (KArgumentOrInheritanceModificationList, TComma));
     (STok (KInheritanceModification, TBreak), [GS], DTok (KInheritanceModification, TIdentifier));
     (STok (KInheritanceModification, TBreak), [GS], DFn KConnectEquation);
     (SFn KTypeSpecifier, [], DFn KComponentList); (SFn KArraySubscripts, [], DFn KComponentList);
     (SFn KTypePrefix, [GS], DFn KTypeSpecifier);
     (STok (KTypePrefix, TStream), [GS], DTok (KTypePrefix, TOutput));
     (STok (KTypePrefix, TStream), [GS], DTok (KTypePrefix, TInput));
     (STok (KTypePrefix, TStream), [GS], DTok (KTypePrefix, TConstant));
     (STok (KTypePrefix, TStream), [GS], DTok (KTypePrefix, TParameter));
     (STok (KTypePrefix, TStream), [GS], DTok (KTypePrefix, TDiscrete));
     (STok (KTypePrefix, TFlow), [GS], DTok (KTypePrefix, TOutput));
     (STok (KTypePrefix, TFlow), [GS], DTok (KTypePrefix, TInput));
     (STok (KTypePrefix, TConstant), [GS], DTok (KTypePrefix, TOutput));
     (STok (KTypePrefix, TConstant), [GS], DTok (KTypePrefix, TInput));
     (STok (KTypePrefix, TFlow), [GS], DTok (KTypePrefix, TConstant));
     (STok (KTypePrefix, TParameter), [GS], DTok (KTypePrefix, TOutput));
     (STok (KTypePrefix, TParameter), [GS], DTok (KTypePrefix, TInput));
     (STok (KTypePrefix, TFlow), [GS], DTok (KTypePrefix, TParameter));
     (STok (KTypePrefix, TDiscrete), [GS], DTok (KTypePrefix, TOutput));
     (STok (KTypePrefix, TDiscrete), [GS], DTok (KTypePrefix, TInput));
     (STok (KTypePrefix, TFlow), [GS], DTok (KTypePrefix, TDiscrete));
     (STok (KComponentList, TComma), [GB Illegal], DFn KComponentDeclaration);
     (STok (KComponentList, TComma), [GS], DFn KComponentDeclaration);
     (SFn KComponentDeclaration, [], DTok (KComponentList, TComma));
     (SFn KDeclaration, [GB Illegal], DFn KDescription);
     (SFn KConditionAttribute, [GB Illegal], DFn KDescription);
     (SFn KDeclaration, [GS], DFn KConditionAttribute);
     (STok (KConditionAttribute, TIf), [GS], DFn KExpression);
     (STok (KDeclaration, TIdentifier), [], DFn KModification);
     (SFn KArraySubscripts, [], DFn KModification);
     (STok (KDeclaration, TIdentifier), [], DFn KArraySubscripts);
     (STok (KModification, TAssign), [GS], DFn KModificationExpression);
     (STok (KModification, TAssign), [GB Illegal], DFn KModificationExpression);
     (STok (KModification, TEqual), [GS], DFn KModificationExpression);
     (STok (KModification, TEqual), [GB Illegal], DFn KModificationExpression);
     (SFn KClassModification, [GS], DTok (KModification, TEqual));
     (STok (KClassModification, TLParen), [GB Illegal], DFn KArgumentList);
     (STok (KClassModification, TLParen), [], DTok (KClassModification, TRParen));
     (SFn KArgumentList, [], DTok (KClassModification, TRParen));
     (STok (KClassModification, TLParen), [], DFn KArgumentList);
     (STok (KArgumentList, TComma), [GB Illegal], DFn KArgument);
     (STok (KArgumentList, TComma), [GS], DFn KArgument);
     (SFn KArgument, [], DTok (KArgumentList, TComma));
     (STok (KElementModificationOrReplaceable, TEach), [GS], DFn KElementReplaceable);
     (STok (KElementModificationOrReplaceable, TEach), [GS], DFn KElementModification);
     (STok (KElementModificationOrReplaceable, TFinal), [GS], DFn KElementReplaceable);
     (STok (KElementModificationOrReplaceable, TFinal), [GS], DFn KElementModification);
     (STok (KElementModificationOrReplaceable, TEach), [GS], DTok (KElementModificationOrReplaceable, TFinal));
     (SFn KName, [GB Illegal], DFn KDescriptionString);
     (SFn KModification, [GB Illegal], DFn KDescriptionString);
     (SFn KName, [], DFn KModification);
     (STok (KElementRedeclaration, TRedeclare), [GS], DFn KElementReplaceable);
     (STok (KElementRedeclaration, TRedeclare), [GS], DFn KComponentClause1);
     (STok (KElementRedeclaration, TRedeclare), [GS], DFn KShortClassDefinition);
     (STok (KElementRedeclaration, TRedeclare), [GS], DTok (KElementRedeclaration, TFinal));
     (STok (KElementRedeclaration, TEach), [GS], DFn KElementReplaceable);
     (STok (KElementRedeclaration, TEach), [GS], DFn KComponentClause1);
     (STok (KElementRedeclaration, TEach), [GS], DFn KShortClassDefinition);
     (STok (KElementRedeclaration, TFinal), [GS], DFn KElementReplaceable);
     (STok (KElementRedeclaration, TFinal), [GS], DFn KComponentClause1);
     (STok (KElementRedeclaration, TFinal), [GS], DFn KShortClassDefinition);
     (STok (KElementRedeclaration, TEach), [GS], DTok (KElementRedeclaration, TFinal));
     (STok (KElementRedeclaration, TRedeclare), [GS], DTok (KElementRedeclaration, TEach));
     (SFn KComponentClause1, [GB Illegal], DFn KConstrainingClause);
     (STok (KElementReplaceable, TReplaceable), [GS], DFn KComponentClause1);
     (SFn KShortClassDefinition, [GB Illegal], DFn KConstrainingClause);
     (STok (KElementReplaceable, TReplaceable), [GS], DFn KShortClassDefinition);
     (SFn KTypeSpecifier, [GS], DFn KComponentDeclaration1);
     (SFn KClassPrefixes, [GS], DFn KShortClassSpecifier);
     (STok (KEquationSection, TSemicolon), [GB Legal], DFn KEquation);
     (SFn KEquation, [], DTok (KEquationSection, TSemicolon));
     (STok (KEquationSection, TEquation), [GB Required], DFn KEquation);
     (STok (KEquationSection, TInitial), [GS], DTok (KEquationSection, TEquation));
     (STok (KAlgorithmSection, TSemicolon), [GB Legal], DFn KStatement);
     (SFn KStatement, [], DTok (KAlgorithmSection, TSemicolon));
     (STok (KAlgorithmSection, TAlgorithm), [GB Required], DFn KStatement);
     (STok (KAlgorithmSection, TInitial), [GS], DTok (KAlgorithmSection, TAlgorithm));
     (SFn KWhenEquation, [GB Illegal], DFn KDescription);
     (SFn KConnectEquation, [GB Illegal], DFn KDescription);
     (SFn KForEquation, [GB Illegal], DFn KDescription);
     (SFn KIfEquation, [GB Illegal], DFn KDescription);
     (SFn KSimpleExpression, [GB Illegal], DFn KDescription);
     (SFn KExpression, [GB Illegal], DFn KDescription);
     (STok (KEquation, TEqual), [GS], DFn KExpression);
     (STok (KEquation, TEqual), [GB Illegal], DFn KExpression);
     (SFn KSimpleExpression, [GS], DTok (KEquation, TEqual));
     (SFn KWhenStatement, [GB Illegal], DFn KDescription);
     (SFn KWhileStatement, [GB Illegal], DFn KDescription);
     (SFn KForStatement, [GB Illegal], DFn KDescription);
     (SFn KIfStatement, [GB Illegal], DFn KDescription);
     (STok (KStatement, TReturn), [GB Illegal], DFn KDescription);
     (STok (KStatement, TBreak), [GB Illegal], DFn KDescription);
     (STok (KStatement, TLParen), [], DTok (KStatement, TRParen));
     (STok (KStatement, TAssign), [GS], DFn KComponentReference);
     (STok (KStatement, TRParen), [GS], DTok (KStatement, TAssign));
     (SFn KOutputExpressionList, [], DTok (KStatement, TRParen));
     (STok (KStatement, TLParen), [], DFn KOutputExpressionList);
     (SFn KFunctionCallArgs, [GB Illegal], DFn KDescription);
     (SFn KComponentReference, [], DFn KFunctionCallArgs);
     (STok (KStatement, TAssign), [GS], DFn KExpression);
     (STok (KStatement, TAssign), [GB Illegal], DFn KExpression);
     (SFn KComponentReference, [GS], DTok (KStatement, TAssign));
     (STok (KIfEquation, TThen), [GB Legal], DTok (KIfEquation, TEnd));
     (STok (KIfEquation, TThen), [GB Legal], DTok (KIfEquation, TElse));
     (STok (KIfEquation, TThen), [GB Legal], DTok (KIfEquation, TElseIf));
     (STok (KIfEquation, TElse), [GB Legal], DTok (KIfEquation, TEnd));
     (STok (KIfEquation, TEnd), [GS], DTok (KIfEquation, TIf));
     (STok (KIfEquation, TSemicolon), [GB Legal], DTok (KIfEquation, TEnd));
     (STok (KIfEquation, TElse), [GB Legal], DFn KEquation);
     (STok (KIfEquation, TSemicolon), [GB Legal], DTok (KIfEquation, TElse));
     (STok (KIfEquation, TElseIf), [GS], DFn KExpression);
     (STok (KIfEquation, TSemicolon), [GB Legal], DTok (KIfEquation, TElseIf));
     (STok (KIfEquation, TSemicolon), [GB Legal], DFn KEquation);
     (SFn KEquation, [], DTok (KIfEquation, TSemicolon));
     (STok (KIfEquation, TThen), [GB Legal], DFn KEquation);
     (SFn KExpression, [GS], DTok (KIfEquation, TThen));
     (STok (KIfEquation, TIf), [GS], DFn KExpression);
     (STok (KIfStatement, TThen), [GB Legal], DTok (KIfStatement, TEnd));
     (STok (KIfStatement, TThen), [GB Legal], DTok (KIfStatement, TElse));
     (STok (KIfStatement, TThen), [GB Legal], DTok (KIfStatement, TElseIf));
     (STok (KIfStatement, TElse), [GB Legal], DTok (KIfStatement, TEnd));
     (STok (KIfStatement, TEnd), [GS], DTok (KIfStatement, TIf));
     (STok (KIfStatement, TSemicolon), [GB Legal], DTok (KIfStatement, TEnd));
     (STok (KIfStatement, TElse), [GB Legal], DFn KStatement);
     (STok (KIfStatement, TSemicolon), [GB Legal], DTok (KIfStatement, TElse));
     (STok (KIfStatement, TElseIf), [GS], DFn KExpression);
     (STok (KIfStatement, TSemicolon), [GB Legal], DTok (KIfStatement, TElseIf));
     (STok (KIfStatement, TSemicolon), [GB Legal], DFn KStatement);
     (SFn KStatement, [], DTok (KIfStatement, TSemicolon));
     (STok (KIfStatement, TThen), [GB Legal], DFn KStatement);
     (SFn KExpression, [GS], DTok (KIfStatement, TThen));
     (STok (KIfStatement, TIf), [GS], DFn KExpression);
     (STok (KForEquation, TLoop), [GB Legal], DTok (KForEquation, TEnd));
     (STok (KForEquation, TEnd), [GS], DTok (KForEquation, TFor));
     (STok (KForEquation, TSemicolon), [GB Legal], DTok (KForEquation, TEnd));
     (STok (KForEquation, TSemicolon), [GB Legal], DFn KEquation);
     (SFn KEquation, [], DTok (KForEquation, TSemicolon));
     (STok (KForEquation, TLoop), [GB Legal], DFn KEquation);
     (SFn KForIndices, [GS], DTok (KForEquation, TLoop));
     (STok (KForEquation, TFor), [GS], DFn KForIndices);
     (STok (KForStatement, TLoop), [GB Legal], DTok (KForStatement, TEnd));
     (STok (KForStatement, TEnd), [GS], DTok (KForStatement, TFor));
     (STok (KForStatement, TSemicolon), [GB Legal], DTok (KForStatement, TEnd));
     (STok (KForStatement, TSemicolon), [GB Legal], DFn KStatement);
     (SFn KStatement, [], DTok (KForStatement, TSemicolon));
     (STok (KForStatement, TLoop), [GB Legal], DFn KStatement);
     (SFn KForIndices, [GS], DTok (KForStatement, TLoop));
     (STok (KForStatement, TFor), [GS], DFn KForIndices);
     (STok (KForIndices, TComma), [GS], DFn KForIndex);
     (SFn KForIndex, [], DTok (KForIndices, TComma));
     (STok (KForIndex, TIn), [GS], DFn KExpression);
     (STok (KForIndex, TIdentifier), [GS], DTok (KForIndex, TIn));
     (STok (KWhileStatement, TLoop), [GB Legal], DTok (KWhileStatement, TEnd));
     (STok (KWhileStatement, TEnd), [GS], DTok (KWhileStatement, TWhile));
     (STok (KWhileStatement, TSemicolon), [GB Legal], DTok (KWhileStatement, TEnd));
     (STok (KWhileStatement, TSemicolon), [GB Legal], DFn KStatement);
     (SFn KStatement, [], DTok (KWhileStatement, TSemicolon));
     (STok (KWhileStatement, TLoop), [GB Legal], DFn KStatement);
     (SFn KExpression, [GS], DTok (KWhileStatement, TLoop));
     (STok (KWhileStatement, TWhile), [GS], DFn KExpression);
     (STok (KWhenEquation, TThen), [GB Legal], DTok (KWhenEquation, TEnd));
     (STok (KWhenEquation, TThen), [GB Legal], DTok (KWhenEquation, TElseWhen));
     (STok (KWhenEquation, TEnd), [GS], DTok (KWhenEquation, TWhen));
     (STok (KWhenEquation, TSemicolon), [GB Legal], DTok (KWhenEquation, TEnd));
     (STok (KWhenEquation, TElseWhen), [GS], DFn KExpression);
     (STok (KWhenEquation, TSemicolon), [GB Legal], DTok (KWhenEquation, TElseWhen));
     (STok (KWhenEquation, TSemicolon), [GB Legal], DFn KEquation);
     (SFn KEquation, [], DTok (KWhenEquation, TSemicolon));
     (STok (KWhenEquation, TThen), [GB Legal], DFn KEquation);
     (SFn KExpression, [GS], DTok (KWhenEquation, TThen));
     (STok (KWhenEquation, TWhen), [GS], DFn KExpression);
     (STok (KWhenStatement, TThen), [GB Legal], DTok (KWhenStatement, TEnd));
     (STok (KWhenStatement, TThen), [GB Legal], DTok (KWhenStatement, TElseWhen));
     (STok (KWhenStatement, TEnd), [GS], DTok (KWhenStatement, TWhen));
     (STok (KWhenStatement, TSemicolon), [GB Legal], DTok (KWhenStatement, TEnd));
     (STok (KWhenStatement, TElseWhen), [GS], DFn KExpression);
     (STok (KWhenStatement, TSemicolon), [GB Legal], DTok (KWhenStatement, TElseWhen));
     (STok (KWhenStatement, TSemicolon), [GB Legal], DFn KStatement);
     (SFn KStatement, [], DTok (KWhenStatement, TSemicolon));
     (STok (KWhenStatement, TThen), [GB Legal], DFn KStatement);
     (SFn KExpression, [GS], DTok (KWhenStatement, TThen));
     (STok (KWhenStatement, TWhen), [GS], DFn KExpression);
     (STok (KConnectEquation, TComma), [GB Illegal], DFn KComponentReference);
     (STok (KConnectEquation, TLParen), [GB Illegal], DFn KComponentReference);
     (SFn KComponentReference, [], DTok (KConnectEquation, TRParen));
     (STok (KConnectEquation, TComma), [GS], DFn KComponentReference);
     (SFn KComponentReference, [], DTok (KConnectEquation, TComma));
     (STok (KConnectEquation, TLParen), [], DFn KComponentReference);
     (STok (KConnectEquation, TConnect), [], DTok (KConnectEquation, TLParen));
     (STok (KExpression, TElse), [GB Illegal], DFn KExpression);
     (SFn KExpression, [GB Illegal], DTok (KExpression, TElse));
     (SFn KExpression, [GB Illegal], DTok (KExpression, TElseIf));
     (STok (KExpression, TThen), [GB Illegal], DFn KExpression);
     (STok (KExpression, TElse), [GS], DFn KExpression);
     (SFn KExpression, [GS], DTok (KExpression, TElse));
     (STok (KExpression, TElseIf), [GS], DFn KExpression);
     (SFn KExpression, [GS], DTok (KExpression, TElseIf));
     (STok (KExpression, TThen), [GS], DFn KExpression);
     (SFn KExpression, [GS], DTok (KExpression, TThen));
     (STok (KExpression, TIf), [GS], DFn KExpression);
     (STok (KSimpleExpression, TColon), [GS], DFn KLogicalExpression);
     (SFn KLogicalExpression, [GS], DTok (KSimpleExpression, TColon));
     (STok (KLogicalExpression, TOr), [GS], DFn KLogicalTerm);
     (SFn KLogicalTerm, [GS], DTok (KLogicalExpression, TOr));
     (SFn KLogicalTerm, [GB Illegal], DTok (KLogicalExpression, TOr));
     (STok (KLogicalTerm, TAnd), [GS], DFn KLogicalFactor);
     (SFn KLogicalFactor, [GS], DTok (KLogicalTerm, TAnd));
     (SFn KLogicalFactor, [GB Illegal], DTok (KLogicalTerm, TAnd));
     (STok (KLogicalFactor, TNot), [GS], DFn KRelation);
     (SFn KRelationalOperator, [GS], DFn KArithmeticExpression);
     (SFn KArithmeticExpression, [GS], DFn KRelationalOperator);
     (SFn KArithmeticExpression, [GB Illegal], DFn KRelationalOperator);
     (SFn KAddOperator, [GS], DFn KTerm); (SFn KTerm, [GS], DFn KAddOperator);
     (SFn KTerm, [GB Illegal], DFn KAddOperator); (SFn KAddOperator, [], DFn KTerm);
     (SFn KMulOperator, [GS], DFn KFactor); (SFn KFactor, [GS], DFn KMulOperator);
     (SFn KFactor, [GB Illegal], DFn KMulOperator);
     (STok (KFactor, TDotFlex), [GS], DFn KPrimary);
     (SFn KPrimary, [GS], DTok (KFactor, TDotFlex));
     (SFn KPrimary, [GB Illegal], DTok (KFactor, TDotFlex));
     (STok (KFactor, TFlex), [GS], DFn KPrimary); (SFn KPrimary, [GS], DTok (KFactor, TFlex));
     (SFn KPrimary, [GB Illegal], DTok (KFactor, TFlex));
     (STok (KPrimary, TLCurly), [GB Illegal], DFn KArrayArguments);
     (STok (KPrimary, TSemicolon), [GB Illegal], DFn KExpressionList);
     (STok (KPrimary, TLBracket), [GB Illegal], DFn KExpressionList);
     (SFn KArrayArguments, [], DTok (KPrimary, TRCurly));
     (STok (KPrimary, TLCurly), [], DFn KArrayArguments);
     (SFn KExpressionList, [], DTok (KPrimary, TRBracket));
     (STok (KPrimary, TSemicolon), [GS], DFn KExpressionList);
     (SFn KExpressionList, [], DTok (KPrimary, TSemicolon));
     (STok (KPrimary, TLBracket), [], DFn KExpressionList);
     (STok (KPrimary, TLParen), [], DTok (KPrimary, TRParen));
     (STok (KPrimary, TRParen), [], DFn KArraySubscripts);
     (SFn KOutputExpressionList, [], DTok (KPrimary, TRParen));
     (STok (KPrimary, TLParen), [], DFn KOutputExpressionList);
     (STok (KPrimary, TPure), [], DFn KFunctionCallArgs);
     (STok (KPrimary, TInitial), [], DFn KFunctionCallArgs);
     (STok (KPrimary, TDer), [], DFn KFunctionCallArgs);
     (STok (KTypeSpecifier, TDot), [], DFn KName);
     (STok (KName, TDot), [], DTok (KName, TIdentifier));
     (STok (KName, TIdentifier), [], DTok (KName, TDot));
     (STok (KComponentReference, TIdentifier), [], DTok (KComponentReference, TDot));
     (SFn KArraySubscripts, [], DTok (KComponentReference, TDot));
     (STok (KComponentReference, TIdentifier), [], DFn KArraySubscripts);
     (STok (KComponentReference, TDot), [], DTok (KComponentReference, TIdentifier));
     (SFn KComponentReference, [], DTok (KResultReference, TRParen));
     (STok (KResultReference, TUInt), [], DTok (KResultReference, TRParen));
     (STok (KResultReference, TComma), [GS], DTok (KResultReference, TUInt));
     (SFn KComponentReference, [], DTok (KResultReference, TComma));
     (STok (KResultReference, TLParen), [], DFn KComponentReference);
     (STok (KResultReference, TDer), [], DTok (KResultReference, TLParen));
     (STok (KFunctionCallArgs, TLParen), [GB Illegal], DFn KFunctionArguments);
     (STok (KFunctionCallArgs, TLParen), [], DTok (KFunctionCallArgs, TRParen));
     (SFn KFunctionArguments, [], DTok (KFunctionCallArgs, TRParen));
     (STok (KFunctionCallArgs, TLParen), [], DFn KFunctionArguments);
     (SFn KFunctionPartialApplication, [], DTok (KFunctionArguments, TComma));
     (STok (KFunctionArguments, TFor), [GS], DFn KForIndices);
     (SFn KExpression, [GS], DTok (KFunctionArguments, TFor));
     (STok (KFunctionArguments, TComma), [GS], DFn KFunctionArgumentsNonFirst);
     (SFn KExpression, [], DTok (KFunctionArguments, TComma));
     (SFn KExpression, [GB Illegal], DTok (KFunctionArguments, TFor));
     (STok (KFunctionArguments, TComma), [GB Illegal], DFn KFunctionArgumentsNonFirst);
     (STok (KFunctionArgumentsNonFirst, TComma), [GS], DFn KFunctionArgumentsNonFirst);
     (SFn KFunctionArgument, [], DTok (KFunctionArgumentsNonFirst, TComma));
     (STok (KFunctionArgumentsNonFirst, TComma), [GB Illegal], DFn KFunctionArgumentsNonFirst);
     (STok (KArrayArguments, TFor), [GS], DFn KForIndices);
     (SFn KExpression, [GS], DTok (KArrayArguments, TFor));
     (STok (KArrayArguments, TComma), [GS], DFn KArrayArgumentsNonFirst);
     (SFn KExpression, [], DTok (KArrayArguments, TComma));
     (SFn KExpression, [GB Illegal], DTok (KArrayArguments, TFor));
     (STok (KArrayArguments, TComma), [GB Illegal], DFn KArrayArgumentsNonFirst);
     (STok (KArrayArgumentsNonFirst, TComma), [GS], DFn KArrayArgumentsNonFirst);
     (SFn KExpression, [], DTok (KArrayArgumentsNonFirst, TComma));
     (STok (KArrayArgumentsNonFirst, TComma), [GB Illegal], DFn KArrayArgumentsNonFirst);
     (STok (KNamedArguments, TComma), [GS], DFn KNamedArguments);
     (SFn KNamedArgument, [], DTok (KNamedArguments, TComma));
     (STok (KNamedArguments, TComma), [GB Illegal], DFn KNamedArguments);
     (STok (KNamedArgument, TEqual), [GS], DFn KFunctionArgument);
     (STok (KNamedArgument, TEqual), [GB Illegal], DFn KFunctionArgument);
     (STok (KNamedArgument, TIdentifier), [GS], DTok (KNamedArgument, TEqual));
     (STok (KFunctionPartialApplication, TLParen), [GB Illegal], DFn KNamedArguments);
     (STok (KFunctionPartialApplication, TLParen), [], DTok (KFunctionPartialApplication, TRParen));
     (SFn KNamedArguments, [], DTok (KFunctionPartialApplication, TRParen));
     (STok (KFunctionPartialApplication, TLParen), [], DFn KNamedArguments);
     (SFn KTypeSpecifier, [], DTok (KFunctionPartialApplication, TLParen));
     (STok (KFunctionPartialApplication, TFunction), [GS], DFn KTypeSpecifier);
     (STok (KOutputExpressionList, TComma), [GS], DTok (KOutputExpressionList, TComma));
     (STok (KOutputExpressionList, TComma), [GS], DFn KExpression);
     (SFn KExpression, [], DTok (KOutputExpressionList, TComma));
     (STok (KExpressionList, TComma), [GB Illegal], DFn KExpression);
     (STok (KExpressionList, TComma), [GS], DFn KExpression);
     (SFn KExpression, [], DTok (KExpressionList, TComma));
     (STok (KArraySubscripts, TComma), [GB Illegal], DFn KSubscript);
     (STok (KArraySubscripts, TLBracket), [GB Illegal], DFn KSubscript);
     (SFn KSubscript, [], DTok (KArraySubscripts, TRBracket));
     (STok (KArraySubscripts, TComma), [GS], DFn KSubscript);
     (SFn KSubscript, [], DTok (KArraySubscripts, TComma));
     (STok (KArraySubscripts, TLBracket), [], DFn KSubscript);
     (SFn KDescriptionString, [GB Illegal], DFn KAnnotationClause);
     (STok (KDescriptionString, TString), [GB Illegal], DTok (KDescriptionString, TPlus));
     (STok (KDescriptionString, TPlus), [GS], DTok (KDescriptionString, TString));
     (STok (KDescriptionString, TString), [GS], DTok (KDescriptionString, TPlus));
     (STok (KAnnotationClause, TAnnotation), [GS], DFn KClassModification)].
