(** Syntax kinds: src/parser/syntax.rs. Generated by tools/gen_enums.py from the Rust enum. *)
From Verif Require Import Base Tokens.

(** syntax.rs 5-95: [enum SyntaxKind] (constructors prefixed with [K]). *)
Inductive skind :=
| KError
| KStoredDefinition
| KClassDefinition
| KClassPrefixes
| KClassSpecifier
| KLongClassSpecifier
| KShortClassSpecifier
| KDerClassSpecifier
| KBasePrefix
| KEnumList
| KEnumerationLiteral
| KComposition
| KLanguageSpecification
| KExternalFunctionCall
| KElementList
| KElement
| KImportClause
| KImportList
| KExtendsClause
| KConstrainingClause
| KClassOrInheritanceModification
| KArgumentOrInheritanceModificationList
| KInheritanceModification
| KComponentClause
| KTypePrefix
| KComponentList
| KComponentDeclaration
| KConditionAttribute
| KDeclaration
| KModification
| KModificationExpression
| KClassModification
| KArgumentList
| KArgument
| KElementModificationOrReplaceable
| KElementModification
| KElementRedeclaration
| KElementReplaceable
| KComponentClause1
| KComponentDeclaration1
| KShortClassDefinition
| KEquationSection
| KAlgorithmSection
| KEquation
| KStatement
| KIfEquation
| KIfStatement
| KForEquation
| KForStatement
| KForIndices
| KForIndex
| KWhileStatement
| KWhenEquation
| KWhenStatement
| KConnectEquation
| KExpression
| KSimpleExpression
| KLogicalExpression
| KLogicalTerm
| KLogicalFactor
| KRelation
| KRelationalOperator
| KArithmeticExpression
| KAddOperator
| KTerm
| KMulOperator
| KFactor
| KPrimary
| KTypeSpecifier
| KName
| KComponentReference
| KResultReference
| KFunctionCallArgs
| KFunctionArguments
| KFunctionArgumentsNonFirst
| KArrayArguments
| KArrayArgumentsNonFirst
| KNamedArguments
| KNamedArgument
| KFunctionArgument
| KFunctionPartialApplication
| KOutputExpressionList
| KExpressionList
| KArraySubscripts
| KSubscript
| KDescription
| KDescriptionString
| KAnnotationClause.

Definition all_skinds : list skind :=
  [KError; KStoredDefinition; KClassDefinition; KClassPrefixes; KClassSpecifier; KLongClassSpecifier; KShortClassSpecifier; KDerClassSpecifier; KBasePrefix; KEnumList; KEnumerationLiteral; KComposition; KLanguageSpecification; KExternalFunctionCall; KElementList; KElement; KImportClause; KImportList; KExtendsClause; KConstrainingClause; KClassOrInheritanceModification; KArgumentOrInheritanceModificationList; KInheritanceModification; KComponentClause; KTypePrefix; KComponentList; KComponentDeclaration; KConditionAttribute; KDeclaration; KModification; KModificationExpression; KClassModification; KArgumentList; KArgument; KElementModificationOrReplaceable; KElementModification; KElementRedeclaration; KElementReplaceable; KComponentClause1; KComponentDeclaration1; KShortClassDefinition; KEquationSection; KAlgorithmSection; KEquation; KStatement; KIfEquation; KIfStatement; KForEquation; KForStatement; KForIndices; KForIndex; KWhileStatement; KWhenEquation; KWhenStatement; KConnectEquation; KExpression; KSimpleExpression; KLogicalExpression; KLogicalTerm; KLogicalFactor; KRelation; KRelationalOperator; KArithmeticExpression; KAddOperator; KTerm; KMulOperator; KFactor; KPrimary; KTypeSpecifier; KName; KComponentReference; KResultReference; KFunctionCallArgs; KFunctionArguments; KFunctionArgumentsNonFirst; KArrayArguments; KArrayArgumentsNonFirst; KNamedArguments; KNamedArgument; KFunctionArgument; KFunctionPartialApplication; KOutputExpressionList; KExpressionList; KArraySubscripts; KSubscript; KDescription; KDescriptionString; KAnnotationClause].

Definition skind_code (k : skind) : N :=
  match k with
  | KError => 0
  | KStoredDefinition => 1
  | KClassDefinition => 2
  | KClassPrefixes => 3
  | KClassSpecifier => 4
  | KLongClassSpecifier => 5
  | KShortClassSpecifier => 6
  | KDerClassSpecifier => 7
  | KBasePrefix => 8
  | KEnumList => 9
  | KEnumerationLiteral => 10
  | KComposition => 11
  | KLanguageSpecification => 12
  | KExternalFunctionCall => 13
  | KElementList => 14
  | KElement => 15
  | KImportClause => 16
  | KImportList => 17
  | KExtendsClause => 18
  | KConstrainingClause => 19
  | KClassOrInheritanceModification => 20
  | KArgumentOrInheritanceModificationList => 21
  | KInheritanceModification => 22
  | KComponentClause => 23
  | KTypePrefix => 24
  | KComponentList => 25
  | KComponentDeclaration => 26
  | KConditionAttribute => 27
  | KDeclaration => 28
  | KModification => 29
  | KModificationExpression => 30
  | KClassModification => 31
  | KArgumentList => 32
  | KArgument => 33
  | KElementModificationOrReplaceable => 34
  | KElementModification => 35
  | KElementRedeclaration => 36
  | KElementReplaceable => 37
  | KComponentClause1 => 38
  | KComponentDeclaration1 => 39
  | KShortClassDefinition => 40
  | KEquationSection => 41
  | KAlgorithmSection => 42
  | KEquation => 43
  | KStatement => 44
  | KIfEquation => 45
  | KIfStatement => 46
  | KForEquation => 47
  | KForStatement => 48
  | KForIndices => 49
  | KForIndex => 50
  | KWhileStatement => 51
  | KWhenEquation => 52
  | KWhenStatement => 53
  | KConnectEquation => 54
  | KExpression => 55
  | KSimpleExpression => 56
  | KLogicalExpression => 57
  | KLogicalTerm => 58
  | KLogicalFactor => 59
  | KRelation => 60
  | KRelationalOperator => 61
  | KArithmeticExpression => 62
  | KAddOperator => 63
  | KTerm => 64
  | KMulOperator => 65
  | KFactor => 66
  | KPrimary => 67
  | KTypeSpecifier => 68
  | KName => 69
  | KComponentReference => 70
  | KResultReference => 71
  | KFunctionCallArgs => 72
  | KFunctionArguments => 73
  | KFunctionArgumentsNonFirst => 74
  | KArrayArguments => 75
  | KArrayArgumentsNonFirst => 76
  | KNamedArguments => 77
  | KNamedArgument => 78
  | KFunctionArgument => 79
  | KFunctionPartialApplication => 80
  | KOutputExpressionList => 81
  | KExpressionList => 82
  | KArraySubscripts => 83
  | KSubscript => 84
  | KDescription => 85
  | KDescriptionString => 86
  | KAnnotationClause => 87
  end.

(** derived [PartialEq] *)
Definition skind_eqb (a b : skind) : bool := N.eqb (skind_code a) (skind_code b).

Lemma skind_code_decode : forall k, nth (N.to_nat (skind_code k)) all_skinds KError = k.
Proof. destruct k; reflexivity. Qed.

Lemma skind_eqb_eq : forall a b, skind_eqb a b = true <-> a = b.
Proof.
  intros a b; unfold skind_eqb; rewrite N.eqb_eq; split.
  - intro H. rewrite <- (skind_code_decode a), <- (skind_code_decode b), H. reflexivity.
  - intros ->; reflexivity.
Qed.

Lemma skind_eqb_refl : forall a, skind_eqb a a = true.
Proof. intro a; apply skind_eqb_eq; reflexivity. Qed.

Lemma skind_eq_dec : forall a b : skind, {a = b} + {a <> b}.
Proof.
  intros a b; destruct (skind_eqb a b) eqn:E.
  - left; apply skind_eqb_eq; exact E.
  - right; intro H; apply skind_eqb_eq in H; congruence.
Defined.

Lemma all_skinds_complete : forall k, In k all_skinds.
Proof. destruct k; cbv [all_skinds In]; tauto. Qed.

(** events.rs: [enum SyntaxEvent]. *)
Inductive event :=
| Enter (k : skind)
| Exit
| Advance.
