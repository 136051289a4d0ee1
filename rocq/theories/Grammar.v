(** Transcription of the grammar functions of src/parser/parsing.rs (lines 253-1546)
    into the statement language of [ParserCore.v]. One definition per Rust function;
    the surrounding [let mark = p.enter(); ... p.exit(mark, kind)] is part of
    [SCall]. Line numbers are inserted by tools/gen_grammar.py. *)
From Verif Require Import Base Tokens Syntax Lexer ParserCore.

Definition seq (l : list stmt) : stmt := fold_right SSeq SSkip l.
(** [p.check(t)] *)
Definition check (t : tkind) : cond := CNth 0 [t].
(** [p.check_any(ts)] *)
Definition check_any (ts : list tkind) : cond := CNth 0 ts.
(** [p.consume(t)] *)
Definition consume (t : tkind) : cond := CConsume t.
(** [p.nth(n) == t] *)
Definition nth_is (n : nat) (t : tkind) : cond := CNth n [t].
(** [p.consume(t) && !p.eof()] *)
Definition consume_more (t : tkind) : cond := CAnd (CConsume t) (CNot CEof).

(** parsing.rs 255-264: [SECTION_BREAKERS] *)
Definition section_breakers : list tkind :=
  [TProtected; TPublic; TInitial; TEquation; TAlgorithm; TEnd; TAnnotation; TExternal].
(** parsing.rs 265-279: [CLASS_PREFS] *)
Definition class_prefs : list tkind :=
  [TPartial; TClass; TModel; TRecord; TFunction; TBlock; TType; TOperator; TConnector;
   TPackage; TPure; TImpure; TExpandable].
(** [RELOPS], [ADDOPS], [MULOPS]: constants inside [relation], [arithmetic_expression], [term] *)
Definition relops : list tkind := [TLes; TLeq; TGre; TGeq; TEq; TNeq].
Definition addops : list tkind := [TPlus; TDotPlus; TMinus; TDotMinus].
Definition mulops : list tkind := [TStar; TDotStar; TSlash; TDotSlash].

(** parsing.rs 283-297: [stored_definition] *)
Definition body_stored_definition : stmt := seq [
  SIf (consume TWithin)
    (seq [SIf (CNot (check TSemicolon)) (SCall KName) SSkip;
          SExpect TSemicolon]) SSkip;
  SWhile (CNot CEof)
    (seq [SDo (consume TFinal); SCall KClassDefinition; SExpect TSemicolon])].

(** parsing.rs 301-307: [class_definition] *)
Definition body_class_definition : stmt := seq [
  SDo (consume TEncapsulated); SCall KClassPrefixes; SCall KClassSpecifier].

(** parsing.rs 309-345: [class_prefixes] *)
Definition body_class_prefixes : stmt := seq [
  SDo (consume TPartial);
  SLet 0
    (SIf (CReg [TClass; TModel; TBlock; TType; TPackage; TRecord; TConnector; TFunction])
       SAdvance
    (SIf (CReg [TExpandable])
       (seq [SAdvance; SExpect TConnector])
    (SIf (CReg [TOperator])
       (seq [SAdvance; SIf (CNot (consume TRecord)) (SDo (consume TFunction)) SSkip])
    (SIf (CReg [TPure; TImpure])
       (seq [SAdvance; SDo (consume TOperator); SExpect TFunction])
       (SAdvErr "unexpected token '" 0 "' used as a class prefix")))))].

(** parsing.rs 347-366: [class_specifier] *)
Definition body_class_specifier : stmt := seq [
  SIf (check TExtends) (SCall KLongClassSpecifier)
  (SIf (check TIdentifier)
     (SIf (CNot (nth_is 1 TEqual)) (SCall KLongClassSpecifier)
     (SIf (nth_is 2 TDer) (SCall KDerClassSpecifier)
        (SCall KShortClassSpecifier)))
     (SAdvErr "unexpected token '" 0 "': doesn't match any type of class specifier"))].

(** parsing.rs 368-383: [long_class_specifier] *)
Definition body_long_class_specifier : stmt := seq [
  SIf (consume TExtends)
    (seq [SExpect TIdentifier;
          SIf (check TLParen) (SCall KClassModification) SSkip])
    (SExpect TIdentifier);
  SCall KDescriptionString;
  SCall KComposition;
  SExpect TEnd;
  SExpect TIdentifier].

(** parsing.rs 385-407: [short_class_specifier] *)
Definition body_short_class_specifier : stmt := seq [
  SExpect TIdentifier;
  SExpect TEqual;
  SIf (consume TEnumeration)
    (seq [SExpect TLParen;
          SIf (CAnd (CNot (consume TColon)) (check TIdentifier)) (SCall KEnumList) SSkip;
          SExpect TRParen])
    (seq [SCall KBasePrefix;
          SCall KTypeSpecifier;
          SIf (check TLBracket) (SCall KArraySubscripts) SSkip;
          SIf (check TLParen) (SCall KClassModification) SSkip]);
  SCall KDescription].

(** parsing.rs 409-424: [der_class_specifier] *)
Definition body_der_class_specifier : stmt := seq [
  SExpect TIdentifier;
  SExpect TEqual;
  SExpect TDer;
  SExpect TLParen;
  SCall KTypeSpecifier;
  SExpect TComma;
  SExpect TIdentifier;
  SWhile (consume_more TComma) (SExpect TIdentifier);
  SExpect TRParen;
  SCall KDescription].

(** parsing.rs 426-432: [base_prefix] *)
Definition body_base_prefix : stmt := seq [
  SIf (CNot (consume TInput)) (SDo (consume TOutput)) SSkip].

(** parsing.rs 434-441: [enum_list] *)
Definition body_enum_list : stmt := seq [
  SCall KEnumerationLiteral;
  SWhile (consume_more TComma) (SCall KEnumerationLiteral)].

(** parsing.rs 443-448: [enumeration_literal] *)
Definition body_enumeration_literal : stmt := seq [
  SExpect TIdentifier; SCall KDescription].

(** parsing.rs 450-505: [composition] *)
Definition body_composition : stmt := seq [
  SCall KElementList;
  SWhile (CAnd (CNot (check_any [TExternal; TAnnotation; TEnd])) (CNot CEof))
    (SLet 0
       (SIf (CReg [TPublic; TProtected]) (seq [SAdvance; SCall KElementList])
       (SIf (CReg [TInitial])
          (SLet 1
             (SIf (CReg [TEquation]) (SCall KEquationSection)
             (SIf (CReg [TAlgorithm]) (SCall KAlgorithmSection)
                (SAdvErr "unexpected token '" 1 "' following 'initial'. Expected 'equation' or 'algorithm'"))))
       (SIf (CReg [TEquation]) (SCall KEquationSection)
       (SIf (CReg [TAlgorithm]) (SCall KAlgorithmSection)
          (SAdvErr "unexpected token '" 0 "' after element list inside composition. Expected 'protected', 'public', 'initial', 'equation', 'algorithm', 'external', 'annotation' or 'end'."))))));
  SIf (consume TExternal)
    (seq [SIf (check TString) (SCall KLanguageSpecification) SSkip;
          SIf (check_any [TDot; TIdentifier]) (SCall KExternalFunctionCall) SSkip;
          SIf (check TAnnotation) (SCall KAnnotationClause) SSkip;
          SExpect TSemicolon]) SSkip;
  SIf (check TAnnotation) (seq [SCall KAnnotationClause; SExpect TSemicolon]) SSkip].

(** parsing.rs 507-511: [language_specification] *)
Definition body_language_specification : stmt := seq [
  SExpect TString].

(** parsing.rs 513-526: [external_function_call] *)
Definition body_external_function_call : stmt := seq [
  SIf (CNot (nth_is 1 TLParen))
    (seq [SCall KComponentReference; SExpect TEqual]) SSkip;
  SExpect TIdentifier;
  SExpect TLParen;
  SIf (CNot (check TRParen)) (SCall KExpressionList) SSkip;
  SExpect TRParen].

(** parsing.rs 528-535: [element_list] *)
Definition body_element_list : stmt := seq [
  SWhile (CAnd (CNot (check_any section_breakers)) (CNot CEof))
    (seq [SCall KElement; SExpect TSemicolon])].

(** parsing.rs 537-565: [element] *)
Definition body_element : stmt := seq [
  SIf (check TImport) (SCall KImportClause)
  (SIf (check TExtends) (SCall KExtendsClause)
     (seq [
        SDo (consume TRedeclare);
        SDo (consume TFinal);
        SDo (consume TInner);
        SDo (consume TOuter);
        SIf (consume TReplaceable)
          (seq [
             SIf (COr (check_any class_prefs) (check TEncapsulated))
               (SCall KClassDefinition) (SCall KComponentClause);
             SIf (check TConstrainedby)
               (seq [SCall KConstrainingClause; SCall KDescription]) SSkip])
          (SIf (COr (check_any class_prefs) (check TEncapsulated))
             (SCall KClassDefinition) (SCall KComponentClause))]))].

(** parsing.rs 567-584: [import_clause] *)
Definition body_import_clause : stmt := seq [
  SExpect TImport;
  SIf (nth_is 1 TEqual)
    (seq [SExpect TIdentifier; SAdvance; SCall KName])
    (seq [SCall KName;
          SIf (CAnd (CNot (consume TDotStar)) (consume TDot))
            (seq [SExpect TLCurly; SCall KImportList; SExpect TRCurly]) SSkip]);
  SCall KDescription].

(** parsing.rs 586-593: [import_list] *)
Definition body_import_list : stmt := seq [
  SExpect TIdentifier;
  SWhile (consume_more TComma) (SExpect TIdentifier)].

(** parsing.rs 597-608: [extends_clause] *)
Definition body_extends_clause : stmt := seq [
  SExpect TExtends;
  SCall KTypeSpecifier;
  SIf (check TLParen) (SCall KClassOrInheritanceModification) SSkip;
  SIf (check TAnnotation) (SCall KAnnotationClause) SSkip].

(** parsing.rs 610-618: [constraining_clause] *)
Definition body_constraining_clause : stmt := seq [
  SExpect TConstrainedby;
  SCall KTypeSpecifier;
  SIf (check TLParen) (SCall KClassModification) SSkip].

(** parsing.rs 620-628: [class_or_inheritance_modification] *)
Definition body_class_or_inheritance_modification : stmt := seq [
  SExpect TLParen;
  SIf (CNot (consume TRParen))
    (seq [SCall KArgumentOrInheritanceModificationList; SExpect TRParen]) SSkip].

(** parsing.rs 630-645: [argument_or_inheritance_modification_list] *)
Definition body_argument_or_inheritance_modification_list : stmt := seq [
  SIf (check TBreak) (SCall KInheritanceModification) (SCall KArgument);
  SWhile (consume_more TComma)
    (SIf (check TBreak) (SCall KInheritanceModification) (SCall KArgument))].

(** parsing.rs 647-656: [inheritance_modification] *)
Definition body_inheritance_modification : stmt := seq [
  SExpect TBreak;
  SIf (check TConnect) (SCall KConnectEquation) (SExpect TIdentifier)].

(** parsing.rs 660-669: [component_clause] *)
Definition body_component_clause : stmt := seq [
  SCall KTypePrefix;
  SCall KTypeSpecifier;
  SIf (check TLBracket) (SCall KArraySubscripts) SSkip;
  SCall KComponentList].

(** parsing.rs 671-683: [type_prefix] *)
Definition body_type_prefix : stmt := seq [
  SIf (CNot (consume TFlow)) (SDo (consume TStream)) SSkip;
  SIf (CAnd (CNot (consume TDiscrete)) (CNot (consume TParameter)))
    (SDo (consume TConstant)) SSkip;
  SIf (CNot (consume TInput)) (SDo (consume TOutput)) SSkip].

(** parsing.rs 685-692: [component_list] *)
Definition body_component_list : stmt := seq [
  SCall KComponentDeclaration;
  SWhile (consume_more TComma) (SCall KComponentDeclaration)].

(** parsing.rs 694-702: [component_declaration] *)
Definition body_component_declaration : stmt := seq [
  SCall KDeclaration;
  SIf (check TIf) (SCall KConditionAttribute) SSkip;
  SCall KDescription].

(** parsing.rs 704-709: [condition_attribute] *)
Definition body_condition_attribute : stmt := seq [
  SExpect TIf; SCall KExpression].

(** parsing.rs 711-725: [declaration] *)
Definition body_declaration : stmt := seq [
  SExpect TIdentifier;
  SIf (check TLBracket) (SCall KArraySubscripts) SSkip;
  SIf (check_any [TLParen; TEqual; TAssign]) (SCall KModification) SSkip].

(** parsing.rs 729-741: [modification] *)
Definition body_modification : stmt := seq [
  SIf (check_any [TEqual; TAssign])
    (seq [SAdvance; SCall KModificationExpression])
    (seq [SCall KClassModification;
          SIf (consume TEqual) (SCall KModificationExpression) SSkip])].

(** parsing.rs 743-749: [modification_expression] *)
Definition body_modification_expression : stmt := seq [
  SIf (CNot (consume TBreak)) (SCall KExpression) SSkip].

(** parsing.rs 751-759: [class_modification] *)
Definition body_class_modification : stmt := seq [
  SExpect TLParen;
  SIf (CNot (consume TRParen)) (seq [SCall KArgumentList; SExpect TRParen]) SSkip].

(** parsing.rs 761-768: [argument_list] *)
Definition body_argument_list : stmt := seq [
  SCall KArgument;
  SWhile (consume_more TComma) (SCall KArgument)].

(** parsing.rs 770-778: [argument] *)
Definition body_argument : stmt := seq [
  SIf (check TRedeclare) (SCall KElementRedeclaration) (SCall KElementModificationOrReplaceable)].

(** parsing.rs 780-790: [element_modification_or_replaceable] *)
Definition body_element_modification_or_replaceable : stmt := seq [
  SDo (consume TEach);
  SDo (consume TFinal);
  SIf (check TReplaceable) (SCall KElementReplaceable) (SCall KElementModification)].

(** parsing.rs 792-804: [element_modification] *)
Definition body_element_modification : stmt := seq [
  SCall KName;
  SIf (check_any [TLParen; TEqual; TAssign]) (SCall KModification) SSkip;
  SCall KDescriptionString].

(** parsing.rs 806-819: [element_redeclaration] *)
Definition body_element_redeclaration : stmt := seq [
  SExpect TRedeclare;
  SDo (consume TEach);
  SDo (consume TFinal);
  SIf (check_any class_prefs) (SCall KShortClassDefinition)
  (SIf (check TReplaceable) (SCall KElementReplaceable) (SCall KComponentClause1))].

(** parsing.rs 821-833: [element_replaceable] *)
Definition body_element_replaceable : stmt := seq [
  SExpect TReplaceable;
  SIf (check_any class_prefs) (SCall KShortClassDefinition) (SCall KComponentClause1);
  SIf (check TConstrainedby) (SCall KConstrainingClause) SSkip].

(** parsing.rs 835-841: [component_clause1] *)
Definition body_component_clause1 : stmt := seq [
  SCall KTypePrefix; SCall KTypeSpecifier; SCall KComponentDeclaration1].

(** parsing.rs 843-848: [component_declaration1] *)
Definition body_component_declaration1 : stmt := seq [
  SCall KDeclaration; SCall KDescription].

(** parsing.rs 850-855: [short_class_definition] *)
Definition body_short_class_definition : stmt := seq [
  SCall KClassPrefixes; SCall KShortClassSpecifier].

(** parsing.rs 859-868: [equation_section] *)
Definition body_equation_section : stmt := seq [
  SDo (consume TInitial);
  SExpect TEquation;
  SWhile (CAnd (CNot (check_any section_breakers)) (CNot CEof))
    (seq [SCall KEquation; SExpect TSemicolon])].

(** parsing.rs 870-879: [algorithm_section] *)
Definition body_algorithm_section : stmt := seq [
  SDo (consume TInitial);
  SExpect TAlgorithm;
  SWhile (CAnd (CNot (check_any section_breakers)) (CNot CEof))
    (seq [SCall KStatement; SExpect TSemicolon])].

(** parsing.rs 881-901: [equation] *)
Definition body_equation : stmt := seq [
  SLet 0
    (SIf (CReg [TIf]) (SCall KIfEquation)
    (SIf (CReg [TFor]) (SCall KForEquation)
    (SIf (CReg [TWhen]) (SCall KWhenEquation)
    (SIf (CReg [TConnect]) (SCall KConnectEquation)
       (seq [SCall KSimpleExpression;
             SIf (consume TEqual) (SCall KExpression) SSkip])))));
  SCall KDescription].

(** parsing.rs 903-930: [statement] *)
Definition body_statement : stmt := seq [
  SLet 0
    (SIf (CReg [TIf]) (SCall KIfStatement)
    (SIf (CReg [TFor]) (SCall KForStatement)
    (SIf (CReg [TWhile]) (SCall KWhileStatement)
    (SIf (CReg [TWhen]) (SCall KWhenStatement)
    (SIf (CReg [TBreak; TReturn]) SAdvance
    (SIf (CReg [TLParen])
       (seq [SAdvance;
             SCall KOutputExpressionList;
             SExpect TRParen;
             SExpect TAssign;
             SCall KComponentReference;
             SCall KFunctionCallArgs])
       (seq [SCall KComponentReference;
             SIf (consume TAssign) (SCall KExpression) (SCall KFunctionCallArgs)])))))));
  SCall KDescription].

(** parsing.rs 932-969: [if_equation] *)
Definition body_if_equation : stmt := seq [
  SExpect TIf;
  SCall KExpression;
  SExpect TThen;
  SWhile (CAnd (CNot (check_any [TElseIf; TElse; TEnd])) (CNot CEof))
    (seq [SCall KEquation; SExpect TSemicolon]);
  SWhile (CAnd (CNot (check_any [TElse; TEnd])) (CNot CEof))
    (seq [SExpect TElseIf;
          SCall KExpression;
          SExpect TThen;
          SWhile (CAnd (CNot (check_any [TElseIf; TElse; TEnd])) (CNot CEof))
            (seq [SCall KEquation; SExpect TSemicolon])]);
  SIf (consume TElse)
    (SWhile (CAnd (CNot (check TEnd)) (CNot CEof))
       (seq [SCall KEquation; SExpect TSemicolon])) SSkip;
  SExpect TEnd;
  SExpect TIf].

(** parsing.rs 971-1008: [if_statement] *)
Definition body_if_statement : stmt := seq [
  SExpect TIf;
  SCall KExpression;
  SExpect TThen;
  SWhile (CAnd (CNot (check_any [TElseIf; TElse; TEnd])) (CNot CEof))
    (seq [SCall KStatement; SExpect TSemicolon]);
  SWhile (CAnd (CNot (check_any [TElse; TEnd])) (CNot CEof))
    (seq [SExpect TElseIf;
          SCall KExpression;
          SExpect TThen;
          SWhile (CAnd (CNot (check_any [TElseIf; TElse; TEnd])) (CNot CEof))
            (seq [SCall KStatement; SExpect TSemicolon])]);
  SIf (consume TElse)
    (SWhile (CAnd (CNot (check TEnd)) (CNot CEof))
       (seq [SCall KStatement; SExpect TSemicolon])) SSkip;
  SExpect TEnd;
  SExpect TIf].

(** parsing.rs 1010-1022: [for_equation] *)
Definition body_for_equation : stmt := seq [
  SExpect TFor;
  SCall KForIndices;
  SExpect TLoop;
  SWhile (CAnd (CNot (check TEnd)) (CNot CEof))
    (seq [SCall KEquation; SExpect TSemicolon]);
  SExpect TEnd;
  SExpect TFor].

(** parsing.rs 1024-1036: [for_statement] *)
Definition body_for_statement : stmt := seq [
  SExpect TFor;
  SCall KForIndices;
  SExpect TLoop;
  SWhile (CAnd (CNot (check TEnd)) (CNot CEof))
    (seq [SCall KStatement; SExpect TSemicolon]);
  SExpect TEnd;
  SExpect TFor].

(** parsing.rs 1038-1045: [for_indices] *)
Definition body_for_indices : stmt := seq [
  SCall KForIndex;
  SWhile (consume_more TComma) (SCall KForIndex)].

(** parsing.rs 1047-1054: [for_index] *)
Definition body_for_index : stmt := seq [
  SExpect TIdentifier;
  SIf (consume TIn) (SCall KExpression) SSkip].

(** parsing.rs 1056-1068: [while_statement] *)
Definition body_while_statement : stmt := seq [
  SExpect TWhile;
  SCall KExpression;
  SExpect TLoop;
  SWhile (CAnd (CNot (check TEnd)) (CNot CEof))
    (seq [SCall KStatement; SExpect TSemicolon]);
  SExpect TEnd;
  SExpect TWhile].

(** parsing.rs 1070-1091: [when_equation] *)
Definition body_when_equation : stmt := seq [
  SExpect TWhen;
  SCall KExpression;
  SExpect TThen;
  SWhile (CAnd (CNot (check_any [TElseWhen; TEnd])) (CNot CEof))
    (seq [SCall KEquation; SExpect TSemicolon]);
  SWhile (CAnd (CNot (check TEnd)) (CNot CEof))
    (seq [SExpect TElseWhen;
          SCall KExpression;
          SExpect TThen;
          SWhile (CAnd (CNot (check_any [TElseWhen; TEnd])) (CNot CEof))
            (seq [SCall KEquation; SExpect TSemicolon])]);
  SExpect TEnd;
  SExpect TWhen].

(** parsing.rs 1093-1114: [when_statement] *)
Definition body_when_statement : stmt := seq [
  SExpect TWhen;
  SCall KExpression;
  SExpect TThen;
  SWhile (CAnd (CNot (check_any [TElseWhen; TEnd])) (CNot CEof))
    (seq [SCall KStatement; SExpect TSemicolon]);
  SWhile (CAnd (CNot (check TEnd)) (CNot CEof))
    (seq [SExpect TElseWhen;
          SCall KExpression;
          SExpect TThen;
          SWhile (CAnd (CNot (check_any [TElseWhen; TEnd])) (CNot CEof))
            (seq [SCall KStatement; SExpect TSemicolon])]);
  SExpect TEnd;
  SExpect TWhen].

(** parsing.rs 1116-1125: [connect_equation] *)
Definition body_connect_equation : stmt := seq [
  SExpect TConnect;
  SExpect TLParen;
  SCall KComponentReference;
  SExpect TComma;
  SCall KComponentReference;
  SExpect TRParen].

(** parsing.rs 1129-1149: [expression] *)
Definition body_expression : stmt := seq [
  SLet 0
    (SIf (CReg [TIf])
       (seq [SAdvance;
             SCall KExpression;
             SExpect TThen;
             SCall KExpression;
             SWhile (CAnd (CNot (check TElse)) (CNot CEof))
               (seq [SExpect TElseIf; SCall KExpression; SExpect TThen; SCall KExpression]);
             SExpect TElse;
             SCall KExpression])
       (SCall KSimpleExpression))].

(** parsing.rs 1151-1161: [simple_expression] *)
Definition body_simple_expression : stmt := seq [
  SCall KLogicalExpression;
  SIf (consume TColon)
    (seq [SCall KLogicalExpression;
          SIf (consume TColon) (SCall KLogicalExpression) SSkip]) SSkip].

(** parsing.rs 1163-1170: [logical_expression] *)
Definition body_logical_expression : stmt := seq [
  SCall KLogicalTerm;
  SWhile (consume_more TOr) (SCall KLogicalTerm)].

(** parsing.rs 1172-1179: [logical_term] *)
Definition body_logical_term : stmt := seq [
  SCall KLogicalFactor;
  SWhile (consume_more TAnd) (SCall KLogicalFactor)].

(** parsing.rs 1181-1186: [logical_factor] *)
Definition body_logical_factor : stmt := seq [
  SDo (consume TNot); SCall KRelation].

(** parsing.rs 1188-1204: [relation] *)
Definition body_relation : stmt := seq [
  SCall KArithmeticExpression;
  SIf (check_any relops) (seq [SCall KRelationalOperator; SCall KArithmeticExpression]) SSkip].

(** parsing.rs 1206-1212: [relational_operator] *)
Definition body_relational_operator : stmt := seq [
  SAdvance].

(** parsing.rs 1214-1231: [arithmetic_expression] *)
Definition body_arithmetic_expression : stmt := seq [
  SIf (check_any addops) (SCall KAddOperator) SSkip;
  SCall KTerm;
  SWhile (CAnd (check_any addops) (CNot CEof)) (seq [SCall KAddOperator; SCall KTerm])].

(** parsing.rs 1233-1239: [add_operator] *)
Definition body_add_operator : stmt := seq [
  SAdvance].

(** parsing.rs 1241-1255: [term] *)
Definition body_term : stmt := seq [
  SCall KFactor;
  SWhile (CAnd (check_any mulops) (CNot CEof)) (seq [SCall KMulOperator; SCall KFactor])].

(** parsing.rs 1257-1263: [mul_operator] *)
Definition body_mul_operator : stmt := seq [
  SAdvance].

(** parsing.rs 1265-1273: [factor] *)
Definition body_factor : stmt := seq [
  SCall KPrimary;
  SIf (check_any [TFlex; TDotFlex]) (seq [SAdvance; SCall KPrimary]) SSkip].

(** parsing.rs 1275-1316: [primary] *)
Definition body_primary : stmt := seq [
  SLet 0
    (SIf (CReg [TUReal; TUInt; TString; TBool; TEnd]) SAdvance
    (SIf (CReg [TLParen])
       (seq [SAdvance;
             SCall KOutputExpressionList;
             SExpect TRParen;
             SIf (check TLBracket) (SCall KArraySubscripts) SSkip])
    (SIf (CReg [TLBracket])
       (seq [SAdvance;
             SCall KExpressionList;
             SWhile (consume_more TSemicolon) (SCall KExpressionList);
             SExpect TRBracket])
    (SIf (CReg [TLCurly])
       (seq [SAdvance; SCall KArrayArguments; SExpect TRCurly])
    (SIf (CReg [TDer; TInitial; TPure])
       (seq [SAdvance; SCall KFunctionCallArgs])
       (seq [SCall KComponentReference;
             SIf (check TLParen) (SCall KFunctionCallArgs) SSkip]))))))].

(** parsing.rs 1318-1323: [type_specifier] *)
Definition body_type_specifier : stmt := seq [
  SDo (consume TDot); SCall KName].

(** parsing.rs 1325-1342: [name] *)
Definition body_name : stmt := seq [
  SExpect TIdentifier;
  SWhile (CAnd (check TDot) (CNot CEof))
    (SIf (nth_is 1 TIdentifier) (seq [SAdvance; SAdvance])
    (SIf (nth_is 1 TLCurly) SBreak
       (SAdvErr "unexpected token '" 1 "' after '.'. Expected identifier or '{'")))].

(** parsing.rs 1344-1358: [component_reference] *)
Definition body_component_reference : stmt := seq [
  SDo (consume TDot);
  SExpect TIdentifier;
  SIf (check TLBracket) (SCall KArraySubscripts) SSkip;
  SWhile (consume_more TDot)
    (seq [SExpect TIdentifier;
          SIf (check TLBracket) (SCall KArraySubscripts) SSkip])].

(** parsing.rs 1360-1373: [result_reference] *)
Definition body_result_reference : stmt := seq [
  SIf (consume TDer)
    (seq [SExpect TLParen;
          SCall KComponentReference;
          SIf (consume TComma) (SExpect TUInt) SSkip;
          SExpect TRParen])
    (SCall KComponentReference)].

(** parsing.rs 1375-1383: [function_call_args] *)
Definition body_function_call_args : stmt := seq [
  SExpect TLParen;
  SIf (CNot (consume TRParen)) (seq [SCall KFunctionArguments; SExpect TRParen]) SSkip].

(** parsing.rs 1385-1403: [function_arguments] *)
Definition body_function_arguments : stmt := seq [
  SIf (nth_is 1 TEqual) (SCall KNamedArguments)
  (SIf (CNot (check TFunction))
     (seq [SCall KExpression;
           SIf (consume TComma) (SCall KFunctionArgumentsNonFirst)
           (SIf (consume TFor) (SCall KForIndices) SSkip)])
     (seq [SCall KFunctionPartialApplication;
           SIf (consume TComma) (SCall KFunctionArgumentsNonFirst) SSkip]))].

(** parsing.rs 1405-1416: [function_arguments_non_first] *)
Definition body_function_arguments_non_first : stmt := seq [
  SIf (nth_is 1 TEqual) (SCall KNamedArguments)
    (seq [SCall KFunctionArgument;
          SIf (consume TComma) (SCall KFunctionArgumentsNonFirst) SSkip])].

(** parsing.rs 1418-1427: [array_arguments] *)
Definition body_array_arguments : stmt := seq [
  SCall KExpression;
  SIf (consume TComma) (SCall KArrayArgumentsNonFirst)
  (SIf (consume TFor) (SCall KForIndices) SSkip)].

(** parsing.rs 1429-1436: [array_arguments_non_first] *)
Definition body_array_arguments_non_first : stmt := seq [
  SCall KExpression;
  SIf (consume TComma) (SCall KArrayArgumentsNonFirst) SSkip].

(** parsing.rs 1438-1445: [named_arguments] *)
Definition body_named_arguments : stmt := seq [
  SCall KNamedArgument;
  SIf (consume TComma) (SCall KNamedArguments) SSkip].

(** parsing.rs 1447-1453: [named_argument] *)
Definition body_named_argument : stmt := seq [
  SExpect TIdentifier; SExpect TEqual; SCall KFunctionArgument].

(** parsing.rs 1455-1463: [function_argument] *)
Definition body_function_argument : stmt := seq [
  SIf (check TFunction) (SCall KFunctionPartialApplication) (SCall KExpression)].

(** parsing.rs 1465-1475: [function_partial_application] *)
Definition body_function_partial_application : stmt := seq [
  SExpect TFunction;
  SCall KTypeSpecifier;
  SExpect TLParen;
  SIf (check TIdentifier) (SCall KNamedArguments) SSkip;
  SExpect TRParen].

(** parsing.rs 1477-1492: [output_expression_list] *)
Definition body_output_expression_list : stmt := seq [
  SIf (CNot (check TRParen))
    (seq [SIf (CNot (check_any [TRParen; TComma])) (SCall KExpression) SSkip;
          SWhile (consume_more TComma)
            (SIf (CNot (check_any [TRParen; TComma])) (SCall KExpression) SSkip)]) SSkip].

(** parsing.rs 1494-1501: [expression_list] *)
Definition body_expression_list : stmt := seq [
  SCall KExpression;
  SWhile (consume_more TComma) (SCall KExpression)].

(** parsing.rs 1503-1512: [array_subscripts] *)
Definition body_array_subscripts : stmt := seq [
  SExpect TLBracket;
  SCall KSubscript;
  SWhile (consume_more TComma) (SCall KSubscript);
  SExpect TRBracket].

(** parsing.rs 1514-1520: [subscript] *)
Definition body_subscript : stmt := seq [
  SIf (CNot (consume TColon)) (SCall KExpression) SSkip].

(** parsing.rs 1522-1529: [description] *)
Definition body_description : stmt := seq [
  SCall KDescriptionString;
  SIf (check TAnnotation) (SCall KAnnotationClause) SSkip].

(** parsing.rs 1531-1539: [description_string] *)
Definition body_description_string : stmt := seq [
  SIf (consume TString)
    (SWhile (consume_more TPlus) (SExpect TString)) SSkip].

(** parsing.rs 1541-1546: [annotation_clause] *)
Definition body_annotation_clause : stmt := seq [
  SExpect TAnnotation; SCall KClassModification].

(** parsing.rs 34-129: [Parser::parse] dispatches a [SyntaxKind] to its function. [KError]
    panics there and is never called; its body here is irrelevant. *)
Definition body (k : skind) : stmt :=
  match k with
  | KError => SSkip
  | KStoredDefinition => body_stored_definition
  | KClassDefinition => body_class_definition
  | KClassPrefixes => body_class_prefixes
  | KClassSpecifier => body_class_specifier
  | KLongClassSpecifier => body_long_class_specifier
  | KShortClassSpecifier => body_short_class_specifier
  | KDerClassSpecifier => body_der_class_specifier
  | KBasePrefix => body_base_prefix
  | KEnumList => body_enum_list
  | KEnumerationLiteral => body_enumeration_literal
  | KComposition => body_composition
  | KLanguageSpecification => body_language_specification
  | KExternalFunctionCall => body_external_function_call
  | KElementList => body_element_list
  | KElement => body_element
  | KImportClause => body_import_clause
  | KImportList => body_import_list
  | KExtendsClause => body_extends_clause
  | KConstrainingClause => body_constraining_clause
  | KClassOrInheritanceModification => body_class_or_inheritance_modification
  | KArgumentOrInheritanceModificationList => body_argument_or_inheritance_modification_list
  | KInheritanceModification => body_inheritance_modification
  | KComponentClause => body_component_clause
  | KTypePrefix => body_type_prefix
  | KComponentList => body_component_list
  | KComponentDeclaration => body_component_declaration
  | KConditionAttribute => body_condition_attribute
  | KDeclaration => body_declaration
  | KModification => body_modification
  | KModificationExpression => body_modification_expression
  | KClassModification => body_class_modification
  | KArgumentList => body_argument_list
  | KArgument => body_argument
  | KElementModificationOrReplaceable => body_element_modification_or_replaceable
  | KElementModification => body_element_modification
  | KElementRedeclaration => body_element_redeclaration
  | KElementReplaceable => body_element_replaceable
  | KComponentClause1 => body_component_clause1
  | KComponentDeclaration1 => body_component_declaration1
  | KShortClassDefinition => body_short_class_definition
  | KEquationSection => body_equation_section
  | KAlgorithmSection => body_algorithm_section
  | KEquation => body_equation
  | KStatement => body_statement
  | KIfEquation => body_if_equation
  | KIfStatement => body_if_statement
  | KForEquation => body_for_equation
  | KForStatement => body_for_statement
  | KForIndices => body_for_indices
  | KForIndex => body_for_index
  | KWhileStatement => body_while_statement
  | KWhenEquation => body_when_equation
  | KWhenStatement => body_when_statement
  | KConnectEquation => body_connect_equation
  | KExpression => body_expression
  | KSimpleExpression => body_simple_expression
  | KLogicalExpression => body_logical_expression
  | KLogicalTerm => body_logical_term
  | KLogicalFactor => body_logical_factor
  | KRelation => body_relation
  | KRelationalOperator => body_relational_operator
  | KArithmeticExpression => body_arithmetic_expression
  | KAddOperator => body_add_operator
  | KTerm => body_term
  | KMulOperator => body_mul_operator
  | KFactor => body_factor
  | KPrimary => body_primary
  | KTypeSpecifier => body_type_specifier
  | KName => body_name
  | KComponentReference => body_component_reference
  | KResultReference => body_result_reference
  | KFunctionCallArgs => body_function_call_args
  | KFunctionArguments => body_function_arguments
  | KFunctionArgumentsNonFirst => body_function_arguments_non_first
  | KArrayArguments => body_array_arguments
  | KArrayArgumentsNonFirst => body_array_arguments_non_first
  | KNamedArguments => body_named_arguments
  | KNamedArgument => body_named_argument
  | KFunctionArgument => body_function_argument
  | KFunctionPartialApplication => body_function_partial_application
  | KOutputExpressionList => body_output_expression_list
  | KExpressionList => body_expression_list
  | KArraySubscripts => body_array_subscripts
  | KSubscript => body_subscript
  | KDescription => body_description
  | KDescriptionString => body_description_string
  | KAnnotationClause => body_annotation_clause
  end.

(** parsing.rs 7-15 [events] with 34-129 [Parser::parse]. [fuel]: see [ParserFuel.v]. *)
Definition parse_fuel (tokens : list token) : nat := 100 * 60 * (length tokens + 1).

Definition parse_events_with (limit : N) (fuel : nat) (tokens : list token) (entry : skind)
  : res (list event * list err) :=
  match entry with
  | KError => Panic PErrorEntry
  | _ =>
      '(_, p) <- exec body fuel TEOF (SCall entry) (parser_with limit tokens) ;;
      Ok (rev (pevents p), rev (perrs p))
  end.

Definition parse_events (tokens : list token) (entry : skind) : res (list event * list err) :=
  parse_events_with 100 (parse_fuel tokens) tokens entry.
