import re
lines=open('/repo/src/parser/parsing.rs').read().split('\n')
loc={}
cur=None
for i,l in enumerate(lines,1):
    m=re.match(r'fn (\w+)\(p: &mut Parser\) \{',l)
    if m: cur=m.group(1); st=i
    if l=='}' and cur: loc[cur]=(st,i); cur=None
B={}
order=[]
def b(name,body):
    order.append(name); B[name]=body
b('stored_definition','''
  SIf (consume TWithin)
    (seq [SIf (CNot (check TSemicolon)) (SCall KName) SSkip;
          SExpect TSemicolon]) SSkip;
  SWhile (CNot CEof)
    (seq [SDo (consume TFinal); SCall KClassDefinition; SExpect TSemicolon])''')
b('class_definition','''
  SDo (consume TEncapsulated); SCall KClassPrefixes; SCall KClassSpecifier''')
b('class_prefixes','''
  SDo (consume TPartial);
  SLet 0
    (SIf (CReg [TClass; TModel; TBlock; TType; TPackage; TRecord; TConnector; TFunction])
       SAdvance
    (SIf (CReg [TExpandable])
       (seq [SAdvance; SExpect TConnector])
    (SIf (CReg [TOperator])
       (seq [SAdvance; SIf (CNot (consume TRecord)) (SDo (consume TFunction)) SSkip])
    (SIf (CReg [TPure; TImpure])
       (seq [SAdvance; SDo (consume TOperator); SExpect TFunction])
       (SAdvErr "unexpected token '" 0 "' used as a class prefix")))))''')
b('class_specifier','''
  SIf (check TExtends) (SCall KLongClassSpecifier)
  (SIf (check TIdentifier)
     (SIf (CNot (nth_is 1 TEqual)) (SCall KLongClassSpecifier)
     (SIf (nth_is 2 TDer) (SCall KDerClassSpecifier)
        (SCall KShortClassSpecifier)))
     (SAdvErr "unexpected token '" 0 "': doesn't match any type of class specifier"))''')
b('long_class_specifier','''
  SIf (consume TExtends)
    (seq [SExpect TIdentifier;
          SIf (check TLParen) (SCall KClassModification) SSkip])
    (SExpect TIdentifier);
  SCall KDescriptionString;
  SCall KComposition;
  SExpect TEnd;
  SExpect TIdentifier''')
b('short_class_specifier','''
  SExpect TIdentifier;
  SExpect TEqual;
  SIf (consume TEnumeration)
    (seq [SExpect TLParen;
          SIf (CAnd (CNot (consume TColon)) (check TIdentifier)) (SCall KEnumList) SSkip;
          SExpect TRParen])
    (seq [SCall KBasePrefix;
          SCall KTypeSpecifier;
          SIf (check TLBracket) (SCall KArraySubscripts) SSkip;
          SIf (check TLParen) (SCall KClassModification) SSkip]);
  SCall KDescription''')
b('der_class_specifier','''
  SExpect TIdentifier;
  SExpect TEqual;
  SExpect TDer;
  SExpect TLParen;
  SCall KTypeSpecifier;
  SExpect TComma;
  SExpect TIdentifier;
  SWhile (consume_more TComma) (SExpect TIdentifier);
  SExpect TRParen;
  SCall KDescription''')
b('base_prefix','''
  SIf (CNot (consume TInput)) (SDo (consume TOutput)) SSkip''')
b('enum_list','''
  SCall KEnumerationLiteral;
  SWhile (consume_more TComma) (SCall KEnumerationLiteral)''')
b('enumeration_literal','''
  SExpect TIdentifier; SCall KDescription''')
b('composition','''
  SCall KElementList;
  SWhile (CAnd (CNot (check_any [TExternal; TAnnotation; TEnd])) (CNot CEof))
    (SLet 0
       (SIf (CReg [TPublic; TProtected]) (seq [SAdvance; SCall KElementList])
       (SIf (CReg [TInitial])
          (SLet 1
             (SIf (CReg [TEquation]) (SCall KEquationSection)
             (SIf (CReg [TAlgorithm]) (SCall KAlgorithmSection)
                (SAdvErr "unexpected token '" 1 "' following 'initial'. Expected 'equation' or 'algorithm'"))))
       (SIf (CReg [TEquation]) (SCall KEquationSection)
       (SIf (CReg [TAlgorithm]) (SCall KAlgorithmSection)
          (SAdvErr "unexpected token '" 0 "' after element list inside composition. Expected 'protected', 'public', 'initial', 'equation', 'algorithm', 'external', 'annotation' or 'end'."))))));
  SIf (consume TExternal)
    (seq [SIf (check TString) (SCall KLanguageSpecification) SSkip;
          SIf (check_any [TDot; TIdentifier]) (SCall KExternalFunctionCall) SSkip;
          SIf (check TAnnotation) (SCall KAnnotationClause) SSkip;
          SExpect TSemicolon]) SSkip;
  SIf (check TAnnotation) (seq [SCall KAnnotationClause; SExpect TSemicolon]) SSkip''')
b('language_specification','''
  SExpect TString''')
b('external_function_call','''
  SIf (CNot (nth_is 1 TLParen))
    (seq [SCall KComponentReference; SExpect TEqual]) SSkip;
  SExpect TIdentifier;
  SExpect TLParen;
  SIf (CNot (check TRParen)) (SCall KExpressionList) SSkip;
  SExpect TRParen''')
b('element_list','''
  SWhile (CAnd (CNot (check_any section_breakers)) (CNot CEof))
    (seq [SCall KElement; SExpect TSemicolon])''')
b('element','''
  SIf (check TImport) (SCall KImportClause)
  (SIf (check TExtends) (SCall KExtendsClause)
     (seq [
        SDo (consume TRedeclare);
        SDo (consume TFinal);
        SDo (consume TInner);
        SDo (consume TOuter);
        SIf (consume TReplaceable)
          (seq [
             SIf (COr (check_any class_prefs) (check TEncapsulated))
               (SCall KClassDefinition) (SCall KComponentClause);
             SIf (check TConstrainedby)
               (seq [SCall KConstrainingClause; SCall KDescription]) SSkip])
          (SIf (COr (check_any class_prefs) (check TEncapsulated))
             (SCall KClassDefinition) (SCall KComponentClause))]))''')
b('import_clause','''
  SExpect TImport;
  SIf (nth_is 1 TEqual)
    (seq [SExpect TIdentifier; SAdvance; SCall KName])
    (seq [SCall KName;
          SIf (CAnd (CNot (consume TDotStar)) (consume TDot))
            (seq [SExpect TLCurly; SCall KImportList; SExpect TRCurly]) SSkip]);
  SCall KDescription''')
b('import_list','''
  SExpect TIdentifier;
  SWhile (consume_more TComma) (SExpect TIdentifier)''')
b('extends_clause','''
  SExpect TExtends;
  SCall KTypeSpecifier;
  SIf (check TLParen) (SCall KClassOrInheritanceModification) SSkip;
  SIf (check TAnnotation) (SCall KAnnotationClause) SSkip''')
b('constraining_clause','''
  SExpect TConstrainedby;
  SCall KTypeSpecifier;
  SIf (check TLParen) (SCall KClassModification) SSkip''')
b('class_or_inheritance_modification','''
  SExpect TLParen;
  SIf (CNot (consume TRParen))
    (seq [SCall KArgumentOrInheritanceModificationList; SExpect TRParen]) SSkip''')
b('argument_or_inheritance_modification_list','''
  SIf (check TBreak) (SCall KInheritanceModification) (SCall KArgument);
  SWhile (consume_more TComma)
    (SIf (check TBreak) (SCall KInheritanceModification) (SCall KArgument))''')
b('inheritance_modification','''
  SExpect TBreak;
  SIf (check TConnect) (SCall KConnectEquation) (SExpect TIdentifier)''')
b('component_clause','''
  SCall KTypePrefix;
  SCall KTypeSpecifier;
  SIf (check TLBracket) (SCall KArraySubscripts) SSkip;
  SCall KComponentList''')
b('type_prefix','''
  SIf (CNot (consume TFlow)) (SDo (consume TStream)) SSkip;
  SIf (CAnd (CNot (consume TDiscrete)) (CNot (consume TParameter)))
    (SDo (consume TConstant)) SSkip;
  SIf (CNot (consume TInput)) (SDo (consume TOutput)) SSkip''')
b('component_list','''
  SCall KComponentDeclaration;
  SWhile (consume_more TComma) (SCall KComponentDeclaration)''')
b('component_declaration','''
  SCall KDeclaration;
  SIf (check TIf) (SCall KConditionAttribute) SSkip;
  SCall KDescription''')
b('condition_attribute','''
  SExpect TIf; SCall KExpression''')
b('declaration','''
  SExpect TIdentifier;
  SIf (check TLBracket) (SCall KArraySubscripts) SSkip;
  SIf (check_any [TLParen; TEqual; TAssign]) (SCall KModification) SSkip''')
b('modification','''
  SIf (check_any [TEqual; TAssign])
    (seq [SAdvance; SCall KModificationExpression])
    (seq [SCall KClassModification;
          SIf (consume TEqual) (SCall KModificationExpression) SSkip])''')
b('modification_expression','''
  SIf (CNot (consume TBreak)) (SCall KExpression) SSkip''')
b('class_modification','''
  SExpect TLParen;
  SIf (CNot (consume TRParen)) (seq [SCall KArgumentList; SExpect TRParen]) SSkip''')
b('argument_list','''
  SCall KArgument;
  SWhile (consume_more TComma) (SCall KArgument)''')
b('argument','''
  SIf (check TRedeclare) (SCall KElementRedeclaration) (SCall KElementModificationOrReplaceable)''')
b('element_modification_or_replaceable','''
  SDo (consume TEach);
  SDo (consume TFinal);
  SIf (check TReplaceable) (SCall KElementReplaceable) (SCall KElementModification)''')
b('element_modification','''
  SCall KName;
  SIf (check_any [TLParen; TEqual; TAssign]) (SCall KModification) SSkip;
  SCall KDescriptionString''')
b('element_redeclaration','''
  SExpect TRedeclare;
  SDo (consume TEach);
  SDo (consume TFinal);
  SIf (check_any class_prefs) (SCall KShortClassDefinition)
  (SIf (check TReplaceable) (SCall KElementReplaceable) (SCall KComponentClause1))''')
b('element_replaceable','''
  SExpect TReplaceable;
  SIf (check_any class_prefs) (SCall KShortClassDefinition) (SCall KComponentClause1);
  SIf (check TConstrainedby) (SCall KConstrainingClause) SSkip''')
b('component_clause1','''
  SCall KTypePrefix; SCall KTypeSpecifier; SCall KComponentDeclaration1''')
b('component_declaration1','''
  SCall KDeclaration; SCall KDescription''')
b('short_class_definition','''
  SCall KClassPrefixes; SCall KShortClassSpecifier''')
for x,K,c in (('equation','Equation','Equation'),('algorithm','Algorithm','Statement')):
    b(x+'_section',f'''
  SDo (consume TInitial);
  SExpect T{K};
  SWhile (CAnd (CNot (check_any section_breakers)) (CNot CEof))
    (seq [SCall K{c}; SExpect TSemicolon])''')
b('equation','''
  SLet 0
    (SIf (CReg [TIf]) (SCall KIfEquation)
    (SIf (CReg [TFor]) (SCall KForEquation)
    (SIf (CReg [TWhen]) (SCall KWhenEquation)
    (SIf (CReg [TConnect]) (SCall KConnectEquation)
       (seq [SCall KSimpleExpression;
             SIf (consume TEqual) (SCall KExpression) SSkip])))));
  SCall KDescription''')
b('statement','''
  SLet 0
    (SIf (CReg [TIf]) (SCall KIfStatement)
    (SIf (CReg [TFor]) (SCall KForStatement)
    (SIf (CReg [TWhile]) (SCall KWhileStatement)
    (SIf (CReg [TWhen]) (SCall KWhenStatement)
    (SIf (CReg [TBreak; TReturn]) SAdvance
    (SIf (CReg [TLParen])
       (seq [SAdvance;
             SCall KOutputExpressionList;
             SExpect TRParen;
             SExpect TAssign;
             SCall KComponentReference;
             SCall KFunctionCallArgs])
       (seq [SCall KComponentReference;
             SIf (consume TAssign) (SCall KExpression) (SCall KFunctionCallArgs)])))))));
  SCall KDescription''')
for x,c in (('equation','Equation'),('statement','Statement')):
    b('if_'+x,f'''
  SExpect TIf;
  SCall KExpression;
  SExpect TThen;
  SWhile (CAnd (CNot (check_any [TElseIf; TElse; TEnd])) (CNot CEof))
    (seq [SCall K{c}; SExpect TSemicolon]);
  SWhile (CAnd (CNot (check_any [TElse; TEnd])) (CNot CEof))
    (seq [SExpect TElseIf;
          SCall KExpression;
          SExpect TThen;
          SWhile (CAnd (CNot (check_any [TElseIf; TElse; TEnd])) (CNot CEof))
            (seq [SCall K{c}; SExpect TSemicolon])]);
  SIf (consume TElse)
    (SWhile (CAnd (CNot (check TEnd)) (CNot CEof))
       (seq [SCall K{c}; SExpect TSemicolon])) SSkip;
  SExpect TEnd;
  SExpect TIf''')
for x,c in (('equation','Equation'),('statement','Statement')):
    b('for_'+x,f'''
  SExpect TFor;
  SCall KForIndices;
  SExpect TLoop;
  SWhile (CAnd (CNot (check TEnd)) (CNot CEof))
    (seq [SCall K{c}; SExpect TSemicolon]);
  SExpect TEnd;
  SExpect TFor''')
b('for_indices','''
  SCall KForIndex;
  SWhile (consume_more TComma) (SCall KForIndex)''')
b('for_index','''
  SExpect TIdentifier;
  SIf (consume TIn) (SCall KExpression) SSkip''')
b('while_statement','''
  SExpect TWhile;
  SCall KExpression;
  SExpect TLoop;
  SWhile (CAnd (CNot (check TEnd)) (CNot CEof))
    (seq [SCall KStatement; SExpect TSemicolon]);
  SExpect TEnd;
  SExpect TWhile''')
for x,c in (('equation','Equation'),('statement','Statement')):
    b('when_'+x,f'''
  SExpect TWhen;
  SCall KExpression;
  SExpect TThen;
  SWhile (CAnd (CNot (check_any [TElseWhen; TEnd])) (CNot CEof))
    (seq [SCall K{c}; SExpect TSemicolon]);
  SWhile (CAnd (CNot (check TEnd)) (CNot CEof))
    (seq [SExpect TElseWhen;
          SCall KExpression;
          SExpect TThen;
          SWhile (CAnd (CNot (check_any [TElseWhen; TEnd])) (CNot CEof))
            (seq [SCall K{c}; SExpect TSemicolon])]);
  SExpect TEnd;
  SExpect TWhen''')
b('connect_equation','''
  SExpect TConnect;
  SExpect TLParen;
  SCall KComponentReference;
  SExpect TComma;
  SCall KComponentReference;
  SExpect TRParen''')
b('expression','''
  SLet 0
    (SIf (CReg [TIf])
       (seq [SAdvance;
             SCall KExpression;
             SExpect TThen;
             SCall KExpression;
             SWhile (CAnd (CNot (check TElse)) (CNot CEof))
               (seq [SExpect TElseIf; SCall KExpression; SExpect TThen; SCall KExpression]);
             SExpect TElse;
             SCall KExpression])
       (SCall KSimpleExpression))''')
b('simple_expression','''
  SCall KLogicalExpression;
  SIf (consume TColon)
    (seq [SCall KLogicalExpression;
          SIf (consume TColon) (SCall KLogicalExpression) SSkip]) SSkip''')
b('logical_expression','''
  SCall KLogicalTerm;
  SWhile (consume_more TOr) (SCall KLogicalTerm)''')
b('logical_term','''
  SCall KLogicalFactor;
  SWhile (consume_more TAnd) (SCall KLogicalFactor)''')
b('logical_factor','''
  SDo (consume TNot); SCall KRelation''')
b('relation','''
  SCall KArithmeticExpression;
  SIf (check_any relops) (seq [SCall KRelationalOperator; SCall KArithmeticExpression]) SSkip''')
b('relational_operator','''
  SAdvance''')
b('arithmetic_expression','''
  SIf (check_any addops) (SCall KAddOperator) SSkip;
  SCall KTerm;
  SWhile (CAnd (check_any addops) (CNot CEof)) (seq [SCall KAddOperator; SCall KTerm])''')
b('add_operator','''
  SAdvance''')
b('term','''
  SCall KFactor;
  SWhile (CAnd (check_any mulops) (CNot CEof)) (seq [SCall KMulOperator; SCall KFactor])''')
b('mul_operator','''
  SAdvance''')
b('factor','''
  SCall KPrimary;
  SIf (check_any [TFlex; TDotFlex]) (seq [SAdvance; SCall KPrimary]) SSkip''')
b('primary','''
  SLet 0
    (SIf (CReg [TUReal; TUInt; TString; TBool; TEnd]) SAdvance
    (SIf (CReg [TLParen])
       (seq [SAdvance;
             SCall KOutputExpressionList;
             SExpect TRParen;
             SIf (check TLBracket) (SCall KArraySubscripts) SSkip])
    (SIf (CReg [TLBracket])
       (seq [SAdvance;
             SCall KExpressionList;
             SWhile (consume_more TSemicolon) (SCall KExpressionList);
             SExpect TRBracket])
    (SIf (CReg [TLCurly])
       (seq [SAdvance; SCall KArrayArguments; SExpect TRCurly])
    (SIf (CReg [TDer; TInitial; TPure])
       (seq [SAdvance; SCall KFunctionCallArgs])
       (seq [SCall KComponentReference;
             SIf (check TLParen) (SCall KFunctionCallArgs) SSkip]))))))''')
b('type_specifier','''
  SDo (consume TDot); SCall KName''')
b('name','''
  SExpect TIdentifier;
  SWhile (CAnd (check TDot) (CNot CEof))
    (SIf (nth_is 1 TIdentifier) (seq [SAdvance; SAdvance])
    (SIf (nth_is 1 TLCurly) SBreak
       (SAdvErr "unexpected token '" 1 "' after '.'. Expected identifier or '{'")))''')
b('component_reference','''
  SDo (consume TDot);
  SExpect TIdentifier;
  SIf (check TLBracket) (SCall KArraySubscripts) SSkip;
  SWhile (consume_more TDot)
    (seq [SExpect TIdentifier;
          SIf (check TLBracket) (SCall KArraySubscripts) SSkip])''')
b('result_reference','''
  SIf (consume TDer)
    (seq [SExpect TLParen;
          SCall KComponentReference;
          SIf (consume TComma) (SExpect TUInt) SSkip;
          SExpect TRParen])
    (SCall KComponentReference)''')
b('function_call_args','''
  SExpect TLParen;
  SIf (CNot (consume TRParen)) (seq [SCall KFunctionArguments; SExpect TRParen]) SSkip''')
b('function_arguments','''
  SIf (nth_is 1 TEqual) (SCall KNamedArguments)
  (SIf (CNot (check TFunction))
     (seq [SCall KExpression;
           SIf (consume TComma) (SCall KFunctionArgumentsNonFirst)
           (SIf (consume TFor) (SCall KForIndices) SSkip)])
     (seq [SCall KFunctionPartialApplication;
           SIf (consume TComma) (SCall KFunctionArgumentsNonFirst) SSkip]))''')
b('function_arguments_non_first','''
  SIf (nth_is 1 TEqual) (SCall KNamedArguments)
    (seq [SCall KFunctionArgument;
          SIf (consume TComma) (SCall KFunctionArgumentsNonFirst) SSkip])''')
b('array_arguments','''
  SCall KExpression;
  SIf (consume TComma) (SCall KArrayArgumentsNonFirst)
  (SIf (consume TFor) (SCall KForIndices) SSkip)''')
b('array_arguments_non_first','''
  SCall KExpression;
  SIf (consume TComma) (SCall KArrayArgumentsNonFirst) SSkip''')
b('named_arguments','''
  SCall KNamedArgument;
  SIf (consume TComma) (SCall KNamedArguments) SSkip''')
b('named_argument','''
  SExpect TIdentifier; SExpect TEqual; SCall KFunctionArgument''')
b('function_argument','''
  SIf (check TFunction) (SCall KFunctionPartialApplication) (SCall KExpression)''')
b('function_partial_application','''
  SExpect TFunction;
  SCall KTypeSpecifier;
  SExpect TLParen;
  SIf (check TIdentifier) (SCall KNamedArguments) SSkip;
  SExpect TRParen''')
b('output_expression_list','''
  SIf (CNot (check TRParen))
    (seq [SIf (CNot (check_any [TRParen; TComma])) (SCall KExpression) SSkip;
          SWhile (consume_more TComma)
            (SIf (CNot (check_any [TRParen; TComma])) (SCall KExpression) SSkip)]) SSkip''')
b('expression_list','''
  SCall KExpression;
  SWhile (consume_more TComma) (SCall KExpression)''')
b('array_subscripts','''
  SExpect TLBracket;
  SCall KSubscript;
  SWhile (consume_more TComma) (SCall KSubscript);
  SExpect TRBracket''')
b('subscript','''
  SIf (CNot (consume TColon)) (SCall KExpression) SSkip''')
b('description','''
  SCall KDescriptionString;
  SIf (check TAnnotation) (SCall KAnnotationClause) SSkip''')
b('description_string','''
  SIf (consume TString)
    (SWhile (consume_more TPlus) (SExpect TString)) SSkip''')
b('annotation_clause','''
  SExpect TAnnotation; SCall KClassModification''')
missing=[n for n in loc if n not in B]; extra=[n for n in B if n not in loc]
assert not missing and not extra,(missing,extra)
def K(n): return 'K'+''.join(w.capitalize() for w in n.split('_'))
out=['''(** Transcription of the grammar functions of src/parser/parsing.rs (lines 253-1546)
    into the statement language of [ParserCore.v]. One definition per Rust function;
    the surrounding [let mark = p.enter(); ... p.exit(mark, kind)] is part of
    [SCall]. Line numbers are inserted by tools/gen_grammar.py. *)
From Verif Require Import Base Tokens Syntax Lexer ParserCore.

Definition seq (l : list stmt) : stmt := fold_right SSeq SSkip l.
(** [p.check(t)] *)
Definition check (t : tkind) : cond := CNth 0 [t].
(** [p.check_any(ts)] *)
Definition check_any (ts : list tkind) : cond := CNth 0 ts.
(** [p.consume(t)] *)
Definition consume (t : tkind) : cond := CConsume t.
(** [p.nth(n) == t] *)
Definition nth_is (n : nat) (t : tkind) : cond := CNth n [t].
(** [p.consume(t) && !p.eof()] *)
Definition consume_more (t : tkind) : cond := CAnd (CConsume t) (CNot CEof).

(** parsing.rs 255-264: [SECTION_BREAKERS] *)
Definition section_breakers : list tkind :=
  [TProtected; TPublic; TInitial; TEquation; TAlgorithm; TEnd; TAnnotation; TExternal].
(** parsing.rs 265-279: [CLASS_PREFS] *)
Definition class_prefs : list tkind :=
  [TPartial; TClass; TModel; TRecord; TFunction; TBlock; TType; TOperator; TConnector;
   TPackage; TPure; TImpure; TExpandable].
(** [RELOPS], [ADDOPS], [MULOPS]: constants inside [relation], [arithmetic_expression], [term] *)
Definition relops : list tkind := [TLes; TLeq; TGre; TGeq; TEq; TNeq].
Definition addops : list tkind := [TPlus; TDotPlus; TMinus; TDotMinus].
Definition mulops : list tkind := [TStar; TDotStar; TSlash; TDotSlash].
''']
for n in order:
    a,z=loc[n]
    out.append(f'(** parsing.rs {a}-{z}: [{n}] *)\nDefinition body_{n} : stmt := seq [{B[n]}].\n')
out.append('(** parsing.rs 34-129: [Parser::parse] dispatches a [SyntaxKind] to its function. [KError]\n    panics there and is never called; its body here is irrelevant. *)\nDefinition body (k : skind) : stmt :=\n  match k with\n  | KError => SSkip')
for n in order: out.append(f'  | {K(n)} => body_{n}')
out.append('  end.\n')
out.append('''(** parsing.rs 7-15 [events] with 34-129 [Parser::parse]. [fuel]: see [ParserFuel.v]. *)
Definition parse_fuel (tokens : list token) : nat := 100 * 60 * (length tokens + 1).

Definition parse_events_with (limit : N) (fuel : nat) (tokens : list token) (entry : skind)
  : res (list event * list err) :=
  match entry with
  | KError => Panic PErrorEntry
  | _ =>
      '(_, p) <- exec body fuel TEOF (SCall entry) (parser_with limit tokens) ;;
      Ok (rev (pevents p), rev (perrs p))
  end.

Definition parse_events (tokens : list token) (entry : skind) : res (list event * list err) :=
  parse_events_with 100 (parse_fuel tokens) tokens entry.
''')
open('/verif/rocq/theories/Grammar.v','w').write('\n'.join(out))
