import re
lines=open('/repo/src/formatter/formatting.rs').read().split('\n')
loc={};cur=None
for i,l in enumerate(lines,1):
    m=re.match(r'fn (\w+)\(',l)
    if m: cur=m.group(1); st=i
    if l=='}' and cur: loc[cur]=(st,i); cur=None
H={};order=[]
def h(name,tree,tok,other=None):
    """tree: list of (kind, actions) ; None key = any ; tok: list"""
    order.append(name); H[name]=(tree,tok)
K=lambda n:'K'+''.join(w.capitalize() for w in n.split('_'))
SP='AMark MSpace'; IN='AMark MIndent'; DE='AMark MDedent'
def call(k): return f'call {K(k)}'
def wrap(k): # indent, break illegal, call, dedent
    return [IN,'ABreak TSelf Illegal',call(k),DE]
UN='unreachable'
# body text: Coq expression of type list action * locals given l v
def acts(a): return '('+('['+'; '.join(a)+']' )+', l)'
def cases_tree(d,default):
    s='match k with\n'
    for ks,e in d: s+=f'      | {ks} => {e}\n'
    if default: s+=f'      | _ => {default}\n'
    return s+'      end'
def H2(name,tree,tok):
    order.append(name); H[name]=f'''  match v_child v with
  | LN k =>
      {tree}
  | LT t =>
      {tok}
  end'''
def T(d,default='(unreachable, l)'): return cases_tree(d,default)
def tk(*conds,default):
    s=''
    for c,e in conds: s+=f'if {c} then {e}\n      else '
    return s+default
HT='([AHandle], l)'; HTS=acts(['AHandle',SP]); STOK=acts([SP,'AHandle'])
IGN='([], l)'
def is_(*ks): return 'memk t ['+'; '.join('T'+k for k in ks)+']'
LX='l'
H2('stored_definition',T([
 ('KName',acts([call('name')])),
 ('KClassDefinition','((if tkind_eqb (v_prev v) TSemicolon then [ABreak TSelf Legal] else [])\n          ++ [call KClassDefinition], l)')]),
 '''((if tkind_eqb t TFinal then [ABreak TSelf Legal]
        else if tkind_eqb t TWithin && v_idxpos v then [ABreak TSelf Illegal] else [])
       ++ [AHandle]
       ++ (if tkind_eqb t TFinal || tkind_eqb t TWithin then [AMark MSpace] else []), l)''')
H2('class_definition',T([('KClassSpecifier',acts([SP,call('class_specifier')])),('KClassPrefixes',acts([call('class_prefixes')]))]),HTS)
H2('class_prefixes',IGN,'((if v_idx v =? 0 then [] else [AMark MSpace]) ++ [AHandle], l)')
H2('class_specifier',T([(K(x),acts([call(x)])) for x in ('long_class_specifier','short_class_specifier','der_class_specifier')]),IGN)
H2('long_class_specifier',T([('KDescriptionString',acts(wrap('description_string'))),('KClassModification',acts([call('class_modification')])),('KComposition',acts([call('composition')]))]),
 '''((if tkind_eqb t TEnd then [ABreak TSelf Required] else [])
       ++ [AHandle]
       ++ (if tkind_eqb t TEnd || tkind_eqb t TExtends then [AMark MSpace] else []), l)''')
EQ2='''((if tkind_eqb t TEqual then [AMark MSpace] else [])
       ++ [AHandle]
       ++ (if tkind_eqb t TEqual then [AMark MSpace] else []), l)'''
H2('short_class_specifier',T([
 ('KBasePrefix','([call KBasePrefix] ++ (if v_empty v then [] else [AMark MSpace]), l)'),
 ('KTypeSpecifier',acts([call('type_specifier')])),('KArraySubscripts',acts([call('array_subscripts')])),('KClassModification',acts([call('class_modification')])),
 ('KEnumList','''let ml := l_ml l || v_desc v in
          ((if ml then [AMark MIndent; ABreak TSelf Illegal] else [])
           ++ [call_ml KEnumList ml]
           ++ (if ml then [AMark MDedent] else []), set_ml ml l)'''),
 ('KDescription',acts(wrap('description')))]),EQ2)
H2('der_class_specifier',T([
 ('KTypeSpecifier','((if l_ml l then [ABreak TSelf Illegal] else []) ++ [call KTypeSpecifier], l)'),
 ('KDescription',acts(wrap('description')))]),
 '''((if tkind_eqb t TEqual then [AMark MSpace]
        else if tkind_eqb t TIdentifier && tkind_eqb (v_prev v) TComma then [bos (l_ml l) TSelf] else [])
       ++ [AHandle]
       ++ (if tkind_eqb t TEqual then [AMark MSpace]
           else if tkind_eqb t TLParen then [AMark MIndent]
           else if tkind_eqb t TRParen then [AMark MDedent] else []), l)''')
H2('base_prefix',IGN,HT)
LISTTOK='''match v_peek v with
      | None => ([AHandle; APanic PUnwrap], l)
      | Some (LN _) => ([AHandle; bos (l_ml l) TPeek], l)
      | Some (LT _) => ([AHandle], l)
      end'''
H2('enum_list',acts([call('enumeration_literal')]),LISTTOK)
H2('enumeration_literal',acts(wrap('description')),HT)
H2('composition','''let l' := set_rule k l in
      match k with
      | KElementList =>
          ([AMark MIndent; ABreak TSelf Required; call KElementList; AMark MDedent], l')
      | KEquationSection => ([ABreak TSelf Required; call KEquationSection], l')
      | KAlgorithmSection => ([ABreak TSelf Required; call KAlgorithmSection], l')
      | KLanguageSpecification => ([AMark MSpace; call KLanguageSpecification], l')
      | KExternalFunctionCall =>
          ([AMark MIndent; ABreak TSelf Required; call KExternalFunctionCall; AMark MDedent], l')
      | KAnnotationClause =>
          let ext := tkind_eqb (v_prev v) TExternal
                     || ((skind_eqb (l_rule l) KLanguageSpecification
                          || skind_eqb (l_rule l) KExternalFunctionCall)
                         && negb (tkind_eqb (v_prev v) TSemicolon)) in
          ([AMark MIndent]
           ++ (if ext then [AMark MIndent] else [])
           ++ [ABreak TSelf (if negb ext then Required else Illegal);
               call KAnnotationClause; AMark MDedent]
           ++ (if ext then [AMark MDedent] else []), l')
      | _ => (unreachable, l')
      end''','((if memk t [TProtected; TPublic; TExternal] then [ABreak TSelf Required] else []) ++ [AHandle], l)')
H2('language_specification',IGN,HT)
PEEKBRK=lambda pre,post,cond:f'''if {cond} && l_ml l then
        match v_peek v with
        | None => ({pre} ++ [AHandle; APanic PUnwrap], l)
        | Some (LN _) => ({pre} ++ [AHandle{post}; ABreak TPeek Illegal], l)
        | Some (LT _) => ({pre} ++ [AHandle{post}], l)
        end'''
OPENTOK='''if tkind_eqb t %s && l_ml l then
        match v_peek v with
        | None => ([AHandle; APanic PUnwrap], l)
        | Some (LN _) => ([AHandle; ABreak TPeek Illegal], l)
        | Some (LT _) => ([AHandle], l)
        end
      else ([AHandle], l)'''
H2('external_function_call',T([('KComponentReference',acts([call('component_reference')])),('KExpressionList','([call_ml KExpressionList (l_ml l)], l)')]),
 'if tkind_eqb t TEqual then ([AMark MSpace; AHandle; AMark MSpace], l)\n      else '+OPENTOK%'TLParen')
H2('element_list','((if tkind_eqb (v_prev v) TSemicolon then [ABreak TSelf Legal] else []) ++ [call KElement], l)',HT)
H2('element',T([(K(x),acts([call(x)])) for x in ('import_clause','extends_clause','class_definition','component_clause')]+[('KConstrainingClause',acts(wrap('constraining_clause'))),('KDescription',acts(wrap('description')))]),HTS)
H2('import_clause',T([('KName',acts([call('name')])),('KImportList','([call_ml KImportList (l_ml l)], l)'),('KDescription',acts(wrap('description')))]),
'''let pre := if tkind_eqb t TEqual then [AMark MSpace] else [] in
      if tkind_eqb t TImport || tkind_eqb t TEqual then (pre ++ [AHandle; AMark MSpace], l)
      else if tkind_eqb t TLCurly && l_ml l then
        match v_peek v with
        | None => (pre ++ [AHandle; AMark MIndent; APanic PUnwrap], l)
        | Some (LN _) => (pre ++ [AHandle; AMark MIndent; ABreak TPeek Illegal], l)
        | Some (LT _) => (pre ++ [AHandle; AMark MIndent], l)
        end
      else if tkind_eqb t TRCurly && l_ml l then (pre ++ [AHandle; AMark MDedent], l)
      else (pre ++ [AHandle], l)''')
H2('import_list',IGN,'((if tkind_eqb t TIdentifier && (1 <? v_idx v) then [bos (l_ml l) TSelf] else []) ++ [AHandle], l)')
H2('extends_clause',T([('KTypeSpecifier',acts([call('type_specifier')])),('KClassOrInheritanceModification',acts([call('class_or_inheritance_modification')])),('KAnnotationClause',acts(wrap('annotation_clause')))]),HTS)
H2('constraining_clause',T([('KTypeSpecifier',acts([call('type_specifier')])),('KClassModification',acts([call('class_modification')]))]),HTS)
H2('class_or_inheritance_modification','([call_ml KArgumentOrInheritanceModificationList (l_ml l)], l)',OPENTOK%'TLParen')
H2('argument_or_inheritance_modification_list',T([(K(x),acts([call(x)])) for x in ('argument','inheritance_modification')]),LISTTOK)
H2('inheritance_modification',acts([call('connect_equation')]),'([AHandle] ++ (if tkind_eqb t TBreak then [AMark MSpace] else []), l)')
H2('component_clause',T([('KTypePrefix','([call KTypePrefix] ++ (if v_empty v then [] else [AMark MSpace]), l)')]+[(K(x),acts([call(x)])) for x in ('type_specifier','array_subscripts','component_list')]),IGN)
H2('type_prefix',IGN,'((if v_idx v =? 0 then [] else [AMark MSpace]) ++ [AHandle], l)')
H2('component_list','([bos (l_ml l) TSelf; call KComponentDeclaration], l)',HT)
H2('component_declaration',T([('KDeclaration',acts([call('declaration')])),('KConditionAttribute',acts([SP,call('condition_attribute')])),('KDescription',acts(wrap('description')))]),IGN)
EXPR='call_w KExpression false false false'
H2('condition_attribute',acts([EXPR]),HTS)
H2('declaration',T([(K(x),acts([call(x)])) for x in ('array_subscripts','modification')]),HT)
def MLIF(c): return f'''((if v_mlif v then [AMark MIndent] else [])
           ++ [bos (v_mlif v) TSelf; {c}]
           ++ (if v_mlif v then [AMark MDedent] else []), l)'''
H2('modification',T([('KClassModification',acts([call('class_modification')])),('KModificationExpression',MLIF(call('modification_expression')))]),STOK)
H2('modification_expression',acts([EXPR]),HT)
H2('class_modification','([call_ml KArgumentList (l_ml l)], l)',OPENTOK%'TLParen')
H2('argument_list',acts([call('argument')]),LISTTOK)
H2('argument',T([(K(x),acts([call(x)])) for x in ('element_modification_or_replaceable','element_redeclaration')]),IGN)
H2('element_modification_or_replaceable',T([(K(x),acts([call(x)])) for x in ('element_modification','element_replaceable')]),HTS)
H2('element_modification',T([(K(x),acts([call(x)])) for x in ('name','modification')]+[('KDescriptionString',acts(wrap('description_string')))]),IGN)
H2('element_redeclaration',T([('KShortClassDefinition',acts([call('short_class_definition')])),('KComponentClause1','([call KComponentClause1], l)'),('KElementReplaceable',acts([call('element_replaceable')]))]),HTS)
H2('element_replaceable',T([('KShortClassDefinition',acts([call('short_class_definition')])),('KComponentClause1','([call KComponentClause1], l)'),('KConstrainingClause',acts(wrap('constraining_clause')))]),HTS)
H2('component_clause1',T([('KTypePrefix',acts([call('type_prefix')])),('KTypeSpecifier','((if l_cnt l then [AMark MSpace] else []) ++ [call KTypeSpecifier], l)'),('KComponentDeclaration1','([AMark MSpace; call KComponentDeclaration1], l)')]),IGN)
H2('component_declaration1',T([('KDeclaration',acts([call('declaration')])),('KDescription',acts(wrap('description')))]),IGN)
H2('short_class_definition',T([('KClassPrefixes',acts([call('class_prefixes')])),('KShortClassSpecifier',acts([SP,call('short_class_specifier')]))]),IGN)
INITTOK='([AHandle] ++ (if tkind_eqb t TInitial then [AMark MSpace] else []), l)'
H2('equation_section','([ABreak TSelf (if tkind_eqb (v_prev v) TEquation then Required else Legal); call KEquation], l)',INITTOK)
H2('algorithm_section','([ABreak TSelf (if tkind_eqb (v_prev v) TAlgorithm then Required else Legal); call KStatement], l)',INITTOK)
H2('equation',T([('KSimpleExpression','([call_w KSimpleExpression false false false], l)'),('KExpression',MLIF(EXPR))]+[(K(x),acts([call(x)])) for x in ('if_equation','for_equation','connect_equation','when_equation','component_reference','function_call_args')]+[('KDescription',acts(wrap('description')))]),
 '((if tkind_eqb t TEqual then [AMark MSpace] else []) ++ [AHandle], l)')
H2('statement',T([('KComponentReference','((if tkind_eqb (v_prev v) TAssign then [AMark MSpace] else []) ++ [call KComponentReference], l)'),('KExpression',MLIF(EXPR)),('KFunctionCallArgs',acts([call('function_call_args')])),('KOutputExpressionList','([call_w KOutputExpressionList false false false], l)')]+[(K(x),acts([call(x)])) for x in ('if_statement','for_statement','while_statement','when_statement')]+[('KDescription',acts(wrap('description')))]),
 '((if tkind_eqb t TAssign then [AMark MSpace] else []) ++ [AHandle], l)')
def BLK(name,inner,head,kw,breaks):
    hd={'expression':('KExpression',acts([SP,EXPR,SP])),'for_indices':('KForIndices',acts([SP,call('for_indices'),SP]))}[head]
    H2(name,T([hd,(K(inner),acts([IN,'ABreak TSelf Legal',call(inner),DE]))]),
    f'((if tkind_eqb t {kw} && tkind_eqb (v_prev v) TEnd then [AMark MSpace]\n        else if memk t [{breaks}] then [ABreak TSelf Legal] else []) ++ [AHandle], l)')
BLK('if_equation','equation','expression','TIf','TElseIf; TElse; TEnd')
BLK('if_statement','statement','expression','TIf','TElseIf; TElse; TEnd')
BLK('for_equation','equation','for_indices','TFor','TEnd')
BLK('for_statement','statement','for_indices','TFor','TEnd')
H2('for_indices',acts([call('for_index')]),HTS)
H2('for_index',acts([EXPR]),'((if tkind_eqb t TIn then [AMark MSpace] else []) ++ [AHandle]\n       ++ (if tkind_eqb t TIn then [AMark MSpace] else []), l)')
BLK('while_statement','statement','expression','TWhile','TEnd')
BLK('when_equation','equation','expression','TWhen','TElseWhen; TEnd')
BLK('when_statement','statement','expression','TWhen','TElseWhen; TEnd')
H2('connect_equation','((if v_idx v =? 2 then (if l_ml l then [ABreak TSelf Illegal] else [])\n        else [bos (l_ml l) TSelf]) ++ [call KComponentReference], l)',HT)
H2('expression',T([('KExpression','''((if l_cnd l then [bos (l_ml l) TSelf] else [AMark MSpace])
           ++ [call_w KExpression false false false]
           ++ (if l_cnd l then
                 [AMark MDedent]
                 ++ match v_peek v with
                    | Some (LT _) => [bos (l_ml l) TPeek]
                    | _ => []
                    end
               else [AMark MSpace]), set_cnd false l)'''),('KSimpleExpression','([call_w KSimpleExpression (l_w l) false true], l)')]),
 '''if tkind_eqb t TThen || tkind_eqb t TElse
      then ([AHandle; AMark MIndent], set_cnd true l)
      else ([AHandle], l)''')
H2('simple_expression','([call_w KLogicalExpression (l_w l) false true], l)',acts([SP,'AHandle',SP]))
OPTOK='''let '(pre, l) := op_break l v in
      (pre ++ [AHandle; AMark MSpace], l)'''
H2('logical_expression','([call_w KLogicalTerm (l_w l) false true], l)',OPTOK)
H2('logical_term','([call_w KLogicalFactor (l_w l) false true], l)',OPTOK)
H2('logical_factor','([call_w KRelation (l_w l) false true], l)',HTS)
def OPTREE(opk,inner): return f'''if skind_eqb k {opk} then
        let '(pre, l) := op_break l v in
        (pre ++ [call {opk}; AMark MSpace], l)
      else ([call_w {inner} (l_w l) false true], l)'''
H2('relation',OPTREE('KRelationalOperator','KArithmeticExpression'),IGN)
H2('relational_operator',IGN,HT)
H2('arithmetic_expression','''if skind_eqb k KAddOperator then
        if v_idx v =? 0 then ([call KAddOperator], l)
        else
          let '(pre, l) := op_break l v in
          (pre ++ [call KAddOperator; AMark MSpace], l)
      else ([call_w KTerm (l_w l) false true], l)''',IGN)
H2('add_operator',IGN,HT)
H2('term',OPTREE('KMulOperator','KFactor'),IGN)
H2('mul_operator',IGN,HT)
H2('factor','([call_w KPrimary (l_w l) false true], l)',OPTOK)
H2('primary',T([(K(x),acts([call(x)])) for x in ('component_reference','function_call_args','array_subscripts')]+[('KArrayArguments','([call_ml KArrayArguments (l_ml l)], l)'),('KExpressionList','([call_ml KExpressionList (l_ml l && l_cnt l)], l)'),('KOutputExpressionList','([call_w KOutputExpressionList (l_w l) false true], l)')]),
'''if memk t [TUInt; TUReal; TString; TBool; TDer; TInitial; TPure; TEnd] then ([AHandle], l)
      else if tkind_eqb t TSemicolon then
        match v_peek v with
        | None => ([AHandle; APanic PUnwrap], l)
        | Some (LN _) => ([AHandle; bos (l_ml l) TPeek], l)
        | Some (LT _) => ([AHandle], l)
        end
      else if memk t [TLCurly; TLBracket] then
        ([AHandle; AMark MIndent]
         ++ (if l_ml l then
               match v_peek v with
               | None => [APanic PUnwrap]
               | Some (LN _) => [ABreak TPeek Illegal]
               | Some (LT _) => []
               end
             else []), l)
      else if memk t [TRCurly; TRBracket] then ([AMark MDedent; AHandle], l)
      else if memk t [TLParen; TRParen] then ([AHandle], l)
      else (unreachable, l)''')
H2('type_specifier',acts([call('name')]),HT)
H2('name',IGN,HT)
H2('component_reference',acts([call('array_subscripts')]),HT)
H2('result_reference',acts([call('component_reference')]),'([AHandle] ++ (if tkind_eqb t TComma then [AMark MSpace] else []), l)')
H2('function_call_args','([call_ml KFunctionArguments (l_ml l)], l)',OPENTOK%'TLParen')
def REST(k): return (k,f'([bos (l_ml l) TSelf; call_ml {k} (l_ml l)], l)')
FORTOK='''if tkind_eqb t TFor then ([bos (l_ml l) TSelf; AHandle; AMark MSpace], l)
      else ([AHandle], l)'''
NAMED=('KNamedArguments','([call_ml KNamedArguments (l_ml l)], l)')
H2('function_arguments',T([('KExpression',acts([EXPR])),('KFunctionPartialApplication',acts([call('function_partial_application')])),('KForIndices',acts([call('for_indices')])),REST('KFunctionArgumentsNonFirst'),NAMED]),FORTOK)
H2('function_arguments_non_first',T([('KFunctionArgument',acts([call('function_argument')])),REST('KFunctionArgumentsNonFirst'),NAMED]),HT)
H2('array_arguments',T([('KExpression',acts([EXPR])),REST('KArrayArgumentsNonFirst'),('KForIndices',acts([call('for_indices')]))]),FORTOK)
H2('array_arguments_non_first',T([('KExpression',acts([EXPR])),REST('KArrayArgumentsNonFirst')]),HT)
H2('named_arguments',T([('KNamedArgument',acts([call('named_argument')])),REST('KNamedArguments')]),HT)
H2('named_argument',MLIF(call('function_argument')),'((if tkind_eqb t TEqual then [AMark MSpace] else []) ++ [AHandle], l)')
H2('function_argument',T([('KFunctionPartialApplication',acts([call('function_partial_application')])),('KExpression',acts([EXPR]))]),IGN)
H2('function_partial_application',T([('KTypeSpecifier',acts([SP,call('type_specifier')])),NAMED]),OPENTOK%'TLParen')
H2('output_expression_list','([call_w KExpression (l_w l) true true], l)','((if tkind_eqb (v_prev v) TLParen then [AMark MSpace] else []) ++ [AHandle; AMark MSpace], l)')
H2('expression_list',acts([EXPR]),LISTTOK)
H2('array_subscripts',acts([call('subscript')]),'''if tkind_eqb t TLBracket && l_ml l then
        match v_peek v with
        | None => ([AHandle; APanic PUnwrap], l)
        | Some (LN _) => ([AHandle; ABreak TPeek Illegal], l)
        | Some (LT _) => ([AHandle], l)
        end
      else if tkind_eqb t TComma then
        match v_peek v with
        | None => ([AHandle; APanic PUnwrap], l)
        | Some (LN _) => ([AHandle; bos (l_ml l) TPeek], l)
        | Some (LT _) => ([AHandle], l)
        end
      else ([AHandle], l)''')
H2('subscript',acts([EXPR]),HT)
H2('description',T([('KDescriptionString',acts([call('description_string')])),('KAnnotationClause','((if v_idx v =? 0 then [] else [ABreak TSelf Illegal]) ++ [call KAnnotationClause], l)')]),IGN)
H2('description_string',IGN,'''if tkind_eqb t TPlus then ([bos (l_ml l) TSelf; AHandle; AMark MSpace], l)
      else if tkind_eqb t TString then ([AHandle], l)
      else (unreachable, l)''')
H2('annotation_clause',acts([call('class_modification')]),HTS)
missing=[n for n in loc if n not in H and n!='format']; extra=[n for n in H if n not in loc]
assert not missing and not extra,(missing,extra)
out=[open('/verif/tools/formatter_head.txt').read()]
for n in order:
    a,z=loc[n]
    out.append(f'(** formatting.rs {a}-{z}: loop body of [{n}] *)\nDefinition step_{n} (l : locals) (v : view) : list action * locals :=\n{H[n]}.\n')
out.append('Definition step (fn : skind) : locals -> view -> list action * locals :=\n  match fn with\n  | KError => fun l _ => ([], l)')
for n in order: out.append(f'  | {K(n)} => step_{n}')
out.append('  end.\n')
tail=open('/verif/tools/formatter_tail.txt').read()
def sub(m):
    a,z=loc[m.group(1)]; return f'{m.group(1)} ({a}-{z})'
tail=re.sub(r'@(\w+)',sub,tail)
out.append(tail)
open('/verif/rocq/theories/Formatter.v','w').write('\n'.join(out))
