(** Tree facts used before the loops. *)

(** First child token of kind [open], then the last child token of kind [close] after it:
    [close.start.line > open.start.line]; e.g. formatting.rs 321-335. *)
Fixpoint last_close (close : tkind) (open_line : N) (cs : list child) (acc : bool) : bool :=
  match cs with
  | [] => acc
  | CTok t :: cs' =>
      last_close close open_line cs'
        (if tkind_eqb (tkind_of t) close then open_line <? line (tstart t) else acc)
  | CTree _ _ :: cs' => last_close close open_line cs' acc
  end.
Fixpoint paren_multiline (open close : tkind) (cs : list child) : bool :=
  match cs with
  | [] => false
  | CTok t :: cs' =>
      if tkind_eqb (tkind_of t) open then last_close close (line (tstart t)) cs' false
      else paren_multiline open close cs'
  | CTree _ _ :: cs' => paren_multiline open close cs'
  end.

Definition unwrap {A} (o : option A) : res A :=
  match o with Some a => Ok a | None => Panic PUnwrap end.

Definition len_cmp (f : N -> bool) (cs : list child) : bool := f (N.of_nat (length cs)).

(** Statements before the loop. Arguments [ml], [w], [oel] are the parameters
    [is_multiline], [wrapped], [in_oel] of the Rust function (where it has them).
    The functions listed together do the same. *)
Definition prologue (fn : skind) (ml w oel : bool) (t : child) (cs : list child)
  : res (list marker * locals) :=
  let dflt := mkL ml w false oel false KError in
  match fn with
  (* @short_class_specifier, @der_class_specifier, @function_partial_application *)
  | KShortClassSpecifier | KDerClassSpecifier | KFunctionPartialApplication =>
      Ok ([], set_ml (paren_multiline TLParen TRParen cs) dflt)
  (* @import_clause *)
  | KImportClause => Ok ([], set_ml (paren_multiline TLCurly TRCurly cs) dflt)
  (* @external_function_call *)
  | KExternalFunctionCall => Ok ([MIndent], set_ml (paren_multiline TLParen TRParen cs) dflt)
  (* @enum_list, @import_list, @argument_or_inheritance_modification_list,
     @argument_list, @expression_list *)
  | KEnumList | KImportList | KArgumentOrInheritanceModificationList | KArgumentList
  | KExpressionList =>
      if ml then Ok ([], dflt) else m <- unwrap (is_multiline t) ;; Ok ([], set_ml m dflt)
  (* @class_or_inheritance_modification *)
  | KClassOrInheritanceModification =>
      m <- unwrap (is_multiline t) ;;
      Ok ([MIndent], set_ml (m && len_cmp (fun n => 2 <? n) cs) dflt)
  (* @component_list *)
  | KComponentList =>
      m <- unwrap (is_multiline t) ;;
      let b := m && len_cmp (fun n => 1 <? n) cs in
      Ok (if b then [MIndent] else [], set_ml b dflt)
  (* @class_modification *)
  | KClassModification =>
      m <- unwrap (is_multiline t) ;;
      Ok ([MIndent],
          set_ml (m || contains KDescriptionString t || contains KDescription t) dflt)
  (* @component_clause1 *)
  | KComponentClause1 =>
      Ok ([], mkL ml w false oel (len_cmp (fun n => 2 <? n) cs) KError)
  (* @equation_section, @algorithm_section *)
  | KEquationSection | KAlgorithmSection => Ok ([MIndent], dflt)
  (* @connect_equation, @function_call_args, @array_subscripts, @description_string *)
  | KConnectEquation | KFunctionCallArgs | KArraySubscripts | KDescriptionString =>
      m <- unwrap (is_multiline t) ;; Ok ([MIndent], set_ml m dflt)
  (* @expression *)
  | KExpression => m <- unwrap (is_multiline t) ;; Ok ([], set_ml m dflt)
  (* @primary *)
  | KPrimary =>
      m <- unwrap (is_multiline t) ;;
      Ok ([], mkL m w false oel (len_cmp (fun n => n =? 3) cs) KError)
  | _ => Ok ([], dflt)
  end.

(** Statements after the loop. *)
Definition epilogue (fn : skind) (l : locals) : list marker :=
  match fn with
  (* @external_function_call, @class_or_inheritance_modification, @class_modification,
     @equation_section, @algorithm_section, @connect_equation, @function_call_args,
     @array_subscripts, @description_string *)
  | KExternalFunctionCall | KClassOrInheritanceModification | KClassModification
  | KEquationSection | KAlgorithmSection | KConnectEquation | KFunctionCallArgs
  | KArraySubscripts | KDescriptionString => [MDedent]
  (* @component_list *)
  | KComponentList => if l_ml l then [MDedent] else []
  (* @expression *)
  | KExpression => if l_w l && negb (l_oel l) then [MDedent] else []
  | _ => []
  end.

Definition push_all (ms : list marker) (f : fstate) : fstate :=
  fold_left (fun f m => push m f) ms f.

Definition opt_true (o : option bool) : bool := match o with Some b => b | None => false end.

(** The view of child [c], the [i]-th one, with following siblings [cs]. On empty
    inner trees (which [build_tree] never produces) the Rust tests [is_multiline()] and
    [start()] would panic; the view has [false] there. *)
Definition view_of (f : fstate) (i : N) (c : child) (cs : list child) : view :=
  mkV (label_of c)
      (match cs with [] => None | p :: _ => Some (label_of p) end)
      (fprev f)
      (if i <? 3 then i else 3)
      (match cs with
       | [] => false
       | p :: _ => match start_of p with
                   | Some t => fline f <? line (tstart t)
                   | None => false
                   end
       end)
      (opt_true (is_multiline c)
       && match start_of c with Some t => tkind_eqb (tkind_of t) TIf | None => false end)
      (contains KDescription c)
      (match c with CTree _ [] => true | _ => false end)
      (match c with CTok t => 0 <? tidx t | _ => false end).

(** The functions themselves. [fmt fn ml w oel t f] runs the Rust function for [fn]
    on tree [t]; the result is [wrapped] (for functions that return it). *)
Fixpoint fmt (fn : skind) (ml w oel : bool) (t : child) (f : fstate) {struct t}
  : res (bool * fstate) :=
  match t with
  | CTok _ => Panic PUnreachable
  | CTree _ cs =>
      '(ms, l) <- prologue fn ml w oel t cs ;;
      '(l, f) <-
        (fix loop (cs : list child) (i : N) (l : locals) (f : fstate) {struct cs}
           : res (locals * fstate) :=
           match cs with
           | [] => Ok (l, f)
           | c :: cs' =>
               let '(acts, l) := step fn l (view_of f i c cs') in
               '(l, f) <-
                 (fix run (acts : list action) (l : locals) (f : fstate) {struct acts}
                    : res (locals * fstate) :=
                    match acts with
                    | [] => Ok (l, f)
                    | a :: acts' =>
                        '(l, f) <-
                          match a with
                          | AMark m => Ok (l, push m f)
                          | ABreak tg b =>
                              tok <- unwrap
                                (match tg with
                                 | TSelf => start_of c
                                 | TPeek => match cs' with
                                            | [] => None
                                            | p :: _ => start_of p
                                            end
                                 end) ;;
                              f <- handle_break tok b f ;; Ok (l, f)
                          | AHandle =>
                              match c with
                              | CTok tok => Ok (l, handle_token tok f)
                              | CTree _ _ => Panic PUnreachable
                              end
                          | ACall fn' ml' w' oel' keep =>
                              '(r, f) <- fmt fn' ml' w' oel' c f ;;
                              Ok (if keep : bool then set_w r l else l, f)
                          | APanic p => Panic p
                          end ;;
                        run acts' l f
                    end) acts l f ;;
               loop cs' (i + 1) l f
           end) cs 0 l (push_all ms f) ;;
      Ok (l_w l, push_all (epilogue fn l) f)
  end.

(** formatting.rs 14-113: [format]. *)
Definition format (t : child) (comments : list token) : res (list marker) :=
  match t with
  | CTok _ => Panic PUnreachable
  | CTree k _ =>
      '(_, f) <- fmt k false false false t (formatter_new comments) ;;
      Ok (rev (fmarks f))
  end.
