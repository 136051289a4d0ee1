(** Abstract interpretation of the formatting functions.

    Every formatting function is a loop over the children of its tree, and the labels of
    the children form a word of the (pruned) production. [explore] walks through all
    states of that loop: what is left of the production, the local variables, where the
    last token came from, the white space pushed since, and a lower bound for the
    indentation. Each state gives obligations about tables that describe the functions
    as a whole; [check] verifies that the tables meet all of them. *)
From Verif Require Import ProofBase Tokens Syntax Lexer ParserCore Tree Printer Formatter SpecGrammar
  Regex.

(** A token kind together with the rule whose node holds the token. *)
Definition dk := (skind * tkind)%type.

(** White space requests between two tokens, indentation left out. *)
Inductive gsym := GS | GB (b : blank).
Definition gap := list gsym.

(** Where the last token came from: this function's caller, a token, a call. *)
Inductive src := SStart | STok (d : dk) | SFn (fn : skind).
(** Where the next token comes from. *)
Inductive dst := DTok (d : dk) | DFn (fn : skind).

Definition blank_eqb (a b : blank) : bool :=
  match a, b with
  | Required, Required | Legal, Legal | Illegal, Illegal => true
  | _, _ => false
  end.
Definition gsym_eqb (a b : gsym) : bool :=
  match a, b with GS, GS => true | GB x, GB y => blank_eqb x y | _, _ => false end.
Fixpoint gap_eqb (a b : gap) : bool :=
  match a, b with
  | [], [] => true
  | x :: a, y :: b => gsym_eqb x y && gap_eqb a b
  | _, _ => false
  end.
Definition dk_eqb (a b : dk) : bool := skind_eqb (fst a) (fst b) && tkind_eqb (snd a) (snd b).
Definition src_eqb (a b : src) : bool :=
  match a, b with
  | SStart, SStart => true
  | STok x, STok y => dk_eqb x y
  | SFn x, SFn y => skind_eqb x y
  | _, _ => false
  end.
Definition dst_eqb (a b : dst) : bool :=
  match a, b with
  | DTok x, DTok y => dk_eqb x y
  | DFn x, DFn y => skind_eqb x y
  | _, _ => false
  end.
Definition locals_eqb (a b : locals) : bool :=
  Bool.eqb (l_ml a) (l_ml b) && Bool.eqb (l_w a) (l_w b) && Bool.eqb (l_cnd a) (l_cnd b)
  && Bool.eqb (l_oel a) (l_oel b) && Bool.eqb (l_cnt a) (l_cnt b) && skind_eqb (l_rule a) (l_rule b).

Fixpoint dedup {A} (eqb : A -> A -> bool) (l : list A) : list A :=
  match l with
  | [] => []
  | a :: l' => let r := dedup eqb l' in if existsb (eqb a) r then r else a :: r
  end.

(** Rules that can be empty, so that their node may be missing after pruning. *)
Definition empty_rules : list skind :=
  [KStoredDefinition; KBasePrefix; KComposition; KElementList; KTypePrefix;
   KOutputExpressionList; KDescription; KDescriptionString].
Definition can_empty (k : skind) : bool := existsb (skind_eqb k) empty_rules.
Fixpoint pruned (r : rx) : rx :=
  match r with
  | Sy (Rule k) => if can_empty k then Alt Eps r else r
  | Cat a b => Cat (pruned a) (pruned b)
  | Alt a b => Alt (pruned a) (pruned b)
  | Star a => Star (pruned a)
  | _ => r
  end.

(** The tests on [prev_tok] only tell these kinds apart. *)
Definition cls (k : tkind) : tkind :=
  if memk k [TSemicolon; TComma; TExternal; TEquation; TAlgorithm; TAssign; TEnd; TLParen]
  then k else TEOF.

(** Which of the tests on the source layout a function makes. *)
Definition bools : list bool := [false; true].
Definition uses_nl (fn : skind) : bool :=
  existsb (skind_eqb fn) [KLogicalExpression; KLogicalTerm; KRelation; KArithmeticExpression; KTerm; KFactor].
Definition uses_mlif (fn : skind) : bool :=
  existsb (skind_eqb fn) [KModification; KEquation; KStatement; KNamedArgument].
Definition flags (fn : skind) : list (bool * bool * bool * bool) :=
  if uses_nl fn then [(false, false, false, false); (true, false, false, false)]
  else if uses_mlif fn then [(false, false, false, false); (false, true, false, false)]
  else if skind_eqb fn KShortClassSpecifier then [(false, false, false, false); (false, false, true, false)]
  else if skind_eqb fn KStoredDefinition then [(false, false, false, false); (false, false, false, true)]
  else [(false, false, false, false)].

(** What the statements before the loop can do: markers, local variables, and the children
    to expect. *)
Definition starts (fn : skind) (ml w oel : bool) : list (list marker * locals * rx) :=
  let dflt := mkL ml w false oel false KError in
  let r := pruned (production false fn) in
  match fn with
  | KShortClassSpecifier | KDerClassSpecifier | KFunctionPartialApplication | KImportClause
  | KExpression | KEnumList | KImportList | KArgumentOrInheritanceModificationList | KArgumentList
  | KExpressionList =>
      [([], set_ml false dflt, r); ([], set_ml true dflt, r)]
  | KExternalFunctionCall | KClassOrInheritanceModification | KClassModification
  | KConnectEquation | KFunctionCallArgs | KArraySubscripts | KDescriptionString =>
      [([MIndent], set_ml false dflt, r); ([MIndent], set_ml true dflt, r)]
  | KComponentList => [([], set_ml false dflt, r); ([MIndent], set_ml true dflt, r)]
  | KComponentClause1 =>
      let rest := sq [Sy (Rule KTypeSpecifier); Sy (Rule KComponentDeclaration1)] in
      [([], mkL ml w false oel false KError, rest);
       ([], mkL ml w false oel true KError, Cat (Sy (Rule KTypePrefix)) rest)]
  | KEquationSection | KAlgorithmSection => [([MIndent], dflt, r)]
  | KPrimary =>
      [([], mkL false w false oel false KError, r); ([], mkL true w false oel false KError, r);
       ([], mkL false w false oel true KError, r); ([], mkL true w false oel true KError, r)]
  | _ => [([], dflt, r)]
  end.

(** Arguments the functions are called with. *)
Definition wrap_fns : list skind :=
  [KExpression; KSimpleExpression; KLogicalExpression; KLogicalTerm; KLogicalFactor;
   KRelation; KArithmeticExpression; KTerm; KFactor; KPrimary; KOutputExpressionList].
Definition ml_fns : list skind :=
  [KEnumList; KImportList; KArgumentOrInheritanceModificationList; KArgumentList; KExpressionList;
   KArrayArguments; KArrayArgumentsNonFirst; KFunctionArguments; KFunctionArgumentsNonFirst;
   KNamedArguments].
Definition args (fn : skind) : list (bool * bool * bool) :=
  if existsb (skind_eqb fn) ml_fns then [(false, false, false); (true, false, false)]
  else if skind_eqb fn KExpression then [(false, false, false); (false, false, true); (false, true, true)]
  else if existsb (skind_eqb fn) wrap_fns then [(false, false, false); (false, true, false)]
  else [(false, false, false)].
Definition args_eqb (a b : bool * bool * bool) : bool :=
  let '(a1, a2, a3) := a in let '(b1, b2, b3) := b in
  Bool.eqb a1 b1 && Bool.eqb a2 b2 && Bool.eqb a3 b3.

(** A state of the loop: about to process a child with label [s_sym], [s_rest] is what
    may follow; [s_idx] is its index (3: at least 3). *)
Record astate := mkA {
  s_sym : sym; s_rest : rx; s_idx : N; s_loc : locals;
  s_src : src; s_gap : gap; s_ind : nat
}.
Definition astate_eqb (a b : astate) : bool :=
  sym_eqb (s_sym a) (s_sym b) && N.eqb (s_idx a) (s_idx b) && Nat.eqb (s_ind a) (s_ind b)
  && src_eqb (s_src a) (s_src b) && gap_eqb (s_gap a) (s_gap b)
  && locals_eqb (s_loc a) (s_loc b) && rx_eqb (s_rest a) (s_rest b).

Inductive oblig :=
| OSite (s : src) (g : gap) (d : dst)             (** adjacency *)
| OHead (g : gap) (d : dst)                       (** first token of this function *)
| OTail (s : src) (g : gap)                       (** last token of this function *)
| OPrev (s : src) (fn : skind)                    (** token before a call *)
| OOut (w : bool) (n : nat)                       (** result and indentation *)
| OFail.

Definition lab (x : sym) : label := match x with Term k => LT k | Rule k => LN k end.

(** Running the actions of one iteration: outcomes and obligations. *)
Record ares := mkR { r_loc : locals; r_src : src; r_gap : gap; r_ind : nat; r_done : bool }.

Section Tables.
Variables (heads : skind -> list (gap * dk)) (tails : skind -> list (dk * gap)).
Variables (pcls : skind -> list tkind) (outs : skind -> bool -> bool -> list (bool * nat)).

Definition src_cls (fn : skind) (s : src) : list tkind :=
  match s with
  | SStart => pcls fn
  | STok d => [cls (snd d)]
  | SFn f => dedup tkind_eqb (map (fun p => cls (snd (fst p))) (tails f))
  end.

Definition emit (s : src) (g : gap) (d : dst) : oblig :=
  match s with SStart => OHead g d | _ => OSite s g d end.

Definition act (x : sym) (peek : bool) (fn : skind) (a : action) (s : ares)
  : list ares * list oblig :=
  match a with
  | AMark MSpace => ([mkR (r_loc s) (r_src s) (r_gap s ++ [GS]) (r_ind s) (r_done s)], [])
  | AMark MIndent => ([mkR (r_loc s) (r_src s) (r_gap s) (S (r_ind s)) (r_done s)], [])
  | AMark MDedent =>
      match r_ind s with
      | O => ([], [OFail])
      | S n => ([mkR (r_loc s) (r_src s) (r_gap s) n (r_done s)], [])
      end
  | AMark _ => ([], [OFail])
  | ABreak t b =>
      if match t with TSelf => negb (r_done s) | TPeek => r_done s && peek end
      then ([mkR (r_loc s) (r_src s) (r_gap s ++ [GB b]) (r_ind s) (r_done s)], [])
      else ([], [OFail])
  | AHandle =>
      match x with
      | Term k =>
          if r_done s then ([], [OFail])
          else ([mkR (r_loc s) (STok (fn, k)) [] (r_ind s) true],
                [emit (r_src s) (r_gap s) (DTok (fn, k))])
      | Rule _ => ([], [OFail])
      end
  | ACall fn' ml w oel keep =>
      match x with
      | Term _ => ([], [OFail])
      | Rule k =>
          if r_done s || negb (skind_eqb k fn') || negb (existsb (args_eqb (ml, w, oel)) (args fn'))
          then ([], [OFail])
          else (map (fun o => mkR (if keep then set_w (fst o) (r_loc s) else r_loc s)
                                  (SFn fn') [] (r_ind s + snd o) true) (outs fn' w oel),
                [emit (r_src s) (r_gap s) (DFn fn'); OPrev (r_src s) fn'])
      end
  | APanic _ => ([], [OFail])
  end.

Fixpoint acts_run (x : sym) (peek : bool) (fn : skind) (acts : list action) (s : ares)
  : list ares * list oblig :=
  match acts with
  | [] => if r_done s then ([s], []) else ([], [OFail])
  | a :: acts' =>
      let '(ss, os) := act x peek fn a s in
      let rs := map (acts_run x peek fn acts') ss in
      (flat_map fst rs, os ++ flat_map snd rs)
  end.

(** The possible continuations after the current child. *)
Definition nexts (r : rx) : list (option (sym * rx)) :=
  (if nullable r then [None] else [])
  ++ flat_map (fun y => map (fun r' => Some (y, r')) (pd y r)) (dedup sym_eqb (firsts r)).

Fixpoint marks_ind (ms : list marker) (n : nat) : option nat :=
  match ms with
  | [] => Some n
  | MIndent :: ms' => marks_ind ms' (S n)
  | MDedent :: ms' => match n with O => None | S n' => marks_ind ms' n' end
  | _ :: _ => None
  end.

Definition finish (fn : skind) (r : ares) : list oblig :=
  match marks_ind (epilogue fn (r_loc r)) (r_ind r) with
  | Some n => [OTail (r_src r) (r_gap r); OOut (l_w (r_loc r)) n]
  | None => [OFail]
  end.

(** One iteration: successors and obligations. *)
Definition next_state (st : astate) (p : sym * rx) (r : ares) : astate :=
  mkA (fst p) (snd p) (if s_idx st <? 3 then s_idx st + 1 else 3) (r_loc r) (r_src r) (r_gap r) (r_ind r).

Definition trans1 (fn : skind) (st : astate) (nx : option (sym * rx)) (pv : tkind)
    (fl : bool * bool * bool * bool) : list astate * list oblig :=
  let '(nl, mlif, desc, ip) := fl in
  let v := mkV (lab (s_sym st)) (match nx with None => None | Some p => Some (lab (fst p)) end)
               pv (s_idx st) nl mlif desc false ip in
  let '(acts, l) := step fn (s_loc st) v in
  let '(rs, os) := acts_run (s_sym st) (match nx with None => false | _ => true end) fn acts
                     (mkR l (s_src st) (s_gap st) (s_ind st) false) in
  match nx with
  | None => ([], os ++ flat_map (finish fn) rs)
  | Some p => (map (next_state st p) rs, os)
  end.

Definition trans (fn : skind) (st : astate) : list astate * list oblig :=
  let rs :=
    flat_map (fun nx =>
      flat_map (fun pv => map (trans1 fn st nx pv) (flags fn)) (src_cls fn (s_src st)))
      (nexts (s_rest st)) in
  (flat_map fst rs, flat_map snd rs).

Definition inits (fn : skind) (ml w oel : bool) : list astate :=
  flat_map (fun p =>
    let '(ms, l, r) := p in
    match marks_ind ms 0 with
    | None => []
    | Some n =>
        flat_map (fun nx => match nx with
                            | None => []
                            | Some q => [mkA (fst q) (snd q) 0 l SStart [] n]
                            end) (nexts r)
    end) (starts fn ml w oel).

Definition mem_st (s : astate) (l : list astate) : bool := existsb (astate_eqb s) l.

Fixpoint visit (fuel : nat) (fn : skind) (todo seen : list astate) : list astate :=
  match fuel with
  | O => seen
  | S f =>
      match todo with
      | [] => seen
      | s :: todo' =>
          if mem_st s seen then visit f fn todo' seen
          else visit f fn (fst (trans fn s) ++ todo') (s :: seen)
      end
  end.

(** The obligations against the tables. *)
Variable (sites : list (src * gap * dst)).

Definition heads_of (d : dst) : list (gap * dk) :=
  match d with DTok d => [([], d)] | DFn f => heads f end.
Definition tails_of (s : src) : list (dk * gap) :=
  match s with SStart => [] | STok d => [(d, [])] | SFn f => tails f end.
Definition head_eqb (a b : gap * dk) : bool := gap_eqb (fst a) (fst b) && dk_eqb (snd a) (snd b).
Definition tail_eqb (a b : dk * gap) : bool := gap_eqb (snd a) (snd b) && dk_eqb (fst a) (fst b).
Definition site_eqb (a b : src * gap * dst) : bool :=
  let '(s, g, d) := a in let '(s', g', d') := b in
  src_eqb s s' && gap_eqb g g' && dst_eqb d d'.

Definition meets (fn : skind) (w oel : bool) (o : oblig) : bool :=
  match o with
  | OSite s g d => existsb (site_eqb (s, g, d)) sites
  | OHead g d => forallb (fun h => existsb (head_eqb (g ++ fst h, snd h)) (heads fn)) (heads_of d)
  | OTail s g =>
      match s with
      | SStart => false
      | _ => forallb (fun t => existsb (tail_eqb (fst t, snd t ++ g)) (tails fn)) (tails_of s)
      end
  | OPrev s fn' => forallb (fun c => memk c (pcls fn')) (src_cls fn s)
  | OOut w' n => existsb (fun o => Bool.eqb (fst o) w' && Nat.leb (snd o) n) (outs fn w oel)
  | OFail => false
  end.

Definition closed_states (fn : skind) (w oel : bool) (seen : list astate) : bool :=
  forallb (fun s => let '(ss, os) := trans fn s in
                    forallb (meets fn w oel) os && forallb (fun s' => mem_st s' seen) ss) seen.
Definition check_fn (fn : skind) (ml w oel : bool) : bool :=
  let i := inits fn ml w oel in
  let seen := visit 3000 fn i [] in
  forallb (fun s => mem_st s seen) i && closed_states fn w oel seen.
Definition check : bool :=
  forallb (fun fn => forallb (fun a => let '(ml, w, oel) := a in check_fn fn ml w oel) (args fn))
    all_skinds.
End Tables.
