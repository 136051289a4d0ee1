(** The loops of the formatting functions against the rules of SpecReference.

    Like FmtAbs.v, this walks through all states of the loop over the children of a node: what
    is left of the production, the local variables, the previous child, the white space pushed since,
    and the exact change of the indentation. In every state, what the loop body does is compared with
    the position and the level that SpecReference gives to the child. *)
From Verif Require Import ProofBase Tokens Syntax Lexer ParserCore Tree Printer Formatter SpecGrammar Regex
  FmtAbs FmtTables FmtTree FmtLists SpecLayout SpecNodes SpecReference.

(** [n_left]: the previous child; [n_ini]: local variables before the loop; [n_up]: indentation since
    the function was called, [n_gap]: white space since the previous child. *)
Record nst := mkN {
  n_left : option sym; n_sym : sym; n_rest : rx; n_idx : N; n_loc : locals; n_ini : locals;
  n_up : nat; n_gap : gap }.

(** Actions before the child is printed: change of the indentation, and what is left. After a line
    break ([fixed]) the indentation has to stay. *)
Fixpoint enter (d : nat) (fixed : bool) (acts : list action) : option (nat * list action) :=
  match acts with
  | AHandle :: _ | ACall _ _ _ _ _ :: _ => Some (d, acts)
  | AMark MSpace :: r => enter d fixed r
  | AMark MIndent :: r => if fixed then None else enter (S d) fixed r
  | AMark MDedent :: r => if fixed then None else match d with O => None | S d' => enter d' fixed r end
  | ABreak TSelf _ :: r => enter d true r
  | _ => None
  end.
(** Actions after the child has been printed. *)
Fixpoint leave (d : nat) (fixed : bool) (acts : list action) : option nat :=
  match acts with
  | [] => Some d
  | AMark MSpace :: r => leave d fixed r
  | AMark MIndent :: r => if fixed then None else leave (S d) fixed r
  | AMark MDedent :: r => if fixed then None else match d with O => None | S d' => leave d' fixed r end
  | ABreak TPeek _ :: r => leave d true r
  | _ => None
  end.

Definition nview (st : nst) (nx : option (sym * rx)) (pv : tkind) (fl : bool * bool * bool * bool) : view :=
  let '(nl, mlif, desc, ip) := fl in
  mkV (lab (n_sym st)) (match nx with None => None | Some p => Some (lab (fst p)) end) pv (n_idx st)
      nl mlif desc false ip.

(** Local variables and indentation after the child. *)
Definition results (x : action) (y : sym) (l : locals) (d : nat) : list (locals * nat) :=
  match x with
  | ACall k ml w oel keep =>
      if keep : bool
      then map (fun r => (set_w r l, d + (one_if r - one_if w))%nat) (if w : bool then [true] else [false; true])
      else [(l, d)]
  | _ => [(l, d)]
  end.

(** ** The rules *)
Definition bare (x : sym) : bool :=
  match x with
  | Term _ => true
  | Rule k => forallb (fun h => match fst h with [] => true | _ => false end) (t_heads k)
  end.
Definition smooth (x : sym) : bool := match x with Term _ => true | Rule k => plain_heads k end.
Definition tails_sym (x : sym) : list gap :=
  match x with Term _ => [[]] | Rule k => map snd (t_tails k) end.
Definition no_tail (x : option sym) : bool :=
  match x with
  | None => false
  | Some x => forallb (fun g => match g with [] => true | _ => false end) (tails_sym x)
  end.

Definition as_blank (b : blanks) : blank :=
  match b with Always => Required | Kept => Legal | Never => Illegal end.

(** White space [g] between the previous child, or the beginning of the node, and a child [x]. *)
Definition fits_position (left : option sym) (g : gap) (x : sym) (p : position) : bool :=
  match p with
  | Below b => gap_eqb (filter is_gb g) [GB (as_blank b)] && smooth x
  | Beside => negb (brk g)
  | Attached => gap_eqb g [] && no_tail left && bare x
  | Detached => gap_eqb g [GS] && no_tail left && bare x
  end.

Definition wides (fn : skind) (ini : locals) (x : sym) (desc : bool) : list bool :=
  match fn with
  | KShortClassSpecifier =>
      match x with Rule KEnumList => [l_ml ini || desc] | _ => [false; true] end
  | _ => [l_ml ini]
  end.
Definition sym_continues (k : skind) (x : sym) : bool :=
  match x with Term _ => false | Rule k' => continues k (CTree k' []) end.
Definition sym_bequeathed (k : skind) (w cnt : bool) (x : sym) : bool :=
  match k with
  | KPrimary => match x with Rule KExpressionList => w && cnt | _ => w end
  | _ => w
  end.
Definition leaks (k : skind) (x : skind) : bool :=
  match k with
  | KEquation => match x with KSimpleExpression => true | _ => false end
  | KStatement => match x with KOutputExpressionList => true | _ => false end
  | _ => false
  end.
Definition in_list (k : skind) (l : list skind) : bool := existsb (skind_eqb k) l.
Definition is_some {A} (o : option A) : bool := match o with Some _ => true | None => false end.

(** The call of the function for the child: its arguments. *)
Definition call_ok (fn : skind) (ini l1 : locals) (wide : bool) (x : action) (y : sym) : bool :=
  match x with
  | ACall k ml w oel keep =>
      let c := sym_continues fn y in
      Bool.eqb keep c && Bool.eqb w (c && l_w l1)
      && (negb (in_list k ml_fns) || Bool.eqb ml (sym_bequeathed fn wide (l_cnt ini) y))
      && (negb (skind_eqb k KExpression) || Bool.eqb oel c)
      && (c || negb (in_list k wrap_fns) || skind_eqb k KExpression || leaks fn k)
      && (negb (leaks fn k) || negb c)
  | _ => true
  end.

Definition one_ok (fn : skind) (w0 : bool) (st : nst) (nx : option (sym * rx)) (g : gap) (x : action) (l1 : locals) (d : nat)
    (turn wide multi late : bool) : bool :=
  let p := position_of fn wide turn multi late (n_idx st =? 1) (n_left st) (n_sym st) in
  fits_position (n_left st) g (n_sym st) p
  && (match n_sym st, p with
      | Rule _, _ | _, Below _ =>
          Nat.eqb (one_if w0 + d) (deeper fn wide multi (n_left st) (n_sym st) + one_if (l_w l1))
      | _, _ => true
      end)
  && call_ok fn (n_ini st) l1 wide x (n_sym st).

(** The check of one configuration; the result are the possible local variables, indentation
    and white space afterwards. *)
Definition outcomes (fn : skind) (w0 oel : bool) (st : nst) (nx : option (sym * rx)) (pv : tkind)
    (fl : bool * bool * bool * bool) : option (list (locals * nat * gap)) :=
  let '(acts, l1) := step fn (n_loc st) (nview st nx pv fl) in
  let '(nl, mlif, desc, ip) := fl in
  let g := n_gap st ++ apre acts in
  let turn := operates fn (n_sym st) && is_some (n_left st) && is_some nx && nl in
  match enter (n_up st) (brk (n_gap st)) acts with
  | Some (d, x :: r) =>
      let rs := results x (n_sym st) l1 d in
      if forallb (fun wide => forallb (fun multi => forallb (fun late =>
           one_ok fn w0 st nx g x l1 d turn wide multi late)
           (if skind_eqb fn KStoredDefinition then [ip] else bools))
           (if uses_mlif fn then [mlif] else bools))
           (wides fn (n_ini st) (n_sym st) desc)
         && Bool.eqb (l_w l1) (l_w (n_loc st) || turn)
         && (is_some (n_left st) ||
             (negb (bare (Rule fn)) || (gap_eqb (apre acts) [] && bare (n_sym st)))
             && (negb (smooth (Rule fn)) || (negb (brk (apre acts)) && smooth (n_sym st))))
         && forallb (fun p => match leave (snd p) false r with
                              | None => false
                              | Some d' =>
                                  match nx with
                                  | Some _ => true
                                  | None =>
                                      match marks_ind (epilogue fn (fst p)) d' with
                                      | None => false
                                      | Some e =>
                                          Nat.eqb (one_if w0 + e)
                                            (if skind_eqb fn KExpression && negb oel then 0 else one_if (l_w (fst p)))
                                      end
                                  end
                              end) rs
      then Some (flat_map (fun p => match leave (snd p) false r with
                                    | None => []
                                    | Some d' => [(fst p, d', agap r)]
                                    end) rs)
      else None
  | _ => None
  end.

Definition nnext (st : nst) (p : sym * rx) (o : locals * nat * gap) : nst :=
  let '(l, d, g) := o in
  mkN (Some (n_sym st)) (fst p) (snd p) (if n_idx st <? 3 then n_idx st + 1 else 3) l (n_ini st) d g.
Definition pvs (fn : skind) (st : nst) : list tkind :=
  match n_left st with
  | None => t_pcls fn
  | Some (Term k) => [cls k]
  | Some (Rule f) => dedup tkind_eqb (map (fun p => cls (snd (fst p))) (t_tails f))
  end.

Definition over {A} (fn : skind) (st : nst) (f : option (sym * rx) -> tkind -> bool * bool * bool * bool -> list A) : list A :=
  flat_map (fun nx => flat_map (fun pv => flat_map (f nx pv) (flags fn)) (pvs fn st)) (nexts (n_rest st)).
Definition ntrans (fn : skind) (w0 oel : bool) (st : nst) : list nst :=
  over fn st (fun nx pv fl =>
    match nx, outcomes fn w0 oel st nx pv fl with
    | Some p, Some os => map (nnext st p) os
    | _, _ => []
    end).
Definition opt_eqb {A} (f : A -> A -> bool) (a b : option A) : bool :=
  match a, b with None, None => true | Some x, Some y => f x y | _, _ => false end.
Definition nst_eqb (a b : nst) : bool :=
  opt_eqb sym_eqb (n_left a) (n_left b) && sym_eqb (n_sym a) (n_sym b) && N.eqb (n_idx a) (n_idx b) && Nat.eqb (n_up a) (n_up b)
  && gap_eqb (n_gap a) (n_gap b)
  && locals_eqb (n_loc a) (n_loc b) && locals_eqb (n_ini a) (n_ini b) && rx_eqb (n_rest a) (n_rest b).
Definition mem_n (s : nst) (l : list nst) : bool := existsb (nst_eqb s) l.
Fixpoint nvisit (fuel : nat) (fn : skind) (w0 oel : bool) (todo seen : list nst) : list nst :=
  match fuel with
  | O => seen
  | S f =>
      match todo with
      | [] => seen
      | s :: todo' =>
          if mem_n s seen then nvisit f fn w0 oel todo' seen
          else nvisit f fn w0 oel (ntrans fn w0 oel s ++ todo') (s :: seen)
      end
  end.
Definition ninits (fn : skind) (ml w oel : bool) : list nst :=
  flat_map (fun p =>
    let '(ms, l, r) := p in
    match marks_ind ms 0 with
    | None => []
    | Some n => flat_map (fun nx => match nx with
                                    | None => []
                                    | Some q => [mkN None (fst q) (snd q) 0 l l n []]
                                    end) (nexts r)
    end) (starts fn ml w oel).

Definition closed_nodes (fn : skind) (w0 oel : bool) (seen : list nst) : bool :=
  forallb (fun st =>
    forallb (fun nx => forallb (fun pv => forallb (fun fl =>
      match outcomes fn w0 oel st nx pv fl with
      | None => false
      | Some os => match nx with None => true | Some p => forallb (fun o => mem_n (nnext st p o) seen) os end
      end) (flags fn)) (pvs fn st)) (nexts (n_rest st))) seen.
Definition check_node (fn : skind) (ml w oel : bool) : bool :=
  let i := ninits fn ml w oel in
  let seen := nvisit 3000 fn w oel i [] in
  forallb (fun s => mem_n s seen) i && closed_nodes fn w oel seen.
Definition check_nodes : bool :=
  forallb (fun fn => forallb (fun a => let '(ml, w, oel) := a in check_node fn ml w oel) (args fn)) all_skinds
  && forallb (fun fn => forallb (fun t => negb (brk (snd t))) (t_tails fn)) all_skinds.
Lemma nodes_checked : check_nodes = true.
Proof. vm_compute. reflexivity. Qed.
