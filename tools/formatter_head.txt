(** Model of src/formatter/formatting.rs.

    Every Rust function [fn f(f: &mut Formatter, tree: Tree, args)] is a loop over the
    children of [tree]. It is modelled by
    - [prologue]: what happens before the loop (flags computed from the tree, markers);
    - [step_f]: the loop body, as a function from the local variables and a finite
      [view] of the current child to a list of actions and new local variables. All
      tests on the formatter state in the Rust bodies happen before the first
      effect of that iteration, so the view is taken once per iteration;
    - [epilogue]: markers pushed after the loop.
    Line numbers are inserted by tools/gen_formatter.py. *)
From Verif Require Import Base Tokens Syntax Lexer ParserCore Tree Printer.

(** formatting.rs 7-11 *)
Inductive blank := Required | Legal | Illegal.

(** formatting.rs 116-121: [struct Formatter]. [fmarks] is reversed. *)
Record fstate := mkF {
  fcoms : list token;
  fmarks : list marker;
  fprev : tkind;
  fline : N
}.

(** formatting.rs 124-131: [Formatter::new] *)
Definition formatter_new (comments : list token) : fstate := mkF comments [] TEOF 1.

Definition push (m : marker) (f : fstate) : fstate :=
  mkF (fcoms f) (m :: fmarks f) (fprev f) (fline f).

(** formatting.rs 191-206: [comments_before]; returns inlines, comments, remaining. *)
Fixpoint comments_before (prev_line : N) (tok : token) (coms : list token)
  : list token * list token * list token :=
  match coms with
  | [] => ([], [], [])
  | c :: coms' =>
      if tidx c <? tidx tok then
        let '(inls, com, rest) := comments_before prev_line tok coms' in
        if line (tstart c) =? prev_line then (c :: inls, com, rest) else (inls, c :: com, rest)
      else ([], [], coms)
  end.

(** [usize] subtraction *)
Definition sub_usize (a b : N) : res N := if a <? b then Panic PUnderflow else Ok (a - b).

(** formatting.rs 145-150: inline comments *)
Fixpoint push_inlines (cs : list token) (ms : list marker) : list marker :=
  match cs with
  | [] => ms
  | c :: cs' =>
      push_inlines cs'
        (MToken (ttext c) :: match ms with [] => [] | _ => MSpace :: ms end)
  end.

(** [if a - b > 1 { push(Blank) } else { push(Break) }] *)
Definition blank_or_break (a b : N) (ms : list marker) : res (list marker) :=
  d <- sub_usize a b ;;
  Ok ((if 1 <? d then MBlank else MBreak) :: ms).

(** formatting.rs 154-171: the comment loop of [handle_break]; returns markers and [line]. *)
Fixpoint push_comments (b : blank) (prev_line : N) (ln : N) (cs : list token)
    (ms : list marker) : res (list marker * N) :=
  match cs with
  | [] => Ok (ms, ln)
  | c :: cs' =>
      ms <- match b with
            | Required => if prev_line <? ln
                          then blank_or_break (line (tstart c)) ln ms
                          else Ok ms
            | _ => blank_or_break (line (tstart c)) ln ms
            end ;;
      push_comments b prev_line (line (tend c)) cs' (MToken (ttext c) :: ms)
  end.

(** formatting.rs 143-186: [handle_break] *)
Definition handle_break (tok : token) (b : blank) (f : fstate) : res fstate :=
  let '(inls, com, rest) := comments_before (fline f) tok (fcoms f) in
  let ms := push_inlines inls (fmarks f) in
  let ms := match b with Required => MBlank :: ms | _ => ms end in
  '(ms, ln) <- push_comments b (fline f) (fline f) com ms ;;
  ms <- match b with
        | Legal => blank_or_break (line (tstart tok)) ln ms
        | Illegal => Ok (MBreak :: ms)
        | Required => if fline f <? ln
                      then blank_or_break (line (tstart tok)) ln ms
                      else Ok ms
        end ;;
  Ok (mkF rest ms (fprev f) (fline f)).

(** formatting.rs 209-215: [handle_token] *)
Definition handle_token (tok : token) (f : fstate) : fstate :=
  let '(_, _, rest) := comments_before (fline f) tok (fcoms f) in
  mkF rest (MToken (ttext tok) :: fmarks f) (tkind_of tok) (line (tend tok)).

(** What a child looks like: a token of some kind or a tree of some kind. *)
Inductive label := LT (k : tkind) | LN (k : skind).

Definition label_of (c : child) : label :=
  match c with CTok t => LT (tkind_of t) | CTree k _ => LN k end.

(** Where a break belongs: before the current child or before the next one. *)
Inductive target := TSelf | TPeek.

Inductive action :=
| AMark (m : marker)                      (** [f.markers.push(m)] *)
| ABreak (t : target) (b : blank)         (** [f.handle_break(child.start(), b)] *)
| AHandle                                 (** [f.handle_token(tok)] *)
| ACall (fn : skind) (ml w oel keep : bool)
    (** call of the function for [fn] on the child; [keep]: [wrapped = ...] *)
| APanic (p : panic).

(** Local variables of the Rust functions: [is_multiline], [wrapped], [conditional],
    [in_oel], a test on [children_count], [prev_rule]. *)
Record locals := mkL {
  l_ml : bool; l_w : bool; l_cnd : bool; l_oel : bool; l_cnt : bool; l_rule : skind
}.
Definition set_ml (b : bool) (l : locals) : locals :=
  mkL b (l_w l) (l_cnd l) (l_oel l) (l_cnt l) (l_rule l).
Definition set_w (b : bool) (l : locals) : locals :=
  mkL (l_ml l) b (l_cnd l) (l_oel l) (l_cnt l) (l_rule l).
Definition set_cnd (b : bool) (l : locals) : locals :=
  mkL (l_ml l) (l_w l) b (l_oel l) (l_cnt l) (l_rule l).
Definition set_rule (k : skind) (l : locals) : locals :=
  mkL (l_ml l) (l_w l) (l_cnd l) (l_oel l) (l_cnt l) k.

(** What a loop body may look at. *)
Record view := mkV {
  v_child : label;         (** the current child *)
  v_peek : option label;   (** [children.peek()] *)
  v_prev : tkind;          (** [f.prev_tok] *)
  v_idx : N;               (** index of the child (3 stands for "3 or more") *)
  v_nl : bool;             (** [next_tree.start().start.line > f.prev_line] *)
  v_mlif : bool;           (** [tree.is_multiline() && tree.start().kind == If] *)
  v_desc : bool;           (** [tree.contains(SyntaxKind::Description)] *)
  v_empty : bool;          (** [tree.len() == 0] *)
  v_idxpos : bool          (** [tok.idx > 0] *)
}.

Definition call (k : skind) : action := ACall k false false false false.
Definition call_ml (k : skind) (ml : bool) : action := ACall k ml false false false.
Definition call_w (k : skind) (w oel keep : bool) : action := ACall k false w oel keep.
Definition unreachable : list action := [APanic PUnreachable].
(** formatting.rs 134-140: [break_or_space] *)
Definition bos (ml : bool) (t : target) : action :=
  if ml then ABreak t Illegal else AMark MSpace.

(** The block shared by [logical_expression], [logical_term], [relation],
    [arithmetic_expression], [term] and [factor], e.g. formatting.rs 1596-1606. *)
Definition op_break (l : locals) (v : view) : list action * locals :=
  match v_peek v with
  | Some (LN _) =>
      let ml := v_nl v in
      ((if ml && negb (l_w l) then [AMark MIndent] else []) ++ [bos ml TSelf],
       set_w (if negb (l_w l) then ml else l_w l) l)
  | _ => ([], l)
  end.

