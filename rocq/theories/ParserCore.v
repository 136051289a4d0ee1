(** Model of the parser engine: src/parser/parsing.rs 18-251.

    The grammar functions of parsing.rs 283-1546 are written in a small statement
    language (deep embedding); this file gives the language and its interpreter,
    [Grammar.v] the one-to-one transcription of the functions. *)
From Verif Require Import Base Tokens Syntax Lexer.

(** Conditions: the boolean expressions that occur in parsing.rs.
    [CNth n ts] is [ts.contains(&p.nth(n))]; [p.check(t)] is [CNth 0 [t]],
    [p.check_any(ts)] is [CNth 0 ts]. [CReg ts] tests the kind stored by the
    enclosing [match p.nth(n)]. *)
Inductive cond :=
| CNth (n : nat) (ts : list tkind)
| CReg (ts : list tkind)
| CConsume (t : tkind)
| CEof
| CNot (c : cond)
| CAnd (a b : cond)
| COr (a b : cond).

(** Statements. [SCall k] is a call of the grammar function whose body ends in
    [p.exit(mark, k)]; every grammar function has the form
    [let mark = p.enter(); body; p.exit(mark, k)].
    [SAdvErr pre n post] is [p.advance_with_error(format!("pre{:?}post", p.nth(n)))].
    [SLet n a] is [match p.nth(n) { ... }] with the arms tested by [CReg]. *)
Inductive stmt :=
| SSkip
| SSeq (a b : stmt)
| SDo (c : cond)
| SExpect (t : tkind)
| SAdvance
| SAdvErr (pre : string) (n : nat) (post : string)
| SCall (k : skind)
| SIf (c : cond) (a b : stmt)
| SWhile (c : cond) (a : stmt)
| SLet (n : nat) (a : stmt)
| SBreak.

(** parsing.rs 18-31: [struct Parser]. [ptoks] is the whole token vector, [prest]
    its suffix from [pos]; [pevents] and [perrs] are reversed. [plimit] is the value
    [lifes] is reset to; in the program it is the literal 100 (lines 140 and 168), here
    a field so that one can speak about the parser with another limit. *)
Record pstate := mkP {
  ptoks : list token;
  prest : list token;
  pevents : list event;
  perrs : list err;
  plifes : N;
  plimit : N
}.

(** parsing.rs 132-142: [Parser::new]; [parse_events] in Grammar.v passes the limit 100 *)
Definition parser_with (limit : N) (tokens : list token) : pstate :=
  mkP tokens tokens [] [] limit limit.

(** parsing.rs 172-174: [eof] *)
Definition p_eof (p : pstate) : bool :=
  match prest p with [] => true | _ => false end.

Definition kind_at (ts : list token) (n : nat) : tkind :=
  match nth_error ts n with Some t => tkind_of t | None => TEOF end.

(** parsing.rs 187-197: [blowup] (it panics in either case; with an empty token
    vector by the [unwrap]). *)
Definition blowup (p : pstate) : panic :=
  match prest p, ptoks p with [], [] => PUnwrap | _, _ => PStuck end.

(** parsing.rs 177-185: [nth] *)
Definition p_nth (n : nat) (p : pstate) : res (tkind * pstate) :=
  if plifes p =? 0 then Panic (blowup p)
  else Ok (kind_at (prest p) n,
           mkP (ptoks p) (prest p) (pevents p) (perrs p) (plifes p - 1) (plimit p)).

(** parsing.rs 164-169: [advance] *)
Definition p_advance (p : pstate) : res pstate :=
  match prest p with
  | [] => Panic PAssertEof
  | _ :: r => Ok (mkP (ptoks p) r (Advance :: pevents p) (perrs p) (plimit p) (plimit p))
  end.

(** parsing.rs 148-152: [enter]; returns the mark. *)
Definition p_enter (p : pstate) : nat * pstate :=
  (length (pevents p),
   mkP (ptoks p) (prest p) (Enter KError :: pevents p) (perrs p) (plifes p) (plimit p)).

Fixpoint patch (n : nat) (e : event) (evs : list event) : list event :=
  match evs with
  | [] => []
  | x :: evs' => match n with O => e :: evs' | S n' => x :: patch n' e evs' end
  end.

(** parsing.rs 158-161 [exit]: [self.events[m] = Enter(typ); push(Exit)]. Index [m]
    of the vector is index [length - 1 - m] of the reversed list. *)
Definition p_exit (m : nat) (k : skind) (p : pstate) : pstate :=
  mkP (ptoks p) (prest p)
      (Exit :: patch (length (pevents p) - 1 - m) (Enter k) (pevents p))
      (perrs p) (plifes p) (plimit p).

Definition add_err (t : token) (msg : text) (p : pstate) : pstate :=
  mkP (ptoks p) (prest p) (pevents p)
      (mkErr (line (tstart t)) (col (tstart t)) msg :: perrs p) (plifes p) (plimit p).

(** parsing.rs 220-235: [error] *)
Definition p_error (msg : text) (p : pstate) : res pstate :=
  match prest p with
  | t :: _ => Ok (add_err t msg p)
  | [] => match rev (ptoks p) with
          | t :: _ => Ok (add_err t msg p)
          | [] => Panic PUnwrap
          end
  end.

(** parsing.rs 237-242: [advance_with_error] *)
Definition p_advance_with_error (msg : text) (p : pstate) : res pstate :=
  p <- p_error msg p ;;
  let '(m, p) := p_enter p in
  p <- p_advance p ;;
  Ok (p_exit m KError p).

Definition memk (k : tkind) (ts : list tkind) : bool := existsb (tkind_eqb k) ts.

(** parsing.rs 211-217: [consume] *)
Definition p_consume (t : tkind) (p : pstate) : res (bool * pstate) :=
  '(k, p) <- p_nth 0 p ;;
  if tkind_eqb k t then p <- p_advance p ;; Ok (true, p) else Ok (false, p).

(** parsing.rs 246-250: [expect] *)
Definition p_expect (t : tkind) (p : pstate) : res pstate :=
  '(b, p) <- p_consume t p ;;
  if b : bool then Ok p
  else
    '(k, p) <- p_nth 0 p ;;
    p_error (str "expected " ++ str (tkind_debug t) ++ str ", found " ++ str (tkind_debug k)) p.

(** Evaluation of conditions (short-circuiting [&&], [||]). [reg] is the kind read
    by the enclosing [match]. *)
Fixpoint eval (reg : tkind) (c : cond) (p : pstate) : res (bool * pstate) :=
  match c with
  | CNth n ts => '(k, p) <- p_nth n p ;; Ok (memk k ts, p)
  | CReg ts => Ok (memk reg ts, p)
  | CConsume t => p_consume t p
  | CEof => Ok (p_eof p, p)
  | CNot c => '(b, p) <- eval reg c p ;; Ok (negb b, p)
  | CAnd a b => '(x, p) <- eval reg a p ;; if x : bool then eval reg b p else Ok (false, p)
  | COr a b => '(x, p) <- eval reg a p ;; if x : bool then Ok (true, p) else eval reg b p
  end.

(** Result of a statement: normal completion or [break]. *)
Inductive signal := Normal | Broke.

(** Interpreter, parameterised by the table of bodies. [fuel] decreases at calls
    and loop iterations. *)
Section Exec.
Variable body : skind -> stmt.

Fixpoint exec (fuel : nat) (reg : tkind) (s : stmt) (p : pstate) {struct fuel}
  : res (signal * pstate) :=
  match fuel with
  | O => OutOfFuel
  | S fuel' =>
      (fix go (s : stmt) (reg : tkind) (p : pstate) {struct s} : res (signal * pstate) :=
         match s with
         | SSkip => Ok (Normal, p)
         | SSeq a b =>
             '(g, p) <- go a reg p ;;
             match g with Normal => go b reg p | Broke => Ok (Broke, p) end
         | SDo c => '(_, p) <- eval reg c p ;; Ok (Normal, p)
         | SExpect t => p <- p_expect t p ;; Ok (Normal, p)
         | SAdvance => p <- p_advance p ;; Ok (Normal, p)
         | SAdvErr pre n post =>
             '(k, p) <- p_nth n p ;;
             p <- p_advance_with_error (str pre ++ str (tkind_debug k) ++ str post) p ;;
             Ok (Normal, p)
         | SCall k =>
             let '(m, p) := p_enter p in
             '(_, p) <- exec fuel' TEOF (body k) p ;;
             Ok (Normal, p_exit m k p)
         | SIf c a b =>
             '(x, p) <- eval reg c p ;;
             if x : bool then go a reg p else go b reg p
         | SWhile c a =>
             '(x, p) <- eval reg c p ;;
             if x : bool then
               '(g, p) <- go a reg p ;;
               match g with
               | Normal => exec fuel' reg (SWhile c a) p
               | Broke => Ok (Normal, p)
               end
             else Ok (Normal, p)
         | SLet n a => '(k, p) <- p_nth n p ;; go a k p
         | SBreak => Ok (Broke, p)
         end) s reg p
  end.

End Exec.
