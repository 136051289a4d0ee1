(** Running a rule of the parser against the words of its production. *)
From Verif Require Import ProofBase Tokens Syntax Lexer ParserCore Grammar Tree ParserSem
  SpecGrammar Regex ParserGrammar SpecLanguage Looks.

(** Conditions known to hold for the next tokens. *)
Inductive lim := LNth (b : bool) (n : nat) (ts : list tkind) | LEof (b : bool).
Definition at_look (l : look) (n : nat) : tkind := nth n l TEOF.
Definition lim_ok (l : look) (c : lim) : bool :=
  match c with
  | LNth b n ts => Bool.eqb (memk (at_look l n) ts) b
  | LEof b => Bool.eqb (match l with [] => true | _ => false end) b
  end.
Definition fits (cs : list lim) (l : look) : bool := forallb (lim_ok l) cs.
(** The classes of the second and third token decide membership in these lists. *)
Definition askable (n : nat) (ts : list tkind) : bool :=
  match n with
  | O => true
  | S O => subset ts key2
  | S (S O) => subset ts key3
  | _ => false
  end.

(** Linear form: the possible first symbols with what remains. *)
Fixpoint lf (r : rx) : list (sym * rx) :=
  match r with
  | Void | Eps => []
  | Sy x => [(x, Eps)]
  | Cat a b =>
      let l := map (fun p => (fst p, cat (snd p) b)) (lf a) in
      if nullable a then l ++ lf b else l
  | Alt a b => lf a ++ lf b
  | Star a => map (fun p => (fst p, cat (snd p) (Star a))) (lf a)
  end.

(** A word that remains to be read: what it matches, what is known of the next tokens,
    whether the register still shows them, whether something was read in this round. *)
Record item := mkI { i_rx : rx; i_lims : list lim; i_live : bool; i_moved : bool }.
Definition kinds_eqb (a b : list tkind) : bool :=
  Nat.eqb (length a) (length b) && forallb (fun p => tkind_eqb (fst p) (snd p)) (combine a b).
Definition lim_eqb (a b : lim) : bool :=
  match a, b with
  | LNth b n ts, LNth b' n' ts' => Bool.eqb b b' && Nat.eqb n n' && kinds_eqb ts ts'
  | LEof b, LEof b' => Bool.eqb b b'
  | _, _ => false
  end.
(** [b] covers [a] *)
Definition covers (a b : item) : bool :=
  rx_eqb (i_rx a) (i_rx b) && forallb (fun c => existsb (lim_eqb c) (i_lims a)) (i_lims b) &&
  (implb (i_live b) (i_live a)) && (implb (i_moved b) (i_moved a)).
Definition put (a : item) (l : list item) : list item :=
  if existsb (covers a) l then l else a :: l.
Definition join_items (a b : list item) : list item := fold_right put b a.

Section Predict.
Variable first : skind -> list look.
Variable follow_of : skind -> list look.
Variable after : list look.

Definition ahead (r : rx) : list look := glues (openers first r) after.
Definition some_glue (cs : list lim) (a b : list look) : bool :=
  existsb (fun x => if full3 x then fits cs x else existsb (fun y => fits cs (glue x y)) b) a.
(** The symbols that can come next. *)
Definition heads (i : item) : list (sym * rx) :=
  filter (fun p => some_glue (i_lims i) (first_sym first (fst p)) (ahead (snd p))) (lf (i_rx i)).
Definition may_end (i : item) : bool :=
  nullable (i_rx i) && existsb (fits (i_lims i)) after.

(** Read one symbol, which must be among [ok]. *)
Definition read (ok : sym * rx -> bool) (st : list item) : option (list item) :=
  fold_right (fun i acc =>
    match acc with
    | None => None
    | Some l =>
        if may_end i then None else
        let hs := heads i in
        if forallb ok hs then
          Some (join_items (map (fun p => mkI (snd p) [] false true) hs) l)
        else None
    end) (Some []) st.

Definition know (c : lim) (i : item) : item :=
  mkI (i_rx i) (c :: i_lims i) (i_live i) (i_moved i).

Fixpoint acond (reg : nat) (c : cond) (st : list item) : option (list item * list item) :=
  match c with
  | CNth n ts =>
      if askable n ts then Some (map (know (LNth true n ts)) st, map (know (LNth false n ts)) st)
      else None
  | CReg ts =>
      if askable reg ts && forallb i_live st
      then Some (map (know (LNth true reg ts)) st, map (know (LNth false reg ts)) st)
      else None
  | CConsume t =>
      match read (fun p => sym_eqb (fst p) (Term t)) (map (know (LNth true 0 [t])) st) with
      | Some l => Some (l, map (know (LNth false 0 [t])) st)
      | None => None
      end
  | CEof => Some (map (know (LEof true)) st, map (know (LEof false)) st)
  | CNot c =>
      match acond reg c st with Some (x, y) => Some (y, x) | None => None end
  | CAnd a b =>
      match acond reg a st with
      | Some (x, y) =>
          match acond reg b x with
          | Some (x', y') => Some (x', join_items y y')
          | None => None
          end
      | None => None
      end
  | COr a b =>
      match acond reg a st with
      | Some (x, y) =>
          match acond reg b y with
          | Some (x', y') => Some (join_items x x', y')
          | None => None
          end
      | None => None
      end
  end.

Definition unmoved (i : item) : item := mkI (i_rx i) (i_lims i) false false.
Definition moved_if (b : bool) (i : item) : item := mkI (i_rx i) (i_lims i) false b.
Definition dead (i : item) : bool := negb (may_end i) && match heads i with [] => true | _ => false end.
Definition all_covered (a b : list item) : bool := forallb (fun x => existsb (covers x) b) a.

(** Loops: enlarge the set of items at the head until the body stays inside. *)
Section Loop.
Variable cnd : list item -> option (list item * list item).
Variable run : list item -> option (list item * list item).
Fixpoint loop (n : nat) (st : list item) : option (list item) :=
  match n with
  | O => None
  | S m =>
      match cnd st with
      | None => None
      | Some (x, y) =>
          match run x with
          | None => None
          | Some (nx, bx) =>
              let nx' := map unmoved nx in
              if forallb i_moved nx then
                if all_covered nx' st then Some (join_items y bx)
                else loop m (join_items nx' st)
              else None
          end
      end
  end.
End Loop.

Fixpoint arun (reg : nat) (s : stmt) (st : list item) : option (list item * list item) :=
  match s with
  | SSkip => Some (st, [])
  | SSeq a b =>
      match arun reg a st with
      | Some (n, x) =>
          match arun reg b n with
          | Some (n', x') => Some (n', join_items x x')
          | None => None
          end
      | None => None
      end
  | SDo c => match acond reg c st with Some (x, y) => Some (join_items x y, []) | None => None end
  | SExpect t =>
      match read (fun p => sym_eqb (fst p) (Term t)) st with Some l => Some (l, []) | None => None end
  | SAdvance =>
      match read (fun p => match fst p with Term _ => true | _ => false end) st with
      | Some l => Some (l, [])
      | None => None
      end
  | SAdvErr _ _ _ => if forallb dead st then Some ([], []) else None
  | SCall k =>
      match read (fun p => sym_eqb (fst p) (Rule k) && contained (ahead (snd p)) (follow_of k)) st with
      | Some l => Some (l, [])
      | None => None
      end
  | SIf c a b =>
      match acond reg c st with
      | Some (x, y) =>
          match arun reg a x, arun reg b y with
          | Some (n, e), Some (n', e') => Some (join_items n n', join_items e e')
          | _, _ => None
          end
      | None => None
      end
  | SWhile c a =>
      match loop (acond reg c) (arun reg a) 30 (map unmoved st) with
      | Some l => Some (map (moved_if (forallb i_moved st)) l, [])
      | None => None
      end
  | SLet n a =>
      match arun n a (map (fun i => mkI (i_rx i) (i_lims i) true (i_moved i)) st) with
      | Some (x, y) =>
          let off := map (fun i => mkI (i_rx i) (i_lims i) false (i_moved i)) in
          Some (off x, off y)
      | None => None
      end
  | SBreak => Some ([], st)
  end.

Definition finished (st : list item) : bool :=
  forallb (fun i => match heads i with [] => true | _ => false end) st.
End Predict.

Definition predicts_in (ft : table) (k : skind) : bool :=
  match arun (first_in first_tab k) (get ft) (get ft k) 0 (body k)
          [mkI (production false k) [] false false] with
  | Some (n, b) =>
      finished (first_in first_tab k) (get ft k) n &&
      finished (first_in first_tab k) (get ft k) b
  | None => false
  end.
Definition predicts : skind -> bool := predicts_in follow_tab.
