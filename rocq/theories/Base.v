(** Common definitions: characters, texts, results with explicit panics. *)
From Coq Require Export NArith Ascii String Bool List.
Export ListNotations.
Open Scope N_scope.
Open Scope list_scope.

(** A Rust [char] is a Unicode code point; a [&str]/[String] is a list of them. *)
Definition char := N.
Definition text := list N.

(** Literal ASCII strings as texts. *)
Fixpoint str (s : string) : text :=
  match s with
  | EmptyString => []
  | String.String a s' => N_of_ascii a :: str s'
  end.

Fixpoint text_eqb (a b : text) : bool :=
  match a, b with
  | [], [] => true
  | x :: a', y :: b' => N.eqb x y && text_eqb a' b'
  | _, _ => false
  end.

(** Number of bytes of a code point in UTF-8. *)
Definition utf8_len (c : char) : N :=
  if c <? 128 then 1 else if c <? 2048 then 2 else if c <? 65536 then 3 else 4.

Definition bytes_of (t : text) : N := fold_right (fun c n => utf8_len c + n) 0 t.

(** Reasons for a Rust panic. *)
Inductive panic :=
| PSlice        (** [&s[a..b]] with [a] or [b] outside or not on a character boundary *)
| PStuck        (** [panic!("Parser stuck")], parsing.rs 160-166 *)
| PAssertEof    (** [assert!(!self.eof())], parsing.rs *)
| PUnwrap       (** [Option::unwrap] on [None] *)
| PUnreachable  (** [unreachable!()] *)
| PUnderflow    (** [usize] subtraction below zero *)
| PTree         (** failing [assert!]/[panic!] in [build_tree] *)
| PErrorEntry.  (** [parse] called with the [Error] rule *)

Inductive res (A : Type) :=
| Ok (a : A)
| Panic (p : panic)
| OutOfFuel.
Arguments Ok {A}. Arguments Panic {A}. Arguments OutOfFuel {A}.

Definition bind {A B} (r : res A) (f : A -> res B) : res B :=
  match r with Ok a => f a | Panic p => Panic p | OutOfFuel => OutOfFuel end.

Notation "x <- e ;; f" := (bind e (fun x => f))
  (at level 61, e at next level, right associativity).
Notation "' p <- e ;; f" := (bind e (fun x => match x with p => f end))
  (at level 61, p pattern, e at next level, right associativity).
