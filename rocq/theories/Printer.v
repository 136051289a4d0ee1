(** Model of src/formatter/markers.rs and src/formatter/printing.rs. *)
From Verif Require Import Base Tokens Syntax.

(** markers.rs *)
Inductive marker :=
| MToken (t : text)
| MIndent
| MDedent
| MSpace
| MBlank
| MBreak.

(** printing.rs 24: [INDENT] *)
Definition indent_unit : text := str "  ".

Fixpoint repeat_text (n : nat) (t : text) : text :=
  match n with O => [] | S n' => t ++ repeat_text n' t end.

(** printing.rs 23-44 [print_marker] mapped over all markers, 3-10 [print].
    [eol] is the constant [EOL] of line 25 (["\n"], or ["\r\n"] on Windows).
    [indent] below zero is the underflow panic of [self.indent -= 1]. *)
Fixpoint print_loop (eol : text) (indent : nat) (ms : list marker) : res text :=
  match ms with
  | [] => Ok []
  | m :: ms' =>
      match m with
      | MSpace => r <- print_loop eol indent ms' ;; Ok (str " " ++ r)
      | MIndent => print_loop eol (S indent) ms'
      | MDedent => match indent with
                   | O => Panic PUnderflow
                   | S i => print_loop eol i ms'
                   end
      | MToken t => r <- print_loop eol indent ms' ;; Ok (t ++ r)
      | MBreak => r <- print_loop eol indent ms' ;;
                  Ok (eol ++ repeat_text indent indent_unit ++ r)
      | MBlank => r <- print_loop eol indent ms' ;;
                  Ok (eol ++ eol ++ repeat_text indent indent_unit ++ r)
      end
  end.

Definition print (eol : text) (ms : list marker) : res text := print_loop eol 0 ms.
