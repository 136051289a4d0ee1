(** Model of src/parser.rs and src/lib.rs. *)
From Coq Require Import Decimal.
From Verif Require Import Base Tokens Syntax Lexer ParserCore Grammar Tree Printer Formatter.

(** Decimal rendering of a [usize]. *)
Fixpoint uint_text (d : Decimal.uint) : text :=
  match d with
  | Decimal.Nil => []
  | Decimal.D0 d => 48 :: uint_text d
  | Decimal.D1 d => 49 :: uint_text d
  | Decimal.D2 d => 50 :: uint_text d
  | Decimal.D3 d => 51 :: uint_text d
  | Decimal.D4 d => 52 :: uint_text d
  | Decimal.D5 d => 53 :: uint_text d
  | Decimal.D6 d => 54 :: uint_text d
  | Decimal.D7 d => 55 :: uint_text d
  | Decimal.D8 d => 56 :: uint_text d
  | Decimal.D9 d => 57 :: uint_text d
  end.
Definition dec (n : N) : text := uint_text (N.to_uint n).

(** [format!("{}:{}:{}: {}", name, line, col, msg)]: lexing.rs 119, parsing.rs 220-235 *)
Definition render_error (name : text) (e : err) : text :=
  name ++ str ":" ++ dec (eline e) ++ str ":" ++ dec (ecol e) ++ str ": " ++ emsg e.

(** parser.rs 17-22: [ParsedModelica] *)
Record parsed := mkParsed {
  p_tokens : list token;
  p_comments : list token;
  p_events : list event;
  p_errors : list err
}.

(** parser.rs 25-35: [parse]; errors unrendered. *)
Definition parse (source : text) (entry : skind) : res parsed :=
  '(toks, coms, errs) <- lex source ;;
  '(evs, perrs) <- parse_events toks entry ;;
  Ok (mkParsed toks coms evs (errs ++ perrs)).

(** The [errors] field as the API returns it. *)
Definition error_strings (name : text) (p : parsed) : list text :=
  map (render_error name) (p_errors p).

(** lib.rs 9-13: [pretty_print] *)
Definition pretty_print (eol : text) (p : parsed) : res text :=
  t <- build_tree (p_tokens p) (p_events p) ;;
  ms <- format t (p_comments p) ;;
  print eol ms.

(** The two platform line endings of printing.rs 25. *)
Definition lf : text := [10].
Definition crlf : text := [13; 10].

(** Parse and, if there is no error, format: what [main] does with one file. *)
Definition format_source (eol : text) (source : text) : res (option text) :=
  p <- parse source KStoredDefinition ;;
  match p_errors p with
  | [] => t <- pretty_print eol p ;; Ok (Some t)
  | _ => Ok None
  end.
