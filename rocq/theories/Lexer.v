(** Model of the lexer: src/parser/lexing.rs. *)
From Verif Require Import Base Tokens.

(** Code of an ASCII character. *)
Definition ch (a : ascii) : char := N_of_ascii a.

(** [char::is_ascii_whitespace]: SPACE, TAB, LF, FF, CR (std documentation). *)
Definition is_ascii_whitespace (c : char) : bool :=
  (c =? 32) || (c =? 9) || (c =? 10) || (c =? 12) || (c =? 13).
(** [char::is_ascii_digit] *)
Definition is_ascii_digit (c : char) : bool := (48 <=? c) && (c <=? 57).
(** [char::is_ascii_alphabetic] *)
Definition is_ascii_alphabetic (c : char) : bool :=
  ((65 <=? c) && (c <=? 90)) || ((97 <=? c) && (c <=? 122)).
(** [char::is_ascii_alphanumeric] *)
Definition is_ascii_alphanumeric (c : char) : bool :=
  is_ascii_alphabetic c || is_ascii_digit c.

(** [str::contains(char)] *)
Definition contains_char (t : text) (c : char) : bool := existsb (N.eqb c) t.

(** [&s[a..b]]: byte slicing, panics when an end is out of range or not a
    character boundary. *)
Fixpoint drop_bytes (s : text) (n : N) : option text :=
  if n =? 0 then Some s
  else match s with
       | [] => None
       | c :: s' => if utf8_len c <=? n then drop_bytes s' (n - utf8_len c) else None
       end.
Fixpoint take_bytes (s : text) (n : N) : option text :=
  if n =? 0 then Some []
  else match s with
       | [] => None
       | c :: s' => if utf8_len c <=? n
                    then option_map (cons c) (take_bytes s' (n - utf8_len c))
                    else None
       end.
Definition slice (s : text) (a b : N) : res text :=
  if b <? a then Panic PSlice
  else match drop_bytes s a with
       | None => Panic PSlice
       | Some t => match take_bytes t (b - a) with
                   | None => Panic PSlice
                   | Some u => Ok u
                   end
       end.

(** An error before rendering: the Rust code stores
    [format!("{}:{}:{}: {}", name, line, col, msg)] (lexing.rs 119,
    parsing.rs 220-235); [name] is added by [render_error] in [Lib.v]. *)
Record err := mkErr { eline : N; ecol : N; emsg : text }.

(** lexing.rs 12-33: [struct Lexer]. The [chars] iterator is represented by the
    characters still to come ([lrest]) and the byte index of the first of them
    ([loff]). Vectors are kept in reverse order. *)
Record lexer := mkLexer {
  lsrc : text;
  lrest : text;
  loff : N;
  lstart : position;
  lcur : position;
  ltoks : list token;
  lcoms : list token;
  lerrs : list err;
  lcount : N;
  lateof : bool
}.

(** lexing.rs 42-63: [Lexer::new] *)
Definition lexer_new (source : text) : lexer :=
  mkLexer source source 0 (mkPos 0 1 1) (mkPos 0 1 1) [] [] [] 0 false.

(** lexing.rs 73-75: [peek] *)
Definition peek (l : lexer) : option char :=
  match lrest l with [] => None | c :: _ => Some c end.

(** lexing.rs 78-94: [next], state part. Note [pos = i + 1] where [i] is the byte
    index of the consumed character, whatever its width. *)
Definition next (l : lexer) : lexer :=
  match lrest l with
  | c :: r =>
      let cur := lcur l in
      let cur' := if c =? 10
                  then mkPos (loff l + 1) (line cur + 1) 1
                  else mkPos (loff l + 1) (line cur) (col cur + 1) in
      mkLexer (lsrc l) r (loff l + utf8_len c) (lstart l) cur'
              (ltoks l) (lcoms l) (lerrs l) (lcount l) (lateof l)
  | [] =>
      mkLexer (lsrc l) [] (loff l) (lstart l) (lcur l)
              (ltoks l) (lcoms l) (lerrs l) (lcount l) true
  end.

(** lexing.rs 125-127: [jump] *)
Definition jump (l : lexer) : lexer :=
  mkLexer (lsrc l) (lrest l) (loff l) (lcur l) (lcur l)
          (ltoks l) (lcoms l) (lerrs l) (lcount l) (lateof l).

Definition is_comment_kind (k : tkind) : bool :=
  tkind_eqb k TLineComment || tkind_eqb k TBlockComment.

(** lexing.rs 97-114: [generate_token] *)
Definition generate_token (k : tkind) (l : lexer) : res lexer :=
  txt <- slice (lsrc l) (pos (lstart l)) (pos (lcur l)) ;;
  let tok := mkTok (lcount l) txt k (lstart l) (lcur l) in
  Ok (jump (
    if is_comment_kind k then
      mkLexer (lsrc l) (lrest l) (loff l) (lstart l) (lcur l)
              (ltoks l) (tok :: lcoms l) (lerrs l) (lcount l + 1) (lateof l)
    else
      mkLexer (lsrc l) (lrest l) (loff l) (lstart l) (lcur l)
              (tok :: ltoks l) (lcoms l) (lerrs l) (lcount l + 1) (lateof l))).

(** lexing.rs 117-122: [generate_error] *)
Definition generate_error (msg : text) (l : lexer) : lexer :=
  jump (mkLexer (lsrc l) (lrest l) (loff l) (lstart l) (lcur l)
          (ltoks l) (lcoms l)
          (mkErr (line (lstart l)) (col (lstart l)) msg :: lerrs l)
          (lcount l) (lateof l)).

(** lexing.rs 130-138: [accept] *)
Definition accept (s : text) (l : lexer) : bool * lexer :=
  match peek l with
  | Some c => if contains_char s c then (true, next l) else (false, l)
  | None => (false, l)
  end.

(** lexing.rs 142-149: [accept_digits]. Loops over the remaining characters are
    structural on [r], which is always [lrest l]. *)
Fixpoint accept_digits_loop (r : text) (l : lexer) : lexer :=
  match r with
  | [] => l
  | c :: r' => if negb (is_ascii_digit c) then l else accept_digits_loop r' (next l)
  end.
Definition accept_digits (l : lexer) : lexer := accept_digits_loop (lrest l) l.

(** lexing.rs 190-195: [lex_colon] *)
Definition lex_colon (l : lexer) : res lexer :=
  let '(b, l) := accept (str "=") l in
  if b then generate_token TAssign l else generate_token TColon l.

(** lexing.rs 198-203: [lex_equal] *)
Definition lex_equal (l : lexer) : res lexer :=
  let '(b, l) := accept (str "=") l in
  if b then generate_token TEq l else generate_token TEqual l.

(** lexing.rs 206-214: [lex_lesser] *)
Definition lex_lesser (l : lexer) : res lexer :=
  let '(b, l) := accept (str ">") l in
  if b then generate_token TNeq l else
  let '(b, l) := accept (str "=") l in
  if b then generate_token TLeq l else generate_token TLes l.

(** lexing.rs 217-222: [lex_greater] *)
Definition lex_greater (l : lexer) : res lexer :=
  let '(b, l) := accept (str "=") l in
  if b then generate_token TGeq l else generate_token TGre l.

(** lexing.rs 225-239: [lex_dot] *)
Definition lex_dot (l : lexer) : res lexer :=
  let '(b, l) := accept (str "+") l in
  if b then generate_token TDotPlus l else
  let '(b, l) := accept (str "-") l in
  if b then generate_token TDotMinus l else
  let '(b, l) := accept (str "*") l in
  if b then generate_token TDotStar l else
  let '(b, l) := accept (str "/") l in
  if b then generate_token TDotSlash l else
  let '(b, l) := accept (str "^") l in
  if b then generate_token TDotFlex l else
  generate_token TDot l.

(** lexing.rs 242-252: [lex_string] *)
Fixpoint lex_string_loop (r : text) (l : lexer) : res lexer :=
  match r with
  | [] => Ok (generate_error (str "unclosed string") (next l))
  | c :: r' =>
      let l := next l in
      if c =? ch "\" then
        match r' with
        | [] => Ok (generate_error (str "unclosed string") (next (next l)))
        | _ :: r'' => lex_string_loop r'' (next l)
        end
      else if c =? ch """" then generate_token TString l
      else lex_string_loop r' l
  end.
Definition lex_string (l : lexer) : res lexer := lex_string_loop (lrest l) l.

(** lexing.rs 256: [ALLOWED] *)
Definition qident_allowed : text := str "!#$%&()*+,-./:;<>=?@[]^{}|~ """.

(** lexing.rs 255-272: [lex_qident] *)
Fixpoint lex_qident_loop (r : text) (l : lexer) : res lexer :=
  match r with
  | [] => Ok (generate_error (str "unclosed Q-IDENT") (next l))
  | c :: r' =>
      let l := next l in
      if c =? ch "\" then
        match r' with
        | [] => Ok (generate_error (str "unclosed Q-IDENT") (next (next l)))
        | _ :: r'' => lex_qident_loop r'' (next l)
        end
      else if c =? ch "'" then generate_token TIdentifier l
      else if negb (is_ascii_alphanumeric c || (c =? ch "_")
                    || contains_char qident_allowed c)
      then Ok (generate_error (str "unexpected character inside Q-IDENT: '" ++ [c] ++ str "'") l)
      else lex_qident_loop r' l
  end.
Definition lex_qident (l : lexer) : res lexer := lex_qident_loop (lrest l) l.

(** lexing.rs 288-296: [lex_linecomment] *)
Fixpoint lex_linecomment_loop (r : text) (l : lexer) : res lexer :=
  match r with
  | [] => generate_token TLineComment l
  | c :: r' => if (c =? 13) || (c =? 10) then generate_token TLineComment l
               else lex_linecomment_loop r' (next l)
  end.
Definition lex_linecomment (l : lexer) : res lexer := lex_linecomment_loop (lrest l) l.

(** lexing.rs 299-313: [lex_blockcomment] *)
Fixpoint lex_blockcomment_loop (r : text) (l : lexer) : res lexer :=
  match r with
  | [] => Ok (generate_error (str "unclosed block comment") (next l))
  | c :: r' =>
      let l := next l in
      if c =? ch "*" then
        match peek l with
        | Some d => if d =? ch "/" then generate_token TBlockComment (next l)
                    else lex_blockcomment_loop r' l
        | None => Ok (generate_error (str "unclosed block comment") l)
        end
      else lex_blockcomment_loop r' l
  end.
Definition lex_blockcomment (l : lexer) : res lexer := lex_blockcomment_loop (lrest l) l.

(** lexing.rs 275-285: [lex_slash] *)
Definition lex_slash (l : lexer) : res lexer :=
  match peek l with
  | Some c => if c =? ch "/" then lex_linecomment l
              else if c =? ch "*" then lex_blockcomment l
              else generate_token TSlash l
  | None => generate_token TSlash l
  end.

(** lexing.rs 329-345: [lex_numeral] *)
Definition lex_numeral (l : lexer) : res lexer :=
  let l := accept_digits l in
  let '(b, l) := accept (str ".") l in
  if negb b then
    let '(b, l) := accept (str "eE") l in
    if negb b then generate_token TUInt l
    else
      let '(_, l) := accept (str "+-") l in
      generate_token TUReal (accept_digits l)
  else
    let l := accept_digits l in
    let '(b, l) := accept (str "eE") l in
    if b then
      let '(_, l) := accept (str "+-") l in
      generate_token TUReal (accept_digits l)
    else generate_token TUReal l.

(** lexing.rs 349-354 *)
Fixpoint nondigit_loop (r : text) (l : lexer) : lexer :=
  match r with
  | [] => l
  | c :: r' => if negb (is_ascii_alphanumeric c || (c =? ch "_")) then l
               else nondigit_loop r' (next l)
  end.

(** lexing.rs 357-414: the keyword table *)
Definition keywords : list (string * tkind) :=
  [("not", TNot); ("and", TAnd); ("or", TOr); ("in", TIn); ("for", TFor); ("if", TIf);
   ("else", TElse); ("elseif", TElseIf); ("then", TThen); ("when", TWhen);
   ("elsewhen", TElseWhen); ("while", TWhile); ("loop", TLoop); ("break", TBreak);
   ("return", TReturn); ("partial", TPartial); ("class", TClass); ("operator", TOperator);
   ("expandable", TExpandable); ("model", TModel); ("function", TFunction);
   ("record", TRecord); ("type", TType); ("block", TBlock); ("connector", TConnector);
   ("package", TPackage); ("pure", TPure); ("impure", TImpure); ("end", TEnd);
   ("der", TDer); ("connect", TConnect); ("initial", TInitial); ("equation", TEquation);
   ("algorithm", TAlgorithm); ("extends", TExtends); ("import", TImport);
   ("public", TPublic); ("protected", TProtected); ("within", TWithin); ("final", TFinal);
   ("encapsulated", TEncapsulated); ("enumeration", TEnumeration); ("input", TInput);
   ("output", TOutput); ("redeclare", TRedeclare); ("inner", TInner); ("outer", TOuter);
   ("replaceable", TReplaceable); ("constrainedby", TConstrainedby); ("flow", TFlow);
   ("stream", TStream); ("discrete", TDiscrete); ("parameter", TParameter);
   ("constant", TConstant); ("each", TEach); ("annotation", TAnnotation);
   ("external", TExternal); ("true", TBool); ("false", TBool)]%string.

Fixpoint lookup_word (w : text) (tbl : list (string * tkind)) : tkind :=
  match tbl with
  | [] => TIdentifier
  | (s, k) :: tbl' => if text_eqb w (str s) then k else lookup_word w tbl'
  end.

(** lexing.rs 348-417: [lex_nondigit] *)
Definition lex_nondigit (l : lexer) : res lexer :=
  let l := nondigit_loop (lrest l) l in
  w <- slice (lsrc l) (pos (lstart l)) (pos (lcur l)) ;;
  generate_token (lookup_word w keywords) l.

(** lexing.rs 155-166: single-character tokens *)
Definition single_char : list (ascii * tkind) :=
  [(";", TSemicolon); (",", TComma); ("+", TPlus); ("-", TMinus); ("*", TStar);
   ("^", TFlex); ("(", TLParen); ("{", TLCurly); ("[", TLBracket); (")", TRParen);
   ("}", TRCurly); ("]", TRBracket)]%char.

Fixpoint lookup_char (c : char) (tbl : list (ascii * tkind)) : option tkind :=
  match tbl with
  | [] => None
  | (a, k) :: tbl' => if c =? ch a then Some k else lookup_char c tbl'
  end.

(** lexing.rs 317-323: the loop of [lex_space] *)
Fixpoint space_loop (r : text) (l : lexer) : lexer :=
  match r with
  | [] => l
  | c :: r' => if is_ascii_whitespace c then space_loop r' (next l) else l
  end.

(** lexing.rs 152-187 [lex_source] and 316-326 [lex_space] (mutually recursive;
    [fuel] bounds the recursion, see [LexerProofs.v] for the proof that it suffices). *)
Fixpoint lex_source (fuel : nat) (l : lexer) : res lexer :=
  match fuel with
  | O => OutOfFuel
  | S fuel' =>
      match peek l with
      | None => Ok (next l)
      | Some c =>
          let l := next l in
          match lookup_char c single_char with
          | Some k => generate_token k l
          | None =>
              if c =? ch ":" then lex_colon l
              else if c =? ch "=" then lex_equal l
              else if c =? ch "<" then lex_lesser l
              else if c =? ch ">" then lex_greater l
              else if c =? ch "." then lex_dot l
              else if c =? ch """" then lex_string l
              else if c =? ch "'" then lex_qident l
              else if c =? ch "/" then lex_slash l
              else if is_ascii_whitespace c then
                (* lex_space *)
                lex_source fuel' (jump (space_loop (lrest l) l))
              else if is_ascii_digit c then lex_numeral l
              else if is_ascii_alphabetic c || (c =? ch "_") then lex_nondigit l
              else Ok (generate_error (str "unexpected character: '" ++ [c] ++ str "'") l)
          end
      end
  end.

(** lexing.rs 66-70: [tokenize] *)
Fixpoint tokenize (fuel : nat) (l : lexer) : res lexer :=
  if lateof l then Ok l
  else match fuel with
       | O => OutOfFuel
       | S fuel' => l' <- lex_source fuel l ;; tokenize fuel' l'
       end.

(** lexing.rs 5-9: [lex]; errors are unrendered (see [err]). *)
Definition lex (source : text) : res (list token * list token * list err) :=
  l <- tokenize (length source + 2) (lexer_new source) ;;
  Ok (rev (ltoks l), rev (lcoms l), rev (lerrs l)).
