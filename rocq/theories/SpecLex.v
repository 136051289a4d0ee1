(** Specification of the lexical structure (independent of the lexer model).

    Written after the Modelica specification, Appendix A.1, with the two liberties of
    mofmt made explicit: an exponent may have no digits, and a block comment may consist
    of the three characters slash, star, slash. *)
From Coq Require Import Sorted.
From Verif Require Import Base Tokens.

(** ** Character classes *)
Definition space (c : N) : Prop := In c [9; 10; 12; 13; 32].
Definition newline_char (c : N) : Prop := c = 10 \/ c = 13.
Definition digit (c : N) : Prop := 48 <= c <= 57.
Definition letter (c : N) : Prop := 65 <= c <= 90 \/ 97 <= c <= 122.
Definition nondigit (c : N) : Prop := letter c \/ c = 95.
Definition idchar (c : N) : Prop := nondigit c \/ digit c.
(** The punctuation allowed in quoted identifiers, including space and double quote. *)
Definition qchar (c : N) : Prop :=
  idchar c \/
  In c [33; 35; 36; 37; 38; 40; 41; 42; 43; 44; 45; 46; 47; 58; 59; 60; 62; 61; 63; 64;
        91; 93; 94; 123; 125; 124; 126; 32; 34].
Definition backslash : N := 92.
Definition dquote : N := 34.
Definition squote : N := 39.
Definition star : N := 42.
Definition slash : N := 47.
Definition dot : N := 46.
Definition exp_mark (c : N) : Prop := c = 101 \/ c = 69.
Definition sign (c : N) : Prop := c = 43 \/ c = 45.

(** ** Tokens with a fixed spelling *)
Definition spellings : list (string * tkind) :=
  [(",", TComma); (".", TDot); (";", TSemicolon); (":", TColon);
   ("(", TLParen); (")", TRParen); ("{", TLCurly); ("}", TRCurly);
   ("[", TLBracket); ("]", TRBracket); ("=", TEqual); (":=", TAssign);
   ("+", TPlus); ("-", TMinus); ("*", TStar); ("/", TSlash); ("^", TFlex);
   (".+", TDotPlus); (".-", TDotMinus); (".*", TDotStar); ("./", TDotSlash);
   (".^", TDotFlex); (">", TGre); (">=", TGeq); ("<", TLes); ("<=", TLeq);
   ("<>", TNeq); ("==", TEq)]%string.

Definition reserved : list (string * tkind) :=
  [("algorithm", TAlgorithm); ("and", TAnd); ("annotation", TAnnotation);
   ("block", TBlock); ("break", TBreak); ("class", TClass); ("connect", TConnect);
   ("connector", TConnector); ("constant", TConstant); ("constrainedby", TConstrainedby);
   ("der", TDer); ("discrete", TDiscrete); ("each", TEach); ("else", TElse);
   ("elseif", TElseIf); ("elsewhen", TElseWhen); ("encapsulated", TEncapsulated);
   ("end", TEnd); ("enumeration", TEnumeration); ("equation", TEquation);
   ("expandable", TExpandable); ("extends", TExtends); ("external", TExternal);
   ("false", TBool); ("final", TFinal); ("flow", TFlow); ("for", TFor);
   ("function", TFunction); ("if", TIf); ("import", TImport); ("impure", TImpure);
   ("in", TIn); ("initial", TInitial); ("inner", TInner); ("input", TInput);
   ("loop", TLoop); ("model", TModel); ("not", TNot); ("operator", TOperator);
   ("or", TOr); ("outer", TOuter); ("output", TOutput); ("package", TPackage);
   ("parameter", TParameter); ("partial", TPartial); ("protected", TProtected);
   ("public", TPublic); ("pure", TPure); ("record", TRecord); ("redeclare", TRedeclare);
   ("replaceable", TReplaceable); ("return", TReturn); ("stream", TStream);
   ("then", TThen); ("true", TBool); ("type", TType); ("when", TWhen);
   ("while", TWhile); ("within", TWithin)]%string.

Definition spelled (tbl : list (string * tkind)) (w : text) (k : tkind) : Prop :=
  exists s, In (s, k) tbl /\ w = str s.

(** ** Lexemes of variable spelling *)

(** Between the quotes of a string: any character, [\] protects the next one. *)
Inductive string_body : text -> Prop :=
| sb_nil : string_body []
| sb_char c b : c <> dquote -> c <> backslash -> string_body b -> string_body (c :: b)
| sb_esc c b : string_body b -> string_body (backslash :: c :: b).

(** Between the quotes of a quoted identifier. *)
Inductive qident_body : text -> Prop :=
| qb_nil : qident_body []
| qb_char c b : qchar c -> qident_body b -> qident_body (c :: b)
| qb_esc c b : qident_body b -> qident_body (backslash :: c :: b).

(** [w] contains a star followed by a slash. *)
Definition has_close (w : text) : Prop := exists u v, w = u ++ star :: slash :: v.

(** The exponent part: marker, optional sign, digits (possibly none). *)
Definition exponent (e : text) : Prop :=
  exists m s d, exp_mark m /\ (s = [] \/ exists c, sign c /\ s = [c]) /\
                Forall digit d /\ e = m :: s ++ d.

(** [lexeme k w]: [w] is a correctly spelled token or comment of kind [k]. *)
Inductive lexeme : tkind -> text -> Prop :=
| lx_symbol k w : spelled spellings w k -> lexeme k w
| lx_keyword k w : spelled reserved w k -> lexeme k w
| lx_ident c b :
    nondigit c -> Forall idchar b -> (forall k, ~ spelled reserved (c :: b) k) ->
    lexeme TIdentifier (c :: b)
| lx_qident b : qident_body b -> lexeme TIdentifier (squote :: b ++ [squote])
| lx_string b : string_body b -> lexeme TString (dquote :: b ++ [dquote])
| lx_uint d : d <> [] -> Forall digit d -> lexeme TUInt d
| lx_real d f e :
    d <> [] -> Forall digit d ->
    (f = [] \/ exists g, Forall digit g /\ f = dot :: g) ->
    (e = [] \/ exponent e) ->
    (f <> [] \/ e <> []) ->
    lexeme TUReal (d ++ f ++ e)
| lx_line b : Forall (fun c => ~ newline_char c) b -> lexeme TLineComment (slash :: slash :: b)
| lx_block x :
    ~ has_close (star :: x ++ [star]) -> lexeme TBlockComment (slash :: star :: x ++ [star; slash])
| lx_block_short : lexeme TBlockComment [slash; star; slash].

(** ** What may not follow directly (otherwise a longer lexeme would have been read) *)
Definition starts (P : N -> Prop) (r : text) : Prop := exists c r', r = c :: r' /\ P c.

Definition follow_ok (k : tkind) (w r : text) : Prop :=
  match k with
  | TColon | TEqual | TGre => ~ starts (fun c => c = 61) r
  | TLes => ~ starts (fun c => c = 61 \/ c = 62) r
  | TDot => ~ starts (fun c => In c [43; 45; 42; 47; 94]) r
  | TSlash => ~ starts (fun c => c = slash \/ c = star) r
  | TUInt => ~ starts (fun c => digit c \/ c = dot \/ exp_mark c) r
  | TUReal =>
      ~ starts digit r /\
      (~ (exists u e, w = u ++ e /\ exponent e) -> ~ starts exp_mark r) /\
      ((exists u m, w = u ++ [m] /\ exp_mark m) -> ~ starts sign r)
  | TLineComment => r = [] \/ starts newline_char r
  | TIdentifier => starts (fun c => c = squote) w \/ ~ starts idchar r
  | TComma | TSemicolon | TLParen | TRParen | TLCurly | TRCurly | TLBracket | TRBracket
  | TAssign | TPlus | TMinus | TStar | TFlex | TDotPlus | TDotMinus | TDotStar | TDotSlash
  | TDotFlex | TGeq | TLeq | TNeq | TEq | TString | TBlockComment => True
  | _ => ~ starts idchar r
  end.

(** ** Texts and their items *)
Inductive lexes : text -> list (tkind * text) -> Prop :=
| lexes_nil : lexes [] []
| lexes_space c r items : space c -> lexes r items -> lexes (c :: r) items
| lexes_item k w r items :
    lexeme k w -> follow_ok k w r -> lexes r items -> lexes (w ++ r) ((k, w) :: items).

(** ** Places in a text *)

(** Number of newline characters (LF) of a text, and number of characters after the
    last one. *)
Fixpoint newlines (t : text) : N :=
  match t with [] => 0 | c :: t' => (if c =? 10 then 1 else 0) + newlines t' end.
Definition columns (t : text) : N :=
  fold_left (fun n c => if c =? 10 then 0 else n + 1) t 0.

(** One-based line and column of the place directly after the prefix [t]. *)
Definition coords_after (t : text) (p : position) : Prop :=
  line p = 1 + newlines t /\ col p = 1 + columns t.

(** [laid gap s items]: [s] consists of the texts of [items] in order, with characters
    satisfying [gap] in between; every item records its true start and end (byte offset,
    line, column) and its number in the sequence. *)
Inductive laid (gap : N -> Prop) : text -> list token -> Prop :=
| laid_nil : laid gap [] []
| laid_gap c x items : laid gap c items -> gap x -> laid gap (c ++ [x]) items
| laid_item c items t :
    laid gap c items ->
    coords_after c (tstart t) -> pos (tstart t) = bytes_of c ->
    coords_after (c ++ ttext t) (tend t) -> pos (tend t) = bytes_of (c ++ ttext t) ->
    tidx t = N.of_nat (length items) ->
    laid gap (c ++ ttext t) (items ++ [t]).

(** An error points to a place of the source. *)
Definition points_at (s : text) (ln cl : N) : Prop :=
  exists pre post, s = pre ++ post /\ ln = 1 + newlines pre /\ cl = 1 + columns pre.
(** Lines and columns of places of the source, in the order of the source. *)
Definition in_order (s : text) (coords : list (N * N)) : Prop :=
  exists places, coords = map (fun p => (1 + newlines p, 1 + columns p)) places /\
    StronglySorted (fun a b => exists x, b = a ++ x) places /\
    Forall (fun a => exists x, s = a ++ x) places.
