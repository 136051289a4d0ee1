(** Token kinds and tokens: src/parser/tokens.rs. Generated by tools/gen_enums.py from the Rust enum. *)
From Verif Require Import Base.

(** tokens.rs 7-101: [enum ModelicaToken] (constructors prefixed with [T]). *)
Inductive tkind :=
| TEOF
| TComma
| TDot
| TSemicolon
| TColon
| TLParen
| TRParen
| TLCurly
| TRCurly
| TLBracket
| TRBracket
| TEqual
| TAssign
| TPlus
| TMinus
| TStar
| TSlash
| TFlex
| TDotPlus
| TDotMinus
| TDotStar
| TDotSlash
| TDotFlex
| TGre
| TGeq
| TLes
| TLeq
| TNeq
| TEq
| TNot
| TAnd
| TOr
| TIn
| TFor
| TIf
| TElse
| TElseIf
| TThen
| TWhen
| TElseWhen
| TWhile
| TLoop
| TBreak
| TReturn
| TPartial
| TClass
| TOperator
| TExpandable
| TModel
| TFunction
| TRecord
| TType
| TBlock
| TConnector
| TPackage
| TPure
| TImpure
| TInitial
| TEquation
| TAlgorithm
| TExtends
| TImport
| TPublic
| TProtected
| TWithin
| TFinal
| TEncapsulated
| TEnumeration
| TInput
| TOutput
| TRedeclare
| TInner
| TOuter
| TReplaceable
| TConstrainedby
| TFlow
| TStream
| TDiscrete
| TParameter
| TConstant
| TEach
| TAnnotation
| TExternal
| TEnd
| TDer
| TConnect
| TLineComment
| TBlockComment
| TIdentifier
| TString
| TUInt
| TUReal
| TBool.

Definition all_tkinds : list tkind :=
  [TEOF; TComma; TDot; TSemicolon; TColon; TLParen; TRParen; TLCurly; TRCurly; TLBracket; TRBracket; TEqual; TAssign; TPlus; TMinus; TStar; TSlash; TFlex; TDotPlus; TDotMinus; TDotStar; TDotSlash; TDotFlex; TGre; TGeq; TLes; TLeq; TNeq; TEq; TNot; TAnd; TOr; TIn; TFor; TIf; TElse; TElseIf; TThen; TWhen; TElseWhen; TWhile; TLoop; TBreak; TReturn; TPartial; TClass; TOperator; TExpandable; TModel; TFunction; TRecord; TType; TBlock; TConnector; TPackage; TPure; TImpure; TInitial; TEquation; TAlgorithm; TExtends; TImport; TPublic; TProtected; TWithin; TFinal; TEncapsulated; TEnumeration; TInput; TOutput; TRedeclare; TInner; TOuter; TReplaceable; TConstrainedby; TFlow; TStream; TDiscrete; TParameter; TConstant; TEach; TAnnotation; TExternal; TEnd; TDer; TConnect; TLineComment; TBlockComment; TIdentifier; TString; TUInt; TUReal; TBool].

Definition tkind_code (k : tkind) : N :=
  match k with
  | TEOF => 0
  | TComma => 1
  | TDot => 2
  | TSemicolon => 3
  | TColon => 4
  | TLParen => 5
  | TRParen => 6
  | TLCurly => 7
  | TRCurly => 8
  | TLBracket => 9
  | TRBracket => 10
  | TEqual => 11
  | TAssign => 12
  | TPlus => 13
  | TMinus => 14
  | TStar => 15
  | TSlash => 16
  | TFlex => 17
  | TDotPlus => 18
  | TDotMinus => 19
  | TDotStar => 20
  | TDotSlash => 21
  | TDotFlex => 22
  | TGre => 23
  | TGeq => 24
  | TLes => 25
  | TLeq => 26
  | TNeq => 27
  | TEq => 28
  | TNot => 29
  | TAnd => 30
  | TOr => 31
  | TIn => 32
  | TFor => 33
  | TIf => 34
  | TElse => 35
  | TElseIf => 36
  | TThen => 37
  | TWhen => 38
  | TElseWhen => 39
  | TWhile => 40
  | TLoop => 41
  | TBreak => 42
  | TReturn => 43
  | TPartial => 44
  | TClass => 45
  | TOperator => 46
  | TExpandable => 47
  | TModel => 48
  | TFunction => 49
  | TRecord => 50
  | TType => 51
  | TBlock => 52
  | TConnector => 53
  | TPackage => 54
  | TPure => 55
  | TImpure => 56
  | TInitial => 57
  | TEquation => 58
  | TAlgorithm => 59
  | TExtends => 60
  | TImport => 61
  | TPublic => 62
  | TProtected => 63
  | TWithin => 64
  | TFinal => 65
  | TEncapsulated => 66
  | TEnumeration => 67
  | TInput => 68
  | TOutput => 69
  | TRedeclare => 70
  | TInner => 71
  | TOuter => 72
  | TReplaceable => 73
  | TConstrainedby => 74
  | TFlow => 75
  | TStream => 76
  | TDiscrete => 77
  | TParameter => 78
  | TConstant => 79
  | TEach => 80
  | TAnnotation => 81
  | TExternal => 82
  | TEnd => 83
  | TDer => 84
  | TConnect => 85
  | TLineComment => 86
  | TBlockComment => 87
  | TIdentifier => 88
  | TString => 89
  | TUInt => 90
  | TUReal => 91
  | TBool => 92
  end.

(** derived [PartialEq] *)
Definition tkind_eqb (a b : tkind) : bool := N.eqb (tkind_code a) (tkind_code b).

(** tokens.rs 103-201: [impl Debug for ModelicaToken] ([{{] is the escaped [{]). *)
Definition tkind_debug (k : tkind) : string :=
  match k with
  | TEOF => "EOF"
  | TComma => "','"
  | TDot => "'.''"
  | TSemicolon => "';'"
  | TColon => "':'"
  | TLParen => "'('"
  | TRParen => "')'"
  | TLCurly => "'{'"
  | TRCurly => "'}'"
  | TLBracket => "'['"
  | TRBracket => "']'"
  | TEqual => "'='"
  | TAssign => "':='"
  | TPlus => "'+'"
  | TMinus => "'-'"
  | TStar => "'*'"
  | TSlash => "'/'"
  | TFlex => "'^'"
  | TDotPlus => "'.+'"
  | TDotMinus => "'.-'"
  | TDotStar => "'.*'"
  | TDotSlash => "'./'"
  | TDotFlex => "'.^'"
  | TGre => "'>'"
  | TGeq => "'>='"
  | TLes => "'<'"
  | TLeq => "'<='"
  | TNeq => "'<>'"
  | TEq => "'=='"
  | TNot => "'not'"
  | TAnd => "'and'"
  | TOr => "'or'"
  | TIn => "'in'"
  | TFor => "for'"
  | TIf => "'if'"
  | TElse => "'else'"
  | TElseIf => "'elseif'"
  | TThen => "'then'"
  | TWhen => "'when'"
  | TElseWhen => "'elsewhen'"
  | TWhile => "'while'"
  | TLoop => "'loop'"
  | TBreak => "'break'"
  | TReturn => "'return'"
  | TPartial => "'partial'"
  | TClass => "'class'"
  | TOperator => "'operator'"
  | TExpandable => "'expandable'"
  | TModel => "'model'"
  | TFunction => "'function'"
  | TRecord => "'record'"
  | TType => "'type'"
  | TBlock => "'block'"
  | TConnector => "'connector'"
  | TPackage => "'package'"
  | TPure => "'pure'"
  | TImpure => "'impure'"
  | TInitial => "'initial'"
  | TEquation => "'equation'"
  | TAlgorithm => "'algorithm'"
  | TExtends => "'extends'"
  | TImport => "'import'"
  | TPublic => "'public'"
  | TProtected => "'protected'"
  | TWithin => "'within'"
  | TFinal => "'final'"
  | TEncapsulated => "'encapsulated'"
  | TEnumeration => "'enumeration'"
  | TInput => "'input'"
  | TOutput => "'output'"
  | TRedeclare => "'redeclare'"
  | TInner => "'inner'"
  | TOuter => "'outer'"
  | TReplaceable => "'replaceable'"
  | TConstrainedby => "'constrainedby'"
  | TFlow => "'flow'"
  | TStream => "'stream'"
  | TDiscrete => "'discrete'"
  | TParameter => "'parameter'"
  | TConstant => "'constant'"
  | TEach => "'each'"
  | TAnnotation => "'annotation'"
  | TExternal => "'external'"
  | TEnd => "'end'"
  | TDer => "'der'"
  | TConnect => "'connect'"
  | TLineComment => "LINE COMMENT"
  | TBlockComment => "BLOCK COMMENT"
  | TIdentifier => "IDENTIFIER"
  | TString => "STRING"
  | TUInt => "UNSIGNED INTEGER"
  | TUReal => "UNSIGNED REAL"
  | TBool => "'true' or 'false'"
  end%string.

(** tokens.rs 211-215 *)
Record position := mkPos { pos : N; line : N; col : N }.

(** tokens.rs 228-239 *)
Record token := mkTok {
  tidx : N;
  ttext : text;
  tkind_of : tkind;
  tstart : position;
  tend : position
}.

(** derived [PartialEq] *)
Lemma tkind_code_decode : forall k, nth (N.to_nat (tkind_code k)) all_tkinds TEOF = k.
Proof. destruct k; reflexivity. Qed.

Lemma tkind_eqb_eq : forall a b, tkind_eqb a b = true <-> a = b.
Proof.
  intros a b; unfold tkind_eqb; rewrite N.eqb_eq; split.
  - intro H. rewrite <- (tkind_code_decode a), <- (tkind_code_decode b), H. reflexivity.
  - intros ->; reflexivity.
Qed.

Lemma tkind_eqb_refl : forall a, tkind_eqb a a = true.
Proof. intro a; apply tkind_eqb_eq; reflexivity. Qed.

Lemma tkind_eq_dec : forall a b : tkind, {a = b} + {a <> b}.
Proof.
  intros a b; destruct (tkind_eqb a b) eqn:E.
  - left; apply tkind_eqb_eq; exact E.
  - right; intro H; apply tkind_eqb_eq in H; congruence.
Defined.

Lemma all_tkinds_complete : forall k, In k all_tkinds.
Proof. destruct k; cbv [all_tkinds In]; tauto. Qed.
