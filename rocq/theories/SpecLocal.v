(** Specification: parts of files and of their layouts, from one token to another. *)
From Verif Require Import Base Tokens Syntax Tree SpecLayout.

(** Items from [a] to [b]. *)
Definition ranged (a b t : token) : bool := (tidx a <=? tidx t) && (tidx t <=? tidx b).
Definition between (a b : token) (ts : list token) : list token := filter (ranged a b) ts.
Definition excerpt (a b : token) (l : layout) : layout := filter (fun e => ranged a b (e_tok e)) l.

(** [t'] is of the kind of [t], and has the place behind [a'] that [t] has behind [a]: as many items and as
    many lines further on. *)
Definition likewise (a a' t t' : token) : Prop :=
  tkind_of t' = tkind_of t /\ tidx t' + tidx a = tidx t + tidx a' /\
  line (tstart t') + line (tstart a) = line (tstart t) + line (tstart a') /\
  line (tend t') + line (tstart a) = line (tend t) + line (tstart a').

(** The same white space; lines start [n'] levels to the right instead of [n]. *)
Definition same_white (n n' : nat) (w w' : white) : Prop :=
  match w, w' with WLine b m, WLine b' m' => b' = b /\ (m' + n = m + n')%nat | _, _ => w' = w end.

(** Nodes that are laid out without regard to what is around them. Left out are expressions and their operands,
    which may stand behind an operator at the beginning of a line, the parts of lists, which are spread if the list is,
    and whole files. *)
Definition self_contained (k : skind) : bool :=
  match k with
  | KExpression | KSimpleExpression | KLogicalExpression | KLogicalTerm | KLogicalFactor | KRelation
  | KArithmeticExpression | KTerm | KFactor | KPrimary | KOutputExpressionList | KComponentReference
  | KFunctionArguments | KFunctionArgumentsNonFirst | KNamedArguments | KArrayArguments | KArrayArgumentsNonFirst
  | KEnumList | KImportList | KArgumentOrInheritanceModificationList | KArgumentList | KExpressionList
  | KStoredDefinition => false
  | _ => true
  end.
