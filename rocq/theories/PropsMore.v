(** Property C94: more line breaks in the source, more line breaks in the output. *)
From Coq Require Import Sorted.
From Verif Require Import ProofBase Tokens Syntax Lexer SpecLex LexMain ParserCore Grammar Tree Printer Formatter Lib ParserSem SpecLayout
  FmtFacts FmtRelex FmtNeat SpecNodes FmtTree FmtSame PropsFormat SpecReference PropsReference PropsTree PropsSame FmtStable FmtBreaks
  PropsParser SpecCode FmtCode SpecMore FmtMore PropsStable.

(** ** C94: every line break of the output of a text is one of the output of the text with more line breaks *)
Theorem C94_more : forall s s' p p', accepted s p -> accepted s' p' -> more_rows (p_tokens p) (p_tokens p') ->
  exists l l', (forall eol, layout_of eol s p l /\ layout_of eol s' p' l') /\
    Forall2 (fun b b' : bool => b = true -> b' = true)
      (map (fun e => is_break (e_white e)) (filter code l)) (map (fun e => is_break (e_white e)) (filter code l')).
Proof.
  intros s s' p p' A A' S. destruct (reading_of s p A) as (items & tree & R). destruct (reading_of s' p' A') as (items' & tree' & R').
  exists (reference tree items), (reference tree' items'). split.
  - intro eol. split; [apply (reading_reference eol _ _ _ _ R)|apply (reading_reference eol _ _ _ _ R')].
  - destruct A as [A _], A' as [A' _]. destruct (C17_layout_irrelevant s s' KStoredDefinition p p' A A' (more_rows_kinds _ _ S)) as (EV & _).
    rewrite (rd_tokens _ _ _ _ R), (rd_tokens _ _ _ _ R') in S. eapply reading_more; eauto.
Qed.
Print Assumptions C94_more.

(** The line breaks that come by themselves: those of the text with all code on one line. *)
Theorem C94_least : forall s s' p p', accepted s p -> accepted s' p' -> Forall2 same_token (p_tokens p) (p_tokens p') ->
  (forall i, ~ broken_after (p_tokens p) i) ->
  exists l l', (forall eol, layout_of eol s p l /\ layout_of eol s' p' l') /\
    Forall2 (fun b b' : bool => b = true -> b' = true)
      (map (fun e => is_break (e_white e)) (filter code l)) (map (fun e => is_break (e_white e)) (filter code l')).
Proof.
  intros s s' p p' A A' S NB. apply (C94_more s s' p p' A A'). clear A A'. revert NB.
  induction S as [|a a' r r' SA S IH]; intro NB; [constructor|]. destruct S as [|b b' r r' SB S]; [constructor; exact SA|].
  constructor; [exact SA| |].
  - intro LT. exfalso. apply (NB 0%nat). exists a, b. auto.
  - apply IH. intros i (x & y & X & Y & LT). apply (NB (Datatypes.S i)). exists x, y. auto.
Qed.
Print Assumptions C94_least.

Definition fewer : text := lines ["model M Real x = f(a, b) + g(c, d); A y(z = 1, w = if p then q else r); end M;"]%string.
Definition further : text := lines ["model M Real x = f(a, b)"; "+ g(c,"; "d); A y(z = 1, w = if p"; "then q else r); end M;"]%string.
Example C94_applies : exists p p' o o', accepted fewer p /\ accepted further p' /\ more_rows (p_tokens p) (p_tokens p') /\
  (forall i, ~ broken_after (p_tokens p) i) /\ pretty_print lf p = Ok o /\ pretty_print lf p' = Ok o' /\
  o = lines ["model M"; ""; "  Real x = f(a, b) + g(c, d);"; "  A y(z = 1, w = if p then q else r);"; ""; "end M;"]%string /\
  o' = lines
    ["model M"; ""; "  Real x = f(a, b)"; "    + g("; "      c,"; "      d);"; "  A y("; "    z = 1,"; "    w ="; "      if p then"; "        q"; "      else"; "        r);"; ""; "end M;"]%string.
Proof.
  eexists. eexists. eexists. eexists. split; [split; vm_compute; reflexivity|]. split; [split; vm_compute; reflexivity|].
  split.
  { vm_compute. repeat (constructor; [split; [reflexivity|split; [split; intro H; (discriminate H || reflexivity)|intro H; discriminate H]]|intro H; (discriminate H || reflexivity)|]).
    constructor. split; [reflexivity|split; [split; intro H; discriminate H|intro H; discriminate H]]. }
  split.
  { intros i (a & b & A & B & LT). match type of A with nth_error ?l _ = _ => assert (forallb (fun t => (line (tstart t) =? 1) && (line (tend t) =? 1)) l = true) as ALL by (vm_compute; reflexivity) end.
    rewrite forallb_forall in ALL. apply nth_error_In in A, B. apply ALL in A, B. apply andb_true_iff in A as [_ A]. apply andb_true_iff in B as [B _].
    apply N.eqb_eq in A, B. rewrite A, B in LT. apply N.lt_irrefl in LT. exact LT. }
  split; [vm_compute; reflexivity|]. split; [vm_compute; reflexivity|]. split; [vm_compute; reflexivity|]. vm_compute. reflexivity.
Qed.
