(** Property C98: a file is formatted part by part. *)
From Verif Require Import ProofBase Tokens Syntax Lexer SpecLex LexInv LexMain LexFacts ParserCore Grammar
  Tree Printer Formatter Lib ParserSem ParserFuel SpecGrammar Regex ParserGrammar ParserTree ParserFacts Recognise PropsParser
  SpecLanguage ParserComplete PropsLanguage
  FmtAbs FmtPlan FmtShape FmtTables FmtSound SpecLayout FmtExec FmtTop FmtFacts FmtRelex FmtNeat SpecNodes FmtTree FmtLists FmtOps
  FmtWrap SpecGaps SpecReference FmtNode FmtReference FmtSame PropsFormat PropsReference PropsSame FmtBreaks FmtAgree FmtPrinted FmtStable
  FmtMoved FmtConcat SpecTold PropsModular SpecParts.
From Coq Require Import Permutation.

(** The formatter makes the result of the source. *)
Definition shown (eol : text) (x : piece) : Prop :=
  exists p, accepted (source x) p /\ pretty_print eol p = Ok (result x).
(** The first item is a token other than [within] and [final]. *)
Definition opens (x : piece) : Prop :=
  exists p t us, accepted (source x) p /\ p_tokens p = t :: us /\ tidx t = 0 /\ tkind_of t <> TWithin /\ tkind_of t <> TFinal /\
    line (tstart t) = 1 + before x.
(** The last item is a token, the last character is a line feed, and no left-hand side is wrapped. *)
Definition closes (x : piece) : Prop :=
  exists p us t tree, accepted (source x) p /\ (exists u, source x = u ++ [10]) /\
    p_tokens p = us ++ [t] /\ Forall (fun c => tidx c < tidx t) (p_comments p) /\
    newlines (source x) = line (tend t) + behind_it x /\
    build_tree (p_tokens p) (p_events p) = Ok tree /\ leak tree = 0%nat.

Lemma accepted_same s p p' : accepted s p -> accepted s p' -> p = p'.
Proof. intros [A _] [B _]. congruence. Qed.

(** Text behind a file leaves its first token as it is. *)
Lemma first_stays a b pa pb p t us :
  accepted a pa -> (exists u, a = u ++ [10]) -> accepted b pb -> accepted (a ++ b) p -> p_tokens pa = t :: us ->
  exists vs, p_tokens p = t :: vs.
Proof.
  intros AA FN AB AP T.
  destruct (reading_of a pa AA) as (ia & ta & RA). destruct (reading_of b pb AB) as (ib & tb & RB). destruct (reading_of _ p AP) as (i & tr & RP).
  pose proof (laid_behind a (length ia) ia b ib (rd_laid _ _ _ _ RA) eq_refl (or_intror FN) (rd_laid _ _ _ _ RB)) as LB.
  pose proof (lexes_join _ _ (rd_lexes _ _ _ _ RA) (or_intror FN) _ _ (rd_lexes _ _ _ _ RB)) as LJ.
  pose proof (lexes_unique _ _ _ (rd_lexes _ _ _ _ RP) LJ) as E.
  assert (i = ia ++ map (later a (length ia)) ib) as ->.
  { apply (set_out_unique [] 0%nat i (a ++ b)); [apply laid_set, (rd_laid _ _ _ _ RP)|apply laid_set, LB| |apply (items_lexemes (a ++ b)), (rd_lexes _ _ _ _ RP)].
    rewrite E, map_app, map_map. f_equal. }
  rewrite (rd_tokens _ _ _ _ RP), filter_app, <- (rd_tokens _ _ _ _ RA), T. eexists. reflexivity.
Qed.

(** Two parts. *)
Lemma two_parts eol x y : shown eol x -> closes x -> shown eol y -> opens y ->
  shown eol (mkPiece (source x ++ source y) (result x ++ (if 0 <? behind_it x + before y then eol else []) ++ eol ++ result y) (before x) 0) /\
  (opens x -> opens (mkPiece (source x ++ source y) [] (before x) 0)).
Proof.
  intros (px & AX & RX) (px' & us & t & tree & AX' & FN & TX & CX & NX & BX & LX) (py & AY & RY) (py' & t0 & us0 & AY' & TY & IY & K1 & K2 & NY).
  rewrite <- (accepted_same _ _ _ AX AX') in *. clear AX'. rewrite <- (accepted_same _ _ _ AY AY') in *. clear AY'.
  destruct (C77_joined eol _ _ _ _ _ _ _ _ _ _ _ AX AY FN TX CX TY IY K1 K2 BX LX RX RY) as (p & AP & H). split.
  - exists p. cbn [source result]. split; [exact AP|]. rewrite H.
    replace (newlines (source x) + line (tstart t0) - line (tend t)) with (1 + (behind_it x + before y)) by lia.
    replace (1 <? 1 + (behind_it x + before y)) with (0 <? behind_it x + before y) by (destruct (N.ltb_spec 0 (behind_it x + before y)), (N.ltb_spec 1 (1 + (behind_it x + before y))); lia || reflexivity). reflexivity.
  - intros (q & f & fs & AQ & TQ & IQ & Q1 & Q2 & NQ). destruct (first_stays _ _ _ _ _ _ _ AQ FN AY AP TQ) as (vs & TV).
    exists p, f, vs. cbn [source before]. auto 7.
Qed.

(** ** C98 *)
Lemma all_parts eol l : l <> [] -> Forall (shown eol) l -> Forall opens (List.tl l) -> Forall closes (removelast l) ->
  forall x r, l = x :: r -> shown eol (mkPiece (sources l) (joined eol l) (before x) 0) /\ (opens x -> opens (mkPiece (sources l) [] (before x) 0)).
Proof.
  induction l as [|y l IH]; [contradiction|]. intros _ SH OP CL x r E. injection E as <- <-. inversion SH as [|? ? SY SH']; subst. cbn [List.tl] in OP.
  destruct l as [|z l].
  - unfold sources. cbn [map concat joined]. rewrite app_nil_r. split; [exact SY|]. exact (fun O => O).
  - change (removelast (y :: z :: l)) with (y :: removelast (z :: l)) in CL. inversion CL as [|? ? CY CL']; subst. inversion OP as [|? ? OZ OP']; subst.
    destruct (IH ltac:(discriminate) SH' OP' CL' z l eq_refl) as [S1 O1]. specialize (O1 OZ).
    destruct (two_parts eol y (mkPiece (sources (z :: l)) (joined eol (z :: l)) (before z) 0) SY CY S1 O1) as [S2 O2].
    split; [exact S2|exact O2].
Qed.
(** If every part is accepted, every part but the last ends with a token and a line feed and has no wrapped
    left-hand side, and every part but the first starts with a token other than [within] and [final], then the
    whole text is accepted and its result consists of the results of the parts. *)
Theorem C98_parts : forall eol ps, ps <> [] ->
  Forall (shown eol) ps -> Forall opens (List.tl ps) -> Forall closes (removelast ps) ->
  exists p, accepted (sources ps) p /\ pretty_print eol p = Ok (joined eol ps).
Proof.
  intros eol ps N SH OP CL. destruct ps as [|x r]; [contradiction|].
  destruct (all_parts eol (x :: r) N SH OP CL x r eq_refl) as [S _]. exact S.
Qed.
Print Assumptions C98_parts.

(** Parts without empty lines at their ends can stand in any order: their results have the same order. *)
Definition plainly (eol : text) (outs : list text) : text :=
  match outs with [] => [] | x :: r => x ++ concat (map (app eol) r) end.
Lemma joined_plainly eol ps : Forall (fun x => before x = 0 /\ behind_it x = 0) ps -> joined eol ps = plainly eol (map result ps).
Proof.
  induction ps as [|x ps IH]; intro F; [reflexivity|]. inversion F as [|? ? [F1 F2] F']; subst. destruct ps as [|y ps]; [cbn; symmetry; apply app_nil_r|].
  change (joined eol (x :: y :: ps)) with (result x ++ (if 0 <? behind_it x + before y then eol else []) ++ eol ++ joined eol (y :: ps)).
  inversion F' as [|? ? [F3 F4] _]; subst. rewrite (IH F'), F2, F3. cbn [map plainly concat app N.add N.ltb N.compare]. rewrite <- app_assoc. reflexivity.
Qed.
Theorem C98_order : forall eol ps qs, ps <> [] -> Permutation ps qs ->
  Forall (fun x => shown eol x /\ opens x /\ closes x /\ before x = 0 /\ behind_it x = 0) ps ->
  exists p q, accepted (sources ps) p /\ accepted (sources qs) q /\
    pretty_print eol p = Ok (plainly eol (map result ps)) /\ pretty_print eol q = Ok (plainly eol (map result qs)).
Proof.
  intros eol ps qs N PM F.
  assert (G : forall l, l <> [] -> Forall (fun x => shown eol x /\ opens x /\ closes x /\ before x = 0 /\ behind_it x = 0) l ->
    exists p, accepted (sources l) p /\ pretty_print eol p = Ok (plainly eol (map result l))).
  { clear. intros l N F. rewrite <- joined_plainly; [apply C98_parts; auto|].
    - eapply Forall_impl; [|exact F]. intros x H. apply H.
    - destruct l as [|y l]; [constructor|]. inversion F; subst. cbn [List.tl]. eapply Forall_impl; [|eassumption]. intros x H0. apply H0.
    - rewrite Forall_forall in *. intros x I. apply (F x). clear - I. induction l as [|y l IH]; [exact I|]. destruct l as [|z l]; [destruct I|]. destruct I as [<-|I]; [left; reflexivity|right; apply IH, I].
    - eapply Forall_impl; [|exact F]. intros x H. apply H. }
  destruct (G ps N F) as (p & AP & HP). destruct (G qs) as (q & AQ & HQ).
  - intros ->. apply Permutation_sym, Permutation_nil in PM. contradiction.
  - rewrite Forall_forall in *. intros x I. apply F. apply (Permutation_in _ (Permutation_sym PM) I).
  - exists p, q. auto.
Qed.
Print Assumptions C98_order.

(** A package clause with a model, a function behind an empty line, and a constant without a line feed. *)
Definition three : list piece :=
  [mkPiece (lines ["within A; // w"; "model M"; "  Real x;"; "end M;"; ""; ""]%string)
           (lines ["within A; // w"; "model M"; ""; "  Real x;"; ""; "end M;"]%string) 0 1;
   mkPiece (lines ["function f"; " input Real x; // i"; "end f;"; ""]%string)
           (lines ["function f"; ""; "  input Real x; // i"; ""; "end f;"]%string) 0 0;
   mkPiece (lines ["type T=Real;"]%string) (lines ["type T = Real;"]%string) 0 0].
Definition closing (x : piece) (p : parsed) : bool :=
  match rev (p_tokens p), rev (source x) with
  | t :: us, 10 :: u =>
      forallb (fun c => tidx c <? tidx t) (p_comments p) && (newlines (source x) =? line (tend t) + behind_it x) &&
      match build_tree (p_tokens p) (p_events p) with Ok tree => Nat.eqb (leak tree) 0 | _ => false end
  | _, _ => false
  end.
Lemma closing_closes x p : accepted (source x) p -> closing x p = true -> closes x.
Proof.
  unfold closing. intros A C. destruct (rev (p_tokens p)) as [|t us] eqn:T; [discriminate|]. destruct (rev (source x)) as [|c u] eqn:X; [discriminate|].
  apply (f_equal (@rev _)) in T, X. rewrite rev_involutive in T, X. cbn [rev] in T, X.
  assert (c = 10) as ->. { destruct (N.eq_dec c 10) as [E|NE]; [exact E|]. exfalso. destruct c as [|[[[[]|[]|]|[[]|[]|]|]|[[[]|[]|]|[[]|[]|]|]|]]; try discriminate; contradiction. }
  apply Bool.andb_true_iff in C as [C C3]. apply Bool.andb_true_iff in C as [C1 C2]. apply N.eqb_eq in C2. destruct (build_tree _ _) as [tree| |] eqn:B; try discriminate. apply Nat.eqb_eq in C3.
  exists p, (rev us), t, tree. split; [exact A|]. split; [exists (rev u); exact X|]. split; [exact T|]. split; [|auto].
  rewrite forallb_forall in C1. apply Forall_forall. intros d D. apply N.ltb_lt, C1, D.
Qed.
Example C98_applies : Forall (shown [10]) three /\ Forall opens (List.tl three) /\ Forall closes (removelast three) /\
  formats (sources three)
    (lines ["within A; // w"; "model M"; ""; "  Real x;"; ""; "end M;"; ""; "function f"; ""; "  input Real x; // i"; ""; "end f;"; "type T = Real;"]%string).
Proof.
  split; [|split; [|split]].
  - repeat (constructor; [unfold shown, accepted; eexists; split; [split; vm_compute; reflexivity|vm_compute; reflexivity]|]). constructor.
  - repeat (constructor; [unfold opens, accepted; eexists; do 2 eexists; split; [split; vm_compute; reflexivity|]; split; [reflexivity|]; repeat split; discriminate|]). constructor.
  - repeat (constructor; [eapply closing_closes; [unfold accepted; split; vm_compute; reflexivity|vm_compute; reflexivity]|]). constructor.
  - formatted.
Qed.
(** Two definitions in both orders. *)
Definition first_one : piece := mkPiece (lines ["type T=Real;"; ""]%string) (lines ["type T = Real;"]%string) 0 0.
Definition second_one : piece := mkPiece (lines ["function f"; " input T x;"; "end f;"; ""]%string) (lines ["function f"; ""; "  input T x;"; ""; "end f;"]%string) 0 0.
Example C98_order_applies :
  Forall (fun x => shown [10] x /\ opens x /\ closes x /\ before x = 0 /\ behind_it x = 0) [first_one; second_one] /\
  formats (sources [first_one; second_one]) (lines ["type T = Real;"; "function f"; ""; "  input T x;"; ""; "end f;"]%string) /\
  formats (sources [second_one; first_one]) (lines ["function f"; ""; "  input T x;"; ""; "end f;"; "type T = Real;"]%string).
Proof.
  split; [|split; formatted].
  repeat (constructor; [split; [|split; [|split; [|split; reflexivity]]];
    [unfold shown, accepted; eexists; split; [split; vm_compute; reflexivity|vm_compute; reflexivity]
    |unfold opens, accepted; eexists; do 2 eexists; split; [split; vm_compute; reflexivity|]; split; [reflexivity|]; repeat split; discriminate
    |eapply closing_closes; [unfold accepted; split; vm_compute; reflexivity|vm_compute; reflexivity]]|]). constructor.
Qed.
