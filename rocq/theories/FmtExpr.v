(** One expression in the place of another one. *)
From Verif Require Import ProofBase Tokens Syntax Lexer SpecLex LexInv LexMain LexFacts ParserCore Grammar
  Tree Printer Formatter Lib ParserSem ParserFuel SpecGrammar Regex ParserGrammar ParserTree ParserFacts Recognise PropsParser
  SpecLanguage ParserComplete PropsLanguage
  FmtAbs FmtPlan FmtShape FmtTables FmtSound SpecLayout FmtExec FmtTop FmtFacts FmtRelex FmtNeat SpecNodes FmtTree FmtLists FmtOps
  FmtWrap SpecGaps SpecReference FmtNode FmtReference FmtSame PropsFormat PropsReference FmtBreaks FmtAgree FmtPrinted FmtStable FmtMoved
  FmtConcat SpecLevels FmtLevels SpecLocal FmtLocal SpecEdit LexSplice FmtEdit FmtSplice.

(** ** Tables *)
Notation prod k := (pruned (production false k)).
Definition among (l : list skind) (k : skind) : bool := existsb (skind_eqb k) l.
Definition rule_in (l : list skind) (x : sym) : bool := match x with Rule k => among l k | Term _ => false end.
Fixpoint times {A} (n : nat) (f : A -> A) (x : A) : A := match n with O => x | S m => times m f (f x) end.
(** Nodes inside of expressions, nodes that end expressions, nodes that begin or end with an expression, nodes that begin with a dot. *)
Definition down (f : rx -> list sym) (l : list skind) : list skind :=
  filter (fun k => among l k || existsb (fun q => existsb (fun x => match x with Rule k' => skind_eqb k k' | Term _ => false end) (f (prod q))) l) all_skinds.
Definition up (f : rx -> list sym) (is : sym -> bool) (l : list skind) : list skind :=
  filter (fun k => among l k || existsb (fun x => is x || rule_in l x) (f (prod k))) all_skinds.
Definition inner : list skind := Eval vm_compute in times 30 (down atoms) [KExpression].
Definition endings : list skind := Eval vm_compute in times 30 (down lasts) [KExpression].
Definition leaders : list skind := Eval vm_compute in times 30 (up firsts (fun _ => false)) [KExpression].
Definition enders : list skind := Eval vm_compute in times 30 (up lasts (fun _ => false)) [KExpression].
Definition dotted : list skind := Eval vm_compute in times 30 (up firsts (fun x => match x with Term TDot => true | _ => false end)) [].
Definition openings : list skind := Eval vm_compute in times 30 (down firsts) [KExpression].

Definition inner_ok (k : skind) : bool :=
  negb (among inner k) ||
  forallb (fun x => match x with
                    | Rule q => among inner q
                    | Term t => negb (tkind_eqb t TWithin)
                    end) (atoms (prod k)).
Definition ending (t : tkind) : bool :=
  match t with TIdentifier | TUInt | TUReal | TString | TBool | TRParen | TRBracket | TRCurly | TEnd => true | _ => false end.
Definition endings_ok (k : skind) : bool :=
  negb (among endings k) || forallb (fun x => match x with Rule q => among endings q | Term t => ending t end) (lasts (prod k)).
Definition openings_ok (k : skind) : bool :=
  negb (among openings k) ||
  forallb (fun x => match x with
                    | Rule q => among openings q
                    | Term t => negb (closing_bracket t) && negb (one_of t [TComma; TSemicolon; TDotStar; TEqual; TEq]) && (negb (opening_bracket t) || skind_eqb k KPrimary)
                    end) (firsts (prod k)).
Definition up_ok (l : list skind) (f : rx -> list sym) (is : sym -> bool) (k : skind) : bool :=
  among l k || forallb (fun x => negb (is x || rule_in l x)) (f (prod k)).
Definition before_expression (t : tkind) : bool := negb (one_of t [TIdentifier; TRBracket; TDot]).
Definition pairs_ok (k : skind) : bool :=
  forallb (fun p => (negb (rule_in enders (fst p)) || match snd p with Term t => negb (tkind_eqb t TDot) | Rule q => negb (among dotted q) end) &&
                    (negb (rule_in leaders (snd p)) || match fst p with Term t => before_expression t | Rule _ => false end)) (pairs (prod k)).
Lemma tables_checked : forallb (fun k => inner_ok k && endings_ok k && openings_ok k && up_ok leaders firsts (fun _ => false) k &&
  up_ok enders lasts (fun _ => false) k && up_ok dotted firsts (fun x => match x with Term TDot => true | _ => false end) k && pairs_ok k) all_skinds = true.
Proof. vm_compute. reflexivity. Qed.
Lemma among_in l k : among l k = true -> In k l.
Proof. intro A. apply existsb_exists in A as (q & I & E). apply skind_eqb_eq in E. subst. exact I. Qed.

(** ** Expressions on one line *)
Definition on_line (ln : N) (t : token) : Prop := line (tstart t) = ln /\ line (tend t) = ln.
Definition flat_on (ln : N) (c : child) : Prop := Forall (on_line ln) (toks c).
Lemma flat_first ln c : fits c -> flat_on ln c -> first_line c = ln.
Proof. intros F H. apply toks_some in F. unfold first_line. destruct H as [|t l [T _] _]; [contradiction|exact T]. Qed.
Lemma flat_last ln c : fits c -> flat_on ln c -> last_line c = ln.
Proof.
  intros F H. apply toks_some in F. unfold last_line. apply Forall_rev in H. destruct (rev (toks c)) as [|t l] eqn:E; [|inversion H as [|? ? [_ T] _]; exact T].
  exfalso. apply F. rewrite <- (rev_involutive (toks c)), E. reflexivity.
Qed.
Lemma flat_spans ln c : fits c -> flat_on ln c -> spans c = false.
Proof. intros F H. unfold spans. rewrite (flat_first ln), (flat_last ln) by auto. apply N.ltb_irrefl. Qed.
Lemma flat_multi ln c : fits c -> flat_on ln c -> multi_if c = false.
Proof. intros F H. unfold multi_if. rewrite (flat_spans ln) by auto. reflexivity. Qed.
Lemma flat_kids ln k cs : flat_on ln (CTree k cs) -> Forall (flat_on ln) cs.
Proof.
  unfold flat_on. cbn [toks]. induction cs as [|c cs IH]; intro H; [constructor|]. cbn [flat_map] in H. apply Forall_app in H as [H1 H2]. constructor; auto.
Qed.
Definition inside_expression (d : child) : Prop := match kind_of d with Rule q => among inner q = true | Term t => t <> TWithin end.
Lemma tables k : inner_ok k = true /\ endings_ok k = true /\ openings_ok k = true /\ up_ok leaders firsts (fun _ => false) k = true /\
  up_ok enders lasts (fun _ => false) k = true /\ up_ok dotted firsts (fun x => match x with Term TDot => true | _ => false end) k = true /\ pairs_ok k = true.
Proof. pose proof (skind_all _ tables_checked k) as H. cbn beta in H. rewrite !andb_true_iff in H. tauto. Qed.
Lemma fits_kids k cs : fits (CTree k cs) -> cs <> [] /\ lang (prod k) (map sym_of cs) /\ Forall fits cs.
Proof. intro F. inversion F; subst; auto. Qed.
Lemma inner_kids k cs : among inner k = true -> fits (CTree k cs) -> Forall inside_expression cs.
Proof.
  intros A F. apply fits_kids in F as (_ & L & _). destruct (tables k) as (T & _). unfold inner_ok in T. rewrite A in T. cbn [negb orb] in T. rewrite forallb_forall in T.
  apply Forall_forall. intros d I. assert (In (sym_of d) (atoms (prod k))) as S by (eapply atoms_complete; [exact L|]; apply in_map, I). apply T in S.
  unfold inside_expression. rewrite kind_is. destruct (sym_of d); [|exact S]. intros ->. discriminate.
Qed.
Lemma flat_apart ln k cs : flat_on ln (CTree k cs) -> brackets_apart k cs = false.
Proof.
  intro H. apply flat_kids in H. unfold brackets_apart. rewrite Forall_forall in H.
  destruct (existsb _ cs) eqn:E; [|reflexivity]. apply existsb_exists in E as (o & IO & E). apply existsb_exists in E as (c & IC & E).
  destruct o as [a|]; [|discriminate]. destruct c as [b|]; [|discriminate]. apply andb_true_iff in E as [_ E]. apply N.ltb_lt in E.
  apply H in IO, IC. unfold flat_on in IO, IC. cbn [toks] in IO, IC. inversion IO as [|? ? [A _] _]; inversion IC as [|? ? [B _] _]; subst. rewrite B in E. lia.
Qed.
Lemma flat_wide ln k cs : among inner k = true -> fits (CTree k cs) -> flat_on ln (CTree k cs) -> wide k cs false = false.
Proof.
  intros A F H. pose proof (flat_spans ln _ F H) as S. pose proof (flat_apart ln k cs H) as B.
  apply among_in in A. unfold inner in A. cbn [In] in A. repeat destruct A as [A|A]; try contradiction; subst k; cbn [wide]; rewrite ?S, ?B; reflexivity.
Qed.
Lemma flat_turns ln k a d v : Forall fits (match a with Some c => [c] | None => [] end) -> Forall (flat_on ln) (match a with Some c => [c] | None => [] end) ->
  Forall fits v -> Forall (flat_on ln) v -> turns k a d v = false.
Proof.
  intros FA HA FV HV. destruct a as [a|]; [|reflexivity]. destruct v as [|b v]; [reflexivity|]. inversion FA; inversion HA; inversion FV; inversion HV; subst. cbn [turns].
  rewrite (flat_last ln a), (flat_first ln b), N.ltb_irrefl, andb_false_r by auto. reflexivity.
Qed.
Lemma flat_wraps ln c : fits c -> flat_on ln c -> wraps c = false.
Proof.
  induction c as [t|k cs IH] using child_ind2; intros F H; [reflexivity|]. rewrite wraps_tree. apply fits_kids in F as (_ & _ & F). apply flat_kids in H.
  assert (forall v a, Forall fits v -> Forall (flat_on ln) v -> Forall (fun c => fits c -> flat_on ln c -> wraps c = false) v ->
    Forall fits (match a with Some c => [c] | None => [] end) -> Forall (flat_on ln) (match a with Some c => [c] | None => [] end) -> wraps_in k a v = false) as K; [|apply K; auto].
  clear. induction v as [|d v IH]; intros a F H W FA HA; [reflexivity|]. inversion F; inversion H; inversion W as [|? ? WD WV]; subst. cbn [wraps_in].
  rewrite (flat_turns ln), IH, WD, andb_false_r by auto. reflexivity.
Qed.
Definition below (p : position) : bool := match p with Below _ => true | _ => false end.
Lemma inner_position k late second prev d : among inner k = true -> inside_expression d -> (late = is_late d) ->
  below (position_of k false false false late second prev (kind_of d)) = false.
Proof.
  intros A I ->. unfold position_of.
  assert (fixed_position k prev (kind_of d) = None) as -> by (apply among_in in A; unfold inner in A; cbn [In] in A; repeat destruct A as [A|A]; try contradiction; subst k; reflexivity).
  assert (trailing (kind_of d) = false) as ->.
  { unfold inside_expression in I. destruct (kind_of d) as [t|q]; [reflexivity|]. apply among_in in I. unfold inner in I. cbn [In] in I. repeat destruct I as [I|I]; try contradiction; subst q; reflexivity. }
  assert (is_late d && match kind_of d with Term TWithin => true | _ => false end = false) as ->.
  { unfold inside_expression in I. destruct (kind_of d) as [t|q]; [|apply andb_false_r]. destruct t; try apply andb_false_r. contradiction. }
  rewrite andb_false_r. cbn [andb orb]. destruct prev as [[t|q]|]; try reflexivity. destruct q; try reflexivity. destruct second; reflexivity.
Qed.

(** Rules and positions of the tokens. *)
Definition glyph (x : spot) : skind * position := (at_rule x, at_pos x).
Definition row (f : position -> nat -> nat -> bool -> list spot) (ts : list token) : Prop :=
  exists r ps, Forall (fun g => below (snd g) = false) ps /\
    forall pos first n on, exists x xs, f pos first n on = x :: xs /\ at_pos x = pos /\ at_level x = first /\ at_rule x = r /\ map glyph xs = ps /\ map at_tok (x :: xs) = ts.
Lemma flat_children ln k all v : among inner k = true -> Forall fits v -> Forall (flat_on ln) v -> Forall inside_expression v ->
  Forall (fun d => forall q, row (fun pos first n on => spots q pos first n on false d) (toks d)) v ->
  forall u, u <> [] -> Forall fits u -> Forall (flat_on ln) u ->
  exists ps, Forall (fun g => below (snd g) = false) ps /\
    forall pos first n on, map glyph (children k false all pos first u n on v) = ps.
Proof.
  intros A. induction v as [|d v IH]; intros F H I R u NU FU HU; [exists []; split; [constructor|reflexivity]|].
  inversion F as [|? ? FD FV]; inversion H as [|? ? HD HV]; inversion I as [|? ? ID IV]; inversion R as [|? ? RD RV]; subst.
  destruct (IH FV HV IV RV (d :: u)) as (ps & NB & E); [discriminate|constructor; auto|constructor; auto|].
  set (p := position_of k false false false (is_late d) (after_first u) (kind_last u) (kind_of d)).
  destruct (RD k) as (r & qs & NQ & EQ). exists ((r, p) :: qs ++ ps). split.
  { constructor; [cbn [snd]; apply inner_position; auto|]. apply Forall_app. auto. }
  intros pos first n on. cbn [children]. cbv zeta. rewrite map_app, E. clear E IH.
  assert (Forall fits (match last_of u with Some c => [c] | None => [] end) /\ Forall (flat_on ln) (match last_of u with Some c => [c] | None => [] end)) as [F1 H1].
  { destruct u; [split; constructor|]. inversion FU; inversion HU; subst. cbn [last_of]. auto. }
  rewrite (flat_turns ln k (last_of u) d v F1 H1 FV HV), (flat_multi ln d FD HD). fold p.
  replace (bequeathed k false all d) with false by (unfold bequeathed; destruct k; try reflexivity; destruct d as [|q' ?]; try reflexivity; destruct q'; reflexivity).
  match goal with |- map glyph (spots k ?a ?b ?c ?d' false d) ++ _ = _ => destruct (EQ a b c d') as (x & xs & -> & XP & XL & XR & XG & _) end.
  cbn [map app]. unfold glyph at 1. rewrite XP, XR, XG. destruct u; [contradiction|reflexivity].
Qed.

Lemma flat_spots ln c : inside_expression c -> fits c -> flat_on ln c -> forall q, row (fun pos first n on => spots q pos first n on false c) (toks c).
Proof.
  induction c as [t|k cs IH] using child_ind2; intros I F H q.
  - exists q, []. split; [constructor|]. intros pos first n on. cbn [spots]. do 2 eexists. split; [reflexivity|]. repeat split; reflexivity.
  - pose proof (inner_kids k cs I F) as IC. pose proof (flat_wide ln k cs I F H) as W. apply fits_kids in F as (NE & _ & F). apply flat_kids in H.
    assert (Forall (fun d => forall q, row (fun pos first n on => spots q pos first n on false d) (toks d)) cs) as R.
    { rewrite Forall_forall in *. intros d D. apply IH; auto. }
    destruct cs as [|d v]; [contradiction|]. inversion F as [|? ? FD FV]; inversion H as [|? ? HD HV]; inversion IC as [|? ? ID IV]; inversion R as [|? ? RD RV]; subst.
    destruct (flat_children ln k (d :: v) v I FV HV IV RV [d]) as (ps & NB & E); [discriminate|auto|auto|].
    destruct (RD k) as (r & qs & NQ & EQ). exists r, (qs ++ ps). split; [apply Forall_app; auto|]. intros pos first n on.
    cbv beta. assert (map at_tok (spots q pos first n on false (CTree k (d :: v))) = toks (CTree k (d :: v))) as T by apply spots_toks. revert T.
    rewrite spots_tree, W. cbn [children]. cbv zeta.
    rewrite (flat_turns ln k (last_of []) d v) by (auto; constructor). rewrite (flat_multi ln d FD HD).
    set (p := position_of k false false false (is_late d) (after_first []) (kind_last []) (kind_of d)).
    assert (below p = false) as PB by (apply inner_position; auto).
    replace (match p with Below _ => true | _ => false end) with false by (destruct p; [reflexivity..|discriminate]).
    replace (bequeathed k false (d :: v) d) with false by (unfold bequeathed; destruct k; try reflexivity; destruct d as [|q' ?]; try reflexivity; destruct q'; reflexivity).
    match goal with |- map at_tok (spots k ?a ?b ?c ?d' false d ++ ?w) = _ -> _ => intro T; destruct (EQ a b c d') as (x & xs & EX & XP & XL & XR & XG & XT); exists x, (xs ++ w) end.
    rewrite EX in *. split; [reflexivity|]. split; [exact XP|]. split; [exact XL|]. split; [exact XR|]. split; [rewrite map_app, XG, E; reflexivity|]. exact T.
Qed.
(** The whole expression. *)
Lemma expression_spots ln ds : fits (CTree KExpression ds) -> flat_on ln (CTree KExpression ds) -> exists r ps, Forall (fun g => below (snd g) = false) ps /\
  forall q pos first n on inh, exists x xs, spots q pos first n on inh (CTree KExpression ds) = x :: xs /\ at_pos x = pos /\ at_level x = first /\ at_rule x = r /\ map glyph xs = ps.
Proof.
  intros F H. destruct (flat_spots ln (CTree KExpression ds) eq_refl F H KStoredDefinition) as (r & ps & NB & E). exists r, ps. split; [exact NB|]. intros q pos first n on inh.
  destruct (E pos first n on) as (x & xs & EX & X1 & X2 & X3 & X4 & _). exists x, xs. split; [|auto]. rewrite <- EX, !spots_tree. reflexivity.
Qed.
Lemma inner_leak c : inside_expression c -> fits c -> leak c = 0%nat.
Proof.
  induction c as [t|k cs IH] using child_ind2; intros I F; [reflexivity|]. rewrite leak_tree. pose proof (inner_kids k cs I F) as IC. apply fits_kids in F as (_ & _ & F).
  assert (forall d, keeps_level k d = false) as K.
  { unfold inside_expression in I. cbn [kind_of] in I. intro d. apply among_in in I. unfold inner in I. cbn [In] in I. repeat destruct I as [I|I]; try contradiction; subst k; reflexivity. }
  clear I. induction cs as [|d cs IHc]; [reflexivity|]. inversion IH; inversion IC; inversion F; subst. cbn [leak_in]. rewrite K, IHc by auto. rewrite H1 by auto. reflexivity.
Qed.
Lemma inner_holds q c : among inner q = false -> inside_expression c -> fits c -> holds q c = false.
Proof.
  intro Q. induction c as [t|k cs IH] using child_ind2; intros I F; [reflexivity|]. cbn [holds]. pose proof (inner_kids k cs I F) as IC. apply fits_kids in F as (_ & _ & F).
  apply orb_false_iff. split.
  - destruct (skind_eqb q k) eqn:E; [|reflexivity]. apply skind_eqb_eq in E. subst. unfold inside_expression in I. cbn [kind_of] in I. congruence.
  - destruct (existsb (holds q) cs) eqn:E; [|reflexivity]. apply existsb_exists in E as (d & D & E). rewrite Forall_forall in *. rewrite IH in E by auto. discriminate.
Qed.

(** ** Nodes around the expression *)
Definition head_kind (c : child) : option tkind := match toks c with t :: _ => Some (tkind_of t) | [] => None end.
Definition leads (c : child) : bool := rule_in leaders (kind_of c).
Definition valued (x : sym) : bool := match x with Rule KModificationExpression | Rule KFunctionArgument | Rule KExpression => true | _ => false end.
Record peer (c c' : child) : Prop := {
  pe_kind : kind_of c' = kind_of c;
  pe_first : first_line c' = first_line c;
  pe_last : last_line c' = last_line c;
  pe_description : holds KDescription c' = holds KDescription c;
  pe_string : holds KDescriptionString c' = holds KDescriptionString c;
  pe_wraps : wraps c' = wraps c;
  pe_leak : leak c' = leak c;
  pe_head : leads c = false -> head_kind c' = head_kind c;
  pe_multi : valued (kind_of c) = true -> multi_if c' = multi_if c }.
Lemma peer_refl c : peer c c.
Proof. split; reflexivity. Qed.
Notation tm := (tree_moved same_text 0).
Lemma peer_moved c c' : fits c -> tm c c' -> peer c c'.
Proof.
  intros F M. split.
  - eapply moved_kind, M.
  - rewrite (moved_first same_text 0 c c') by auto. apply N.add_0_r.
  - rewrite (moved_last same_text 0 c c') by auto. apply N.add_0_r.
  - eapply moved_holds, M.
  - eapply moved_holds, M.
  - eapply moved_wraps; eauto.
  - eapply moved_leak; eauto.
  - intros _. apply moved_toks in M. unfold head_kind. destruct M as [|t t' l l' (_ & K & _) _]; [reflexivity|]. rewrite K. reflexivity.
  - intros _. eapply moved_multi; eauto.
Qed.
Lemma peer_expression ln ds ds' : fits (CTree KExpression ds) -> fits (CTree KExpression ds') -> flat_on ln (CTree KExpression ds) -> flat_on ln (CTree KExpression ds') ->
  peer (CTree KExpression ds) (CTree KExpression ds').
Proof.
  intros F F' H H'. split.
  - reflexivity.
  - rewrite !(flat_first ln) by auto. reflexivity.
  - rewrite !(flat_last ln) by auto. reflexivity.
  - rewrite !inner_holds by (auto; reflexivity). reflexivity.
  - rewrite !inner_holds by (auto; reflexivity). reflexivity.
  - rewrite !(flat_wraps ln) by auto. reflexivity.
  - rewrite !inner_leak by (auto; reflexivity). reflexivity.
  - discriminate.
  - intros _. rewrite !(flat_multi ln) by auto. reflexivity.
Qed.
Lemma peer_spans c c' : peer c c' -> spans c' = spans c.
Proof. intro P. unfold spans. rewrite (pe_first _ _ P), (pe_last _ _ P). reflexivity. Qed.
Lemma peer_continues k c c' : peer c c' -> continues k c' = continues k c.
Proof.
  intro P. pose proof (pe_kind _ _ P) as K. destruct c as [t|q x], c' as [t'|q' x']; cbn [kind_of] in K; try discriminate; [destruct k; reflexivity|].
  injection K as ->. destruct k; reflexivity.
Qed.
Lemma peer_keeps k c c' : peer c c' -> keeps_level k c' = keeps_level k c.
Proof.
  intro P. pose proof (pe_kind _ _ P) as K. pose proof (pe_wraps _ _ P) as W. destruct c as [t|q x], c' as [t'|q' x']; cbn [kind_of] in K; try discriminate; [destruct k; reflexivity|].
  injection K as ->. rewrite !keeps_leaks, W. reflexivity.
Qed.
Lemma peer_bequeathed k w cs cs' c c' : length cs' = length cs -> peer c c' -> bequeathed k w cs' c' = bequeathed k w cs c.
Proof.
  intros L P. pose proof (pe_kind _ _ P) as K. destruct c as [t|q x], c' as [t'|q' x']; cbn [kind_of] in K; try discriminate; [destruct k; reflexivity|].
  injection K as ->. destruct k; try reflexivity. cbn [bequeathed]. rewrite L. reflexivity.
Qed.
Lemma peers_apart k cs cs' : Forall2 peer cs cs' -> brackets_apart k cs' = brackets_apart k cs.
Proof.
  intro F. unfold brackets_apart. apply exists_moved with (Q := peer); auto. intros o o' _ O. apply exists_moved with (Q := peer); auto. intros c c' _ C.
  pose proof (pe_kind _ _ O) as KO. pose proof (pe_kind _ _ C) as KC. pose proof (pe_first _ _ O) as LO. pose proof (pe_first _ _ C) as LC.
  destruct o as [a|], o' as [a'|]; cbn [kind_of] in KO; try discriminate; [|reflexivity]. destruct c as [b|], c' as [b'|]; cbn [kind_of] in KC; try discriminate; [|reflexivity].
  unfold first_line in LO, LC. cbn [toks] in LO, LC. injection KO as KO. injection KC as KC. rewrite (opens_kind k a' a), (closes_kind k b' b), LO, LC by auto. reflexivity.
Qed.
Definition last_peer (a a' : option child) : Prop := match a, a' with Some c, Some c' => last_line c' = last_line c | None, None => True | _, _ => False end.
Lemma peer_turns k a a' c c' v v' : last_peer a a' -> peer c c' -> Forall2 peer v v' -> turns k a' c' v' = turns k a c v.
Proof.
  intros A C V. destruct a as [a|], a' as [a'|]; try contradiction; [|reflexivity]. destruct V as [|b b' v v' B V]; [reflexivity|]. cbn [turns last_peer] in *.
  rewrite (pe_kind _ _ C), (pe_first _ _ B), A. reflexivity.
Qed.
Lemma forall2_len {A B} (P : A -> B -> Prop) l l' : Forall2 P l l' -> length l' = length l.
Proof. induction 1; cbn [length]; congruence. Qed.
Lemma peers_holds q cs cs' : Forall2 peer cs cs' -> (q = KDescription \/ q = KDescriptionString) -> existsb (holds q) cs' = existsb (holds q) cs.
Proof. intros F [->| ->]; eapply exists_moved; try exact F; intros x x' _ P; apply P. Qed.

Lemma head_cons k d v : fits d -> head_kind (CTree k (d :: v)) = head_kind d.
Proof. intro F. apply toks_some in F. unfold head_kind. cbn [toks flat_map]. destruct (toks d); [contradiction|reflexivity]. Qed.
Lemma first_cons k d v : fits d -> first_line (CTree k (d :: v)) = first_line d.
Proof. intro F. apply toks_some in F. unfold first_line. cbn [toks flat_map]. destruct (toks d); [contradiction|reflexivity]. Qed.
Lemma last_snoc k u d : fits d -> last_line (CTree k (u ++ [d])) = last_line d.
Proof.
  intro F. apply toks_some in F. unfold last_line. cbn [toks]. rewrite flat_map_app, rev_app_distr. cbn [flat_map]. rewrite app_nil_r.
  destruct (rev (toks d)) eqn:E; [|reflexivity]. exfalso. apply F. rewrite <- (rev_involutive (toks d)), E. reflexivity.
Qed.
Lemma multi_spans c : multi_if c = spans c && match head_kind c with Some t => tkind_eqb t TIf | None => false end.
Proof. unfold multi_if, head_kind. destruct (toks c); reflexivity. Qed.
Lemma valued_only k x w : valued (Rule k) = true -> rule_in leaders x = true -> lang (prod k) (x :: w) -> valued x = true /\ w = [].
Proof.
  intros V LD L. pose proof (firsts_complete _ _ _ L) as FI. assert (valued x = true /\ pairs (prod k) = []) as [VX PN].
  { destruct k; try discriminate V; vm_compute in FI.
    - destruct FI as [<-|[<-|[]]]; [split; reflexivity|discriminate LD].
    - destruct FI as [<-|[<-|[]]]; discriminate LD.
    - destruct FI as [<-|[<-|[]]]; [discriminate LD|split; reflexivity]. }
  split; [exact VX|]. destruct w as [|y w]; [reflexivity|]. exfalso. assert (In (x, y) (pairs (prod k))) as J by (eapply pairs_complete; [exact L|exists [], w; reflexivity]). rewrite PN in J. exact J.
Qed.
Lemma forall2_app_inv {A B} (P : A -> B -> Prop) u x u' x' : Forall2 P (u ++ [x]) (u' ++ [x']) -> P x x'.
Proof. intro F. apply moved_rev in F. rewrite !rev_app_distr in F. cbn [rev app] in F. inversion F; auto. Qed.
Lemma peer_up k cs cs' : fits (CTree k cs) -> fits (CTree k cs') -> Forall2 peer cs cs' -> peer (CTree k cs) (CTree k cs').
Proof.
  intros F F' P. apply fits_kids in F as (NE & L & F). apply fits_kids in F' as (NE' & L' & F').
  assert (first_line (CTree k cs') = first_line (CTree k cs)) as E1.
  { destruct P as [|d d' v v' D V]; [contradiction|]. inversion F; inversion F'; subst. rewrite !first_cons by auto. apply D. }
  assert (last_line (CTree k cs') = last_line (CTree k cs)) as E2.
  { destruct (exists_last NE) as (u & d & ->). destruct (exists_last NE') as (u' & d' & ->).
    assert (peer d d') as D. { apply forall2_app_inv in P. exact P. }
    apply Forall_app in F as [_ F]. apply Forall_app in F' as [_ F']. inversion F; inversion F'; subst. rewrite !last_snoc by auto. apply D. }
  assert (forall x, match cs with d :: v => d = x -> leads x = false -> head_kind (CTree k cs') = head_kind (CTree k cs) | [] => True end) as HD.
  { intro x. destruct P as [|d d' v v' D V]; [exact Logic.I|]. intros <- LD. inversion F; inversion F'; subst. rewrite !head_cons by auto. apply D, LD. }
  split.
  - reflexivity.
  - exact E1.
  - exact E2.
  - cbn [holds]. rewrite (peers_holds _ _ _ P) by auto. reflexivity.
  - cbn [holds]. rewrite (peers_holds _ _ _ P) by auto. reflexivity.
  - rewrite !wraps_tree. assert (forall v v', Forall2 peer v v' -> forall a a', last_peer a a' -> wraps_in k a' v' = wraps_in k a v) as K; [|apply K; [exact P|exact Logic.I]].
    clear. induction 1 as [|d d' v v' D V IH]; intros a a' A; [reflexivity|]. cbn [wraps_in].
    rewrite (peer_turns k a a' d d' v v' A D V), (peer_continues k d d' D), (pe_wraps _ _ D), (IH (Some d) (Some d') (pe_last _ _ D)). reflexivity.
  - rewrite !leak_tree. clear - P. induction P as [|d d' v v' D V IH]; [reflexivity|]. cbn [leak_in]. rewrite (pe_leak _ _ D), (peer_keeps k d d' D), IH. reflexivity.
  - unfold leads. cbn [kind_of rule_in]. intro LK. destruct cs as [|d v]; [contradiction|]. apply (HD d eq_refl). unfold leads. rewrite kind_is.
    cbn [map] in L. apply firsts_complete in L. destruct (tables k) as (_ & _ & _ & T & _). unfold up_ok in T. rewrite LK in T. cbn [orb] in T. rewrite forallb_forall in T. apply T in L.
    apply negb_true_iff in L. exact L.
  - cbn [kind_of]. intro V. rewrite !multi_spans. unfold spans. rewrite E1, E2. fold (spans (CTree k cs)).
    destruct cs as [|d v]; [contradiction|]. destruct (leads d) eqn:LD; [|rewrite (HD d eq_refl LD); reflexivity].
    assert (valued (kind_of d) = true /\ v = []) as [VD ->].
    { unfold leads in LD. rewrite kind_is in *. apply (valued_only k (sym_of d) (map sym_of v) V LD) in L as [VD EV]. split; [exact VD|]. destruct v; [reflexivity|discriminate]. }
    inversion P as [|? d' ? v' D DV EQ1 EQ2]; subst. inversion DV; subst. inversion F; inversion F'; subst. pose proof (pe_multi _ _ D VD) as M. rewrite !multi_spans in M. rewrite !head_cons by auto.
    assert (last_line (CTree k [d]) = last_line d) as LS by (apply (last_snoc k [] d); auto). unfold spans in *. rewrite (first_cons k d []), LS by auto. rewrite (pe_first _ _ D), (pe_last _ _ D) in M. exact M.
Qed.

Lemma peers_wide k cs cs' inh : fits (CTree k cs) -> fits (CTree k cs') -> Forall2 peer cs cs' -> wide k cs' inh = wide k cs inh.
Proof.
  intros F F' M. pose proof (peer_up k cs cs' F F' M) as T.
  pose proof (peer_spans _ _ T) as S. pose proof (peers_apart k _ _ M) as A. pose proof (forall2_len _ _ _ M) as L.
  pose proof (pe_description _ _ T) as H1. pose proof (pe_string _ _ T) as H2.
  destruct k; cbn [wide]; rewrite ?S, ?A, ?L, ?H1, ?H2; try reflexivity.
  f_equal. apply exists_moved with (Q := peer); auto. intros x x' _ X. pose proof (pe_description _ _ X) as HX. pose proof (pe_kind _ _ X) as KX.
  destruct x as [|q x], x' as [|q' x']; cbn [kind_of] in KX; try discriminate; [reflexivity|]. injection KX as ->. destruct q; try reflexivity. exact HX.
Qed.
Definition kindred (Q : list spot -> list spot -> Prop) (c c' : child) : Prop :=
  peer c c' /\
  forall q pos first n on inh, exists S1 X X' S2 S2',
    spots q pos first n on inh c = S1 ++ X ++ S2 /\ spots q pos first n on inh c' = S1 ++ X' ++ S2' /\ map strip S2' = map strip S2 /\ Q X X'.
Lemma children_after k w all all' pos first v v' : length all' = length all -> Forall2 tm v v' -> Forall fits v -> forall u u' n on, last_peer (last_of u) (last_of u') -> kind_last u' = kind_last u -> after_first u' = after_first u ->
  map strip (children k w all' pos first u' n on v') = map strip (children k w all pos first u n on v).
Proof.
  intros LA. induction 1 as [|x x' v v' X V IH]; intros F u u' n on LP K1 K2; [reflexivity|]. inversion F as [|? ? FX FV]; subst. cbn [children]. cbv zeta.
  pose proof (peer_moved x x' FX X) as P.
  assert (Forall2 peer v v') as PV by (clear - V FV; induction V; inversion FV; subst; constructor; auto; apply peer_moved; auto).
  rewrite (peer_turns k _ _ x x' v v' LP P PV), (peer_continues k x x' P), (peer_keeps k x x' P), (pe_wraps _ _ P), (pe_leak _ _ P), (pe_kind _ _ P), (moved_multi same_text 0 x x' FX X), K1, K2, (peer_bequeathed k w all all' x x' LA P).
  rewrite (position_same k w (turns k (last_of u) x v) (multi_if x) (multi_if x) (is_late x') (is_late x)) by (auto; eapply moved_late, X).
  rewrite !map_app. f_equal.
  - rewrite (moved_spots same_text 0 x x' FX X). destruct u, u'; try discriminate K1; reflexivity.
  - apply IH; [exact FV|exact (pe_last _ _ P)| |].
    + cbn [kind_last]. rewrite (pe_kind _ _ P). reflexivity.
    + destruct u, u'; try discriminate K1; reflexivity.
Qed.
Lemma kindred_up Q k u q ds ds' v v' : kindred Q (CTree q ds) (CTree q ds') -> fits (CTree k (u ++ CTree q ds :: v)) -> fits (CTree k (u ++ CTree q ds' :: v')) -> Forall2 tm v v' ->
  kindred Q (CTree k (u ++ CTree q ds :: v)) (CTree k (u ++ CTree q ds' :: v')).
Proof.
  intros (P & SP) F F' V. set (c := CTree q ds) in *. set (c' := CTree q ds') in *. set (cs := u ++ c :: v) in *. set (cs' := u ++ c' :: v') in *.
  assert (Forall fits v) as FV by (apply fits_kids in F as (_ & _ & F); apply Forall_app in F as [_ F]; inversion F; auto).
  assert (Forall2 peer v v') as PV by (clear - V FV; induction V; inversion FV; subst; constructor; auto; apply peer_moved; auto).
  assert (Forall2 peer cs cs') as PC by (apply Forall2_app; [clear; induction u; constructor; auto; apply peer_refl|constructor; auto]).
  pose proof (forall2_len _ _ _ PC) as LA. split; [apply peer_up; auto|].
  intros r pos first n on inh. rewrite !spots_tree, (peers_wide k cs cs' inh F F' PC). generalize (wide k cs inh). intro w.
  unfold cs at 2, cs' at 2. clear PC F F'. revert LA. generalize cs cs'. clear cs cs'. intros all all' LA.
  change (@nil child) with (@nil child). generalize (@nil child). revert n on. induction u as [|d u IH]; intros n on u0.
  - cbn [app children]. cbv zeta.
    rewrite (peer_turns k (last_of u0) (last_of u0) c c' v v') by (auto; destruct u0; cbn; auto).
    rewrite (peer_continues k c c' P), (peer_keeps k c c' P), (pe_wraps _ _ P), (pe_leak _ _ P), (pe_kind _ _ P), (peer_bequeathed k w all all' c c' LA P).
    set (on' := on || turns k (last_of u0) c v).
    assert (position_of k w (turns k (last_of u0) c v) (multi_if c') (is_late c') (after_first u0) (kind_last u0) (kind_of c) =
            position_of k w (turns k (last_of u0) c v) (multi_if c) (is_late c) (after_first u0) (kind_last u0) (kind_of c)) as ->.
    { apply position_same; [|reflexivity]. intro VA. apply (pe_multi _ _ P). unfold c in *. cbn [kind_of] in *. destruct k; try discriminate VA; destruct q; try discriminate VA; reflexivity. }
    assert (deeper k w (multi_if c') (kind_last u0) (kind_of c) = deeper k w (multi_if c) (kind_last u0) (kind_of c)) as ->.
    { unfold deeper. destruct (value k (kind_of c)) eqn:VA; [|reflexivity]. rewrite (pe_multi _ _ P); [reflexivity|]. unfold c in *. cbn [kind_of] in *. destruct k; try discriminate VA; destruct q; try discriminate VA; reflexivity. }
    set (p := position_of k w _ _ _ _ _ _).
    match goal with |- context [spots k ?a ?b ?m ?o ?i c] => destruct (SP k a b m o i) as (S1 & X & X' & S2 & S2' & E1 & E2 & ES & HQ) end.
    rewrite E1, E2, <- !app_assoc. do 5 eexists. split; [reflexivity|]. split; [reflexivity|]. split; [|exact HQ]. rewrite !map_app, ES. f_equal.
    apply children_after; auto.
    cbn [last_of last_peer]. apply P.
  - cbn [app children]. cbv zeta.
    assert (turns k (last_of u0) d (u ++ c' :: v') = turns k (last_of u0) d (u ++ c :: v)) as ->.
    { apply peer_turns; [destruct u0; cbn; auto|apply peer_refl|]. apply Forall2_app; [clear; induction u; constructor; auto; apply peer_refl|constructor; auto]. }
    rewrite (peer_bequeathed k w all all' d d LA (peer_refl d)).
    match goal with |- context [children k w all pos first (d :: u0) ?m ?o (u ++ c :: v)] => destruct (IH m o (d :: u0)) as (S1 & X & X' & S2 & S2' & E1 & E2 & ES & HQ) end.
    rewrite E1, E2, !(app_assoc _ S1). do 5 eexists. split; [reflexivity|]. split; [reflexivity|]. auto.
Qed.
Lemma kindred_plug Q F F' : Forall2 (frame_moved same_text 0) F F' -> forall q ds ds', kindred Q (CTree q ds) (CTree q ds') -> fits (plug F (CTree q ds)) -> fits (plug F' (CTree q ds')) ->
  kindred Q (plug F (CTree q ds)) (plug F' (CTree q ds')).
Proof.
  induction 1 as [|[[k u] v] [[k' u'] v'] F F' (E1 & E2 & V) _ IH]; intros q ds ds' A FT FT'; [exact A|]. cbn [fst snd] in *. subst k' u'.
  cbn [plug fold_right fst snd] in *. fold (plug F (CTree q ds)) in *. fold (plug F' (CTree q ds')) in *.
  assert (forall k u c v, fits (CTree k (u ++ c :: v)) -> fits c) as DN by (intros ? ? ? ? G; apply fits_kids in G as (_ & _ & G); apply Forall_app in G as [_ G]; inversion G; auto).
  specialize (IH q ds ds' A (DN _ _ _ _ FT) (DN _ _ _ _ FT')).
  assert (forall G q0 x, exists q1 ds1, plug G (CTree q0 x) = CTree q1 ds1) as SH by (intros [|[[? ?] ?] ?] ? ?; cbn [plug fold_right]; eauto).
  destruct (SH F q ds) as (q1 & ds1 & E1). destruct (SH F' q ds') as (q2 & ds2 & E2). rewrite E1, E2 in *.
  assert (q2 = q1) as -> by (pose proof (pe_kind _ _ (proj1 IH)) as K; cbn [kind_of] in K; congruence). apply kindred_up; auto.
Qed.

(** ** The tokens next to the expression *)
Lemma no_dot d : fits d -> match kind_of d with Term t => t <> TDot | Rule q => among dotted q = false end -> head_kind d <> Some TDot.
Proof.
  induction d as [t|k cs IH] using child_ind2; intros F N; [cbn [kind_of] in N; unfold head_kind; cbn [toks]; congruence|]. cbn [kind_of] in N.
  apply fits_kids in F as (NE & L & F). destruct cs as [|d v]; [contradiction|]. inversion F; inversion IH; subst. rewrite head_cons by auto. apply H5; [assumption|].
  cbn [map] in L. apply firsts_complete in L. destruct (tables k) as (_ & _ & _ & _ & _ & T & _). unfold up_ok in T. rewrite N in T. cbn [orb] in T. rewrite forallb_forall in T. apply T in L.
  apply negb_true_iff, orb_false_iff in L as [L1 L2]. rewrite kind_is. destruct (sym_of d); [intros ->; discriminate|exact L2].
Qed.
Lemma after_expression F c : kind_of c = Rule KExpression -> fits (plug F c) ->
  (rights F = [] -> rule_in enders (kind_of (plug F c)) = true) /\ (forall t r, rights F = t :: r -> tkind_of t <> TDot).
Proof.
  intro K. induction F as [|[[k u] v] F IH]; intro FT; [cbn [plug fold_right rights]; rewrite K; split; [reflexivity|discriminate]|].
  cbn [plug fold_right fst snd rights] in *. fold (plug F c) in *. set (d := plug F c) in *.
  pose proof (fits_kids _ _ FT) as (_ & L & FC). apply Forall_app in FC as [_ FC]. inversion FC as [|? ? FD FV]; subst. destruct (IH FD) as [I1 I2]. split.
  - intro E. apply app_eq_nil in E as [E1 E2]. destruct v as [|e v]; [|inversion FV as [|? ? FE _]; subst; apply toks_some in FE; cbn [flat_map] in E2; apply app_eq_nil in E2 as [E2 _]; contradiction].
    cbn [kind_of rule_in]. rewrite map_app in L. pose proof (lasts_complete _ _ L (map sym_of u) (sym_of d) eq_refl) as LL.
    destruct (tables k) as (_ & _ & _ & _ & T & _). unfold up_ok in T. apply orb_true_iff in T as [T|T]; [exact T|]. rewrite forallb_forall in T. apply T in LL. rewrite <- kind_is, (I1 E1) in LL. discriminate.
  - intros t r E. destruct (rights F) as [|t0 r0] eqn:ER; [|cbn [app] in E; assert (t0 = t) as <- by congruence; eapply I2; reflexivity].
    cbn [app] in E. destruct v as [|e v]; [discriminate|]. inversion FV as [|? ? FE _]; subst.
    assert (In (sym_of d, sym_of e) (pairs (prod k))) as P by (apply (child_pair k u d e v FT)). destruct (tables k) as (_ & _ & _ & _ & _ & _ & T). unfold pairs_ok in T. rewrite forallb_forall in T. apply T in P.
    cbn [fst snd] in P. apply andb_true_iff in P as [P _]. rewrite <- kind_is, (I1 eq_refl) in P. cbn [negb orb] in P.
    assert (head_kind e <> Some TDot) as HE.
    { apply no_dot; [exact FE|]. rewrite kind_is. destruct (sym_of e); [intros ->; discriminate|]. apply negb_true_iff. exact P. }
    intro KT. apply HE. unfold head_kind. apply toks_some in FE. cbn [flat_map] in E. destruct (toks e) as [|t1 r1]; [contradiction|]. cbn [app] in E. congruence.
Qed.
Lemma before_expression_ok F c : kind_of c = Rule KExpression -> fits (plug F c) ->
  (lefts F = [] -> leads (plug F c) = true) /\ (forall l t, lefts F = l ++ [t] -> before_expression (tkind_of t) = true).
Proof.
  intro K. induction F as [|[[k u] v] F IH]; intro FT; [cbn [plug fold_right lefts flat_map]; unfold leads; rewrite K; split; [reflexivity|intros l t E; destruct l; discriminate]|].
  cbn [plug fold_right fst snd lefts flat_map] in *. fold (plug F c) in *. fold (lefts F). set (d := plug F c) in *.
  pose proof (fits_kids _ _ FT) as (_ & L & FC). apply Forall_app in FC as [FU FC]. inversion FC as [|? ? FD _]; subst. destruct (IH FD) as [I1 I2]. split.
  - intro E. apply app_eq_nil in E as [E2 E1]. destruct u as [|e u]; [|inversion FU as [|? ? FE _]; subst; apply toks_some in FE; cbn [flat_map] in E2; apply app_eq_nil in E2 as [E2 _]; contradiction].
    unfold leads. cbn [kind_of rule_in]. cbn [app map] in L. apply firsts_complete in L.
    destruct (tables k) as (_ & _ & _ & T & _). unfold up_ok in T. apply orb_true_iff in T as [T|T]; [exact T|]. rewrite forallb_forall in T. apply T in L. cbn [orb] in L. specialize (I1 E1). unfold leads in I1. rewrite kind_is in I1. rewrite I1 in L. discriminate.
  - intros l t E. destruct (lefts F) as [|t0 r0] eqn:ER.
    + rewrite app_nil_r in E. destruct (@exists_last _ u) as (u0 & e & ->); [intros ->; destruct l; discriminate|].
      rewrite <- app_assoc in FT. cbn [app] in FT. assert (In (sym_of e, sym_of d) (pairs (prod k))) as P by (apply (child_pair k u0 e d v FT)).
      destruct (tables k) as (_ & _ & _ & _ & _ & _ & T). unfold pairs_ok in T. rewrite forallb_forall in T. apply T in P. cbn [fst snd] in P. apply andb_true_iff in P as [_ P].
      specialize (I1 eq_refl). unfold leads in I1. rewrite kind_is in I1. rewrite I1 in P. cbn [negb orb] in P.
      destruct e as [t1|]; cbn [sym_of] in P; [|discriminate]. rewrite flat_map_app in E. cbn [flat_map toks app] in E. apply app_inj_tail in E as [_ <-]. exact P.
    + destruct (@exists_last _ (t0 :: r0)) as (l1 & t1 & E1); [discriminate|]. rewrite E1 in E. rewrite app_assoc in E. apply app_inj_tail in E as [_ <-]. apply (I2 l1). exact E1.
Qed.
Lemma last_ending c : fits c -> match kind_of c with Rule q => among endings q = true | Term t => ending t = true end -> forall l t, toks c = l ++ [t] -> ending (tkind_of t) = true.
Proof.
  induction c as [t|k cs IH] using child_ind2; intros F N l x E; cbn [kind_of] in N; [cbn [toks] in E; apply (app_inj_tail [] l) in E as [_ <-]; exact N|].
  apply fits_kids in F as (NE & L & F). destruct (exists_last NE) as (u & d & ->). apply Forall_app in F as [_ F]. apply Forall_app in IH as [_ IH]. inversion F as [|? ? FD _]; inversion IH as [|? ? ID _]; subst.
  cbn [toks] in E. rewrite flat_map_app in E. cbn [flat_map] in E. rewrite app_nil_r in E. destruct (@exists_last _ (toks d)) as (r & y & EY); [apply toks_some, FD|].
  rewrite EY in E. rewrite app_assoc in E. apply app_inj_tail in E as [_ <-]. apply (ID FD) with (l := r); [|exact EY].
  rewrite map_app in L. pose proof (lasts_complete _ _ L (map sym_of u) (sym_of d) eq_refl) as LL. destruct (tables k) as (_ & T & _). unfold endings_ok in T. rewrite N in T. cbn [negb orb] in T. rewrite forallb_forall in T. apply T in LL.
  rewrite kind_is. destruct (sym_of d); exact LL.
Qed.
Definition opens_expression (r : skind) (t : tkind) : bool :=
  negb (closing_bracket t) && negb (one_of t [TComma; TSemicolon; TDotStar; TEqual; TEq]) && (negb (opening_bracket t) || skind_eqb r KPrimary).
Lemma first_opening c : fits c -> forall k cs, c = CTree k cs -> among openings k = true ->
  forall q pos first n on inh x xs, spots q pos first n on inh c = x :: xs -> opens_expression (at_rule x) (tkind_of (at_tok x)) = true.
Proof.
  induction c as [t|k0 cs0 IH] using child_ind2; intros F k cs EC A q pos first n on inh x xs E; [discriminate|]. injection EC as -> ->.
  apply fits_kids in F as (NE & L & F). destruct cs as [|d v]; [contradiction|]. rewrite spots_tree in E. cbn [children] in E. cbv zeta in E. inversion F as [|? ? FD _]; inversion IH as [|? ? ID _]; subst.
  cbn [map] in L. apply firsts_complete in L. destruct (tables k) as (_ & _ & T & _). unfold openings_ok in T. rewrite A in T. cbn [negb orb] in T. rewrite forallb_forall in T. apply T in L.
  destruct d as [t|q0 ds].
  - cbn [spots app] in E. assert (at_rule x = k /\ at_tok x = t) as [-> ->] by (inversion E; subst; split; reflexivity). exact L.
  - cbn [sym_of] in L. match type of E with spots ?a ?b ?c ?d ?e ?f ?g ++ _ = _ => destruct (spots a b c d e f g) as [|y ys] eqn:ES end.
    + exfalso. apply (f_equal (map at_tok)) in ES. rewrite spots_toks in ES. apply toks_some in FD. contradiction.
    + cbn [app] in E. assert (y = x) as -> by congruence. eapply (ID FD q0 ds eq_refl L). exact ES.
Qed.

(** ** Layouts *)
Lemma tight_before a r t : before_expression a = true -> opens_expression r t = true -> tight a r t = opening_bracket a.
Proof.
  intros A B. unfold opens_expression in B. apply andb_true_iff in B as [B B3]. apply andb_true_iff in B as [B1 B2]. apply negb_true_iff in B1, B2. unfold tight. rewrite B1.
  unfold before_expression in A. apply negb_true_iff in A. unfold one_of in A, B2. cbn [existsb] in A, B2. rewrite !orb_false_iff in A, B2. destruct A as (A1 & A2 & A3 & _). destruct B2 as (-> & -> & D & _).
  assert (tkind_eqb a TDot = false) as -> by exact A3. destruct (opening_bracket a); [reflexivity|].
  unfold one_of. cbn [existsb]. rewrite A1, A2, D. cbn [orb]. destruct (tkind_eqb t TDot); [reflexivity|].
  destruct (opening_bracket t); [|reflexivity]. cbn [negb orb] in B3. rewrite B3. reflexivity.
Qed.
Lemma tight_after a a' r e : ending a = true -> ending a' = true -> e <> TDot -> tight a r e = tight a' r e.
Proof.
  intros A A' N. unfold tight.
  assert (tkind_eqb e TDot = false) as -> by (destruct (tkind_eqb e TDot) eqn:E; [apply tkind_eqb_eq in E; contradiction|reflexivity]).
  destruct a; try discriminate A; destruct a'; try discriminate A'; reflexivity.
Qed.
Lemma put_head p ln cs x x' : at_pos x' = at_pos x -> at_level x' = at_level x -> line (tstart (at_tok x')) = line (tstart (at_tok x)) ->
  match p with Some (_, a) => before_expression a = true | None => True end ->
  opens_expression (at_rule x) (tkind_of (at_tok x)) = true -> opens_expression (at_rule x') (tkind_of (at_tok x')) = true ->
  exists L w, put p ln cs x = L ++ [mkE w (Some (at_rule x)) (at_tok x)] /\ put p ln cs x' = L ++ [mkE w (Some (at_rule x')) (at_tok x')].
Proof.
  intros P V E B O O'. destruct (at_pos x) as [| | |b] eqn:PX.
  - unfold put. rewrite P, PX. exists []. destruct p as [[r a]|]; [|eexists; split; reflexivity]. rewrite !tight_before by auto. eexists. split; reflexivity.
  - unfold put. rewrite P, PX. exists []. eexists. split; reflexivity.
  - unfold put. rewrite P, PX. exists []. eexists. split; reflexivity.
  - eapply put_same; eauto.
Qed.
Lemma weave_head A : forall p ln cs Y x x' t t' rest rest' xs xs', filter plain A = map at_tok Y -> plain t = true -> plain t' = true -> at_tok x = t -> at_tok x' = t' ->
  at_pos x' = at_pos x -> at_level x' = at_level x -> line (tstart t') = line (tstart t) ->
  opens_expression (at_rule x) (tkind_of t) = true -> opens_expression (at_rule x') (tkind_of t') = true ->
  (filter plain A = [] -> match p with Some (_, a) => before_expression a = true | None => True end) ->
  (forall l z, filter plain A = l ++ [z] -> before_expression (tkind_of z) = true) ->
  exists L w,
    weave p ln cs (A ++ t :: rest) (Y ++ x :: xs) = L ++ mkE w (Some (at_rule x)) t :: weave (Some (at_rule x, tkind_of t)) (line (tend t)) [] rest xs /\
    weave p ln cs (A ++ t' :: rest') (Y ++ x' :: xs') = L ++ mkE w (Some (at_rule x')) t' :: weave (Some (at_rule x', tkind_of t')) (line (tend t')) [] rest' xs' /\
    forall e, In e L -> In (e_tok e) (cs ++ A).
Proof.
  induction A as [|a A IH]; intros p ln cs Y x x' t t' rest rest' xs xs' E P P' T T' Q V LN O O' B1 B2.
  - destruct Y; [|discriminate]. cbn [app weave]. rewrite plain_comment in P, P'. apply negb_true_iff in P, P'. rewrite P, P'.
    destruct (put_head p ln cs x x' Q V) as (L & w & E1 & E2); [congruence|apply B1; reflexivity|congruence|congruence|].
    rewrite E1, E2, <- !app_assoc, T, T'. exists L, w. split; [reflexivity|]. split; [reflexivity|].
    intros e I. rewrite app_nil_r. destruct (put_last p ln cs x) as (L0 & w0 & E0 & _ & I0). rewrite E1 in E0. apply app_inj_tail in E0 as [<- _]. auto.
  - cbn [app weave filter] in *. rewrite plain_comment in E, B1, B2. destruct (is_comment a) eqn:C; cbn [negb] in E, B1, B2.
    + destruct (IH p ln (cs ++ [a]) Y x x' t t' rest rest' xs xs' E P P' T T' Q V LN O O' B1 B2) as (L & w & E1 & E2 & I). exists L, w. split; [exact E1|]. split; [exact E2|].
      intros e J. apply I in J. rewrite <- app_assoc in J. exact J.
    + destruct Y as [|y Y]; [discriminate|]. cbn [map] in E. assert (a = at_tok y) as TY by congruence. apply (f_equal (@List.tl _)) in E. cbn [List.tl] in E. cbn [app].
      destruct (IH (Some (at_rule y, tkind_of a)) (line (tend a)) [] Y x x' t t' rest rest' xs xs' E P P' T T' Q V LN O O') as (L & w & -> & -> & I).
      { intro N. apply (B2 []). rewrite N. reflexivity. }
      { intros l z EZ. apply (B2 (a :: l)). rewrite EZ. reflexivity. }
      destruct (put_last p ln cs y) as (L0 & w0 & EP & _ & I0). rewrite !app_assoc. do 2 eexists. split; [reflexivity|]. split; [reflexivity|].
      intros e J. apply in_app_or in J as [J|J]; [|apply I in J; cbn [app] in J; apply in_or_app; right; right; exact J].
      rewrite EP in J. apply in_app_or in J as [J|[<-|[]]]; [apply in_or_app; left; auto|]. apply in_or_app. right. left. exact TY.
Qed.
Lemma weave_tail r r' a a' : ending a = true -> ending a' = true -> forall items ln cs xs, filter plain items = map at_tok xs -> (forall t l, filter plain items = t :: l -> tkind_of t <> TDot) ->
  weave (Some (r, a)) ln cs items xs = weave (Some (r', a')) ln cs items xs.
Proof.
  intros A A'. induction items as [|t items IH]; intros ln cs xs E N; [reflexivity|]. cbn [weave filter] in *. rewrite plain_comment in E, N.
  destruct (is_comment t); cbn [negb] in E, N; [apply IH; auto|]. destruct xs as [|x xs]; [reflexivity|]. f_equal. cbn [map] in E. assert (t = at_tok x) as TX by congruence.
  unfold put. destruct (at_pos x); try reflexivity. rewrite (tight_after a a'); auto. rewrite <- TX. eapply N. reflexivity.
Qed.
(** The layout of tokens on one line. *)
Definition beside_white (p : skind * tkind) (x : spot) : white :=
  match at_pos x with
  | Attached => WNone
  | Detached => WSpace
  | _ => if tight (snd p) (at_rule x) (tkind_of (at_tok x)) then WNone else WSpace
  end.
Fixpoint inline (p : skind * tkind) (xs : list spot) : layout :=
  match xs with [] => [] | x :: xs' => mkE (beside_white p x) (Some (at_rule x)) (at_tok x) :: inline (at_rule x, tkind_of (at_tok x)) xs' end.
Lemma weave_inline items : forall p ln cs xs, filter plain items = map at_tok xs -> Forall (fun x => below (at_pos x) = false) xs ->
  weave (Some p) ln cs items xs = inline p xs.
Proof.
  induction items as [|t items IH]; intros p ln cs xs E N; [destruct xs; [reflexivity|discriminate]|]. cbn [weave filter] in *. rewrite plain_comment in E.
  destruct (is_comment t); cbn [negb] in E; [apply IH; auto|]. destruct xs as [|x xs]; [discriminate|]. cbn [map] in E. assert (t = at_tok x) as TX by congruence. apply (f_equal (@List.tl _)) in E. cbn [List.tl] in E.
  inversion N as [|? ? NX NS]; subst. rewrite IH by auto. cbn [inline]. unfold put, beside_white. destruct (at_pos x); try discriminate NX; destruct p; reflexivity.
Qed.
Theorem swap_layout F F' ds ds' ln IA IX IX' IB IB' t0 mid t0' mid' :
  let c := CTree KExpression ds in let c' := CTree KExpression ds' in
  Forall2 (frame_moved same_text 0) F F' -> fits (plug F c) -> fits (plug F' c') -> flat_on ln c -> flat_on ln c' ->
  toks (plug F c) = filter plain (IA ++ IX ++ IB) -> toks (plug F' c') = filter plain (IA ++ IX' ++ IB') ->
  NoDup (IA ++ IX ++ IB) -> NoDup (IA ++ IX' ++ IB') -> filter plain IX = toks c -> filter plain IX' = toks c' ->
  IX = t0 :: mid -> IX' = t0' :: mid' -> plain t0 = true -> plain t0' = true ->
  (exists m z, IX = m ++ [z] /\ plain z = true) -> (exists m z, IX' = m ++ [z] /\ plain z = true) ->
  Forall2 (moved same_text 0) IB IB' ->
  exists la lb lb' wh x xs x' xs',
    reference (plug F c) (IA ++ IX ++ IB) = la ++ (mkE wh (Some (at_rule x)) t0 :: inline (at_rule x, tkind_of t0) xs) ++ lb /\
    reference (plug F' c') (IA ++ IX' ++ IB') = la ++ (mkE wh (Some (at_rule x')) t0' :: inline (at_rule x', tkind_of t0') xs') ++ lb' /\
    Forall2 (entry_moved same_text 0) lb lb' /\ (exists q pos first n on inh, spots q pos first n on inh c = x :: xs) /\ (exists q pos first n on inh, spots q pos first n on inh c' = x' :: xs') /\
    (forall y, In y la -> In (e_tok y) IA) /\ (forall y, In y lb -> In (e_tok y) IB) /\ (forall y, In y lb' -> In (e_tok y) IB').
Proof.
  intros c c' FF FT FT' HC HC' TK TK' ND ND' TW TW' EX EX' P0 P0' (m & z & EZ & PZ) (m' & z' & EZ' & PZ') MB.
  assert (fits c) as FC by (eapply fits_plug; exact FT). assert (fits c') as FC' by (eapply fits_plug; exact FT').
  pose (Q := fun X X' : list spot => exists q pos first n on inh, X = spots q pos first n on inh c /\ X' = spots q pos first n on inh c').
  assert (kindred Q c c') as KC.
  { split; [apply (peer_expression ln); auto|]. intros q pos first n on inh. exists [], (spots q pos first n on inh c), (spots q pos first n on inh c'), [], [].
    rewrite !app_nil_r. cbn [app]. split; [reflexivity|]. split; [reflexivity|]. split; [reflexivity|]. exists q, pos, first, n, on, inh. auto. }
  destruct (kindred_plug Q F F' FF KExpression ds ds' KC FT FT') as (_ & AK).
  destruct (AK KStoredDefinition Beside 0%nat 0%nat false false) as (S1 & X & X' & S2 & S2' & E1 & E2 & ES & q & pos & first & n & on & inh & XE & XE'). clear AK.
  destruct (expression_spots ln ds FC HC) as (r0 & ps & NP & SPO). destruct (SPO q pos first n on inh) as (x & xs & EQ & XP & XL & XR & XG). clear SPO.
  destruct (expression_spots ln ds' FC' HC') as (r0' & ps' & NP' & SPO). destruct (SPO q pos first n on inh) as (x' & xs' & EQ' & XP' & XL' & XR' & XG'). clear SPO.
  fold c in EQ. fold c' in EQ'. rewrite EQ in XE. rewrite EQ' in XE'.
  assert (map at_tok X = filter plain IX) as T1 by (rewrite XE, <- EQ, spots_toks, TW; reflexivity).
  assert (map at_tok X' = filter plain IX') as T2 by (rewrite XE', <- EQ', spots_toks, TW'; reflexivity).
  assert (In t0 (filter plain IX)) as I0 by (rewrite EX; cbn [filter]; rewrite P0; left; reflexivity).
  assert (In t0' (filter plain IX')) as I0' by (rewrite EX'; cbn [filter]; rewrite P0'; left; reflexivity).
  assert (map at_tok (S1 ++ X ++ S2) = filter plain IA ++ filter plain IX ++ filter plain IB) as M1 by (rewrite <- E1, spots_toks; fold c; rewrite TK, !filter_app; reflexivity).
  assert (map at_tok (S1 ++ X' ++ S2') = filter plain IA ++ filter plain IX' ++ filter plain IB') as M2 by (rewrite <- E2, spots_toks; fold c'; rewrite TK', !filter_app; reflexivity).
  assert (NoDup (filter plain IA ++ filter plain IX ++ filter plain IB)) as N1 by (rewrite <- !filter_app; apply NoDup_filter, ND).
  assert (NoDup (filter plain IA ++ filter plain IX' ++ filter plain IB')) as N2 by (rewrite <- !filter_app; apply NoDup_filter, ND').
  destruct (parts_of S1 X S2 _ _ _ t0 N1 M1 T1 I0) as [A1 A2]. destruct (parts_of S1 X' S2' _ _ _ t0' N2 M2 T2 I0') as [_ A2'].
  assert (filter plain IA = lefts F /\ filter plain IB = rights F) as [AL AR].
  { pose proof TK as TK0. rewrite plug_toks, !filter_app, <- TW in TK0. clear - TK0 I0 N1. apply in_split in I0 as (b1 & b2 & E). rewrite E in *. rewrite <- !app_assoc in *. cbn [app] in *.
    rewrite (app_assoc (filter plain IA)) in N1, TK0. rewrite (app_assoc (lefts F)) in TK0. symmetry in TK0. apply nodup_split in TK0 as [E1 E2]; [|exact N1]. apply app_inv_tail in E1. apply app_inv_head in E2. auto. }
  rewrite XE in T1. rewrite XE' in T2. rewrite EX in T1. rewrite EX' in T2. cbn [map filter] in T1, T2. rewrite P0 in T1. rewrite P0' in T2.
  assert (at_tok x = t0) as TX by congruence. assert (at_tok x' = t0') as TX' by congruence. apply (f_equal (@List.tl _)) in T1, T2. cbn [List.tl] in T1, T2.
  assert (opens_expression (at_rule x) (tkind_of t0) = true) as O by (rewrite <- TX; eapply (first_opening c FC KExpression ds eq_refl eq_refl); exact EQ).
  assert (opens_expression (at_rule x') (tkind_of t0') = true) as O' by (rewrite <- TX'; eapply (first_opening c' FC' KExpression ds' eq_refl eq_refl); exact EQ').
  assert (line (tstart t0) = ln /\ line (tstart t0') = ln) as [LN LN'].
  { unfold flat_on in HC, HC'. rewrite Forall_forall in HC, HC'. rewrite <- TW in HC. rewrite <- TW' in HC'. split; [apply HC, I0|apply HC', I0']. }
  assert (line (tend z) = ln /\ line (tend z') = ln) as [LZ LZ'].
  { unfold flat_on in HC, HC'. rewrite Forall_forall in HC, HC'. rewrite <- TW, EZ, filter_app in HC. rewrite <- TW', EZ', filter_app in HC'. cbn [filter] in HC, HC'. rewrite PZ in HC. rewrite PZ' in HC'.
    split; [apply HC|apply HC']; apply in_or_app; right; left; reflexivity. }
  assert (forall w b0 l0, toks w = l0 ++ [b0] -> fits w -> kind_of w = Rule KExpression -> ending (tkind_of b0) = true) as EN.
  { intros w b0 l0 EW FW KW. refine (last_ending w FW _ l0 b0 EW). rewrite KW. reflexivity. }
  assert (ending (tkind_of z) = true) as Z1. { apply (EN c z (filter plain m)); auto. rewrite <- TW, EZ, filter_app. cbn [filter]. rewrite PZ. reflexivity. }
  assert (ending (tkind_of z') = true) as Z2. { apply (EN c' z' (filter plain m')); auto. rewrite <- TW', EZ', filter_app. cbn [filter]. rewrite PZ'. reflexivity. }
  destruct (before_expression_ok F c eq_refl FT) as [_ BE]. destruct (after_expression F c eq_refl FT) as [_ AE].
  unfold reference. fold c c' in E1, E2. rewrite E1, E2, XE, XE'. rewrite EX, EX'. cbn [app].
  destruct (weave_head IA None 1 [] S1 x x' t0 t0' (mid ++ IB) (mid' ++ IB') (xs ++ S2) (xs' ++ S2')) as (L & wh & W1 & W2 & WI); auto; try congruence.
  { intros l z0 EL. rewrite AL in EL. eapply BE, EL. }
  rewrite W1, W2.
  assert (forall (t : token) md zz mm zs S ln0 a0 B, t :: md = mm ++ [zz] -> plain zz = true -> map at_tok zs = filter plain md -> Forall (fun y => below (at_pos y) = false) zs -> line (tend t) = ln0 -> line (tend zz) = ln0 ->
     exists r, weave (Some (a0, tkind_of t)) (line (tend t)) [] (md ++ B) (zs ++ S) = inline (a0, tkind_of t) zs ++ weave (Some (r, tkind_of zz)) ln0 [] B S) as WA.
  { clear. intros t md zz mm zs S ln0 a0 B E P M NB L1 L2. destruct md as [|y md].
    - destruct mm as [|? [|]]; [|discriminate..]. cbn [app] in E. assert (t = zz) as -> by congruence. destruct zs; [|discriminate]. exists a0. cbn [app inline]. rewrite L1. reflexivity.
    - destruct (@exists_last _ (y :: md)) as (l & w & EL); [discriminate|]. rewrite EL in *. rewrite app_comm_cons in E. apply app_inj_tail in E as [_ ->].
      destruct (weave_app l zz P (Some (a0, tkind_of t)) (line (tend t)) [] zs (eq_sym M)) as (r & H). exists r. rewrite H, L2. f_equal. apply weave_inline; [symmetry; exact M|exact NB]. }
  assert (forall ys qs, map glyph ys = qs -> Forall (fun g => below (snd g) = false) qs -> Forall (fun y => below (at_pos y) = false) ys) as GB.
  { clear. intros ys qs <- H. apply Forall_forall. intros y I. rewrite Forall_forall in H. apply (H (glyph y)). apply in_map, I. }
  assert (line (tend t0) = ln /\ line (tend t0') = ln) as [LE LE'].
  { unfold flat_on in HC, HC'. rewrite Forall_forall in HC, HC'. rewrite <- TW in HC. rewrite <- TW' in HC'. split; [apply HC, I0|apply HC', I0']. }
  destruct (WA t0 mid z m xs S2 ln (at_rule x) IB) as (r1 & ->); auto; [congruence|eapply GB; eauto|].
  destruct (WA t0' mid' z' m' xs' S2' ln (at_rule x') IB') as (r2 & ->); auto; [congruence|eapply GB; eauto|].
  assert (Forall2 (moved same_text 0) (map at_tok S2) (map at_tok S2')) as MS.
  { rewrite A2, A2'. apply moved_filter; auto. intros t t' (_ & K & _). unfold plain. rewrite K. reflexivity. }
  pose proof (weave_moved same_text 0 IB IB' MB (Some (r1, tkind_of z)) ln [] [] S2 S2' ltac:(constructor) ES MS) as WM. rewrite N.add_0_r in WM.
  destruct (after_expression F' c' eq_refl FT') as [_ AE'].
  assert (filter plain IB' = rights F') as AR'.
  { pose proof TK' as TK0. rewrite plug_toks, !filter_app, <- TW' in TK0. clear - TK0 I0' N2. apply in_split in I0' as (b1 & b2 & E). rewrite E in *. rewrite <- !app_assoc in *. cbn [app] in *.
    rewrite (app_assoc (filter plain IA)) in N2, TK0. rewrite (app_assoc (lefts F')) in TK0. symmetry in TK0. apply nodup_split in TK0 as [E1 E2]; [|exact N2]. apply app_inv_head in E2. auto. }
  rewrite (weave_tail r2 r1 (tkind_of z') (tkind_of z) Z2 Z1 IB' ln [] S2' (eq_sym A2')) by (intros t l E; rewrite AR' in E; eapply AE', E).
  exists L. do 2 eexists. exists wh, x, xs, x', xs'. cbn [app]. split; [reflexivity|]. split; [reflexivity|]. split; [exact WM|].
  split; [do 6 eexists; exact EQ|]. split; [do 6 eexists; exact EQ'|]. split; [exact WI|].
  split; intros y I; apply weave_in in I; auto.
Qed.
