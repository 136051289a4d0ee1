(** Formatting a text twice: the second time the rules of SpecReference see the line breaks of the first
    result. This file compares the line breaks they ask for. *)
From Coq Require Import Sorted.
From Verif Require Import ProofBase Tokens Syntax Lexer SpecLex LexInv LexMain LexFacts ParserCore Grammar
  Tree Printer Formatter Lib ParserSem ParserFuel SpecGrammar Regex ParserGrammar ParserTree ParserFacts Recognise PropsParser
  FmtAbs FmtPlan FmtShape FmtTables FmtSound SpecLayout FmtExec FmtTop FmtFacts FmtRelex FmtNeat SpecNodes FmtTree FmtLists FmtOps
  FmtWrap SpecGaps SpecReference FmtNode FmtReference FmtSame PropsFormat PropsReference.

(** ** Which tokens start a line *)
Definition is_below (p : position) : bool := match p with Below _ => true | _ => false end.
Definition below_at (k : skind) (w : bool) (u : list child) (d : child) (v : list child) : bool :=
  is_below (position_of k w (turns k (last_of u) d v) (multi_if d) (is_late d) (after_first u) (kind_last u) (kind_of d)).
Definition first_bit (u : list child) (b p : bool) : bool := match u with [] => b || p | _ => p end.
Fixpoint bits (b inh : bool) (c : child) : list bool :=
  match c with
  | CTok _ => [b]
  | CTree k cs =>
      let w := wide k cs inh in
      (fix go (u v : list child) : list bool :=
         match v with
         | [] => []
         | d :: v' => bits (first_bit u b (below_at k w u d v')) (bequeathed k w cs d) d ++ go (d :: u) v'
         end) [] cs
  end.
Fixpoint bits_in (k : skind) (w : bool) (all : list child) (b : bool) (u v : list child) : list bool :=
  match v with
  | [] => []
  | d :: v' => bits (first_bit u b (below_at k w u d v')) (bequeathed k w all d) d ++ bits_in k w all b (d :: u) v'
  end.
Lemma bits_tree b inh k cs : bits b inh (CTree k cs) = bits_in k (wide k cs inh) cs b [] cs.
Proof.
  cbn [bits]. generalize (@nil child). generalize (wide k cs inh). intro w. generalize cs at 1 3. intro all.
  induction cs as [|d v IH]; intros u; [reflexivity|]. cbn [bits_in]. rewrite <- IH. reflexivity.
Qed.

Lemma bits_spots c : forall q pos first n on inh,
  map (fun x => is_below (at_pos x)) (spots q pos first n on inh c) = bits (is_below pos) inh c.
Proof.
  induction c as [t|k cs IH] using child_ind2; intros q pos first n on inh; [reflexivity|].
  rewrite spots_tree, bits_tree. generalize (wide k cs inh). intro w.
  assert (forall all u n on, map (fun x => is_below (at_pos x)) (children k w all pos first u n on cs) = bits_in k w all (is_below pos) u cs) as H; [|apply H].
  intro all. induction IH as [|d v D _ IHv]; intros u n' on'; [reflexivity|].
  cbn [children bits_in]. rewrite map_app, D, IHv. f_equal. f_equal.
  unfold below_at, first_bit. destruct u as [|a u].
  - destruct (position_of _ _ _ _ _ _ _ _); cbn [is_below]; rewrite ?orb_false_r, ?orb_true_r; reflexivity.
  - destruct (position_of _ _ _ _ _ _ _ _); reflexivity.
Qed.

Lemma bits_toks c : forall b inh, length (bits b inh c) = length (toks c).
Proof.
  induction c as [t|k cs IH] using child_ind2; intros b inh; [reflexivity|]. rewrite bits_tree. cbn [toks].
  generalize (wide k cs inh). intro w.
  assert (forall all u, length (bits_in k w all b u cs) = length (flat_map toks cs)) as H; [|apply H].
  intro all. induction IH as [|d v D _ IHv]; intro u; [reflexivity|]. cbn [bits_in flat_map]. rewrite !app_length, D, IHv. reflexivity.
Qed.

(** The flag for the first token adds to what the node itself asks for. *)
Definition flagged (b : bool) (l : list bool) : list bool := match l with [] => [] | x :: r => (b || x) :: r end.
Lemma flagged_app b l r : l <> [] -> flagged b (l ++ r) = flagged b l ++ r.
Proof. destruct l; [contradiction|reflexivity]. Qed.
Lemma toks_some c : fits c -> toks c <> [].
Proof. intro F. rewrite toks_leaves. destruct (fits_start c F) as (t & r & _ & L). rewrite L. discriminate. Qed.
Lemma bits_some b inh c : fits c -> bits b inh c <> [].
Proof. intros F E. apply (f_equal (@length bool)) in E. rewrite bits_toks in E. apply toks_some in F. destruct (toks c); [contradiction|discriminate]. Qed.
Lemma bits_in_nil k w all v : forall b b' u, u <> [] -> bits_in k w all b u v = bits_in k w all b' u v.
Proof.
  induction v as [|d v IH]; intros b b' u U; [reflexivity|]. cbn [bits_in]. destruct u as [|a u]; [contradiction|]. cbn [first_bit].
  rewrite (IH b b'); [reflexivity|discriminate].
Qed.
Lemma bits_flag c : fits c -> forall b inh, bits b inh c = flagged b (bits false inh c).
Proof.
  induction c as [t|k cs IH] using child_ind2; intros F b inh.
  - cbn. rewrite orb_false_r. reflexivity.
  - inversion F as [|? ? NE L FC]; subst. rewrite !bits_tree. destruct cs as [|d v]; [contradiction|].
    inversion IH as [|? ? D _]; subst. inversion FC as [|? ? FD _]; subst. cbn [bits_in first_bit].
    rewrite flagged_app by (apply bits_some; exact FD). f_equal.
    + rewrite (D FD (b || _)), (D FD (false || _)). cbn [orb]. destruct (bits false _ d) as [|x r]; [reflexivity|]. cbn [flagged].
      rewrite orb_assoc. reflexivity.
    + apply bits_in_nil. discriminate.
Qed.

(** ** Lines *)
Definition tall (t : token) : bool := line (tstart t) <? line (tend t).
(** Tokens on lines: a flag says whether the token starts a line. *)
Fixpoint lined (bs : list bool) (ts : list token) : Prop :=
  match bs, ts with
  | [], [] => True
  | _ :: bs', t :: ts' =>
      line (tstart t) <= line (tend t) /\
      match bs', ts' with
      | b :: _, t' :: _ => if b : bool then line (tend t) < line (tstart t') else line (tend t) = line (tstart t')
      | _, _ => True
      end /\ lined bs' ts'
  | _, _ => False
  end.
Lemma lined_length bs : forall ts, lined bs ts -> length bs = length ts.
Proof.
  induction bs as [|b bs IH]; intros [|t ts] L; cbn [lined] in L; try contradiction; [reflexivity|].
  destruct L as (_ & _ & L). cbn [length]. f_equal. auto.
Qed.
Lemma lined_flag b b' bs ts : lined (b :: bs) ts -> lined (b' :: bs) ts.
Proof. destruct ts; auto. Qed.
Lemma lined_app a : forall ts b us, length a = length ts -> lined (a ++ b) (ts ++ us) -> lined a ts /\ lined b us.
Proof.
  induction a as [|x a IH]; intros [|t ts] b us E L; try discriminate; [split; [exact I|exact L]|].
  cbn [app lined] in L. destruct L as (L1 & L2 & L3). destruct (IH ts b us) as [H1 H2]; [auto|exact L3|].
  split; [|exact H2]. cbn [lined]. split; [exact L1|]. split; [|exact H1].
  destruct a as [|y a], ts as [|t' ts]; try discriminate; [exact I|]. exact L2.
Qed.

Lemma lined_span bs : forall b t ts, lined (b :: bs) (t :: ts) ->
  line (tstart t) <= line (tend (last ts t)) /\
  (line (tstart t) < line (tend (last ts t)) <-> existsb (fun x => x) bs = true \/ existsb tall (t :: ts) = true).
Proof.
  induction bs as [|b' bs IH]; intros b t ts L; cbn [lined] in L; destruct L as (L1 & L2 & L3).
  - destruct ts as [|t' ts]; [|contradiction L3]. cbn [last existsb]. split; [exact L1|]. unfold tall. rewrite orb_false_r, N.ltb_lt.
    split; [auto|intros [H|H]; [discriminate|auto]].
  - destruct ts as [|t' ts]; [contradiction L3|].
    replace (last (t' :: ts) t) with (last ts t') by (destruct ts; [reflexivity|]; clear; revert t' t0; induction ts as [|x ts IH]; intros; [reflexivity|]; apply IH).
    destruct (IH b' t' ts L3) as [H1 H2]. cbn [existsb] in *. unfold tall at 1. rewrite !orb_true_iff in *. rewrite N.ltb_lt.
    destruct b'; (split; [lia|]).
    + split; [intro; left; left; reflexivity|]. intros _. lia.
    + split.
      * intro H. destruct (N.eq_dec (line (tstart t)) (line (tend t))) as [E|E]; [|right; left; lia].
        destruct (proj1 H2) as [K|K]; [lia|left; right; exact K|right; right; exact K].
      * intros [[H|H]|[H|H]]; [discriminate| |lia|].
        -- assert (line (tstart t') < line (tend (last ts t'))) by (apply H2; auto). lia.
        -- assert (line (tstart t') < line (tend (last ts t'))) by (apply H2; auto). lia.
Qed.

Lemma lined_in bs : forall ts t, lined bs ts -> In t ts -> line (tstart t) <= line (tend t).
Proof.
  induction bs as [|b bs IH]; intros [|t0 ts] t L I; cbn [lined] in L; try contradiction.
  destruct L as (L1 & _ & L3). destruct I as [<-|I]; [exact L1|]. eapply IH; eauto.
Qed.
Lemma lined_first bs : forall b t ts u, lined (b :: bs) (t :: ts) -> In u ts ->
  line (tend t) <= line (tstart u) /\ (hd false bs = true -> line (tend t) < line (tstart u)).
Proof.
  induction bs as [|b' bs IH]; intros b t [|t' ts] u L I; cbn [lined] in L; destruct L as (L1 & L2 & L3); try contradiction.
  cbn [hd]. destruct I as [<-|I].
  - destruct b'; split; intros; try lia.
  - destruct (IH b' t' ts u L3 I) as [H _]. cbn [lined] in L3. destruct L3 as (L3 & _). destruct b'; split; intros; try lia.
Qed.
Lemma lined_order a : forall ts b us t u, length a = length ts -> lined (a ++ b) (ts ++ us) -> In t ts -> In u us ->
  line (tend t) <= line (tstart u) /\ (hd false b = true -> line (tend t) < line (tstart u)).
Proof.
  induction a as [|x a IH]; intros [|t0 ts] b us t u E L T U; try discriminate; [contradiction|].
  cbn [app] in L. destruct T as [<-|T].
  - destruct a as [|y a], ts as [|t1 ts]; try discriminate.
    + eapply lined_first; eauto.
    + pose proof (lined_first _ _ _ _ u L (in_or_app _ _ _ (or_intror U))) as [H _].
      assert (line (tend t0) <= line (tstart t1)) as H0 by (apply (lined_first _ _ _ _ t1 L); left; reflexivity).
      cbn [app lined] in L. destruct L as (L1 & L2 & L3).
      destruct (IH (t1 :: ts) b us t1 u) as [K1 K2]; [auto|exact L3|left; reflexivity|exact U|].
      assert (line (tstart t1) <= line (tend t1)). { cbn [app lined] in L3. apply L3. }
      split; [lia|]. intro Hb. specialize (K2 Hb). lia.
  - cbn [lined] in L. destruct L as (_ & _ & L3). eapply IH; eauto.
Qed.
Lemma first_line_of c t ts : toks c = t :: ts -> first_line c = line (tstart t).
Proof. unfold first_line. intros ->. reflexivity. Qed.
Lemma last_line_of c t ts : toks c = t :: ts -> last_line c = line (tend (last ts t)).
Proof.
  unfold last_line. intros ->.
  destruct (@exists_last _ (t :: ts)) as (l & x & E); [discriminate|]. rewrite E, rev_app_distr. cbn [rev app].
  rewrite <- (last_last l x t). rewrite <- E. destruct ts; reflexivity.
Qed.
Lemma lined_ends bs c t : lined bs (toks c) -> In t (toks c) -> first_line c <= line (tstart t) /\ line (tend t) <= last_line c.
Proof.
  intros L I. destruct (toks c) as [|t0 ts] eqn:E; [contradiction|]. rewrite (first_line_of _ _ _ E), (last_line_of _ _ _ E). clear E c.
  revert bs t0 t L I. induction ts as [|t1 ts IH]; intros bs t0 t L I.
  - destruct I as [<-|[]]. cbn [last]. lia.
  - destruct bs as [|b bs]; [contradiction|]. assert (L' := L). cbn [lined] in L. destruct L as (L1 & _ & L3).
    replace (last (t1 :: ts) t0) with (last ts t1) by (clear; revert t1; induction ts as [|x ts IH]; intros; [reflexivity|]; cbn [last] in *; destruct ts; auto).
    destruct I as [<-|I].
    + split; [lia|]. destruct (IH bs t1 t1 L3) as [H1 H2]; [left; reflexivity|].
      pose proof (lined_first _ _ _ _ t1 L' (or_introl eq_refl)) as [H _].
      assert (line (tstart t1) <= line (tend t1)) by (eapply lined_in; [exact L3|left; reflexivity]). lia.
    + destruct (IH bs t1 t L3 I) as [H1 H2]. pose proof (lined_first _ _ _ _ t L' I) as [H _]. lia.
Qed.
Lemma spans_of bs c t u : lined bs (toks c) -> In t (toks c) -> In u (toks c) -> line (tstart t) < line (tend u) -> spans c = true.
Proof.
  intros L T U H. apply (lined_ends _ _ _ L) in T. apply (lined_ends _ _ _ L) in U. unfold spans. apply N.ltb_lt. lia.
Qed.
Lemma spans_bits b bs c : lined (b :: bs) (toks c) ->
  spans c = true <-> existsb (fun x => x) bs = true \/ existsb tall (toks c) = true.
Proof.
  intro L. destruct (toks c) as [|t ts] eqn:E; [contradiction|]. unfold spans.
  rewrite (first_line_of _ _ _ E), (last_line_of _ _ _ E), N.ltb_lt. apply (lined_span _ _ _ _ L).
Qed.

(** ** Other lines for the same tree *)
Record relined (g : token -> token) : Prop := mk_relined {
  re_kind : forall t, tkind_of (g t) = tkind_of t;
  re_tall : forall t, tall (g t) = tall t;
  re_late : forall t, tkind_of t = TWithin -> (0 <? tidx (g t)) = (0 <? tidx t)
}.

Section Lines.
Variable g : token -> token.
Hypothesis G : relined g.
Notation tm := (tmap g).

Lemma toks_map c : toks (tm c) = map g (toks c).
Proof.
  induction c as [t|k cs IH] using child_ind2; [reflexivity|]. cbn [toks tmap].
  induction IH as [|c cs H _ IHcs]; [reflexivity|]. cbn [map flat_map]. rewrite map_app, H, IHcs. reflexivity.
Qed.
Lemma flat_toks_map cs : flat_map toks (map tm cs) = map g (flat_map toks cs).
Proof. exact (toks_map (CTree KName cs)). Qed.
Lemma kind_map c : kind_of (tm c) = kind_of c.
Proof. destruct c; cbn; [rewrite (re_kind g G)|]; reflexivity. Qed.
Lemma sym_map c : sym_of (tm c) = sym_of c.
Proof. rewrite <- !kind_sym. apply kind_map. Qed.
Lemma syms_map cs : map sym_of (map tm cs) = map sym_of cs.
Proof. rewrite map_map. apply map_ext. apply sym_map. Qed.
Lemma fits_map c : fits c -> fits (tm c).
Proof.
  induction c as [t|k cs IH] using child_ind2; intro F; [constructor|]. inversion F as [|? ? NE L FC]; subst. cbn [tmap].
  constructor; [destruct cs; [contradiction|discriminate]|rewrite syms_map; exact L|].
  clear - IH FC. induction IH as [|c cs H _ IHcs]; [constructor|]. inversion FC; subst. cbn [map]. constructor; auto.
Qed.
Lemma holds_map k c : holds k (tm c) = holds k c.
Proof.
  induction c as [t|k0 cs IH] using child_ind2; [reflexivity|]. cbn [holds tmap]. f_equal.
  induction IH as [|c cs H _ IHcs]; [reflexivity|]. cbn [map existsb]. rewrite H, IHcs. reflexivity.
Qed.
Lemma tall_map ts : existsb tall (map g ts) = existsb tall ts.
Proof. induction ts as [|t ts IH]; [reflexivity|]. cbn [map existsb]. rewrite (re_tall g G), IH. reflexivity. Qed.
Lemma late_map c : is_late (tm c) && match kind_of c with Term TWithin => true | _ => false end
  = is_late c && match kind_of c with Term TWithin => true | _ => false end.
Proof.
  destruct c as [t|]; [|reflexivity]. cbn [tmap is_late kind_of]. destruct (tkind_of t) eqn:E; rewrite ?andb_false_r; try reflexivity.
  rewrite (re_late g G _ E). reflexivity.
Qed.
Lemma kind_last_map u : kind_last (map tm u) = kind_last u.
Proof. destruct u; [reflexivity|]. cbn. rewrite kind_map. reflexivity. Qed.
Lemma after_first_map u : after_first (map tm u) = after_first u.
Proof. destruct u as [|? []]; reflexivity. Qed.
Lemma bequeathed_map k w cs d : bequeathed k w (map tm cs) (tm d) = bequeathed k w cs d.
Proof. unfold bequeathed. rewrite map_length. destruct k; try reflexivity. destruct d; reflexivity. Qed.

Lemma bits_in_app k w all b x : forall u y, exists a,
  length a = length (flat_map toks x) /\ bits_in k w all b u (x ++ y) = a ++ bits_in k w all b (rev x ++ u) y.
Proof.
  induction x as [|d x IH]; intros u y; [exists []; auto|].
  cbn [app bits_in flat_map rev]. destruct (IH (d :: u) y) as (a & E & ->).
  eexists. split; [|rewrite app_assoc, <- app_assoc with (l := rev x); reflexivity]. rewrite !app_length, E, bits_toks. reflexivity.
Qed.
Lemma hd_app {A} (x : A) a b : a <> [] -> hd x (a ++ b) = hd x a.
Proof. destruct a; [contradiction|reflexivity]. Qed.
Lemma hd_flagged b l : l <> [] -> hd false (flagged b l) = b || hd false l.
Proof. destruct l; [contradiction|reflexivity]. Qed.

(** A child that starts a line is on a later line than the children before it. *)
Lemma node_order k w all b u v t e :
  lined (bits_in k w all b [] (u ++ v)) (map g (flat_map toks (u ++ v))) ->
  In t (flat_map toks u) -> In e (flat_map toks v) -> line (tend (g t)) <= line (tstart (g e)).
Proof.
  intros L T E. destruct (bits_in_app k w all b u [] v) as (a & LA & EB). rewrite EB in L. rewrite flat_map_app, map_app in L.
  refine (proj1 (lined_order a _ _ _ (g t) (g e) _ L _ _)); [rewrite map_length; exact LA|apply in_map; exact T|apply in_map; exact E].
Qed.
Lemma node_break k w all b u d v t e : u <> [] -> fits d ->
  lined (bits_in k w all b [] (u ++ d :: v)) (map g (flat_map toks (u ++ d :: v))) ->
  below_at k w (rev u) d v || hd false (bits false (bequeathed k w all d) d) = true ->
  In t (flat_map toks u) -> In e (flat_map toks (d :: v)) -> line (tend (g t)) < line (tstart (g e)).
Proof.
  intros U F L B T E. destruct (bits_in_app k w all b u [] (d :: v)) as (a & LA & EB). rewrite EB in L. rewrite flat_map_app, map_app in L.
  refine (proj2 (lined_order a _ _ _ (g t) (g e) _ L _ _) _); [rewrite map_length; exact LA|apply in_map; exact T|apply in_map; exact E|].
  cbn [bits_in]. rewrite app_nil_r. rewrite hd_app by (apply bits_some; exact F). rewrite bits_flag by exact F.
  rewrite hd_flagged by (apply bits_some; exact F). unfold first_bit. destruct (rev u) eqn:R; [|exact B].
  apply (f_equal (@rev child)) in R. rewrite rev_involutive in R. contradiction.
Qed.
Lemma node_child k w all b u d v : fits d ->
  lined (bits_in k w all b [] (u ++ d :: v)) (map g (flat_map toks (u ++ d :: v))) ->
  lined (bits false (bequeathed k w all d) d) (toks (tm d)).
Proof.
  intros F L. destruct (bits_in_app k w all b u [] (d :: v)) as (a & LA & EB). rewrite EB in L. rewrite flat_map_app, map_app in L.
  apply lined_app in L as [_ L]; [|rewrite map_length; exact LA]. cbn [bits_in flat_map] in L. rewrite map_app in L.
  apply lined_app in L as [L _]; [|rewrite map_length; apply bits_toks]. rewrite toks_map.
  rewrite bits_flag in L by exact F. destruct (bits false _ d) as [|x r]; [exact L|]. eapply lined_flag. exact L.
Qed.
End Lines.

(** ** Why a child starts a line *)
Definition fixed_none (k : skind) (prev : option sym) (d : sym) : bool :=
  match fixed_position k prev d with None => true | Some _ => false end.
Definition always_below (k : skind) (prev : option sym) (d : sym) (late : bool) : bool :=
  match fixed_position k prev d with
  | Some p => is_below p
  | None => (trailing d && match prev with Some _ => true | None => false end)
            || (late && match d with Term TWithin => true | _ => false end)
  end.
Lemma below_why k w u d v : below_at k w u d v =
  always_below k (kind_last u) (kind_of d) (is_late d) ||
  (fixed_none k (kind_last u) (kind_of d) &&
   ((value k (kind_of d) && multi_if d) || turns k (last_of u) d v || (w && spread_position k (kind_last u) (kind_of d)))).
Proof.
  unfold below_at, position_of, always_below, fixed_none. destruct (fixed_position k (kind_last u) (kind_of d)) as [p|].
  - cbn [andb]. rewrite orb_false_r. reflexivity.
  - cbn [andb].
    set (a := trailing (kind_of d) && _). set (b := value _ _ && _). set (c := turns _ _ _ _). set (e := w && _). set (f := is_late d && _).
    replace (a || b || c || e || f) with (a || f || (b || c || e)) by (destruct a, b, c, e, f; reflexivity).
    destruct (a || f || (b || c || e)); [reflexivity|].
    destruct (kind_last u) as [[?|[]]|]; try reflexivity. destruct (after_first u); reflexivity.
Qed.

Definition inherits (k : skind) : bool :=
  match k with
  | KFunctionArguments | KFunctionArgumentsNonFirst | KNamedArguments | KArrayArguments | KArrayArgumentsNonFirst
  | KEnumList | KImportList | KArgumentOrInheritanceModificationList | KArgumentList | KExpressionList => true
  | _ => false
  end.
Definition passes (k : skind) : bool :=
  match k with
  | KFunctionArguments | KFunctionArgumentsNonFirst | KNamedArguments | KArrayArguments | KArrayArgumentsNonFirst => true
  | _ => false
  end.
Definition inheriting (c : child) : bool := match c with CTree k _ => inherits k | CTok _ => false end.
Definition always_wide (k : skind) (cs : list child) : bool :=
  match k with
  | KShortClassSpecifier =>
      existsb (fun d => match d with CTree KEnumList _ => holds KDescription d | _ => false end) cs
  | KClassModification => holds KDescription (CTree k cs) || holds KDescriptionString (CTree k cs)
  | _ => false
  end.
Definition by_apart (k : skind) : bool :=
  match k with
  | KDerClassSpecifier | KFunctionPartialApplication | KExternalFunctionCall | KImportClause | KShortClassSpecifier => true
  | _ => false
  end.
Definition long_enough (k : skind) (cs : list child) : bool :=
  match k with
  | KComponentList => Nat.ltb 1 (length cs)
  | KClassOrInheritanceModification => Nat.ltb 2 (length cs)
  | _ => true
  end.
Definition by_span (k : skind) : bool :=
  match k with
  | KEnumList | KImportList | KArgumentOrInheritanceModificationList | KArgumentList | KExpressionList
  | KClassModification | KComponentList | KClassOrInheritanceModification
  | KFunctionCallArgs | KArraySubscripts | KConnectEquation | KPrimary | KExpression | KDescriptionString => true
  | _ => false
  end.
Lemma wide_why k cs inh : wide k cs inh =
  (inherits k && inh) || always_wide k cs || (by_apart k && brackets_apart k cs) || (by_span k && long_enough k cs && spans (CTree k cs)).
Proof.
  unfold wide. destruct k; cbn [inherits always_wide by_apart by_span long_enough andb orb];
    rewrite ?orb_false_r, ?orb_assoc; try reflexivity.
  all: try apply andb_comm; try apply orb_comm.
  rewrite (orb_comm (spans _)), <- orb_assoc, (orb_comm (spans _)), orb_assoc. reflexivity.
Qed.

(** ** What the grammar says about lists *)
Notation prod k := (pruned (production false k)).
Definition widable (k : skind) : bool := inherits k || by_apart k || by_span k.
Lemma wide_widable k cs inh : wide k cs inh = true -> widable k = true.
Proof.
  rewrite wide_why. unfold widable. destruct k; try reflexivity; cbn; discriminate.
Qed.
Definition inherits_sym (x : sym) : bool := match x with Rule k => inherits k | Term _ => false end.
Lemma inherits_of d : inherits_sym (sym_of d) = inheriting d.
Proof. destruct d; reflexivity. Qed.
Definition is_rule (x : sym) : bool := match x with Rule _ => true | Term _ => false end.
Definition spread_free (k : skind) (prev : option sym) (d : sym) : bool := fixed_none k prev d && spread_position k prev d.

Definition lists_ok (k : skind) : bool :=
  implb (widable k)
    (forallb (fun p => implb (inherits_sym (snd p)) (spread_free k (Some (fst p)) (snd p))) (pairs (prod k)) &&
     forallb (fun x => implb (inherits_sym x) (passes k) &&
                       implb (spread_free k None x) (skind_eqb k KComponentList)) (firsts (prod k))).
Lemma lists_checked : forallb lists_ok all_skinds = true.
Proof. vm_compute. reflexivity. Qed.

(** A list of its own in a wide node starts a line. *)
Lemma inheriting_next k w u a d v inh cs : cs = rev (a :: u) ++ d :: v -> lang (prod k) (map sym_of cs) ->
  wide k w inh = true -> inheriting d = true -> spread_free k (Some (sym_of a)) (sym_of d) = true.
Proof.
  intros E L W I. pose proof (skind_all _ lists_checked k) as C. unfold lists_ok in C. rewrite (wide_widable _ _ _ W) in C.
  cbn [implb] in C. apply andb_true_iff in C as [C _]. rewrite forallb_forall in C.
  subst cs. cbn [rev] in L. rewrite <- app_assoc in L. specialize (C _ (neighbours _ _ _ _ _ L)). cbn [fst snd] in C.
  rewrite inherits_of, I in C. exact C.
Qed.
Lemma inheriting_first k w d v inh : lang (prod k) (map sym_of (d :: v)) ->
  wide k w inh = true -> inheriting d = true -> passes k = true.
Proof.
  intros L W I. pose proof (skind_all _ lists_checked k) as C. unfold lists_ok in C. rewrite (wide_widable _ _ _ W) in C.
  cbn [implb] in C. apply andb_true_iff in C as [_ C]. rewrite forallb_forall in C. specialize (C _ (initial_child _ _ _ L)).
  apply andb_true_iff in C as [C _]. rewrite inherits_of, I in C. exact C.
Qed.
Lemma spread_first k w d v inh : lang (prod k) (map sym_of (d :: v)) ->
  wide k w inh = true -> spread_free k None (sym_of d) = true -> k = KComponentList.
Proof.
  intros L W I. pose proof (skind_all _ lists_checked k) as C. unfold lists_ok in C. rewrite (wide_widable _ _ _ W) in C.
  cbn [implb] in C. apply andb_true_iff in C as [_ C]. rewrite forallb_forall in C. specialize (C _ (initial_child _ _ _ L)).
  apply andb_true_iff in C as [_ C]. rewrite I in C. cbn [implb] in C. apply skind_eqb_eq in C. exact C.
Qed.

Definition spread_child (k : skind) (cs : list child) : Prop :=
  exists u a d v, cs = rev (a :: u) ++ d :: v /\ spread_free k (Some (sym_of a)) (sym_of d) = true.
(** If there is a child to be spread, there is one that is not the first. *)
Lemma spread_any k u d v inh cs : cs = rev u ++ d :: v -> lang (prod k) (map sym_of cs) ->
  wide k cs inh = true -> spread_free k (kind_last u) (sym_of d) = true -> spread_child k cs.
Proof.
  intros E L W S. destruct u as [|a u].
  - cbn [rev app kind_last] in *. subst cs. pose proof (spread_first _ _ _ _ _ L W S). subst k.
    rewrite wide_why in W. cbn [inherits always_wide by_apart by_span long_enough andb orb] in W.
    apply andb_true_iff in W as [W _]. destruct v as [|c v]; [discriminate|].
    pose proof (neighbours _ [] _ _ _ L) as P1. destruct v as [|e v].
    { pose proof (final_child _ [d] c L) as P2. pose proof (initial_child _ _ _ L) as P0. exfalso.
      clear S. revert P0 P1 P2. generalize (sym_of d) (sym_of c). clear. intros y x P0 P1 P2. vm_compute in P0, P1, P2. intuition congruence. }
    pose proof (neighbours _ [d] _ _ _ L) as P2. pose proof (initial_child _ _ _ L) as P0.
    exists [d], c, e, v. split; [reflexivity|].
    assert (sym_of c = Term TComma /\ sym_of e = Rule KComponentDeclaration) as [-> ->]; [|reflexivity].
    clear S. revert P0 P1 P2. generalize (sym_of d) (sym_of c) (sym_of e). clear. intros y x z P0 P1 P2.
    vm_compute in P0, P1, P2. intuition congruence.
  - exists u, a, d, v. cbn [kind_last] in S. rewrite kind_sym in S. auto.
Qed.

(** Brackets. *)
Definition bracket (k : skind) (x : sym) : bool := match x with Term t => opening k t || closing k t | Rule _ => false end.
Definition one_pair (k : skind) (w : list sym) : bool :=
  match w with [] => true | [Term o; Term c] => opening k o && negb (closing k o) && closing k c && negb (opening k c) | _ => false end.
Definition brackets_ok (k : skind) : bool :=
  implb (by_apart k)
    (match words (bracket k) (prod k) with Some ws => forallb (one_pair k) ws | None => false end &&
     forallb (fun p => implb (spread_free k (Some (fst p)) (snd p))
                         (skind_eqb k KDerClassSpecifier ||
                          match fst p with Term b => opening k b && is_rule (snd p) | Rule _ => false end) &&
                       implb (skind_eqb k KDerClassSpecifier)
                         (match fst p with Term b => implb (opening k b) (is_rule (snd p) && spread_free k (Some (fst p)) (snd p)) | Rule _ => true end))
       (pairs (prod k))).
Lemma brackets_checked : forallb brackets_ok all_skinds = true.
Proof. vm_compute. reflexivity. Qed.

Lemma one_pair_order k u o v c : by_apart k = true -> lang (prod k) (map sym_of (u ++ CTok o :: v)) ->
  opens k o = true -> closes k c = true -> In (CTok c) (u ++ CTok o :: v) -> In (CTok c) v.
Proof.
  intros B L O C I. pose proof (skind_all _ brackets_checked k) as K. unfold brackets_ok in K. rewrite B in K. cbn [implb] in K.
  apply andb_true_iff in K as [K _]. destruct (words (bracket k) (prod k)) as [ws|] eqn:W; [|discriminate].
  pose proof (words_complete _ _ _ L _ W) as IN. rewrite forallb_forall in K. specialize (K _ IN).
  rewrite map_app, filter_app in K. cbn [map sym_of filter bracket] in K. unfold opens in O. rewrite O in K. cbn [orb] in K.
  assert (forall q, In (CTok c) q -> filter (bracket k) (map sym_of q) <> []) as N.
  { intros q Q. apply in_split in Q as (x & y & ->). rewrite map_app, filter_app. cbn [map sym_of filter bracket]. unfold closes in C.
    rewrite C, orb_true_r. destruct (filter (bracket k) (map sym_of x)); discriminate. }
  apply in_app_or in I as [I|[I|I]]; [|injection I as <-|exact I].
  - specialize (N u I). destruct (filter (bracket k) (map sym_of u)) as [|a [|b fu]] eqn:FU; [contradiction| |].
    + assert (a = Term (tkind_of c)) as ->.
      { apply in_split in I as (x & y & ->). rewrite map_app, filter_app in FU. cbn [map sym_of filter bracket] in FU. unfold closes in C.
        rewrite C, orb_true_r in FU. destruct (filter (bracket k) (map sym_of x)) as [|? [|]]; [injection FU as <- _; reflexivity|discriminate FU|discriminate FU]. }
      cbn [app one_pair] in K. destruct (filter (bracket k) (map sym_of v)); [|discriminate].
      unfold closes in C. rewrite C in K. rewrite !andb_false_r in K. cbn in K. discriminate K.
    + cbn [app one_pair] in K. destruct a; [|discriminate]. destruct b; [|discriminate]. destruct fu; discriminate.
  - destruct (filter (bracket k) (map sym_of u)) as [|a [|b fu]].
    + cbn [app one_pair] in K. destruct (filter (bracket k) (map sym_of v)) as [|[b|] []]; try discriminate.
      unfold closes in C. rewrite C in K. rewrite andb_false_r in K. discriminate K.
    + cbn [app one_pair] in K. destruct a; [|discriminate]. destruct (filter (bracket k) (map sym_of v)); [|discriminate].
      rewrite O in K. rewrite !andb_false_r in K. discriminate K.
    + cbn [app one_pair] in K. destruct a; [|discriminate]. destruct b; [|discriminate]. destruct fu; discriminate.
Qed.

(** The list between brackets starts with a child to be spread. *)
Lemma bracket_spread k cs : by_apart k = true -> lang (prod k) (map sym_of cs) -> brackets_apart k cs = true -> spread_child k cs ->
  exists u o d v c, cs = u ++ CTok o :: d :: v /\ opens k o = true /\ In (CTok c) v /\ closes k c = true /\
    spread_free k (Some (Term (tkind_of o))) (sym_of d) = true.
Proof.
  intros B L A (u & a & d & v & E & S). pose proof (skind_all _ brackets_checked k) as K. unfold brackets_ok in K. rewrite B in K. cbn [implb] in K.
  apply andb_true_iff in K as [_ K]. rewrite forallb_forall in K.
  apply apart_spread in A as (o & c & IO & IC & O & C & _).
  assert (cs = rev u ++ a :: d :: v) as E' by (rewrite E; cbn [rev]; rewrite <- app_assoc; reflexivity).
  assert (L' := L). rewrite E' in L'. specialize (K _ (neighbours _ _ _ _ _ L')) as K1. cbn [fst snd] in K1.
  apply andb_true_iff in K1 as [K1 K2]. rewrite S in K1. cbn [implb] in K1.
  destruct (skind_eqb k KDerClassSpecifier) eqn:D; cbn [orb] in K1.
  - apply in_split in IO as (x & y & EO). rewrite EO in L, IC. rewrite EO. clear E E'.
    pose proof (one_pair_order _ _ _ _ _ B L O C IC) as IV. destruct y as [|e y]; [contradiction|].
    specialize (K _ (neighbours _ _ _ _ _ L)). cbn [fst snd sym_of] in K. apply andb_true_iff in K as [_ K]. cbn [implb] in K.
    unfold opens in O. rewrite O in K. cbn [implb] in K. apply andb_true_iff in K as [K3 K4].
    destruct IV as [IV|IV]; [subst e; discriminate K3|]. exists x, o, e, y, c. auto.
  - destruct a as [a|]; [|discriminate]. cbn [sym_of] in K1, S. apply andb_true_iff in K1 as [K3 K4].
    rewrite E' in IC, L. pose proof (one_pair_order _ _ _ _ _ B L K3 C IC) as IV.
    destruct IV as [IV|IV]; [subst d; discriminate K4|]. exists (rev u), a, d, v, c. auto.
Qed.

(** ** Nodes that begin without line break *)
Definition calm (k : skind) : bool :=
  match k with
  | KSimpleExpression | KLogicalExpression | KLogicalTerm | KLogicalFactor | KRelation | KRelationalOperator
  | KArithmeticExpression | KAddOperator | KTerm | KMulOperator | KFactor | KPrimary | KComponentReference => true
  | _ => false
  end.
Definition calm_sym (x : sym) : bool :=
  match x with Term TIf | Term TWithin => false | Term _ => true | Rule k => calm k end.
Definition calm_ok (k : skind) : bool :=
  implb (calm k)
    (forallb (fun x => calm_sym x && negb (always_below k None x true) && negb (value k x) && negb (spread_position k None x))
       (firsts (prod k))).
Lemma calm_checked : forallb calm_ok all_skinds = true.
Proof. vm_compute. reflexivity. Qed.
Lemma calm_first c : fits c -> calm_sym (sym_of c) = true -> forall inh,
  hd false (bits false inh c) = false /\ match toks c with t :: _ => tkind_of t <> TIf | [] => False end.
Proof.
  induction c as [t|k cs IH] using child_ind2; intros F C inh.
  - cbn [bits hd toks sym_of] in *. split; [reflexivity|]. intro E. rewrite E in C. discriminate.
  - inversion F as [|? ? NE L FC]; subst. destruct cs as [|d v]; [contradiction|]. inversion IH as [|? ? D _]; subst.
    inversion FC as [|? ? FD _]; subst. pose proof (skind_all _ calm_checked k) as K. unfold calm_ok in K. cbn [sym_of calm_sym] in C.
    rewrite C in K. cbn [implb] in K. rewrite forallb_forall in K. specialize (K _ (initial_child _ _ _ L)).
    rewrite !andb_true_iff, !negb_true_iff in K. destruct K as (((K1 & K2) & K3) & K4).
    rewrite bits_tree. cbn [bits_in first_bit orb flat_map toks].
    destruct (D FD K1 (bequeathed k (wide k (d :: v) inh) (d :: v) d)) as [D1 D2].
    assert (below_at k (wide k (d :: v) inh) [] d v = false) as ->.
    { rewrite below_why. cbn [kind_last last_of]. rewrite kind_sym, K3, K4. unfold turns. rewrite andb_false_r. cbn [orb andb].
      rewrite andb_false_r, orb_false_r. revert K2. unfold always_below. destruct (fixed_position k None (sym_of d)); auto.
      rewrite andb_false_r. cbn [orb]. destruct (is_late d); auto. }
    rewrite hd_app by (apply bits_some; exact FD). split; [exact D1|].
    destruct (toks d); [contradiction|]. exact D2.
Qed.

(** ** Children that start a line *)
Lemma below_spread k u d v : spread_free k (kind_last u) (kind_of d) = true -> below_at k true u d v = true.
Proof.
  intro S. unfold spread_free in S. apply andb_true_iff in S as [S1 S2]. rewrite below_why, S1, S2. cbn [andb]. rewrite !orb_true_r. reflexivity.
Qed.
Lemma rev_some {A} (a : A) u : rev (a :: u) <> [].
Proof. cbn [rev]. destruct (rev u); discriminate. Qed.
Lemma bit_inside k w all b u d v : u <> [] -> Forall fits u -> fits d -> below_at k w (rev u) d v = true ->
  existsb (fun x => x) (tl (bits_in k w all b [] (u ++ d :: v))) = true.
Proof.
  intros U FU F B. destruct (bits_in_app k w all b u [] (d :: v)) as (a & LA & ->).
  destruct a as [|x a].
  { exfalso. destruct u as [|c u]; [contradiction|]. inversion FU as [|? ? FC _]; subst. apply toks_some in FC.
    cbn [flat_map length] in LA. rewrite app_length in LA. destruct (toks c); [contradiction|discriminate]. }
  cbn [app tl]. rewrite existsb_app, app_nil_r. cbn [bits_in]. rewrite existsb_app.
  rewrite bits_flag by exact F. unfold first_bit. destruct (rev u) eqn:R.
  { apply (f_equal (@rev child)) in R. rewrite rev_involutive in R. contradiction. }
  rewrite B. pose proof (bits_some false (bequeathed k w all d) d F) as S. destruct (bits false _ d); [contradiction|].
  cbn [flagged orb existsb]. rewrite orb_true_r. reflexivity.
Qed.

(** A multi-line [if] gets line breaks. *)
Definition if_words : option (list (list sym)) :=
  words (fun x => sym_eqb x (Term TIf) || sym_eqb x (Term TElse)) (prod KExpression).
Lemma if_breaks cs inh t r : fits (CTree KExpression cs) -> toks (CTree KExpression cs) = t :: r -> tkind_of t = TIf ->
  spans (CTree KExpression cs) = true -> existsb (fun x => x) (tl (bits false inh (CTree KExpression cs))) = true.
Proof.
  intros F T TI S. inversion F as [|? ? NE L FC]; subst. destruct cs as [|c v]; [contradiction|]. inversion FC as [|? ? Fc Fv]; subst.
  assert (sym_of c = Term TIf) as SC.
  { pose proof (initial_child _ _ _ L) as I. assert (calm_sym (sym_of c) = true -> False) as N.
    { intro C. apply (calm_first _ Fc) with (inh := false) in C as [_ C]. cbn [toks flat_map] in T. destruct (toks c); [contradiction|].
      injection T as -> _. contradiction. }
    revert I N. generalize (sym_of c). clear. intros x I N. vm_compute in I. destruct I as [<-|[<-|[]]]; [contradiction N; reflexivity|reflexivity]. }
  assert (exists ws, if_words = Some ws /\ forallb (fun w => match w with Term TIf :: w' => existsb (sym_eqb (Term TElse)) w' | _ => true end) ws = true) as (ws & W & SW).
  { eexists. split; vm_compute; reflexivity. }
  pose proof (words_complete _ _ _ L _ W) as IN. rewrite forallb_forall in SW. specialize (SW _ IN).
  cbn [map filter] in SW. rewrite SC in SW. change (sym_eqb (Term TIf) (Term TIf)) with true in SW. cbn [orb] in SW.
  apply existsb_exists in SW as (x & IX & EX). apply sym_eqb_eq in EX. subst x. apply filter_In in IX as [IX _].
  apply in_map_iff in IX as (e & SE & IE). apply in_split in IE as (x & y & ->).
  rewrite bits_tree. replace (wide KExpression (c :: x ++ e :: y) inh) with true by (symmetry; exact S).
  change (c :: x ++ e :: y) with ((c :: x) ++ e :: y) at 2.
  apply Forall_app in Fv as [Fx Fe]. inversion Fe; subst. apply bit_inside; [discriminate|constructor; assumption|assumption|].
  apply below_spread. rewrite kind_sym, SE. unfold spread_free. cbn [fixed_none fixed_position]. reflexivity.
Qed.
Definition value_kind (k : skind) : bool :=
  match k with KModificationExpression | KFunctionArgument | KExpression => true | _ => false end.
Lemma value_kinds k d : value k (kind_of d) = true -> exists k' cs, d = CTree k' cs /\ value_kind k' = true.
Proof. destruct d as [t|k' cs]; cbn [kind_of]; [destruct k; discriminate|]. intro V. exists k', cs. split; [reflexivity|]. destruct k, k'; try discriminate; reflexivity. Qed.
Lemma multi_breaks d inh k : fits d -> value k (kind_of d) = true -> multi_if d = true ->
  existsb (fun x => x) (tl (bits false inh d)) = true.
Proof.
  intros F V M. apply value_kinds in V as (k' & cs & -> & V). unfold multi_if in M. apply andb_true_iff in M as [S M].
  destruct (toks (CTree k' cs)) as [|t r] eqn:T; [discriminate|]. apply tkind_eqb_eq in M.
  assert (k' = KExpression \/ exists ds, cs = [CTree KExpression ds]) as [->|(ds & ->)].
  - destruct k'; try discriminate; [|left; reflexivity|]; right.
    all: inversion F as [|? ? NE L FC]; subst; destruct cs as [|c v]; [contradiction|]; inversion FC as [|? ? Fc Fv]; subst.
    all: destruct v as [|e v]; [|exfalso; pose proof (neighbours _ [] _ _ _ L) as N; vm_compute in N; contradiction].
    all: pose proof (initial_child _ _ _ L) as I.
    all: destruct c as [tc|kc ds]; cbn [sym_of] in I.
    all: remember (production false) as pr.
    all: cbn [toks flat_map app] in T.
    + injection T as -> _. exfalso. rewrite M in I. subst pr. vm_compute in I. intuition discriminate.
    + exists ds. f_equal. f_equal. subst pr. vm_compute in I. intuition congruence.
    + injection T as -> _. exfalso. rewrite M in I. subst pr. vm_compute in I. intuition discriminate.
    + exists ds. subst pr. assert (kc = KFunctionPartialApplication \/ kc = KExpression) as [->| ->]; [|exfalso|reflexivity].
      { vm_compute in I. intuition congruence. }
      inversion Fc as [|? ? NE' L' FC']; subst. destruct ds as [|d0 ds]; [contradiction|]. pose proof (initial_child _ _ _ L') as I'.
      cbn [flat_map] in T. destruct d0 as [t0|k0 cs0]; cbn [sym_of] in I'.
      * cbn [toks app] in T. injection T as -> _. rewrite M in I'. vm_compute in I'. intuition discriminate.
      * vm_compute in I'. intuition discriminate.
  - eapply if_breaks; eauto.
  - assert (toks (CTree k' [CTree KExpression ds]) = toks (CTree KExpression ds)) as TE by (cbn [toks flat_map]; apply app_nil_r).
    inversion F as [|? ? NE L FC]; subst. inversion FC as [|? ? Fc Fv]; subst.
    rewrite bits_tree. cbn [bits_in]. rewrite app_nil_r, bits_flag by exact Fc.
    replace (tl (flagged _ _)) with (tl (bits false (bequeathed k' (wide k' [CTree KExpression ds] inh) [CTree KExpression ds] (CTree KExpression ds)) (CTree KExpression ds)))
      by (destruct (bits false _ _); reflexivity).
    rewrite TE in T. eapply if_breaks; eauto. unfold spans, first_line, last_line in *. rewrite TE in S. exact S.
Qed.

(** ** From the first to the second result *)
Section Second.
Variable g : token -> token.
Hypothesis G : relined g.
Notation tm := (tmap g).

Lemma always_wide_map k cs : always_wide k (map tm cs) = always_wide k cs.
Proof.
  destruct k; try reflexivity; cbn [always_wide].
  - induction cs as [|d cs IH]; [reflexivity|]. cbn [map existsb]. rewrite IH. f_equal. destruct d as [t|k ds]; [reflexivity|].
    change (tm (CTree k ds)) with (CTree k (map tm ds)). destruct k; try reflexivity. apply (holds_map g _ (CTree KEnumList ds)).
  - rewrite <- (holds_map g KDescription (CTree KClassModification cs)), <- (holds_map g KDescriptionString (CTree KClassModification cs)). reflexivity.
Qed.
Lemma always_below_map k u d : always_below k (kind_last (map tm u)) (kind_of (tm d)) (is_late (tm d)) = always_below k (kind_last u) (kind_of d) (is_late d).
Proof.
  rewrite (kind_last_map g G), (kind_map g G). unfold always_below. destruct (fixed_position k (kind_last u) (kind_of d)); [reflexivity|].
  rewrite (late_map g G). reflexivity.
Qed.
Lemma opens_map k t : opens k (g t) = opens k t.
Proof. unfold opens. rewrite (re_kind g G). reflexivity. Qed.
Lemma closes_map k t : closes k (g t) = closes k t.
Proof. unfold closes. rewrite (re_kind g G). reflexivity. Qed.
Lemma in_toks t cs : In (CTok t) cs -> In t (flat_map toks cs).
Proof. intro I. apply in_flat_map. exists (CTok t). split; [exact I|left; reflexivity]. Qed.

Lemma node_spans k cs bs t e : lined bs (map g (flat_map toks cs)) -> In t (flat_map toks cs) -> In e (flat_map toks cs) ->
  line (tstart (g t)) < line (tend (g e)) -> spans (tm (CTree k cs)) = true.
Proof.
  intros L T E H. assert (toks (tm (CTree k cs)) = map g (flat_map toks cs)) as TM by (apply (toks_map g (CTree k cs))).
  rewrite <- TM in L. apply (spans_of _ _ (g t) (g e) L); [| |exact H]; rewrite TM; apply in_map; assumption.
Qed.
Lemma line_ok bs ts t : lined bs (map g ts) -> In t ts -> line (tstart (g t)) <= line (tend (g t)).
Proof. intros L I. eapply lined_in; [exact L|]. apply in_map. exact I. Qed.

Lemma apart_spans k cs bs : lined bs (map g (flat_map toks cs)) -> brackets_apart k (map tm cs) = true -> spans (tm (CTree k cs)) = true.
Proof.
  intros L A. apply apart_spread in A as (o & c & IO & IC & _ & _ & H).
  apply in_map_iff in IO as ([o'|] & EO & IO); [|discriminate]. apply in_map_iff in IC as ([c'|] & EC & IC); [|discriminate].
  injection EO as <-. injection EC as <-. apply in_toks in IO, IC. apply (node_spans k cs bs o' c' L IO IC).
  pose proof (line_ok _ _ _ L IC). lia.
Qed.
(** Why a node is wide the second time. *)
Lemma wide_then k cs inh bs : lined bs (map g (flat_map toks cs)) -> wide k (map tm cs) inh = true ->
  spans (tm (CTree k cs)) = true \/ (inherits k && inh) = true \/ always_wide k cs = true.
Proof.
  intros L W. rewrite wide_why in W. rewrite always_wide_map in W. rewrite !orb_true_iff in W.
  destruct W as [[[W|W]|W]|W]; auto.
  - apply andb_true_iff in W as [_ W]. left. eapply apart_spans; eauto.
  - apply andb_true_iff in W as [_ W]. left. exact W.
Qed.

Lemma spread_breaks k cs u a d v t e : Forall fits cs -> cs = rev (a :: u) ++ d :: v ->
  lined (bits_in k true cs false [] cs) (map g (flat_map toks cs)) -> spread_free k (Some (sym_of a)) (sym_of d) = true ->
  In t (flat_map toks (rev (a :: u))) -> In e (flat_map toks (d :: v)) -> line (tend (g t)) < line (tstart (g e)).
Proof.
  intros F E L S T EE. rewrite E in L at 2 3. assert (fits d) as FD.
  { rewrite Forall_forall in F. apply F. rewrite E. apply in_or_app. right. left. reflexivity. }
  refine (node_break g _ _ _ _ _ _ _ _ _ (rev_some a u) FD L _ T EE).
  rewrite rev_involutive, below_spread; [reflexivity|]. cbn [kind_last]. rewrite !kind_sym. exact S.
Qed.
Lemma some_token cs : cs <> [] -> Forall fits cs -> exists t, In t (flat_map toks cs).
Proof.
  intros N F. destruct cs as [|c cs]; [contradiction|]. inversion F as [|? ? FC _]; subst. apply toks_some in FC.
  destruct (toks c) as [|t r] eqn:E; [contradiction|]. exists t. cbn [flat_map]. rewrite E. left. reflexivity.
Qed.
Lemma spread_spans k cs : Forall fits cs -> spread_child k cs ->
  lined (bits_in k true cs false [] cs) (map g (flat_map toks cs)) -> spans (tm (CTree k cs)) = true.
Proof.
  intros F (u & a & d & v & E & S) L. assert (F' := F). rewrite E in F'. apply Forall_app in F' as [F1 F2].
  destruct (some_token _ (rev_some a u) F1) as (t & T). destruct (some_token (d :: v)) as (e & EE); [discriminate|exact F2|].
  pose proof (spread_breaks _ _ _ _ _ _ t e F E L S T EE) as H.
  assert (In t (flat_map toks cs)) as IT by (rewrite E, flat_map_app; apply in_or_app; left; exact T).
  assert (In e (flat_map toks cs)) as IE by (rewrite E, flat_map_app; apply in_or_app; right; exact EE).
  pose proof (line_ok _ _ _ L IT). pose proof (line_ok _ _ _ L IE). apply (node_spans k cs _ t e L IT IE). lia.
Qed.
(** A wide node stays wide if this matters. *)
Lemma wide_stays k cs inh inh' : fits (CTree k cs) -> lined (bits false inh (CTree k cs)) (toks (tm (CTree k cs))) ->
  wide k cs inh = true -> spread_child k cs -> (inherits k = true -> inh = true -> inh' = true) ->
  wide k (map tm cs) inh' = true.
Proof.
  intros F L W S I. inversion F as [|? ? NE LG FC]; subst. rewrite toks_map, bits_tree, W in L.
  pose proof (spread_spans _ _ FC S L) as SP. cbn [toks] in L.
  rewrite wide_why in *. rewrite always_wide_map. rewrite !orb_true_iff in W. destruct W as [[[W|W]|W]|W].
  - apply andb_true_iff in W as [W1 W2]. rewrite W1, (I W1 W2). reflexivity.
  - rewrite W. rewrite orb_true_r. reflexivity.
  - apply andb_true_iff in W as [W1 W2]. destruct (bracket_spread k cs W1 LG W2 S) as (u & o & d & v & c & E & O & IC & C & SF).
    assert (brackets_apart k (map tm cs) = true) as ->; [|rewrite W1; cbn [andb]; rewrite orb_true_r; reflexivity].
    apply apart_spread. exists (g o), (g c). rewrite opens_map, closes_map.
    split; [apply in_map_iff; exists (CTok o); split; [reflexivity|rewrite E; apply in_or_app; right; left; reflexivity]|].
    split; [apply in_map_iff; exists (CTok c); split; [reflexivity|rewrite E; apply in_or_app; right; right; right; exact IC]|].
    split; [exact O|]. split; [exact C|].
    assert (cs = rev (CTok o :: rev u) ++ d :: v) as E' by (cbn [rev]; rewrite rev_involutive, <- app_assoc; exact E).
    assert (line (tend (g o)) < line (tstart (g c))).
    { eapply (spread_breaks k cs (rev u) (CTok o) d v); eauto.
      - cbn [rev]. rewrite rev_involutive, flat_map_app. apply in_or_app. right. left. reflexivity.
      - cbn [flat_map]. apply in_or_app. right. apply in_toks. exact IC. }
    assert (line (tstart (g o)) <= line (tend (g o))).
    { eapply line_ok; [exact L|]. rewrite E, flat_map_app. apply in_or_app. right. left. reflexivity. }
    lia.
  - apply andb_true_iff in W as [W _]. assert (long_enough k (map tm cs) = long_enough k cs) as LE by (unfold long_enough; rewrite map_length; reflexivity).
    apply andb_true_iff in W as [W1 W2]. rewrite LE, W1, W2. change (CTree k (map tm cs)) with (tm (CTree k cs)). rewrite SP. cbn [andb].
    rewrite orb_true_r. reflexivity.
Qed.
End Second.

Lemma both_weaken {A B} (P Q : A -> B -> Prop) : (forall a b, P a b -> Q a b) -> forall l l', Forall2 P l l' -> Forall2 Q l l'.
Proof. intros H l l' F. induction F; constructor; auto. Qed.
Definition grows (m m' : bool) : Prop := m = true -> m' = true.
Definition known (Q : Prop) (m m' : bool) : Prop := m' = true -> m = true \/ Q.

Section Third.
Variable g : token -> token.
Hypothesis G : relined g.
Notation tm := (tmap g).

Lemma node_rel (R : bool -> bool -> Prop) k w w' cs : Forall fits cs ->
  (forall b b' x x', R b b' -> R x x' -> R (b || x) (b' || x')) ->
  (forall u d v, cs = rev u ++ d :: v ->
     Forall2 R (bits false (bequeathed k w cs d) d) (bits false (bequeathed k w' (map tm cs) (tm d)) (tm d))) ->
  (forall u d v, cs = rev u ++ d :: v -> R (below_at k w u d v) (below_at k w' (map tm u) (tm d) (map tm v))) ->
  forall v u, cs = rev u ++ v -> Forall2 R (bits_in k w cs false u v) (bits_in k w' (map tm cs) false (map tm u) (map tm v)).
Proof.
  intros F RO H1 H2. induction v as [|d v IH]; intros u E; [constructor|].
  cbn [bits_in map]. assert (fits d) as FD.
  { rewrite Forall_forall in F. apply F. rewrite E. apply in_or_app. right. left. reflexivity. }
  apply Forall2_app.
  - rewrite (bits_flag d FD), (bits_flag (tm d) (fits_map g G d FD)). specialize (H1 u d v E). specialize (H2 u d v E).
    replace (first_bit u false (below_at k w u d v)) with (below_at k w u d v) by (destruct u; reflexivity).
    replace (first_bit (map tm u) false (below_at k w' (map tm u) (tm d) (map tm v))) with (below_at k w' (map tm u) (tm d) (map tm v)) by (destruct u; reflexivity).
    inversion H1; [constructor|]. cbn [flagged]. constructor; auto.
  - apply (IH (d :: u)). rewrite E. cbn [rev]. rewrite <- app_assoc. reflexivity.
Qed.

Lemma split_fits k cs u d v : fits (CTree k cs) -> cs = rev u ++ d :: v -> fits d /\ Forall fits (rev u) /\ Forall fits v.
Proof.
  intros F E. inversion F as [|? ? NE L FC]; subst. apply Forall_app in FC as [F1 F2]. inversion F2; subst. auto.
Qed.
Lemma last_in {A} (r : list A) : forall t, In (last r t) (t :: r).
Proof.
  intro t. destruct (@exists_last _ (t :: r)) as (l & x & E); [discriminate|].
  replace (last r t) with (last (t :: r) t) by (destruct r; reflexivity). rewrite E, last_last. apply in_or_app. right. left. reflexivity.
Qed.
Lemma last_map {A B} (f : A -> B) (r : list A) : forall t, last (map f r) (f t) = f (last r t).
Proof. induction r as [|x r IH]; intro t; [reflexivity|]. destruct r; [reflexivity|]. apply (IH t). Qed.
Lemma first_line_in c : fits c -> exists t, In t (toks c) /\ first_line c = line (tstart t) /\ first_line (tm c) = line (tstart (g t)).
Proof.
  intro F. apply toks_some in F. destruct (toks c) as [|t r] eqn:E; [contradiction|]. exists t. split; [left; reflexivity|].
  split; [apply (first_line_of _ _ _ E)|]. apply (first_line_of _ _ (map g r)). rewrite toks_map, E. reflexivity.
Qed.
Lemma last_line_in c : fits c -> exists t, In t (toks c) /\ last_line c = line (tend t) /\ last_line (tm c) = line (tend (g t)).
Proof.
  intro F. apply toks_some in F. destruct (toks c) as [|t r] eqn:E; [contradiction|]. exists (last r t).
  split; [|split; [apply (last_line_of _ _ _ E)|]].
  - apply last_in.
  - rewrite (last_line_of (tm c) (g t) (map g r)) by (rewrite toks_map, E; reflexivity). f_equal. f_equal.
    apply last_map.
Qed.

(** An operator between operands on different lines. *)
Lemma turn_breaks k w cs b u d v : fits (CTree k cs) -> cs = rev u ++ d :: v ->
  lined (bits_in k w cs b [] cs) (map g (flat_map toks cs)) ->
  turns k (last_of u) d v = true -> turns k (last_of (map tm u)) (tm d) (map tm v) = true.
Proof.
  intros F E L T. assert (T' := T). destruct (split_fits _ _ _ _ _ F E) as (FD & FU & FV). unfold turns in *. destruct u as [|a u]; [discriminate|]. destruct v as [|e v]; [discriminate|].
  cbn [last_of map] in *. apply andb_true_iff in T as [O _]. rewrite (kind_map g G), O. cbn [andb]. apply N.ltb_lt.
  assert (fits a) as FA by (rewrite Forall_forall in FU; apply FU; cbn [rev]; apply in_or_app; right; left; reflexivity).
  inversion FV as [|? ? FE _]; subst.
  destruct (last_line_in a FA) as (t & IT & _ & ->). destruct (first_line_in e FE) as (x & IX & _ & ->).
  refine (node_break g _ _ _ _ _ _ _ _ _ (rev_some a u) FD L _ _ _).
  - rewrite rev_involutive, below_why. unfold turns at 1. cbn [last_of]. rewrite T'.
    assert (fixed_none k (kind_last (a :: u)) (kind_of d) = true) as -> by (destruct k; try discriminate O; reflexivity).
    cbn [andb]. rewrite !orb_true_r. reflexivity.
  - cbn [rev]. rewrite flat_map_app. apply in_or_app. right. cbn [flat_map]. rewrite app_nil_r. exact IT.
  - cbn [flat_map]. apply in_or_app. right. apply in_or_app. left. exact IX.
Qed.

Lemma multi_map d : fits d -> lined (bits false false d) (toks (tm d)) \/ True -> multi_if (tm d) = spans (tm d) && match toks d with t :: _ => tkind_eqb (tkind_of t) TIf | [] => false end.
Proof. intros _ _. unfold multi_if. rewrite toks_map. destruct (toks d); cbn [map]; rewrite ?(re_kind g G); reflexivity. Qed.

(** A child that starts a line does so the second time. *)
Lemma below_stays k cs inh inh' u d v : fits (CTree k cs) -> cs = rev u ++ d :: v ->
  lined (bits false inh (CTree k cs)) (toks (tm (CTree k cs))) -> (inherits k = true -> inh = true -> inh' = true) ->
  grows (below_at k (wide k cs inh) u d v) (below_at k (wide k (map tm cs) inh') (map tm u) (tm d) (map tm v)).
Proof.
  intros F E L I B. destruct (split_fits _ _ _ _ _ F E) as (FD & FU & FV). assert (L' := L). rewrite toks_map, bits_tree in L'. cbn [toks] in L'.
  rewrite below_why in *. rewrite (always_below_map g G), (kind_last_map g G), (kind_map g G).
  apply orb_true_iff in B as [B|B]; [rewrite B; reflexivity|]. apply andb_true_iff in B as [B1 B]. rewrite B1. cbn [andb].
  rewrite !orb_true_iff in *. right. destruct B as [[B|B]|B].
  - left. left. apply andb_true_iff in B as [V M]. rewrite V. cbn [andb]. rewrite multi_map by auto.
    assert (M' := M). unfold multi_if in M'. apply andb_true_iff in M' as [_ M']. rewrite M', andb_true_r.
    assert (LD : lined (bits false (bequeathed k (wide k cs inh) cs d) d) (toks (tm d))).
    { apply (node_child g k (wide k cs inh) cs false (rev u) d v FD). rewrite E in L' at 3 4. exact L'. }
    pose proof (multi_breaks d (bequeathed k (wide k cs inh) cs d) k FD V M) as MB.
    destruct (bits false _ d) as [|x r]; [discriminate|]. apply (spans_bits x r). exact LD. left. exact MB.
  - left. right. eapply turn_breaks; eauto.
  - right. apply andb_true_iff in B as [W S]. rewrite S, andb_true_r. eapply wide_stays; eauto.
    inversion F as [|? ? NE LG FC]; subst k0 cs0. eapply spread_any; eauto. unfold spread_free. rewrite <- kind_sym, B1, S. reflexivity.
Qed.

Theorem line_breaks_stay c : fits c -> forall inh inh', (inheriting c = true -> inh = true -> inh' = true) ->
  lined (bits false inh c) (toks (tm c)) -> Forall2 grows (bits false inh c) (bits false inh' (tm c)).
Proof.
  induction c as [t|k cs IH] using child_ind2; intros F inh inh' I L; [constructor; [intro; auto|constructor]|].
  assert (F' := F). inversion F' as [|? ? NE LG FC]; subst. cbn [inheriting] in I.
  change (tm (CTree k cs)) with (CTree k (map tm cs)). rewrite !bits_tree.
  apply (node_rel grows k _ _ cs FC) with (u := []); [| | |reflexivity].
  - unfold grows. intros b b' x x' H1 H2 H. apply orb_true_iff in H as [H|H]; apply orb_true_iff; auto.
  - intros u d v E. destruct (split_fits _ _ _ _ _ F E) as (FD & FU & FV).
    rewrite Forall_forall in IH. assert (In d cs) as ID by (rewrite E; apply in_or_app; right; left; reflexivity).
    rewrite bequeathed_map. apply (IH d ID FD).
    + intros ID' BQ. unfold bequeathed in *.
      assert (wide k cs inh = true -> wide k (map tm cs) inh' = true) as W.
      { intro W. destruct u as [|a u].
        - assert (passes k = true) as P by (eapply inheriting_first; [|exact W|exact ID']; rewrite E in LG; exact LG).
          rewrite wide_why in *. destruct k; try discriminate P; cbn in *; rewrite ?orb_false_r in *; apply I; auto.
        - eapply wide_stays; eauto. exists u, a, d, v. split; [exact E|]. eapply inheriting_next; eauto. }
      destruct k; auto. destruct d as [t|[]]; auto. apply andb_true_iff in BQ as [B1 B2]. rewrite (W B1), B2. reflexivity.
    + apply (node_child g k (wide k cs inh) cs false (rev u) d v FD).
      rewrite toks_map, bits_tree in L. cbn [toks] in L. rewrite E in L at 3 4. exact L.
  - intros u d v E. eapply below_stays; eauto.
Qed.

(** A line break that is new the second time is in a node that spans lines. *)
Theorem new_line_breaks c : fits c -> forall inh inh', lined (bits false inh c) (toks (tm c)) ->
  Forall2 (known (spans (tm c) = true \/ (inheriting c && inh') = true)) (bits false inh c) (bits false inh' (tm c)).
Proof.
  induction c as [t|k cs IH] using child_ind2; intros F inh inh' L; [constructor; [intro; auto|constructor]|].
  assert (F' := F). inversion F' as [|? ? NE LG FC]; subst. cbn [inheriting].
  set (Q := spans (tm (CTree k cs)) = true \/ inherits k && inh' = true). assert (L' := L). rewrite toks_map, bits_tree in L'. cbn [toks] in L'.
  change (tm (CTree k cs)) with (CTree k (map tm cs)). rewrite !bits_tree.
  assert (forall u d v, cs = rev u ++ d :: v -> spans (tm d) = true -> Q) as CH.
  { intros u d v E S. destruct (split_fits _ _ _ _ _ F E) as (FD & FU & FV). left. unfold spans in S. apply N.ltb_lt in S.
    destruct (first_line_in d FD) as (x & IX & _ & EX). destruct (last_line_in d FD) as (y & IY & _ & EY). rewrite EX, EY in S.
    assert (forall z, In z (toks d) -> In z (flat_map toks cs)) as IN.
    { intros z Z. rewrite E, flat_map_app. apply in_or_app. right. cbn [flat_map]. apply in_or_app. left. exact Z. }
    apply (node_spans g k cs _ x y L' (IN _ IX) (IN _ IY) S). }
  assert (wide k (map tm cs) inh' = true -> wide k cs inh = true \/ Q) as WQ.
  { intro W. destruct (wide_then g k cs inh' _ L' W) as [H|[H|H]]; [right; left; exact H|right; right; exact H|].
    left. rewrite wide_why, H, orb_true_r. reflexivity. }
  apply (node_rel (known Q) k _ _ cs FC) with (u := []); [| | |reflexivity].
  - unfold known. intros b b' x x' H1 H2 H. rewrite !orb_true_iff in *. destruct H as [H|H]; [apply H1 in H|apply H2 in H]; tauto.
  - intros u d v E. destruct (split_fits _ _ _ _ _ F E) as (FD & FU & FV).
    rewrite Forall_forall in IH. assert (In d cs) as ID by (rewrite E; apply in_or_app; right; left; reflexivity).
    assert (LD : lined (bits false (bequeathed k (wide k cs inh) cs d) d) (toks (tm d))).
    { apply (node_child g k (wide k cs inh) cs false (rev u) d v FD). rewrite E in L' at 3 4. exact L'. }
    eapply both_weaken; [|apply (IH d ID FD _ (bequeathed k (wide k (map tm cs) inh') (map tm cs) (tm d)) LD)].
    intros m m' K M. destruct (K M) as [H|[H|H]]; [auto|right; eapply CH; eauto|].
    right. apply andb_true_iff in H as [H1 H2].
    assert (wide k (map tm cs) inh' = true) as W.
    { unfold bequeathed in H2. destruct k; auto. change (tm d) with (tm d) in H2. destruct d as [t|[]]; auto.
      apply andb_true_iff in H2 as [H2 _]. exact H2. }
    destruct u as [|a u].
    + assert (passes k = true) as P by (eapply inheriting_first; [|exact W|exact H1]; rewrite E in LG; exact LG).
      right. rewrite wide_why in W. destruct k; try discriminate P; cbn in *; rewrite ?orb_false_r in *; exact W.
    + destruct (WQ W) as [W1|HQ]; [|exact HQ]. left. apply spread_spans with (2 := ex_intro _ u (ex_intro _ a (ex_intro _ d (ex_intro _ v (conj E (inheriting_next _ _ _ _ _ _ _ _ E LG W H1)))))).
      * exact FC.
      * rewrite W1 in L'. exact L'.
  - intros u d v E B. destruct (split_fits _ _ _ _ _ F E) as (FD & FU & FV). rewrite below_why in B |- *.
    rewrite (always_below_map g G), (kind_last_map g G), (kind_map g G) in B.
    apply orb_true_iff in B as [B|B]; [rewrite B; auto|]. apply andb_true_iff in B as [B1 B].
    rewrite !orb_true_iff in B. destruct B as [[B|B]|B].
    + right. apply andb_true_iff in B as [_ M]. unfold multi_if in M. apply andb_true_iff in M as [M _]. eapply CH; eauto.
    + right. left. unfold turns in B. destruct u as [|a u]; [discriminate|]. destruct v as [|e v]; [discriminate|]. cbn [map last_of] in B.
      apply andb_true_iff in B as [_ B]. apply N.ltb_lt in B.
      assert (fits a) as FA by (rewrite Forall_forall in FU; apply FU; cbn [rev]; apply in_or_app; right; left; reflexivity).
      inversion FV as [|? ? FE _]; subst.
      destruct (last_line_in a FA) as (t & IT & _ & ET). destruct (first_line_in e FE) as (x & IX & _ & EX). rewrite ET, EX in B.
      assert (In t (flat_map toks (rev (a :: u) ++ d :: e :: v))) as JT.
      { rewrite flat_map_app. apply in_or_app. left. cbn [rev]. rewrite flat_map_app. apply in_or_app. right. cbn [flat_map]. rewrite app_nil_r. exact IT. }
      assert (In x (flat_map toks (rev (a :: u) ++ d :: e :: v))) as JX.
      { rewrite flat_map_app. apply in_or_app. right. cbn [flat_map]. apply in_or_app. right. apply in_or_app. left. exact IX. }
      pose proof (line_ok g _ _ _ L' JT). pose proof (line_ok g _ _ _ L' JX). apply (node_spans g k _ _ t x L' JT JX). lia.
    + apply andb_true_iff in B as [W S]. destruct (WQ W) as [W1|HQ]; [|auto]. left. rewrite B1, W1, S. cbn [andb]. rewrite !orb_true_r. reflexivity.
Qed.
End Third.
