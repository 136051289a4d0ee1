(** The plan for a tree gives every token the position and the level of SpecReference. *)
From Coq Require Import Sorted.
From Verif Require Import ProofBase Tokens Syntax Lexer SpecLex LexInv LexMain LexFacts ParserCore Grammar
  Tree Printer Formatter Lib ParserSem ParserFuel SpecGrammar Regex ParserGrammar ParserTree ParserFacts Recognise PropsParser
  FmtAbs FmtPlan FmtShape FmtTables FmtSound SpecLayout FmtExec FmtTop FmtFacts FmtRelex FmtNeat SpecNodes FmtTree FmtLists FmtOps
  FmtWrap SpecGaps SpecReference FmtNode.

(** ** Indentation and white space of plans, exactly *)
Fixpoint lev (n : nat) (os : list op) : nat :=
  match os with
  | [] => n
  | PMark MIndent :: os' => lev (S n) os'
  | PMark MDedent :: os' => lev (pred n) os'
  | _ :: os' => lev n os'
  end.
(** The indentation at the last break since the last token. *)
Fixpoint lastm (m n : nat) (os : list op) : nat :=
  match os with
  | [] => m
  | PTok _ _ :: os' => lastm O n os'
  | PBrk _ _ :: os' => lastm n n os'
  | PMark MIndent :: os' => lastm m (S n) os'
  | PMark MDedent :: os' => lastm m (pred n) os'
  | _ :: os' => lastm m n os'
  end.
Lemma lev_app a : forall n b, lev n (a ++ b) = lev (lev n a) b.
Proof. induction a as [|[fn t|t b0|[]] a IH]; intros n b; cbn [app lev]; auto. Qed.
Lemma after_gap a : forall p q G, snd (after (p, G) a) = snd (after (q, G) a).
Proof. induction a as [|[fn t|t b0|[]] a IH]; intros p q G; cbn [after fst snd]; auto. Qed.
Lemma score_app_at a : forall G m n b,
  score G m n (a ++ b) = score G m n a ++ score (snd (after (None, G) a)) (lastm m n a) (lev n a) b.
Proof.
  induction a as [|o a IH]; intros G m n b; [reflexivity|].
  destruct o as [fn t|t bl|[]]; cbn [app score after fst snd lastm lev]; try apply IH.
  rewrite IH, (after_gap a (Some (fn, tkind_of t)) None). reflexivity.
Qed.
Lemma score_quiet a : forall G m n, ptoks a = [] -> score G m n a = [].
Proof. induction a as [|[fn t|t b0|[]] a IH]; intros G m n Q; cbn [ptoks score] in *; auto. discriminate. Qed.
Lemma score_after a G m n b : ptoks a = [] ->
  score G m n (a ++ b) = score (G ++ lead a) (lastm m n a) (lev n a) b.
Proof. intro Q. rewrite score_app_at, score_quiet, quiet_after by exact Q. reflexivity. Qed.
(** ** Actions around a child *)
Ltac inv_run R RR :=
  inversion R; subst;
  match goal with H : actions _ _ _ ?a _ _ _ _ _ |- _ => is_var a; rename H into RR end.
Lemma run_enter fn c cs : forall acts d fixed d' x r l pv ln l' os,
  enter d fixed acts = Some (d', x :: r) -> actions fn c cs acts l pv ln l' os ->
  exists a os', os = a ++ os' /\ ptoks a = [] /\ lead a = apre acts /\
    actions fn c cs (x :: r) l pv ln l' os' /\
    (forall base, lev (base + d) a = (base + d')%nat) /\
    (fixed = true -> d' = d) /\
    (forall base m, (fixed = true -> m = (base + d)%nat) ->
       lastm m (base + d) a = if fixed || brk (apre acts) then (base + d')%nat else m).
Proof.
  induction acts as [|a acts IH]; intros d fixed d' x r l pv ln l' os E R; [discriminate|].
  destruct a as [mk|tg b| |k ml w oel keep|p]; cbn [enter] in E; try discriminate.
  - destruct mk; try discriminate.
    + destruct fixed; [discriminate|]. inv_run R RR.
      destruct (IH _ _ _ _ _ _ _ _ _ _ E RR) as (a & os' & -> & Q & L & R' & LV & FX & LM).
      exists (PMark MIndent :: a), os'. cbn [app ptoks lead apre agap flat_map lev lastm orb] in *. repeat (split; auto).
      * intro base. rewrite <- Nat.add_succ_r. apply LV.
      * discriminate.
      * intros base m _. rewrite <- Nat.add_succ_r. apply LM. discriminate.
    + destruct fixed; [discriminate|]. destruct d as [|d]; [discriminate|]. inv_run R RR.
      destruct (IH _ _ _ _ _ _ _ _ _ _ E RR) as (a & os' & -> & Q & L & R' & LV & FX & LM).
      exists (PMark MDedent :: a), os'. cbn [app ptoks lead apre agap flat_map lev lastm orb] in *. repeat (split; auto).
      * intro base. rewrite Nat.add_succ_r. apply LV.
      * discriminate.
      * intros base m _. rewrite Nat.add_succ_r. apply LM. discriminate.
    + inv_run R RR.
      destruct (IH _ _ _ _ _ _ _ _ _ _ E RR) as (a & os' & -> & Q & L & R' & LV & FX & LM).
      exists (PMark MSpace :: a), os'. cbn [app ptoks lead apre agap flat_map lev lastm orb] in *. rewrite L. repeat (split; auto).
  - destruct tg; [|discriminate]. inv_run R RR.
    destruct (IH _ _ _ _ _ _ _ _ _ _ E RR) as (a & os' & -> & Q & L & R' & LV & FX & LM).
    exists (PBrk tok b :: a), os'. cbn [app ptoks lead apre agap flat_map lev lastm orb] in *. rewrite L. repeat (split; auto).
    intros base m _. rewrite LM by auto. cbn [orb brk existsb is_gb]. rewrite orb_true_r. reflexivity.
  - injection E as <- <- <-. exists [], os. cbn [app ptoks lead apre lev lastm]. repeat (split; auto).
    intros base m FX. cbn [brk existsb]. rewrite orb_false_r. destruct fixed; auto.
  - injection E as <- <- <-. exists [], os. cbn [app ptoks lead apre lev lastm]. repeat (split; auto).
    intros base m FX. cbn [brk existsb]. rewrite orb_false_r. destruct fixed; auto.
Qed.

Lemma run_leave fn c cs : forall acts d fixed d' l pv ln l' os,
  leave d fixed acts = Some d' -> actions fn c cs acts l pv ln l' os ->
  l' = l /\ ptoks os = [] /\ lead os = agap acts /\ (fixed = true -> d' = d) /\
  (forall base, lev (base + d) os = (base + d')%nat) /\
  (forall base m, (fixed = true -> m = (base + d)%nat) -> fixed || brk (agap acts) = true ->
     lastm m (base + d) os = (base + d')%nat).
Proof.
  induction acts as [|a acts IH]; intros d fixed d' l pv ln l' os E R.
  - injection E as <-. inversion R; subst. repeat (split; auto). intros base m FX B. cbn [lastm].
    cbn [agap flat_map brk existsb] in B. rewrite orb_false_r in B. auto.
  - destruct a as [mk|tg b| |k ml w oel keep|p]; cbn [leave] in E; try discriminate.
    + destruct mk; try discriminate.
      * destruct fixed; [discriminate|]. inv_run R RR.
        destruct (IH _ _ _ _ _ _ _ _ E RR) as (-> & Q & L & FX & LV & LM).
        cbn [ptoks lead agap flat_map app lev lastm]. split; [reflexivity|]. split; [exact Q|]. split; [exact L|].
        split; [discriminate|]. split.
        -- intro base. rewrite <- Nat.add_succ_r. apply LV.
        -- intros base m _ B. rewrite <- Nat.add_succ_r. apply LM; [discriminate|exact B].
      * destruct fixed; [discriminate|]. destruct d as [|d]; [discriminate|]. inv_run R RR.
        destruct (IH _ _ _ _ _ _ _ _ E RR) as (-> & Q & L & FX & LV & LM).
        cbn [ptoks lead agap flat_map app lev lastm]. split; [reflexivity|]. split; [exact Q|]. split; [exact L|].
        split; [discriminate|]. split.
        -- intro base. rewrite Nat.add_succ_r. apply LV.
        -- intros base m _ B. rewrite Nat.add_succ_r. apply LM; [discriminate|exact B].
      * inv_run R RR. destruct (IH _ _ _ _ _ _ _ _ E RR) as (-> & Q & L & FX & LV & LM).
        cbn [ptoks lead agap flat_map app lev lastm]. rewrite L. repeat (split; auto).
    + destruct tg; [discriminate|]. inv_run R RR.
      destruct (IH _ _ _ _ _ _ _ _ E RR) as (-> & Q & L & FX & LV & LM).
      cbn [ptoks lead agap flat_map app lev lastm]. rewrite L. repeat (split; auto).
Qed.

(** ** The rules, child by child *)
Definition agrees (e : scored) (x : spot) : Prop :=
  let '(G, m, (fn, t)) := e in
  at_rule x = fn /\ at_tok x = t /\
  match at_pos x with
  | Below b => filter is_gb G = [GB (as_blank b)] /\ m = at_level x
  | Beside => brk G = false
  | Attached => G = []
  | Detached => G = [GS]
  end.

Fixpoint children (k : skind) (w : bool) (all : list child) (pos : position) (first : nat)
    (u : list child) (n : nat) (on : bool) (v : list child) : list spot :=
  match v with
  | [] => []
  | d :: v' =>
      let turn := turns k (last_of u) d v' in
      let on := on || turn in
      let p := position_of k w turn (multi_if d) (is_late d) (after_first u) (kind_last u) (kind_of d) in
      let m := (n + deeper k w (multi_if d) (kind_last u) (kind_of d))%nat in
      let lvl := (m + one_if on)%nat in
      let new := match u, p with [], Below _ => true | [], _ => false | _, _ => true end in
      spots k (if new then p else pos) (if new then lvl else first)
        (if continues k d then m else lvl) (continues k d && on) (bequeathed k w all d) d
      ++ children k w all pos first (d :: u) (n + leak d + one_if (keeps_level k d))%nat
            (on || (continues k d && wraps d)) v'
  end.
Lemma spots_tree q pos first n on inh k cs :
  spots q pos first n on inh (CTree k cs) = children k (wide k cs inh) cs pos first [] n on cs.
Proof.
  cbn [spots]. generalize (@nil child). generalize (wide k cs inh). intro w. generalize cs at 1 3. intro all.
  revert n on. induction cs as [|d v IH]; intros n on u; [reflexivity|]. cbn [children]. rewrite <- IH. reflexivity.
Qed.
Fixpoint wraps_in (k : skind) (prev : option child) (cs : list child) : bool :=
  match cs with
  | [] => false
  | d :: v => turns k prev d v || (continues k d && wraps d) || wraps_in k (Some d) v
  end.
Lemma wraps_tree k cs : wraps (CTree k cs) = wraps_in k None cs.
Proof.
  cbn [wraps]. generalize (@None child). induction cs as [|d v IH]; intro p; [reflexivity|]. cbn [wraps_in]. rewrite <- IH. reflexivity.
Qed.
Fixpoint leak_in (k : skind) (cs : list child) : nat :=
  match cs with [] => O | d :: v => (leak d + one_if (keeps_level k d) + leak_in k v)%nat end.
Lemma leak_tree k cs : leak (CTree k cs) = leak_in k cs.
Proof. cbn [leak]. induction cs as [|d v IH]; [reflexivity|]. cbn [leak_in]. rewrite <- IH. reflexivity. Qed.
(** ** The checks *)
Lemma opt_sym_eqb_eq a b : opt_eqb sym_eqb a b = true -> a = b.
Proof. destruct a, b; cbn [opt_eqb]; intro H; try discriminate; auto. apply sym_eqb_eq in H. congruence. Qed.
Lemma mem_n_in s l : mem_n s l = true -> In s l.
Proof.
  intro H. apply existsb_exists in H as [y [I E]]. replace s with y; auto.
  destruct s as [a1 a2 a3 a4 a5 a6 a7 a8], y as [b1 b2 b3 b4 b5 b6 b7 b8]. unfold nst_eqb in E. cbn [n_left n_sym n_rest n_idx n_loc n_ini n_up n_gap] in E.
  repeat (apply andb_true_iff in E as [E ?]).
  repeat match goal with
  | K : opt_eqb sym_eqb _ _ = true |- _ => apply opt_sym_eqb_eq in K
  | K : sym_eqb _ _ = true |- _ => apply sym_eqb_eq in K
  | K : N.eqb _ _ = true |- _ => apply N.eqb_eq in K
  | K : Nat.eqb _ _ = true |- _ => apply Nat.eqb_eq in K
  | K : gap_eqb _ _ = true |- _ => apply gap_eqb_eq in K
  | K : locals_eqb _ _ = true |- _ => apply locals_eqb_eq in K
  | K : rx_eqb _ _ = true |- _ => apply rx_eqb_eq in K
  end. congruence.
Qed.

Definition first_ok (fn : skind) (left : option sym) (acts : list action) (x : sym) : Prop :=
  left = None ->
  (bare (Rule fn) = true -> apre acts = [] /\ bare x = true) /\
  (smooth (Rule fn) = true -> brk (apre acts) = false /\ smooth x = true).

Lemma outcomes_inv fn w0 oel st nx pv nl mlif desc ip outs :
  outcomes fn w0 oel st nx pv (nl, mlif, desc, ip) = Some outs ->
  exists acts l1 d x r,
    step fn (n_loc st) (nview st nx pv (nl, mlif, desc, ip)) = (acts, l1) /\
    enter (n_up st) (brk (n_gap st)) acts = Some (d, x :: r) /\
    (forall wide multi late,
       In wide (wides fn (n_ini st) (n_sym st) desc) -> (uses_mlif fn = true -> multi = mlif) ->
       (skind_eqb fn KStoredDefinition = true -> late = ip) ->
       one_ok fn w0 st nx (n_gap st ++ apre acts) x l1 d
         (operates fn (n_sym st) && is_some (n_left st) && is_some nx && nl) wide multi late = true) /\
    l_w l1 = l_w (n_loc st) || (operates fn (n_sym st) && is_some (n_left st) && is_some nx && nl) /\
    first_ok fn (n_left st) acts (n_sym st) /\
    forall p, In p (results x (n_sym st) l1 d) ->
      exists d', leave (snd p) false r = Some d' /\ In (fst p, d', agap r) outs /\
        (nx = None -> exists e, marks_ind (epilogue fn (fst p)) d' = Some e /\
           (one_if w0 + e)%nat = if skind_eqb fn KExpression && negb oel then 0%nat else one_if (l_w (fst p))).
Proof.
  unfold outcomes. destruct (step fn (n_loc st) (nview st nx pv (nl, mlif, desc, ip))) as [acts l1].
  set (turn := operates fn (n_sym st) && is_some (n_left st) && is_some nx && nl).
  destruct (enter (n_up st) (brk (n_gap st)) acts) as [[d [|x r]]|] eqn:E; try discriminate.
  match goal with |- (if ?b then _ else _) = _ -> _ => destruct b eqn:B; [|discriminate] end.
  intro O. injection O as O. exists acts, l1, d, x, r. split; [reflexivity|]. split; [exact E|].
  apply andb_true_iff in B as [B B4]. apply andb_true_iff in B as [B B3]. apply andb_true_iff in B as [B1 B2].
  split; [|split; [|split]].
  - intros wide multi late IW IM IL.
    pose proof (proj1 (forallb_forall _ _) B1 _ IW) as C1. cbv beta in C1.
    assert (In multi (if uses_mlif fn then [mlif] else bools)) as IM'.
    { destruct (uses_mlif fn); [left; symmetry; auto|destruct multi; cbn; auto]. }
    pose proof (proj1 (forallb_forall _ _) C1 _ IM') as C2. cbv beta in C2.
    assert (In late (if skind_eqb fn KStoredDefinition then [ip] else bools)) as IL'.
    { destruct (skind_eqb fn KStoredDefinition); [left; symmetry; auto|destruct late; cbn; auto]. }
    exact (proj1 (forallb_forall _ _) C2 _ IL').
  - apply Bool.eqb_prop in B2. exact B2.
  - intro L. rewrite L in B3. cbn [is_some orb] in B3. apply andb_true_iff in B3 as [B3 B5]. split; intro H.
    + rewrite H in B3. cbn [negb orb] in B3. apply andb_true_iff in B3 as [B3 B6]. apply gap_eqb_eq in B3. auto.
    + rewrite H in B5. cbn [negb orb] in B5. apply andb_true_iff in B5 as [B5 B6]. apply negb_true_iff in B5. auto.
  - intros p I. rewrite forallb_forall in B4. specialize (B4 _ I).
    destruct (leave (snd p) false r) as [d'|] eqn:LE; [|discriminate]. exists d'. split; [reflexivity|]. split.
    + rewrite <- O. apply in_flat_map. exists p. split; auto. rewrite LE. left. reflexivity.
    + intros ->. destruct (marks_ind (epilogue fn (fst p)) d') as [e|]; [|discriminate]. exists e. split; auto.
      apply Nat.eqb_eq in B4. exact B4.
Qed.

(** ** The source layout *)
Lemma kind_sym c : kind_of c = sym_of c.
Proof. destruct c; reflexivity. Qed.
Lemma multi_view c : fits c ->
  opt_true (is_multiline c) && match start_of c with Some t => tkind_eqb (tkind_of t) TIf | None => false end = multi_if c.
Proof.
  intro F. rewrite (multi_lines _ F). unfold multi_if, spans. cbn [opt_true]. f_equal.
  destruct (fits_start c F) as (t & r & -> & L). rewrite toks_leaves, L. reflexivity.
Qed.
Lemma late_view c : (match c with CTok t => 0 <? tidx t | _ => false end) = is_late c.
Proof. destruct c; reflexivity. Qed.
Lemma step_at fn l pv ln i c cs : fits c -> Forall fits cs ->
  step fn l (view_at pv ln i c cs) =
  (let '(nl, mlif, desc, ip) := norm_flags fn
       (match cs with [] => false | p :: _ => ln <? first_line p end) (multi_if c) (contains KDescription c) (is_late c) in
   step fn l (mkV (label_of c) (match cs with [] => None | p :: _ => Some (label_of p) end) (cls pv) (if i <? 3 then i else 3)
                nl mlif desc false ip)).
Proof.
  intros F FS. rewrite <- step_norm_at. f_equal. unfold view_at, view_of. cbn [fprev fline].
  rewrite (multi_view _ F), late_view.
  assert (match c with CTree _ [] => true | _ => false end = false) as ->.
  { inversion F; subst; auto. destruct cs0; auto. contradiction. }
  f_equal. destruct cs as [|p ps]; auto. inversion FS as [|? ? FP _]; subst. destruct (fits_start p FP) as (t & r & E & _). rewrite E.
  rewrite (first_line_start _ _ FP E). reflexivity.
Qed.

Lemma contains_holds k k0 cs : contains k (CTree k0 cs) = existsb (holds k) cs.
Proof.
  revert k0 cs. assert (forall c, match c with CTok _ => True | CTree k0 cs => contains k c = existsb (holds k) cs end) as H.
  { induction c as [t|k0 cs IH] using child_ind2; [exact I|]. cbn [contains]. induction IH as [|c cs C _ IHc]; [reflexivity|].
    cbn [existsb]. rewrite <- IHc. destruct c as [t|k1 ds]; [reflexivity|]. cbn [holds]. rewrite <- C.
    replace (skind_eqb k1 k) with (skind_eqb k k1).
    - destruct (skind_eqb k k1); reflexivity.
    - destruct (skind_eqb k k1) eqn:E; symmetry.
      + apply skind_eqb_eq in E. subst. apply skind_eqb_refl.
      + destruct (skind_eqb k1 k) eqn:E2; auto. apply skind_eqb_eq in E2. subst. rewrite skind_eqb_refl in E. discriminate. }
  intros k0 cs. exact (H (CTree k0 cs)).
Qed.
Lemma apart_spread k cs : brackets_apart k cs = true <-> spread k cs.
Proof.
  unfold brackets_apart, spread. rewrite existsb_exists. split.
  - intros (o & IO & H). apply existsb_exists in H as (c & IC & H). destruct o as [a|], c as [b|]; try discriminate.
    apply andb_true_iff in H as [H L]. apply andb_true_iff in H as [H1 H2]. apply N.ltb_lt in L. exists a, b. auto.
  - intros (a & b & IA & IB & O & C & L). exists (CTok a). split; auto. apply existsb_exists. exists (CTok b). split; auto.
    rewrite O, C. apply N.ltb_lt in L. rewrite L. reflexivity.
Qed.
Lemma paren_apart k o c cs : by_brackets k = Some (o, c) -> lang (pruned (production false k)) (map sym_of cs) ->
  paren_multiline o c cs = brackets_apart k cs.
Proof.
  intros B L. apply eq_true_iff_eq. rewrite (paren_spread _ _ _ _ B L), apart_spread. reflexivity.
Qed.

(** The flag computed before the loop. *)
Lemma flag_wide k ml w oel cs ms l inh : fits (CTree k cs) -> In (ml, w, oel) (args k) ->
  prologue k ml w oel (CTree k cs) cs = Ok (ms, l) -> (in_list k ml_fns = true -> ml = inh) ->
  l_ml l = (if skind_eqb k KShortClassSpecifier then brackets_apart k cs else wide k cs inh) /\
  l_w l = w /\ (k = KPrimary -> l_cnt l = Nat.eqb (length cs) 3).
Proof.
  intros F A P IM. pose proof (multi_lines _ F) as ML. inversion F as [|? ? NE L FC]; subst. unfold prologue in P. rewrite ML in P.
  destruct k; cbn [unwrap bind] in P; try (specialize (IM eq_refl); subst inh).
  all: try (destruct ml; cbn [unwrap bind] in P).
  all: apply ok_inj in P as [_ <-]; cbn [set_ml l_ml l_w l_cnt skind_eqb wide orb].
  all: (split; [|split; [reflexivity|try discriminate]]).
  all: try reflexivity.
  all: try (apply paren_apart; [reflexivity|exact L]).
  all: try (vm_compute in A; intuition discriminate).
  - change (skind_eqb KClassOrInheritanceModification KShortClassSpecifier) with false. cbv iota. unfold spans, len_cmp. f_equal.
    destruct (N.ltb_spec 2 (N.of_nat (length cs))), (Nat.ltb_spec 2 (length cs)); auto; lia.
  - change (skind_eqb KComponentList KShortClassSpecifier) with false. cbv iota. unfold spans, len_cmp. f_equal.
    destruct (N.ltb_spec 1 (N.of_nat (length cs))), (Nat.ltb_spec 1 (length cs)); auto; lia.
  - change (skind_eqb KClassModification KShortClassSpecifier) with false. cbv iota. unfold spans.
    rewrite !contains_holds. cbn [holds]. change (skind_eqb KDescription KClassModification) with false. change (skind_eqb KDescriptionString KClassModification) with false. cbn [orb]. rewrite <- !orb_assoc. f_equal. apply orb_comm.
  - intros _. unfold len_cmp. destruct (N.eqb_spec (N.of_nat (length cs)) 3), (Nat.eqb_spec (length cs) 3); auto; lia.
Qed.

(** Short class definitions look at the enumeration when they get there. *)
Definition enum_words : option (list (list sym)) :=
  words (sym_eqb (Rule KEnumList)) (pruned (production false KShortClassSpecifier)).
Lemma one_enum cs ds : lang (pruned (production false KShortClassSpecifier)) (map sym_of cs) ->
  In (CTree KEnumList ds) cs ->
  existsb (fun d => match d with CTree KEnumList _ => holds KDescription d | _ => false end) cs
  = contains KDescription (CTree KEnumList ds).
Proof.
  intros L I.
  assert (exists ws, enum_words = Some ws /\ forallb (fun w => Nat.leb (length w) 1) ws = true) as (ws & W & S).
  { eexists. split; vm_compute; reflexivity. }
  pose proof (words_complete _ _ _ L _ W) as IN. rewrite forallb_forall in S. specialize (S _ IN). apply Nat.leb_le in S.
  apply in_split in I as (u & v & ->). rewrite map_app, filter_app in S. cbn [map sym_of filter] in S.
  change (sym_eqb (Rule KEnumList) (Rule KEnumList)) with true in S. rewrite app_length in S. cbn [length] in S.
  assert (forall q, length (filter (sym_eqb (Rule KEnumList)) (map sym_of q)) = O ->
    existsb (fun d => match d with CTree KEnumList _ => holds KDescription d | _ => false end) q = false) as Z.
  { induction q as [|d q IH]; intro E; [reflexivity|]. cbn [map filter existsb] in *. destruct d as [t|k es]; [apply IH; exact E|].
    cbn [sym_of] in E. destruct (sym_eqb (Rule KEnumList) (Rule k)) eqn:K; [discriminate|]. rewrite (IH E), orb_false_r.
    destruct k; try reflexivity. discriminate K. }
  rewrite existsb_app. cbn [existsb]. rewrite (Z u), (Z v) by lia. rewrite orb_false_r. cbn [orb].
  rewrite contains_holds. reflexivity.
Qed.

(** ** One child *)
Definition pend (x : sym) (pos : position) (first : nat) (G : gap) (m : nat) : Prop :=
  match pos with
  | Below b => filter is_gb G = [GB (as_blank b)] /\ m = first /\ smooth x = true
  | Beside => brk G = false
  | Attached => G = [] /\ bare x = true
  | Detached => G = [GS] /\ bare x = true
  end.

(** What is to be shown of a subtree. *)
Definition matches (c : child) : Prop :=
  match c with
  | CTok _ => True
  | CTree k cs =>
      forall ml w oel pv ln r os, wholes ml w oel c pv ln r os ->
      forall q pos first n inh G m, pend (Rule k) pos first G m -> (in_list k ml_fns = true -> ml = inh) ->
      Forall2 agrees (score G m (n + one_if w) os) (spots q pos first n w inh c) /\
      r = w || wraps c /\
      lev (n + one_if w) os = (n + leak c + if skind_eqb k KExpression && negb oel then 0 else one_if r)%nat
  end.

Lemma whole_tail ml w oel k cs pv ln r os : wholes ml w oel (CTree k cs) pv ln r os ->
  ptoks os = dleaves k (CTree k cs) /\ exists d, In (d, trail os) (t_tails k) /\ pv_after pv os = snd d.
Proof.
  intro W. inversion W as [? ? ? ? ? ? ? ms l l' os' F IA PC EP PR LO]; subst.
  destruct (plan_good t_heads t_tails t_pcls t_outs t_sites (fun _ _ _ => True)
    (fun _ _ _ _ _ _ _ _ _ _ => I)
    (check_closed _ _ _ _ _ tables_checked) _ F ml w oel IA (None, []) 0%nat pv ln PC)
    as (r & os & n' & net & P & T & A & R & (k1 & g1 & K1 & K2 & K3) & _); [intros ? ? ?; exact I|].
  rewrite EP in P. injection P as <- <-. split; [exact T|]. exists k1. unfold trail. rewrite K2. auto.
Qed.

Lemma filter_gb_none G : brk G = false -> filter is_gb G = [].
Proof. induction G as [|[] G IH]; cbn [brk existsb is_gb filter orb]; intro H; auto. discriminate. Qed.

(** Position and level of a child, by the rules. *)
Lemma pend_first k acts x pos first G m p :
  first_ok k None acts x -> pend (Rule k) pos first G m ->
  fits_position None (apre acts) x p = true -> p = Beside ->
  pend x pos first (G ++ apre acts) m.
Proof.
  intros FO P FP ->. specialize (FO eq_refl) as [FB FS]. cbn [fits_position] in FP. apply negb_true_iff in FP.
  destruct pos; cbn [pend] in *.
  - rewrite brk_app, P, FP. reflexivity.
  - destruct P as [-> B]. destruct (FB B) as [-> BX]. auto.
  - destruct P as [-> B]. destruct (FB B) as [-> BX]. auto.
  - destruct P as (E & M & S). destruct (FS S) as [_ SX]. rewrite filter_app, E, (filter_gb_none _ FP). auto.
Qed.

(** ** The loop over the children *)
Lemma lastm_app a : forall m n b, lastm m n (a ++ b) = lastm (lastm m n a) (lev n a) b.
Proof. induction a as [|[fn t|t b0|[]] a IH]; intros m n b; cbn [app lastm lev]; auto. Qed.
Lemma after_child c os ln p : fits c -> ptoks os = dleaves p c -> ln_after ln os = last_line c.
Proof.
  intros F T. destruct (dleaves_last p c F) as (f & t & r & E & L). rewrite L in T.
  rewrite (proj2 (after_last _ _ _ _ TEOF ln T)). symmetry. apply last_line_end; auto.
Qed.

Lemma wraps_other k cs : in_list k wrap_fns = false -> wraps (CTree k cs) = false.
Proof.
  intro H. rewrite wraps_tree. generalize (@None child). induction cs as [|d v IH]; intro p; [reflexivity|].
  cbn [wraps_in]. rewrite IH, orb_false_r.
  assert (continues k d = false) as -> by (destruct k; try reflexivity; discriminate H).
  cbn [andb]. rewrite orb_false_r. unfold turns. destruct p as [a|]; auto. destruct v as [|b v]; auto.
  assert (operates k (kind_of d) = false) as -> by (destruct k; try reflexivity; discriminate H). reflexivity.
Qed.
Lemma sym_continues_of k c : sym_continues k (sym_of c) = continues k c.
Proof. destruct c as [t|k' ds]; [destruct k; reflexivity|]. destruct k; try reflexivity; destruct k'; reflexivity. Qed.
Lemma sym_bequeathed_of k w cs c :
  sym_bequeathed k w (Nat.eqb (length cs) 3) (sym_of c) = bequeathed k w cs c \/ k <> KPrimary.
Proof. destruct k; try (right; discriminate). left. destruct c as [t|k' ds]; [reflexivity|]. destruct k'; reflexivity. Qed.
Lemma keeps_leaks k k' ds : keeps_level k (CTree k' ds) = leaks k k' && wraps (CTree k' ds).
Proof. destruct k; try reflexivity; destruct k'; reflexivity. Qed.
Lemma enter_head : forall acts d fixed d' x r, enter d fixed acts = Some (d', x :: r) ->
  x = AHandle \/ exists k ml w oel keep, x = ACall k ml w oel keep.
Proof.
  induction acts as [|a acts IH]; intros d fixed d' x r E; [discriminate|].
  destruct a as [mk|tg b| |k ml w oel keep|p]; cbn [enter] in E; try discriminate.
  - destruct mk; try discriminate; destruct fixed; try discriminate; eauto. destruct d; [discriminate|eauto].
  - destruct tg; [eauto|discriminate].
  - injection E as _ <- _. auto.
  - injection E as _ <- _. right. eauto 6.
Qed.
Lemma operates_nl k x : operates k x = true -> uses_nl k = true.
Proof. destruct k; try discriminate; reflexivity. Qed.

Lemma turns_view k u c v ln st (nx : option (sym * rx)) :
  n_sym st = sym_of c -> n_left st = kind_last u -> is_some nx = negb (match v with [] => true | _ => false end) ->
  (match u with [] => True | a :: _ => ln = last_line a end) ->
  operates k (n_sym st) && is_some (n_left st) && is_some nx &&
    (if uses_nl k then (match v with [] => false | p :: _ => ln <? first_line p end) else false)
  = turns k (last_of u) c v.
Proof.
  intros -> -> -> LN. unfold turns. rewrite (kind_sym c). destruct u as [|a u]; cbn [kind_last is_some last_of].
  - rewrite andb_false_r. reflexivity.
  - destruct v as [|b v]; cbn [negb]; rewrite ?andb_false_r; auto. rewrite !andb_true_r, <- LN.
    destruct (operates k (sym_of c)) eqn:O; [|reflexivity]. rewrite (operates_nl _ _ O). reflexivity.
Qed.

(** White space and indentation before the child. *)
Lemma pend_child k w0 st nx c u acts l1 d x turn wd multi late pos first G m n :
  n_sym st = sym_of c -> n_left st = kind_last u -> first_ok k (n_left st) acts (n_sym st) ->
  one_ok k w0 st nx (n_gap st ++ apre acts) x l1 d turn wd multi late = true ->
  (n_idx st =? 1) = after_first u ->
  match u with
  | [] => n_gap st = [] /\ pend (Rule k) pos first G m
  | a :: _ => exists t, In t (tails_sym (kind_of a)) /\ brk t = false /\ G = t ++ n_gap st
  end ->
  let p := position_of k wd turn multi late (after_first u) (kind_last u) (kind_of c) in
  let lvl := (n + deeper k wd multi (kind_last u) (kind_of c) + one_if (l_w l1))%nat in
  let new := match u, p with [], Below _ => true | [], _ => false | _, _ => true end in
  forall m', m' = (if brk (n_gap st ++ apre acts) then (n + one_if w0 + d)%nat else m) ->
  pend (sym_of c) (if new then p else pos) (if new then lvl else first) (G ++ apre acts) m' /\
  match c with CTok _ => True | CTree _ _ => (n + one_if w0 + d = lvl)%nat end.
Proof.
  intros ES EL FO OK EI B p lvl new m' EM. unfold one_ok in OK. rewrite EI, EL, ES, <- kind_sym in OK. fold p in OK.
  apply andb_true_iff in OK as [OK _]. apply andb_true_iff in OK as [FP LV].
  split.
  2:{ destruct c as [t|k' ds]; auto. cbn [kind_of] in LV. apply Nat.eqb_eq in LV. unfold lvl. cbn [kind_of]. lia. }
  assert (forall b, p = Below b -> (n + one_if w0 + d = lvl)%nat) as LB.
  { intros b E. rewrite E in LV. destruct (kind_of c) eqn:K; apply Nat.eqb_eq in LV; unfold lvl; lia. }
  assert (forall G0 b, filter is_gb G0 = [GB b] -> brk G0 = true) as FB.
  { intros G0 b E. destruct (brk G0) eqn:Z; auto. apply filter_gb_none in Z. congruence. }
  rewrite <- kind_sym in *.
  destruct u as [|a u].
  - destruct B as [NG P]. rewrite NG in *. cbn [app kind_last] in *. rewrite EL in FO. rewrite ES in FO.
    destruct (FO eq_refl) as [FO1 FO2].
    destruct p as [| | |b] eqn:EP; subst new; cbv iota.
    + apply negb_true_iff in FP. rewrite FP in EM. subst m'. apply (pend_first k acts _ pos first G m Beside); auto.
      cbn [fits_position]. rewrite FP. reflexivity.
    + exfalso. cbn [fits_position no_tail] in FP. rewrite andb_false_r in FP. discriminate.
    + exfalso. cbn [fits_position no_tail] in FP. rewrite andb_false_r in FP. discriminate.
    + cbn [fits_position] in FP. apply andb_true_iff in FP as [FP SX]. apply gap_eqb_eq in FP.
      rewrite (FB _ _ FP) in EM. subst m'. cbn [pend]. split; [|split; [eapply LB; reflexivity|exact SX]].
      rewrite filter_app, FP.
      assert (brk G = false) as BG.
      { destruct pos; cbn [pend] in P; auto.
        - destruct P as [-> _]. reflexivity.
        - destruct P as [-> H]. apply FO1 in H as [H _]. rewrite H in FP. discriminate.
        - destruct P as (_ & _ & H). apply FO2 in H as [H _]. apply FB in FP. congruence. }
      rewrite (filter_gb_none _ BG). reflexivity.
  - destruct B as (t & IT & BT & ->). assert (new = true) as -> by (subst new; destruct p; reflexivity).
    rewrite <- app_assoc. cbn [kind_last] in *.
    destruct p as [| | |b] eqn:EP; cbn [fits_position pend] in *.
    + apply negb_true_iff in FP. rewrite brk_app, BT, FP. reflexivity.
    + apply andb_true_iff in FP as [FP SX]. apply andb_true_iff in FP as [FP NT]. apply gap_eqb_eq in FP. rewrite FP, app_nil_r.
      split; auto. cbn [no_tail] in NT. rewrite forallb_forall in NT. specialize (NT _ IT). destruct t; [auto|discriminate].
    + apply andb_true_iff in FP as [FP SX]. apply andb_true_iff in FP as [FP NT]. apply gap_eqb_eq in FP. rewrite FP.
      split; auto. cbn [no_tail] in NT. rewrite forallb_forall in NT. specialize (NT _ IT). destruct t; [auto|discriminate].
    + apply andb_true_iff in FP as [FP SX]. apply gap_eqb_eq in FP. rewrite filter_app, FP, (filter_gb_none _ BT).
      rewrite (FB _ _ FP) in EM. split; [reflexivity|]. split; [|exact SX]. rewrite EM. eapply LB; reflexivity.
Qed.

Lemma child_core k ini l1 wd x r c v pv ln l2 os' d all P F n dp G m w0 :
  fits c -> matches c -> (x = AHandle \/ exists k' ml w oel keep, x = ACall k' ml w oel keep) ->
  actions k c v (x :: r) l1 pv ln l2 os' ->
  call_ok k ini l1 wd x (sym_of c) = true -> (k = KPrimary -> l_cnt ini = Nat.eqb (length all) 3) ->
  pend (sym_of c) P F G m ->
  match c with CTok _ => True | CTree _ _ => (n + one_if w0 + d = n + dp + one_if (l_w l1))%nat end ->
  exists oc b lr dr pv' ln',
    os' = oc ++ b /\ In (lr, dr) (results x (sym_of c) l1 d) /\ actions k c v r lr pv' ln' l2 b /\
    Forall2 agrees (score G m (n + one_if w0 + d) oc)
      (spots k P F (if continues k c then n + dp else n + dp + one_if (l_w l1))%nat (continues k c && l_w l1)
         (bequeathed k wd all c) c) /\
    l_w lr = l_w l1 || (continues k c && wraps c) /\
    lev (n + one_if w0 + d) oc = (n + leak c + one_if (keeps_level k c) + one_if w0 + dr)%nat /\
    ptoks oc <> [] /\ In (trail oc) (tails_sym (sym_of c)) /\
    In (cls (pv_after pv oc))
      (match sym_of c with Term a => [cls a] | Rule f => dedup tkind_eqb (map (fun p => cls (snd (fst p))) (t_tails f)) end).
Proof.
  intros FC MC HX R CO CN PE LV.
  destruct HX as [->|(k' & ml & w & oel & keep & ->)].
  - inversion R as [| | |? t ? ? ? ? ? ? b RB|]; subst. exists [PTok k t], b, l1, d, (tkind_of t), (line (tend t)).
    assert (continues k (CTok t) = false) as CF by (destruct k; reflexivity).
    assert (keeps_level k (CTok t) = false) as KF by (destruct k; reflexivity).
    rewrite CF, KF. cbn [andb]. rewrite orb_false_r. split; [reflexivity|]. split; [left; reflexivity|]. split; [exact RB|].
    cbn [score spots lev leak sym_of tails_sym one_if ptoks]. repeat split.
    + constructor; [|constructor]. unfold agrees. cbn [at_rule at_tok at_pos at_level]. split; auto. split; auto.
      destruct P; cbn [pend] in PE; tauto.
    + lia.
    + discriminate.
    + left. reflexivity.
    + left. reflexivity.
  - inversion R as [| | | |? k0 ds ? ? ? ? ? ? ? ? ? rr o ? b W RB]; subst.
    destruct (whole_tail _ _ _ _ _ _ _ _ _ W) as (TK & dd & IT & PV).
    cbn [matches] in MC. cbn [call_ok sym_of] in CO.
    rewrite (sym_continues_of k (CTree k' ds) : sym_continues k (Rule k') = _) in CO.
    set (cont := continues k (CTree k' ds)) in *.
    apply andb_true_iff in CO as [CO C6]. apply andb_true_iff in CO as [CO C5]. apply andb_true_iff in CO as [CO C4].
    apply andb_true_iff in CO as [CO C3]. apply andb_true_iff in CO as [C1 C2]. apply Bool.eqb_prop in C1, C2. subst keep w.
    assert (in_list k' ml_fns = true -> ml = bequeathed k wd all (CTree k' ds)) as IM.
    { intro H. rewrite H in C3. cbn [negb orb] in C3. apply Bool.eqb_prop in C3. rewrite C3.
      destruct (sym_bequeathed_of k wd all (CTree k' ds)) as [E|NE].
      - rewrite <- E. cbn [sym_of]. destruct k; try reflexivity. rewrite CN; reflexivity.
      - destruct k; try reflexivity. contradiction. }
    specialize (MC _ _ _ _ _ _ _ W k P F (if cont then n + dp else n + dp + one_if (l_w l1))%nat
      (bequeathed k wd all (CTree k' ds)) G m PE IM) as (A & RR & LL).
    assert ((if cont then n + dp else n + dp + one_if (l_w l1)) + one_if (cont && l_w l1) = n + one_if w0 + d)%nat as EL.
    { destruct cont; cbn [andb one_if]; lia. }
    rewrite EL in A, LL.
    assert (ptoks o <> []) as NE by (rewrite TK; apply dleaves_some; auto).
    assert (In (trail o) (tails_sym (Rule k'))) as TT by (apply in_map_iff; exists (dd, trail o); auto).
    assert (In (cls (pv_after pv o)) (dedup tkind_eqb (map (fun p => cls (snd (fst p))) (t_tails k')))) as TP.
    { apply (dedup_in tkind_eqb). { intros a0 b0 E. apply tkind_eqb_eq in E; auto. }
      apply in_map_iff. exists (dd, trail o). rewrite PV. auto. }
    rewrite keeps_leaks. cbn [sym_of].
    exists o, b, (if cont then set_w rr l1 else l1),
      (if cont then d + (one_if rr - one_if (cont && l_w l1)) else d)%nat, (pv_after pv o), (ln_after ln o).
    split; [reflexivity|]. split.
    { cbn [results]. destruct cont; [|left; reflexivity]. cbn [andb]. apply in_map_iff. exists rr. split; [reflexivity|].
      rewrite RR. cbn [andb]. destruct (l_w l1); [left; reflexivity|]. cbn [orb]. destruct (wraps (CTree k' ds)); cbn; auto. }
    split; [destruct cont; exact RB|]. split; [exact A|]. split.
    { destruct cont; cbn [andb]; [cbn [set_w l_w]; rewrite RR; reflexivity|rewrite orb_false_r; reflexivity]. }
    split; [|auto].
    rewrite LL. cbn [andb] in RR. destruct cont eqn:EC.
    + (* the expression goes on *)
      cbn [orb andb negb] in *.
      assert (leaks k k' = false) as LK by (destruct (leaks k k'); auto; discriminate).
      rewrite LK. cbn [andb one_if].
      assert (skind_eqb k' KExpression && negb oel = false) as ->.
      { destruct (skind_eqb k' KExpression); auto. cbn [negb orb andb] in *. apply Bool.eqb_prop in C4. subst oel. reflexivity. }
      rewrite RR in *. destruct (l_w l1); cbn [orb one_if] in *; [lia|]. destruct (wraps (CTree k' ds)); cbn [one_if]; lia.
    + (* an expression of its own, or something else *)
      cbn [orb andb negb one_if] in *. subst rr.
      destruct (skind_eqb k' KExpression) eqn:KE.
      * cbn [negb orb andb] in *. apply Bool.eqb_prop in C4. subst oel. cbn [negb].
        apply skind_eqb_eq in KE. subst k'. assert (leaks k KExpression = false) as -> by (destruct k; reflexivity). cbn [andb one_if]. lia.
      * cbn [negb orb andb] in *. rewrite orb_false_r in C5. apply orb_true_iff in C5 as [C5|C5].
        -- apply negb_true_iff in C5. rewrite (wraps_other _ _ C5), andb_false_r. cbn [one_if]. lia.
        -- rewrite C5. cbn [andb]. lia.
Qed.

Lemma tails_unbroken x t : In t (tails_sym x) -> brk t = false.
Proof.
  destruct x as [a|k]; cbn [tails_sym].
  - intros [<-|[]]. reflexivity.
  - intro I. apply in_map_iff in I as (p & <- & I). pose proof nodes_checked as H. unfold check_nodes in H.
    apply andb_true_iff in H as [_ H]. apply (skind_all _ H k) in H || pose proof (skind_all _ H k) as H2.
    rewrite forallb_forall in H2. specialize (H2 _ I). apply negb_true_iff in H2. exact H2.
Qed.

(** The state of a loop before a child: [u] are the children before, the last one first. *)
Definition at_child (k : skind) (w0 : bool) (pos : position) (first : nat) (u : list child) (st : nst) (ln : N)
    (n : nat) (G : gap) (m : nat) : Prop :=
  match u with
  | [] => n_gap st = [] /\ pend (Rule k) pos first G m
  | a :: _ => ln = last_line a /\ (brk (n_gap st) = true -> m = (n + one_if w0 + n_up st)%nat) /\
              exists t, In t (tails_sym (kind_of a)) /\ G = t ++ n_gap st
  end.

Lemma one_iteration k w0 oel seen all wd u st c v pv ln l' os n G m pos first :
  closed_nodes k w0 oel seen = true ->
  In wd (wides k (n_ini st) (sym_of c) (if skind_eqb k KShortClassSpecifier then contains KDescription c else false)) ->
  (k = KPrimary -> l_cnt (n_ini st) = Nat.eqb (length all) 3) ->
  Forall fits (c :: v) -> matches c ->
  loops k (c :: v) (N.of_nat (length u)) (n_loc st) pv ln l' os ->
  In st seen -> n_sym st = sym_of c -> lang (n_rest st) (map sym_of v) ->
  n_idx st = (if N.of_nat (length u) <? 3 then N.of_nat (length u) else 3) -> n_left st = kind_last u ->
  In (cls pv) (pvs k st) -> at_child k w0 pos first u st ln n G m ->
  let turn := turns k (last_of u) c v in
  let on := l_w (n_loc st) || turn in
  let p := position_of k wd turn (multi_if c) (is_late c) (after_first u) (kind_last u) (kind_of c) in
  let dp := deeper k wd (multi_if c) (kind_last u) (kind_of c) in
  let lvl := (n + dp + one_if on)%nat in
  let new := match u, p with [], Below _ => true | [], _ => false | _, _ => true end in
  let n' := (n + leak c + one_if (keeps_level k c))%nat in
  exists o os' l2 d' g,
    os = o ++ os' /\ loops k v (N.of_nat (length (c :: u))) l2 (pv_after pv o) (ln_after ln o) l' os' /\
    Forall2 agrees (score G m (n + one_if w0 + n_up st) o)
      (spots k (if new then p else pos) (if new then lvl else first)
         (if continues k c then n + dp else lvl)%nat (continues k c && on) (bequeathed k wd all c) c) /\
    l_w l2 = on || (continues k c && wraps c) /\
    lev (n + one_if w0 + n_up st) o = (n' + one_if w0 + d')%nat /\
    ln_after ln o = last_line c /\
    In (cls (pv_after pv o))
      (match sym_of c with Term a => [cls a] | Rule f => dedup tkind_eqb (map (fun p => cls (snd (fst p))) (t_tails f)) end) /\
    (brk g = true -> lastm m (n + one_if w0 + n_up st) o = (n' + one_if w0 + d')%nat) /\
    (exists t, In t (tails_sym (sym_of c)) /\ snd (after (None, G) o) = t ++ g) /\
    match v with
    | [] => exists e, marks_ind (epilogue k l2) d' = Some e /\
              (one_if w0 + e)%nat = if skind_eqb k KExpression && negb oel then 0%nat else one_if (l_w l2)
    | b :: w => exists r', lang r' (map sym_of w) /\
        In (mkN (Some (n_sym st)) (sym_of b) r' (if n_idx st <? 3 then n_idx st + 1 else 3) l2 (n_ini st) d' g) seen
    end.
Proof.
  intros CL WD CN FS MC LO IS ES LA IX EL IP B turn on p dp lvl new n'.
  inversion LO as [|? ? ? ? ? ? ? acts l1 l2 l3 o os' EST R T LO']; subst; clear LO.
  inversion FS as [|? ? FC FV]; subst.
  rewrite (step_at _ _ _ _ _ _ _ FC FV) in EST.
  match type of EST with context [norm_flags k ?a1 ?a2 ?a3 ?a4] => pose proof (norm_in k a1 a2 a3 a4) as FI end.
  unfold norm_flags in EST, FI.
  assert (exists nx, In nx (nexts (n_rest st)) /\
    is_some nx = negb (match v with [] => true | _ => false end) /\
    match nx, v with
    | None, [] => True
    | Some q, b :: w => fst q = sym_of b /\ lang (snd q) (map sym_of w)
    | _, _ => False
    end) as (nx & NI & NS & NX).
  { destruct v as [|b0 v].
    - exists None. split; [apply nexts_nil; exact LA|]. auto.
    - cbn [map] in LA. apply nexts_cons in LA as (r' & I & L). exists (Some (sym_of b0, r')). auto. }
  unfold closed_nodes in CL. pose proof (proj1 (forallb_forall _ _) CL _ IS) as C1. cbv beta in C1.
  pose proof (proj1 (forallb_forall _ _) C1 _ NI) as C2. cbv beta in C2.
  pose proof (proj1 (forallb_forall _ _) C2 _ IP) as C3. cbv beta in C3.
  pose proof (proj1 (forallb_forall _ _) C3 _ FI) as C4. cbv beta in C4. clear C1 C2 C3.
  match type of C4 with match ?o with _ => _ end = true => destruct o as [outs|] eqn:OU; [|discriminate] end.
  apply outcomes_inv in OU as (acts' & l1' & d & x & r & EST' & EN & OK & LW & FO & RS).
  assert ((acts', l1') = (acts, l1)) as EE.
  { rewrite <- EST, <- EST'. unfold nview. rewrite ES, IX, lab_sym.
    destruct nx as [q|], v as [|b0 v]; try contradiction; [|reflexivity].
    destruct NX as [-> _]. rewrite lab_sym. reflexivity. }
  injection EE as -> ->. clear EST EST'.
  assert (match u with [] => True | a :: _ => ln = last_line a end) as LN by (destruct u; [exact I|apply B]).
  rewrite (turns_view k u c v ln st nx ES EL NS LN) in OK, LW. fold turn in OK, LW. fold on in LW.
  rewrite <- ES in WD. specialize (OK wd (multi_if c) (is_late c) WD).
  assert (one_ok k w0 st nx (n_gap st ++ apre acts) x l1 d turn wd (multi_if c) (is_late c) = true) as OK1.
  { apply OK; intro H; rewrite H; reflexivity. }
  clear OK. pose proof OK1 as CO. unfold one_ok in CO. apply andb_true_iff in CO as [_ CO]. rewrite ES in CO, RS.
  destruct (run_enter _ _ _ _ _ _ _ _ _ _ _ _ _ _ EN R) as (a & o2 & -> & QA & LDA & R2 & LVA & FX & LM).
  assert (lastm m (n + one_if w0 + n_up st) a = (if brk (n_gap st ++ apre acts) then (n + one_if w0 + d)%nat else m)) as EM.
  { rewrite brk_app. destruct u as [|a0 u].
    - destruct B as [NG _]. rewrite NG in *. cbn [brk existsb orb] in *. rewrite (LM (n + one_if w0)%nat m); [reflexivity|discriminate].
    - destruct B as (_ & BM & _). rewrite (LM (n + one_if w0)%nat m BM). reflexivity. }
  destruct (pend_child k w0 st nx c u acts l1 d x turn wd (multi_if c) (is_late c) pos first G m n ES EL FO OK1) with
    (m' := lastm m (n + one_if w0 + n_up st) a) as [PE LV].
  { rewrite IX. destruct u as [|a0 [|a1 u]]; try reflexivity. cbn [length after_first].
    destruct (N.ltb_spec (N.of_nat (S (S (length u)))) 3); [|reflexivity]. apply N.eqb_neq. lia. }
  { destruct u as [|a0 u]; [exact B|]. destruct B as (_ & _ & t & IT & EG). exists t. split; auto. split; auto.
    eapply tails_unbroken; eauto. }
  { exact EM. }
  rewrite LW in PE, LV. fold p dp lvl new in PE, LV.
  destruct (child_core k (n_ini st) l1 wd x r c v pv ln l2 o2 d all (if new then p else pos) (if new then lvl else first)
    n dp (G ++ apre acts) (lastm m (n + one_if w0 + n_up st) a) w0 FC MC (enter_head _ _ _ _ _ _ EN) R2 CO CN PE)
    as (oc & b & lr & dr & pv' & ln' & -> & IR & RB & AG & LWR & LVC & NE & TR & PVC).
  { destruct c; [exact I|]. rewrite LW. exact LV. }
  rewrite LW in AG, LWR. fold lvl in AG. fold n' in LVC.
  destruct (RS _ IR) as (d' & LE & IO & EP). cbn [fst snd] in LE, IO, EP.
  destruct (run_leave _ _ _ _ _ _ _ _ _ _ _ _ LE RB) as (-> & QB & LDB & _ & LVB & LMB).
  exists (a ++ oc ++ b), os', lr, d', (agap r).
  assert (ptoks (oc ++ b) <> []) as NEB by (rewrite ptoks_app; intro H; apply app_eq_nil in H as [H _]; contradiction).
  split; [reflexivity|]. split.
  { replace (N.of_nat (length (c :: u))) with (N.of_nat (length u) + 1) by (cbn [length]; lia). exact LO'. }
  split. { rewrite score_after by exact QA. rewrite LDA, LVA, score_app_at, (score_quiet b) by exact QB. rewrite app_nil_r. exact AG. }
  split; [exact LWR|].
  split. { rewrite !lev_app, LVA, LVC. apply LVB. }
  split. { eapply after_child; eauto. }
  split. { rewrite !pv_after_app, (pv_after_quiet a), (pv_after_quiet b) by assumption. exact PVC. }
  split. { intro BG. rewrite !lastm_app, LVA, LVC. apply LMB; [discriminate|exact BG]. }
  split.
  { exists (trail oc). split; [exact TR|]. rewrite after_app.
    rewrite (after_any _ _ (None, []) NEB). change (snd (after (None, []) (oc ++ b))) with (trail (oc ++ b)).
    rewrite trail_app, LDB by exact QB. reflexivity. }
  destruct v as [|b0 v], nx as [q|]; try contradiction.
  - apply EP. reflexivity.
  - destruct NX as [NQ NL]. exists (snd q). split; [exact NL|]. rewrite forallb_forall in C4. specialize (C4 _ IO).
    apply mem_n_in in C4. cbn [nnext] in C4. rewrite NQ in C4. exact C4.
Qed.

Lemma loop_matches k w0 oel ini seen all wd :
  closed_nodes k w0 oel seen = true ->
  (forall c, In c all -> In wd (wides k ini (sym_of c) (if skind_eqb k KShortClassSpecifier then contains KDescription c else false))) ->
  (k = KPrimary -> l_cnt ini = Nat.eqb (length all) 3) ->
  forall v c u st pv ln l' os n G m pos first,
  incl (c :: v) all -> Forall fits (c :: v) -> Forall matches (c :: v) ->
  loops k (c :: v) (N.of_nat (length u)) (n_loc st) pv ln l' os ->
  In st seen -> n_ini st = ini -> n_sym st = sym_of c -> lang (n_rest st) (map sym_of v) ->
  n_idx st = (if N.of_nat (length u) <? 3 then N.of_nat (length u) else 3) -> n_left st = kind_last u ->
  In (cls pv) (pvs k st) -> at_child k w0 pos first u st ln n G m ->
  Forall2 agrees (score G m (n + one_if w0 + n_up st) os) (children k wd all pos first u n (l_w (n_loc st)) (c :: v)) /\
  l_w l' = l_w (n_loc st) || wraps_in k (last_of u) (c :: v) /\
  exists d e, lev (n + one_if w0 + n_up st) os = (n + leak_in k (c :: v) + one_if w0 + d)%nat /\
    marks_ind (epilogue k l') d = Some e /\
    (one_if w0 + e)%nat = if skind_eqb k KExpression && negb oel then 0%nat else one_if (l_w l').
Proof.
  intros CL WD CN. induction v as [|b0 v IH]; intros c u st pv ln l' os n G m pos first IA FS MS LO IS EI ES LA IX EL IP B.
  all: inversion MS as [|? ? MC MV]; subst.
  all: destruct (one_iteration k w0 oel seen all wd u st c _ pv ln l' os n G m pos first CL
    (WD _ (IA _ (or_introl eq_refl))) CN FS MC LO IS ES LA IX EL IP B)
    as (o & os' & l2 & d' & g & -> & LO' & AG & LW & LV & LN & PV & LM & (t & IT & GA) & NX).
  - inversion LO'; subst. rewrite app_nil_r. cbn [children wraps_in leak_in].
    destruct NX as (e & ME & EE). rewrite !app_nil_r. split; [exact AG|]. split.
    { rewrite LW, orb_false_r, orb_assoc. reflexivity. }
    exists d', e. split; [rewrite LV; lia|]. auto.
  - destruct NX as (r' & LR & IS').
    inversion FS as [|? ? FC FV]; subst.
    set (st' := mkN _ _ _ _ _ _ _ _) in IS'.
    destruct (IH b0 (c :: u) st' _ _ _ _ (n + leak c + one_if (keeps_level k c))%nat
      (snd (after (None, G) o)) (lastm m (n + one_if w0 + n_up st) o) pos first
      (fun y Y => IA y (or_intror Y)) FV MV LO' IS' eq_refl eq_refl LR) as (AG2 & LW2 & d2 & e2 & LV2 & ME2 & EE2).
    { cbn [st' n_idx]. rewrite IX, idx_next. replace (N.of_nat (length (c :: u))) with (N.of_nat (length u) + 1) by (cbn [length]; lia).
      reflexivity. }
    { cbn [st' n_left kind_last]. rewrite ES, (kind_sym c). reflexivity. }
    { unfold pvs. cbn [st' n_left]. rewrite ES. exact PV. }
    { cbn [at_child st' n_gap n_up]. split; [exact LN|]. split; [exact LM|]. exists t. rewrite (kind_sym c). auto. }
    cbn [st' n_up n_loc] in *. cbn [last_of] in LW2.
    split; [|split].
    + rewrite score_app_at, LV. change (children k wd all pos first u n (l_w (n_loc st)) (c :: b0 :: v)) with
        (let turn := turns k (last_of u) c (b0 :: v) in
         let on := l_w (n_loc st) || turn in
         let p := position_of k wd turn (multi_if c) (is_late c) (after_first u) (kind_last u) (kind_of c) in
         let m := (n + deeper k wd (multi_if c) (kind_last u) (kind_of c))%nat in
         let lvl := (m + one_if on)%nat in
         let new := match u, p with [], Below _ => true | [], _ => false | _, _ => true end in
         spots k (if new then p else pos) (if new then lvl else first)
           (if continues k c then m else lvl) (continues k c && on) (bequeathed k wd all c) c
         ++ children k wd all pos first (c :: u) (n + leak c + one_if (keeps_level k c))%nat
              (on || (continues k c && wraps c)) (b0 :: v)).
      cbv zeta. rewrite LW in AG2. apply Forall2_app; [exact AG|exact AG2].
    + rewrite LW2, LW. cbn [wraps_in]. rewrite !orb_assoc. reflexivity.
    + exists d2, e2. split; [|auto]. rewrite lev_app, LV, LV2. cbn [leak_in]. lia.
Qed.

(** ** Trees *)
Lemma lev_marks ms : forall base d d', marks_ind ms d = Some d' -> lev (base + d) (map PMark ms) = (base + d')%nat.
Proof.
  induction ms as [|m ms IH]; intros base d d' H; cbn [marks_ind map lev] in *; [congruence|].
  destruct m; try discriminate.
  - rewrite <- Nat.add_succ_r. apply IH, H.
  - destruct d; [discriminate|]. rewrite Nat.add_succ_r. cbn [pred]. apply IH, H.
Qed.
Lemma lead_marks ms : FmtSound.quiet ms = true -> lead (map PMark ms) = [].
Proof. induction ms as [|[] ms IH]; cbn [FmtSound.quiet forallb map lead]; intro H; try discriminate; auto. Qed.
Lemma lastm_marks ms : FmtSound.quiet ms = true -> forall m n, lastm m n (map PMark ms) = m.
Proof. induction ms as [|[] ms IH]; cbn [FmtSound.quiet forallb map lastm]; intros H m n; try discriminate; auto. Qed.

Lemma wides_wide k ml w oel cs ms l inh c : fits (CTree k cs) -> In (ml, w, oel) (args k) ->
  prologue k ml w oel (CTree k cs) cs = Ok (ms, l) -> (in_list k ml_fns = true -> ml = inh) -> In c cs ->
  In (wide k cs inh) (wides k l (sym_of c) (if skind_eqb k KShortClassSpecifier then contains KDescription c else false)).
Proof.
  intros F A P IM IC. destruct (flag_wide _ _ _ _ _ _ _ _ F A P IM) as (ML & _).
  destruct (skind_eqb k KShortClassSpecifier) eqn:K.
  - apply skind_eqb_eq in K. subst k. cbn [wides wide].
    assert (forall b : bool, In b [false; true]) as AB by (intros []; cbn; auto).
    destruct c as [t|k' ds]; cbn [sym_of]; [apply AB|]. destruct k'; try apply AB.
    left. rewrite ML. f_equal. symmetry. apply one_enum; auto. inversion F; auto.
  - assert (wides k l (sym_of c) false = [l_ml l]) as ->.
    { destruct k; try reflexivity. discriminate K. }
    left. exact ML.
Qed.

Lemma node_closed k ml w oel : In (ml, w, oel) (args k) ->
  exists seen, forallb (fun s => mem_n s seen) (ninits k ml w oel) = true /\ closed_nodes k w oel seen = true.
Proof.
  intro A. pose proof nodes_checked as H. unfold check_nodes in H. apply andb_true_iff in H as [H _].
  pose proof (skind_all _ H k) as H1. cbv beta in H1. pose proof (proj1 (forallb_forall _ _) H1 _ A) as H2.
  cbv beta iota in H2. unfold check_node in H2. apply andb_true_iff in H2. eauto.
Qed.

Lemma all_match c : matches c.
Proof.
  induction c as [t|k cs IH] using child_ind2; [exact I|]. cbn [matches].
  intros ml w oel pv ln r os W q pos first n inh G m PE IM.
  inversion W as [? ? ? ? ? ? ? ms l l' os0 F IA PC EP PR LO]; subst.
  destruct (prologue_starts k ml w oel cs F) as (ms2 & l2 & rx0 & PR2 & IS & LR).
  rewrite PR in PR2. apply ok_inj in PR2 as [<- <-].
  destruct (starts_marks _ _ _ _ _ _ _ IS) as [nn MI]. pose proof (marks_ind_quiet _ _ _ MI) as QM.
  inversion F as [|? ? NE L FS]; subst. destruct cs as [|c v]; [contradiction|].
  destruct (flag_wide _ _ _ _ _ _ _ _ F IA PR IM) as (_ & LW & CN).
  destruct (node_closed _ _ _ _ IA) as (seen & SI & CL).
  cbn [map] in LR. apply nexts_cons in LR as (r' & NI & LR).
  set (st := mkN None (sym_of c) r' 0 l l nn []).
  assert (In st seen) as IST.
  { rewrite forallb_forall in SI. apply mem_n_in, SI. unfold ninits. apply in_flat_map. exists (ms, l, rx0). split; [exact IS|].
    rewrite MI. apply in_flat_map. exists (Some (sym_of c, r')). split; [exact NI|]. left. reflexivity. }
  destruct (loop_matches k w oel l seen (c :: v) (wide k (c :: v) inh) CL
    (fun d D => wides_wide _ _ _ _ _ _ _ _ d F IA PR IM D) CN v c [] st pv ln l' os0 n G m pos first
    (fun y Y => Y) FS IH LO IST eq_refl eq_refl LR eq_refl eq_refl PC (conj eq_refl PE))
    as (AG & LW' & d & e & LV & ME & EE).
  cbn [st n_up n_loc last_of] in *. rewrite LW in *.
  pose proof (marks_ind_quiet _ _ _ ME) as QE.
  assert (lev (n + one_if w) (map PMark ms) = (n + one_if w + nn)%nat) as LM.
  { rewrite <- (Nat.add_0_r (n + one_if w)) at 1. apply lev_marks. exact MI. }
  split; [|split].
  - rewrite score_after by apply ptoks_marks. rewrite (lead_marks _ QM), (lastm_marks _ QM), app_nil_r, LM, score_app_at.
    rewrite (score_quiet (map PMark (epilogue k l'))) by apply ptoks_marks. rewrite app_nil_r, spots_tree. exact AG.
  - rewrite wraps_tree. exact LW'.
  - rewrite !lev_app, LM, LV, (lev_marks _ _ _ _ ME), leak_tree, <- EE. lia.
Qed.
