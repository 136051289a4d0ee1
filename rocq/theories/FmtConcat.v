(** Two files, one after the other. *)
From Verif Require Import ProofBase Tokens Syntax Lexer SpecLex LexInv LexMain LexFacts ParserCore Grammar
  Tree Printer Formatter Lib ParserSem ParserFuel SpecGrammar Regex ParserGrammar ParserTree ParserFacts Recognise PropsParser
  SpecLanguage ParserComplete PropsLanguage
  FmtAbs FmtPlan FmtShape FmtTables FmtSound SpecLayout FmtExec FmtTop FmtFacts FmtRelex FmtNeat SpecNodes FmtTree FmtLists FmtOps
  FmtWrap SpecGaps SpecReference FmtNode FmtReference FmtSame PropsFormat PropsReference FmtBreaks FmtAgree FmtPrinted FmtStable FmtMoved.

(** ** Tokens *)
Lemma lexeme_last k w : lexeme k w -> forall u, w <> u ++ [10].
Proof.
  assert (forall (l : text) x u, l ++ [x] = u ++ [10] -> x = 10) as TL by (intros l x u E; apply app_inj_tail in E; tauto).
  assert (forall (P : N -> Prop) l u, Forall P l -> ~ P 10 -> l = u ++ [10] -> False) as FA.
  { intros P l u F N ->. apply Forall_app in F as [_ F]. inversion F; subst. auto. }
  assert (forall tbl, forallb (fun s => negb (last (str (fst s)) 0 =? 10)) tbl = true -> forall w0 k0 u, spelled tbl w0 k0 -> w0 = u ++ [10] -> False) as SP.
  { intros tbl C w0 k0 u (s & I & ->) E. rewrite forallb_forall in C. apply C in I. cbn [fst] in I. rewrite E, last_last in I. discriminate. }
  assert (~ digit 10) as ND by (unfold digit; lia).
  assert (~ idchar 10) as NI by (unfold idchar, nondigit, letter, digit; lia).
  intros L u E. destruct L as [k w S|k w S|c b C F R|b Q|b Q|d NE F|d f e NE F X Y Z|b F|x X|].
  - revert E. eapply SP; [|exact S]. reflexivity.
  - revert E. eapply SP; [|exact S]. reflexivity.
  - eapply (FA idchar (c :: b)); eauto. constructor; [unfold idchar; auto|exact F].
  - apply (TL (squote :: b)) in E. discriminate.
  - apply (TL (dquote :: b)) in E. discriminate.
  - eauto.
  - destruct Y as [->|(m & sg & g & M & SG & FG & ->)].
    + rewrite app_nil_r in E. destruct X as [->|(g & FG & ->)]; [rewrite app_nil_r in E; eauto|].
      revert E. eapply (FA (fun c => digit c \/ c = dot)); [|intros [K|K]; [auto|discriminate]].
      apply Forall_app. split; [eapply Forall_impl; [|exact F]; auto|]. constructor; [auto|]. eapply Forall_impl; [|exact FG]; auto.
    + rewrite app_assoc in E. destruct (@exists_last _ (m :: sg ++ g)) as (l & z & EL); [discriminate|]. rewrite EL, app_assoc in E. apply TL in E. subst z.
      eapply (FA (fun c => exp_mark c \/ SpecLex.sign c \/ digit c)); [| |exact EL].
      * constructor; [auto|]. apply Forall_app. split; [|eapply Forall_impl; [|exact FG]; auto].
        destruct SG as [->|(c & C & ->)]; [constructor|]. constructor; auto.
      * unfold exp_mark, SpecLex.sign, digit. lia.
  - eapply (FA (fun c => ~ newline_char c) (slash :: slash :: b)); [| |exact E].
    + constructor; [|constructor; [|exact F]]; unfold newline_char, slash; lia.
    + intro K. apply K. unfold newline_char. auto.
  - replace (slash :: star :: x ++ [star; slash]) with ((slash :: star :: x ++ [star]) ++ [slash]) in E by (cbn [app]; rewrite <- app_assoc; reflexivity).
    apply TL in E. discriminate.
  - apply (TL [slash; star] slash) in E. discriminate.
Qed.

Lemma starts_app P (r b : text) : r <> [] -> SpecLex.starts P (r ++ b) <-> SpecLex.starts P r.
Proof.
  destruct r as [|x r]; [contradiction|]. intros _. split; intros (c & r' & E & H).
  - cbn [app] in E. injection E as E1 E2. subst. exists c, r. auto.
  - injection E as E1 E2. subst. exists c, (r' ++ b). auto.
Qed.
Lemma follow_app k w r b : r <> [] -> follow_ok k w r -> follow_ok k w (r ++ b).
Proof.
  intros R F. assert (forall P, ~ SpecLex.starts P r -> ~ SpecLex.starts P (r ++ b)) as K by (intros P N S; apply N; apply (starts_app P r b R), S).
  destruct k; cbn [follow_ok] in *; auto.
  all: match type of F with
       | _ /\ _ => destruct F as (F1 & F2 & F3); auto 6
       | ?x = [] \/ _ => destruct F as [F|F]; [contradiction|]; right; apply starts_app; auto
       | _ \/ _ => destruct F as [F|F]; [left; exact F|right; auto]
       end.
Qed.
Definition finished (a : text) : Prop := a = [] \/ exists u, a = u ++ [10].
Lemma finished_tail x a : finished (x ++ a) -> a <> [] -> finished a.
Proof.
  intros [E|(u & E)] N; [apply app_eq_nil in E as [_ ->]; contradiction|].
  destruct (@exists_last _ a N) as (v & y & ->). rewrite app_assoc in E. apply app_inj_tail in E as [_ ->]. right. exists v. reflexivity.
Qed.
Lemma lexes_join a its : lexes a its -> finished a -> forall b itsb, lexes b itsb -> lexes (a ++ b) (its ++ itsb).
Proof.
  induction 1 as [|c r items S L IH|k w r items X F L IH]; intros N b itsb B; [exact B| |].
  - cbn [app]. constructor; auto. destruct r as [|y r]; [|apply IH; auto; apply (finished_tail [c]); auto; discriminate].
    apply IH; auto. left. reflexivity.
  - cbn [app]. rewrite <- app_assoc. destruct r as [|y r].
    + exfalso. rewrite app_nil_r in N. destruct N as [E|(u & E)].
      * apply lexeme_starts in X as (c & z & -> & _). discriminate.
      * eapply lexeme_last; eauto.
    + constructor; auto; [apply follow_app; auto; discriminate|]. apply IH; auto. apply (finished_tail w); auto. discriminate.
Qed.

(** Tokens from left to right, with their places. *)
Inductive set_out : text -> nat -> list token -> text -> Prop :=
| so_nil c n sp : Forall space sp -> set_out c n [] sp
| so_cons c n sp t its r : Forall space sp ->
    coords_after (c ++ sp) (tstart t) -> pos (tstart t) = bytes_of (c ++ sp) ->
    coords_after (c ++ sp ++ ttext t) (tend t) -> pos (tend t) = bytes_of (c ++ sp ++ ttext t) ->
    tidx t = N.of_nat n -> set_out (c ++ sp ++ ttext t) (S n) its r -> set_out c n (t :: its) (sp ++ ttext t ++ r).
Lemma set_out_space c n its r x : set_out c n its r -> space x -> set_out c n its (r ++ [x]).
Proof.
  induction 1; intro S; [constructor; apply Forall_app; auto|]. rewrite <- !app_assoc. constructor; auto.
Qed.
Lemma set_out_snoc c n its r t : set_out c n its r ->
  coords_after (c ++ r) (tstart t) -> pos (tstart t) = bytes_of (c ++ r) ->
  coords_after (c ++ r ++ ttext t) (tend t) -> pos (tend t) = bytes_of (c ++ r ++ ttext t) ->
  tidx t = N.of_nat (n + length its) -> set_out c n (its ++ [t]) (r ++ ttext t).
Proof.
  induction 1 as [c n sp S|c n sp u its r S A1 A2 A3 A4 A5 L IH]; intros B1 B2 B3 B4 B5; cbn [app].
  - rewrite <- (app_nil_r (ttext t)). constructor; auto; [rewrite B5; cbn [length]; f_equal; lia|]. constructor. constructor.
  - rewrite <- !app_assoc. constructor; auto. rewrite <- !app_assoc in *. apply IH; auto. rewrite B5. cbn [length]. f_equal. lia.
Qed.
Lemma laid_set s items : laid space s items -> set_out [] 0 items s.
Proof.
  induction 1; [constructor; constructor|apply set_out_space; auto|]. apply set_out_snoc; auto.
Qed.
Lemma set_out_inv c n t its r : set_out c n (t :: its) r -> exists sp r2, r = sp ++ ttext t ++ r2 /\ Forall space sp /\
  coords_after (c ++ sp) (tstart t) /\ pos (tstart t) = bytes_of (c ++ sp) /\
  coords_after (c ++ sp ++ ttext t) (tend t) /\ pos (tend t) = bytes_of (c ++ sp ++ ttext t) /\
  tidx t = N.of_nat n /\ set_out (c ++ sp ++ ttext t) (S n) its r2.
Proof. intro S. inversion S; subst. do 2 eexists. split; [reflexivity|]. auto 8. Qed.
Lemma set_out_unique c n a r : set_out c n a r -> forall b, set_out c n b r -> map item_of a = map item_of b ->
  Forall (fun t => exists k, lexeme k (ttext t)) a -> a = b.
Proof.
  induction 1 as [c n sp S|c n sp t its r S A1 A2 A3 A4 A5 L IH]; intros b B M X; destruct b as [|t' its']; try discriminate; [reflexivity|].
  apply set_out_inv in B as (sp' & r2 & E & S' & B1 & B2 & B3 & B4 & B5 & L').
  assert (item_of t = item_of t') as IT by (cbn [map] in M; congruence). apply (f_equal (@tl _)) in M. cbn [map tl] in M.
  assert (ttext t' = ttext t /\ tkind_of t' = tkind_of t) as [T1 T2] by (unfold item_of in IT; split; congruence).
  inversion X as [|? ? [k LX] X']; subst. rewrite T1 in *. apply lexeme_starts in LX as (x & y & EX & NX).
  apply spaces_prefix in E as [-> E2]; auto; try (rewrite EX; cbn [app]; eauto). apply app_inv_head in E2. subst r2.
  assert (t = t') as <-.
  { destruct t as [i1 w1 k1 [s1 s2 s3] [e1 e2 e3]], t' as [i2 w2 k2 [s4 s5 s6] [e4 e5 e6]].
    unfold coords_after in *. cbn [tidx ttext tkind_of tstart tend Tokens.pos line col] in *. destruct A1, A3, B1, B3. congruence. }
  f_equal. apply IH; auto.
Qed.
Lemma items_lexemes s items : lexes s (map item_of items) -> Forall (fun t => exists k, lexeme k (ttext t)) items.
Proof.
  intro L. remember (map item_of items) as its eqn:E. revert items E. induction L as [|c r its S L IH|k w r its X F L IH]; intros items E.
  - destruct items; [constructor|discriminate].
  - auto.
  - destruct items as [|t items]; [discriminate|]. cbn [map] in E. assert ((k, w) = item_of t) as IT by congruence. apply (f_equal (@tl _)) in E. cbn [tl] in E.
    constructor; auto. exists k. unfold item_of in IT. replace (ttext t) with w by congruence. exact X.
Qed.

(** ** A text behind another one *)
Section Behind.
Variable a : text.
Variable m : nat.
Definition shifted (q : Tokens.position) : Tokens.position := mkPos (bytes_of a + pos q) (newlines a + line q) (col q).
Definition later (t : token) : token := mkTok (N.of_nat m + tidx t) (ttext t) (tkind_of t) (shifted (tstart t)) (shifted (tend t)).

Lemma columns_after b : finished a -> columns (a ++ b) = columns b.
Proof.
  intros [->|(u & ->)]; [reflexivity|]. unfold columns. rewrite !fold_left_app. reflexivity.
Qed.
Lemma coords_shift b q : finished a -> coords_after b q -> coords_after (a ++ b) (shifted q).
Proof.
  intros F [L C]. unfold coords_after, shifted. cbn [line col]. rewrite newlines_app, (columns_after b F), L, C. split; [lia|reflexivity].
Qed.
Lemma laid_behind items b its : laid space a items -> length items = m -> finished a -> laid space b its -> laid space (a ++ b) (items ++ map later its).
Proof.
  intros LA M F LB. induction LB as [|c x its L IH S|c its t L IH A1 A2 A3 A4 A5].
  - cbn [map]. rewrite !app_nil_r. exact LA.
  - rewrite app_assoc. constructor; auto.
  - rewrite map_app. cbn [map]. rewrite (app_assoc items). rewrite (app_assoc a).
    apply (laid_item space (a ++ c) (items ++ map later its) (later t));
      auto; cbn [later tstart tend ttext tidx]; rewrite <- ?app_assoc; try (apply coords_shift; auto); cbn [shifted Tokens.pos]; rewrite ?A2, ?A4, ?bytes_app; auto.
    rewrite A5, app_length, map_length. lia.
Qed.
End Behind.

(** ** Trees *)
Section Maps.
Variable g : token -> token.
Hypothesis G : forall t, tkind_of (g t) = tkind_of t.
Lemma sym_tmap c : sym_of (tmap g c) = sym_of c.
Proof. destruct c; cbn [tmap sym_of]; rewrite ?G; reflexivity. Qed.
Lemma syms_tmap cs : map sym_of (map (tmap g) cs) = map sym_of cs.
Proof. rewrite map_map. apply map_ext, sym_tmap. Qed.
Lemma leaves_tmap c : leaves (tmap g c) = map g (leaves c).
Proof.
  induction c as [t|k cs IH] using child_ind2; [reflexivity|]. cbn [tmap leaves]. induction IH as [|c cs C _ IHc]; [reflexivity|].
  cbn [map flat_map]. rewrite map_app, C, IHc. reflexivity.
Qed.
Lemma conforms_tmap strict c : conforms strict c -> conforms strict (tmap g c).
Proof.
  induction c as [t|k cs IH] using child_ind2; intro C; [constructor|]. inversion C as [|? ? L F]; subst. cbn [tmap]. constructor.
  - rewrite syms_tmap. exact L.
  - rewrite Forall_forall in *. intros d D. apply in_map_iff in D as (c & <- & I). auto.
Qed.
Lemma fits_tmap c : fits c -> fits (tmap g c).
Proof.
  induction c as [t|k cs IH] using child_ind2; intro F; [constructor|]. inversion F as [|? ? NE L FC]; subst. cbn [tmap].
  constructor; [destruct cs; [contradiction|discriminate]|rewrite syms_tmap; exact L|].
  rewrite Forall_forall in *. intros d D. apply in_map_iff in D as (c & <- & I). auto.
Qed.
Lemma unbarred_tmap c : unbarred c -> unbarred (tmap g c).
Proof.
  induction c as [t|k cs IH] using child_ind2; intro C; [constructor|]. inversion C as [|? ? L F]; subst. cbn [tmap]. constructor.
  - rewrite Forall_forall in *. intros d D. apply in_map_iff in D as (c & <- & I). specialize (L c I). pose proof (leaves_tmap c) as LT.
    destruct c as [t|k' ds]; [exact L|]. unfold allowed in *. cbn [tmap] in *. rewrite LT. destruct (leaves (CTree k' ds)); cbn [map]; rewrite ?G; exact L.
  - rewrite Forall_forall in *. intros d D. apply in_map_iff in D as (c & <- & I). auto.
Qed.
Lemma prune_tmap c : prune (tmap g c) = tmap g (prune c).
Proof.
  induction c as [t|k cs IH] using child_ind2; [reflexivity|]. cbn [tmap]. rewrite !prune_tree. cbn [tmap]. f_equal.
  unfold prunes. induction IH as [|c cs C _ IHc]; [reflexivity|]. cbn [map filter]. rewrite C.
  replace (empty_tree (tmap g (prune c))) with (empty_tree (prune c)) by (destruct (prune c) as [|k' [|]]; reflexivity).
  destruct (negb (empty_tree (prune c))); cbn [map]; rewrite IHc; reflexivity.
Qed.
End Maps.

(** Class definitions follow class definitions. *)
Lemma stored_join u v : lang (production false KStoredDefinition) u -> lang (production false KStoredDefinition) v ->
  (forall w, v <> Term TWithin :: w) -> lang (production false KStoredDefinition) (u ++ v).
Proof.
  cbn [production]. unfold many, opt. cbn [sq]. intros U V N.
  assert (forall X a b, lang (Star X) a -> lang (Star X) b -> lang (Star X) (a ++ b)) as ST.
  { intros X x y A B. remember (Star X) as R eqn:E. induction A; try discriminate; injection E as ->; [exact B|]. rewrite <- app_assoc. constructor; auto. }
  inversion U as [| |? ? u1 u2 U1 U2| | | |]; subst. inversion V as [| |? ? v1 v2 V1 V2| | | |]; subst.
  assert (v1 = []) as ->.
  { inversion V1 as [| | |? ? ? W|? ? ? W| |]; subst; inversion W as [| |? ? w1 w2 W1 W2| | | |]; subst; [reflexivity|].
    inversion W1; subst. exfalso. eapply N. reflexivity. }
  cbn [app]. rewrite <- app_assoc. constructor; auto.
Qed.

(** ** Spots of files *)
Definition at_first (pos : position) (first : nat) (xs : list spot) : list spot :=
  match xs with [] => [] | x :: r => mkAt (at_rule x) (at_tok x) pos first :: r end.

Lemma stored_turns a c v : turns KStoredDefinition a c v = false.
Proof. destruct a, v; reflexivity. Qed.
Lemma stored_continues c : continues KStoredDefinition c = false.
Proof. destruct c; reflexivity. Qed.
Lemma stored_keeps c : keeps_level KStoredDefinition c = false.
Proof. destruct c; reflexivity. Qed.
Lemma stored_bequeathed all c : bequeathed KStoredDefinition false all c = false.
Proof. destruct c; reflexivity. Qed.
Lemma stored_leak cs : leak (CTree KStoredDefinition cs) = fold_right (fun c n => (leak c + n)%nat) O cs.
Proof. rewrite leak_tree. induction cs as [|c cs IH]; [reflexivity|]. cbn [leak_in fold_right]. rewrite stored_keeps, IH. cbn [one_if]. lia. Qed.

Definition stored_spots (prev : option sym) (c : child) (n : nat) : list spot :=
  let p := position_of KStoredDefinition false false (multi_if c) (is_late c) false prev (kind_of c) in
  let lvl := (n + deeper KStoredDefinition false (multi_if c) prev (kind_of c))%nat in
  let new := match prev, p with None, Below _ => true | None, _ => false | _, _ => true end in
  spots KStoredDefinition (if new then p else Beside) (if new then lvl else O) lvl false false c.
Fixpoint stored_all (prev : option sym) (n : nat) (cs : list child) : list spot :=
  match cs with
  | [] => []
  | c :: r => stored_spots prev c n ++ stored_all (Some (kind_of c)) (n + leak c) r
  end.
Definition unsigned (prev : option sym) : Prop := prev <> Some (Rule KAddOperator).
Lemma stored_second t m l b prev x : unsigned prev ->
  position_of KStoredDefinition false t m l b prev x = position_of KStoredDefinition false t m l false prev x.
Proof.
  intro U. unfold position_of. destruct (fixed_position KStoredDefinition prev x); [reflexivity|].
  match goal with |- (if ?c then _ else _) = _ => destruct c end; [reflexivity|]. destruct prev as [[|k]|]; try reflexivity. destruct k; try reflexivity. contradiction U. reflexivity.
Qed.
Lemma stored_children all v : forall u n, unsigned (kind_last u) -> Forall (fun c => kind_of c <> Rule KAddOperator) v ->
  children KStoredDefinition false all Beside 0 u n false v = stored_all (kind_last u) n v.
Proof.
  induction v as [|c v IH]; intros u n U F; [reflexivity|]. inversion F as [|? ? F1 F2]; subst. cbn [children stored_all]. cbv zeta.
  rewrite stored_turns, stored_continues, stored_keeps, stored_bequeathed, stored_second by exact U. cbn [orb andb one_if]. rewrite !Nat.add_0_r. f_equal.
  - unfold stored_spots. cbv zeta. destruct u; reflexivity.
  - rewrite IH; auto. unfold unsigned. cbn [kind_last]. congruence.
Qed.
Lemma stored_split a : forall prev n b, stored_all prev n (a ++ b) =
  stored_all prev n a ++ stored_all (match rev a with [] => prev | c :: _ => Some (kind_of c) end) (n + leak (CTree KStoredDefinition a)) b.
Proof.
  induction a as [|c a IH]; intros prev n b; [cbn; rewrite Nat.add_0_r; reflexivity|]. cbn [app stored_all rev]. rewrite IH, app_assoc. f_equal.
  rewrite !stored_leak. cbn [fold_right]. f_equal; [|lia]. destruct (rev a); reflexivity.
Qed.

Fixpoint atoms (r : rx) : list sym :=
  match r with Sy x => [x] | Cat a b | Alt a b => atoms a ++ atoms b | Star a => atoms a | _ => [] end.
Lemma atoms_complete r w : lang r w -> forall x, In x w -> In x (atoms r).
Proof.
  induction 1; intros y I; cbn [atoms]; rewrite ?in_app_iff in *; auto; try contradiction; firstorder.
Qed.
Lemma kind_is c : kind_of c = sym_of c.
Proof. destruct c; reflexivity. Qed.
Lemma stored_unsigned cs : fits (CTree KStoredDefinition cs) -> Forall (fun c => kind_of c <> Rule KAddOperator) cs.
Proof.
  intro F. inversion F as [|? ? _ L _]; subst. rewrite Forall_forall. intros c I E. rewrite kind_is in E.
  assert (In (sym_of c) (atoms (pruned (production false KStoredDefinition)))) as A by (eapply atoms_complete; [exact L|]; apply in_map, I).
  rewrite E in A. vm_compute in A. intuition discriminate.
Qed.
Lemma stored_last cs : fits (CTree KStoredDefinition cs) -> exists u t, cs = u ++ [CTok t] /\ tkind_of t = TSemicolon.
Proof.
  intro F. inversion F as [|? ? NE L _]; subst. destruct (@exists_last _ cs NE) as (u & c & ->).
  assert (In (sym_of c) (lasts (pruned (production false KStoredDefinition)))) as A by (eapply lasts_complete; [exact L|]; rewrite map_app; reflexivity).
  change (In (sym_of c) [Term TSemicolon; Term TSemicolon]) in A. destruct c as [t|k ds]; cbn [sym_of In] in A; [|intuition discriminate]. exists u, t. split; [reflexivity|]. intuition congruence.
Qed.
Lemma stored_first cs t r : fits (CTree KStoredDefinition cs) -> toks (CTree KStoredDefinition cs) = t :: r -> tkind_of t <> TWithin -> tkind_of t <> TFinal ->
  exists ds v, cs = CTree KClassDefinition ds :: v.
Proof.
  intros F T N1 N2. inversion F as [|? ? NE L _]; subst. destruct cs as [|c v]; [contradiction|].
  assert (In (sym_of c) (firsts (pruned (production false KStoredDefinition)))) as A by (eapply firsts_complete; exact L).
  change (In (sym_of c) [Term TWithin; Term TFinal; Rule KClassDefinition]) in A. destruct c as [x|k ds]; cbn [sym_of In] in A.
  - exfalso. cbn [toks flat_map app] in T. assert (x = t) as -> by congruence. intuition congruence.
  - exists ds, v. f_equal. f_equal. intuition congruence.
Qed.

(** The first token of a class gets the position of the class. *)
Lemma children_rest k w all p f p' f' v : forall u n on, u <> [] -> children k w all p f u n on v = children k w all p' f' u n on v.
Proof.
  induction v as [|c v IH]; intros u n on U; [reflexivity|]. cbn [children]. cbv zeta. destruct u as [|a u]; [contradiction|]. f_equal. apply IH. discriminate.
Qed.
Definition passes (k : skind) (x : sym) : Prop := forall w m l, exists p,
  position_of k w false m l false None x = p /\ match p with Below _ => False | _ => True end.
Lemma spots_head q n on inh k x v : passes k (kind_of x) ->
  exists n' on' inh' rest, forall pos first, spots q pos first n on inh (CTree k (x :: v)) = spots k pos first n' on' inh' x ++ rest.
Proof.
  intro P. do 3 eexists. exists (children k (wide k (x :: v) inh) (x :: v) Beside 0 [x] (n + leak x + one_if (keeps_level k x)) (on || (continues k x && wraps x)) v).
  intros pos' first'. rewrite spots_tree. cbn [children last_of kind_last turns after_first]. cbv zeta. rewrite orb_false_r.
  destruct (P (wide k (x :: v) inh) (multi_if x) (is_late x)) as (p & -> & NB). f_equal; [|apply children_rest; discriminate].
  destruct p; try contradiction; reflexivity.
Qed.
Lemma class_head ds : fits (CTree KClassDefinition ds) -> forall q n on inh, exists r t rest, forall pos first,
  spots q pos first n on inh (CTree KClassDefinition ds) = mkAt r t pos first :: rest.
Proof.
  intros F q n on inh. inversion F as [|? ? NE L FC]; subst. destruct ds as [|x v]; [contradiction|].
  assert (In (sym_of x) (firsts (pruned (production false KClassDefinition)))) as A by (eapply firsts_complete; exact L).
  change (In (sym_of x) [Term TEncapsulated; Rule KClassPrefixes]) in A. cbn [In] in A.
  assert (passes KClassDefinition (kind_of x)) as P.
  { rewrite kind_is. intros w m l. eexists. split; [reflexivity|].
    destruct A as [<-|[<-|[]]]; unfold position_of; cbn [fixed_position trailing value spread_position element andb orb]; rewrite ?andb_false_r; cbn [orb]; exact Logic.I. }
  destruct (spots_head q n on inh KClassDefinition x v P) as (n' & on' & inh' & rest & E).
  inversion FC as [|? ? FX _]; subst. destruct x as [t|k ps]; cbn [sym_of] in A.
  - do 3 eexists. intros. rewrite E. reflexivity.
  - assert (k = KClassPrefixes) as -> by intuition congruence.
    inversion FX as [|? ? NE' L' _]; subst. destruct ps as [|y v']; [contradiction|].
    assert (In (sym_of y) (firsts (pruned (production false KClassPrefixes)))) as A' by (eapply firsts_complete; exact L').
    change (In (sym_of y) [Term TPartial; Term TClass; Term TModel; Term TOperator; Term TRecord; Term TBlock; Term TExpandable; Term TConnector;
      Term TType; Term TPackage; Term TPure; Term TImpure; Term TOperator; Term TFunction; Term TOperator]) in A'. cbn [In] in A'. destruct y as [t|k' ys]; cbn [sym_of] in A'; [|intuition discriminate].
    assert (passes KClassPrefixes (kind_of (CTok t))) as P'.
    { cbn [kind_of]. intros w m l. eexists. split; [reflexivity|].
      assert (match tkind_of t with TWithin => False | _ => True end) as NW by (destruct (tkind_of t); try exact Logic.I; intuition discriminate).
      unfold position_of. cbn [fixed_position trailing value spread_position element andb orb]. rewrite andb_false_r. cbn [orb].
      destruct (tkind_of t); try contradiction; rewrite ?andb_false_r; exact Logic.I. }
    destruct (spots_head KClassDefinition n' on' inh' KClassPrefixes (CTok t) v' P') as (n2 & on2 & inh2 & rest2 & E2).
    do 3 eexists. intros. rewrite E, E2. reflexivity.
Qed.

(** ** The layout of both files *)
Lemma weave_app a t : plain t = true -> forall p ln cs xs, filter plain (a ++ [t]) = map at_tok xs ->
  exists r, forall b ys, weave p ln cs ((a ++ [t]) ++ b) (xs ++ ys) =
    weave p ln cs (a ++ [t]) xs ++ weave (Some (r, tkind_of t)) (line (tend t)) [] b ys.
Proof.
  intro P. assert (is_comment t = false) as NC by (rewrite is_commentary; unfold plain, commentary in *; destruct (is_comment_kind (tkind_of t)); auto; discriminate).
  induction a as [|c a IH]; intros p ln cs xs E.
  - cbn [app filter] in E. rewrite P in E. destruct xs as [|x [|y xs]]; try discriminate. exists (at_rule x). intros b ys. cbn [app weave]. rewrite NC.
    rewrite app_nil_r. reflexivity.
  - cbn [app filter] in E. unfold plain at 1 in E. destruct (is_comment_kind (tkind_of c)) eqn:K; cbn [negb] in E.
    + destruct (IH p ln (cs ++ [c]) xs E) as (r & H). exists r. intros b ys. cbn [app weave]. rewrite is_commentary. unfold commentary. rewrite K. apply H.
    + destruct xs as [|x xs]; [discriminate|]. cbn [map] in E. apply (f_equal (@tl _)) in E. cbn [tl] in E.
      destruct (IH (Some (at_rule x, tkind_of c)) (line (tend c)) [] xs E) as (r & H). exists r. intros b ys. cbn [app weave]. rewrite is_commentary. unfold commentary. rewrite K.
      rewrite H, app_assoc. reflexivity.
Qed.

Definition same_text (t t' : token) : Prop := ttext t = ttext t'.
Lemma later_moved a m t : (tkind_of t = TWithin -> 0 < tidx t) -> moved same_text (newlines a) t (later a m t).
Proof. intro N. unfold moved, later, shifted. cbn [tkind_of ttext tstart tend line]. split; [reflexivity|]. split; [reflexivity|]. split; [lia|]. split; [lia|]. intro W. apply N in W. cbn [tidx].
  destruct (N.ltb_spec 0 (N.of_nat m + tidx t)), (N.ltb_spec 0 (tidx t)); reflexivity || lia.
Qed.
Lemma tmap_moved R d g c : (forall t, In t (toks c) -> moved R d t (g t)) -> tree_moved R d c (tmap g c).
Proof.
  induction c as [t|k cs IH] using child_ind2; intro M; cbn [tmap]; constructor; [apply M; left; reflexivity|]. cbn [toks] in M.
  induction IH as [|c cs C _ IHc]; [constructor|]. cbn [map flat_map] in *. constructor; [apply C|apply IHc]; intros t I; apply M, in_or_app; auto.
Qed.
Lemma render_app eol a b : render eol (a ++ b) = render eol a ++ render eol b.
Proof. unfold render. apply flat_map_app. Qed.

Lemma reading_cs s p items tree : reading s p items tree -> exists cs,
  parsable (CTree KStoredDefinition cs) /\ leaves (CTree KStoredDefinition cs) = p_tokens p /\ tree = prune (CTree KStoredDefinition cs).
Proof.
  intros [[H Z] _ _ _ _ _ BT _ _]. apply parse_inv in H as (e1 & e2 & _ & H & E). rewrite Z in E. symmetry in E. apply app_eq_nil in E as [-> ->].
  apply sound in H as (cs & EV & Y & P). exists cs. split; [exact P|]. split; [symmetry; exact Y|].
  rewrite Y, EV, (build_flat KStoredDefinition cs) in BT. congruence.
Qed.
Lemma filter_later a m (f : token -> bool) l : (forall t, f (later a m t) = f t) -> filter f (map (later a m) l) = map (later a m) (filter f l).
Proof. intro K. induction l as [|t l IH]; [reflexivity|]. cbn [map filter]. rewrite K. destruct (f t); cbn [map]; rewrite IH; reflexivity. Qed.

Theorem reading_join a pa ia csa b pb ib csb :
  reading a pa ia (CTree KStoredDefinition csa) -> reading b pb ib (CTree KStoredDefinition csb) -> finished a ->
  (forall t r, p_tokens pb = t :: r -> tkind_of t <> TWithin) ->
  let g := later a (length ia) in
  exists p, reading (a ++ b) p (ia ++ map g ib) (CTree KStoredDefinition (csa ++ map (tmap g) csb)).
Proof.
  intros RA RB F W g. assert (RA' := RA). assert (RB' := RB).
  destruct RA' as [AA LXA CAA LA PTA PCA BTA TKA FTA]. destruct RB' as [AB LXB CAB LB PTB PCB BTB TKB FTB].
  destruct (reading_cs _ _ _ _ RA) as (ca & [PA1 PA2] & YA & TA). destruct (reading_cs _ _ _ _ RB) as (cb & [PB1 PB2] & YB & TB).
  assert (forall t, item_of (g t) = item_of t) as GI by reflexivity.
  assert (map item_of (ia ++ map g ib) = map item_of ia ++ map item_of ib) as MI.
  { rewrite map_app, map_map. f_equal. }
  assert (lexes (a ++ b) (map item_of (ia ++ map g ib))) as LX by (rewrite MI; apply lexes_join; auto).
  assert (comments_ascii (map item_of (ia ++ map g ib))) as CA.
  { rewrite MI. intros w I. apply in_app_or in I as [I|I]; [apply CAA|apply CAB]; exact I. }
  assert (laid space (a ++ b) (ia ++ map g ib)) as LL by (apply laid_behind; auto).
  destruct (lex_complete _ _ LX CA) as (items & LE & ME & LA').
  assert (items = ia ++ map g ib) as ->.
  { apply (set_out_unique [] 0 _ (a ++ b)); [apply laid_set, LA'|apply laid_set, LL|exact ME|]. apply (items_lexemes (a ++ b)). rewrite ME. exact LX. }
  assert (filter plain (ia ++ map g ib) = leaves (CTree KStoredDefinition (ca ++ map (tmap g) cb))) as TK.
  { rewrite filter_app, (filter_later a (length ia) plain) by reflexivity. rewrite <- PTA, <- PTB, <- YA, <- YB. fold g. cbn [leaves]. rewrite flat_map_app. f_equal.
    change (flat_map leaves (map (tmap g) cb)) with (leaves (tmap g (CTree KStoredDefinition cb))). rewrite leaves_tmap. reflexivity. }
  assert (parsable (CTree KStoredDefinition (ca ++ map (tmap g) cb))) as PP.
  { inversion PA1 as [|? ? LA1 FA1]; inversion PB1 as [|? ? LB1 FB1]; inversion PA2 as [|? ? UA1 UA2]; subst.
    pose proof (conforms_tmap g (fun t => eq_refl) _ _ PB1) as CB. pose proof (unbarred_tmap g (fun t => eq_refl) _ PB2) as UB.
    cbn [tmap] in CB, UB. inversion CB as [|? ? LB2 FB2]; inversion UB as [|? ? UB1 UB2]; subst.
    split; constructor; try (apply Forall_app; split; assumption). rewrite map_app. apply stored_join; auto.
    intros w E. rewrite (syms_tmap g (fun t => eq_refl)) in E. destruct cb as [|[t|k ds] cb]; try discriminate. cbn [map sym_of] in E.
    eapply (W t); [rewrite <- YB; cbn [leaves flat_map app]; reflexivity|]. congruence. }
  destruct (C60_finds_tree _ PP) as [C1 C2]. cbv zeta in C1, C2. rewrite <- TK in C1, C2.
  eexists. match goal with |- reading _ ?P _ _ => assert (accepted (a ++ b) P) as ACC end.
  { split; [|]. - unfold parse. rewrite LE. cbn [bind]. rewrite C1. cbn [bind]. reflexivity. - reflexivity. }
  destruct (reading_of _ _ ACC) as (items' & tree' & RD). assert (RD' := RD). destruct RD' as [_ _ _ LA2 PT2 PC2 BT2 _ _]. cbn [p_tokens p_comments p_events] in *.
  assert (items' = ia ++ map g ib) as -> by (apply (items_unique (a ++ b)); auto).
  rewrite C2, prune_tree, prunes_app in BT2. rewrite prune_tree in TA, TB.
  assert (csa = prunes ca /\ csb = prunes cb) as [EA EB] by (split; congruence).
  pose proof (prune_tmap g (CTree KStoredDefinition cb)) as K. cbn [tmap] in K. rewrite !prune_tree in K. cbn [tmap] in K.
  assert (prunes (map (tmap g) cb) = map (tmap g) csb) as EM by (rewrite EB; congruence).
  rewrite EM, <- EA in BT2. replace (CTree KStoredDefinition (csa ++ map (tmap g) csb)) with tree' by congruence. exact RD.
Qed.

Lemma moved_render eol d l l' : Forall2 (entry_moved same_text d) l l' -> render eol l' = render eol l.
Proof.
  induction 1 as [|e e' l l' (W & _ & T & _) _ IH]; [reflexivity|]. unfold render in *. cbn [flat_map]. rewrite W, IH, <- T. reflexivity.
Qed.

Lemma stored_reference cs items : fits (CTree KStoredDefinition cs) -> reference (CTree KStoredDefinition cs) items = weave None 1 [] items (stored_all None 0 cs).
Proof.
  intro F. unfold reference. rewrite spots_tree. change (wide KStoredDefinition cs false) with false. rewrite stored_children; [reflexivity|discriminate|].
  apply stored_unsigned, F.
Qed.
Lemma stored_toks cs : fits (CTree KStoredDefinition cs) -> map at_tok (stored_all None 0 cs) = toks (CTree KStoredDefinition cs).
Proof.
  intro F. rewrite <- (spots_toks (CTree KStoredDefinition cs) KStoredDefinition Beside 0%nat 0%nat false false). f_equal.
  rewrite spots_tree. change (wide KStoredDefinition cs false) with false. rewrite stored_children; [reflexivity|discriminate|]. apply stored_unsigned, F.
Qed.
Lemma class_second ds v : fits (CTree KClassDefinition ds) -> exists r t rest,
  stored_all None 0 (CTree KClassDefinition ds :: v) = mkAt r t Beside 0 :: rest /\
  stored_all (Some (Term TSemicolon)) 0 (CTree KClassDefinition ds :: v) = mkAt r t (Below Kept) 0 :: rest.
Proof.
  intro F. destruct (class_head ds F KStoredDefinition 0%nat false false) as (r & t & rest & H).
  exists r, t, (rest ++ stored_all (Some (Rule KClassDefinition)) (leak (CTree KClassDefinition ds)) v).
  cbn [stored_all kind_of]. unfold stored_spots. cbn [kind_of]. unfold position_of. cbn [fixed_position after_semicolon].
  change (deeper KStoredDefinition false (multi_if (CTree KClassDefinition ds)) None (Rule KClassDefinition)) with 0%nat.
  change (deeper KStoredDefinition false (multi_if (CTree KClassDefinition ds)) (Some (Term TSemicolon)) (Rule KClassDefinition)) with 0%nat.
  cbv zeta. cbn [Nat.add]. rewrite !H. split; reflexivity.
Qed.

Theorem join_layout eol a pa ia ta csa b pb tb ib csb :
  reading a pa (ia ++ [ta]) (CTree KStoredDefinition csa) -> reading b pb (tb :: ib) (CTree KStoredDefinition csb) -> finished a ->
  plain ta = true -> plain tb = true -> tkind_of tb <> TWithin -> tkind_of tb <> TFinal ->
  leak (CTree KStoredDefinition csa) = 0%nat ->
  exists p, accepted (a ++ b) p /\
    forall outa outb, pretty_print eol pa = Ok outa -> pretty_print eol pb = Ok outb ->
      pretty_print eol p = Ok (outa ++ white_text eol (WLine (gap_between (line (tend ta)) (newlines a + line (tstart tb))) 0) ++ outb).
Proof.
  intros RA RB F PA PB NW NF LK. set (g := later a (length (ia ++ [ta]))).
  assert (RA' := RA). assert (RB' := RB).
  destruct RA' as [AA LXA CAA LA PTA PCA BTA TKA FTA]. destruct RB' as [AB LXB CAB LB PTB PCB BTB TKB FTB].
  assert (p_tokens pb = tb :: filter plain ib) as PB0 by (rewrite PTB; cbn [filter]; rewrite PB; reflexivity).
  destruct (reading_join _ _ _ _ _ _ _ _ RA RB F) as (p & RD); [rewrite PB0; intros t r E; congruence|]. fold g in RD.
  exists p. split; [apply (rd_accepted _ _ _ _ RD)|]. intros outa outb OA OB.
  pose proof (lo_text _ _ _ _ (proj1 (reading_reference eol _ _ _ _ RA))) as EA.
  pose proof (lo_text _ _ _ _ (proj1 (reading_reference eol _ _ _ _ RB))) as EB.
  pose proof (lo_text _ _ _ _ (proj1 (reading_reference eol _ _ _ _ RD))) as ED.
  rewrite ED. f_equal.
  replace outa with (render eol (reference (CTree KStoredDefinition csa) (ia ++ [ta]))) by congruence.
  replace outb with (render eol (reference (CTree KStoredDefinition csb) (tb :: ib))) by congruence.
  assert (fits (CTree KStoredDefinition csa)) as FA.
  { destruct FTA as (cs & E & [->|FF]); [|congruence]. exfalso. injection E as ->. cbn [toks flat_map] in TKA. rewrite PTA, filter_app in TKA. cbn [filter] in TKA.
    rewrite PA in TKA. symmetry in TKA. apply app_eq_nil in TKA as [_ TKA]. discriminate. }
  assert (fits (CTree KStoredDefinition csb)) as FB.
  { destruct FTB as (cs & E & [->|FF]); [|congruence]. exfalso. injection E as ->. cbn [toks flat_map] in TKB. congruence. }
  destruct (stored_first csb tb (filter plain ib) FB) as (ds & v & ->); [congruence|exact NW|exact NF|].
  assert (fits (CTree KStoredDefinition (csa ++ map (tmap g) (CTree KClassDefinition ds :: v)))) as FD.
  { destruct (rd_fits _ _ _ _ RD) as (cs & E & [->|FF]); [|congruence]. injection E as E. apply app_eq_nil in E as [_ E]. discriminate. }
  rewrite (stored_reference csa) by exact FA. rewrite (stored_reference (CTree KClassDefinition ds :: v)) by exact FB. rewrite (stored_reference (csa ++ _)) by exact FD.
  rewrite stored_split, LK. cbn [Nat.add].
  destruct (stored_last csa FA) as (u & tl & EL & KL).
  replace (match rev csa with [] => None | c :: _ => Some (kind_of c) end) with (Some (Term TSemicolon)) by (rewrite EL, rev_app_distr; cbn [rev app kind_of]; rewrite KL; reflexivity).
  destruct (weave_app ia ta PA None 1 [] (stored_all None 0 csa)) as (r0 & WA); [rewrite stored_toks by exact FA; congruence|]. rewrite WA, render_app. f_equal.
  assert (forall t, In t (tb :: ib) -> moved same_text (newlines a) t (g t)) as MV.
  { intros t I. apply later_moved. intro K. destruct I as [<-|I]; [contradiction|]. apply in_split in I as (x & y & ->).
    rewrite (laid_index _ _ LB (tb :: x) t y eq_refl). cbn [length]. lia. }
  assert (tree_moved same_text (newlines a) (CTree KStoredDefinition (CTree KClassDefinition ds :: v)) (tmap g (CTree KStoredDefinition (CTree KClassDefinition ds :: v)))) as TM.
  { apply tmap_moved. intros t I. apply MV. rewrite TKB, PTB in I. apply filter_In in I. apply I. }
  pose proof (moved_spots same_text _ _ _ FB TM KStoredDefinition Beside 0%nat 0%nat false false) as MS.
  assert (fits (CTree KStoredDefinition (map (tmap g) (CTree KClassDefinition ds :: v)))) as FM by (apply (fits_tmap g (fun t => eq_refl)) in FB; exact FB).
  cbn [tmap] in MS. rewrite !spots_tree in MS. rewrite !stored_children in MS; try discriminate; try (apply stored_unsigned; assumption).
  change (kind_last (@nil child)) with (@None sym) in MS.
  assert (fits (CTree KClassDefinition ds)) as FC by (inversion FB as [|? ? _ _ FF]; subst; inversion FF; assumption).
  assert (fits (CTree KClassDefinition (map (tmap g) ds))) as FC' by (inversion FM as [|? ? _ _ FF]; subst; inversion FF; assumption).
  destruct (class_second ds v FC) as (r1 & t1 & rest1 & E1 & _).
  cbn [map tmap] in *.
  destruct (class_second (map (tmap g) ds) (map (tmap g) v) FC') as (r2 & t2 & rest2 & E2 & E3). rewrite E1, E3. rewrite E1, E2 in MS. cbn [map] in MS.
  assert (r2 = r1) as -> by (unfold strip at 1 3 in MS; cbn [at_rule at_pos at_level] in MS; congruence).
  assert (map strip rest2 = map strip rest1) as MR by (apply (f_equal (@List.tl _)) in MS; exact MS).
  pose proof (stored_toks _ FB) as T1. rewrite E1, TKB, PB0 in T1. cbn [map at_tok] in T1.
  pose proof (stored_toks _ FM) as T2. cbn [map tmap] in T2. rewrite E2 in T2. cbn [map at_tok] in T2.
  assert (toks (CTree KStoredDefinition (CTree KClassDefinition (map (tmap g) ds) :: map (tmap g) v)) = map g (p_tokens pb)) as T3.
  { rewrite <- TKB. rewrite !toks_leaves. change (CTree KStoredDefinition (CTree KClassDefinition (map (tmap g) ds) :: map (tmap g) v)) with (tmap g (CTree KStoredDefinition (CTree KClassDefinition ds :: v))).
    apply leaves_tmap. }
  rewrite T3, PB0 in T2. cbn [map] in T2. injection T1 as -> T1. injection T2 as -> T2.
  assert (is_comment tb = false) as NC by (rewrite is_commentary; unfold plain, commentary in *; destruct (is_comment_kind (tkind_of tb)); auto; discriminate).
  cbn [weave]. change (is_comment (g tb)) with (is_comment tb). rewrite NC. cbn [put at_pos at_rule at_tok at_level filter behind rows app].
  unfold render at 1 2. cbn [flat_map e_white e_tok]. change (ttext (g tb)) with (ttext tb). cbn [white_text app]. rewrite <- !app_assoc.
  change (line (tstart (g tb))) with (newlines a + line (tstart tb)). f_equal. f_equal. f_equal. f_equal. 
  apply (moved_render eol (newlines a)). change (tkind_of (g tb)) with (tkind_of tb).
  replace (line (tend (g tb))) with (line (tend tb) + newlines a) by (cbn; lia).
  apply weave_moved; auto.
  - clear - MV. induction ib as [|t ib IH]; [constructor|]. cbn [map]. constructor; [apply MV; right; left; reflexivity|]. apply IH.
    intros x [<-|I]; apply MV; [left; reflexivity|right; right; exact I].
  - rewrite T1, T2. assert (forall t, In t (filter plain ib) -> moved same_text (newlines a) t (g t)) as MF.
    { intros t I. apply MV. right. apply filter_In in I. apply I. }
    clear - MF. induction (filter plain ib) as [|t l IH]; [constructor|]. cbn [map]. constructor; [apply MF; left; reflexivity|]. apply IH. intros x I. apply MF. right. exact I.
Qed.
