(** A text with entries of a list in the place of others: its syntax tree. *)
From Verif Require Import ProofBase Tokens Syntax Lexer SpecLex LexInv LexMain LexFacts ParserCore Grammar
  Tree Printer Formatter Lib ParserSem ParserFuel SpecGrammar Regex ParserGrammar ParserTree ParserFacts Recognise PropsParser
  SpecLanguage Looks ParserComplete PropsLanguage
  FmtAbs FmtPlan FmtShape FmtTables FmtSound SpecLayout FmtExec FmtTop FmtFacts FmtRelex FmtNeat SpecNodes FmtTree FmtLists FmtOps
  FmtWrap SpecGaps SpecReference FmtNode FmtReference FmtSame PropsFormat PropsReference FmtBreaks FmtAgree FmtPrinted FmtStable FmtMoved
  FmtConcat SpecLevels FmtLevels SpecLocal FmtLocal PropsSize SpecEdit LexSplice FmtEdit.

(** ** Reading a text with a given tree *)
Lemma tree_read s its T cs : T = CTree KStoredDefinition cs -> parsable T -> lexes s its -> comments_ascii its ->
  map tkind_of (leaves T) = map fst (filter (fun i => negb (is_comment_kind (fst i))) its) ->
  exists p items tree, reading s p items tree /\ map item_of items = its /\ tmap bare tree = tmap bare (prune T).
Proof.
  intros ET PA LX CA LL. destruct (lex_complete _ _ LX CA) as (items & L & M & LA).
  assert (map tkind_of (filter plain items) = map tkind_of (leaves T)) as K.
  { rewrite LL, <- M. clear. induction items as [|t l IH]; [reflexivity|]. cbn [map filter]. unfold plain at 1. change (fst (item_of t)) with (tkind_of t).
    destruct (is_comment_kind (tkind_of t)); cbn [negb map]; rewrite IH; reflexivity. }
  subst T. destruct (C60_finds_tree _ PA) as [P B]. revert K P B. generalize (CTree KStoredDefinition cs). intros T K P B.
  pose proof (parse_bare (leaves T) (filter plain items) KStoredDefinition ltac:(congruence)) as PB. rewrite P in PB.
  destruct (parse_events (filter plain items) KStoredDefinition) as [[e er]|x|] eqn:PE; try contradiction. destruct PB as [<- EM].
  destruct er; [|discriminate]. clear EM.
  assert (map bare (filter plain items) = map bare (leaves T)) as MG.
  { unfold bare. rewrite <- (map_map tkind_of (fun k => mkTok 0 [] k (mkPos 0 0 0) (mkPos 0 0 0))), K, map_map. reflexivity. }
  pose proof (build_tree_map bare (filter plain items) (ParserSem.flat T)) as B1. rewrite MG, build_tree_map, B in B1. cbn [rmap] in B1.
  destruct (build_tree (filter plain items) (ParserSem.flat T)) as [tree|x|] eqn:BT; [|discriminate B1|discriminate B1]. cbn [rmap] in B1. injection B1 as B1.
  set (p := mkParsed (filter plain items) (filter commentary items) (ParserSem.flat T) []).
  assert (accepted s p) as ACC. { split; [|reflexivity]. unfold parse. rewrite L. cbn [bind]. rewrite PE. reflexivity. }
  destruct (reading_of _ _ ACC) as (items' & tree' & RD). assert (RD' := RD). destruct RD' as [_ _ _ LA2 PT2 PC2 BT2 _ _]. cbn [p p_tokens p_comments p_events] in *.
  assert (items' = items) as -> by (apply (items_unique s); auto). assert (tree' = tree) as -> by congruence.
  exists p, items, tree. split; [exact RD|]. split; [exact M|congruence].
Qed.

(** ** Shapes *)
Definition bare_frame (y : skind * list child * list child) := (fst (fst y), map (tmap bare) (snd (fst y)), map (tmap bare) (snd y)).
Lemma plug_shape x : forall c t, tmap bare t = plug (map bare_frame x) (tmap bare c) -> exists x' c', t = plug x' c' /\ map bare_frame x' = map bare_frame x /\ tmap bare c' = tmap bare c.
Proof.
  induction x as [|[[k u] v] x IH]; intros c t E; [exists [], t; auto|]. cbn [map plug fold_right fst snd bare_frame] in E.
  fold (plug (map bare_frame x) (tmap bare c)) in E. destruct t as [t|k' cs]; [discriminate|]. cbn [tmap] in E. injection E as -> E.
  apply map_eq_app in E as (u' & r & -> & EU & E). apply map_eq_cons in E as (d & v' & -> & ED & EV).
  destruct (IH c d ED) as (x' & c' & -> & EX & EC). exists ((k, u', v') :: x'), c'. split; [reflexivity|]. split; [|exact EC].
  cbn [map]. unfold bare_frame at 1 3. cbn [fst snd]. rewrite EX, EU, EV. reflexivity.
Qed.
Lemma shape_flat c c' : tmap bare c = tmap bare c' -> ParserSem.flat c = ParserSem.flat c'.
Proof. intro E. rewrite <- (flat_tmap bare c), <- (flat_tmap bare c'), E by reflexivity. reflexivity. Qed.
Lemma shape_eq c c' : tmap bare c = tmap bare c' -> toks c = toks c' -> c = c'.
Proof. intros E T. apply tree_unique; [apply shape_flat, E|]. rewrite <- !toks_leaves. exact T. Qed.
Lemma shape_length c c' : tmap bare c = tmap bare c' -> length (toks c) = length (toks c').
Proof. intro E. apply (f_equal (fun x => length (leaves x))) in E. rewrite !leaves_tmap, !map_length in E. rewrite !toks_leaves. exact E. Qed.
Lemma shapes_length u : forall u', map (tmap bare) u = map (tmap bare) u' -> length (flat_map toks u) = length (flat_map toks u').
Proof.
  induction u as [|c u IH]; intros [|c' u'] E; try discriminate; [reflexivity|]. cbn [map] in E. injection E as E1 E2. cbn [flat_map]. rewrite !app_length.
  rewrite (IH u' E2), (shape_length c c' E1). reflexivity.
Qed.
Lemma app_eq_length {A} (a : list A) : forall b a' b', length a = length a' -> a ++ b = a' ++ b' -> a = a' /\ b = b'.
Proof.
  induction a as [|x a IH]; intros b [|x' a'] b' L E; try discriminate; [auto|]. cbn [app length] in *. injection E as -> E. injection L as L.
  destruct (IH b a' b' L E) as [-> ->]. auto.
Qed.
Lemma shapes_eq u : forall u', map (tmap bare) u = map (tmap bare) u' -> flat_map toks u = flat_map toks u' -> u = u'.
Proof.
  induction u as [|c u IH]; intros [|c' u'] E T; try discriminate; [reflexivity|]. cbn [map flat_map] in *. injection E as E1 E2.
  apply app_eq_length in T as [T1 T2]; [|apply shape_length, E1]. f_equal; [apply shape_eq|apply IH]; auto.
Qed.
Lemma forall2_split {A B} (P : A -> B -> Prop) a : forall b a' b', length a = length a' -> Forall2 P (a ++ b) (a' ++ b') -> Forall2 P a a' /\ Forall2 P b b'.
Proof.
  induction a as [|x a IH]; intros b [|x' a'] b' L F; try discriminate; [auto|]. cbn [app length] in *. inversion F; subst. injection L as L.
  destruct (IH b a' b' L H4). auto.
Qed.
Lemma shapes_moved R m u : forall u', map (tmap bare) u = map (tmap bare) u' -> Forall2 (moved R m) (flat_map toks u) (flat_map toks u') -> Forall2 (tree_moved R m) u u'.
Proof.
  induction u as [|c u IH]; intros [|c' u'] E T; try discriminate; [constructor|]. cbn [map flat_map] in *. injection E as E1 E2.
  apply forall2_split in T as [T1 T2]; [|apply shape_length, E1]. constructor; [apply shape_moved|apply IH]; auto.
Qed.
(** Tokens to the left and to the right. *)
Definition lefts (x : list (skind * list child * list child)) : list token := flat_map (fun y => flat_map toks (snd (fst y))) x.
Fixpoint rights (x : list (skind * list child * list child)) : list token := match x with [] => [] | y :: x' => rights x' ++ flat_map toks (snd y) end.
Lemma plug_toks x c : toks (plug x c) = lefts x ++ toks c ++ rights x.
Proof.
  induction x as [|[[k u] v] x IH]; [cbn [plug fold_right lefts rights flat_map app]; rewrite app_nil_r; reflexivity|]. cbn [plug fold_right fst snd lefts rights flat_map] in *.
  fold (plug x c). cbn [toks]. rewrite flat_map_app. cbn [flat_map]. rewrite IH, <- !app_assoc. reflexivity.
Qed.
Lemma frames_lefts x : forall x', map bare_frame x = map bare_frame x' -> length (lefts x) = length (lefts x').
Proof.
  induction x as [|y x IH]; intros [|y' x'] E; try discriminate; [reflexivity|]. cbn [map] in E. injection E as E1 E2 E3 E4. cbn [lefts flat_map]. rewrite !app_length.
  rewrite (shapes_length _ _ E2). f_equal. apply IH, E4.
Qed.
Lemma frames_rights x : forall x', map bare_frame x = map bare_frame x' -> length (rights x) = length (rights x').
Proof.
  induction x as [|y x IH]; intros [|y' x'] E; try discriminate; [reflexivity|]. cbn [map] in E. injection E as E1 E2 E3 E4. cbn [rights]. rewrite !app_length.
  rewrite (shapes_length _ _ E3). f_equal. apply IH, E4.
Qed.
Lemma frames_moved R m x : forall x', map bare_frame x = map bare_frame x' -> lefts x' = lefts x -> Forall2 (moved R m) (rights x) (rights x') -> Forall2 (frame_moved R m) x x'.
Proof.
  induction x as [|y x IH]; intros [|y' x'] E L F; try discriminate; [constructor|]. cbn [map] in E. injection E as E1 E2 E3 E4. cbn [lefts rights flat_map] in *.
  apply app_eq_length in L as [L1 L2]; [|symmetry; apply shapes_length, E2]. apply forall2_split in F as [F1 F2]; [|apply frames_rights, E4]. constructor; [|apply IH; auto].
  split; [congruence|]. split; [apply shapes_eq; congruence|]. apply shapes_moved; auto.
Qed.

(** ** Trees before pruning *)
Fixpoint rx_syms (r : rx) : list sym :=
  match r with
  | Sy x => [x]
  | Cat a b | Alt a b => rx_syms a ++ rx_syms b
  | Star a => rx_syms a
  | _ => []
  end.
Lemma lang_syms r w : lang r w -> forall x, In x w -> In x (rx_syms r).
Proof.
  induction 1; cbn [rx_syms]; intros y I; try (destruct I; fail); auto.
  - apply in_app_or in I as [I|I]; apply in_or_app; auto.
  - apply in_or_app; auto.
  - apply in_or_app; auto.
  - apply in_app_or in I as [I|I]; auto.
Qed.
Definition first_tok (r : rx) : bool := forallb (fun x => match x with Term _ => true | Rule _ => false end) (firsts r).
Definition full_ok (k : skind) : bool :=
  match entry_kind k with
  | Some _ => forallb (fun x => negb (hollow_sym x)) (rx_syms (production false k)) &&
              (skind_eqb k KElementList || first_tok (production false k) && negb (nullable (production false k)))
  | None => true
  end.
Lemma full_checked : forallb full_ok all_skinds = true.
Proof. vm_compute. reflexivity. Qed.
Lemma raw_full k e raws : entry_kind k = Some e -> conforms false (CTree k raws) -> prunes raws = map prune raws.
Proof.
  intros E C. apply conforms_kids in C as [L C]. pose proof (skind_all _ full_checked k) as F. unfold full_ok in F. rewrite E in F. apply andb_true_iff in F as [F _].
  rewrite forallb_forall in F. unfold prunes. assert (forall d, In d raws -> empty_tree (prune d) = false) as N.
  { intros d I. destruct (empty_tree (prune d)) eqn:ED; [|reflexivity]. exfalso. rewrite Forall_forall in C. assert (In (sym_of d) (syms raws)) as IS by (unfold syms; apply in_map; exact I).
    apply (lang_syms _ _ L), F in IS. rewrite (conforms_empty d (C d I)) in IS; [discriminate|]. rewrite <- leaves_prune. destruct (prune d) as [|q [|]]; try discriminate. reflexivity. }
  clear - N. induction raws as [|d l IH]; [reflexivity|]. cbn [map filter]. rewrite (N d (or_introl eq_refl)). cbn [negb]. f_equal. apply IH. intros x I. apply N. right. exact I.
Qed.
Lemma list_start k e u w v : entry_kind k = Some e -> entries e w -> lang (production false k) (map sym_of (u ++ w ++ v)) -> k = KElementList \/ exists t u', u = CTok t :: u'.
Proof.
  intros E EW L. pose proof (skind_all _ full_checked k) as F. unfold full_ok in F. rewrite E in F. apply andb_true_iff in F as [_ F]. apply orb_true_iff in F as [F|F].
  - left. apply skind_eqb_eq. exact F.
  - right. apply andb_true_iff in F as [F _]. unfold first_tok in F. rewrite forallb_forall in F.
    destruct u as [|[t|q ds] u].
    + exfalso. apply entries_first in EW as (ds & r & ->). cbn [app map sym_of] in L. apply firsts_complete in L. apply F in L. discriminate.
    + eauto.
    + exfalso. cbn [app map sym_of] in L. apply firsts_complete in L. apply F in L. discriminate.
Qed.
Lemma element_head ds : parsable (CTree KElement ds) -> exists h r, leaves (CTree KElement ds) = h :: r /\ tkind_of h <> TInitial /\ tkind_of h <> TEnd.
Proof.
  intros [C U]. apply all_starts in C; auto. unfold ParserComplete.starts in C. remember (leaves (CTree KElement ds)) as l eqn:EL. clear EL. 
  assert (forallb (fun x => match x with h :: _ => negb (tkind_eqb h TInitial) && negb (tkind_eqb h TEnd) | [] => false end) (get first_tab KElement) = true) as T by (vm_compute; reflexivity).
  rewrite forallb_forall in T. apply T in C. destruct l as [|h r]; [discriminate|]. exists h, r. split; [reflexivity|].
  change (kinds_of (h :: r)) with (tkind_of h :: kinds_of r) in C. cbn [norm] in C.
  apply andb_true_iff in C as [C1 C2]. split; intro X; rewrite X in *; discriminate.
Qed.

(** The first tokens of two trees: as far as they matter for the tree around. *)
Definition head_ok (l l' : list token) : Prop := exists h r h' r', l = h :: r /\ l' = h' :: r' /\ (tkind_of h' = tkind_of h \/ tkind_of h' <> TInitial /\ tkind_of h' <> TEnd).
Definition heads (c c' : child) : Prop := sym_of c = sym_of c' /\ head_ok (leaves c) (leaves c').
Lemma head_ok_app a l l' b b' : head_ok l l' -> head_ok (a ++ l ++ b) (a ++ l' ++ b').
Proof.
  intros (h & r & h' & r' & -> & -> & K). destruct a as [|t a]; cbn [app]; [exists h, (r ++ b), h', (r' ++ b'); auto|].
  exists t, (a ++ (h :: r) ++ b), t, (a ++ (h' :: r') ++ b'). auto.
Qed.
Lemma heads_allowed k c c' : heads c c' -> allowed k c -> allowed k c'.
Proof.
  intros [S (h & r & h' & r' & E & E' & K)] A. unfold allowed in *. destruct c as [t|q ds], c' as [t'|q' ds']; try discriminate; [exact Logic.I|].
  cbn [sym_of] in S. injection S as <-. rewrite E in A. rewrite E'. destruct K as [->|[K1 K2]]; [exact A|]. unfold barred.
  destruct q; try (intros []; fail). destruct k; intros I; cbn [In] in I; intuition congruence.
Qed.
Lemma plug_heads x c c' : heads c c' -> heads (plug x c) (plug x c').
Proof.
  intro H. induction x as [|[[k u] v] x IH]; [exact H|]. cbn [plug fold_right fst snd]. fold (plug x c) (plug x c'). split; [reflexivity|]. cbn [leaves].
  rewrite !flat_map_app. cbn [flat_map]. apply head_ok_app. apply IH.
Qed.
Lemma plug_parsable_heads x c c' : heads c c' -> parsable c' -> parsable (plug x c) -> parsable (plug x c').
Proof.
  intros X PC. induction x as [|[[k u] v] x IH]; cbn [plug fold_right fst snd]; intro P; [exact PC|]. fold (plug x c) in *. fold (plug x c').
  pose proof (plug_heads x c c' X) as H. destruct P as [C U]. apply conforms_kids in C as [LA C]. apply unbarred_kids in U as [A U].
  apply Forall_app in C as [C1 C2], A as [A1 A2], U as [U1 U2]. inversion C2 as [|? ? C3 C4]; subst. inversion A2 as [|? ? A3 A4]; subst. inversion U2 as [|? ? U3 U4]; subst.
  destruct (IH (conj C3 U3)) as [C5 U5]. pose proof (heads_allowed k _ _ H A3) as A5. destruct H as [S _]. split.
  - constructor.
    + unfold syms in *. rewrite map_app in *. cbn [map] in *. rewrite <- S. exact LA.
    + apply Forall_app. auto.
  - constructor; apply Forall_app; auto.
Qed.
Lemma prune_sym c : sym_of (prune c) = sym_of c.
Proof. destruct c; [reflexivity|]. rewrite prune_tree. reflexivity. Qed.
Lemma prune_syms cs : map sym_of (map prune cs) = map sym_of cs.
Proof. rewrite map_map. apply map_ext, prune_sym. Qed.
Lemma prune_yield cs : flat_map leaves (map prune cs) = flat_map leaves cs.
Proof. induction cs as [|c cs IH]; [reflexivity|]. cbn [map flat_map]. rewrite leaves_prune, IH. reflexivity. Qed.
Lemma node_swap k e ru rw rv rw' : entry_kind k = Some e -> parsable (CTree k (ru ++ rw ++ rv)) -> entries e (map prune rw) ->
  entries e (map prune rw') -> Forall parsable rw' -> Forall (allowed k) rw' ->
  parsable (CTree k (ru ++ rw' ++ rv)) /\ heads (CTree k (ru ++ rw ++ rv)) (CTree k (ru ++ rw' ++ rv)).
Proof.
  intros E P EW EW' PW AW. assert (P0 := P). destruct P as [C U]. apply conforms_kids in C as [L C]. apply unbarred_kids in U as [A U].
  apply Forall_app in C as [C1 C2], A as [A1 A2], U as [U1 U2]. apply Forall_app in C2 as [C2 C3], A2 as [A2 A3], U2 as [U2 U3].
  destruct (entries_words e _ EW) as (n & N). destruct (entries_words e _ EW') as (n' & N'). rewrite prune_syms in N, N'. split; [split|].
  - constructor; [|apply Forall_app; split; [exact C1|apply Forall_app; split; [apply Forall_forall; intros c I; rewrite Forall_forall in PW; apply (PW c I)|exact C3]]].
    unfold syms in *. rewrite !map_app in *. rewrite N in L. rewrite N'. apply (words_swap k e _ _ E n n'), L.
  - constructor; apply Forall_app; (split; [assumption|]); apply Forall_app; split; auto. apply Forall_forall; intros c I; rewrite Forall_forall in PW; apply (PW c I).
  - split; [reflexivity|]. cbn [leaves]. rewrite !flat_map_app.
    destruct (list_start k e (map prune ru) (map prune rw) (map prune rv) E EW) as [->|(t & u' & EU)].
    { rewrite <- !map_app, prune_syms. exact L. }
    + cbn [entry_kind] in E. injection E as <-.
      assert (forall l, entries KElement (map prune l) -> Forall parsable l -> exists h r, flat_map leaves l = h :: r /\ tkind_of h <> TInitial /\ tkind_of h <> TEnd) as G.
      { intros l EN PL. apply entries_first in EN as (ds & r & EM). apply map_eq_cons in EM as (d & l' & -> & ED & _). inversion PL as [|? ? PD _]; subst.
        destruct d as [|q0 ds0]; [discriminate|]. rewrite prune_tree in ED. injection ED as -> _. destruct (element_head _ PD) as (h & r0 & EH & K). cbn [flat_map]. rewrite EH. exists h, (r0 ++ flat_map leaves l'). split; [reflexivity|auto]. }
      assert (Forall parsable rw) as PR. { apply Forall_forall. intros c I. rewrite Forall_forall in C2, U2. split; auto. }
      destruct (G rw EW PR) as (h & r & EH & _). destruct (G rw' EW' PW) as (h' & r' & EH' & K). apply head_ok_app. exists h, r, h', r'. split; [exact EH|]. split; [exact EH'|]. right. exact K.
    + apply map_eq_cons in EU as (d & ru' & -> & ED & _). destruct d as [t0|]; [|rewrite prune_tree in ED; discriminate]. cbn [flat_map leaves app].
      do 4 eexists. split; [reflexivity|]. split; [reflexivity|]. left. reflexivity.
Qed.

(** ** Texts *)
Lemma walks_less a i r b : walks a i (r ++ b) -> r <> [] -> walks a i r.
Proof.
  intro W. remember (r ++ b) as R eqn:E. induction W as [R|c r0 its R S W IH|k w r0 its R X F W IH]; intro N; [constructor|constructor; auto|]. constructor; auto.
  subst R. rewrite app_assoc in F. apply follow_cut in F; [exact F|]. intro Z. apply app_eq_nil in Z as [_ Z]. contradiction.
Qed.
Lemma entries_end e w : entries e w -> exists t, tkind_of t = TSemicolon /\ exists l, flat_map leaves w = l ++ [t].
Proof.
  intro E. destruct (entries_last e w E) as (u & t & -> & T & _). exists t. split; [exact T|]. exists (flat_map leaves u). rewrite flat_map_app. reflexivity.
Qed.
Lemma inside_toks c t : inside c t -> exists l r, toks t = l ++ toks c ++ r.
Proof. intro I. apply inside_plug in I as (x & ->). rewrite plug_toks. eauto. Qed.
Lemma toks_yield w : flat_map toks w = flat_map leaves w.
Proof. induction w as [|c w IH]; [reflexivity|]. cbn [flat_map]. rewrite toks_leaves, IH. reflexivity. Qed.
Lemma walks_skip a i r : walks a i r -> forall j, lexes (a ++ r) (i ++ j) -> (exists c v, r = c :: v /\ ~ space c) -> lexes r j.
Proof.
  induction 1 as [R|c r its R S W IH|k w r its R X F W IH]; intros j L NS; [exact L| |].
  - apply IH; auto. cbn [app] in L. apply (lexes_skip [c]) in L; [exact L|]. constructor; auto.
  - cbn [app] in L. rewrite <- app_assoc in L. apply lexes_first in L as [_ L]; auto.
Qed.
(** The part of a text from one item to another one. *)
Record cut (s A y B : text) (IA : list token) (a : token) (mid : list token) (b : token) (IB : list token) : Prop := {
  ct_text : s = A ++ (y ++ ttext b) ++ B;
  ct_before : walks A (map item_of IA) ((y ++ ttext b) ++ B);
  ct_starts : exists c r, y ++ ttext b = c :: r /\ ~ space c;
  ct_part : walks y (map item_of (a :: mid)) (ttext b ++ B);
  ct_end : lexeme (tkind_of b) (ttext b);
  ct_after : lexes B (map item_of IB);
  ct_set : set_out [] 0 IA A;
  ct_set_part : set_out A (length IA) (a :: mid ++ [b]) (y ++ ttext b);
  ct_set_after : set_out (A ++ y ++ ttext b) (length IA + length (a :: mid ++ [b])) IB B;
  ct_first : coords_after A (tstart a) /\ pos (tstart a) = bytes_of A;
  ct_last : coords_after (A ++ y ++ ttext b) (tend b) /\ pos (tend b) = bytes_of (A ++ y ++ ttext b) }.
Lemma cut_two s IA a mid b IB : laid space s (IA ++ (a :: mid ++ [b]) ++ IB) -> lexes s (map item_of (IA ++ (a :: mid ++ [b]) ++ IB)) ->
  exists A y B, cut s A y B IA a mid b IB.
Proof.
  intros LA LX. apply laid_set in LA.
  replace (IA ++ (a :: mid ++ [b]) ++ IB) with (IA ++ a :: (mid ++ b :: IB)) in * by (cbn [app]; rewrite <- app_assoc; reflexivity).
  destruct (cut_before _ _ _ _ _ _ LA LX) as (A & rb & E1 & W1 & X1 & L1 & S1 & S2 & P1 & P2 & C1 & C2 & I1). cbn [app] in *.
  destruct (cut_before _ _ _ _ _ _ S2 L1) as (y & B & E2 & W2 & X2 & L2 & S3 & S4 & P3 & P4 & C3 & C4 & I2). subst rb.
  assert (X0 := X1). apply lexeme_starts in X0 as (c0 & r0 & E0 & NS).
  assert (lexes (ttext a ++ y ++ ttext b ++ B) ((tkind_of a, ttext a) :: map item_of (mid ++ b :: IB))) as LR.
  { rewrite map_app in LX. cbn [map] in LX. rewrite E1 in LX. apply (walks_skip _ _ _ W1) in LX; [exact LX|]. rewrite E0. cbn [app]. eauto. }
  apply lexes_first in LR as [FA _]; auto.
  exists A, (ttext a ++ y), B. split.
  - rewrite E1, <- !app_assoc. reflexivity.
  - rewrite <- !app_assoc. exact W1.
  - rewrite E0. cbn [app]. eauto.
  - cbn [map]. apply (wk_item (tkind_of a) (ttext a) y (map item_of mid) (ttext b ++ B)); auto.
  - exact X2.
  - exact L2.
  - exact S1.
  - rewrite <- app_assoc. change (ttext a ++ y ++ ttext b) with ([] ++ ttext a ++ y ++ ttext b). constructor; cbn [app]; auto.
    + rewrite app_nil_r. exact C1.
    + rewrite app_nil_r. exact P1.
    + apply set_out_snoc; auto; rewrite <- ?app_assoc in *; auto.
  - cbn [length]. rewrite app_length. cbn [length]. replace (length IA + S (length mid + 1))%nat with (S (S (length IA) + length mid)) by lia. rewrite <- !app_assoc in *. exact S4.
  - auto.
  - rewrite <- !app_assoc in *. auto.
Qed.
Lemma stands_cut s p items tree A x B k e u w v : reading s p items tree -> s = A ++ x ++ B -> stands A x B tree k e u w v ->
  exists IA a mid b IB y, items = IA ++ (a :: mid ++ [b]) ++ IB /\ plain a = true /\ plain b = true /\ tkind_of b = TSemicolon /\
    filter plain (a :: mid ++ [b]) = flat_map toks w /\ x = y ++ ttext b /\ cut s A y B IA a mid b IB.
Proof.
  intros RD ES [IN EK EN (a & ts & b & EL & PA & PB)]. destruct (inside_toks _ _ IN) as (l & r & ET). cbn [toks] in ET. rewrite !flat_map_app, (toks_yield w), EL in ET.
  rewrite (rd_toks _ _ _ _ RD), (rd_tokens _ _ _ _ RD) in ET.
  replace (l ++ (flat_map toks u ++ (a :: ts ++ [b]) ++ flat_map toks v) ++ r) with ((l ++ flat_map toks u) ++ a :: (ts ++ b :: flat_map toks v ++ r)) in ET
    by (rewrite <- !app_assoc; cbn [app]; rewrite <- !app_assoc; reflexivity).
  apply filter_split in ET as (IA & r1 & EI & _ & ER & Fa). apply filter_split in ER as (mid & IB & -> & EM & _ & Fb).
  assert (items = IA ++ (a :: mid ++ [b]) ++ IB) as EI2 by (rewrite EI; cbn [app]; rewrite <- app_assoc; reflexivity).
  assert (tkind_of b = TSemicolon) as KB.
  { destruct (entries_end _ _ EN) as (t & T & l0 & E). rewrite EL in E. change (a :: ts ++ [b]) with ((a :: ts) ++ [b]) in E. apply app_inj_tail in E as [_ <-]. exact T. }
  pose proof (rd_laid _ _ _ _ RD) as LD. pose proof (rd_lexes _ _ _ _ RD) as LX. rewrite EI2 in LD, LX.
  destruct (cut_two _ _ _ _ _ _ LD LX) as (A' & y & B' & CT). pose proof (ct_text _ _ _ _ _ _ _ _ _ CT) as E1. pose proof (ct_first _ _ _ _ _ _ _ _ _ CT) as [_ P1].
  pose proof (ct_last _ _ _ _ _ _ _ _ _ CT) as [_ P2]. rewrite ES in E1. apply prefix_eq in E1 as [<- E1]; [|congruence].
  assert (x = y ++ ttext b /\ B = B') as [-> <-].
  { apply prefix_eq; [exact E1|]. rewrite P2 in PB. revert PB. clear.
    assert (forall u v, bytes_of (u ++ v) = bytes_of u + bytes_of v) as BA by (intros; induction u as [|c u IH]; [reflexivity|]; cbn [app bytes_of fold_right] in *; unfold bytes_of in *; rewrite IH; lia).
    rewrite !BA. lia. }
  exists IA, a, mid, b, IB, y. split; [exact EI2|]. split; [exact Fa|]. split; [exact Fb|]. split; [exact KB|]. split.
  { cbn [filter]. rewrite Fa, filter_app, EM. cbn [filter]. rewrite Fb, toks_yield, EL. reflexivity. }
  auto.
Qed.
(** The cut of a text whose parts are known. *)
Lemma cut_known s A y B IA a mid b A' a' mid' IA' b' IB' y' B' :
  cut s A' y' B' IA' a' mid' b' IB' -> s = A ++ (y ++ ttext b) ++ B -> walks A (map item_of IA) ((y ++ ttext b) ++ B) ->
  (exists c r, y ++ ttext b = c :: r /\ ~ space c) -> walks y (map item_of (a :: mid)) (ttext b ++ B) -> lexeme (tkind_of b) (ttext b) ->
  map item_of IA' = map item_of IA -> map item_of (a' :: mid') = map item_of (a :: mid) -> item_of b' = item_of b ->
  A' = A /\ y' = y /\ ttext b' = ttext b /\ B' = B.
Proof.
  intros CT E W1 ST W2 X M1 M2 M3. pose proof (ct_text _ _ _ _ _ _ _ _ _ CT) as E'. pose proof (ct_before _ _ _ _ _ _ _ _ _ CT) as W1'.
  pose proof (ct_starts _ _ _ _ _ _ _ _ _ CT) as ST'. pose proof (ct_part _ _ _ _ _ _ _ _ _ CT) as W2'. pose proof (ct_end _ _ _ _ _ _ _ _ _ CT) as X'. rewrite M1 in W1'. rewrite M2 in W2'.
  assert (forall (l m : text), (exists c r, l = c :: r /\ ~ space c) -> exists c r, l ++ m = c :: r /\ ~ space c) as G by (intros l m (c & r & -> & N); exists c, (r ++ m); auto).
  assert (A = A') as <-. { apply (walks_end _ _ _ W1 _ _ W1'); [congruence|apply G, ST|apply G, ST']. }
  assert (y ++ ttext b ++ B = y' ++ ttext b' ++ B') as EY. { apply (app_inv_head A). rewrite !app_assoc in *. congruence. }
  assert (y = y') as <-. { apply (walks_end _ _ _ W2 _ _ W2'); auto; apply G; eapply lexeme_starts; eauto. }
  assert (ttext b' = ttext b) as TB by (unfold item_of in M3; congruence). rewrite TB in *. apply app_inv_head in EY. apply app_inv_head in EY. auto.
Qed.

(** ** Two trees that differ in the entries of one list *)
Definition shifted_by (n n' : N) (t t' : token) : Prop :=
  ttext t' = ttext t /\ tkind_of t' = tkind_of t /\ line (tstart t') + n = line (tstart t) + n' /\ line (tend t') + n = line (tend t) + n' /\
  (tkind_of t = TWithin -> 0 < tidx t /\ 0 < tidx t').
Lemma shifted_moved n n' l l' : Forall2 (shifted_by n n') l l' -> n <= n' -> Forall2 (moved same_text (n' - n)) l l'.
Proof.
  intros F L. revert F. apply forall2_imp. intros t t' (T & K & S & E & W). split; [symmetry; exact T|]. split; [exact K|]. split; [lia|]. split; [lia|].
  intro X. apply W in X as [X1 X2]. destruct (N.ltb_spec 0 (tidx t')), (N.ltb_spec 0 (tidx t)); reflexivity || lia.
Qed.
Lemma shifted_sym n n' l l' : Forall2 (shifted_by n n') l l' -> Forall2 (shifted_by n' n) l' l.
Proof.
  induction 1 as [|t t' l l' (T & K & S & E & W) _ IH]; constructor; auto. split; [congruence|]. split; [congruence|]. split; [congruence|]. split; [congruence|].
  intro X. rewrite K in X. apply W in X. tauto.
Qed.
Lemma forall2_flip {A B} (P : A -> B -> Prop) l l' : Forall2 P l l' -> Forall2 (fun x y => P y x) l' l.
Proof. induction 1; constructor; auto. Qed.
Lemma forall2_filter {A} (P : A -> A -> Prop) f l l' : (forall x y, P x y -> f y = f x) -> Forall2 P l l' -> Forall2 P (filter f l) (filter f l').
Proof. intro K. induction 1 as [|x y l l' X _ IH]; [constructor|]. cbn [filter]. rewrite (K x y X). destruct (f x); auto. Qed.
Record edit (n n' : N) (F F' : list (skind * list child * list child)) (k e : skind) (u w w' v v' : list child)
  (IA IX IX' IB IB' : list token) (t0 : token) (mid : list token) (z : token) (t0' : token) (mid' : list token) (z' : token) : Prop := {
  ed_frames : map bare_frame F = map bare_frame F';
  ed_lefts : lefts F' = lefts F;
  ed_rights : Forall2 (shifted_by n n') (rights F) (rights F');
  ed_after : map (tmap bare) v = map (tmap bare) v';
  ed_moved : Forall2 (shifted_by n n') (flat_map toks v) (flat_map toks v');
  ed_fits : fits (plug F (CTree k (u ++ w ++ v)));
  ed_fits' : fits (plug F' (CTree k (u ++ w' ++ v')));
  ed_kind : entry_kind k = Some e;
  ed_entries : entries e w;
  ed_entries' : entries e w';
  ed_leak : leak_in k w' = leak_in k w;
  ed_root : exists a b cs, F = (KStoredDefinition, a, b) :: cs;
  ed_toks : toks (plug F (CTree k (u ++ w ++ v))) = filter plain (IA ++ IX ++ IB);
  ed_toks' : toks (plug F' (CTree k (u ++ w' ++ v'))) = filter plain (IA ++ IX' ++ IB');
  ed_nodup : NoDup (IA ++ IX ++ IB);
  ed_nodup' : NoDup (IA ++ IX' ++ IB');
  ed_part : filter plain IX = flat_map toks w;
  ed_part' : filter plain IX' = flat_map toks w';
  ed_ends : IX = t0 :: mid ++ [z] /\ plain t0 = true /\ plain z = true;
  ed_ends' : IX' = t0' :: mid' ++ [z'] /\ plain t0' = true /\ plain z' = true;
  ed_same : tkind_of z' = tkind_of z;
  ed_first : line (tstart t0') = line (tstart t0);
  ed_last : line (tend z') + n = line (tend z) + n';
  ed_behind : Forall2 (shifted_by n n') IB IB' }.
Lemma fits_plug F c : fits (plug F c) -> fits c.
Proof.
  induction F as [|[[q a] b] F IH]; intro FT; [exact FT|]. apply IH. cbn [plug fold_right fst snd] in FT. inversion FT as [|? ? _ _ G]; subst.
  apply Forall_app in G as [_ G]. inversion G; auto.
Qed.
Lemma fits_entries k u w v : fits (CTree k (u ++ w ++ v)) -> Forall fits w.
Proof. intro F. inversion F as [|? ? _ _ G]; subst. apply Forall_app in G as [_ G]. apply Forall_app in G as [G _]. exact G. Qed.
Lemma edit_up n n' F F' k e u w w' v v' IA IX IX' IB IB' t0 mid z t0' mid' z' : edit n n' F F' k e u w w' v v' IA IX IX' IB IB' t0 mid z t0' mid' z' -> n <= n' ->
  exists la lx lx' lb lb' wh r r',
    reference (plug F (CTree k (u ++ w ++ v))) (IA ++ IX ++ IB) = la ++ (mkE wh (Some r) t0 :: lx) ++ lb /\
    reference (plug F' (CTree k (u ++ w' ++ v'))) (IA ++ IX' ++ IB') = la ++ (mkE wh (Some r') t0' :: lx') ++ lb' /\
    Forall2 alike lb lb' /\
    (forall x, In x la -> In (e_tok x) IA) /\ (forall x, In x lx -> In (e_tok x) IX) /\ (forall x, In x lx' -> In (e_tok x) IX') /\
    (forall x, In x lb -> In (e_tok x) IB) /\ (forall x, In x lb' -> In (e_tok x) IB').
Proof.
  intros [H1 H2 H3 H4 H5 H6 H7 H8 H9 H10 H11 H12 H13 H14 H15 H16 H17 H18 (E1 & E2 & E3) (E1' & E2' & E3') H21 H22 H23 H24] L.
  destruct (edit_layout (n' - n) F F' k e u w w' v v' IA IX IX' IB IB' t0 mid z t0' mid' z') as (la & lx & lx' & lb & lb' & wh & r & r' & R1 & R2 & R3 & R4); auto.
  - apply frames_moved; auto. apply shifted_moved; auto.
  - apply shapes_moved; auto. apply shifted_moved; auto.
  - apply fits_plug, fits_entries in H7. exact H7.
  - lia.
  - apply shifted_moved; auto.
  - exists la, lx, lx', lb, lb', wh, r, r'. split; [exact R1|]. split; [exact R2|]. split; [|exact R4]. revert R3. apply forall2_imp.
    intros x x' (W & _ & T & K & _). split; [exact W|]. split; [symmetry; exact T|exact K].
Qed.
Lemma edit_swap n n' F F' k e u w w' v v' IA IX IX' IB IB' t0 mid z t0' mid' z' :
  edit n n' F F' k e u w w' v v' IA IX IX' IB IB' t0 mid z t0' mid' z' -> edit n' n F' F k e u w' w v' v IA IX' IX IB' IB t0' mid' z' t0 mid z.
Proof.
  intros [H1 H2 H3 H4 H5 H6 H7 H8 H9 H10 H11 H12 H13 H14 H15 H16 H17 H18 H19 H20 H21 H22 H23 H24].
  split; auto; try (apply shifted_sym; assumption).
  destruct H12 as (a & b & cs & ->). destruct F' as [|[[q a'] b'] F']; [discriminate|]. cbn [map] in H1. unfold bare_frame in H1 at 1 3. cbn [fst snd] in H1. injection H1 as -> _ _ _. eauto.
Qed.
Lemma edit_either n n' F F' k e u w w' v v' IA IX IX' IB IB' t0 mid z t0' mid' z' : edit n n' F F' k e u w w' v v' IA IX IX' IB IB' t0 mid z t0' mid' z' ->
  exists la lx lx' lb lb' wh r r',
    reference (plug F (CTree k (u ++ w ++ v))) (IA ++ IX ++ IB) = la ++ (mkE wh (Some r) t0 :: lx) ++ lb /\
    reference (plug F' (CTree k (u ++ w' ++ v'))) (IA ++ IX' ++ IB') = la ++ (mkE wh (Some r') t0' :: lx') ++ lb' /\
    Forall2 alike lb lb' /\
    (forall x, In x la -> In (e_tok x) IA) /\ (forall x, In x lx -> In (e_tok x) IX) /\ (forall x, In x lx' -> In (e_tok x) IX') /\
    (forall x, In x lb -> In (e_tok x) IB) /\ (forall x, In x lb' -> In (e_tok x) IB').
Proof.
  intro E. destruct (N.le_ge_cases n n') as [L|L]; [apply (edit_up _ _ _ _ _ _ _ _ _ _ _ _ _ _ _ _ _ _ _ _ _ _ E L)|].
  apply edit_swap in E. destruct (edit_up _ _ _ _ _ _ _ _ _ _ _ _ _ _ _ _ _ _ _ _ _ _ E L) as (la & lx & lx' & lb & lb' & wh & r & r' & R1 & R2 & R3 & R4 & R5 & R6 & R7 & R8).
  exists la, lx', lx, lb', lb, wh, r', r. split; [exact R2|]. split; [exact R1|]. split; [|auto 6]. apply forall2_flip in R3. revert R3. apply forall2_imp.
  intros x x' (W & T & K). split; [congruence|]. split; congruence.
Qed.

(** ** Entries of one text in the place of entries of another one *)
Definition prune_frame (y : skind * list child * list child) := (fst (fst y), prunes (snd (fst y)), prunes (snd y)).
Lemma prune_plug X c : leaves c <> [] -> prune (plug X c) = plug (map prune_frame X) (prune c).
Proof.
  intro N. induction X as [|[[k u] v] X IH]; [reflexivity|]. cbn [plug fold_right fst snd map prune_frame]. fold (plug X c). rewrite prune_tree, prunes_app. 
  assert (prunes (plug X c :: v) = prune (plug X c) :: prunes v) as ->.
  { unfold prunes. cbn [map filter]. destruct (empty_tree (prune (plug X c))) eqn:E; [|reflexivity]. exfalso. apply N.
    assert (leaves (plug X c) = []) as Z by (rewrite <- leaves_prune; destruct (prune (plug X c)) as [|q [|]]; try discriminate; reflexivity).
    rewrite <- toks_leaves, plug_toks in Z. apply app_eq_nil in Z as [_ Z]. apply app_eq_nil in Z as [Z _]. rewrite <- toks_leaves. exact Z. }
  rewrite IH. reflexivity.
Qed.
Lemma raw_stands s p items tree A x B k e u w v : reading s p items tree -> stands A x B tree k e u w v ->
  exists X ru rw rv cs, plug X (CTree k (ru ++ rw ++ rv)) = CTree KStoredDefinition cs /\ parsable (CTree KStoredDefinition cs) /\
    tree = prune (CTree KStoredDefinition cs) /\ parsable (CTree k (ru ++ rw ++ rv)) /\ map prune ru = u /\ map prune rw = w /\ map prune rv = v /\
    (exists a b x0, X = (KStoredDefinition, a, b) :: x0) /\ flat_map leaves w <> [].
Proof.
  intros RD [IN EK EN (a & ts & b & EL & _)]. destruct (reading_cs _ _ _ _ RD) as (cs & P & LT & ->).
  destruct (inside_prune _ _ IN) as (c0 & I0 & E0).
  { destruct (entries_first _ _ EN) as (ds & r & ->). destruct u; reflexivity. }
  destruct c0 as [t|q raws]; [discriminate|]. rewrite prune_tree in E0. injection E0 as -> E0.
  pose proof (parsable_inside _ _ I0 P) as PN. rewrite (raw_full k e raws EK (proj1 PN)) in E0.
  apply map_eq_app in E0 as (ru & r & -> & EU & E0). apply map_eq_app in E0 as (rw & rv & -> & EW & EV).
  apply inside_plug in I0 as (X & EX). exists X, ru, rw, rv, cs. split; [congruence|]. split; [exact P|]. split; [reflexivity|]. split; [exact PN|]. repeat (split; [assumption|]). split; [|rewrite EL; discriminate].
  destruct X as [|[[q l] m] X]; [cbn in EX; injection EX as <- _; discriminate|]. cbn [plug fold_right fst snd] in EX. injection EX as <- _. eauto.
Qed.
Lemma entries_moved_shape e w w' : map (tmap bare) w = map (tmap bare) w' -> entries e w -> entries e w'.
Proof.
  intros M E. revert w' M. induction E as [ds t T|ds t cs T _ IH]; intros [|d w'] M; try discriminate; cbn [map] in M.
  - destruct w' as [|d2 [|]]; try discriminate. injection M as M1 M2. destruct d as [|q ds']; [discriminate|]. destruct d2 as [t'|]; [|discriminate]. cbn [tmap] in *. injection M1 as <- _.
    apply entries_one. injection M2 as M2. congruence.
  - destruct w' as [|d2 w']; [discriminate|]. injection M as M1 M2 M3. destruct d as [|q ds']; [discriminate|]. destruct d2 as [t'|]; [|discriminate]. cbn [tmap] in *. injection M1 as <- _.
    apply entries_more; auto. injection M2 as M2. congruence.
Qed.
Lemma entry_heads e w : entries e (map prune w) -> (exists k, entry_kind k = Some e) -> Forall parsable w -> forall h r, flat_map leaves w = h :: r -> tkind_of h <> TWithin.
Proof.
  intros E (k & EK) P h r EL. destruct (entries_first _ _ E) as (ds & w' & EM). apply map_eq_cons in EM as (d & w2 & -> & ED & _). inversion P as [|? ? [C U] _]; subst.
  destruct d as [|q ds0]; [discriminate|]. rewrite prune_tree in ED. injection ED as -> _. apply all_starts in C; auto. unfold ParserComplete.starts in C.
  assert (forallb (fun x => match x with h :: _ => negb (tkind_eqb h TWithin) | [] => false end) (get first_tab e) = true) as T by (destruct k; cbn [entry_kind] in EK; try discriminate EK; injection EK as <-; vm_compute; reflexivity).
  rewrite forallb_forall in T. apply T in C. cbn [flat_map] in EL. destruct (leaves (CTree e ds0)) as [|h0 r0]; [discriminate|]. cbn [app] in EL. injection EL as -> _.
  change (kinds_of (h :: r0)) with (tkind_of h :: kinds_of r0) in C. cbn [norm] in C. intro X. rewrite X in C. discriminate.
Qed.
Lemma set_out_shifted c n a r c' n' a' : set_out c n a r -> set_out c' n' a' r -> map item_of a = map item_of a' ->
  Forall (fun t => exists k, lexeme k (ttext t)) a -> (0 < n)%nat -> (0 < n')%nat -> Forall2 (shifted_by (newlines c) (newlines c')) a a'.
Proof.
  intros S S' M L N N'. pose proof (set_out_moved _ _ _ _ S _ _ _ S' M L) as F. revert F. apply forall2_imp.
  intros t t' (T & K & E1 & E2 & E3 & E4 & E5). split; [exact T|]. split; [exact K|]. split; [exact E1|]. split; [exact E2|]. intros _. lia.
Qed.
Lemma set_out_idx c n a r : set_out c n a r -> Forall (fun t => N.of_nat n <= tidx t) a.
Proof.
  induction 1 as [|c n sp t its r S A1 A2 A3 A4 A5 L IH]; constructor; [lia|]. revert IH. apply Forall_impl. intros; lia.
Qed.
Lemma set_out_shifted_first c n a l r c' n' a' l' : set_out c n (a :: l) r -> set_out c' n' (a' :: l') r -> map item_of (a :: l) = map item_of (a' :: l') ->
  Forall (fun t => exists k, lexeme k (ttext t)) (a :: l) -> tkind_of a <> TWithin -> Forall2 (shifted_by (newlines c) (newlines c')) (a :: l) (a' :: l').
Proof.
  intros S S' M L W. pose proof (set_out_moved _ _ _ _ S _ _ _ S' M L) as F. apply set_out_inv in S as (? & ? & _ & _ & _ & _ & _ & _ & _ & S). apply set_out_inv in S' as (? & ? & _ & _ & _ & _ & _ & _ & _ & S').
  apply set_out_idx in S, S'. inversion F as [|? ? ? ? (T & K & E1 & E2 & _) F']; subst. constructor.
  - split; [exact T|]. split; [exact K|]. split; [exact E1|]. split; [exact E2|]. intro X. contradiction.
  - clear - F' S S'. induction F' as [|t t' l l' (T & K & E1 & E2 & _) F IH]; constructor; inversion S; inversion S'; subst; auto.
    split; [exact T|]. split; [exact K|]. split; [exact E1|]. split; [exact E2|]. intros _. lia.
Qed.
Lemma leak_shifted n n' k w w' : map (tmap bare) w = map (tmap bare) w' -> Forall2 (shifted_by n n') (flat_map toks w) (flat_map toks w') -> Forall fits w -> Forall fits w' ->
  leak_in k w' = leak_in k w.
Proof.
  intros E S F F'. destruct (N.le_ge_cases n n') as [L|L].
  - apply (leak_in_moved same_text (n' - n)); auto. apply shapes_moved; auto. apply shifted_moved; auto.
  - symmetry. apply (leak_in_moved same_text (n - n')); auto. apply shapes_moved; auto. apply shifted_moved; auto. apply shifted_sym. exact S.
Qed.
Lemma semicolon_follow t r : tkind_of t = TSemicolon -> follow_ok (tkind_of t) (ttext t) r.
Proof. intros ->. exact Logic.I. Qed.
Lemma ascii_in its : comments_ascii its <-> forall i, In i its -> fst i = TLineComment -> ends_ascii (snd i).
Proof.
  unfold comments_ascii. split; intros H; [intros [k w] I E; cbn [fst snd] in *; subst; apply H; exact I|]. intros w I. apply (H _ I). reflexivity.
Qed.
Lemma plain_kinds l : map tkind_of (filter plain l) = map fst (filter (fun i => negb (is_comment_kind (fst i))) (map item_of l)).
Proof.
  induction l as [|t l IH]; [reflexivity|]. cbn [map filter]. unfold plain at 1. change (fst (item_of t)) with (tkind_of t).
  destruct (is_comment_kind (tkind_of t)); cbn [negb map]; rewrite IH; reflexivity.
Qed.
Lemma items_plain l l' : map item_of l = map item_of l' -> length (filter plain l) = length (filter plain l').
Proof. intro E. rewrite <- (map_length tkind_of (filter plain l)), <- (map_length tkind_of (filter plain l')), !plain_kinds, E. reflexivity. Qed.
Lemma reading_fits s p items tree F c : reading s p items tree -> tree = plug F c -> F <> [] -> fits tree.
Proof.
  intros RD E N. destruct (rd_fits _ _ _ _ RD) as (cs & E2 & [->|FT]); [|exact FT]. exfalso. rewrite E2 in E. destruct F as [|[[q a] b] F]; [contradiction|]. cbn [plug fold_right fst snd] in E.
  injection E as _ E. destruct a; discriminate.
Qed.
Lemma shape_form n n' c : forall c', tmap bare c = tmap bare c' -> Forall2 (shifted_by n n') (toks c) (toks c') -> same_form c c'.
Proof.
  induction c as [t|k cs IH] using child_ind2; intros [t'|k' cs'] E M; try discriminate; cbn [tmap] in E.
  - cbn [toks] in M. inversion M as [|? ? ? ? (T & K & _) _]; subst. constructor; auto.
  - injection E as <- E. constructor. cbn [toks] in M. revert cs' E M. induction IH as [|c cs C _ IHc]; intros [|c' cs'] E M; try discriminate; [constructor|]. cbn [map flat_map] in *.
    injection E as E1 E2. apply forall2_split in M as [M1 M2]; [|apply shape_length, E1]. constructor; auto.
Qed.
Lemma shapes_form n n' u : forall u', map (tmap bare) u = map (tmap bare) u' -> Forall2 (shifted_by n n') (flat_map toks u) (flat_map toks u') -> Forall2 same_form u u'.
Proof.
  induction u as [|c u IH]; intros [|c' u'] E T; try discriminate; [constructor|]. cbn [map flat_map] in *. injection E as E1 E2.
  apply forall2_split in T as [T1 T2]; [|apply shape_length, E1]. constructor; [apply (shape_form n n')|apply IH]; auto.
Qed.
(** A text of entries: its items and its trees, before pruning. *)
Record phrase (e : skind) (y : text) (a : token) (mid : list token) (b : token) (rw : list child) : Prop := {
  ph_walks : walks y (map item_of (a :: mid)) (ttext b);
  ph_end : lexeme (tkind_of b) (ttext b);
  ph_kind : tkind_of b = TSemicolon;
  ph_starts : exists c r, y ++ ttext b = c :: r /\ ~ space c;
  ph_ascii : comments_ascii (map item_of (a :: mid ++ [b]));
  ph_plain : plain a = true /\ plain b = true;
  ph_part : filter plain (a :: mid ++ [b]) = flat_map leaves rw;
  ph_trees : Forall parsable rw;
  ph_entries : entries e (map prune rw) }.
Lemma stands_phrase s p items tree A x B k e u w v : reading s p items tree -> s = A ++ x ++ B -> stands A x B tree k e u w v ->
  exists y a mid b rw IA IB, phrase e y a mid b rw /\ x = y ++ ttext b /\ map prune rw = w /\ cut s A y B IA a mid b IB /\ items = IA ++ (a :: mid ++ [b]) ++ IB /\ Forall (allowed k) rw.
Proof.
  intros RD ES ST.
  destruct (stands_cut _ _ _ _ _ _ _ _ _ _ _ _ RD ES ST) as (IA & a & mid & b & IB & y & EI & Pa & Pb & Kb & FX & EX & CT).
  destruct (raw_stands _ _ _ _ _ _ _ _ _ _ _ _ RD ST) as (X & ru & rw & rv & cs & ET & PA & ETR & PN & EU & EW & EV & RT & NE).
  exists y, a, mid, b, rw, IA, IB. split; [|repeat (split; [assumption|]); destruct PN as [_ PN]; inversion PN as [|? ? AL _]; subst; apply Forall_app in AL as [_ AL]; apply Forall_app in AL; apply AL]. split.
  - apply (walks_less _ _ _ B); [apply (ct_part _ _ _ _ _ _ _ _ _ CT)|]. destruct (lexeme_starts _ _ (ct_end _ _ _ _ _ _ _ _ _ CT)) as (c & r & E & _). rewrite E. discriminate.
  - apply (ct_end _ _ _ _ _ _ _ _ _ CT).
  - exact Kb.
  - apply (ct_starts _ _ _ _ _ _ _ _ _ CT).
  - pose proof (rd_ascii _ _ _ _ RD) as H. rewrite EI, !map_app in H. rewrite ascii_in in *. intros i I. apply H. apply in_or_app. right. apply in_or_app. left. exact I.
  - auto.
  - rewrite FX, <- EW, (toks_yield (map prune rw)), prune_yield. reflexivity.
  - apply Forall_forall. intros c I. apply (parsable_inside c (CTree k (ru ++ rw ++ rv))); [|exact PN]. econstructor; [|constructor]. apply in_or_app. right. apply in_or_app. left. exact I.
  - rewrite EW. apply (st_entries _ _ _ _ _ _ _ _ _ ST).
Qed.
Lemma stands_fits s p items tree A x B k e u w v : reading s p items tree -> stands A x B tree k e u w v -> Forall fits w.
Proof.
  intros RD ST. pose proof (st_inside _ _ _ _ _ _ _ _ _ ST) as IN. assert (exists F, tree = plug F (CTree k (u ++ w ++ v)) /\ F <> []) as (F & E & N).
  { destruct (inside_plug _ _ IN) as (F & E). exists F. split; [exact E|]. intros ->. destruct (rd_fits _ _ _ _ RD) as (cs & E2 & _). cbn in E. rewrite E2 in E. injection E as E _. pose proof (st_kind _ _ _ _ _ _ _ _ _ ST) as K. rewrite <- E in K. discriminate. }
  pose proof (reading_fits _ _ _ _ _ _ RD E N) as FT. apply (inside_fits tree _ FT) in IN. apply fits_entries in IN. exact IN.
Qed.
Theorem paste_core s p items tree A x B k e u w v y2 a2 mid2 b2 rw2 :
  reading s p items tree -> s = A ++ x ++ B -> stands A x B tree k e u w v -> phrase e y2 a2 mid2 b2 rw2 ->
  (forall i, walks A i (x ++ B) -> walks A i ((y2 ++ ttext b2) ++ B)) -> Forall (allowed k) rw2 ->
  exists p' items' tree' F F' w' v' IA IX IX' IB IB' t0 mid z t0' mid' z' y,
    reading (A ++ (y2 ++ ttext b2) ++ B) p' items' tree' /\ tree = plug F (CTree k (u ++ w ++ v)) /\ tree' = plug F' (CTree k (u ++ w' ++ v')) /\
    items = IA ++ IX ++ IB /\ items' = IA ++ IX' ++ IB' /\ map (tmap bare) w' = map (tmap bare) (map prune rw2) /\
    (leak_in k w' = leak_in k w -> edit (newlines (A ++ x)) (newlines (A ++ y2 ++ ttext b2)) F F' k e u w w' v v' IA IX IX' IB IB' t0 mid z t0' mid' z') /\
    IX = t0 :: mid ++ [z] /\ IX' = t0' :: mid' ++ [z'] /\ filter plain IX = flat_map toks w /\ filter plain IX' = flat_map toks w' /\ Forall fits w' /\ (plain t0 = true /\ plain z = true) /\
    x = y ++ ttext z /\ cut s A y B IA t0 mid z IB /\ ttext z' = ttext b2 /\ cut (A ++ (y2 ++ ttext b2) ++ B) A y2 B IA t0' mid' z' IB' /\
    map item_of (t0' :: mid') = map item_of (a2 :: mid2) /\ item_of z' = item_of b2.
Proof.
  intros RD ES ST PH PT AW2.
  destruct (stands_cut _ _ _ _ _ _ _ _ _ _ _ _ RD ES ST) as (IA & a & mid & b & IB & y & EI & Pa & Pb & Kb & FX & -> & CT).
  destruct PH as [PH1 PH2 Kb2 PH4 PH5 [Pa2 Pb2] PH7 PW2 EN2].
  destruct (raw_stands _ _ _ _ _ _ _ _ _ _ _ _ RD ST) as (X & ru & rw & rv & cs & ET & PA & ETR & PN & EU & EW & EV & RT & NE).
  pose proof (st_kind _ _ _ _ _ _ _ _ _ ST) as EK. pose proof (st_entries _ _ _ _ _ _ _ _ _ ST) as EN.
  (* the tree of the new text *)
  destruct (node_swap k e ru rw rv rw2 EK PN) as [PS HS]; [rewrite EW; exact EN|exact EN2|exact PW2|exact AW2|].
  assert (parsable (plug X (CTree k (ru ++ rw2 ++ rv)))) as PT'. { apply (plug_parsable_heads X _ _ HS PS). rewrite ET. exact PA. }
  (* tokens *)
  assert (forall l m, map prune l = m -> flat_map leaves l = flat_map toks m) as YT by (intros l m <-; rewrite (toks_yield (map prune l)), prune_yield; reflexivity).
  assert (tree = plug (map prune_frame X) (CTree k (u ++ w ++ v))) as TR.
  { rewrite ETR, <- ET, prune_plug.
    - rewrite prune_tree, (raw_full k e _ EK (proj1 PN)), !map_app, EU, EW, EV. reflexivity.
    - cbn [leaves]. rewrite !flat_map_app, (YT rw w EW), ?toks_yield. intro Z. apply app_eq_nil in Z as [_ Z]. apply app_eq_nil in Z as [Z _]. contradiction. }
  set (F := map prune_frame X) in *.
  assert (toks tree = filter plain items) as TT by (rewrite (rd_toks _ _ _ _ RD), (rd_tokens _ _ _ _ RD); reflexivity).
  pose proof (laid_nodup _ _ _ (rd_laid _ _ _ _ RD)) as ND.
  assert (lefts F ++ flat_map toks u = filter plain IA /\ flat_map toks v ++ rights F = filter plain IB) as [EL ER].
  { rewrite TR, plug_toks, EI in TT. cbn [toks] in TT. rewrite !flat_map_app, !filter_app, <- FX in TT. rewrite EI in ND. apply (NoDup_filter plain) in ND. rewrite !filter_app in ND.
    cbn [filter] in TT, ND. rewrite Pa in TT, ND. cbn [app] in TT, ND. rewrite <- !app_assoc in TT. cbn [app] in TT. rewrite app_assoc in TT. symmetry in TT. apply nodup_split in TT as [T1 T2]; [|exact ND].
    rewrite <- !app_assoc in T2. apply app_inv_head in T2. auto. }
  (* the text *)
  assert (walks A (map item_of IA) ((y2 ++ ttext b2) ++ B)) as W1.
  { apply PT. apply (ct_before _ _ _ _ _ _ _ _ _ CT). }
  assert (ttext b2 <> []) as NB by (destruct (lexeme_starts _ _ PH2) as (c & r & E & _); rewrite E; discriminate).
  assert (walks y2 (map item_of (a2 :: mid2)) (ttext b2 ++ B)) as W2.
  { apply walks_more; [exact PH1|exact NB]. }
  set (its := map item_of IA ++ map item_of (a2 :: mid2 ++ [b2]) ++ map item_of IB).
  assert (map item_of (a2 :: mid2 ++ [b2]) = map item_of (a2 :: mid2) ++ [item_of b2]) as MX by (cbn [map]; rewrite map_app; reflexivity).
  assert (lexes (A ++ (y2 ++ ttext b2) ++ B) its) as LX.
  { apply (walks_lexes _ _ _ W1). rewrite MX, <- !app_assoc. apply (walks_lexes _ _ _ W2). cbn [app]. change (item_of b2) with (tkind_of b2, ttext b2).
    constructor; [exact PH2|apply semicolon_follow, Kb2|apply (ct_after _ _ _ _ _ _ _ _ _ CT)]. }
  assert (comments_ascii its) as CA.
  { pose proof (rd_ascii _ _ _ _ RD) as H1. pose proof PH5 as H2. rewrite EI in H1. rewrite !map_app in H1. rewrite ascii_in in *. intros i I.
    unfold its in I. apply in_app_or in I as [I|I]; [apply H1; apply in_or_app; auto|]. apply in_app_or in I as [I|I]; [apply H2; exact I|apply H1; apply in_or_app; right; apply in_or_app; auto]. }
  destruct (plug X (CTree k (ru ++ rw2 ++ rv))) as [|q0 cs'] eqn:EP; [destruct RT as (? & ? & ? & ->); discriminate|].
  assert (q0 = KStoredDefinition) as -> by (destruct RT as (? & ? & ? & ->); cbn [plug fold_right fst snd] in EP; congruence).
  assert (forall c, leaves (plug X c) = lefts X ++ leaves c ++ rights X) as PLV by (intro c; rewrite <- !toks_leaves; apply plug_toks).
  assert (leaves (CTree KStoredDefinition cs') = filter plain IA ++ filter plain (a2 :: mid2 ++ [b2]) ++ filter plain IB) as LV.
  { assert (leaves (CTree KStoredDefinition cs) = filter plain IA ++ flat_map toks w ++ filter plain IB) as L0.
    { rewrite <- leaves_prune, <- ETR, <- toks_leaves, TT, EI, !filter_app, FX. reflexivity. }
    rewrite <- ET, PLV in L0. rewrite <- EP, PLV. cbn [leaves] in *. rewrite !flat_map_app in *. rewrite (YT rw w EW) in L0. rewrite PH7. rewrite (YT ru u EU), (YT rv v EV) in *.
    rewrite <- FX in L0. rewrite EI in ND. apply (NoDup_filter plain) in ND. rewrite !filter_app in ND. cbn [filter] in L0, ND. rewrite Pa in L0, ND. cbn [app] in L0, ND.
    rewrite <- !app_assoc in L0. cbn [app] in L0. rewrite (app_assoc (lefts X)) in L0. symmetry in L0. apply nodup_split in L0 as [T1 T2]; [|exact ND]. rewrite <- !app_assoc in T2. apply app_inv_head in T2.
    rewrite T1, T2, <- !app_assoc. reflexivity. }
  destruct (tree_read _ its _ cs' eq_refl PT' LX CA) as (p' & items' & tree' & RD' & MI & TB).
  { rewrite LV, !map_app, !plain_kinds. unfold its. rewrite !filter_app, !map_app. reflexivity. }
  (* its items *)
  unfold its in MI. apply map_eq_app in MI as (IA' & r & EI' & MA & MR). apply map_eq_app in MR as (IX' & IB' & -> & MIX & MB).
  rewrite MX in MIX. apply map_eq_app in MIX as (h & r & -> & MH & MZ). destruct r as [|b' [|]]; try discriminate. cbn [map] in MZ. assert (item_of b' = item_of b2) as MZ0 by congruence. clear MZ. rename MZ0 into MZ.
  destruct h as [|a' mid']; [discriminate|].
  pose proof (rd_laid _ _ _ _ RD') as LD'. pose proof (rd_lexes _ _ _ _ RD') as LX'. rewrite EI' in LD', LX'.
  destruct (cut_two _ _ _ _ _ _ LD' LX') as (A' & y' & B' & CT').
  destruct (cut_known _ A y2 B IA a2 mid2 b2 _ _ _ _ _ _ _ _ CT' eq_refl W1 PH4 W2 PH2 MA MH) as (-> & -> & TZ & ->).
  { unfold item_of in *. congruence. }
  pose proof (items_lexemes _ _ (rd_lexes _ _ _ _ RD)) as XL. rewrite EI in XL. apply Forall_app in XL as [XA XL]. apply Forall_app in XL as [XX XB].
  assert (IA' = IA) as ->. { symmetry. apply (set_out_unique _ _ _ _ (ct_set _ _ _ _ _ _ _ _ _ CT)); [apply (ct_set _ _ _ _ _ _ _ _ _ CT')|congruence|exact XA]. }
  (* its tree *)
  assert (prune (CTree KStoredDefinition cs') = plug F (CTree k (u ++ map prune rw2 ++ v))) as PR'.
  { rewrite <- EP, prune_plug.
    - rewrite prune_tree, (raw_full k e _ EK (proj1 PS)), !map_app, EU, EV. reflexivity.
    - cbn [leaves]. rewrite !flat_map_app, <- PH7. cbn [filter]. rewrite Pa2. cbn [app]. intro Z. apply app_eq_nil in Z as [_ Z]. discriminate. }
  rewrite PR', plug_tmap in TB. destruct (plug_shape F (CTree k (u ++ map prune rw2 ++ v)) tree' TB) as (F' & c' & ETR' & BF & BC).
  destruct c' as [|q0 kids']; [discriminate|]. cbn [tmap] in BC. injection BC as -> BC. rewrite !map_app in BC. apply map_eq_app in BC as (u' & r & -> & BU & BC). apply map_eq_app in BC as (w' & v' & -> & BW & BV).
  assert (toks tree' = filter plain items') as TT' by (rewrite (rd_toks _ _ _ _ RD'), (rd_tokens _ _ _ _ RD'); reflexivity).
  assert (lefts F' ++ flat_map toks u' = filter plain IA /\ flat_map toks w' = filter plain ((a' :: mid') ++ [b']) /\ flat_map toks v' ++ rights F' = filter plain IB') as (EL' & EW' & ER').
  { rewrite ETR', plug_toks, EI' in TT'. cbn [toks] in TT'. change (a' :: mid' ++ [b']) with ((a' :: mid') ++ [b']) in TT'. rewrite (filter_app plain IA), (filter_app plain ((a' :: mid') ++ [b']) IB'), !flat_map_app, <- !app_assoc, (app_assoc (lefts F')) in TT'.
    apply app_eq_length in TT' as [T1 T2].
    - apply app_eq_length in T2 as [T2 T3]; [auto|]. rewrite (shapes_length _ _ BW), (toks_yield (map prune rw2)), prune_yield, <- PH7. symmetry. apply items_plain. rewrite map_app, MH, MX. cbn [map]. rewrite MZ. reflexivity.
    - rewrite app_length, (frames_lefts _ _ BF), (shapes_length _ _ BU), <- app_length, EL. reflexivity. }
  assert (lefts F' = lefts F /\ flat_map toks u' = flat_map toks u) as [LF LU]. { apply app_eq_length; [apply frames_lefts, BF|congruence]. }
  apply shapes_eq in BU; [|exact LU]. subst u'.
  (* moved *)
  pose proof (ct_set_after _ _ _ _ _ _ _ _ _ CT) as SB. pose proof (ct_set_after _ _ _ _ _ _ _ _ _ CT') as SB'. rewrite TZ in SB'.
  assert (Forall2 (shifted_by (newlines (A ++ y ++ ttext b)) (newlines (A ++ y2 ++ ttext b2))) IB IB') as SHB.
  { apply (set_out_shifted _ _ _ _ _ _ _ SB SB'); [congruence|exact XB|cbn [length]; lia|cbn [length]; lia]. }
  assert (Forall2 (shifted_by (newlines (A ++ y ++ ttext b)) (newlines (A ++ y2 ++ ttext b2))) (flat_map toks v ++ rights F) (flat_map toks v' ++ rights F')) as SHT.
  { rewrite ER, ER'. apply forall2_filter; [|exact SHB]. intros t t' (_ & K & _). unfold plain. rewrite K. reflexivity. }
  apply forall2_split in SHT as [SHV SHR]; [|symmetry; apply shapes_length, BV].
  assert (F <> []) as NF by (destruct RT as (? & ? & ? & ->); discriminate).
  assert (F' <> []) as NF' by (destruct F as [|]; [contradiction|]; destruct F'; discriminate).
  pose proof (reading_fits _ _ _ _ _ _ RD TR NF) as FT. pose proof (reading_fits _ _ _ _ _ _ RD' ETR' NF') as FT'. rewrite TR in FT. rewrite ETR' in FT'.
  exists p', items', tree', F, F', w', v', IA, (a :: mid ++ [b]), (a' :: mid' ++ [b']), IB, IB', a, mid, b, a', mid', b', y.
  split; [exact RD'|]. split; [exact TR|]. split; [exact ETR'|]. split; [exact EI|]. split; [exact EI'|]. split; [congruence|].
  assert (tkind_of a' = tkind_of a2 /\ tkind_of b' = tkind_of b2) as [KA KB].
  { cbn [map] in MH. assert (item_of a' = item_of a2) as MH0 by congruence. unfold item_of in MZ, MH0. split; congruence. }
  split; [|split; [reflexivity|]; split; [reflexivity|]; split; [exact FX|]; split; [symmetry; exact EW'|]; split; [apply fits_plug, fits_entries in FT'; exact FT'|]; split; [auto|]; auto 10].
  intro LW.
  split; auto; try congruence.
  - apply (entries_moved_shape e (map prune rw2)); [congruence|exact EN2].
  - destruct RT as (r1 & r2 & r3 & ->). unfold F. cbn [map]. unfold prune_frame at 1. cbn [fst snd]. eauto.
  - rewrite <- ETR'. cbn [app] in EI'. cbn [app]. rewrite <- EI'. exact TT'.
  - pose proof (laid_nodup _ _ _ LD') as ND'. exact ND'.
  - split; [reflexivity|]. unfold plain in *. rewrite KA, KB. auto.
  - destruct (ct_first _ _ _ _ _ _ _ _ _ CT) as [[C1 _] _]. destruct (ct_first _ _ _ _ _ _ _ _ _ CT') as [[C2 _] _]. congruence.
  - destruct (ct_last _ _ _ _ _ _ _ _ _ CT) as [[C1 _] _]. destruct (ct_last _ _ _ _ _ _ _ _ _ CT') as [[C2 _] _]. rewrite TZ in C2. rewrite C1, C2. lia.
Qed.
Theorem paste s p items tree A x B k e u w v s2 p2 items2 tree2 A2 x2 B2 k2 u2 w2 v2 :
  reading s p items tree -> s = A ++ x ++ B -> stands A x B tree k e u w v ->
  reading s2 p2 items2 tree2 -> s2 = A2 ++ x2 ++ B2 -> stands A2 x2 B2 tree2 k2 e u2 w2 v2 ->
  (exists A0 c, A = A0 ++ [c] /\ parting c) -> Forall (allowed k) w2 -> leak_in k w2 = leak_in k w ->
  exists p' items' tree' F F' w' v' IA IX IX' IB IB' t0 mid z t0' mid' z' y y',
    reading (A ++ x2 ++ B) p' items' tree' /\ tree = plug F (CTree k (u ++ w ++ v)) /\ tree' = plug F' (CTree k (u ++ w' ++ v')) /\
    items = IA ++ IX ++ IB /\ items' = IA ++ IX' ++ IB' /\ Forall2 same_form w2 w' /\
    edit (newlines (A ++ x)) (newlines (A ++ x2)) F F' k e u w w' v v' IA IX IX' IB IB' t0 mid z t0' mid' z' /\
    x = y ++ ttext z /\ cut s A y B IA t0 mid z IB /\ x2 = y' ++ ttext z' /\ cut (A ++ x2 ++ B) A y' B IA t0' mid' z' IB'.
Proof.
  intros RD ES ST RD2 ES2 ST2 PT AL LK.
  destruct (stands_phrase _ _ _ _ _ _ _ _ _ _ _ _ RD2 ES2 ST2) as (y2 & a2 & mid2 & b2 & rw2 & IA2 & IB2 & PH & EX2 & EW2 & CT2 & EI2 & _).
  assert (Forall (allowed k) rw2) as AW2.
  { apply Forall_forall. intros c I. rewrite Forall_forall in AL. specialize (AL (prune c)). rewrite <- EW2 in AL. specialize (AL (in_map prune _ _ I)). unfold allowed in *.
    destruct c as [t|q ds]; [exact Logic.I|]. pose proof (leaves_prune (CTree q ds)) as LP. rewrite prune_tree in LP, AL. rewrite LP in AL. exact AL. }
  assert (exists c r, x ++ B = c :: r /\ ~ space c) as NS.
  { destruct (stands_phrase _ _ _ _ _ _ _ _ _ _ _ _ RD ES ST) as (y1 & a1 & mid1 & b1 & rw1 & IA1 & IB1 & PH1 & -> & _). destruct (ph_starts _ _ _ _ _ _ PH1) as (c & r & E & N). rewrite E. cbn [app]. eauto. }
  assert (forall i, walks A i (x ++ B) -> walks A i ((y2 ++ ttext b2) ++ B)) as PT1 by (intros i W; apply (walks_any _ _ _ W PT NS)).
  destruct (paste_core _ _ _ _ _ _ _ _ _ _ _ _ _ _ _ _ _ RD ES ST PH PT1 AW2)
    as (p' & items' & tree' & F & F' & w' & v' & IA & IX & IX' & IB & IB' & t0 & mid & z & t0' & mid' & z' & y & RD' & ET & ET' & EI & EI' & BW & ED & EQ & EQ' & TX & TX' & FW & _ & EX & CT & TZ & CT' & MH & MZ).
  assert (Forall2 (shifted_by (newlines A2) (newlines A)) (flat_map toks w2) (flat_map toks w')) as SHW.
  { rewrite <- TX', <- EW2, (toks_yield (map prune rw2)), prune_yield, <- (ph_part _ _ _ _ _ _ PH). apply forall2_filter; [intros t t' (_ & K & _); unfold plain; rewrite K; reflexivity|].
    pose proof (ct_set_part _ _ _ _ _ _ _ _ _ CT') as SP. rewrite TZ in SP. rewrite EQ'.
    pose proof (items_lexemes _ _ (rd_lexes _ _ _ _ RD2)) as XL2. rewrite EI2 in XL2. apply Forall_app in XL2 as [_ XL2]. apply Forall_app in XL2 as [XX2 _].
    apply (set_out_shifted_first _ _ _ _ _ _ _ _ _ (ct_set_part _ _ _ _ _ _ _ _ _ CT2) SP); [|exact XX2|].
    - change (t0' :: mid' ++ [z']) with ((t0' :: mid') ++ [z']). change (a2 :: mid2 ++ [b2]) with ((a2 :: mid2) ++ [b2]). rewrite !map_app, MH. cbn [map]. rewrite MZ. reflexivity.
    - apply (entry_heads e rw2) with (r := filter plain (mid2 ++ [b2])); [apply (ph_entries _ _ _ _ _ _ PH)|exists k; apply (st_kind _ _ _ _ _ _ _ _ _ ST)|apply (ph_trees _ _ _ _ _ _ PH)|].
      rewrite <- (ph_part _ _ _ _ _ _ PH). cbn [filter]. rewrite (proj1 (ph_plain _ _ _ _ _ _ PH)). reflexivity. }
  assert (leak_in k w' = leak_in k w2) as LW.
  { apply (leak_shifted (newlines A2) (newlines A)); [congruence|exact SHW|apply (stands_fits _ _ _ _ _ _ _ _ _ _ _ _ RD2 ST2)|exact FW]. }
  exists p', items', tree', F, F', w', v', IA, IX, IX', IB, IB', t0, mid, z, t0', mid', z', y, y2. subst x2.
  split; [exact RD'|]. split; [exact ET|]. split; [exact ET'|]. split; [exact EI|]. split; [exact EI'|]. split; [apply (shapes_form (newlines A2) (newlines A)); [congruence|exact SHW]|].
  split; [apply ED; congruence|]. split; [exact EX|]. split; [exact CT|]. split; [rewrite TZ; reflexivity|]. exact CT'.
Qed.
Lemma bytes_app u v : bytes_of (u ++ v) = bytes_of u + bytes_of v.
Proof. induction u as [|c u IH]; [reflexivity|]; cbn [app bytes_of fold_right] in *; unfold bytes_of in *; rewrite IH; lia. Qed.
Lemma lexeme_bytes k w : lexeme k w -> 0 < bytes_of w.
Proof. intro L. apply lexeme_starts in L as (c & b & -> & _). cbn [bytes_of fold_right]. unfold utf8_len. repeat match goal with |- context [if ?b then _ else _] => destruct b end; lia. Qed.
Lemma set_out_range c n l r : set_out c n l r -> Forall (fun t => exists k, lexeme k (ttext t)) l -> forall t, In t l -> bytes_of c <= pos (tstart t) /\ pos (tstart t) < bytes_of (c ++ r).
Proof.
  induction 1 as [|c n sp t its r S A1 A2 A3 A4 A5 L IH]; intros X x I; [destruct I|]. inversion X as [|? ? (k & LX) X']; subst. destruct I as [<-|I].
  - rewrite A2. apply lexeme_bytes in LX. rewrite !bytes_app. lia.
  - apply IH in I as [I1 I2]; auto. rewrite <- !app_assoc in I2. rewrite !bytes_app in *. lia.
Qed.
Lemma leaked_in k e w : entry_kind k = Some e -> leak_in k w = leaked w.
Proof. intro E. induction w as [|d w IH]; [reflexivity|]. change (leaked (d :: w)) with (leak d + leaked w)%nat. cbn [leak_in]. rewrite IH. replace (keeps_level k d) with false by (destruct k; try discriminate; reflexivity). cbn [one_if]. lia. Qed.
