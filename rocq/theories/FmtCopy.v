(** For C104: the spots and the layout of a row of entries do not depend on the list it stands in. *)
From Verif Require LexSpecProofs.
From Verif Require Import ProofBase Tokens Syntax Lexer SpecLex LexInv LexMain LexFacts ParserCore Grammar
  Tree Printer Formatter Lib ParserSem ParserFuel SpecGrammar Regex ParserGrammar ParserTree ParserFacts Recognise PropsParser
  SpecLanguage Looks ParserComplete PropsLanguage
  FmtAbs FmtPlan FmtShape FmtTables FmtSound SpecLayout FmtExec FmtTop FmtFacts FmtRelex FmtNeat SpecNodes FmtTree FmtLists FmtOps
  FmtWrap SpecGaps SpecReference FmtNode FmtReference FmtSame PropsFormat PropsReference FmtBreaks FmtAgree FmtPrinted FmtStable FmtMoved
  FmtConcat SpecLevels FmtLevels SpecLocal FmtLocal SpecEdit LexSplice FmtEdit FmtSplice SpecCopy.

(** ** Spots *)
Definition peer (n n' : nat) (x x' : spot) : Prop :=
  at_pos x' = at_pos x /\ tkind_of (at_tok x') = tkind_of (at_tok x) /\ (at_rule x' = at_rule x \/ tkind_of (at_tok x) = TSemicolon) /\
  (forall b, at_pos x = Below b -> (at_level x' + n = at_level x + n')%nat).
Lemma peer_sym a b x y : peer a b x y -> peer b a y x.
Proof.
  intros (P & K & R & L). split; [congruence|]. split; [congruence|]. split; [destruct R as [R|R]; [left; congruence|right; congruence]|].
  intros c E. rewrite P in E. apply L in E. lia.
Qed.
Lemma peer_trans a b c x y z : peer a b x y -> peer b c y z -> peer a c x z.
Proof.
  intros (P & K & R & L) (P' & K' & R' & L'). split; [congruence|]. split; [congruence|]. split.
  { destruct R as [R|R]; [|right; exact R]. destruct R' as [R'|R']; [left; congruence|right; congruence]. }
  intros d E. pose proof (L d E) as E1. rewrite <- P in E. apply L' in E. lia.
Qed.
Lemma peers_sym a b xs ys : Forall2 (peer a b) xs ys -> Forall2 (peer b a) ys xs.
Proof. induction 1; constructor; auto. apply peer_sym. assumption. Qed.
Lemma peers_trans a b c xs ys : Forall2 (peer a b) xs ys -> forall zs, Forall2 (peer b c) ys zs -> Forall2 (peer a c) xs zs.
Proof. induction 1 as [|x y xs ys X _ IH]; intros zs Z; inversion Z; subst; constructor; auto. eapply peer_trans; eauto. Qed.
Lemma peers_refl n xs : Forall2 (peer n n) xs xs.
Proof. induction xs as [|x xs IH]; constructor; auto. split; [reflexivity|]. split; [reflexivity|]. auto. Qed.

(** Entries one below the other, from level [n] on. *)
Fixpoint row (n : nat) (w : list child) : list spot :=
  match w with
  | [] => []
  | CTok t :: w' => mkAt KElementList t Beside 0 :: row n w'
  | CTree e ds :: w' => spots KElementList (Below Kept) n n false false (CTree e ds) ++ row (n + leak (CTree e ds)) w'
  end.
Lemma spots_peers R m q d d' n n' : fits d -> tree_moved R m d d' -> map tkind_of (toks d') = map tkind_of (toks d) ->
  Forall2 (peer n n') (spots q (Below Kept) n n false false d) (spots q (Below Kept) n' n' false false d').
Proof.
  intros F M K. pose proof (moved_spots R m d d' F M q (Below Kept) 0%nat 0%nat false false) as S.
  pose proof (spots_raise n d q (Below Kept) 0 0 false false) as E. pose proof (spots_raise n' d' q (Below Kept) 0 0 false false) as E'. rewrite !Nat.add_0_r in E, E'. rewrite E, E'. clear E E'.
  rewrite <- (spots_toks d q (Below Kept) 0%nat 0%nat false false), <- (spots_toks d' q (Below Kept) 0%nat 0%nat false false), !map_map in K.
  revert S K. generalize (spots q (Below Kept) 0 0 false false d) (spots q (Below Kept) 0 0 false false d'). induction l as [|x l IH]; intros [|x' l'] S K; try discriminate; [constructor|].
  cbn [map] in S, K. assert (strip x' = strip x) as SX by congruence. assert (tkind_of (at_tok x') = tkind_of (at_tok x)) as KX by congruence.
  apply (f_equal (@List.tl _)) in S, K. cbn [List.tl] in S, K. cbn [map]. constructor; [|apply IH; auto]. unfold strip in SX. assert (at_rule x' = at_rule x /\ at_pos x' = at_pos x /\ at_level x' = at_level x) as (S1 & S2 & S3) by (repeat split; congruence).
  split; [exact S2|]. split; [exact KX|]. split; [left; exact S1|]. intros b _. cbn [raise at_level]. lia.
Qed.
Lemma row_peers R m w w' : Forall2 (tree_moved R m) w w' -> Forall fits w -> map tkind_of (flat_map toks w') = map tkind_of (flat_map toks w) -> forall n n', Forall2 (peer n n') (row n w) (row n' w').
Proof.
  induction 1 as [|d d' w w' D _ IH]; intros F K n n'; [constructor|]. inversion F as [|? ? FD FW]; subst.
  assert (map tkind_of (toks d') = map tkind_of (toks d) /\ map tkind_of (flat_map toks w') = map tkind_of (flat_map toks w)) as [K1 K2].
  { cbn [flat_map] in K. rewrite !map_app in K. assert (length (toks d') = length (toks d)) as LE.
    { pose proof (moved_spots R m d d' FD D KElement Beside 0%nat 0%nat false false) as S. apply (f_equal (@length _)) in S. rewrite !map_length in S.
      rewrite <- (spots_toks d KElement Beside 0%nat 0%nat false false), <- (spots_toks d' KElement Beside 0%nat 0%nat false false), !map_length. exact S. }
    assert (length (map tkind_of (toks d')) = length (map tkind_of (toks d))) as LE2 by (rewrite !map_length; exact LE).
    revert K LE2. generalize (map tkind_of (toks d')) (map tkind_of (toks d)). induction l as [|y l IHl]; intros [|y' l'] K L; try discriminate; [split; [reflexivity|exact K]|].
    cbn [app] in K. injection K as -> K. injection L as L. destruct (IHl l' K L) as [-> K2]. auto. }
  specialize (IH FW K2). inversion D as [t t' T|q cs cs' C]; subst.
  - cbn [row]. constructor; [|apply IH]. cbn [toks map] in K1. split; [reflexivity|]. split; [cbn [at_tok]; congruence|]. split; [left; reflexivity|]. discriminate.
  - cbn [row]. apply Forall2_app; [apply (spots_peers R m); auto|]. rewrite (moved_leak R m _ _ FD D).
    assert (forall a b c, Forall2 (peer (a + c) (b + c)) (row (a + c) w) (row (b + c) w') -> Forall2 (peer a b) (row (a + c) w) (row (b + c) w')) as G.
    { intros a b c. apply forall2_imp. intros y y' (P & Q & U & V). split; [exact P|]. split; [exact Q|]. split; [exact U|]. intros z Z. apply V in Z. lia. }
    apply G, IH.
Qed.
(** The children of a list after its beginning. *)
Definition extra (k e : skind) : nat := deeper k false false None (Rule e).
Lemma entry_extra k e prev multi : entry_kind k = Some e -> deeper k false multi prev (Rule e) = extra k e.
Proof. intro E. destruct k; cbn in E; try discriminate; injection E as <-; reflexivity. Qed.
Lemma entry_later k e multi late second : entry_kind k = Some e -> position_of k false false multi late second (Some (Term TSemicolon)) (Rule e) = Below Kept.
Proof. intro E. unfold position_of. destruct k; cbn in E; try discriminate; injection E as <-; reflexivity. Qed.
Lemma entry_comma k e multi late second : entry_kind k = Some e -> position_of k false false multi late second (Some (Rule e)) (Term TSemicolon) = Beside.
Proof. intro E. unfold position_of. destruct k; cbn in E; try discriminate; injection E as <-; cbn; rewrite ?andb_false_r; reflexivity. Qed.
Lemma keeps_entry k e d : entry_kind k = Some e -> keeps_level k d = false.
Proof. intro E. destruct k; cbn in E; try discriminate; reflexivity. Qed.
Lemma spots_rule k e ds q q' pos first n : entry_kind k = Some e -> spots q pos first n false false (CTree e ds) = spots q' pos first n false false (CTree e ds).
Proof. intro E. destruct (entry_plain k e E) as (_ & F & _). rewrite !(spots_kids _ e ds pos first n false F). reflexivity. Qed.
Lemma kids_tail k e pos first w : entry_kind k = Some e -> entries e w -> forall second n, Forall2 (peer 0 0) (row (n + extra k e) w) (kids k pos first (Some (Term TSemicolon)) second n w).
Proof.
  intros E EN. induction EN as [ds t T|ds t cs T _ IH]; intros second n; cbn [row kids kind_of]; cbv zeta;
    rewrite T, (entry_later k e _ _ _ E), (entry_comma k e _ _ _ E), (entry_extra k e _ _ E), (keeps_entry k e _ E), (spots_rule k e ds KElementList k _ _ _ E);
    (apply Forall2_app; [apply peers_refl|]); cbn [spots app].
  - constructor; [|constructor]. split; [reflexivity|]. split; [reflexivity|]. split; [right; exact T|]. discriminate.
  - constructor; [split; [reflexivity|]; split; [reflexivity|]; split; [right; exact T|]; discriminate|]. rewrite (keeps_entry k e _ E). change (leak (CTok t)) with 0%nat. cbn [one_if].
    replace (n + extra k e + leak (CTree e ds))%nat with ((n + leak (CTree e ds) + 0 + 0 + 0) + extra k e)%nat by lia. apply IH.
Qed.
Lemma kids_row k e pos first prev second n w : entry_kind k = Some e -> entries e w -> Forall fits w ->
  (k = KElementList -> prev = None -> first = n /\ exists b, pos = Below b) ->
  exists x xs x0 xs0 b, kids k pos first prev second n w = x :: xs /\ row (n + extra k e) w = x0 :: xs0 /\ at_pos x = Below b /\ at_level x = (n + extra k e)%nat /\ Forall2 (peer 0 0) xs0 xs.
Proof.
  intros E EN FW P. assert (exists ds t cs, w = CTree e ds :: CTok t :: cs /\ tkind_of t = TSemicolon /\ (cs = [] \/ entries e cs)) as (ds & t & cs & -> & T & EC).
  { destruct EN as [ds t T|ds t cs T EN]; [exists ds, t, []|exists ds, t, cs]; auto. }
  inversion FW as [|? ? FD _]; subst. cbn [row kids kind_of]. cbv zeta. rewrite T, (entry_comma k e _ _ _ E), (entry_extra k e _ _ E), (keeps_entry k e _ E), (spots_rule k e ds KElementList k _ _ _ E). cbn [is_late one_if].
  set (q := position_of k false false (multi_if (CTree e ds)) false second prev (Rule e)).
  set (new := match prev, q with None, Below _ => true | None, _ => false | _, _ => true end).
  assert (exists b, (if new then q else pos) = Below b /\ (if new then (n + extra k e)%nat else first) = (n + extra k e)%nat) as (b & -> & ->).
  { unfold new. destruct (entry_position k e prev second (multi_if (CTree e ds)) false E) as (EP & _ & [(b & B)|(K & N & B)]); fold q in EP; rewrite <- EP in B; rewrite B.
    - exists b. destruct prev; auto.
    - subst prev. destruct (P K eq_refl) as (-> & b & ->). exists b. split; [reflexivity|]. subst k. injection E as <-. cbn. lia. }
  assert (is_opener (CTree e ds) = false) as NO by (destruct k; cbn in E; try discriminate; injection E as <-; reflexivity).
  destruct (head_spot (CTree e ds) (mkA k (Below b) (n + extra k e) (n + extra k e) false false) FD NO) as (x & xs & EX & XP & XL & _). unfold spots_at in EX. cbn [a_rule a_pos a_first a_n a_on a_inh] in *.
  destruct (spots_place (CTree e ds) FD k (n + extra k e)%nat false false (Below b) (Below Kept) (n + extra k e)%nat) as (y & y' & ys & E1 & E2 & _). rewrite E1 in EX. injection EX as -> ->.
  rewrite E1, E2. cbn [app]. do 5 eexists. split; [reflexivity|]. split; [reflexivity|]. split; [exact XP|]. split; [exact XL|]. apply Forall2_app; [apply peers_refl|]. cbn [spots app].
  constructor; [split; [reflexivity|]; split; [reflexivity|]; split; [right; exact T|]; discriminate|]. destruct EC as [->|EC]; [constructor|]. rewrite (keeps_entry k e _ E). change (leak (CTok t)) with 0%nat. cbn [one_if].
  replace (n + extra k e + leak (CTree e ds))%nat with ((n + leak (CTree e ds) + 0 + 0 + 0) + extra k e)%nat by lia. apply kids_tail; auto.
Qed.

(** ** Where the entries of a file stand *)
Lemma list_seat tree k e cs ar : fits tree -> (exists ds, tree = CTree KStoredDefinition ds) -> seat tree root_args (CTree k cs) ar -> entry_kind k = Some e ->
  spots_at ar (CTree k cs) = kids k (a_pos ar) (a_n ar) None false (a_n ar) cs /\ (k = KElementList -> exists b, a_pos ar = Below b).
Proof.
  intros F (ds & RT) S E. destruct (entry_plain k e E) as (FK & _ & _).
  assert (self_contained k = true) as SC by (destruct k; cbn in E; try discriminate; reflexivity).
  pose proof (seat_off tree F (CTree k cs) ar k cs S eq_refl SC) as OFF.
  assert (a_first ar = base ar) as B by (apply (base_first tree F k cs ar S); intros ->; discriminate).
  unfold base in B. rewrite OFF in B. cbn [one_if] in B. rewrite Nat.add_0_r in B. split.
  { unfold spots_at. rewrite B, OFF. apply spots_kids, FK. }
  intros ->. remember (CTree KElementList cs) as c eqn:EC. destruct S as [|q u d v a S]; [rewrite RT in EC; discriminate|]. subst d.
  assert (fits (CTree q (u ++ CTree KElementList cs :: v))) as FQ by (apply (inside_fits tree); [exact F|eapply seat_inside, S]).
  apply frame_up in FQ as [_ FQ]. rewrite (FQ eq_refl) in *. exists Always. unfold next, call. cbn [a_pos].
  unfold position_of. cbn [fixed_position kind_of]. unfold is_new. destruct (rev u); reflexivity.
Qed.
Lemma pieces s p items tree k e cs0 : reading s p items tree -> inside (CTree k cs0) tree -> entry_kind k = Some e ->
  exists c, forall A x B u w v IA a mid b IB y, stands A x B tree k e u w v -> cs0 = u ++ w ++ v ->
  cut s A y B IA a mid b IB -> items = IA ++ (a :: mid ++ [b]) ++ IB -> filter plain (a :: mid ++ [b]) = flat_map toks w -> plain a = true -> plain b = true ->
  exists LA LB r bl xs x0 xs0, let lvl := (c + leak_in k u)%nat in
    reference tree items = LA ++ (mkE (WLine bl lvl) (Some r) a :: weave (Some (r, tkind_of a)) (line (tend a)) [] (mid ++ [b]) xs) ++ LB /\
    (forall z, In z LA -> In (e_tok z) IA) /\ (forall z, In z (weave (Some (r, tkind_of a)) (line (tend a)) [] (mid ++ [b]) xs) -> In (e_tok z) (mid ++ [b])) /\ (forall z, In z LB -> In (e_tok z) IB) /\
    row lvl w = x0 :: xs0 /\ Forall2 (peer 0 0) xs0 xs /\ map at_tok xs = filter plain (mid ++ [b]).
Proof.
  intros RD IN EK.
  destruct (rd_fits _ _ _ _ RD) as (cs & RT & [->|FT]).
  { exfalso. rewrite RT in IN. apply inside_root in IN. subst k. discriminate. }
  destruct (inside_seat tree root_args _ IN) as (ar & S). destruct (list_seat _ _ _ _ _ FT (ex_intro _ cs RT) S EK) as [ES EP].
  exists (a_n ar + extra k e)%nat. intros A x B u w v IA a mid b IB y ST EC CT EI FX Pa Pb. cbv zeta. pose proof (st_entries _ _ _ _ _ _ _ _ _ ST) as EN.
  pose proof (stands_fits _ _ _ _ _ _ _ _ _ _ _ _ RD ST) as FW.
  destruct (seat_infix _ _ _ _ S) as (X & Y & EX). rewrite ES, EC, !kids_app in EX.
  set (n0 := (a_n ar + leak_in k u)%nat) in *.
  destruct (kids_row k e (a_pos ar) (a_n ar) (prev_after None u) (second_after None false u) n0 w EK EN FW) as (z & zs & x0 & xs0 & bb & EZ & ER & ZP & ZL & PE).
  { intros -> Z. split; [|apply EP; reflexivity]. destruct u as [|d u] using rev_ind; [unfold n0; cbn [leak_in]; lia|]. unfold prev_after in Z. rewrite rev_app_distr in Z. discriminate. }
  pose proof (kids_toks k (a_pos ar) (a_n ar) w (prev_after None u) (second_after None false u) n0) as TK. rewrite EZ, <- FX in TK. cbn [filter map] in TK. rewrite Pa in TK.
  assert (at_tok z = a) as TZ by congruence. apply (f_equal (@List.tl _)) in TK. cbn [List.tl] in TK. rewrite EZ in EX.
  set (Y2 := kids k (a_pos ar) (a_n ar) (prev_after (prev_after None u) w) (second_after (prev_after None u) (second_after None false u) w) (n0 + leak_in k w) v) in *.
  set (X2 := kids k (a_pos ar) (a_n ar) None false (a_n ar) u) in *.
  assert (spots KStoredDefinition Beside 0 0 false false tree = (X ++ X2) ++ (z :: zs) ++ (Y2 ++ Y)) as SP.
  { change (spots KStoredDefinition Beside 0 0 false false tree) with (spots_at root_args tree). rewrite EX, <- !app_assoc. reflexivity. }
  pose proof (reading_spots _ _ _ _ RD) as RS. rewrite SP in RS.
  pose proof (laid_nodup _ _ _ (rd_laid _ _ _ _ RD)) as ND. apply (NoDup_filter plain) in ND. rewrite EI, !filter_app in ND, RS.
  destruct (parts_of (X ++ X2) (z :: zs) (Y2 ++ Y) _ _ _ a ND (eq_sym RS)) as [FA FB].
  { cbn [map filter]. rewrite Pa, TZ, TK. reflexivity. }
  { cbn [filter]. rewrite Pa. left. reflexivity. }
  unfold reference. rewrite SP, EI. cbn [app].
  destruct (weave_pass IA None 1 [] (X ++ X2) z a ((mid ++ [b]) ++ IB) (zs ++ Y2 ++ Y) (eq_sym FA) Pa TZ) as (LA & wh & EW & WA & IL).
  destruct (weave_split (mid ++ [b]) IB zs (Y2 ++ Y) (Some (at_rule z, tkind_of a)) (line (tend a)) (eq_sym TK) (eq_sym FB)) as (LB & EW3 & IL3); [right; exists mid, b; auto|].
  unfold white_at in WA. rewrite ZP in WA. destruct WA as (bl & ->). rewrite ZL in EW.
  replace (a_n ar + extra k e + leak_in k u)%nat with (n0 + extra k e)%nat by (unfold n0; lia). exists LA, LB, (at_rule z), bl, zs, x0, xs0. split; [rewrite EW, EW3; reflexivity|]. split; [exact IL|]. split; [intros z0 Z; apply weave_in in Z; auto|].
  split; [exact IL3|]. split; [exact ER|]. split; [exact PE|exact TK].
Qed.
Lemma piece s p items tree A x B k e u w v IA a mid b IB y : reading s p items tree -> stands A x B tree k e u w v ->
  cut s A y B IA a mid b IB -> items = IA ++ (a :: mid ++ [b]) ++ IB -> filter plain (a :: mid ++ [b]) = flat_map toks w -> plain a = true -> plain b = true ->
  exists LA LB r bl lvl xs x0 xs0, reference tree items = LA ++ (mkE (WLine bl lvl) (Some r) a :: weave (Some (r, tkind_of a)) (line (tend a)) [] (mid ++ [b]) xs) ++ LB /\
    (forall z, In z LA -> In (e_tok z) IA) /\ (forall z, In z (weave (Some (r, tkind_of a)) (line (tend a)) [] (mid ++ [b]) xs) -> In (e_tok z) (mid ++ [b])) /\ (forall z, In z LB -> In (e_tok z) IB) /\
    row lvl w = x0 :: xs0 /\ Forall2 (peer 0 0) xs0 xs /\ map at_tok xs = filter plain (mid ++ [b]).
Proof.
  intros RD ST CT EI FX Pa Pb. destruct (pieces _ _ _ _ _ _ _ RD (st_inside _ _ _ _ _ _ _ _ _ ST) (st_kind _ _ _ _ _ _ _ _ _ ST)) as (c & H).
  destruct (H _ _ _ _ _ _ _ _ _ _ _ _ ST eq_refl CT EI FX Pa Pb) as (LA & LB & r & bl & xs & x0 & xs0 & H1). exists LA, LB, r, bl, (c + leak_in k u)%nat, xs, x0, xs0. exact H1.
Qed.

(** ** Weaving *)
Definition twin (n n' : nat) (m m' : N) (y y' : entry) : Prop := same_white n n' (e_white y) (e_white y') /\ shifted_by m m' (e_tok y) (e_tok y').
Section Twin.
Variables (n n' : nat) (m m' : N).
Notation sh := (shifted_by m m').
Lemma twin_plain w r r' t t' : (forall b k, w <> WLine b k) -> sh t t' -> twin n n' m m' (mkE w r t) (mkE w r' t').
Proof. intros W S. split; [|exact S]. cbn [e_white]. unfold same_white. destruct w; auto. exfalso. eapply W. reflexivity. Qed.
Lemma gap_shift a b a' b' : a' + m = a + m' -> b' + m = b + m' -> gap_between a' b' = gap_between a b.
Proof. intros E E'. unfold gap_between. replace (b' - a') with (b - a) by lia. reflexivity. Qed.
Lemma rows_twin lv lv' r r' t t' cs cs' : (lv' + n = lv + n')%nat -> sh t t' -> Forall2 sh cs cs' -> forall b ln ln', ln' + m = ln + m' ->
  Forall2 (twin n n' m m') (rows b lv ln cs r t) (rows b lv' ln' cs' r' t').
Proof.
  intros LV T C. induction C as [|c c' cs cs' CC C IH]; intros b ln ln' L; cbn [rows].
  - constructor; [|constructor]. split; [|exact T]. cbn [e_white same_white]. split; [|exact LV]. destruct T as (_ & _ & T & _). rewrite (gap_shift ln (line (tstart t)) ln' (line (tstart t'))) by auto. reflexivity.
  - assert (C0 := CC). destruct C0 as (_ & _ & C1 & C2 & _). constructor; [|apply IH; exact C2]. split; [|exact CC]. cbn [e_white same_white]. split; [|exact LV].
    rewrite (gap_shift ln (line (tstart c)) ln' (line (tstart c'))) by auto. reflexivity.
Qed.
Lemma behind_twin b cs cs' : Forall2 sh cs cs' -> Forall2 (twin n n' m m') (behind b cs) (behind b cs').
Proof.
  intros [|c c' l l' C L]; [constructor|]. cbn [behind]. constructor; [apply twin_plain; [destruct b; discriminate|exact C]|].
  induction L as [|y y' l l' X L IH]; constructor; auto. apply twin_plain; [discriminate|exact X].
Qed.
Lemma put_twin q q' kd ln ln' cs cs' x x' : ln' + m = ln + m' -> Forall2 sh cs cs' -> peer n n' x x' -> sh (at_tok x) (at_tok x') ->
  Forall2 (twin n n' m m') (put (Some (q, kd)) ln cs x) (put (Some (q', kd)) ln' cs' x').
Proof.
  intros L C (P & K & R & V) S. unfold put. rewrite P, K.
  assert (tight kd (at_rule x') (tkind_of (at_tok x)) = tight kd (at_rule x) (tkind_of (at_tok x))) as -> by (destruct R as [->| ->]; reflexivity).
  destruct (at_pos x) as [| | |b].
  - constructor; [|constructor]. apply twin_plain; [destruct (tight kd (at_rule x) (tkind_of (at_tok x))); discriminate|exact S].
  - constructor; [|constructor]. apply twin_plain; [discriminate|exact S].
  - constructor; [|constructor]. apply twin_plain; [discriminate|exact S].
  - assert (forall (f : bool -> bool), Forall2 sh (filter (fun c => f (line (tstart c) =? ln)) cs) (filter (fun c => f (line (tstart c) =? ln')) cs')) as G.
    { intro f. clear - L C. induction C as [|c c' cs cs' CC C IH]; [constructor|]. cbn [filter]. assert (C0 := CC). destruct C0 as (_ & _ & C1 & _).
      replace (line (tstart c') =? ln') with (line (tstart c) =? ln) by (destruct (N.eqb_spec (line (tstart c)) ln), (N.eqb_spec (line (tstart c')) ln'); reflexivity || lia).
      destruct (f (line (tstart c) =? ln)); auto. }
    apply Forall2_app; [apply behind_twin; apply (G (fun b => b))|]. apply rows_twin; auto. apply (V b); reflexivity.
Qed.
Lemma weave_twin items items' : Forall2 sh items items' -> forall q q' kd ln ln' cs cs' xs xs',
  ln' + m = ln + m' -> Forall2 sh cs cs' -> Forall2 (peer n n') xs xs' -> Forall2 sh (map at_tok xs) (map at_tok xs') ->
  Forall2 (twin n n' m m') (weave (Some (q, kd)) ln cs items xs) (weave (Some (q', kd)) ln' cs' items' xs').
Proof.
  induction 1 as [|t t' items items' T I IH]; intros q q' kd ln ln' cs cs' xs xs' L C P M; cbn [weave]; [constructor|].
  assert (T0 := T). destruct T0 as (_ & K & _ & T2 & _). replace (is_comment t') with (is_comment t) by (unfold is_comment; rewrite K; reflexivity). destruct (is_comment t).
  - apply IH; auto. apply Forall2_app; auto.
  - destruct P as [|x x' xs xs' X P]; [constructor|]. cbn [map] in M. inversion M as [|? ? ? ? M1 M2]; subst. apply Forall2_app; [apply put_twin; auto|]. rewrite K. apply IH; auto.
Qed.
End Twin.

(** ** The trees of the same text *)
Lemma phrase_lexes e y a mid b rw : phrase e y a mid b rw -> lexes (y ++ ttext b) (map item_of (a :: mid ++ [b])).
Proof.
  intro PH. change (a :: mid ++ [b]) with ((a :: mid) ++ [b]). rewrite map_app. apply (walks_lexes _ _ _ (ph_walks _ _ _ _ _ _ PH)). cbn [map].
  rewrite <- (app_nil_r (ttext b)). change (item_of b) with (tkind_of b, ttext b). constructor; [apply (ph_end _ _ _ _ _ _ PH)|apply semicolon_follow, (ph_kind _ _ _ _ _ _ PH)|constructor].
Qed.
Lemma same_trees s p items tree A x B k e u w v rw2 : reading s p items tree -> stands A x B tree k e u w v ->
  entries e (map prune rw2) -> Forall parsable rw2 -> Forall (allowed k) rw2 -> map tkind_of (flat_map leaves rw2) = map tkind_of (flat_map leaves w) ->
  map (tmap bare) (map prune rw2) = map (tmap bare) w.
Proof.
  intros RD ST EN2 PW2 AW2 K. destruct (raw_stands _ _ _ _ _ _ _ _ _ _ _ _ RD ST) as (X & ru & rw & rv & cs & ET & PA & ETR & PN & EU & EW & EV & RT & NE).
  pose proof (st_kind _ _ _ _ _ _ _ _ _ ST) as EK. pose proof (st_entries _ _ _ _ _ _ _ _ _ ST) as EN.
  destruct (node_swap k e ru rw rv rw2 EK PN) as [PS _]; [rewrite EW; exact EN|exact EN2|exact PW2|exact AW2|].
  assert (inside (CTree k (ru ++ rw ++ rv)) (CTree KStoredDefinition cs)) as IN.
  { rewrite <- ET. clear. induction X as [|[[q l] m] F IH]; [constructor|]. cbn [plug fold_right fst snd]. econstructor; [|exact IH]. apply in_or_app. right. left. reflexivity. }
  pose proof (node_unique cs _ _ PA IN PS) as U.
  assert (tmap bare (CTree k (ru ++ rw ++ rv)) = tmap bare (CTree k (ru ++ rw2 ++ rv))) as E.
  { apply U. split; [reflexivity|]. cbn [leaves]. rewrite !flat_map_app, !map_app, K, <- EW, prune_yield. reflexivity. }
  cbn [tmap] in E. injection E as E. rewrite !map_app in E. apply app_inv_head in E. apply app_inv_tail in E.
  rewrite <- EW, !map_map. rewrite (map_ext _ _ (fun c => eq_sym (prune_tmap bare c))), (map_ext _ _ (fun c => eq_sym (prune_tmap bare c)) rw). rewrite <- !(map_map (tmap bare) prune). f_equal. symmetry. exact E.
Qed.
Lemma barred_either k k2 e : (forall t, In t (barred k e) -> In t (barred k2 e)) \/ (forall t, In t (barred k2 e) -> In t (barred k e)).
Proof.
  destruct (skind_eqb k2 KEquationSection) eqn:Q; [left|right].
  - replace k2 with KEquationSection by (destruct k2; try discriminate Q; reflexivity). intro t. destruct e; try tauto. destruct k; cbn [barred In]; tauto.
  - intro t. destruct e; try tauto. destruct k2; try discriminate Q; destruct k; cbn [barred In]; tauto.
Qed.
Lemma allowed_more k k2 e rw : (forall t, In t (barred k e) -> In t (barred k2 e)) -> entries e (map prune rw) -> Forall (allowed k2) rw -> Forall (allowed k) rw.
Proof.
  intros H EN A. assert (forall c, In c rw -> forall q ds, c = CTree q ds -> q = e) as G.
  { clear - EN. remember (map prune rw) as w eqn:E. revert rw E. induction EN as [ds t T|ds t cs T _ IH]; intros rw E c I q cs0 ->.
    - symmetry in E. destruct rw as [|d [|d2 [|]]]; try discriminate. cbn [map] in E. injection E as E1 E2. destruct I as [->|[->|[]]]; rewrite prune_tree in *; congruence.
    - symmetry in E. destruct rw as [|d [|d2 rw]]; try discriminate. cbn [map] in E. injection E as E1 E2 E3. destruct I as [->|[->|I]]; [rewrite prune_tree in *; congruence|rewrite prune_tree in *; congruence|].
      apply (IH rw (eq_sym E3) _ I q cs0 eq_refl). }
  apply Forall_forall. intros c I. rewrite Forall_forall in A. specialize (A c I). unfold allowed in *. destruct c as [t|q ds]; [exact Logic.I|]. rewrite (G _ I q ds eq_refl) in *.
  destruct (leaves (CTree e ds)); [exact Logic.I|]. intro J. apply A, H, J.
Qed.

(** ** The same entries in two files *)
Theorem copies s p items tree A x B k e u w v s2 p2 items2 tree2 A2 B2 k2 u2 w2 v2 :
  reading s p items tree -> s = A ++ x ++ B -> stands A x B tree k e u w v ->
  reading s2 p2 items2 tree2 -> s2 = A2 ++ x ++ B2 -> stands A2 x B2 tree2 k2 e u2 w2 v2 ->
  Forall2 same_form w w2 /\ leaked w2 = leaked w /\
  exists LA LB i r LA2 LB2 i2 r2 b n b2 n2,
    reference tree items = LA ++ (i :: r) ++ LB /\ reference tree2 items2 = LA2 ++ (i2 :: r2) ++ LB2 /\
    Forall (fun y => begins 0 (bytes_of A) y = true) LA /\ Forall (fun y => begins (bytes_of A) (bytes_of (A ++ x)) y = true) (i :: r) /\
    Forall (fun y => begins (bytes_of (A ++ x)) (bytes_of (A ++ x ++ B)) y = true) LB /\
    Forall (fun y => begins 0 (bytes_of A2) y = true) LA2 /\ Forall (fun y => begins (bytes_of A2) (bytes_of (A2 ++ x)) y = true) (i2 :: r2) /\
    Forall (fun y => begins (bytes_of (A2 ++ x)) (bytes_of (A2 ++ x ++ B2)) y = true) LB2 /\
    e_white i = WLine b n /\ e_white i2 = WLine b2 n2 /\ ttext (e_tok i2) = ttext (e_tok i) /\ tkind_of (e_tok i2) = tkind_of (e_tok i) /\
    Forall2 (copied n n2) r r2.
Proof.
  intros RD ES ST RD2 ES2 ST2.
  destruct (stands_phrase _ _ _ _ _ _ _ _ _ _ _ _ RD ES ST) as (y & a & mid & b & rw & IA & IB & PH & EX & EW & CT & EI & AW).
  destruct (stands_phrase _ _ _ _ _ _ _ _ _ _ _ _ RD2 ES2 ST2) as (y2 & a2 & mid2 & b2 & rw2 & IA2 & IB2 & PH2 & EX2 & EW2 & CT2 & EI2 & AW2).
  assert (map item_of (a :: mid ++ [b]) = map item_of (a2 :: mid2 ++ [b2])) as MI.
  { apply (lexes_unique _ x); [rewrite EX; apply (phrase_lexes _ _ _ _ _ _ PH)|rewrite EX2; apply (phrase_lexes _ _ _ _ _ _ PH2)]. }
  pose proof (st_kind _ _ _ _ _ _ _ _ _ ST) as EK. pose proof (st_kind _ _ _ _ _ _ _ _ _ ST2) as EK2.
  pose proof (items_lexemes _ _ (rd_lexes _ _ _ _ RD)) as XL. rewrite EI in XL. apply Forall_app in XL as [XA XL]. apply Forall_app in XL as [XX XB].
  pose proof (items_lexemes _ _ (rd_lexes _ _ _ _ RD2)) as XL2. rewrite EI2 in XL2. apply Forall_app in XL2 as [XA2 XL2]. apply Forall_app in XL2 as [XX2 XB2].
  assert (filter plain (a :: mid ++ [b]) = flat_map toks w) as FX by (rewrite (ph_part _ _ _ _ _ _ PH), <- EW, (toks_yield (map prune rw)), prune_yield; reflexivity).
  assert (filter plain (a2 :: mid2 ++ [b2]) = flat_map toks w2) as FX2 by (rewrite (ph_part _ _ _ _ _ _ PH2), <- EW2, (toks_yield (map prune rw2)), prune_yield; reflexivity).
  destruct (ph_plain _ _ _ _ _ _ PH) as [Pa Pb]. destruct (ph_plain _ _ _ _ _ _ PH2) as [Pa2 Pb2].
  pose proof (ct_set_part _ _ _ _ _ _ _ _ _ CT) as SP. rewrite <- EX in SP. pose proof (ct_set_part _ _ _ _ _ _ _ _ _ CT2) as SP2. rewrite <- EX2 in SP2.
  assert (Forall2 (shifted_by (newlines A) (newlines A2)) (a :: mid ++ [b]) (a2 :: mid2 ++ [b2])) as SH.
  { apply (set_out_shifted_first _ _ _ _ _ _ _ _ _ SP SP2 MI XX).
    apply (entry_heads e rw) with (r := filter plain (mid ++ [b])); [apply (ph_entries _ _ _ _ _ _ PH)|exists k; exact EK|apply (ph_trees _ _ _ _ _ _ PH)|].
    rewrite <- (ph_part _ _ _ _ _ _ PH). cbn [filter]. rewrite Pa. reflexivity. }
  assert (Forall2 (shifted_by (newlines A) (newlines A2)) (flat_map toks w) (flat_map toks w2)) as SW.
  { rewrite <- FX, <- FX2. apply forall2_filter; [intros t t' (_ & K & _); unfold plain; rewrite K; reflexivity|exact SH]. }
  assert (map tkind_of (flat_map toks w2) = map tkind_of (flat_map toks w)) as KW.
  { clear - SW. induction SW as [|t t' l l' (_ & K & _) _ IH]; [reflexivity|]. cbn [map]. rewrite K, IH. reflexivity. }
  assert (map (tmap bare) w = map (tmap bare) w2) as BW.
  { destruct (barred_either k k2 e) as [H|H].
    - rewrite <- EW2. symmetry. apply (same_trees _ _ _ _ _ _ _ _ _ _ _ _ _ RD ST); [apply (ph_entries _ _ _ _ _ _ PH2)|apply (ph_trees _ _ _ _ _ _ PH2)| |].
      + apply (allowed_more k k2 e); [exact H|apply (ph_entries _ _ _ _ _ _ PH2)|exact AW2].
      + rewrite !toks_yield, <- EW2, prune_yield in KW. exact KW.
    - rewrite <- EW. apply (same_trees _ _ _ _ _ _ _ _ _ _ _ _ _ RD2 ST2); [apply (ph_entries _ _ _ _ _ _ PH)|apply (ph_trees _ _ _ _ _ _ PH)| |].
      + apply (allowed_more k2 k e); [exact H|apply (ph_entries _ _ _ _ _ _ PH)|exact AW].
      + rewrite !toks_yield, <- EW, prune_yield in KW. symmetry. exact KW. }
  split; [apply (shapes_form (newlines A) (newlines A2)); auto|].
  pose proof (stands_fits _ _ _ _ _ _ _ _ _ _ _ _ RD ST) as FW. pose proof (stands_fits _ _ _ _ _ _ _ _ _ _ _ _ RD2 ST2) as FW2.
  split; [rewrite <- (leaked_in k e w2 EK), <- (leaked_in k e w EK); apply (leak_shifted (newlines A) (newlines A2)); auto|].
  destruct (piece _ _ _ _ _ _ _ _ _ _ _ _ _ _ _ _ _ _ RD ST CT EI FX Pa Pb) as (LA & LB & r & bl & lvl & xs & x0 & xs0 & E1 & I1 & I2 & I3 & R1 & R2 & R3).
  destruct (piece _ _ _ _ _ _ _ _ _ _ _ _ _ _ _ _ _ _ RD2 ST2 CT2 EI2 FX2 Pa2 Pb2) as (LA2 & LB2 & r2 & bl2 & lvl2 & xs2 & x02 & xs02 & E2 & J1 & J2 & J3 & Q1 & Q2 & Q3).
  assert (Forall2 (peer lvl lvl2) (row lvl w) (row lvl2 w2)) as PR.
  { destruct (N.le_ge_cases (newlines A) (newlines A2)) as [L|L].
    - apply (row_peers same_text (newlines A2 - newlines A)); auto. apply shapes_moved; auto. apply shifted_moved; auto.
    - apply peers_sym. apply (row_peers same_text (newlines A - newlines A2)); auto. apply shapes_moved; auto. apply shifted_moved; auto. apply shifted_sym. exact SW. }
  rewrite R1, Q1 in PR. inversion PR as [|? ? ? ? _ PX]; subst.
  assert (Forall2 (peer lvl lvl2) xs xs2) as PS.
  { apply (peers_trans lvl lvl lvl2 xs xs0).
    - apply peers_sym. revert R2. apply forall2_imp. intros c d (P1 & P2 & P3 & P4). split; [exact P1|]. split; [exact P2|]. split; [exact P3|]. intros z Z. apply P4 in Z. lia.
    - apply (peers_trans lvl lvl2 lvl2 xs0 xs02); [exact PX|]. revert Q2. apply forall2_imp. intros c d (P1 & P2 & P3 & P4). split; [exact P1|]. split; [exact P2|]. split; [exact P3|]. intros z Z. apply P4 in Z. lia. }
  inversion SH as [|? ? ? ? SA SM]; subst. assert (SA0 := SA). destruct SA0 as (T0 & K0 & _ & L0 & _).
  assert (Forall2 (shifted_by (newlines A) (newlines A2)) (map at_tok xs) (map at_tok xs2)) as SX.
  { rewrite R3, Q3. apply forall2_filter; [intros t t' (_ & K & _); unfold plain; rewrite K; reflexivity|exact SM]. }
  pose proof (weave_twin lvl lvl2 (newlines A) (newlines A2) _ _ SM r r2 (tkind_of a) (line (tend a)) (line (tend a2)) [] [] xs xs2 L0 ltac:(constructor) PS SX) as TW.
  rewrite <- K0 in TW at 2.
  assert (forall (l : list entry) f to (IS : list token), (forall x0, In x0 l -> In (e_tok x0) IS) -> (forall t, In t IS -> f <= pos (tstart t) /\ pos (tstart t) < to) -> Forall (fun y => begins f to y = true) l) as G.
  { clear. intros l f to I0 H1 H2. apply Forall_forall. intros x0 I. apply H1, H2 in I as [G1 G2]. unfold begins. apply andb_true_iff. rewrite N.leb_le, N.ltb_lt. auto. }
  do 12 eexists. split; [exact E1|]. split; [exact E2|].
  split; [apply (G LA 0 (bytes_of A) IA I1); intros t I; destruct (set_out_range _ _ _ _ (ct_set _ _ _ _ _ _ _ _ _ CT) XA t I); split; [lia|assumption]|].
  split; [apply (G _ _ _ (a :: mid ++ [b])); [intros z [<-|I]; [left; reflexivity|right; auto]|apply (set_out_range _ _ _ _ SP XX)]|].
  split; [apply (G LB _ _ IB I3); pose proof (set_out_range _ _ _ _ (ct_set_after _ _ _ _ _ _ _ _ _ CT) XB) as SR; rewrite <- !app_assoc in *; exact SR|].
  split; [apply (G LA2 0 (bytes_of A2) IA2 J1); intros t I; destruct (set_out_range _ _ _ _ (ct_set _ _ _ _ _ _ _ _ _ CT2) XA2 t I); split; [lia|assumption]|].
  split; [apply (G _ _ _ (a2 :: mid2 ++ [b2])); [intros z [<-|I]; [left; reflexivity|right; auto]|apply (set_out_range _ _ _ _ SP2 XX2)]|].
  split; [apply (G LB2 _ _ IB2 J3); pose proof (set_out_range _ _ _ _ (ct_set_after _ _ _ _ _ _ _ _ _ CT2) XB2) as SR; rewrite EX2, <- !app_assoc in *; exact SR|].
  split; [reflexivity|]. split; [reflexivity|]. split; [exact T0|]. split; [exact K0|].
  revert TW. apply forall2_imp. intros c d (W & T & K & _). split; [exact T|]. split; [exact K|exact W].
Qed.
