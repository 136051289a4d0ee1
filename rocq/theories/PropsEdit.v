(** Property C100: entries of a list in the place of others. *)
From Verif Require LexSpecProofs.
From Verif Require Import ProofBase Tokens Syntax Lexer SpecLex LexInv LexMain LexFacts ParserCore Grammar
  Tree Printer Formatter Lib ParserSem ParserFuel SpecGrammar Regex ParserGrammar ParserTree ParserFacts Recognise PropsParser
  SpecLanguage Looks ParserComplete PropsLanguage
  FmtAbs FmtPlan FmtShape FmtTables FmtSound SpecLayout FmtExec FmtTop FmtFacts FmtRelex FmtNeat SpecNodes FmtTree FmtLists FmtOps
  FmtWrap SpecGaps SpecReference FmtNode FmtReference FmtSame PropsFormat PropsReference FmtBreaks FmtAgree FmtPrinted FmtStable FmtMoved
  FmtConcat SpecLevels FmtLevels SpecLocal FmtLocal SpecEdit LexSplice FmtEdit FmtSplice.

(** The parse and the tree of a text. *)
Definition read (s : text) (p : parsed) (tree : child) : Prop := accepted s p /\ build_tree (p_tokens p) (p_events p) = Ok tree.
Lemma read_reading s p tree : read s p tree -> exists items, reading s p items tree.
Proof.
  intros [A B]. destruct (reading_of s p A) as (items & tree' & R). exists items. pose proof (rd_tree _ _ _ _ R) as B'. replace tree with tree' by congruence. exact R.
Qed.

(** ** C100 *)
Lemma replaced_reading A x B p items tree k e u w v A2 x2 B2 p2 tree2 k2 u2 w2 v2 :
  reading (A ++ x ++ B) p items tree -> stands A x B tree k e u w v -> read (A2 ++ x2 ++ B2) p2 tree2 -> stands A2 x2 B2 tree2 k2 e u2 w2 v2 ->
  (exists A0 c, A = A0 ++ [c] /\ parting c) -> Forall (allowed k) w2 -> leaked w2 = leaked w ->
  exists p' items' tree' w' v' la i lx i' lx' lb lb', reading (A ++ x2 ++ B) p' items' tree' /\ stands A x2 B tree' k e u w' v' /\ Forall2 same_form w2 w' /\
    reference tree items = la ++ (i :: lx) ++ lb /\ reference tree' items' = la ++ (i' :: lx') ++ lb' /\
    e_white i' = e_white i /\ Forall2 alike lb lb' /\
    Forall (fun y => begins 0 (bytes_of A) y = true) la /\
    Forall (fun y => begins (bytes_of A) (bytes_of (A ++ x)) y = true) (i :: lx) /\
    Forall (fun y => begins (bytes_of A) (bytes_of (A ++ x2)) y = true) (i' :: lx') /\
    Forall (fun y => begins (bytes_of (A ++ x)) (bytes_of (A ++ x ++ B)) y = true) lb /\
    Forall (fun y => begins (bytes_of (A ++ x2)) (bytes_of (A ++ x2 ++ B)) y = true) lb'.
Proof.
  intros RD ST R2 ST2 PT AL LK. destruct (read_reading _ _ _ R2) as (items2 & RD2).
  pose proof (st_kind _ _ _ _ _ _ _ _ _ ST) as EK. rewrite <- !(leaked_in k e) in LK by exact EK.
  destruct (paste _ _ _ _ _ _ _ _ _ _ _ _ _ _ _ _ _ _ _ _ _ _ _ RD eq_refl ST RD2 eq_refl ST2 PT AL LK)
    as (p' & items' & tree' & F & F' & w' & v' & IA & IX & IX' & IB & IB' & t0 & mid & z & t0' & mid' & z' & y & y' & RD' & ET & ET' & EI & EI' & SF & ED & EX & CT & EX' & CT').
  destruct (edit_either _ _ _ _ _ _ _ _ _ _ _ _ _ _ _ _ _ _ _ _ _ _ ED) as (la & lx & lx' & lb & lb' & wh & r & r' & E1 & E2 & AK & M1 & M2 & M3 & M4 & M5).
  rewrite <- ET, <- EI in E1. rewrite <- ET', <- EI' in E2.
  assert (inside (CTree k (u ++ w' ++ v')) tree') as IN.
  { rewrite ET'. clear. induction F' as [|[[q a] b] F IH]; [constructor|]. cbn [plug fold_right fst snd]. econstructor; [|exact IH]. apply in_or_app. right. left. reflexivity. }
  destruct (ed_ends' _ _ _ _ _ _ _ _ _ _ _ _ _ _ _ _ _ _ _ _ _ _ ED) as (EQ & P0 & PZ).
  destruct (ed_ends _ _ _ _ _ _ _ _ _ _ _ _ _ _ _ _ _ _ _ _ _ _ ED) as (EQ0 & _ & _).
  exists p', items', tree', w', v', la, (mkE wh (Some r) t0), lx, (mkE wh (Some r') t0'), lx', lb, lb'.
  assert (forall (l : list entry) a b (I : list token), (forall x0, In x0 l -> In (e_tok x0) I) -> (forall t, In t I -> a <= pos (tstart t) /\ pos (tstart t) < b) -> Forall (fun y => begins a b y = true) l) as G.
  { intros l a b I0 H1 H2. apply Forall_forall. intros x0 I. apply H1, H2 in I as [I1 I2]. unfold begins. apply andb_true_iff. rewrite N.leb_le, N.ltb_lt. auto. }
  pose proof (items_lexemes _ _ (rd_lexes _ _ _ _ RD)) as XL. rewrite EI in XL. apply Forall_app in XL as [XA XL]. apply Forall_app in XL as [XX XB].
  pose proof (items_lexemes _ _ (rd_lexes _ _ _ _ RD')) as XL'. rewrite EI' in XL'. apply Forall_app in XL' as [_ XL']. apply Forall_app in XL' as [XX' XB'].
  split; [exact RD'|]. split; [|split; [exact SF|]].
  - split; [exact IN|exact EK|apply (ed_entries' _ _ _ _ _ _ _ _ _ _ _ _ _ _ _ _ _ _ _ _ _ _ ED)|].
    exists t0', (filter plain mid'), z'. pose proof (ed_part' _ _ _ _ _ _ _ _ _ _ _ _ _ _ _ _ _ _ _ _ _ _ ED) as EP. rewrite EQ in EP. cbn [filter] in EP. rewrite P0, filter_app in EP. cbn [filter] in EP. rewrite PZ in EP.
    split; [rewrite <- toks_yield; symmetry; exact EP|]. split; [apply (proj2 (ct_first _ _ _ _ _ _ _ _ _ CT'))|]. rewrite EX'. apply (proj2 (ct_last _ _ _ _ _ _ _ _ _ CT')).
  - split; [exact E1|]. split; [exact E2|].
    split; [reflexivity|]. split; [exact AK|].
    split; [apply (G la 0 (bytes_of A) IA M1); intros t I; destruct (set_out_range _ _ _ _ (ct_set _ _ _ _ _ _ _ _ _ CT) XA t I); split; [lia|assumption]|].
    split; [apply (G _ (bytes_of A) (bytes_of (A ++ x)) IX); [intros x0 [<-|I]; [rewrite EQ0; left; reflexivity|auto]|rewrite EQ0, EX in *; apply (set_out_range _ _ _ _ (ct_set_part _ _ _ _ _ _ _ _ _ CT) XX)]|].
    split; [apply (G _ (bytes_of A) (bytes_of (A ++ x2)) IX'); [intros x0 [<-|I]; [rewrite EQ; left; reflexivity|auto]|rewrite EQ, EX' in *; apply (set_out_range _ _ _ _ (ct_set_part _ _ _ _ _ _ _ _ _ CT') XX')]|].
    split.
    + apply (G lb _ _ IB M4). pose proof (set_out_range _ _ _ _ (ct_set_after _ _ _ _ _ _ _ _ _ CT) XB) as SR. rewrite EX, <- !app_assoc in *. exact SR.
    + apply (G lb' _ _ IB' M5). pose proof (set_out_range _ _ _ _ (ct_set_after _ _ _ _ _ _ _ _ _ CT') XB') as SR. rewrite EX', <- !app_assoc in *. exact SR.
Qed.
Lemma replaced A x B p items tree k e u w v A2 x2 B2 p2 tree2 k2 u2 w2 v2 :
  reading (A ++ x ++ B) p items tree -> stands A x B tree k e u w v -> read (A2 ++ x2 ++ B2) p2 tree2 -> stands A2 x2 B2 tree2 k2 e u2 w2 v2 ->
  (exists A0 c, A = A0 ++ [c] /\ parting c) -> Forall (allowed k) w2 -> leaked w2 = leaked w ->
  exists p' tree' w' v' la i lx i' lx' lb lb', read (A ++ x2 ++ B) p' tree' /\ stands A x2 B tree' k e u w' v' /\ Forall2 same_form w2 w' /\
    reference tree items = la ++ (i :: lx) ++ lb /\ (forall eol, layout_of eol (A ++ x2 ++ B) p' (la ++ (i' :: lx') ++ lb')) /\
    e_white i' = e_white i /\ Forall2 alike lb lb' /\
    Forall (fun y => begins 0 (bytes_of A) y = true) la /\
    Forall (fun y => begins (bytes_of A) (bytes_of (A ++ x)) y = true) (i :: lx) /\
    Forall (fun y => begins (bytes_of A) (bytes_of (A ++ x2)) y = true) (i' :: lx') /\
    Forall (fun y => begins (bytes_of (A ++ x)) (bytes_of (A ++ x ++ B)) y = true) lb /\
    Forall (fun y => begins (bytes_of (A ++ x2)) (bytes_of (A ++ x2 ++ B)) y = true) lb'.
Proof.
  intros RD ST R2 ST2 PT AL LK. destruct (replaced_reading _ _ _ _ _ _ _ _ _ _ _ _ _ _ _ _ _ _ _ _ RD ST R2 ST2 PT AL LK) as (p' & items' & tree' & w' & v' & la & i & lx & i' & lx' & lb & lb' & RD' & H2 & H3 & H4 & H5 & H6).
  exists p', tree', w', v', la, i, lx, i', lx', lb, lb'. split; [split; [apply (rd_accepted _ _ _ _ RD')|apply (rd_tree _ _ _ _ RD')]|]. split; [exact H2|]. split; [exact H3|]. split; [exact H4|].
  split; [|exact H6]. intro eol. rewrite <- H5. apply (reading_reference eol _ _ _ _ RD').
Qed.

Theorem C100_replace : forall A x B p tree k e u w v A2 x2 B2 p2 tree2 k2 u2 w2 v2,
  read (A ++ x ++ B) p tree -> stands A x B tree k e u w v -> read (A2 ++ x2 ++ B2) p2 tree2 -> stands A2 x2 B2 tree2 k2 e u2 w2 v2 ->
  (exists A0 c, A = A0 ++ [c] /\ parting c) -> Forall (allowed k) w2 -> leaked w2 = leaked w ->
  exists p' tree' w' v' la i lx i' lx' lb lb', read (A ++ x2 ++ B) p' tree' /\ stands A x2 B tree' k e u w' v' /\ Forall2 same_form w2 w' /\
    (forall eol, layout_of eol (A ++ x ++ B) p (la ++ (i :: lx) ++ lb) /\ layout_of eol (A ++ x2 ++ B) p' (la ++ (i' :: lx') ++ lb')) /\
    e_white i' = e_white i /\ Forall2 alike lb lb' /\
    Forall (fun y => begins 0 (bytes_of A) y = true) la /\
    Forall (fun y => begins (bytes_of A) (bytes_of (A ++ x)) y = true) (i :: lx) /\
    Forall (fun y => begins (bytes_of A) (bytes_of (A ++ x2)) y = true) (i' :: lx') /\
    Forall (fun y => begins (bytes_of (A ++ x)) (bytes_of (A ++ x ++ B)) y = true) lb /\
    Forall (fun y => begins (bytes_of (A ++ x2)) (bytes_of (A ++ x2 ++ B)) y = true) lb'.
Proof.
  intros A x B p tree k e u w v A2 x2 B2 p2 tree2 k2 u2 w2 v2 R ST R2 ST2 PT AL LK. destruct (read_reading _ _ _ R) as (items & RD).
  destruct (replaced _ _ _ _ _ _ _ _ _ _ _ _ _ _ _ _ _ _ _ _ RD ST R2 ST2 PT AL LK) as (p' & tree' & w' & v' & la & i & lx & i' & lx' & lb & lb' & H1 & H2 & H3 & H4 & H5 & H6).
  exists p', tree', w', v', la, i, lx, i', lx', lb, lb'. split; [exact H1|]. split; [exact H2|]. split; [exact H3|]. split; [|exact H6].
  intro eol. split; [|apply H5]. rewrite <- H4. apply (reading_reference eol _ _ _ _ RD).
Qed.
Print Assumptions C100_replace.

(** The texts: what the formatter writes for the parts in front of and behind the entries does not depend on them. *)
Theorem C100_output : forall A x B p tree k e u w v, read (A ++ x ++ B) p tree -> stands A x B tree k e u w v -> (exists A0 c, A = A0 ++ [c] /\ parting c) ->
  exists l, (forall eol, layout_of eol (A ++ x ++ B) p l) /\
    forall A2 x2 B2 p2 tree2 k2 u2 w2 v2, read (A2 ++ x2 ++ B2) p2 tree2 -> stands A2 x2 B2 tree2 k2 e u2 w2 v2 -> Forall (allowed k) w2 -> leaked w2 = leaked w ->
      exists p', accepted (A ++ x2 ++ B) p' /\ forall eol, exists out,
        pretty_print eol p' = Ok (render eol (filter (begins 0 (bytes_of A)) l) ++ out ++ render eol (filter (begins (bytes_of (A ++ x)) (bytes_of (A ++ x ++ B))) l)).
Proof.
  intros A x B p tree k e u w v R ST PT. destruct (read_reading _ _ _ R) as (items & RD). exists (reference tree items). split; [intro eol; apply (reading_reference eol _ _ _ _ RD)|].
  intros A2 x2 B2 p2 tree2 k2 u2 w2 v2 R2 ST2 AL LK.
  destruct (replaced _ _ _ _ _ _ _ _ _ _ _ _ _ _ _ _ _ _ _ _ RD ST R2 ST2 PT AL LK) as (p' & tree' & w' & v' & la & i & lx & i' & lx' & lb & lb' & H1 & _ & _ & H4 & H5 & _ & AK & B1 & B2' & _ & B4 & _).
  exists p'. split; [apply H1|]. intro eol. exists (render eol (i' :: lx')). rewrite (lo_text _ _ _ _ (H5 eol)), H4.
  assert (forall a b l, Forall (fun y => begins a b y = true) l -> filter (begins a b) l = l) as FK.
  { intros a b l F. induction F as [|y l Y _ IH]; [reflexivity|]. cbn [filter]. rewrite Y, IH. reflexivity. }
  assert (forall a b a' b' l, Forall (fun y => begins a' b' y = true) l -> b <= a' \/ b' <= a -> filter (begins a b) l = []) as FN.
  { intros a b a' b' l F D. induction F as [|y l Y _ IH]; [reflexivity|]. cbn [filter]. destruct (begins a b y) eqn:E; [|exact IH]. exfalso. unfold begins in *. apply andb_true_iff in Y, E. rewrite N.leb_le, N.ltb_lt in *. lia. }
  assert (bytes_of A <= bytes_of (A ++ x)) as LE by (rewrite bytes_app; lia).
  rewrite !filter_app, (FK _ _ _ B1), (FK _ _ _ B4), (FN 0 (bytes_of A) _ _ _ B2'), (FN 0 (bytes_of A) _ _ _ B4), (FN (bytes_of (A ++ x)) _ _ _ _ B1), (FN (bytes_of (A ++ x)) _ _ _ _ B2'), app_nil_r by lia.
  f_equal. unfold render. rewrite !flat_map_app. cbn [flat_map app]. rewrite ?app_nil_r. f_equal. f_equal. clear - AK. induction AK as [|y y' l l' (W & T & _) _ IH]; [reflexivity|]. cbn [flat_map]. rewrite W, T, IH. reflexivity.
Qed.
Print Assumptions C100_output.

(** Non-vacuity: the equation [x = 1;] between two others gives way to two entries of an if-equation in another file. *)
Fixpoint nodes (k : skind) (c : child) : list child :=
  match c with
  | CTok _ => []
  | CTree q cs => (if skind_eqb q k then [c] else []) ++ flat_map (nodes k) cs
  end.
Lemma nodes_inside k c : forall d, In d (nodes k c) -> inside d c.
Proof.
  induction c as [t|q cs IH] using child_ind2; intros d I; [destruct I|]. cbn [nodes] in I. apply in_app_or in I as [I|I].
  - destruct (skind_eqb q k); [|destruct I]. destruct I as [<-|[]]. constructor.
  - apply in_flat_map in I as (c & IC & I). rewrite Forall_forall in IH. econstructor; [exact IC|]. apply IH; auto.
Qed.
Definition tree_of (s : text) : child :=
  match parse s KStoredDefinition with
  | Ok p => match build_tree (p_tokens p) (p_events p) with Ok t => t | _ => CTree KStoredDefinition [] end
  | _ => CTree KStoredDefinition [] end.
Definition kids_of (k : skind) (s : text) : list child := match nodes k (tree_of s) with CTree _ cs :: _ => cs | _ => [] end.
Ltac shown k := split; [apply (nodes_inside k); vm_compute; left; reflexivity|reflexivity| |].

Ltac placed w := exists (hd (mkTok 0 [] TEOF (mkPos 0 0 0) (mkPos 0 0 0)) (flat_map leaves w)), (removelast (List.tl (flat_map leaves w))), (last (flat_map leaves w) (mkTok 0 [] TEOF (mkPos 0 0 0) (mkPos 0 0 0)));
  split; [vm_compute; reflexivity|]; split; vm_compute; reflexivity.

Definition hole_a : text := lines ["model M"; "Real x; equation"; "y = 2; "]%string.
Definition hole_x : text := str "x = 1;".
Definition hole_b : text := lines [" // one"; ""; ""; "if a then"; "z = 3; end if; end M;"]%string.
Definition other_a : text := lines ["model N equation if c then a = 1;"]%string.
Definition other_x : text := lines ["p = f(q, // all"; "r);"; ""; "connect(g, h);"]%string.
Definition other_b : text := lines [" end if; end N;"]%string.
Definition hole_u := firstn 3 (kids_of KEquationSection (hole_a ++ hole_x ++ hole_b)).
Definition hole_w := firstn 2 (skipn 3 (kids_of KEquationSection (hole_a ++ hole_x ++ hole_b))).
Definition hole_v := skipn 5 (kids_of KEquationSection (hole_a ++ hole_x ++ hole_b)).
Definition other_u := firstn 5 (kids_of KIfEquation (other_a ++ other_x ++ other_b)).
Definition other_w := firstn 4 (skipn 5 (kids_of KIfEquation (other_a ++ other_x ++ other_b))).
Definition other_v := skipn 9 (kids_of KIfEquation (other_a ++ other_x ++ other_b)).
Definition parsed_of (s : text) : parsed := match parse s KStoredDefinition with Ok p => p | _ => mkParsed [] [] [] [] end.
Example C100_applies :
  read (hole_a ++ hole_x ++ hole_b) (parsed_of (hole_a ++ hole_x ++ hole_b)) (tree_of (hole_a ++ hole_x ++ hole_b)) /\
  stands hole_a hole_x hole_b (tree_of (hole_a ++ hole_x ++ hole_b)) KEquationSection KEquation hole_u hole_w hole_v /\
  read (other_a ++ other_x ++ other_b) (parsed_of (other_a ++ other_x ++ other_b)) (tree_of (other_a ++ other_x ++ other_b)) /\
  stands other_a other_x other_b (tree_of (other_a ++ other_x ++ other_b)) KIfEquation KEquation other_u other_w other_v /\
  (exists A0 c, hole_a = A0 ++ [c] /\ parting c) /\ Forall (allowed KEquationSection) other_w /\ leaked other_w = leaked hole_w.
Proof.
  split; [split; [split|]; vm_compute; reflexivity|]. split.
  { shown KEquationSection.
    - vm_compute. apply entries_one. reflexivity.
    - placed hole_w. }
  split; [split; [split|]; vm_compute; reflexivity|]. split.
  { shown KIfEquation.
    - vm_compute. apply entries_more; [reflexivity|]. apply entries_one. reflexivity.
    - placed other_w. }
  split; [exists (removelast hole_a), 32; split; [vm_compute; reflexivity|left; vm_compute; tauto]|]. split; [|vm_compute; reflexivity].
  vm_compute. repeat constructor; intuition discriminate.
Qed.
Example C100_shown :
  formats (hole_a ++ hole_x ++ hole_b) (lines ["model M"; ""; "  Real x;"; ""; "equation"; ""; "  y = 2;"; "  x = 1; // one"; ""; "  if a then"; "    z = 3;"; "  end if;"; ""; "end M;"]%string) /\
  formats (hole_a ++ other_x ++ hole_b) (lines ["model M"; ""; "  Real x;"; ""; "equation"; ""; "  y = 2;"; "  p = f("; "    q, // all"; "    r);"; ""; "  connect(g, h); // one"; ""; "  if a then"; "    z = 3;"; "  end if;"; ""; "end M;"]%string).
Proof. split; formatted. Qed.
(** An entry with a wrapped left-hand side moves the rest. *)
Example C100_leak :
  formats (lines ["model M equation x = 1; y = 2; end M;"]%string) (lines ["model M"; ""; "equation"; ""; "  x = 1;"; "  y = 2;"; ""; "end M;"]%string) /\
  formats (lines ["model M equation a"; "+ b = 1; y = 2; end M;"]%string) (lines ["model M"; ""; "equation"; ""; "  a"; "    + b = 1;"; "    y = 2;"; ""; "  end M;"]%string).
Proof. split; formatted. Qed.
(** Without white space in front, other entries may run into the words before. *)
Example C100_parting :
  (exists p, accepted (str "model M equation" ++ str "(a, b) = f(x);" ++ str " end M;") p) /\ (exists p, accepted (str "model M equation " ++ str "x = 1;" ++ str " end M;") p) /\
  ~ exists p, accepted (str "model M equation" ++ str "x = 1;" ++ str " end M;") p.
Proof.
  split; [eexists; split; vm_compute; reflexivity|]. split; [eexists; split; vm_compute; reflexivity|]. intros (p & A & B). revert B. vm_compute in A. injection A as <-. discriminate.
Qed.
