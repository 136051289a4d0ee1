(** Property C101: more entries behind an entry. *)
From Verif Require LexSpecProofs.
From Verif Require Import ProofBase Tokens Syntax Lexer SpecLex LexInv LexMain LexFacts ParserCore Grammar
  Tree Printer Formatter Lib ParserSem ParserFuel SpecGrammar Regex ParserGrammar ParserTree ParserFacts Recognise PropsParser
  SpecLanguage Looks ParserComplete PropsLanguage
  FmtAbs FmtPlan FmtShape FmtTables FmtSound SpecLayout FmtExec FmtTop FmtFacts FmtRelex FmtNeat SpecNodes FmtTree FmtLists FmtOps
  FmtWrap SpecGaps SpecReference FmtNode FmtReference FmtSame PropsFormat PropsReference FmtBreaks FmtAgree FmtPrinted FmtStable FmtMoved
  FmtConcat SpecLevels FmtLevels SpecLocal FmtLocal SpecEdit LexSplice FmtEdit FmtSplice FmtGrow PropsEdit.

(** ** C101 *)
Lemma plug_inside F c : inside c (plug F c).
Proof. induction F as [|[[q a] b] F IH]; [constructor|]. cbn [plug fold_right fst snd]. econstructor; [|exact IH]. apply in_or_app. right. left. reflexivity. Qed.
Lemma cut_stands s A y B IA a mid b IB tree k e u w v : cut s A y B IA a mid b IB -> inside (CTree k (u ++ w ++ v)) tree -> entry_kind k = Some e -> entries e w ->
  plain a = true -> plain b = true -> filter plain (a :: mid ++ [b]) = flat_map toks w -> stands A (y ++ ttext b) B tree k e u w v.
Proof.
  intros CT IN EK EN PA PB EP. split; [exact IN|exact EK|exact EN|]. exists a, (filter plain mid), b. cbn [filter] in EP. rewrite PA, filter_app in EP. cbn [filter] in EP. rewrite PB in EP.
  split; [rewrite <- toks_yield; symmetry; exact EP|]. split; [apply (proj2 (ct_first _ _ _ _ _ _ _ _ _ CT))|apply (proj2 (ct_last _ _ _ _ _ _ _ _ _ CT))].
Qed.
Lemma begins_all (l : list entry) a b (I : list token) : (forall x, In x l -> In (e_tok x) I) -> (forall t, In t I -> a <= pos (tstart t) /\ pos (tstart t) < b) -> Forall (fun y => begins a b y = true) l.
Proof. intros H1 H2. apply Forall_forall. intros x J. apply H1, H2 in J as [I1 I2]. unfold begins. apply andb_true_iff. rewrite N.leb_le, N.ltb_lt. auto. Qed.

Lemma allowed_prune k c : allowed k (prune c) <-> allowed k c.
Proof. unfold allowed. destruct c as [t|q ds]; [tauto|]. pose proof (leaves_prune (CTree q ds)) as LP. rewrite prune_tree in *. rewrite LP. tauto. Qed.
Lemma allowed_prunes k l : Forall (allowed k) (map prune l) <-> Forall (allowed k) l.
Proof. induction l as [|c l IH]; cbn [map]; [split; constructor|]. rewrite !Forall_cons_iff, IH, allowed_prune. tauto. Qed.
Lemma inserted_reading A x B p items tree k e u w v g A2 x2 B2 p2 tree2 k2 u2 w2 v2 :
  reading (A ++ x ++ B) p items tree -> stands A x B tree k e u w v -> read (A2 ++ x2 ++ B2) p2 tree2 -> stands A2 x2 B2 tree2 k2 e u2 w2 v2 ->
  Forall space g -> Forall (allowed k) w2 -> leaked w2 = 0%nat ->
  exists p' items' tree' wc v' la lx lb lb', reading (A ++ x ++ g ++ x2 ++ B) p' items' tree' /\ stands (A ++ x ++ g) x2 B tree' k e (u ++ w) wc v' /\ Forall2 same_form w2 wc /\
    reference tree items = la ++ lb /\ reference tree' items' = la ++ lx ++ lb' /\
    Forall2 alike lb lb' /\
    Forall (fun y => begins 0 (bytes_of (A ++ x)) y = true) la /\
    Forall (fun y => begins (bytes_of (A ++ x ++ g)) (bytes_of (A ++ x ++ g ++ x2)) y = true) lx /\
    Forall (fun y => begins (bytes_of (A ++ x)) (bytes_of (A ++ x ++ B)) y = true) lb /\
    Forall (fun y => begins (bytes_of (A ++ x ++ g ++ x2)) (bytes_of (A ++ x ++ g ++ x2 ++ B)) y = true) lb'.
Proof.
  intros RD ST R2 ST2 G AL LK. destruct (read_reading _ _ _ R2) as (items2 & RD2).
  pose proof (st_kind _ _ _ _ _ _ _ _ _ ST) as EK.
  destruct (stands_phrase _ _ _ _ _ _ _ _ _ _ _ _ RD2 eq_refl ST2) as (y2 & a2 & mid2 & b2 & rw2 & IA2 & IB2 & PH & EX2 & EW2 & CT2 & EI2 & _).
  assert (Forall (allowed k) rw2) as AW2 by (apply allowed_prunes; rewrite EW2; exact AL).
  destruct (grow _ _ _ _ _ _ _ _ _ _ _ _ g _ _ _ _ _ RD eq_refl ST PH G AW2)
    as (p' & items' & tree' & F & F' & wc & v' & IA & IB & IB' & a & mid & b & a' & mid' & b' & y & RD' & ET & ET' & EI & EI' & BW & TC & FW & ED & EX & CT & TZ & CT' & MH & MZ).
  rewrite <- EX2 in *.
  assert (Forall2 (shifted_by (newlines A2) (newlines (A ++ x ++ g))) (flat_map toks w2) (flat_map toks wc)) as SHW.
  { rewrite <- TC, <- EW2, (toks_yield (map prune rw2)), prune_yield, <- (ph_part _ _ _ _ _ _ PH). apply forall2_filter; [intros t t' (_ & K & _); unfold plain; rewrite K; reflexivity|].
    pose proof (ct_set_part _ _ _ _ _ _ _ _ _ CT') as SP. rewrite TZ in SP.
    pose proof (items_lexemes _ _ (rd_lexes _ _ _ _ RD2)) as XL2. rewrite EI2 in XL2. apply Forall_app in XL2 as [_ XL2]. apply Forall_app in XL2 as [XX2 _].
    apply (set_out_shifted_first _ _ _ _ _ _ _ _ _ (ct_set_part _ _ _ _ _ _ _ _ _ CT2) SP); [|exact XX2|].
    - change (a' :: mid' ++ [b']) with ((a' :: mid') ++ [b']). change (a2 :: mid2 ++ [b2]) with ((a2 :: mid2) ++ [b2]). rewrite !map_app, MH. cbn [map]. rewrite MZ. reflexivity.
    - apply (entry_heads e rw2) with (r := filter plain (mid2 ++ [b2])); [apply (ph_entries _ _ _ _ _ _ PH)|exists k; exact EK|apply (ph_trees _ _ _ _ _ _ PH)|].
      rewrite <- (ph_part _ _ _ _ _ _ PH). cbn [filter]. rewrite (proj1 (ph_plain _ _ _ _ _ _ PH)). reflexivity. }
  assert (leak_in k wc = 0%nat) as LW.
  { transitivity (leak_in k w2); [|rewrite (leaked_in k e) by exact EK; exact LK]. apply (leak_shifted (newlines A2) (newlines (A ++ x ++ g))); [congruence|exact SHW|apply (stands_fits _ _ _ _ _ _ _ _ _ _ _ _ RD2 ST2)|exact FW]. }
  specialize (ED LW). replace (y2 ++ ttext b2) with x2 in ED. destruct ED as [D1 D2 D3 D4 D5 D6 D7 D8 D9 D10 D11 D12 D13 D14 D15 D16 D17 D18 D19 D20 D21 D22 D23 D24].
  assert (entries e wc) as EC. { apply (entries_moved_shape e (map prune rw2)); [congruence|apply (ph_entries _ _ _ _ _ _ PH)]. }
  assert (plain b = true /\ plain b' = true /\ plain a' = true) as (PB & PB' & PA').
  { split; [apply D19|]. split; [apply D20|]. assert (tkind_of a' = tkind_of a2) as K by (cbn [map] in MH; assert (item_of a' = item_of a2) as E by congruence; unfold item_of in E; congruence).
    unfold plain. rewrite K. apply (ph_plain _ _ _ _ _ _ PH). }
  assert (newlines (A ++ x) <= newlines (A ++ x ++ g ++ x2)) as LE by (rewrite (app_assoc A x), (newlines_app (A ++ x)); lia).
  assert (Forall2 (frame_moved same_text (newlines (A ++ x ++ g ++ x2) - newlines (A ++ x))) F F') as FM.
  { apply frames_moved; auto. apply shifted_moved; auto. }
  assert (Forall2 (tree_moved same_text (newlines (A ++ x ++ g ++ x2) - newlines (A ++ x))) v v') as VM by (apply shapes_moved; auto; apply shifted_moved; auto).
  assert (Forall2 (moved same_text (newlines (A ++ x ++ g ++ x2) - newlines (A ++ x))) IB IB') as BM by (apply shifted_moved; auto).
  destruct (insert_layout (newlines (A ++ x ++ g ++ x2) - newlines (A ++ x)) F F' k e u w wc v v' (IA ++ a :: mid) b (a' :: mid') b' IB IB') as (la & lx & lb & lb' & E1 & E2 & AK & M1 & M2 & M3 & M4); auto.
  { rewrite <- app_assoc. exact D6. }
  { rewrite <- app_assoc, D13, <- !app_assoc. cbn [app]. rewrite <- app_assoc. reflexivity. }
  { rewrite <- app_assoc, (app_assoc w), D14, <- !app_assoc. cbn [app]. rewrite <- ?app_assoc. cbn [app]. rewrite <- ?app_assoc. reflexivity. }
  { revert D16. match goal with |- NoDup ?l -> NoDup ?l' => replace l' with l; [auto|] end. rewrite <- !app_assoc. cbn [app]. rewrite <- ?app_assoc. cbn [app]. rewrite <- ?app_assoc. reflexivity. }
  { lia. }
  rewrite <- !(app_assoc u), <- !app_assoc in E1, E2. cbn [app] in E1, E2. rewrite <- ?app_assoc in E1, E2.
  replace (plug F (CTree k (u ++ w ++ v))) with tree in E1. replace (plug F' (CTree k (u ++ w ++ wc ++ v'))) with tree' in E2 by (rewrite ET', <- (app_assoc w); reflexivity).
  match type of E1 with reference _ ?l = _ => replace l with items in E1 by (rewrite EI; cbn [app]; rewrite <- ?app_assoc; reflexivity) end.
  match type of E2 with reference _ ?l = _ => replace l with items' in E2 by (rewrite EI'; cbn [app]; rewrite <- ?app_assoc; cbn [app]; rewrite <- ?app_assoc; reflexivity) end.
  exists p', items', tree', wc, v', la, lx, lb, lb'.
  pose proof (items_lexemes _ _ (rd_lexes _ _ _ _ RD)) as XL. rewrite EI in XL. apply Forall_app in XL as [XA XL]. apply Forall_app in XL as [XX XB].
  pose proof (items_lexemes _ _ (rd_lexes _ _ _ _ RD')) as XL'. rewrite EI' in XL'. apply Forall_app in XL' as [_ XL']. apply Forall_app in XL' as [_ XL']. apply Forall_app in XL' as [XX' XB'].
  split; [exact RD'|].
  split. { rewrite EX2, <- TZ. apply (cut_stands _ _ _ _ _ _ _ _ _ _ _ _ _ _ _ CT'); auto. rewrite ET', <- !app_assoc. apply plug_inside. }
  split; [apply (shapes_form (newlines A2) (newlines (A ++ x ++ g))); [congruence|exact SHW]|].
  split; [exact E1|]. split; [exact E2|].
  split. { revert AK. apply forall2_imp. intros z z' (W & _ & T & K & _). split; [exact W|]. split; [symmetry; exact T|exact K]. }
  split. { apply (begins_all la _ _ _ M1). intros t I. rewrite <- app_assoc in I. apply in_app_or in I as [I|I].
    - destruct (set_out_range _ _ _ _ (ct_set _ _ _ _ _ _ _ _ _ CT) XA t I) as [_ L]. change (@nil N ++ A) with A in L. rewrite bytes_app. split; lia.
    - destruct (set_out_range _ _ _ _ (ct_set_part _ _ _ _ _ _ _ _ _ CT) XX t I). rewrite EX. split; [lia|assumption]. }
  pose proof (ct_set_part _ _ _ _ _ _ _ _ _ CT') as SP. pose proof (ct_set_after _ _ _ _ _ _ _ _ _ CT') as SA. rewrite TZ, <- EX2 in SP, SA.
  split. { apply (begins_all lx _ _ _ M2). intros t I. pose proof (set_out_range _ _ _ _ SP XX' t I) as R. rewrite <- !app_assoc in R. exact R. }
  split. { apply (begins_all lb _ _ _ M3). pose proof (set_out_range _ _ _ _ (ct_set_after _ _ _ _ _ _ _ _ _ CT) XB) as R. rewrite EX, <- !app_assoc in *. exact R. }
  apply (begins_all lb' _ _ _ M4). pose proof (set_out_range _ _ _ _ SA XB') as R. rewrite <- !app_assoc in R. exact R.
Qed.
Lemma inserted A x B p items tree k e u w v g A2 x2 B2 p2 tree2 k2 u2 w2 v2 :
  reading (A ++ x ++ B) p items tree -> stands A x B tree k e u w v -> read (A2 ++ x2 ++ B2) p2 tree2 -> stands A2 x2 B2 tree2 k2 e u2 w2 v2 ->
  Forall space g -> Forall (allowed k) w2 -> leaked w2 = 0%nat ->
  exists p' tree' wc v' la lx lb lb', read (A ++ x ++ g ++ x2 ++ B) p' tree' /\ stands (A ++ x ++ g) x2 B tree' k e (u ++ w) wc v' /\ Forall2 same_form w2 wc /\
    reference tree items = la ++ lb /\ (forall eol, layout_of eol (A ++ x ++ g ++ x2 ++ B) p' (la ++ lx ++ lb')) /\
    Forall2 alike lb lb' /\
    Forall (fun y => begins 0 (bytes_of (A ++ x)) y = true) la /\
    Forall (fun y => begins (bytes_of (A ++ x ++ g)) (bytes_of (A ++ x ++ g ++ x2)) y = true) lx /\
    Forall (fun y => begins (bytes_of (A ++ x)) (bytes_of (A ++ x ++ B)) y = true) lb /\
    Forall (fun y => begins (bytes_of (A ++ x ++ g ++ x2)) (bytes_of (A ++ x ++ g ++ x2 ++ B)) y = true) lb'.
Proof.
  intros RD ST R2 ST2 G AL LK.
  destruct (inserted_reading _ _ _ _ _ _ _ _ _ _ _ _ _ _ _ _ _ _ _ _ _ RD ST R2 ST2 G AL LK) as (p' & items' & tree' & wc & v' & la & lx & lb & lb' & RD' & H2 & H3 & H4 & H5 & H6).
  exists p', tree', wc, v', la, lx, lb, lb'. split; [split; [apply (rd_accepted _ _ _ _ RD')|apply (rd_tree _ _ _ _ RD')]|]. split; [exact H2|]. split; [exact H3|]. split; [exact H4|].
  split; [intro eol; rewrite <- H5; apply (reading_reference eol _ _ _ _ RD')|exact H6].
Qed.

Theorem C101_insert : forall A x B p tree k e u w v g A2 x2 B2 p2 tree2 k2 u2 w2 v2,
  read (A ++ x ++ B) p tree -> stands A x B tree k e u w v -> read (A2 ++ x2 ++ B2) p2 tree2 -> stands A2 x2 B2 tree2 k2 e u2 w2 v2 ->
  Forall space g -> Forall (allowed k) w2 -> leaked w2 = 0%nat ->
  exists p' tree' wc v' la lx lb lb', read (A ++ x ++ g ++ x2 ++ B) p' tree' /\ stands (A ++ x ++ g) x2 B tree' k e (u ++ w) wc v' /\ Forall2 same_form w2 wc /\
    (forall eol, layout_of eol (A ++ x ++ B) p (la ++ lb) /\ layout_of eol (A ++ x ++ g ++ x2 ++ B) p' (la ++ lx ++ lb')) /\
    Forall2 alike lb lb' /\
    Forall (fun y => begins 0 (bytes_of (A ++ x)) y = true) la /\
    Forall (fun y => begins (bytes_of (A ++ x ++ g)) (bytes_of (A ++ x ++ g ++ x2)) y = true) lx /\
    Forall (fun y => begins (bytes_of (A ++ x)) (bytes_of (A ++ x ++ B)) y = true) lb /\
    Forall (fun y => begins (bytes_of (A ++ x ++ g ++ x2)) (bytes_of (A ++ x ++ g ++ x2 ++ B)) y = true) lb'.
Proof.
  intros A x B p tree k e u w v g A2 x2 B2 p2 tree2 k2 u2 w2 v2 R ST R2 ST2 G AL LK. destruct (read_reading _ _ _ R) as (items & RD).
  destruct (inserted _ _ _ _ _ _ _ _ _ _ _ _ _ _ _ _ _ _ _ _ _ RD ST R2 ST2 G AL LK) as (p' & tree' & wc & v' & la & lx & lb & lb' & H1 & H2 & H3 & H4 & H5 & H6).
  exists p', tree', wc, v', la, lx, lb, lb'. split; [exact H1|]. split; [exact H2|]. split; [exact H3|]. split; [|exact H6].
  intro eol. split; [|apply H5]. rewrite <- H4. apply (reading_reference eol _ _ _ _ RD).
Qed.
Print Assumptions C101_insert.

(** The texts: the output with the entries is the output without them with one more piece between the two parts. *)
Theorem C101_output : forall A x B p tree k e u w v, read (A ++ x ++ B) p tree -> stands A x B tree k e u w v ->
  exists l, (forall eol, layout_of eol (A ++ x ++ B) p l) /\
    forall g A2 x2 B2 p2 tree2 k2 u2 w2 v2, read (A2 ++ x2 ++ B2) p2 tree2 -> stands A2 x2 B2 tree2 k2 e u2 w2 v2 -> Forall space g -> Forall (allowed k) w2 -> leaked w2 = 0%nat ->
      exists p', accepted (A ++ x ++ g ++ x2 ++ B) p' /\ forall eol, exists out,
        pretty_print eol p' = Ok (render eol (filter (begins 0 (bytes_of (A ++ x))) l) ++ out ++ render eol (filter (begins (bytes_of (A ++ x)) (bytes_of (A ++ x ++ B))) l)).
Proof.
  intros A x B p tree k e u w v R ST. destruct (read_reading _ _ _ R) as (items & RD). exists (reference tree items). split; [intro eol; apply (reading_reference eol _ _ _ _ RD)|].
  intros g A2 x2 B2 p2 tree2 k2 u2 w2 v2 R2 ST2 G AL LK.
  destruct (inserted _ _ _ _ _ _ _ _ _ _ _ _ _ _ _ _ _ _ _ _ _ RD ST R2 ST2 G AL LK) as (p' & tree' & wc & v' & la & lx & lb & lb' & H1 & _ & _ & H4 & H5 & AK & B1 & _ & B3 & _).
  exists p'. split; [apply H1|]. intro eol. exists (render eol lx). rewrite (lo_text _ _ _ _ (H5 eol)), H4.
  assert (forall a b l, Forall (fun y => begins a b y = true) l -> filter (begins a b) l = l) as FK.
  { intros a b l F. induction F as [|y l Y _ IH]; [reflexivity|]. cbn [filter]. rewrite Y, IH. reflexivity. }
  assert (forall a b a' b' l, Forall (fun y => begins a' b' y = true) l -> b <= a' \/ b' <= a -> filter (begins a b) l = []) as FN.
  { intros a b a' b' l F D. induction F as [|y l Y _ IH]; [reflexivity|]. cbn [filter]. destruct (begins a b y) eqn:E; [|exact IH]. exfalso. unfold begins in *. apply andb_true_iff in Y, E. rewrite N.leb_le, N.ltb_lt in *. lia. }
  rewrite !filter_app, (FK _ _ _ B1), (FK _ _ _ B3), (FN 0 (bytes_of (A ++ x)) _ _ _ B3), (FN (bytes_of (A ++ x)) _ _ _ _ B1), app_nil_r by lia.
  f_equal. unfold render. rewrite !flat_map_app. cbn [flat_map app]. rewrite ?app_nil_r. f_equal. f_equal. clear - AK. induction AK as [|y y' l l' (W & T & _) _ IH]; [reflexivity|]. cbn [flat_map]. rewrite W, T, IH. reflexivity.
Qed.
Print Assumptions C101_output.

(** The other way round: entries taken out. *)
Lemma stands_join A x g x2 B tree k e u w wc v : stands A x (g ++ x2 ++ B) tree k e u w (wc ++ v) -> stands (A ++ x ++ g) x2 B tree k e (u ++ w) wc v ->
  stands A (x ++ g ++ x2) B tree k e u (w ++ wc) v.
Proof.
  intros [I1 K1 E1 (a & ts & b & L1 & P1 & P2)] [I2 K2 E2 (a' & ts' & b' & L2 & P3 & P4)]. split; [rewrite <- app_assoc; exact I1|exact K1|apply entries_app; auto|].
  exists a, (ts ++ b :: a' :: ts'), b'. split; [|split; [exact P1|rewrite P4, <- !app_assoc; reflexivity]]. rewrite flat_map_app, L1, L2. cbn [app]. rewrite <- !app_assoc. reflexivity.
Qed.
Theorem C101_delete : forall A x g x2 B p' tree' k e u w wc v',
  read (A ++ x ++ g ++ x2 ++ B) p' tree' -> stands A x (g ++ x2 ++ B) tree' k e u w (wc ++ v') -> stands (A ++ x ++ g) x2 B tree' k e (u ++ w) wc v' ->
  Forall space g -> leaked wc = 0%nat ->
  exists p tree v la lx lb lb', read (A ++ x ++ B) p tree /\ stands A x B tree k e u w v /\
    (forall eol, layout_of eol (A ++ x ++ B) p (la ++ lb) /\ layout_of eol (A ++ x ++ g ++ x2 ++ B) p' (la ++ lx ++ lb')) /\
    Forall2 alike lb lb' /\
    Forall (fun y => begins 0 (bytes_of (A ++ x)) y = true) la /\
    Forall (fun y => begins (bytes_of (A ++ x ++ g)) (bytes_of (A ++ x ++ g ++ x2)) y = true) lx /\
    Forall (fun y => begins (bytes_of (A ++ x)) (bytes_of (A ++ x ++ B)) y = true) lb /\
    Forall (fun y => begins (bytes_of (A ++ x ++ g ++ x2)) (bytes_of (A ++ x ++ g ++ x2 ++ B)) y = true) lb'.
Proof.
  intros A x g x2 B p' tree' k e u w wc v' R ST1 ST2 G LK. destruct (read_reading _ _ _ R) as (items' & RD').
  pose proof (stands_join _ _ _ _ _ _ _ _ _ _ _ _ ST1 ST2) as ST. pose proof (st_kind _ _ _ _ _ _ _ _ _ ST) as EK.
  destruct (stands_phrase _ _ _ _ _ _ _ _ _ _ _ _ RD' eq_refl ST1) as (y & a1 & mid1 & b1 & rw1 & IA1 & IB1 & PH & EX1 & EW1 & CT1 & EI1 & AW1).
  assert (A ++ x ++ g ++ x2 ++ B = A ++ (x ++ g ++ x2) ++ B) as ES by (rewrite <- !app_assoc; reflexivity).
  assert (forall i, walks A i ((x ++ g ++ x2) ++ B) -> walks A i ((y ++ ttext b1) ++ B)) as PT.
  { intros i W. assert (x <> []) as NX by (destruct (ph_starts _ _ _ _ _ _ PH) as (c & r & E & _); rewrite EX1, E; discriminate). rewrite <- EX1. rewrite <- !app_assoc in W. apply walks_less in W; [|exact NX]. apply walks_more; auto. }
  destruct (paste_core _ _ _ _ _ _ _ _ _ _ _ _ _ _ _ _ _ RD' ES ST PH PT AW1)
    as (p & items & tree & F & F' & w0 & v & IA & IX & IX' & IB & IB' & t0 & mid & z & t0' & mid' & z' & y' & RD & ET & ET' & EI & EI' & BW & ED & EQ & EQ' & TX & TX' & FW & (P0 & _) & EX & CT & TZ & CT' & MH & MZ).
  rewrite <- EX1 in *.
  assert (tkind_of t0' = tkind_of a1 /\ tkind_of z' = tkind_of b1) as [KA KB].
  { cbn [map] in MH. assert (item_of t0' = item_of a1) as MH0 by congruence. unfold item_of in MZ, MH0. split; congruence. }
  assert (stands A x B tree k e u w0 v) as ST0.
  { rewrite EX1, <- TZ. rewrite EQ' in TX'. apply (cut_stands _ _ _ _ _ _ _ _ _ _ _ _ _ _ _ CT'); auto; [rewrite ET'; apply plug_inside| | |].
    - apply (entries_moved_shape e w); [congruence|apply (st_entries _ _ _ _ _ _ _ _ _ ST1)].
    - unfold plain. rewrite KA. apply (ph_plain _ _ _ _ _ _ PH).
    - unfold plain. rewrite KB. apply (ph_plain _ _ _ _ _ _ PH). }
  assert (w0 = w) as ->.
  { apply shapes_eq; [congruence|]. rewrite <- TX', EQ', <- EW1, (toks_yield (map prune rw1)), prune_yield, <- (ph_part _ _ _ _ _ _ PH).
    assert (IA1 = IA) as ->.
    { assert (a1 = t0) as ->.
      { pose proof (ph_part _ _ _ _ _ _ PH) as P1. cbn [filter] in P1. rewrite (proj1 (ph_plain _ _ _ _ _ _ PH)) in P1. rewrite EQ in TX. cbn [filter] in TX. rewrite P0, flat_map_app, (toks_yield w), <- EW1, prune_yield, <- P1 in TX. cbn [app] in TX. congruence. }
      pose proof (laid_nodup _ _ _ (rd_laid _ _ _ _ RD')) as ND. rewrite EI1 in ND. rewrite EI1, EQ in EI. cbn [app] in EI, ND. apply nodup_split in EI as [-> _]; [reflexivity|exact ND]. }
    pose proof (ct_set_part _ _ _ _ _ _ _ _ _ CT') as S1. rewrite TZ in S1. f_equal. symmetry. apply (set_out_unique _ _ _ _ (ct_set_part _ _ _ _ _ _ _ _ _ CT1) _ S1).
    - change (t0' :: mid' ++ [z']) with ((t0' :: mid') ++ [z']). change (a1 :: mid1 ++ [b1]) with ((a1 :: mid1) ++ [b1]). rewrite !map_app, MH. cbn [map]. rewrite MZ. reflexivity.
    - pose proof (items_lexemes _ _ (rd_lexes _ _ _ _ RD')) as XL. rewrite EI1 in XL. apply Forall_app in XL as [_ XL]. apply Forall_app in XL. apply XL. }
  assert (A ++ x ++ g ++ x2 ++ B = (A ++ x ++ g) ++ x2 ++ B) as ES2 by (rewrite <- !app_assoc; reflexivity).
  assert (Forall (allowed k) wc) as AL.
  { destruct (stands_phrase _ _ _ _ _ _ _ _ _ _ _ _ RD' ES2 ST2) as (? & ? & ? & ? & rw2 & ? & ? & _ & _ & EW2 & _ & _ & AW2). rewrite <- EW2. apply allowed_prunes, AW2. }
  assert (read ((A ++ x ++ g) ++ x2 ++ B) p' tree') as R2 by (rewrite <- ES2; exact R).
  destruct (inserted _ _ _ _ _ _ _ _ _ _ _ g _ _ _ _ _ _ _ _ _ RD ST0 R2 ST2 G AL LK) as (p2 & tree2 & wc2 & v2 & la & lx & lb & lb' & H1 & _ & _ & H4 & H5 & H6).
  assert (p2 = p') as ->. { destruct H1 as [[H1 _] _]. destruct R as [[R _] _]. congruence. }
  exists p, tree, v, la, lx, lb, lb'. split; [split; [apply (rd_accepted _ _ _ _ RD)|apply (rd_tree _ _ _ _ RD)]|]. split; [exact ST0|].
  split; [|exact H6]. intro eol. split; [rewrite <- H4; apply (reading_reference eol _ _ _ _ RD)|apply H5].
Qed.
Print Assumptions C101_delete.

(** Non-vacuity: two entries of an if-equation in another file behind the equation [x = 1;], and out again. *)
Definition more_g : text := lines [" "; ""; ""; " "]%string.
Definition more_s : text := hole_a ++ hole_x ++ more_g ++ other_x ++ hole_b.
Definition more_kids := kids_of KEquationSection more_s.
Example C101_applies : Forall space more_g /\ Forall (allowed KEquationSection) other_w /\ leaked other_w = 0%nat /\
  read more_s (parsed_of more_s) (tree_of more_s) /\
  stands hole_a hole_x (more_g ++ other_x ++ hole_b) (tree_of more_s) KEquationSection KEquation (firstn 3 more_kids) (firstn 2 (skipn 3 more_kids)) (firstn 4 (skipn 5 more_kids) ++ skipn 9 more_kids) /\
  stands (hole_a ++ hole_x ++ more_g) other_x hole_b (tree_of more_s) KEquationSection KEquation (firstn 3 more_kids ++ firstn 2 (skipn 3 more_kids)) (firstn 4 (skipn 5 more_kids)) (skipn 9 more_kids) /\
  leaked (firstn 4 (skipn 5 more_kids)) = 0%nat.
Proof.
  split; [vm_compute; repeat constructor; tauto|]. split; [vm_compute; repeat constructor; intuition discriminate|]. split; [vm_compute; reflexivity|].
  split; [split; [split|]; vm_compute; reflexivity|]. split.
  { shown KEquationSection.
    - vm_compute. apply entries_one. reflexivity.
    - placed (firstn 2 (skipn 3 more_kids)). }
  split; [|vm_compute; reflexivity].
  shown KEquationSection.
  - vm_compute. apply entries_more; [reflexivity|]. apply entries_one. reflexivity.
  - placed (firstn 4 (skipn 5 more_kids)).
Qed.
Example C101_shown :
  formats (hole_a ++ hole_x ++ hole_b) (lines ["model M"; ""; "  Real x;"; ""; "equation"; ""; "  y = 2;"; "  x = 1; // one"; ""; "  if a then"; "    z = 3;"; "  end if;"; ""; "end M;"]%string) /\
  formats more_s (lines ["model M"; ""; "  Real x;"; ""; "equation"; ""; "  y = 2;"; "  x = 1;"; ""; "  p = f("; "    q, // all"; "    r);"; ""; "  connect(g, h); // one"; ""; "  if a then"; "    z = 3;"; "  end if;"; ""; "end M;"]%string).
Proof. split; formatted. Qed.
(** A wrapped left-hand side in the new entry moves the rest of the file. *)
Example C101_leak :
  formats (lines ["model M equation x = 1;"; "y = 2; end M;"]%string) (lines ["model M"; ""; "equation"; ""; "  x = 1;"; "  y = 2;"; ""; "end M;"]%string) /\
  formats (lines ["model M equation x = 1; a"; "+ b = 1;"; "y = 2; end M;"]%string) (lines ["model M"; ""; "equation"; ""; "  x = 1;"; "  a"; "    + b = 1;"; "    y = 2;"; ""; "  end M;"]%string).
Proof. split; formatted. Qed.
