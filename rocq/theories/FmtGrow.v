(** More entries behind an entry: the text, its items and its tree (C101). *)
From Verif Require LexSpecProofs.
From Verif Require Import ProofBase Tokens Syntax Lexer SpecLex LexInv LexMain LexFacts ParserCore Grammar
  Tree Printer Formatter Lib ParserSem ParserFuel SpecGrammar Regex ParserGrammar ParserTree ParserFacts Recognise PropsParser
  SpecLanguage Looks ParserComplete PropsLanguage
  FmtAbs FmtPlan FmtShape FmtTables FmtSound SpecLayout FmtExec FmtTop FmtFacts FmtRelex FmtNeat SpecNodes FmtTree FmtLists FmtOps
  FmtWrap SpecGaps SpecReference FmtNode FmtReference FmtSame PropsFormat PropsReference FmtBreaks FmtAgree FmtPrinted FmtStable FmtMoved
  FmtConcat SpecLevels FmtLevels SpecLocal FmtLocal SpecEdit LexSplice FmtEdit FmtSplice.

Lemma entries_app e a b : entries e a -> entries e b -> entries e (a ++ b).
Proof. induction 1 as [ds t T|ds t cs T _ IH]; intro E; cbn [app]; apply entries_more; auto. Qed.
Lemma leaked_app a b : leaked (a ++ b) = (leaked a + leaked b)%nat.
Proof. induction a as [|d a IH]; [reflexivity|]. cbn [app leaked fold_right] in *. unfold leaked in *. rewrite IH. lia. Qed.
Lemma phrase_nonempty e y a mid b rw : phrase e y a mid b rw -> ttext b <> [].
Proof. intro PH. destruct (lexeme_starts _ _ (ph_end _ _ _ _ _ _ PH)) as (c & r & E & _). rewrite E. discriminate. Qed.
Lemma phrase_join e y1 a1 mid1 b1 rw1 g y2 a2 mid2 b2 rw2 : phrase e y1 a1 mid1 b1 rw1 -> phrase e y2 a2 mid2 b2 rw2 -> Forall space g ->
  phrase e (y1 ++ ttext b1 ++ g ++ y2) a1 (mid1 ++ b1 :: a2 :: mid2) b2 (rw1 ++ rw2).
Proof.
  intros P1 P2 G. pose proof (phrase_nonempty _ _ _ _ _ _ P1) as N1. pose proof (phrase_nonempty _ _ _ _ _ _ P2) as N2. split.
  - replace (map item_of (a1 :: mid1 ++ b1 :: a2 :: mid2)) with (map item_of (a1 :: mid1) ++ item_of b1 :: map item_of (a2 :: mid2)) by (cbn [map app]; rewrite map_app; reflexivity).
    apply walks_append.
    + rewrite <- !app_assoc. apply walks_more; [apply (ph_walks _ _ _ _ _ _ P1)|exact N1].
    + change (item_of b1) with (tkind_of b1, ttext b1). constructor; [apply (ph_end _ _ _ _ _ _ P1)|apply semicolon_follow, (ph_kind _ _ _ _ _ _ P1)|].
      apply walks_before; [exact G|apply (ph_walks _ _ _ _ _ _ P2)].
  - apply (ph_end _ _ _ _ _ _ P2).
  - apply (ph_kind _ _ _ _ _ _ P2).
  - destruct (ph_starts _ _ _ _ _ _ P1) as (c & r & E & N). rewrite (app_assoc y1), E, <- app_assoc. cbn [app]. eauto.
  - pose proof (ph_ascii _ _ _ _ _ _ P1) as H1. pose proof (ph_ascii _ _ _ _ _ _ P2) as H2. rewrite ascii_in in *. intros i I.
    replace (a1 :: (mid1 ++ b1 :: a2 :: mid2) ++ [b2]) with ((a1 :: mid1 ++ [b1]) ++ (a2 :: mid2 ++ [b2])) in I by (cbn [app]; rewrite <- !app_assoc; reflexivity).
    rewrite map_app in I. apply in_app_or in I as [I|I]; auto.
  - split; [apply (ph_plain _ _ _ _ _ _ P1)|apply (ph_plain _ _ _ _ _ _ P2)].
  - replace (a1 :: (mid1 ++ b1 :: a2 :: mid2) ++ [b2]) with ((a1 :: mid1 ++ [b1]) ++ (a2 :: mid2 ++ [b2])) by (cbn [app]; rewrite <- !app_assoc; reflexivity).
    rewrite filter_app, flat_map_app, (ph_part _ _ _ _ _ _ P1), (ph_part _ _ _ _ _ _ P2). reflexivity.
  - apply Forall_app. split; [apply (ph_trees _ _ _ _ _ _ P1)|apply (ph_trees _ _ _ _ _ _ P2)].
  - rewrite map_app. apply entries_app; [apply (ph_entries _ _ _ _ _ _ P1)|apply (ph_entries _ _ _ _ _ _ P2)].
Qed.

Lemma nodup_right {A} (a b : list A) : NoDup (a ++ b) -> NoDup b.
Proof. induction a as [|x a IH]; intro N; [exact N|]. inversion N; auto. Qed.
Theorem grow s p items tree A x B k e u w v g y2 a2 mid2 b2 rw2 :
  reading s p items tree -> s = A ++ x ++ B -> stands A x B tree k e u w v -> phrase e y2 a2 mid2 b2 rw2 -> Forall space g -> Forall (allowed k) rw2 ->
  exists p' items' tree' F F' wc v' IA IB IB' a mid b a' mid' b' y,
    reading (A ++ x ++ g ++ (y2 ++ ttext b2) ++ B) p' items' tree' /\ tree = plug F (CTree k (u ++ w ++ v)) /\ tree' = plug F' (CTree k (u ++ (w ++ wc) ++ v')) /\
    items = IA ++ (a :: mid ++ [b]) ++ IB /\ items' = IA ++ (a :: mid ++ [b]) ++ (a' :: mid' ++ [b']) ++ IB' /\
    map (tmap bare) wc = map (tmap bare) (map prune rw2) /\ filter plain (a' :: mid' ++ [b']) = flat_map toks wc /\ Forall fits wc /\
    (leak_in k wc = 0%nat -> edit (newlines (A ++ x)) (newlines (A ++ x ++ g ++ y2 ++ ttext b2)) F F' k e u w (w ++ wc) v v' IA (a :: mid ++ [b]) ((a :: mid ++ [b]) ++ (a' :: mid' ++ [b'])) IB IB' a mid b a (mid ++ b :: a' :: mid') b') /\
    x = y ++ ttext b /\ cut s A y B IA a mid b IB /\ ttext b' = ttext b2 /\
    cut (A ++ x ++ g ++ (y2 ++ ttext b2) ++ B) (A ++ x ++ g) y2 B (IA ++ (a :: mid ++ [b])) a' mid' b' IB' /\
    map item_of (a' :: mid') = map item_of (a2 :: mid2) /\ item_of b' = item_of b2.
Proof.
  intros RD ES ST PH2 G AW2. pose proof (st_kind _ _ _ _ _ _ _ _ _ ST) as EK.
  destruct (stands_phrase _ _ _ _ _ _ _ _ _ _ _ _ RD ES ST) as (y1 & a1 & mid1 & b1 & rw1 & IA1 & IB1 & PH1 & EX1 & EW1 & CT1 & EI1 & AW1).
  pose proof (phrase_join _ _ _ _ _ _ g _ _ _ _ _ PH1 PH2 G) as PH.
  assert (x <> []) as NX by (destruct (ph_starts _ _ _ _ _ _ PH1) as (c & r & E & _); rewrite EX1, E; discriminate).
  assert (forall i, walks A i (x ++ B) -> walks A i (((y1 ++ ttext b1 ++ g ++ y2) ++ ttext b2) ++ B)) as PT.
  { intros i W. apply walks_less in W; [|exact NX]. replace (((y1 ++ ttext b1 ++ g ++ y2) ++ ttext b2) ++ B) with (x ++ g ++ y2 ++ ttext b2 ++ B) by (rewrite EX1, <- !app_assoc; reflexivity). apply walks_more; auto. }
  assert (Forall (allowed k) (rw1 ++ rw2)) as AW by (apply Forall_app; auto).
  destruct (paste_core _ _ _ _ _ _ _ _ _ _ _ _ _ _ _ _ _ RD ES ST PH PT AW)
    as (p' & items' & tree' & F & F' & w' & v' & IA & IX & IX' & IB & IB' & a & mid & b & t0' & mid' & z' & y & RD' & ET & ET' & EI & EI' & BW & ED & EQ & EQ' & TX & TX' & FW & (PA & PB) & EX & CT & TZ & CT' & MH & MZ).
  replace (A ++ ((y1 ++ ttext b1 ++ g ++ y2) ++ ttext b2) ++ B) with (A ++ x ++ g ++ (y2 ++ ttext b2) ++ B) in * by (rewrite EX1, <- !app_assoc; reflexivity).
  set (s' := A ++ x ++ g ++ (y2 ++ ttext b2) ++ B) in *.
  (* the items of the entry are those of the phrase *)
  assert (filter plain (a1 :: mid1 ++ [b1]) = filter plain (a :: mid ++ [b])) as FX.
  { rewrite (ph_part _ _ _ _ _ _ PH1), <- EQ, TX, <- EW1, (toks_yield (map prune rw1)), prune_yield. reflexivity. }
  pose proof (laid_nodup _ _ _ (rd_laid _ _ _ _ RD)) as ND.
  assert (a1 = a /\ b1 = b /\ mid1 = mid /\ IA1 = IA /\ IB1 = IB) as (-> & -> & -> & -> & ->).
  { destruct (ph_plain _ _ _ _ _ _ PH1) as [PA1 PB1]. change (a1 :: mid1 ++ [b1]) with ((a1 :: mid1) ++ [b1]) in FX. change (a :: mid ++ [b]) with ((a :: mid) ++ [b]) in FX. rewrite !filter_app in FX.
    cbn [filter] in FX. rewrite PA, PB, PA1, PB1 in FX. cbn [app] in FX. injection FX as -> FX. apply app_inj_tail in FX as [_ ->].
    rewrite EQ in EI. rewrite EI in EI1. cbn [app] in EI1. rewrite <- !app_assoc in EI1. cbn [app] in EI1. rewrite EI in ND. cbn [app] in ND. rewrite <- !app_assoc in ND. cbn [app] in ND.
    apply nodup_split in EI1 as [-> E]; [|exact ND]. apply NoDup_remove in ND as [ND _]. apply nodup_right in ND. apply nodup_split in E as [-> ->]; auto. }
  clear CT1 EI1 FX. rewrite EX1 in EX. apply app_inv_tail in EX. subst y1.
  (* the new items *)
  change (map item_of (a :: mid ++ b :: a2 :: mid2)) with (map item_of ((a :: mid) ++ b :: a2 :: mid2)) in MH. rewrite map_app in MH.
  apply map_eq_app in MH as (h & r & EH & MH1 & MH2). destruct r as [|b' [|a' mid2']]; try discriminate. cbn [map] in MH2.
  assert (item_of b' = item_of b /\ map item_of (a' :: mid2') = map item_of (a2 :: mid2)) as [MB MA].
  { cbn [map]. split; [congruence|]. inversion MH2. congruence. }
  destruct h as [|t0 m0]; [discriminate|]. cbn [app] in EH. injection EH as -> ->.
  assert (items' = IA ++ (t0 :: m0 ++ [b']) ++ (a' :: mid2' ++ [z']) ++ IB') as EI2 by (rewrite EI', EQ'; cbn [app]; rewrite <- !app_assoc; cbn [app]; rewrite <- ?app_assoc; reflexivity).
  pose proof (rd_laid _ _ _ _ RD') as LD'. pose proof (rd_lexes _ _ _ _ RD') as LX'. rewrite EI2 in LD', LX'.
  pose proof (phrase_nonempty _ _ _ _ _ _ PH1) as NB1.
  assert (walks y (map item_of (a :: mid)) (ttext b ++ g ++ (y2 ++ ttext b2) ++ B)) as WY by (apply walks_more; [apply (ph_walks _ _ _ _ _ _ PH1)|exact NB1]).
  assert (walks A (map item_of IA) ((y ++ ttext b) ++ g ++ (y2 ++ ttext b2) ++ B)) as WA.
  { pose proof (ct_before _ _ _ _ _ _ _ _ _ CT') as W. rewrite TZ in W. rewrite <- !app_assoc in *. exact W. }
  destruct (cut_two _ _ _ _ _ _ LD' LX') as (A0 & y0 & B0 & CTa).
  destruct (cut_known _ A y (g ++ (y2 ++ ttext b2) ++ B) IA a mid b _ _ _ _ _ _ _ _ CTa) as (-> & -> & TB & ->); auto.
  { unfold s'. rewrite EX1, <- !app_assoc. reflexivity. }
  { apply (ct_starts _ _ _ _ _ _ _ _ _ CT). }
  { apply (ct_end _ _ _ _ _ _ _ _ _ CT). }
  pose proof (items_lexemes _ _ (rd_lexes _ _ _ _ RD)) as XL. rewrite EI, EQ in XL. apply Forall_app in XL as [XA XL]. apply Forall_app in XL as [XX XB].
  assert (a :: mid ++ [b] = t0 :: m0 ++ [b']) as EQ2.
  { pose proof (ct_set_part _ _ _ _ _ _ _ _ _ CTa) as SP. rewrite TB in SP. apply (set_out_unique _ _ _ _ (ct_set_part _ _ _ _ _ _ _ _ _ CT) _ SP); [|exact XX].
    change (a :: mid ++ [b]) with ((a :: mid) ++ [b]). change (t0 :: m0 ++ [b']) with ((t0 :: m0) ++ [b']). rewrite !map_app, MH1. cbn [map]. rewrite MB. reflexivity. }
  injection EQ2 as <- EQ2. apply app_inj_tail in EQ2 as [<- <-]. clear TB CTa MB MH1 MH2.
  replace (IA ++ (a :: mid ++ [b]) ++ (a' :: mid2' ++ [z']) ++ IB') with ((IA ++ (a :: mid ++ [b])) ++ (a' :: mid2' ++ [z']) ++ IB') in LD', LX' by (rewrite <- app_assoc; reflexivity).
  destruct (cut_two _ _ _ _ _ _ LD' LX') as (A0 & y0 & B0 & CTb).
  assert (walks (A ++ x ++ g) (map item_of (IA ++ (a :: mid ++ [b]))) ((y2 ++ ttext b2) ++ B)) as WB.
  { rewrite map_app. apply walks_append; [rewrite EX1, <- !app_assoc in *; exact WA|]. rewrite EX1, <- app_assoc. change (a :: mid ++ [b]) with ((a :: mid) ++ [b]). rewrite map_app.
    apply walks_append; [rewrite <- !app_assoc in *; exact WY|]. cbn [map]. change (item_of b) with (tkind_of b, ttext b). constructor; [apply (ph_end _ _ _ _ _ _ PH1)|apply semicolon_follow, (ph_kind _ _ _ _ _ _ PH1)|apply walks_spaces, G]. }
  destruct (cut_known _ (A ++ x ++ g) y2 B (IA ++ (a :: mid ++ [b])) a2 mid2 b2 _ _ _ _ _ _ _ _ CTb) as (-> & -> & TZ2 & ->); auto.
  { unfold s'. rewrite <- !app_assoc. reflexivity. }
  { apply (ph_starts _ _ _ _ _ _ PH2). }
  { apply walks_more; [apply (ph_walks _ _ _ _ _ _ PH2)|apply (phrase_nonempty _ _ _ _ _ _ PH2)]. }
  { apply (ph_end _ _ _ _ _ _ PH2). }
  (* the trees *)
  rewrite !map_app in BW. apply map_eq_app in BW as (wa & wc & -> & BA & BC).
  assert (IX' = (a :: mid ++ [b]) ++ (a' :: mid2' ++ [z'])) as EQ3 by (rewrite EQ'; cbn [app]; rewrite <- !app_assoc; reflexivity).
  rewrite EQ3 in TX'. rewrite filter_app, flat_map_app in TX'. rewrite EQ in TX.
  apply app_eq_length in TX' as [TA TC].
  2:{ rewrite TX. rewrite <- EW1. symmetry. rewrite (shapes_length _ _ BA). reflexivity. }
  assert (wa = w) as ->. { apply shapes_eq; [rewrite BA, EW1; reflexivity|congruence]. }
  exists p', items', tree', F, F', wc, v', IA, IB, IB', a, mid, b, a', mid2', z', y.
  split; [exact RD'|]. split; [exact ET|]. split; [exact ET'|]. split; [congruence|]. split; [exact EI2|]. split; [exact BC|]. split; [exact TC|].
  split; [apply Forall_app in FW; apply FW|]. split; [|auto 10].
  intro LK. rewrite EQ, EQ3 in ED. rewrite (app_assoc x), (app_assoc (x ++ g)), <- (app_assoc x). replace (x ++ g ++ y2) with (y ++ ttext b ++ g ++ y2) by (rewrite EX1, <- app_assoc; reflexivity). apply ED.
  rewrite !(leaked_in k e) in * by exact EK. rewrite leaked_app, LK. lia.
Qed.
