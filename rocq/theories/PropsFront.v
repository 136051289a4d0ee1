(** Property C107: entries in front of an entry. *)
From Verif Require Import ProofBase Tokens Syntax SpecLex Tree Printer Formatter Lib SpecLanguage SpecLayout FmtNeat SpecReference PropsFormat
  FmtReference FmtStable SpecLocal SpecEdit FmtSplice PropsEdit SpecCopy FmtCopy FmtSwap FmtFront.

Theorem C107_insert : forall A x B p tree k e u w v g A2 x2 B2 p2 tree2 k2 u2 w2 v2,
  read (A ++ x ++ B) p tree -> stands A x B tree k e u w v -> read (A2 ++ x2 ++ B2) p2 tree2 -> stands A2 x2 B2 tree2 k2 e u2 w2 v2 ->
  (exists A0 c, A = A0 ++ [c] /\ parting c) -> Forall space g -> Forall (allowed k) w2 -> leaked w = 0%nat -> leaked w2 = 0%nat ->
  exists p' tree' wn wc v' la i r lb j q i' r' lb' b n b2, read (A ++ x2 ++ g ++ x ++ B) p' tree' /\
    stands A x2 (g ++ x ++ B) tree' k e u wn (wc ++ v') /\ stands (A ++ x2 ++ g) x B tree' k e (u ++ wn) wc v' /\ Forall2 same_form w2 wn /\ Forall2 same_form w wc /\
    (forall eol, layout_of eol (A ++ x ++ B) p (la ++ (i :: r) ++ lb) /\ layout_of eol (A ++ x2 ++ g ++ x ++ B) p' (la ++ (j :: q) ++ (i' :: r') ++ lb')) /\
    Forall (fun y => begins 0 (bytes_of A) y = true) la /\
    Forall (fun y => begins (bytes_of A) (bytes_of (A ++ x)) y = true) (i :: r) /\
    Forall (fun y => begins (bytes_of (A ++ x)) (bytes_of (A ++ x ++ B)) y = true) lb /\
    Forall (fun y => begins (bytes_of A) (bytes_of (A ++ x2)) y = true) (j :: q) /\
    Forall (fun y => begins (bytes_of (A ++ x2 ++ g)) (bytes_of (A ++ x2 ++ g ++ x)) y = true) (i' :: r') /\
    Forall (fun y => begins (bytes_of (A ++ x2 ++ g ++ x)) (bytes_of (A ++ x2 ++ g ++ x ++ B)) y = true) lb' /\
    e_white i = WLine b n /\ e_white j = WLine b n /\ e_white i' = WLine b2 n /\ ttext (e_tok i') = ttext (e_tok i) /\ tkind_of (e_tok i') = tkind_of (e_tok i) /\
    Forall2 alike r r' /\ Forall2 alike lb lb'.
Proof.
  intros A x B p tree k e u w v g A2 x2 B2 p2 tree2 k2 u2 w2 v2 R ST R2 ST2 PT G AL LW LW2. destruct (read_reading _ _ _ R) as (items & RD).
  destruct (in_front _ _ _ _ _ _ _ _ _ _ _ _ _ _ _ _ _ _ _ _ _ RD ST R2 ST2 PT G AL LW LW2)
    as (p' & items' & tree' & wn & wc & v' & la & i & r & lb & j & q & i' & r' & lb' & b & n & b2 & RD' & H1 & H2 & H3 & H4 & E & E' & H).
  exists p', tree', wn, wc, v', la, i, r, lb, j, q, i', r', lb', b, n, b2. split; [split; [apply (rd_accepted _ _ _ _ RD')|apply (rd_tree _ _ _ _ RD')]|].
  split; [exact H1|]. split; [exact H2|]. split; [exact H3|]. split; [exact H4|]. split; [|exact H].
  intro eol. rewrite <- E, <- E'. split; [apply (reading_reference eol _ _ _ _ RD)|apply (reading_reference eol _ _ _ _ RD')].
Qed.
Print Assumptions C107_insert.

(** The texts: the new piece takes the place of the entry, the entry follows on a line of its own with the characters it had. *)
Lemma rendered eol l l' : Forall2 alike l l' -> render eol l' = render eol l.
Proof. intro F. unfold render. induction F as [|z z' l l' (W & T & _) _ IH]; [reflexivity|]. cbn [flat_map]. rewrite W, T, IH. reflexivity. Qed.
Lemma render_first eol z l : render eol (z :: l) = white_text eol (e_white z) ++ ttext (e_tok z) ++ render eol l.
Proof. unfold render. cbn [flat_map]. rewrite <- app_assoc. reflexivity. Qed.
Lemma render_apart eol l l' : render eol (l ++ l') = render eol l ++ render eol l'.
Proof. unfold render. apply flat_map_app. Qed.
Theorem C107_text : forall A x B p tree k e u w v, read (A ++ x ++ B) p tree -> stands A x B tree k e u w v -> (exists A0 c, A = A0 ++ [c] /\ parting c) -> leaked w = 0%nat ->
  exists la i r lb b n, (forall eol, layout_of eol (A ++ x ++ B) p (la ++ (i :: r) ++ lb)) /\
    Forall (fun y => begins 0 (bytes_of A) y = true) la /\ Forall (fun y => begins (bytes_of A) (bytes_of (A ++ x)) y = true) (i :: r) /\
    Forall (fun y => begins (bytes_of (A ++ x)) (bytes_of (A ++ x ++ B)) y = true) lb /\ e_white i = WLine b n /\
    (forall eol, pretty_print eol p = Ok (render eol la ++ white_text eol (WLine b n) ++ (ttext (e_tok i) ++ render eol r) ++ render eol lb)) /\
    forall g A2 x2 B2 p2 tree2 k2 u2 w2 v2, read (A2 ++ x2 ++ B2) p2 tree2 -> stands A2 x2 B2 tree2 k2 e u2 w2 v2 -> Forall space g -> Forall (allowed k) w2 -> leaked w2 = 0%nat ->
      exists p' b2, accepted (A ++ x2 ++ g ++ x ++ B) p' /\ forall eol, exists new,
        pretty_print eol p' = Ok (render eol la ++ white_text eol (WLine b n) ++ new ++ white_text eol (WLine b2 n) ++ (ttext (e_tok i) ++ render eol r) ++ render eol lb).
Proof.
  intros A x B p tree k e u w v R ST PT LW. destruct (read_reading _ _ _ R) as (items & RD).
  destruct (copies _ _ _ _ _ _ _ _ _ _ _ _ _ _ _ _ _ _ _ _ _ _ RD eq_refl ST RD eq_refl ST)
    as (_ & _ & la & lb & i & r & LA2 & LB2 & i2 & r2 & b & n & bb & nn & E & _ & G1 & G2 & G3 & _ & _ & _ & W & _).
  exists la, i, r, lb, b, n.
  assert (forall eol, layout_of eol (A ++ x ++ B) p (la ++ (i :: r) ++ lb)) as LO by (intro eol; rewrite <- E; apply (reading_reference eol _ _ _ _ RD)).
  split; [exact LO|]. do 4 (split; [assumption|]).
  split. { intro eol. rewrite (lo_text _ _ _ _ (LO eol)), !render_apart, render_first, W, <- !app_assoc. reflexivity. }
  intros g A2 x2 B2 p2 tree2 k2 u2 w2 v2 R2 ST2 G AL LW2.
  destruct (in_front _ _ _ _ _ _ _ _ _ _ _ _ _ _ _ _ _ _ _ _ _ RD ST R2 ST2 PT G AL LW LW2)
    as (p' & items' & tree' & wn & wc & v' & la0 & i0 & r0 & lb0 & j & q & i' & r' & lb' & b0 & n0 & b2 & RD' & _ & _ & _ & _ & E0 & E' & D1 & D2 & D3 & _ & _ & _ & W0 & WJ & WI & TI & _ & AR & AB).
  assert (forall l a m c t, l = a ++ m ++ c -> within_range 0 (bytes_of A) a -> within_range (bytes_of A) (bytes_of (A ++ x)) m -> within_range (bytes_of (A ++ x)) t c ->
    a = filter (begins 0 (bytes_of A)) l /\ m = filter (begins (bytes_of A) (bytes_of (A ++ x))) l) as PA.
  { intros l a m c t -> F1 F2 F3. assert (bytes_of A <= bytes_of (A ++ x)) as N1 by (rewrite bytes_app; lia).
    rewrite !filter_app, (keep _ _ _ _ _ F1), (skip _ _ _ _ _ F2), (skip _ _ _ _ _ F3), (skip _ _ _ _ _ F1), (keep _ _ _ _ _ F2), (skip _ _ _ _ _ F3), !app_nil_r by lia. split; reflexivity. }
  destruct (PA _ _ _ _ _ E G1 G2 G3) as [X1 X2]. destruct (PA _ _ _ _ _ E0 D1 D2 D3) as [Y1 Y2].
  assert (la0 = la) as -> by congruence. assert (i0 :: r0 = i :: r) as Z by congruence. injection Z as -> ->.
  assert (lb0 = lb) as -> by (rewrite E0 in E; apply app_inv_head, app_inv_head in E; exact E).
  assert (b0 = b /\ n0 = n) as [-> ->] by (split; congruence).
  exists p', b2. split; [apply (rd_accepted _ _ _ _ RD')|]. intro eol. exists (ttext (e_tok j) ++ render eol q).
  destruct (reading_reference eol _ _ _ _ RD') as [LO' _]. rewrite E' in LO'. rewrite (lo_text _ _ _ _ LO'), !render_apart, !render_first, WJ, WI, TI, (rendered eol _ _ AR), (rendered eol _ _ AB), <- !app_assoc. reflexivity.
Qed.
Print Assumptions C107_text.

(** The other way: the first of two neighbouring groups goes, with what stands between them, comments included. *)
Theorem C107_delete : forall A x2 g x B p tree k e u w2 w v,
  read (A ++ x2 ++ g ++ x ++ B) p tree -> stands A x2 (g ++ x ++ B) tree k e u w2 (w ++ v) -> stands (A ++ x2 ++ g) x B tree k e (u ++ w2) w v ->
  (exists A0 c, A = A0 ++ [c] /\ parting c) -> leaked w2 = 0%nat ->
  exists p' tree' w' v' la j q lg i r lb i' r' lb' b n b2, read (A ++ x ++ B) p' tree' /\ stands A x B tree' k e u w' v' /\ Forall2 same_form w w' /\
    (forall eol, layout_of eol (A ++ x2 ++ g ++ x ++ B) p (la ++ (j :: q) ++ lg ++ (i :: r) ++ lb) /\ layout_of eol (A ++ x ++ B) p' (la ++ (i' :: r') ++ lb')) /\
    Forall (fun y => begins 0 (bytes_of A) y = true) la /\
    Forall (fun y => begins (bytes_of A) (bytes_of (A ++ x2)) y = true) (j :: q) /\
    Forall (fun y => begins (bytes_of (A ++ x2)) (bytes_of (A ++ x2 ++ g)) y = true) lg /\
    Forall (fun y => begins (bytes_of (A ++ x2 ++ g)) (bytes_of (A ++ x2 ++ g ++ x)) y = true) (i :: r) /\
    Forall (fun y => begins (bytes_of (A ++ x2 ++ g ++ x)) (bytes_of (A ++ x2 ++ g ++ x ++ B)) y = true) lb /\
    Forall (fun y => begins (bytes_of A) (bytes_of (A ++ x)) y = true) (i' :: r') /\
    Forall (fun y => begins (bytes_of (A ++ x)) (bytes_of (A ++ x ++ B)) y = true) lb' /\
    e_white j = WLine b n /\ e_white i = WLine b2 n /\ e_white i' = WLine b n /\ ttext (e_tok i') = ttext (e_tok i) /\ tkind_of (e_tok i') = tkind_of (e_tok i) /\
    Forall2 alike r r' /\ Forall2 alike lb lb'.
Proof.
  intros A x2 g x B p tree k e u w2 w v R ST2 ST PT LW2. destruct (read_reading _ _ _ R) as (items & RD).
  destruct (off_front _ _ _ _ _ _ _ _ _ _ _ _ _ _ RD ST2 ST PT LW2)
    as (p' & items' & tree' & w' & v' & la & j & q & lg & i & r & lb & i' & r' & lb' & b & n & b2 & RD' & H1 & H2 & E & E' & H).
  exists p', tree', w', v', la, j, q, lg, i, r, lb, i', r', lb', b, n, b2. split; [split; [apply (rd_accepted _ _ _ _ RD')|apply (rd_tree _ _ _ _ RD')]|].
  split; [exact H1|]. split; [exact H2|]. split; [|exact H].
  intro eol. rewrite <- E, <- E'. split; [apply (reading_reference eol _ _ _ _ RD)|apply (reading_reference eol _ _ _ _ RD')].
Qed.
Print Assumptions C107_delete.

(** Non-vacuity: a declaration of another model in front of the first declaration of a model, and away again. *)
Definition front_a : text := lines ["model M // m"; " "]%string.
Definition front_x : text := lines ["Real x(min = 0,"; "max = 1);"]%string.
Definition front_g : text := lines [""; ""; " "]%string.
Definition front_b : text := lines [" // x"; "Real z;"; "equation x = p; end M;"]%string.
Definition front_a2 : text := str "block N input Real u; ".
Definition front_x2 : text := lines ["parameter Real p"; "= 1 ""p"" ;"]%string.
Definition front_b2 : text := str " end N;".
Definition front_s : text := front_a ++ front_x ++ front_b.
Definition front_s2 : text := front_a2 ++ front_x2 ++ front_b2.
Definition front_kids := kids_of KElementList front_s.
Definition front_kids2 := kids_of KElementList front_s2.
Example C107_applies :
  read front_s (parsed_of front_s) (tree_of front_s) /\ read front_s2 (parsed_of front_s2) (tree_of front_s2) /\
  stands front_a front_x front_b (tree_of front_s) KElementList KElement [] (firstn 2 front_kids) (skipn 2 front_kids) /\
  stands front_a2 front_x2 front_b2 (tree_of front_s2) KElementList KElement (firstn 2 front_kids2) (firstn 2 (skipn 2 front_kids2)) (skipn 4 front_kids2) /\
  (exists A0 c, front_a = A0 ++ [c] /\ parting c) /\ Forall space front_g /\ Forall (allowed KElementList) (firstn 2 (skipn 2 front_kids2)) /\
  leaked (firstn 2 front_kids) = 0%nat /\ leaked (firstn 2 (skipn 2 front_kids2)) = 0%nat.
Proof.
  split; [split; [split|]; vm_compute; reflexivity|]. split; [split; [split|]; vm_compute; reflexivity|]. split.
  { shown KElementList.
    - vm_compute. apply entries_one. reflexivity.
    - placed (firstn 2 front_kids). }
  split.
  { shown KElementList.
    - vm_compute. apply entries_one. reflexivity.
    - placed (firstn 2 (skipn 2 front_kids2)). }
  split; [exists (removelast front_a), 32; split; [vm_compute; reflexivity|left; vm_compute; tauto]|].
  split; [repeat constructor; vm_compute; tauto|].
  split; [vm_compute; repeat constructor; intuition discriminate|].
  split; vm_compute; reflexivity.
Qed.
Example C107_shown :
  formats front_s (lines ["model M // m"; ""; "  Real x("; "    min = 0,"; "    max = 1); // x"; "  Real z;"; ""; "equation"; ""; "  x = p;"; ""; "end M;"]%string) /\
  formats (front_a ++ front_x2 ++ front_g ++ front_x ++ front_b) (lines ["model M // m"; ""; "  parameter Real p = 1"; "    ""p"";"; ""; "  Real x("; "    min = 0,"; "    max = 1); // x"; "  Real z;"; ""; "equation"; ""; "  x = p;"; ""; "end M;"]%string).
Proof. split; formatted. Qed.
Definition away_g : text := lines [" // gone"; "/* gone too */ "]%string.
Definition away_s : text := front_a ++ front_x2 ++ away_g ++ front_x ++ front_b.
Definition away_kids := kids_of KElementList away_s.
Example C107_delete_applies : read away_s (parsed_of away_s) (tree_of away_s) /\
  stands front_a front_x2 (away_g ++ front_x ++ front_b) (tree_of away_s) KElementList KElement [] (firstn 2 away_kids) (firstn 2 (skipn 2 away_kids) ++ skipn 4 away_kids) /\
  stands (front_a ++ front_x2 ++ away_g) front_x front_b (tree_of away_s) KElementList KElement ([] ++ firstn 2 away_kids) (firstn 2 (skipn 2 away_kids)) (skipn 4 away_kids) /\
  leaked (firstn 2 away_kids) = 0%nat.
Proof.
  split; [split; [split|]; vm_compute; reflexivity|]. split.
  { shown KElementList.
    - vm_compute. apply entries_one. reflexivity.
    - placed (firstn 2 away_kids). }
  split; [|vm_compute; reflexivity].
  shown KElementList.
  - vm_compute. apply entries_one. reflexivity.
  - placed (firstn 2 (skipn 2 away_kids)).
Qed.
Example C107_delete_shown :
  formats away_s (lines ["model M // m"; ""; "  parameter Real p = 1"; "    ""p""; // gone"; "  /* gone too */"; "  Real x("; "    min = 0,"; "    max = 1); // x"; "  Real z;"; ""; "equation"; ""; "  x = p;"; ""; "end M;"]%string).
Proof. formatted. Qed.
(** A wrapped left-hand side put in front moves the entries behind it: the condition on [leaked] is needed. *)
Example C107_leak :
  formats (lines ["model M equation y = 2; end M;"]%string) (lines ["model M"; ""; "equation"; ""; "  y = 2;"; ""; "end M;"]%string) /\
  formats (lines ["model M equation a"; "+ b = 1; y = 2; end M;"]%string) (lines ["model M"; ""; "equation"; ""; "  a"; "    + b = 1;"; "    y = 2;"; ""; "  end M;"]%string).
Proof. split; formatted. Qed.
