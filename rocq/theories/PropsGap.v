(** Property C108: what stands between two entries. *)
From Verif Require Import ProofBase Tokens Syntax SpecLex Tree Printer Formatter Lib SpecLanguage SpecLayout FmtNeat SpecReference PropsFormat
  FmtReference FmtStable SpecLocal SpecEdit FmtSplice PropsEdit SpecCopy FmtCopy FmtSwap FmtFront PropsFront FmtGap.

Theorem C108_gap : forall A x g y B p tree k e u wx wy v A2 x2 y2 B2 p2 tree2 k2 e2 u2 wx2 wy2 v2,
  read (A ++ x ++ g ++ y ++ B) p tree -> stands A x (g ++ y ++ B) tree k e u wx (wy ++ v) -> stands (A ++ x ++ g) y B tree k e (u ++ wx) wy v ->
  read (A2 ++ x2 ++ g ++ y2 ++ B2) p2 tree2 -> stands A2 x2 (g ++ y2 ++ B2) tree2 k2 e2 u2 wx2 (wy2 ++ v2) -> stands (A2 ++ x2 ++ g) y2 B2 tree2 k2 e2 (u2 ++ wx2) wy2 v2 ->
  exists la lg i lb la2 lg2 i2 lb2 b n n2,
    (forall eol, layout_of eol (A ++ x ++ g ++ y ++ B) p (la ++ lg ++ i :: lb) /\ layout_of eol (A2 ++ x2 ++ g ++ y2 ++ B2) p2 (la2 ++ lg2 ++ i2 :: lb2)) /\
    Forall (fun z => begins 0 (bytes_of (A ++ x)) z = true) la /\ Forall (fun z => begins (bytes_of (A ++ x)) (bytes_of (A ++ x ++ g)) z = true) lg /\
    pos (tstart (e_tok i)) = bytes_of (A ++ x ++ g) /\ Forall (fun z => begins (bytes_of (A ++ x ++ g)) (bytes_of (A ++ x ++ g ++ y ++ B)) z = true) lb /\
    Forall (fun z => begins 0 (bytes_of (A2 ++ x2)) z = true) la2 /\ Forall (fun z => begins (bytes_of (A2 ++ x2)) (bytes_of (A2 ++ x2 ++ g)) z = true) lg2 /\
    pos (tstart (e_tok i2)) = bytes_of (A2 ++ x2 ++ g) /\ Forall (fun z => begins (bytes_of (A2 ++ x2 ++ g)) (bytes_of (A2 ++ x2 ++ g ++ y2 ++ B2)) z = true) lb2 /\
    e_white i = WLine b n /\ e_white i2 = WLine b n2 /\ Forall2 (copied n n2) lg lg2.
Proof.
  intros A x g y B p tree k e u wx wy v A2 x2 y2 B2 p2 tree2 k2 e2 u2 wx2 wy2 v2 R SX SY R2 SX2 SY2. destruct (read_reading _ _ _ R) as (items & RD). destruct (read_reading _ _ _ R2) as (items2 & RD2).
  destruct (gaps _ _ _ _ _ _ _ _ _ _ _ _ _ _ _ _ _ _ _ _ _ _ _ _ _ _ _ RD SX SY RD2 SX2 SY2) as (la & lg & i & lb & la2 & lg2 & i2 & lb2 & b & n & n2 & E & E2 & H1 & H2 & H3 & H4 & H5 & H6 & H7 & H8 & H9 & H10 & H11 & _).
  exists la, lg, i, lb, la2, lg2, i2, lb2, b, n, n2. split; [|auto 12].
  intro eol. rewrite <- E, <- E2. split; [apply (reading_reference eol _ _ _ _ RD)|apply (reading_reference eol _ _ _ _ RD2)].
Qed.
Print Assumptions C108_gap.

(** White space between two entries: one empty line if there is one, otherwise a line break. *)
Theorem C108_blank : forall A x g y B p tree k e u wx wy v,
  read (A ++ x ++ g ++ y ++ B) p tree -> stands A x (g ++ y ++ B) tree k e u wx (wy ++ v) -> stands (A ++ x ++ g) y B tree k e (u ++ wx) wy v -> Forall space g ->
  exists la i lb n, (forall eol, layout_of eol (A ++ x ++ g ++ y ++ B) p (la ++ i :: lb)) /\
    Forall (fun z => begins 0 (bytes_of (A ++ x)) z = true) la /\ pos (tstart (e_tok i)) = bytes_of (A ++ x ++ g) /\ Forall (fun z => begins (bytes_of (A ++ x ++ g)) (bytes_of (A ++ x ++ g ++ y ++ B)) z = true) lb /\
    e_white i = WLine (1 <? newlines g) n.
Proof.
  intros A x g y B p tree k e u wx wy v R SX SY G. destruct (read_reading _ _ _ R) as (items & RD).
  destruct (gaps _ _ _ _ _ _ _ _ _ _ _ _ _ _ _ _ _ _ _ _ _ _ _ _ _ _ _ RD SX SY RD SX SY) as (la & lg & i & lb & la2 & lg2 & i2 & lb2 & b & n & n2 & E & E2 & H1 & H2 & H3 & H4 & _ & _ & _ & _ & H9 & _ & _ & H).
  destruct (H G) as [-> ->]. exists la, i, lb, n. split; [|auto]. intro eol. replace (la ++ i :: lb) with (reference tree items). apply (reading_reference eol _ _ _ _ RD).
Qed.
Print Assumptions C108_blank.

(** The texts: at the same level the same characters. *)
Lemma render_copied eol n l l' : Forall2 (copied n n) l l' -> render eol l' = render eol l.
Proof. intro F. apply rendered, (same_level_alike n), F. Qed.
Theorem C108_text : forall A x g y B p tree k e u wx wy v A2 x2 y2 B2 p2 tree2 k2 e2 u2 wx2 wy2 v2,
  read (A ++ x ++ g ++ y ++ B) p tree -> stands A x (g ++ y ++ B) tree k e u wx (wy ++ v) -> stands (A ++ x ++ g) y B tree k e (u ++ wx) wy v ->
  read (A2 ++ x2 ++ g ++ y2 ++ B2) p2 tree2 -> stands A2 x2 (g ++ y2 ++ B2) tree2 k2 e2 u2 wx2 (wy2 ++ v2) -> stands (A2 ++ x2 ++ g) y2 B2 tree2 k2 e2 (u2 ++ wx2) wy2 v2 ->
  exists l l2 i i2 b b2 n n2, (forall eol, layout_of eol (A ++ x ++ g ++ y ++ B) p l) /\ (forall eol, layout_of eol (A2 ++ x2 ++ g ++ y2 ++ B2) p2 l2) /\
    In i l /\ pos (tstart (e_tok i)) = bytes_of (A ++ x ++ g) /\ e_white i = WLine b n /\ In i2 l2 /\ pos (tstart (e_tok i2)) = bytes_of (A2 ++ x2 ++ g) /\ e_white i2 = WLine b2 n2 /\
    (n2 = n -> forall eol, exists between behind behind2,
      pretty_print eol p = Ok (render eol (filter (begins 0 (bytes_of (A ++ x))) l) ++ between ++ ttext (e_tok i) ++ behind) /\
      pretty_print eol p2 = Ok (render eol (filter (begins 0 (bytes_of (A2 ++ x2))) l2) ++ between ++ ttext (e_tok i2) ++ behind2)).
Proof.
  intros A x g y B p tree k e u wx wy v A2 x2 y2 B2 p2 tree2 k2 e2 u2 wx2 wy2 v2 R SX SY R2 SX2 SY2.
  destruct (C108_gap _ _ _ _ _ _ _ _ _ _ _ _ _ _ _ _ _ _ _ _ _ _ _ _ _ R SX SY R2 SX2 SY2) as (la & lg & i & lb & la2 & lg2 & i2 & lb2 & b & n & n2 & L & H1 & H2 & H3 & H4 & H5 & H6 & H7 & H8 & H9 & H10 & H11).
  exists (la ++ lg ++ i :: lb), (la2 ++ lg2 ++ i2 :: lb2), i, i2, b, b, n, n2. split; [intro eol; apply (L eol)|]. split; [intro eol; apply (L eol)|].
  split; [apply in_or_app; right; apply in_or_app; right; left; reflexivity|]. split; [exact H3|]. split; [exact H9|]. split; [apply in_or_app; right; apply in_or_app; right; left; reflexivity|]. split; [exact H7|]. split; [exact H10|].
  intros -> eol. exists (render eol lg ++ white_text eol (WLine b n)), (render eol lb), (render eol lb2). destruct (L eol) as [L1 L2]. rewrite (lo_text _ _ _ _ L1), (lo_text _ _ _ _ L2).
  assert (forall c d la lg (i : entry) lb t, within_range 0 c la -> within_range c d lg -> pos (tstart (e_tok i)) = d -> within_range d t lb -> c <= d -> filter (begins 0 c) (la ++ lg ++ i :: lb) = la) as FL.
  { clear. intros c d la lg i lb t W1 W2 P W3 LE. rewrite !filter_app, (keep _ _ _ _ _ W1), (skip _ _ _ _ _ W2) by lia. cbn [filter]. replace (begins 0 c i) with false.
    - rewrite (skip _ _ _ _ _ W3) by lia. apply app_nil_r.
    - unfold begins. symmetry. apply andb_false_iff. right. apply N.ltb_ge. lia. }
  rewrite (FL _ _ _ _ _ _ _ H1 H2 H3 H4), (FL _ _ _ _ _ _ _ H5 H6 H7 H8) by (rewrite !bytes_app; lia).
  rewrite !render_apart, !render_first, H9, H10, (render_copied eol n _ _ H11), <- !app_assoc. split; reflexivity.
Qed.
Print Assumptions C108_text.

(** Non-vacuity: comments between two declarations, and the same ones between two equations of a branch. *)
Definition mid_g : text := lines [" // one"; "/* two */ "; ""; "// three"; " "]%string.
Definition mid_a : text := str "model M ".
Definition mid_x : text := str "Real x;".
Definition mid_y : text := str "Real y;".
Definition mid_b : text := str " end M;".
Definition mid_a2 : text := lines ["block N equation if a then"; ""]%string.
Definition mid_x2 : text := lines ["x = f(1,"; "2);"]%string.
Definition mid_y2 : text := str "connect(p, q);".
Definition mid_b2 : text := str " end if; end N;".
Definition mid_s : text := mid_a ++ mid_x ++ mid_g ++ mid_y ++ mid_b.
Definition mid_s2 : text := mid_a2 ++ mid_x2 ++ mid_g ++ mid_y2 ++ mid_b2.
Definition mid_kids := kids_of KElementList mid_s.
Definition mid_kids2 := kids_of KIfEquation mid_s2.
Example C108_applies :
  read mid_s (parsed_of mid_s) (tree_of mid_s) /\
  stands mid_a mid_x (mid_g ++ mid_y ++ mid_b) (tree_of mid_s) KElementList KElement [] (firstn 2 mid_kids) (skipn 2 mid_kids ++ []) /\
  stands (mid_a ++ mid_x ++ mid_g) mid_y mid_b (tree_of mid_s) KElementList KElement ([] ++ firstn 2 mid_kids) (skipn 2 mid_kids) [] /\
  read mid_s2 (parsed_of mid_s2) (tree_of mid_s2) /\
  stands mid_a2 mid_x2 (mid_g ++ mid_y2 ++ mid_b2) (tree_of mid_s2) KIfEquation KEquation (firstn 3 mid_kids2) (firstn 2 (skipn 3 mid_kids2)) (firstn 2 (skipn 5 mid_kids2) ++ skipn 7 mid_kids2) /\
  stands (mid_a2 ++ mid_x2 ++ mid_g) mid_y2 mid_b2 (tree_of mid_s2) KIfEquation KEquation (firstn 3 mid_kids2 ++ firstn 2 (skipn 3 mid_kids2)) (firstn 2 (skipn 5 mid_kids2)) (skipn 7 mid_kids2).
Proof.
  split; [split; [split|]; vm_compute; reflexivity|]. split.
  { shown KElementList.
    - vm_compute. apply entries_one. reflexivity.
    - placed (firstn 2 mid_kids). }
  split.
  { shown KElementList.
    - vm_compute. apply entries_one. reflexivity.
    - placed (skipn 2 mid_kids). }
  split; [split; [split|]; vm_compute; reflexivity|]. split.
  { shown KIfEquation.
    - vm_compute. apply entries_one. reflexivity.
    - placed (firstn 2 (skipn 3 mid_kids2)). }
  shown KIfEquation.
  - vm_compute. apply entries_one. reflexivity.
  - placed (firstn 2 (skipn 5 mid_kids2)).
Qed.
Example C108_shown :
  formats mid_s (lines ["model M"; ""; "  Real x; // one"; "  /* two */"; ""; "  // three"; "  Real y;"; ""; "end M;"]%string) /\
  formats mid_s2 (lines ["block N"; ""; "equation"; ""; "  if a then"; "    x = f("; "      1,"; "      2); // one"; "    /* two */"; ""; "    // three"; "    connect(p, q);"; "  end if;"; ""; "end N;"]%string).
Proof. split; formatted. Qed.
Definition open_g : text := lines ["  "; ""; ""; " "]%string.
Definition open_s : text := mid_a ++ mid_x ++ open_g ++ mid_y ++ mid_b.
Definition open_kids := kids_of KElementList open_s.
Example C108_blank_applies : Forall space open_g /\ read open_s (parsed_of open_s) (tree_of open_s) /\
  stands mid_a mid_x (open_g ++ mid_y ++ mid_b) (tree_of open_s) KElementList KElement [] (firstn 2 open_kids) (skipn 2 open_kids ++ []) /\
  stands (mid_a ++ mid_x ++ open_g) mid_y mid_b (tree_of open_s) KElementList KElement ([] ++ firstn 2 open_kids) (skipn 2 open_kids) [] /\ newlines open_g = 3 /\
  formats open_s (lines ["model M"; ""; "  Real x;"; ""; "  Real y;"; ""; "end M;"]%string).
Proof.
  split; [repeat constructor; vm_compute; tauto|]. split; [split; [split|]; vm_compute; reflexivity|]. split.
  { shown KElementList.
    - vm_compute. apply entries_one. reflexivity.
    - placed (firstn 2 open_kids). }
  split; [|split; [vm_compute; reflexivity|formatted]].
  shown KElementList.
  - vm_compute. apply entries_one. reflexivity.
  - placed (skipn 2 open_kids).
Qed.
