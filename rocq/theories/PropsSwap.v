(** Property C105: entries of a list change places. *)
From Verif Require Import ProofBase Tokens Syntax SpecLex Tree Printer Formatter Lib SpecLanguage SpecLayout FmtNeat SpecReference PropsFormat
  FmtReference FmtStable SpecLocal SpecEdit FmtSplice PropsEdit SpecCopy FmtSwap.

Theorem C105_exchange : forall A x g y B p tree k e u wx vg wy v,
  read (A ++ x ++ g ++ y ++ B) p tree -> stands A x (g ++ y ++ B) tree k e u wx (vg ++ wy ++ v) -> stands (A ++ x ++ g) y B tree k e (u ++ wx ++ vg) wy v ->
  (exists A0 c, A = A0 ++ [c] /\ parting c) -> (exists A0 c, A ++ x ++ g = A0 ++ [c] /\ parting c) -> leaked wx = leaked wy ->
  exists p' tree' la i r lg j q lb j' q' lg' i' r' lb' b n b2 n2,
    read (A ++ y ++ g ++ x ++ B) p' tree' /\
    (forall eol, layout_of eol (A ++ x ++ g ++ y ++ B) p (la ++ (i :: r) ++ lg ++ (j :: q) ++ lb) /\
                 layout_of eol (A ++ y ++ g ++ x ++ B) p' (la ++ (j' :: q') ++ lg' ++ (i' :: r') ++ lb')) /\
    Forall (fun z => begins 0 (bytes_of A) z = true) la /\
    Forall (fun z => begins (bytes_of A) (bytes_of (A ++ x)) z = true) (i :: r) /\
    Forall (fun z => begins (bytes_of (A ++ x)) (bytes_of (A ++ x ++ g)) z = true) lg /\
    Forall (fun z => begins (bytes_of (A ++ x ++ g)) (bytes_of (A ++ x ++ g ++ y)) z = true) (j :: q) /\
    Forall (fun z => begins (bytes_of (A ++ x ++ g ++ y)) (bytes_of (A ++ x ++ g ++ y ++ B)) z = true) lb /\
    Forall2 alike lg lg' /\ Forall2 alike lb lb' /\
    e_white i = WLine b n /\ e_white j = WLine b2 n2 /\ n2 = (n + leaked (wx ++ vg))%nat /\ e_white j' = e_white i /\ e_white i' = e_white j /\
    ttext (e_tok i') = ttext (e_tok i) /\ tkind_of (e_tok i') = tkind_of (e_tok i) /\ ttext (e_tok j') = ttext (e_tok j) /\ tkind_of (e_tok j') = tkind_of (e_tok j) /\
    Forall2 (copied n n2) r r' /\ Forall2 (copied n2 n) q q'.
Proof.
  intros A x g y B p tree k e u wx vg wy v R SX SY PA PG LK. destruct (read_reading _ _ _ R) as (items & RD).
  destruct (exchange _ _ _ _ _ _ _ _ _ _ _ _ _ _ _ RD SX SY PA PG LK)
    as (p' & items' & tree' & la & i & r & lg & j & q & lb & j' & q' & lg' & i' & r' & lb' & b & n & b2 & n2 & RD' & E & E' & H).
  exists p', tree', la, i, r, lg, j, q, lb, j', q', lg', i', r', lb', b, n, b2, n2. split; [split; [apply (rd_accepted _ _ _ _ RD')|apply (rd_tree _ _ _ _ RD')]|]. split; [|exact H].
  intro eol. rewrite <- E, <- E'. split; [apply (reading_reference eol _ _ _ _ RD)|apply (reading_reference eol _ _ _ _ RD')].
Qed.
Print Assumptions C105_exchange.

(** The texts: without wrapped left-hand sides among the entries in between, the two pieces of the output change places. *)
Lemma render_app eol l l' : render eol (l ++ l') = render eol l ++ render eol l'.
Proof. unfold render. apply flat_map_app. Qed.
Theorem C105_text : forall A x g y B p tree k e u wx vg wy v,
  read (A ++ x ++ g ++ y ++ B) p tree -> stands A x (g ++ y ++ B) tree k e u wx (vg ++ wy ++ v) -> stands (A ++ x ++ g) y B tree k e (u ++ wx ++ vg) wy v ->
  (exists A0 c, A = A0 ++ [c] /\ parting c) -> (exists A0 c, A ++ x ++ g = A0 ++ [c] /\ parting c) -> leaked wx = 0%nat -> leaked wy = 0%nat -> leaked vg = 0%nat ->
  exists p' la i r lg j q lb b b2 n, accepted (A ++ y ++ g ++ x ++ B) p' /\
    (forall eol, layout_of eol (A ++ x ++ g ++ y ++ B) p (la ++ (i :: r) ++ lg ++ (j :: q) ++ lb)) /\
    Forall (fun z => begins 0 (bytes_of A) z = true) la /\
    Forall (fun z => begins (bytes_of A) (bytes_of (A ++ x)) z = true) (i :: r) /\
    Forall (fun z => begins (bytes_of (A ++ x)) (bytes_of (A ++ x ++ g)) z = true) lg /\
    Forall (fun z => begins (bytes_of (A ++ x ++ g)) (bytes_of (A ++ x ++ g ++ y)) z = true) (j :: q) /\
    Forall (fun z => begins (bytes_of (A ++ x ++ g ++ y)) (bytes_of (A ++ x ++ g ++ y ++ B)) z = true) lb /\
    e_white i = WLine b n /\ e_white j = WLine b2 n /\
    forall eol, exists a X G Y c, a = render eol la /\ X = ttext (e_tok i) ++ render eol r /\ G = render eol lg /\ Y = ttext (e_tok j) ++ render eol q /\ c = render eol lb /\
      pretty_print eol p = Ok (a ++ white_text eol (WLine b n) ++ X ++ G ++ white_text eol (WLine b2 n) ++ Y ++ c) /\
      pretty_print eol p' = Ok (a ++ white_text eol (WLine b n) ++ Y ++ G ++ white_text eol (WLine b2 n) ++ X ++ c).
Proof.
  intros A x g y B p tree k e u wx vg wy v R SX SY PA PG LX LY LG.
  destruct (C105_exchange _ _ _ _ _ _ _ _ _ _ _ _ _ _ R SX SY PA PG ltac:(congruence))
    as (p' & tree' & la & i & r & lg & j & q & lb & j' & q' & lg' & i' & r' & lb' & b & n & b2 & n2 & R' & L & B1 & B2 & B3 & B4 & B5 & AG & AB & WI & WJ & LV & WJ' & WI' & TI & _ & TJ & _ & CR & CQ).
  assert (n2 = n) as ->.
  { rewrite LV. assert (forall a c, leaked (a ++ c) = (leaked a + leaked c)%nat) as LA by (induction a as [|d a IH]; intro c; [reflexivity|]; cbn [app leaked fold_right]; fold (leaked (a ++ c)) (leaked a); rewrite IH; lia). rewrite LA, LX, LG. lia. }
  exists p', la, i, r, lg, j, q, lb, b, b2, n. split; [apply R'|]. split; [intro eol; apply (L eol)|]. do 7 (split; [assumption|]).
  intro eol. do 5 eexists. do 5 (split; [reflexivity|]). destruct (L eol) as [L1 L2]. rewrite (lo_text _ _ _ _ L1), (lo_text _ _ _ _ L2).
  assert (forall l l', Forall2 alike l l' -> render eol l' = render eol l) as RA.
  { clear. intros l l' F. unfold render. induction F as [|z z' l l' (W & T & _) _ IH]; [reflexivity|]. cbn [flat_map]. rewrite W, T, IH. reflexivity. }
  assert (forall l l', Forall2 (copied n n) l l' -> render eol l' = render eol l) as RC.
  { clear. intros l l' F. unfold render. induction F as [|z z' l l' (T & _ & S) _ IH]; [reflexivity|]. cbn [flat_map]. rewrite IH, T. replace (e_white z') with (e_white z); [reflexivity|].
    unfold same_white in S. destruct (e_white z), (e_white z'); try congruence. destruct S as [-> S]. f_equal. lia. }
  rewrite !render_app, (RA _ _ AG), (RA _ _ AB).
  assert (forall z l, render eol (z :: l) = white_text eol (e_white z) ++ ttext (e_tok z) ++ render eol l) as RZ by (intros z l; unfold render; cbn [flat_map]; rewrite <- app_assoc; reflexivity).
  rewrite !RZ, WI, WJ, WJ', WI', WI, WJ, TI, TJ, (RC _ _ CR), (RC _ _ CQ), <- !app_assoc. split; reflexivity.
Qed.
Print Assumptions C105_text.

(** Non-vacuity: two declarations with another one and comments between them. *)
Definition swap_a : text := lines ["model M // m"; "parameter Real p; "]%string.
Definition swap_x : text := lines ["Real x(min = 0,"; "max = 1);"]%string.
Definition swap_g : text := lines [" // first"; ""; "Real z; // second"; " "]%string.
Definition swap_y : text := str "Integer n;".
Definition swap_b : text := lines [" // third"; "equation x = p; end M;"]%string.
Definition swap_s : text := swap_a ++ swap_x ++ swap_g ++ swap_y ++ swap_b.
Definition swap_kids := kids_of KElementList swap_s.
Example C105_applies :
  read swap_s (parsed_of swap_s) (tree_of swap_s) /\
  stands swap_a swap_x (swap_g ++ swap_y ++ swap_b) (tree_of swap_s) KElementList KElement (firstn 2 swap_kids) (firstn 2 (skipn 2 swap_kids))
    (firstn 2 (skipn 4 swap_kids) ++ firstn 2 (skipn 6 swap_kids) ++ skipn 8 swap_kids) /\
  stands (swap_a ++ swap_x ++ swap_g) swap_y swap_b (tree_of swap_s) KElementList KElement
    (firstn 2 swap_kids ++ firstn 2 (skipn 2 swap_kids) ++ firstn 2 (skipn 4 swap_kids)) (firstn 2 (skipn 6 swap_kids)) (skipn 8 swap_kids) /\
  (exists A0 c, swap_a = A0 ++ [c] /\ parting c) /\ (exists A0 c, swap_a ++ swap_x ++ swap_g = A0 ++ [c] /\ parting c) /\
  leaked (firstn 2 (skipn 2 swap_kids)) = 0%nat /\ leaked (firstn 2 (skipn 6 swap_kids)) = 0%nat /\ leaked (firstn 2 (skipn 4 swap_kids)) = 0%nat.
Proof.
  split; [split; [split|]; vm_compute; reflexivity|]. split.
  { shown KElementList.
    - vm_compute. apply entries_one. reflexivity.
    - placed (firstn 2 (skipn 2 swap_kids)). }
  split.
  { shown KElementList.
    - vm_compute. apply entries_one. reflexivity.
    - placed (firstn 2 (skipn 6 swap_kids)). }
  split; [exists (removelast swap_a), 32; split; [vm_compute; reflexivity|left; vm_compute; tauto]|].
  split; [exists (removelast (swap_a ++ swap_x ++ swap_g)), 32; split; [vm_compute; reflexivity|left; vm_compute; tauto]|].
  split; [vm_compute; reflexivity|]. split; vm_compute; reflexivity.
Qed.
Example C105_shown :
  formats swap_s (lines ["model M // m"; ""; "  parameter Real p;"; "  Real x("; "    min = 0,"; "    max = 1); // first"; ""; "  Real z; // second"; "  Integer n; // third"; ""; "equation"; ""; "  x = p;"; ""; "end M;"]%string) /\
  formats (swap_a ++ swap_y ++ swap_g ++ swap_x ++ swap_b) (lines ["model M // m"; ""; "  parameter Real p;"; "  Integer n; // first"; ""; "  Real z; // second"; "  Real x("; "    min = 0,"; "    max = 1); // third"; ""; "equation"; ""; "  x = p;"; ""; "end M;"]%string).
Proof. split; formatted. Qed.
(** A wrapped left-hand side in between: the pieces change places, and their indentation changes. *)
Example C105_leak :
  formats (lines ["model M equation x = f(1,"; "2); a"; "+ b = 1; y = 2; end M;"]%string) (lines ["model M"; ""; "equation"; ""; "  x = f("; "    1,"; "    2);"; "  a"; "    + b = 1;"; "    y = 2;"; ""; "  end M;"]%string) /\
  formats (lines ["model M equation y = 2; a"; "+ b = 1; x = f(1,"; "2); end M;"]%string) (lines ["model M"; ""; "equation"; ""; "  y = 2;"; "  a"; "    + b = 1;"; "    x = f("; "      1,"; "      2);"; ""; "  end M;"]%string).
Proof. split; formatted. Qed.
