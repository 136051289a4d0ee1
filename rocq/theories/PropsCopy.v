(** Property C104: copied entries look as they do in the file they were taken from. *)
From Verif Require Import ProofBase Tokens Syntax SpecLex Tree Printer Formatter Lib SpecLanguage SpecLayout FmtNeat SpecReference PropsFormat
  FmtReference FmtStable SpecLocal SpecEdit FmtSplice PropsEdit SpecCopy FmtCopy.

Theorem C104_copy : forall A x B p tree k e u w v A2 B2 p2 tree2 k2 u2 w2 v2,
  read (A ++ x ++ B) p tree -> stands A x B tree k e u w v -> read (A2 ++ x ++ B2) p2 tree2 -> stands A2 x B2 tree2 k2 e u2 w2 v2 ->
  Forall2 same_form w w2 /\
  exists l l2, (forall eol, layout_of eol (A ++ x ++ B) p l) /\ (forall eol, layout_of eol (A2 ++ x ++ B2) p2 l2) /\
    exists i r i2 r2 b n b2 n2,
      filter (begins (bytes_of A) (bytes_of (A ++ x))) l = i :: r /\ filter (begins (bytes_of A2) (bytes_of (A2 ++ x))) l2 = i2 :: r2 /\
      e_white i = WLine b n /\ e_white i2 = WLine b2 n2 /\ ttext (e_tok i2) = ttext (e_tok i) /\ tkind_of (e_tok i2) = tkind_of (e_tok i) /\
      Forall2 (copied n n2) r r2.
Proof.
  intros A x B p tree k e u w v A2 B2 p2 tree2 k2 u2 w2 v2 R ST R2 ST2. destruct (read_reading _ _ _ R) as (items & RD). destruct (read_reading _ _ _ R2) as (items2 & RD2).
  destruct (copies _ _ _ _ _ _ _ _ _ _ _ _ _ _ _ _ _ _ _ _ _ _ RD eq_refl ST RD2 eq_refl ST2)
    as (SF & _ & LA & LB & i & r & LA2 & LB2 & i2 & r2 & b & n & b2 & n2 & E1 & E2 & G1 & G2 & G3 & H1 & H2 & H3 & W1 & W2 & T & K & C).
  split; [exact SF|]. exists (reference tree items), (reference tree2 items2). split; [intro eol; apply (reading_reference eol _ _ _ _ RD)|]. split; [intro eol; apply (reading_reference eol _ _ _ _ RD2)|].
  exists i, r, i2, r2, b, n, b2, n2.
  assert (forall f t l, Forall (fun y => begins f t y = true) l -> filter (begins f t) l = l) as FK.
  { intros f t l F. induction F as [|y l Y _ IH]; [reflexivity|]. cbn [filter]. rewrite Y, IH. reflexivity. }
  assert (forall f t f' t' l, Forall (fun y => begins f' t' y = true) l -> t <= f' \/ t' <= f -> filter (begins f t) l = []) as FN.
  { intros f t f' t' l F D. induction F as [|y l Y _ IH]; [reflexivity|]. cbn [filter]. destruct (begins f t y) eqn:Q; [|exact IH]. exfalso. unfold begins in *. apply andb_true_iff in Y, Q. rewrite N.leb_le, N.ltb_lt in *. lia. }
  split; [rewrite E1, !filter_app, (FN _ _ _ _ _ G1), (FK _ _ _ G2), (FN _ _ _ _ _ G3), app_nil_r by lia; reflexivity|].
  split; [rewrite E2, !filter_app, (FN _ _ _ _ _ H1), (FK _ _ _ H2), (FN _ _ _ _ _ H3), app_nil_r by lia; reflexivity|].
  auto.
Qed.
Print Assumptions C104_copy.

(** The texts: if the entries start at the same level in both files, the formatter writes them with the same characters. *)
Theorem C104_text : forall A x B p tree k e u w v A2 B2 p2 tree2 k2 u2 w2 v2,
  read (A ++ x ++ B) p tree -> stands A x B tree k e u w v -> read (A2 ++ x ++ B2) p2 tree2 -> stands A2 x B2 tree2 k2 e u2 w2 v2 ->
  exists l l2 i r i2 r2 b n b2 n2, (forall eol, layout_of eol (A ++ x ++ B) p l) /\ (forall eol, layout_of eol (A2 ++ x ++ B2) p2 l2) /\
    filter (begins (bytes_of A) (bytes_of (A ++ x))) l = i :: r /\ filter (begins (bytes_of A2) (bytes_of (A2 ++ x))) l2 = i2 :: r2 /\
    e_white i = WLine b n /\ e_white i2 = WLine b2 n2 /\
    (n = n2 -> forall eol, ttext (e_tok i) ++ render eol r = ttext (e_tok i2) ++ render eol r2).
Proof.
  intros A x B p tree k e u w v A2 B2 p2 tree2 k2 u2 w2 v2 R ST R2 ST2.
  destruct (C104_copy _ _ _ _ _ _ _ _ _ _ _ _ _ _ _ _ _ _ R ST R2 ST2) as (_ & l & l2 & L & L2 & i & r & i2 & r2 & b & n & b2 & n2 & E & E2 & W & W2 & T & _ & C).
  exists l, l2, i, r, i2, r2, b, n, b2, n2. do 6 (split; [assumption|]). intros <- eol. rewrite T. f_equal. unfold render. clear - C.
  induction C as [|y y' r r' (T & _ & S) _ IH]; [reflexivity|]. cbn [flat_map]. rewrite IH, T. replace (e_white y') with (e_white y); [reflexivity|].
  unfold same_white in S. destruct (e_white y), (e_white y'); try congruence. destruct S as [-> S]. f_equal. lia.
Qed.
Print Assumptions C104_text.

(** Non-vacuity: two entries of an if-equation, there and in the equation section of another file. *)
Definition pasted_u := firstn 3 (kids_of KEquationSection (hole_a ++ other_x ++ hole_b)).
Definition pasted_w := firstn 4 (skipn 3 (kids_of KEquationSection (hole_a ++ other_x ++ hole_b))).
Definition pasted_v := skipn 7 (kids_of KEquationSection (hole_a ++ other_x ++ hole_b)).
Example C104_applies :
  read (hole_a ++ other_x ++ hole_b) (parsed_of (hole_a ++ other_x ++ hole_b)) (tree_of (hole_a ++ other_x ++ hole_b)) /\
  stands hole_a other_x hole_b (tree_of (hole_a ++ other_x ++ hole_b)) KEquationSection KEquation pasted_u pasted_w pasted_v /\
  read (other_a ++ other_x ++ other_b) (parsed_of (other_a ++ other_x ++ other_b)) (tree_of (other_a ++ other_x ++ other_b)) /\
  stands other_a other_x other_b (tree_of (other_a ++ other_x ++ other_b)) KIfEquation KEquation other_u other_w other_v.
Proof.
  split; [split; [split|]; vm_compute; reflexivity|]. split.
  { shown KEquationSection.
    - vm_compute. apply entries_more; [reflexivity|]. apply entries_one. reflexivity.
    - placed pasted_w. }
  split; [split; [split|]; vm_compute; reflexivity|].
  shown KIfEquation.
  - vm_compute. apply entries_more; [reflexivity|]. apply entries_one. reflexivity.
  - placed other_w.
Qed.
(** The two files: the entries are one level further to the right in the second one. *)
Example C104_shown :
  formats (hole_a ++ other_x ++ hole_b) (lines ["model M"; ""; "  Real x;"; ""; "equation"; ""; "  y = 2;"; "  p = f("; "    q, // all"; "    r);"; ""; "  connect(g, h); // one"; ""; "  if a then"; "    z = 3;"; "  end if;"; ""; "end M;"]%string) /\
  formats (other_a ++ other_x ++ other_b) (lines ["model N"; ""; "equation"; ""; "  if c then"; "    a = 1;"; "    p = f("; "      q, // all"; "      r);"; ""; "    connect(g, h);"; "  end if;"; ""; "end N;"]%string).
Proof. split; formatted. Qed.
