(** Property C112: what the check looks at. *)
From Verif Require Import ProofBase Tokens Syntax Lexer SpecLex LexMain LexFacts ParserCore Grammar Tree Printer Formatter Lib SpecLayout
  FmtFacts FmtRelex FmtNeat FmtTree PropsFormat SpecReference PropsReference FmtStable
  Utf8 SpecUtf8 Utf8Facts Cli SpecCli CliFacts CliFind PropsCli PropsTell SpecTidy.

Inductive woven : text -> list token -> Prop :=
| wo_end g : Forall space g -> woven g []
| wo_item g t r items : Forall space g -> woven r items -> woven (g ++ ttext t ++ r) (t :: items).
Lemma lexes_woven s its : lexes s its -> forall items, map item_of items = its -> woven s items.
Proof.
  induction 1 as [|c r its SP _ IH|k w r its LE FO _ IH]; intros items E.
  - destruct items; [|discriminate]. apply wo_end. constructor.
  - specialize (IH items E). destruct IH as [g F|g t r items F W]; [apply wo_end; auto|]. change (c :: g ++ ttext t ++ r) with ((c :: g) ++ ttext t ++ r). constructor; auto.
  - destruct items as [|t items]; [discriminate|]. cbn [map] in E. injection E as K <- E. apply (wo_item [] t r items); [constructor|]. apply IH. exact E.
Qed.
Lemma tidy_render eol s items l : tidy eol s items l -> s = render eol l ++ eol /\ items = map e_tok l.
Proof. induction 1 as [|e r items l _ [-> ->]]; [split; reflexivity|]. split; [|reflexivity]. unfold render. cbn [flat_map]. rewrite <- !app_assoc. reflexivity. Qed.
Lemma render_tidy eol l : tidy eol (render eol l ++ eol) (map e_tok l) l.
Proof. induction l as [|e l IH]; [constructor|]. unfold render in *. cbn [flat_map map]. rewrite <- !app_assoc. constructor. exact IH. Qed.
Lemma same_length {A} (P : A -> Prop) l l' : drops P l l' -> (length l' <= length l)%nat /\ (length l = length l' -> l = l').
Proof.
  induction 1 as [|x l l' _ [IH1 IH2]|x l l' _ _ [IH1 IH2]]; cbn [length]; [auto| |].
  - split; [lia|]. intro E. f_equal. apply IH2. lia.
  - split; [lia|]. intro E. lia.
Qed.

(** Exactly if every item is in its place the output is the text itself. *)
Theorem C112_exactly : forall eol s p items tree, is_eol eol -> reading s p items tree -> no_lone_cr s ->
  (rewrites eol s s <-> tidy eol s items (reference tree items)).
Proof.
  intros eol s p items tree EO RD NC. destruct (reading_reference eol s p items tree RD) as [LO AR]. pose proof (arranged_drops _ _ _ _ _ _ AR) as DR.
  pose proof (rd_accepted _ _ _ _ RD) as ACC. split.
  - intros (p' & out & [PA _] & PP & ->). destruct ACC as [PA' _]. assert (p' = p) as -> by congruence. rewrite (lo_text _ _ _ _ LO) in PP. injection PP as <-.
    assert (lexes (render eol (reference tree items) ++ eol) (map (fun e => item_of (e_tok e)) (reference tree items))) as LX.
    { destruct (eol_tail eol eol EO) as [T1 T2]; [auto|]. pose proof (lexes_lexemes _ _ (rd_lexes _ _ _ _ RD)) as LM.
      assert (Forall (fun e => lexeme (tkind_of (e_tok e)) (ttext (e_tok e))) (reference tree items)) as FL.
      { rewrite Forall_forall in *. intros e I. apply LM. eapply drops_in; [exact DR|]. apply in_map. exact I. }
      apply relex; auto. intros a e. exact (layout_apt _ _ _ _ (rd_lexes _ _ _ _ RD) (rd_laid _ _ _ _ RD) NC AR a e). }
    pose proof (lexes_unique _ _ _ (rd_lexes _ _ _ _ RD) LX) as E.
    assert (items = map e_tok (reference tree items)) as EI.
    { apply (proj2 (same_length _ _ _ DR)). apply (f_equal (@length _)) in E. rewrite !map_length in *. exact E. }
    pose proof (render_tidy eol (reference tree items)) as T. rewrite <- EI in T. exact T.
  - intro T. destruct (tidy_render _ _ _ _ T) as [E _]. exists p, (render eol (reference tree items)). split; [exact ACC|]. split; [exact (lo_text _ _ _ _ LO)|exact E].
Qed.
Print Assumptions C112_exactly.

Lemma judged eol s items l : woven s items -> drops comment items (map e_tok l) -> NoDup items -> tidy eol s items l \/ fault eol s items l.
Proof.
  intros W. revert l. induction W as [g F|g t r items F W IH]; intros l DR ND.
  - inversion DR as [E1 E2| |]. destruct l; [|discriminate]. destruct (list_eq_dec N.eq_dec g eol) as [->|NE]; [left; constructor|right; apply ft_end; auto].
  - inversion ND as [|? ? NI ND']; subst. inversion DR as [|? ? l' D E1 E2|? ? ? CO D]; subst.
    + destruct l as [|e l]; [discriminate|]. cbn [map] in E2. injection E2 as -> ->.
      destruct (list_eq_dec N.eq_dec g (white_text eol (e_white e))) as [->|NE]; [|right; apply ft_gap; auto].
      destruct (IH l D ND') as [T|T]; [left; constructor; exact T|right; apply ft_later; exact T].
    + right. apply ft_comment; auto. intro I. apply NI. eapply drops_in; eauto.
Qed.
Lemma tidy_cons eol s t items e l : tidy eol s (t :: items) (e :: l) -> exists r, s = white_text eol (e_white e) ++ ttext t ++ r /\ t = e_tok e /\ tidy eol r items l.
Proof. intro T. inversion T; subst. eauto. Qed.
Lemma not_both eol s items l : is_eol eol -> Forall (fun t => lexeme (tkind_of t) (ttext t)) items -> fault eol s items l -> ~ tidy eol s items l.
Proof.
  intros EO FL H. induction H as [g e r items l F NE|g t r items l F CO NI|g F NE|e r items l _ IH]; intro T; inversion FL as [|? ? LE FL']; subst.
  - apply tidy_cons in T as (r' & E & _ & _). destruct (lexeme_starts _ _ LE) as (c & b & EC & NS). rewrite EC in E. cbn [app] in E.
    destruct (spaces_apart _ _ _ _ _ _ F (white_space eol (e_white e) EO) NS NS E) as [E' _]. contradiction.
  - destruct l as [|e l]; [inversion T|]. apply tidy_cons in T as (_ & _ & -> & _). apply NI. left. reflexivity.
  - inversion T. congruence.
  - apply tidy_cons in T as (r' & E & _ & T'). apply app_inv_head in E. apply app_inv_head in E. subst r'. apply (IH FL' T').
Qed.
(** Otherwise there is a first place at which something is wrong. *)
Theorem C112_first_fault : forall eol s p items tree, is_eol eol -> reading s p items tree -> no_lone_cr s ->
  (~ rewrites eol s s <-> fault eol s items (reference tree items)).
Proof.
  intros eol s p items tree EO RD NC. pose proof (C112_exactly eol s p items tree EO RD NC) as EX. destruct (reading_reference eol s p items tree RD) as [LO AR]. pose proof (arranged_drops _ _ _ _ _ _ AR) as DR.
  split.
  - intro N. destruct (judged eol s items (reference tree items)) as [T|T]; auto.
    + eapply lexes_woven; [exact (rd_lexes _ _ _ _ RD)|reflexivity].
    + eapply laid_nodup. exact (rd_laid _ _ _ _ RD).
    + destruct (N (proj2 EX T)).
  - intros FT R. apply EX in R. apply (not_both eol s items _ EO) in FT; [exact (FT R)|]. exact (lexes_lexemes _ _ (rd_lexes _ _ _ _ RD)).
Qed.
Print Assumptions C112_first_fault.

(** On the command line: every file of which every item is in its place passes, and no other. *)
Definition in_place (eol : text) (w : world) (s : store) (q : path) : Prop :=
  exists src p items tree, holds w s q src /\ reading src p items tree /\ tidy eol src items (reference tree items).
Lemma in_place_order eol w s q : is_eol eol -> (forall src, holds w s q src -> no_lone_cr src) -> (SpecCli.in_order eol w s true q <-> in_place eol w s q).
Proof.
  intros EO NC. split.
  - intros (src & new & H & R & E). rewrite (E eq_refl) in R. pose proof R as (p & _ & ACC & _). destruct (reading_of src p ACC) as (items & tree & RD).
    exists src, p, items, tree. split; [exact H|]. split; [exact RD|]. apply (C112_exactly eol src p items tree EO RD (NC _ H)). exact R.
  - intros (src & p & items & tree & H & RD & T). exists src, src. split; [exact H|]. split; [|auto]. apply (C112_exactly eol src p items tree EO RD (NC _ H)), T.
Qed.
Theorem C112_check : forall eol w s argv paths files, is_eol eol -> calm w -> dispatch argv (AWork true paths) -> listing w paths files ->
  (forall q src, In q files -> holds w s q src -> no_lone_cr src) ->
  ((exists enough, forall fuel, (enough <= fuel)%nat -> exists es, run fuel eol w s argv = (SExit 0, es)) <-> Forall (in_place eol w s) files).
Proof.
  intros eol w s argv paths files EO C D L NC. destruct C40_exit_code as (_ & Z & A & _).
  assert (Forall (SpecCli.in_order eol w s true) files <-> Forall (in_place eol w s) files) as EQ.
  { rewrite !Forall_forall. split; intros H q Q; apply (in_place_order eol w s q EO (fun src => NC q src Q)), H, Q. }
  split.
  - intros (F & H). destruct (H F (le_n _)) as (es & R). destruct (Z _ _ _ _ _ _ _ _ EO D R) as (fs & L' & IO). rewrite (listing_fun _ _ _ L' _ L) in IO. apply EQ, IO.
  - intro H. apply (A eol w s argv true paths files EO C D L); [apply EQ, H|auto].
Qed.
Print Assumptions C112_check.

(** ** Concrete cases *)
(** A formatted text; a space too many; a comment that will not be printed; nothing at the end. *)
Definition neat_s : text := lines ["model M"; ""; "  Real x; // kept"; ""; "equation"; ""; "end M;"; ""]%string.
Definition broad_s : text := lines ["model M"; ""; "  Real  x; // kept"; ""; "equation"; ""; "end M;"; ""]%string.
Definition remark_s : text := lines ["model M"; ""; "  Real x /* lost */; // kept"; ""; "equation"; ""; "end M;"; ""]%string.
Definition open_s : text := lines ["model M"; ""; "  Real x; // kept"; ""; "equation"; ""; "end M;"]%string.
Lemma neat_fixed : rewrites lf neat_s neat_s.
Proof. eexists _, _. split; [split; [vm_compute; reflexivity|reflexivity]|]. split; vm_compute; reflexivity. Qed.
Example C112_applies : exists p items tree, reading neat_s p items tree /\ no_lone_cr neat_s /\ tidy lf neat_s items (reference tree items).
Proof.
  pose proof neat_fixed as R. destruct R as (p & _ & ACC & _). destruct (reading_of _ _ ACC) as (items & tree & RD). exists p, items, tree. split; [exact RD|].
  assert (no_lone_cr neat_s) as NC by (apply no_cr; reflexivity). split; [exact NC|]. apply (C112_exactly lf _ p items tree (or_introl eq_refl) RD NC), neat_fixed.
Qed.
Lemma faulty s : rewrites lf s neat_s -> s <> neat_s -> no_lone_cr s -> exists p items tree, reading s p items tree /\ fault lf s items (reference tree items).
Proof.
  intros R NE NC. pose proof R as (p & _ & ACC & _). destruct (reading_of _ _ ACC) as (items & tree & RD). exists p, items, tree. split; [exact RD|].
  apply (C112_first_fault lf s p items tree (or_introl eq_refl) RD NC). intro R'. apply NE. exact (rewrites_fun _ _ _ _ R' R).
Qed.
Example C112_faults : Forall (fun s => exists p items tree, reading s p items tree /\ fault lf s items (reference tree items)) [broad_s; remark_s; open_s].
Proof.
  repeat constructor; (apply faulty; [eexists _, _; split; [split; [vm_compute; reflexivity|reflexivity]|]; split; vm_compute; reflexivity|vm_compute; discriminate|apply no_cr; reflexivity]).
Qed.
