(** Property C86: parts of files are laid out in the same way wherever they stand. *)
From Verif Require Import ProofBase Tokens Syntax Lexer SpecLex LexInv LexMain LexFacts ParserCore Grammar
  Tree Printer Formatter Lib ParserSem ParserFuel SpecGrammar Regex ParserGrammar ParserTree ParserFacts Recognise PropsParser
  SpecLanguage ParserComplete PropsLanguage
  FmtAbs FmtPlan FmtShape FmtTables FmtSound SpecLayout FmtExec FmtTop FmtFacts FmtRelex FmtNeat SpecNodes FmtTree FmtLists FmtOps
  FmtWrap SpecGaps SpecReference FmtNode FmtReference FmtSame PropsFormat PropsReference FmtBreaks FmtAgree FmtPrinted FmtStable FmtMoved
  FmtConcat SpecLevels FmtLevels PropsTree PropsLevels SpecLocal FmtLocal.

(** ** C86: nodes of the same kind with tokens and comments in the same places

    The layouts of both files have the same entries from the first to the last token of the nodes, except for the
    white space in front of the first one, and except that lines start [n'] levels to the right in one of them
    and [n] in the other. *)
Lemma likewise_sym a a' t t' : likewise a a' t t' -> likewise a' a t' t.
Proof. intros (A & B & C & D). unfold likewise. repeat split; congruence || lia. Qed.
Lemma forall2_swap {A B} (Q : A -> B -> Prop) (Q' : B -> A -> Prop) l l' : (forall x y, Q x y -> Q' y x) -> Forall2 Q l l' -> Forall2 Q' l' l.
Proof. intro K. induction 1; constructor; auto. Qed.

Theorem C86_local : forall s p s' p', accepted s p -> accepted s' p' ->
  exists tree l tree' l', (forall eol, laid_tree eol s p tree l) /\ (forall eol, laid_tree eol s' p' tree' l') /\
    forall k cs cs' a u b v a' u' b' v',
    inside (CTree k cs) tree -> inside (CTree k cs') tree' -> self_contained k = true ->
    toks (CTree k cs) = a :: u -> toks (CTree k cs) = v ++ [b] ->
    toks (CTree k cs') = a' :: u' -> toks (CTree k cs') = v' ++ [b'] ->
    Forall2 (likewise a a') (between a b (p_tokens p)) (between a' b' (p_tokens p')) ->
    Forall2 (likewise a a') (between a b (p_comments p)) (between a' b' (p_comments p')) ->
    exists n n' e r e' r', excerpt a b l = e :: r /\ excerpt a' b' l' = e' :: r' /\
      e_tok e = a /\ e_tok e' = a' /\ e_rule e' = e_rule e /\
      (forall x m x' m', e_white e = WLine x m -> e_white e' = WLine x' m' -> (m' + n = m + n')%nat) /\
      Forall2 (fun e e' => e_rule e' = e_rule e /\ likewise a a' (e_tok e) (e_tok e') /\
                           same_white n n' (e_white e) (e_white e')) r r'.
Proof.
  intros s p s' p' ACC ACC'. destruct (reading_of s p ACC) as (items & tree & R). destruct (reading_of s' p' ACC') as (items' & tree' & R').
  exists tree, (reference tree items), tree', (reference tree' items').
  split; [intro eol; split; [apply R|apply (reading_reference eol _ _ _ _ R)]|]. split; [intro eol; split; [apply R'|apply (reading_reference eol _ _ _ _ R')]|].
  intros k cs cs' a u b v a' u' b' v' I I' SC TA TB TA' TB' LT LC.
  destruct (N.le_ge_cases (line (tstart a)) (line (tstart a'))) as [LE|LE].
  - exact (local_down _ _ _ _ _ _ _ _ k cs cs' a b u v a' b' u' v' R R' I I' SC TA TB TA' TB' LT LC LE).
  - destruct (local_down _ _ _ _ _ _ _ _ k cs' cs a' b' u' v' a b u v R' R I' I SC TA' TB' TA TB) as (n & n' & e & r & e' & r' & E1 & E2 & E3 & E4 & E5 & E6 & E7); auto.
    { apply (forall2_swap _ _ _ _ (likewise_sym a a') LT). }
    { apply (forall2_swap _ _ _ _ (likewise_sym a a') LC). }
    exists n', n, e', r', e, r. split; [exact E2|]. split; [exact E1|]. split; [exact E4|]. split; [exact E3|]. split; [congruence|]. split.
    + intros x m x' m' X X'. specialize (E6 _ _ _ _ X' X). lia.
    + revert E7. apply forall2_swap. intros x y (X1 & X2 & X3). split; [congruence|]. split; [apply likewise_sym, X2|].
      unfold same_white in *. destruct (e_white x), (e_white y); try congruence; try discriminate. destruct X3. split; [congruence|lia].
Qed.
Print Assumptions C86_local.

(** The same model in a file of its own and inside two packages. *)
Definition alone : text := lines
  ["model A Real x; // c"; "equation"; "  x = 1 +"; "    2;"; "end A;"; ""]%string.
Definition nested : text := lines
  ["within W;"; "package P"; "package Q"; "  Real z;"; "  encapsulated package R"; "model B Real y; // d"; "equation"; "y = 3 +"; "4;"; "end B;"; "end R; end Q; end P;"; ""]%string.
Example C86_formats :
  formats alone (lines ["model A"; ""; "  Real x; // c"; ""; "equation"; ""; "  x = 1"; "    + 2;"; ""; "end A;"]%string) /\
  formats nested (lines
    ["within W;"; "package P"; ""; "  package Q"; ""; "    Real z;"; "    encapsulated package R"; ""; "      model B"; ""; "        Real y; // d"; "";
     "      equation"; ""; "        y = 3"; "          + 4;"; ""; "      end B;"; ""; "    end R;"; ""; "  end Q;"; ""; "end P;"]%string).
Proof. split; formatted. Qed.

Fixpoint nodes (k : skind) (c : child) : list (list child) :=
  match c with CTok _ => [] | CTree k' cs => (if skind_eqb k k' then [cs] else []) ++ flat_map (nodes k) cs end.
Lemma nodes_inside k c : forall cs, In cs (nodes k c) -> inside (CTree k cs) c.
Proof.
  induction c as [t|k' ds IH] using child_ind2; intros cs I; [destruct I|]. cbn [nodes] in I. apply in_app_or in I as [I|I].
  - destruct (skind_eqb k k') eqn:E; [|destruct I]. apply skind_eqb_eq in E. subst k'. destruct I as [->|[]]. constructor.
  - apply in_flat_map in I as (d & D & I). rewrite Forall_forall in IH. econstructor; [exact D|auto].
Qed.
Example C86_meets : exists p p' tree tree', accepted alone p /\ accepted nested p' /\
  build_tree (p_tokens p) (p_events p) = Ok tree /\ build_tree (p_tokens p') (p_events p') = Ok tree' /\
  exists cs cs' a u b v a' u' b' v', inside (CTree KClassDefinition cs) tree /\ inside (CTree KClassDefinition cs') tree' /\
    toks (CTree KClassDefinition cs) = a :: u /\ toks (CTree KClassDefinition cs) = v ++ [b] /\
    toks (CTree KClassDefinition cs') = a' :: u' /\ toks (CTree KClassDefinition cs') = v' ++ [b'] /\
    Forall2 (likewise a a') (between a b (p_tokens p)) (between a' b' (p_tokens p')) /\
    Forall2 (likewise a a') (between a b (p_comments p)) (between a' b' (p_comments p')) /\
    length u = 13%nat /\ length (between a' b' (p_comments p')) = 1%nat.
Proof.
  eexists. eexists. eexists. eexists. split; [split; vm_compute; reflexivity|]. split; [split; vm_compute; reflexivity|].
  split; [vm_compute; reflexivity|]. split; [vm_compute; reflexivity|]. cbn [p_tokens p_comments].
  do 10 eexists. split; [apply nodes_inside; vm_compute; left; reflexivity|]. split; [apply nodes_inside; vm_compute; right; right; right; left; reflexivity|].
  split; [vm_compute; reflexivity|].
  split; [match goal with |- ?l = _ => let l' := eval vm_compute in (removelast l) in let z := eval vm_compute in (last l (mkTok 0 [] TEOF (mkPos 0 0 0) (mkPos 0 0 0))) in instantiate (1 := z); instantiate (1 := l') end; vm_compute; reflexivity|].
  split; [vm_compute; reflexivity|].
  split; [match goal with |- ?l = _ => let l' := eval vm_compute in (removelast l) in let z := eval vm_compute in (last l (mkTok 0 [] TEOF (mkPos 0 0 0) (mkPos 0 0 0))) in instantiate (1 := z); instantiate (1 := l') end; vm_compute; reflexivity|].
  match goal with |- Forall2 ?q ?x ?y /\ Forall2 _ ?x2 ?y2 /\ _ =>
    let x' := eval vm_compute in x in let y' := eval vm_compute in y in change x with x'; change y with y';
    let x3 := eval vm_compute in x2 in let y3 := eval vm_compute in y2 in change x2 with x3; change y2 with y3 end.
  split; [repeat (constructor; [repeat split|]); constructor|]. split; [repeat (constructor; [repeat split|]); constructor|]. split; reflexivity.
Qed.
