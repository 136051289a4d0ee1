(** The formatter looks at kinds, texts, numbers and lines of the tokens only. *)
From Verif Require Import ProofBase Tokens Syntax Lexer SpecLex LexInv LexMain LexFacts ParserCore Grammar
  Tree Printer Formatter Lib ParserSem ParserFacts FmtPlan FmtRelex SpecSpacing.

(** A token without its columns and byte offsets. *)
Definition level (t : token) : token :=
  mkTok (tidx t) (ttext t) (tkind_of t) (mkPos 0 (line (tstart t)) 0) (mkPos 0 (line (tend t)) 0).

(** ** Trees *)
Section Trees.
Variable g : token -> token.

Fixpoint tmap (c : child) : child :=
  match c with
  | CTok t => CTok (g t)
  | CTree k cs => CTree k (map tmap cs)
  end.
Definition frame_map (x : frame) : frame := (fst x, map tmap (snd x)).

Lemma build_loop_map evs : forall toks stack,
  build_loop evs (map g toks) (map frame_map stack) =
  rmap (fun x => (map g (fst x), map frame_map (snd x))) (build_loop evs toks stack).
Proof.
  induction evs as [|[k| |] evs IH]; intros toks stack; [reflexivity| | |]; cbn [build_loop].
  - apply (IH toks ((k, []) :: stack)).
  - destruct stack as [|[k cs] stack]; [reflexivity|]. cbn [map frame_map fst snd].
    destruct cs as [|c cs]; [apply IH|]. cbn [map].
    destruct stack as [|[k' cs'] stack]; [reflexivity|]. cbn [map frame_map fst snd].
    rewrite <- IH. cbn [map]. unfold frame_map at 2. cbn [fst snd map tmap]. rewrite map_rev. reflexivity.
  - destruct toks as [|t toks]; [reflexivity|]. cbn [map].
    destruct stack as [|[k cs] stack]; [reflexivity|]. cbn [map frame_map fst snd].
    rewrite <- IH. reflexivity.
Qed.

Lemma build_tree_map toks evs : build_tree (map g toks) evs = rmap tmap (build_tree toks evs).
Proof.
  unfold build_tree. destruct (rev evs) as [|[k| |] es]; try reflexivity.
  change (@nil frame) with (map frame_map []) at 1. rewrite (build_loop_map (rev es) toks []), bind_rmap, rmap_bind. apply bind_ext.
  intros [ts st]. cbn [fst snd]. destruct ts; [|reflexivity]. cbn [map].
  destruct st as [|[k cs] [|x st]]; try reflexivity.
  cbn [map]. unfold frame_map. cbn [fst snd rmap tmap]. rewrite map_rev. reflexivity.
Qed.

Lemma start_map c : start_of (tmap c) = option_map g (start_of c).
Proof.
  induction c as [x|k cs IH] using child_ind2; [reflexivity|]. destruct IH as [|c cs H _]; [reflexivity|]. exact H.
Qed.
Lemma end_map c : end_of (tmap c) = option_map g (end_of c).
Proof.
  induction c as [x|k cs IH] using child_ind2; [reflexivity|].
  induction IH as [|c cs H F IHF]; [reflexivity|].
  destruct cs as [|c' cs]; [exact H|]. exact IHF.
Qed.
Lemma contains_map k c : contains k (tmap c) = contains k c.
Proof.
  induction c as [x|k0 cs IH] using child_ind2; [reflexivity|].
  induction IH as [|c cs H F IHF]; [reflexivity|]. cbn [tmap map].
  destruct c as [t|k' cs']; [exact IHF|].
  change (contains k (CTree k0 (map tmap (CTree k' cs' :: cs)))) with
    ((if skind_eqb k' k then true else contains k (tmap (CTree k' cs'))) || contains k (CTree k0 (map tmap cs)))%bool.
  change (contains k (CTree k0 (CTree k' cs' :: cs))) with
    ((if skind_eqb k' k then true else contains k (CTree k' cs')) || contains k (CTree k0 cs))%bool.
  refine (f_equal2 orb _ _); [destruct (skind_eqb k' k); [reflexivity|exact H]|exact IHF].
Qed.
End Trees.

(** ** The formatter *)
Notation lt := (tmap level).
Definition lstate (f : fstate) : fstate := mkF (map level (fcoms f)) (fmarks f) (fprev f) (fline f).

Lemma is_multiline_level c : is_multiline (lt c) = is_multiline c.
Proof.
  unfold is_multiline. rewrite start_map, end_map.
  destruct (start_of c), (end_of c); reflexivity.
Qed.

Lemma comments_before_level ln tok cs :
  comments_before ln (level tok) (map level cs) =
  let '(a, b, r) := comments_before ln tok cs in (map level a, map level b, map level r).
Proof.
  induction cs as [|c cs IH]; [reflexivity|]. cbn [map comments_before].
  change (tidx (level c)) with (tidx c). change (tidx (level tok)) with (tidx tok).
  change (line (tstart (level c))) with (line (tstart c)).
  destruct (tidx c <? tidx tok); [|reflexivity]. rewrite IH.
  destruct (comments_before ln tok cs) as [[a b] r]. destruct (line (tstart c) =? ln); reflexivity.
Qed.

Lemma push_inlines_level cs : forall ms, push_inlines (map level cs) ms = push_inlines cs ms.
Proof. induction cs as [|c cs IH]; intro ms; [reflexivity|]. cbn. apply IH. Qed.

Lemma push_comments_level b pl cs : forall ln ms,
  push_comments b pl ln (map level cs) ms = push_comments b pl ln cs ms.
Proof.
  induction cs as [|c cs IH]; intros ln ms; [reflexivity|]. cbn [map push_comments].
  change (line (tstart (level c))) with (line (tstart c)).
  change (line (tend (level c))) with (line (tend c)). change (ttext (level c)) with (ttext c).
  apply bind_ext. intro a. apply IH.
Qed.

Lemma handle_break_level t b f :
  handle_break (level t) b (lstate f) = rmap lstate (handle_break t b f).
Proof.
  unfold handle_break. cbn [lstate fline fcoms fmarks fprev]. rewrite comments_before_level.
  destruct (comments_before (fline f) t (fcoms f)) as [[a c] r].
  rewrite push_inlines_level, push_comments_level, rmap_bind. apply bind_ext. intros [ms ln].
  rewrite rmap_bind. apply bind_ext. reflexivity.
Qed.

Lemma handle_token_level t f : handle_token (level t) (lstate f) = lstate (handle_token t f).
Proof.
  unfold handle_token. cbn [lstate fline fcoms fmarks fprev]. rewrite comments_before_level.
  destruct (comments_before (fline f) t (fcoms f)) as [[a c] r]. reflexivity.
Qed.

Lemma push_all_level ms : forall f, push_all ms (lstate f) = lstate (push_all ms f).
Proof. induction ms as [|m ms IH]; intro f; [reflexivity|]. cbn. apply (IH (push m f)). Qed.

Lemma view_level f i c cs : view_of (lstate f) i (lt c) (map lt cs) = view_of f i c cs.
Proof.
  unfold view_of. rewrite is_multiline_level, contains_map, start_map.
  f_equal.
  - destruct c; reflexivity.
  - destruct cs as [|[t|k l] cs]; reflexivity.
  - destruct cs as [|p cs]; [reflexivity|]. cbn [map]. rewrite start_map. destruct (start_of p); reflexivity.
  - destruct (start_of c); reflexivity.
  - destruct c as [t|k [|x l]]; reflexivity.
  - destruct c; reflexivity.
Qed.

Lemma last_close_level cl ol cs : forall acc, last_close cl ol (map lt cs) acc = last_close cl ol cs acc.
Proof. induction cs as [|[t|k l] cs IH]; intro acc; [reflexivity| |]; cbn; apply IH. Qed.
Lemma paren_level op cl cs : paren_multiline op cl (map lt cs) = paren_multiline op cl cs.
Proof.
  induction cs as [|[t|k l] cs IH]; [reflexivity| |]; cbn [map tmap paren_multiline]; auto.
  change (tkind_of (level t)) with (tkind_of t). rewrite IH.
  change (line (tstart (level t))) with (line (tstart t)). rewrite last_close_level. reflexivity.
Qed.

Lemma prologue_level fn ml w oel t cs :
  prologue fn ml w oel (lt t) (map lt cs) = prologue fn ml w oel t cs.
Proof.
  unfold prologue, len_cmp. rewrite !paren_level, is_multiline_level, !contains_map, map_length. reflexivity.
Qed.

Theorem fmt_level t : forall fn ml w oel f,
  fmt fn ml w oel (lt t) (lstate f) = rmap (fun x => (fst x, lstate (snd x))) (fmt fn ml w oel t f).
Proof.
  induction t as [x|k cs IH] using child_ind2; intros fn ml w oel f; [reflexivity|].
  cbn [tmap]. rewrite !fmt_tree.
  change (CTree k (map lt cs)) with (lt (CTree k cs)). rewrite prologue_level, rmap_bind.
  apply bind_ext. intros [ms l]. rewrite push_all_level.
  assert (L : forall i l f, fmt_loop fn (map lt cs) i l (lstate f) =
                rmap (fun x => (fst x, lstate (snd x))) (fmt_loop fn cs i l f)).
  { clear f ms l. induction IH as [|c cs H F IHF]; intros i l f; [reflexivity|].
    cbn [map fmt_loop]. rewrite view_level. destruct (step fn l (view_of f i c cs)) as [acts l'].
    assert (R : forall acts l f, fmt_run (lt c) (map lt cs) acts l (lstate f) =
                  rmap (fun x => (fst x, lstate (snd x))) (fmt_run c cs acts l f)).
    { clear - H. induction acts as [|a acts IH]; intros l f; [reflexivity|]. cbn [fmt_run].
      rewrite rmap_bind.
      match goal with |- bind ?X ?K = bind ?Y ?K' =>
        assert (X = rmap (fun x => (fst x, lstate (snd x))) Y) as -> end.
      { destruct a as [m|tg b| |fn' ml' w' oel' keep|p]; try reflexivity.
        - rewrite rmap_bind.
          match goal with |- bind (unwrap ?O) _ = bind (unwrap ?O') _ =>
            assert (O = option_map level O') as -> end.
          { destruct tg; [apply start_map|]. destruct cs as [|p cs]; [reflexivity|]. cbn [map]. apply start_map. }
          match goal with |- bind (unwrap (option_map level ?O')) _ = _ => destruct O' as [t|] end; [|reflexivity].
          cbn [option_map unwrap bind]. rewrite handle_break_level, bind_rmap, rmap_bind. reflexivity.
        - destruct c; [|reflexivity]. cbn [tmap]. rewrite handle_token_level. reflexivity.
        - rewrite H, bind_rmap, rmap_bind. apply bind_ext. intros [r f']. reflexivity. }
      rewrite bind_rmap. apply bind_ext. intros [l1 f1]. cbn [fst snd]. apply IH. }
    rewrite R, bind_rmap, rmap_bind. apply bind_ext. intros [l1 f1]. cbn [fst snd]. apply IHF. }
  rewrite L, bind_rmap, rmap_bind. apply bind_ext. intros [l1 f1]. cbn [fst snd rmap].
  rewrite push_all_level. reflexivity.
Qed.

Lemma format_level t coms : format (lt t) (map level coms) = format t coms.
Proof.
  destruct t as [x|k cs]; [reflexivity|]. unfold format. cbn [tmap].
  change (CTree k (map lt cs)) with (lt (CTree k cs)).
  change (formatter_new (map level coms)) with (lstate (formatter_new coms)).
  rewrite fmt_level, bind_rmap. apply bind_ext. intros [r f]. reflexivity.
Qed.

Theorem pretty_print_level eol p p' :
  map level (p_tokens p) = map level (p_tokens p') ->
  map level (p_comments p) = map level (p_comments p') ->
  p_events p = p_events p' ->
  pretty_print eol p = pretty_print eol p'.
Proof.
  intros T C E.
  assert (forall q, pretty_print eol q =
    (t <- build_tree (map level (p_tokens q)) (p_events q) ;;
     ms <- format t (map level (p_comments q)) ;; print eol ms)) as K.
  { intro q. unfold pretty_print. rewrite build_tree_map, bind_rmap. apply bind_ext. intro t.
    rewrite format_level. reflexivity. }
  rewrite (K p), (K p'), T, C, E. reflexivity.
Qed.

(** ** Items of two texts that differ in horizontal white space *)
Inductive respaced_items : list (tkind * text) -> text -> text -> Prop :=
| ri_end g g' : Forall space g -> Forall space g' -> respaced_items [] g g'
| ri_gap its g g' r r' :
    Forall space g -> Forall space g' -> newlines g = newlines g' ->
    respaced_items its r r' -> respaced_items its (g ++ r) (g' ++ r')
| ri_item its k w r r' :
    lexeme k w -> follow_ok k w r -> follow_ok k w r' ->
    respaced_items its r r' -> respaced_items ((k, w) :: its) (w ++ r) (w ++ r').

Lemma respaced_has s s' : respaced s s' -> exists its, respaced_items its s s'.
Proof.
  induction 1 as [g g' G G'|g g' r r' G G' N H [its IH]|k w r r' L F F' H [its IH]].
  - exists []. apply ri_end; auto.
  - exists its. apply ri_gap; auto.
  - exists ((k, w) :: its). apply ri_item; auto.
Qed.

Lemma respaced_lexes its s s' : respaced_items its s s' -> lexes s its /\ lexes s' its.
Proof.
  induction 1 as [g g' G G'|its g g' r r' G G' N H [A B]|its k w r r' L F F' H [A B]].
  - split; apply lexes_all_space; auto.
  - split; apply lexes_spaces; auto.
  - split; apply lexes_item; auto.
Qed.


Lemma newlines_app a b : newlines (a ++ b) = newlines a + newlines b.
Proof. induction a as [|c a IH]; [reflexivity|]. cbn [app newlines]. rewrite IH. lia. Qed.

Lemma fwd_skip g : forall c items r, Forall space g ->
  Forall (fun t => exists k, lexeme k (ttext t)) items ->
  fwd c items (g ++ r) -> items <> [] -> fwd (c ++ g) items r.
Proof.
  induction g as [|x g IH]; intros c items r S L F NE; [rewrite app_nil_r; exact F|].
  inversion S as [|? ? Sx Sg]; subst. cbn [app] in F. inversion F; subst; [congruence| |].
  - replace (c ++ x :: g) with ((c ++ [x]) ++ g) by (rewrite <- app_assoc; reflexivity). apply IH; auto.
  - inversion L as [|? ? [k K] _]; subst. apply lexeme_starts in K as (y & b & E & NS).
    rewrite E in H. cbn [app] in H. injection H as E1 _. subst y. contradiction.
Qed.

Lemma respaced_lines its s s' : respaced_items its s s' -> forall c c' items items',
  fwd c items s -> fwd c' items' s' -> newlines c = newlines c' ->
  map item_of items = its -> map item_of items' = its ->
  map (fun t => line (tstart t)) items = map (fun t => line (tstart t)) items'.
Proof.
  assert (LX : forall its s s' items, respaced_items its s s' -> map item_of items = its ->
            Forall (fun t => exists k, lexeme k (ttext t)) items).
  { clear. intros its s s' items H. revert items. induction H; intros items E; auto.
    - destruct items; [constructor|discriminate].
    - destruct items as [|t items]; [discriminate|]. cbn [map] in E. unfold item_of at 1 in E.
      injection E as E1 E2 E3. subst. constructor; eauto. }
  induction 1 as [g g' G G'|its g g' r r' G G' N H IH|its k w r r' L F F' H IH]; intros c c' items items' W W' NL E E'.
  - destruct items, items'; try discriminate. reflexivity.
  - destruct items as [|t items].
    { cbn in E. subst its. destruct items'; [reflexivity|discriminate]. }
    destruct items' as [|t' items']; [subst its; discriminate|].
    apply fwd_skip in W; [|auto|eapply LX; eauto|discriminate].
    apply fwd_skip in W'; [|auto|eapply LX; eauto|discriminate].
    eapply IH; eauto. rewrite !newlines_app. lia.
  - destruct items as [|t items]; [discriminate|]. destruct items' as [|t' items']; [discriminate|].
    cbn [map] in E, E'. unfold item_of at 1 in E. unfold item_of at 1 in E'. injection E as E1 E2 E3. injection E' as E1' E2' E3'.
    pose proof L as L0. apply lexeme_starts in L0 as (y & b & EW & NS).
    assert (forall c t items r, fwd c (t :: items) (w ++ r) -> ttext t = w ->
      line (tstart t) = 1 + newlines c /\ fwd (c ++ w) items r) as K.
    { clear - EW NS. intros c t items r F E. remember (w ++ r) as z eqn:Ez. remember (t :: items) as ts eqn:Et.
      destruct F as [c z|c x ts z Sx F|c t0 ts z Lx F]; [discriminate| |].
      - rewrite EW in Ez. cbn [app] in Ez. injection Ez as -> _. contradiction.
      - injection Et as -> ->. rewrite E in *. apply app_inv_head in Ez. subst z. auto. }
    apply K in W as [X Y]; auto. apply K in W' as [X' Y']; auto.
    cbn [map]. f_equal; [congruence|]. eapply IH; eauto. rewrite !newlines_app. lia.
Qed.

Lemma laid_end s items t : laid space s items -> In t items ->
  line (tend t) = line (tstart t) + newlines (ttext t).
Proof.
  intros L I. destruct (laid_truthful _ _ _ _ L I) as (pre & post & _ & [A _] & _ & [B _] & _).
  rewrite A, B, newlines_app. lia.
Qed.

Lemma same_level items items' :
  map item_of items = map item_of items' ->
  map tidx items = map tidx items' ->
  map (fun t => line (tstart t)) items = map (fun t => line (tstart t)) items' ->
  (forall t, In t items -> line (tend t) = line (tstart t) + newlines (ttext t)) ->
  (forall t, In t items' -> line (tend t) = line (tstart t) + newlines (ttext t)) ->
  map level items = map level items'.
Proof.
  revert items'. induction items as [|t items IH]; intros [|t' items'] E I L K K'; try discriminate; [reflexivity|].
  cbn [map] in *. unfold item_of at 1 3 in E. injection E as E1 E2 E3. injection I as I1 I2. injection L as L1 L2.
  f_equal; [|apply IH; auto; intros; [apply K|apply K']; right; auto]. unfold level.
  rewrite (K t), (K' t') by (left; reflexivity). rewrite E1, E2, I1, L1. reflexivity.
Qed.

Lemma filter_level (p : token -> bool) : (forall t, p (level t) = p t) ->
  forall items items', map level items = map level items' -> map level (filter p items) = map level (filter p items').
Proof.
  intros P. induction items as [|t items IH]; intros [|t' items'] E; try discriminate; [reflexivity|].
  cbn [map] in E. injection E as E0 E1. assert (level t = level t') as E by (unfold level; congruence).
  clear E0. cbn [filter]. rewrite <- (P t), <- (P t'), E. destruct (p (level t')); cbn [map]; rewrite ?E, (IH items'); auto.
Qed.
