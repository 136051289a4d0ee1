(** The order of files does not matter, and files can be dealt with in several runs (C90). *)
From Coq Require Import Permutation.
From Verif Require Import ProofBase Tokens Syntax ParserCore Lib PropsParser FmtFacts FmtNeat PropsFormat Utf8 SpecUtf8 Utf8Facts Cli SpecCli CliFacts CliFind PropsCli SpecOrder CliOrder.

(** Formatting: the paths may be given in another order, and the entries of directories may be
    listed in another order.  The files end up the same, and so does the exit code. *)
Theorem C90_order fuel eol w w' s0 argv argv' paths paths' c es :
  calm w -> calm w' -> reordered w w' -> Permutation paths paths' ->
  dispatch argv (AWork false paths) -> dispatch argv' (AWork false paths') ->
  run fuel eol w s0 argv = (SExit c, es) ->
  exists es', run fuel eol w' s0 argv' = (SExit c, es') /\ forall i, after_effects s0 es i = after_effects s0 es' i.
Proof.
  intros C C' R P D D' H. destruct (run_order w w' C C' R fuel eol s0 false _ _ _ _ c es D D' P H) as (es' & E & S & _). eauto.
Qed.
Print Assumptions C90_order.

(** Checking: the same reports are made in another order. *)
Theorem C90_check fuel eol w w' s0 argv argv' paths paths' c es :
  calm w -> calm w' -> reordered w w' -> Permutation paths paths' ->
  dispatch argv (AWork true paths) -> dispatch argv' (AWork true paths') ->
  run fuel eol w s0 argv = (SExit c, es) ->
  exists es', run fuel eol w' s0 argv' = (SExit c, es') /\ Permutation es es'.
Proof.
  intros C C' R P D D' H. destruct (run_order w w' C C' R fuel eol s0 true _ _ _ _ c es D D' P H) as (es' & E & _ & S). eauto.
Qed.
Print Assumptions C90_check.

(** Several paths in one run do what one run for the first ones and another one for the others do. *)
Theorem C90_split fuel eol w s0 check argv argv1 argv2 a b :
  calm w -> dispatch argv (AWork check (a ++ b)) -> dispatch argv1 (AWork check a) -> dispatch argv2 (AWork check b) ->
  forall c es, run fuel eol w s0 argv = (SExit c, es) <->
    exists c1 e1 c2 e2,
      run fuel eol w s0 argv1 = (SExit c1, e1) /\ run fuel eol w (after_effects s0 e1) argv2 = (SExit c2, e2) /\
      c = N.max c1 c2 /\ es = e1 ++ e2.
Proof. intros C D D1 D2. exact (run_split eol w C fuel s0 check argv argv1 argv2 a b D D1 D2). Qed.
Print Assumptions C90_split.

(** ** A concrete case *)
(** The directories of [demo], listed the other way round. *)
Definition omed_node (p : path) : option node :=
  match demo_node p with Some (NDir es) => Some (NDir (rev es)) | n => n end.
Definition omed : world := mkWorld omed_node (fun _ => FNone) (w_oserr demo).
Lemma omed_calm : calm omed. Proof. intro n. reflexivity. Qed.
Lemma omed_reordered : reordered demo omed.
Proof.
  split; [reflexivity|]. intro p. cbn [w_node omed demo]. unfold omed_node. destruct (demo_node p) as [[i|es]|]; try reflexivity. apply Permutation_rev.
Qed.
Definition omed_argv : list bytes := [str "mofmt"; str "c.mo"; str "src"].
Lemma omed_dispatch : dispatch omed_argv (AWork false [str "c.mo"; str "src"]).
Proof. apply dp_chooses; [repeat constructor; eexists; ascii|]. apply ds_format. intros o E. discriminate. Qed.
Example C90_applies :
  fst (run 5 lf demo demo_store demo_argv) = SExit 1 /\ fst (run 5 lf omed demo_store omed_argv) = SExit 1 /\
  snd (run 5 lf demo demo_store demo_argv) <> snd (run 5 lf omed demo_store omed_argv) /\
  after_effects demo_store (snd (run 5 lf omed demo_store omed_argv)) 1 = neat_text /\ demo_store 1 <> neat_text.
Proof. split; [vm_compute; reflexivity|]. split; [vm_compute; reflexivity|]. split; [vm_compute; discriminate|]. split; [vm_compute; reflexivity|vm_compute; discriminate]. Qed.
Example C90_checked : run 5 lf omed demo_store [str "mofmt"; str "--check"; str "c.mo"; str "src"] =
  (SExit 1, [EOut (str "Syntax errors detected:" ++ [10] ++ str "c.mo:1:7: expected 'end', found EOF" ++ [10] ++
                   str "c.mo:1:7: expected IDENTIFIER, found EOF" ++ [10] ++ str "c.mo:1:7: expected ';', found EOF" ++ [10]);
             EOut (str "src/sub/b.mo: check passed" ++ [10]);
             EOut (str "src/a.mo: check failed" ++ [10])]).
Proof. vm_compute. reflexivity. Qed.
Example C90_parts : exists c1 e1 c2 e2,
  run 5 lf demo demo_store [str "mofmt"; str "src"] = (SExit c1, e1) /\
  run 5 lf demo (after_effects demo_store e1) [str "mofmt"; str "c.mo"] = (SExit c2, e2) /\
  run 5 lf demo demo_store demo_argv = (SExit (N.max c1 c2), e1 ++ e2) /\ c1 = 0 /\ c2 = 1.
Proof.
  exists 0, (snd (run 5 lf demo demo_store [str "mofmt"; str "src"])), 1, (snd (run 5 lf demo demo_store [str "mofmt"; str "c.mo"])).
  split; [vm_compute; reflexivity|]. split; [vm_compute; reflexivity|]. split; [vm_compute; reflexivity|]. split; reflexivity.
Qed.
