(** Model of src/main.rs step by step, for several runs at the same time.

    The functions are those of [Cli.v] with the store taken out: a run is a tree of steps,
    each of which reads a file ([Look], where the run goes on with whatever the file contains
    at that moment) or has an effect ([Tell]). System calls other than these are decided by
    [w_fault] as in [Cli.v]; [t] counts them. That a run which is alone does what [Cli.run]
    says is proved in [CliTogether.v].

    Simplified: a file is read in one step, and a byte is written to the end of the file, not to
    a position which the run remembers. The two differ if a file is changed while it is read or
    by two runs whose writing overlaps; the theorems on runs that do not disturb each other
    exclude both, and the counterexamples do not use them. *)
From Verif Require Import Base Tokens Syntax ParserCore Lib Utf8 Cli.

Inductive prog :=
| Done (x : stop)
| Tell (e : effect) (k : prog)
| Look (i : inode) (k : bytes -> prog).

Definition say_prog (w : world) (e : effect) (t : nat) (k : nat -> prog) : prog :=
  match w_fault w t with FNone => Tell e (k (S t)) | _ => Done SPanic end.
Definition lift_prog {A} (r : res A) (k : A -> prog) : prog :=
  match r with Ok a => k a | Panic _ => Done SPanic | OutOfFuel => Done SLoop end.
Fixpoint tell_all (es : list effect) (k : prog) : prog :=
  match es with [] => k | e :: es' => Tell e (tell_all es' k) end.

(** main.rs 132-140: [read_file]. The whole file is read in one step. *)
Definition read_prog (w : world) (from : path) (t : nat) (k : text + text -> nat -> prog) : prog :=
  if negb (is_modelica from) then k (inr (display from ++ str " is not a Modelica file")) t
  else match w_fault w t, w_node w from with
       | FNone, Some (NFile i) =>
           Look i (fun c => match decode c with
                            | Some src => k (inl src) (S t)
                            | None => k (inr (w_oserr w)) (S t)
                            end)
       | _, _ => k (inr (w_oserr w)) (S t)
       end.
(** main.rs 143-145: [write_file]. Truncating and writing are separate steps. *)
Definition write_prog (w : world) (to : path) (code : text) (t : nat) (k : nat -> prog) : prog :=
  match w_fault w t, w_node w to with
  | FNone, Some (NFile i) => Tell (ETrunc i) (tell_all (map (EWrite i) (encode code)) (k (S t)))
  | FPartial n, Some (NFile i) => Tell (ETrunc i) (tell_all (map (EWrite i) (firstn n (encode code))) (Done SPanic))
  | _, _ => Done SPanic
  end.
(** main.rs 61-98 *)
Definition process_prog (eol : text) (w : world) (check : bool) (code : N) (p : path) (t : nat) (k : N -> nat -> prog) : prog :=
  read_prog w p t (fun contents t =>
  let name := display p in
  match contents with
  | inl source =>
      lift_prog (parse source KStoredDefinition) (fun parsed =>
      match p_errors parsed with
      | _ :: _ =>
          say_prog w (EOut (str "Syntax errors detected:" ++ [10] ++ join_lines (error_strings name parsed) ++ [10])) t (k 1)
      | [] =>
          lift_prog (pretty_print eol parsed) (fun out =>
          let output := out ++ eol in
          if check then
            if negb (text_eqb output source) then say_prog w (EOut (name ++ str ": check failed" ++ [10])) t (k 1)
            else say_prog w (EOut (name ++ str ": check passed" ++ [10])) t (k code)
          else write_prog w p output t (k code))
      end)
  | inr e => say_prog w (EErr (name ++ str ": error: " ++ e ++ [10])) t (k 1)
  end).
Fixpoint process_all_prog (eol : text) (w : world) (check : bool) (code : N) (ps : list path) (t : nat) (k : N -> nat -> prog) : prog :=
  match ps with
  | [] => k code t
  | p :: ps' => process_prog eol w check code p t (fun code' t => process_all_prog eol w check code' ps' t k)
  end.
(** main.rs 47-100: [format_files]. The search reads and writes no files ([collect] of [Cli.v]). *)
Definition nothing : store := fun _ => [].
Definition format_prog (fuel : nat) (eol : text) (w : world) (args : list path) (check : bool) : prog :=
  match collect fuel w args (mkState nothing [] 0) with
  | (inl files, st) => process_all_prog eol w check 0 files (s_tick st) (fun code _ => Done (SExit code))
  | (inr x, _) => Done x
  end.
(** main.rs 21-44: [main] *)
Definition main_with_prog (fuel : nat) (eol : text) (w : world) (args : list text) : prog :=
  match args with
  | [] | [_] => say_prog w (EErr missing) 0 (fun _ => Done (SExit 1))
  | _ :: first :: rest =>
      if text_eqb first (str "-h") || text_eqb first (str "--help") then
        say_prog w (EOut (help ++ [10])) 0 (fun _ => Done (SExit 0))
      else if text_eqb first (str "-v") || text_eqb first (str "--version") then
        say_prog w (EOut (str "mofmt, " ++ version ++ [10])) 0 (fun _ => Done (SExit 0))
      else if text_eqb first (str "--check") then
        match rest with
        | [] => say_prog w (EErr missing) 0 (fun _ => Done (SExit 1))
        | _ => format_prog fuel eol w (map encode rest) true
        end
      else if starts_dash first then
        say_prog w (EErr (str "Unrecognized option: '" ++ first ++ str "'." ++ [10] ++ help ++ [10])) 0 (fun _ => Done (SExit 1))
      else format_prog fuel eol w (map encode (first :: rest)) false
  end.
Definition main_prog (fuel : nat) (eol : text) (w : world) (argv : list bytes) : prog :=
  match decode_all argv with
  | Some args => main_with_prog fuel eol w args
  | None => Done SPanic
  end.

(** ** Runs at the same time *)

(** A run that is alone. *)
Fixpoint play (q : prog) (s : store) : stop * list effect :=
  match q with
  | Done x => (x, [])
  | Tell e k => let '(x, es) := play k (effect_on s e) in (x, e :: es)
  | Look i k => play (k (s i)) s
  end.

Fixpoint set_nth {A} (j : nat) (a : A) (l : list A) : list A :=
  match l, j with
  | [], _ => []
  | _ :: l', O => a :: l'
  | b :: l', S j' => b :: set_nth j' a l'
  end.
(** [together qs s tr qs' s']: the runs [qs] start with the store [s]; after some steps, taken in any order, with the
    effects [tr] (each with the number of the run), they have become [qs'] and the store [s']. *)
Inductive together : list prog -> store -> list (nat * effect) -> list prog -> store -> Prop :=
| tg_here qs s : together qs s [] qs s
| tg_look qs s j i k tr qs' s' : nth_error qs j = Some (Look i k) ->
    together (set_nth j (k (s i)) qs) s tr qs' s' -> together qs s tr qs' s'
| tg_tell qs s j e k tr qs' s' : nth_error qs j = Some (Tell e k) ->
    together (set_nth j k qs) (effect_on s e) tr qs' s' -> together qs s ((j, e) :: tr) qs' s'.
(** The effects of one run. *)
Definition own (j : nat) (tr : list (nat * effect)) : list effect := map snd (filter (fun x => Nat.eqb (fst x) j) tr).
