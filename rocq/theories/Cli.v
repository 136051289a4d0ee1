(** Model of src/main.rs: the command line tool, on a file system. *)
From Verif Require Import Base Tokens Syntax ParserCore Lib Utf8.

(** ** The world around the program
    File contents, paths and arguments are bytes, of which nothing is assumed. Simplifications:
    what a path leads to does not change during a run (the program creates, renames and removes
    nothing, other processes are not modelled); paths are those of Unix. Everything that can go wrong in a system call (reading a
    directory or a file, opening or writing a file, printing) is decided by [w_fault], once
    per call. *)
Definition inode := N.
Definition path := bytes.
Inductive node := NFile (i : inode) | NDir (entries : list bytes).
Inductive fault := FNone | FFail | FPartial (n : nat).
Record world := mkWorld {
  w_node : path -> option node;
  w_fault : nat -> fault;
  w_oserr : text
}.
Definition store := inode -> bytes.

(** Observable effects; killing the program leaves the effects of a prefix of its trace. *)
Inductive effect :=
| EOut (t : text)
| EErr (t : text)
| ETrunc (i : inode)
| EWrite (i : inode) (b : N).
Definition update (s : store) (i : inode) (c : bytes) : store := fun j => if j =? i then c else s j.
Definition effect_on (s : store) (e : effect) : store :=
  match e with
  | EOut _ | EErr _ => s
  | ETrunc i => update s i []
  | EWrite i b => update s i (s i ++ [b])
  end.
Definition after_effects (s : store) (es : list effect) : store := fold_left effect_on es s.

(** How a run ends: exit code, panic, or endless recursion through directories. *)
Inductive stop := SExit (code : N) | SPanic | SLoop.
Record state := mkState { s_store : store; s_trace : list effect; s_tick : nat }.
Definition M (A : Type) : Type := state -> (A + stop) * state.
Definition ret {A} (a : A) : M A := fun s => (inl a, s).
Definition halt {A} (x : stop) : M A := fun s => (inr x, s).
Definition andthen {A B} (m : M A) (f : A -> M B) : M B :=
  fun s => match m s with
           | (inl a, s') => f a s'
           | (inr x, s') => (inr x, s')
           end.
Notation "x <~ a ;; b" := (andthen a (fun x => b)) (at level 61, a at next level, right associativity).
Definition emit (e : effect) : M unit :=
  fun s => (inl tt, mkState (effect_on (s_store s) e) (s_trace s ++ [e]) (s_tick s)).
Fixpoint emit_all (es : list effect) : M unit :=
  match es with [] => ret tt | e :: es' => _ <~ emit e ;; emit_all es' end.
Definition call (w : world) : M fault :=
  fun s => (inl (w_fault w (s_tick s)), mkState (s_store s) (s_trace s) (S (s_tick s))).
Definition peek (i : inode) : M bytes := fun s => (inl (s_store s i), s).
(** A panic of the library. *)
Definition lift {A} (r : res A) : M A :=
  match r with Ok a => ret a | Panic _ => halt SPanic | OutOfFuel => halt SLoop end.

(** Printing panics if it fails ([println!], [eprintln!], [writeln!(..).unwrap()]). *)
Definition say (w : world) (e : effect) : M unit :=
  f <~ call w ;; match f with FNone => emit e | _ => halt SPanic end.

(** ** Paths *)

(** [DirEntry::path]: [PathBuf::join] of the directory and a file name. *)
Definition slash_ch : N := 47.
Definition ends_slash (p : path) : bool := match rev p with c :: _ => c =? slash_ch | [] => false end.
Definition join (dir : path) (name : bytes) : path :=
  if ends_slash dir || text_eqb dir [] then dir ++ name else dir ++ [slash_ch] ++ name.

(** The parts of a path between slashes. *)
Fixpoint split_on (d : N) (t : bytes) : list bytes :=
  match t with
  | [] => [[]]
  | c :: t' =>
      if c =? d then [] :: split_on d t'
      else match split_on d t' with
           | x :: xs => (c :: x) :: xs
           | [] => [[c]]
           end
  end.
(** [Path::file_name]: the last component, if it is a normal one. Empty parts and [.] are
    not components (a leading [.] is one, but not a normal one). *)
Definition dot_part : bytes := [46].
Definition dotdot_part : bytes := [46; 46].
Definition file_name (p : path) : option bytes :=
  match filter (fun x => negb (text_eqb x []) && negb (text_eqb x dot_part)) (rev (split_on slash_ch p)) with
  | [] => None
  | x :: _ => if text_eqb x dotdot_part then None else Some x
  end.
(** [Path::extension]: what follows the last dot, if something precedes it. *)
Fixpoint last_dot (rt : bytes) (after : bytes) : option (bytes * bytes) :=
  match rt with
  | [] => None
  | c :: rt' => if c =? 46 then Some (rev rt', after) else last_dot rt' (c :: after)
  end.
Definition extension (p : path) : option bytes :=
  match file_name p with
  | None => None
  | Some f => match last_dot (rev f) [] with
              | None => None
              | Some ([], _) => None
              | Some (_, after) => Some after
              end
  end.

(** main.rs 124-129: [is_modelica] *)
Definition is_modelica (p : path) : bool :=
  match extension p with Some suffix => text_eqb suffix (str "mo") | None => false end.

(** [Path::is_dir] *)
Definition is_dir (w : world) (p : path) : bool :=
  match w_node w p with Some (NDir _) => true | _ => false end.

(** ** Functions of main.rs *)
Fixpoint mapM {A B} (f : A -> M B) (l : list A) : M (list B) :=
  match l with
  | [] => ret []
  | a :: l' => b <~ f a ;; bs <~ mapM f l' ;; ret (b :: bs)
  end.

(** main.rs 103-121: [get_files_from_dir] *)
Fixpoint get_files_from_dir (fuel : nat) (w : world) (dir : path) : M (list path) :=
  match fuel with
  | O => halt SLoop
  | S fuel' =>
      f <~ call w ;;
      match f, w_node w dir with
      | FNone, Some (NDir entries) =>
          files <~ mapM (fun name =>
                     f <~ call w ;;
                     match f with
                     | FNone =>
                         let p := join dir name in
                         if is_dir w p then get_files_from_dir fuel' w p
                         else if is_modelica p then ret [p]
                         else ret []
                     | _ => halt SPanic
                     end) entries ;;
          ret (concat files)
      | _, _ => halt SPanic
      end
  end.

(** main.rs 132-140: [read_file]; [inr] is [Err]. *)
Definition read_file (w : world) (from : path) : M (text + text) :=
  if negb (is_modelica from) then ret (inr (display from ++ str " is not a Modelica file"))
  else
    f <~ call w ;;
    match f, w_node w from with
    | FNone, Some (NFile i) =>
        c <~ peek i ;;
        match decode c with
        | Some t => ret (inl t)
        | None => ret (inr (w_oserr w))
        end
    | _, _ => ret (inr (w_oserr w))
    end.

(** main.rs 143-145: [write_file]. [fs::write] opens and truncates the file, then writes. *)
Definition write_file (w : world) (to : path) (code : text) : M unit :=
  f <~ call w ;;
  match f, w_node w to with
  | FNone, Some (NFile i) => _ <~ emit (ETrunc i) ;; emit_all (map (EWrite i) (encode code))
  | FPartial n, Some (NFile i) =>
      _ <~ emit (ETrunc i) ;; _ <~ emit_all (map (EWrite i) (firstn n (encode code))) ;; halt SPanic
  | _, _ => halt SPanic
  end.

(** [join("\n")] *)
Fixpoint join_lines (ls : list text) : text :=
  match ls with [] => [] | [l] => l | l :: ls' => l ++ [10] ++ join_lines ls' end.

(** main.rs 61-98: the body of the loop over the files, from the current to the new exit code. *)
Definition process (eol : text) (w : world) (check : bool) (code : N) (p : path) : M N :=
  contents <~ read_file w p ;;
  let name := display p in
  match contents with
  | inl source =>
      parsed <~ lift (parse source KStoredDefinition) ;;
      match p_errors parsed with
      | _ :: _ =>
          _ <~ say w (EOut (str "Syntax errors detected:" ++ [10] ++ join_lines (error_strings name parsed) ++ [10])) ;;
          ret 1
      | [] =>
          out <~ lift (pretty_print eol parsed) ;;
          let output := out ++ eol in
          if check then
            if negb (text_eqb output source) then
              _ <~ say w (EOut (name ++ str ": check failed" ++ [10])) ;; ret 1
            else
              _ <~ say w (EOut (name ++ str ": check passed" ++ [10])) ;; ret code
          else
            _ <~ write_file w p output ;; ret code
      end
  | inr e =>
      _ <~ say w (EErr (name ++ str ": error: " ++ e ++ [10])) ;; ret 1
  end.

Fixpoint process_all (eol : text) (w : world) (check : bool) (code : N) (ps : list path) : M N :=
  match ps with
  | [] => ret code
  | p :: ps' => code' <~ process eol w check code p ;; process_all eol w check code' ps'
  end.

(** main.rs 51-60: the files to process *)
Definition collect (fuel : nat) (w : world) (args : list path) : M (list path) :=
  files <~ mapM (fun p => if is_dir w p then get_files_from_dir fuel w p else ret [p]) args ;;
  ret (concat files).

(** main.rs 47-100: [format_files] *)
Definition format_files (fuel : nat) (eol : text) (w : world) (args : list path) (check : bool) : M unit :=
  files <~ collect fuel w args ;;
  code <~ process_all eol w check 0 files ;;
  halt (SExit code).

(** main.rs 8-17: [HELP]; main.rs 6: [VERSION] *)
Definition help : text :=
  [10] ++ str "mofmt: Modelica code formatter" ++ [10; 10] ++
  str "Usage: mofmt [OPTIONS] <PATHS>" ++ [10; 10] ++
  str "Options:" ++ [10] ++
  str "-h, --help: display this message and exit" ++ [10] ++
  str "-v, --version: display a version number and exit" ++ [10] ++
  str "--check: run mofmt in check mode (without modifying the file)" ++ [10].
Definition version : text := str "0.6.0".
Definition missing : text := str "Missing PATHS arguments." ++ [10] ++ help ++ [10].

(** main.rs 21-44: [main] on the arguments as texts, including the name of the program.
    [starts_with('-')], [PathBuf::from]. *)
Definition starts_dash (t : text) : bool := match t with c :: _ => c =? 45 | [] => false end.
Definition main_with (fuel : nat) (eol : text) (w : world) (args : list text) : M unit :=
  match args with
  | [] | [_] => _ <~ say w (EErr missing) ;; halt (SExit 1)
  | _ :: first :: rest =>
      if text_eqb first (str "-h") || text_eqb first (str "--help") then
        _ <~ say w (EOut (help ++ [10])) ;; halt (SExit 0)
      else if text_eqb first (str "-v") || text_eqb first (str "--version") then
        _ <~ say w (EOut (str "mofmt, " ++ version ++ [10])) ;; halt (SExit 0)
      else if text_eqb first (str "--check") then
        match rest with
        | [] => _ <~ say w (EErr missing) ;; halt (SExit 1)
        | _ => format_files fuel eol w (map encode rest) true
        end
      else if starts_dash first then
        _ <~ say w (EErr (str "Unrecognized option: '" ++ first ++ str "'." ++ [10] ++ help ++ [10])) ;; halt (SExit 1)
      else format_files fuel eol w (map encode (first :: rest)) false
  end.
(** main.rs 22: [env::args] panics if an argument is not UTF-8. *)
Fixpoint decode_all (argv : list bytes) : option (list text) :=
  match argv with
  | [] => Some []
  | a :: argv' =>
      match decode a, decode_all argv' with
      | Some t, Some ts => Some (t :: ts)
      | _, _ => None
      end
  end.
Definition main (fuel : nat) (eol : text) (w : world) (argv : list bytes) : M unit :=
  match decode_all argv with
  | Some args => main_with fuel eol w args
  | None => halt SPanic
  end.

(** A run from the start: how it ends and its effects in order. *)
Definition run (fuel : nat) (eol : text) (w : world) (s0 : store) (argv : list bytes) : stop * list effect :=
  match main fuel eol w argv (mkState s0 [] 0) with
  | (inl _, s) => (SExit 0, s_trace s)
  | (inr x, s) => (x, s_trace s)
  end.
