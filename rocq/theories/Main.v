(** Model of src/pulmtln.cpp, the command line program. *)
From Verif Require Import Prelude StdMap Json Materials ModelM Parser Solver Results Driver.
Open Scope string_scope.

(** What boost::program_options stores (pulmtln.cpp:15-29): the options given. Third party, by
    contract: "--help" or "-h"; "--input F", "-i F", "--input=F" or "-iF" (F not empty). An option
    that is unknown, that lacks its value or that is given twice throws, and so does an argument
    that is not an option. Abbreviations of option names ("--in") are not modelled: they throw
    here. A value that begins with '-' is taken as the next option (and then the value is
    missing). *)
Record cli := { c_help : bool; c_input : option string }.
Definition no_options : cli := {| c_help := false; c_input := None |}.
Inductive argument := ArgHelp | ArgInput (value : option string) | ArgOther.
Definition value_given (s : string) : option string :=
  if String.eqb s "" then None else Some s.
Definition read_argument (s : string) : argument :=
  if (String.eqb s "--help" || String.eqb s "-h")%bool then ArgHelp
  else if (String.eqb s "--input" || String.eqb s "-i")%bool then ArgInput None
  else if prefix "--input=" s then
    match value_given (substring 8 (length s - 8) s) with Some v => ArgInput (Some v) | None => ArgOther end
  else if prefix "-i" s then ArgInput (Some (substring 2 (length s - 2) s))
  else ArgOther.
Definition set_help (c : cli) : option cli :=
  if c_help c then None else Some {| c_help := true; c_input := c_input c |}.
Definition set_input (c : cli) (f : string) : option cli :=
  match c_input c with
  | Some _ => None
  | None => Some {| c_help := c_help c; c_input := Some f |}
  end.
Fixpoint parse_command_line (args : list string) (c : cli) : option cli :=
  match args with
  | [] => Some c
  | a :: r =>
      match read_argument a with
      | ArgHelp => match set_help c with Some c' => parse_command_line r c' | None => None end
      | ArgInput (Some f) => match set_input c f with Some c' => parse_command_line r c' | None => None end
      | ArgInput None =>
          match r with
          | f :: r' => if (String.eqb f "" || prefix "-" f)%bool then None
                       else match set_input c f with Some c' => parse_command_line r' c' | None => None end
          | [] => None
          end
      | ArgOther => None
      end
  end.

(** How the program ends: main returns, an exception of program_options or another one leaves
    main, or its behaviour is undefined. *)
Inductive ending := Exit0 | BadArguments | Uncaught (e : exn) | Undefined (u : ub).

Section Main.
  Context {T : Type} `{Num T}.
  Variable dbg : bool.
  Variable femlib : mesh T -> Z -> fem T.
  Variable moment : T * T -> nat -> nat -> T * T -> T.
  Variable fs : string -> option (option (jtext T)).
  Variable load_mesh : string -> outcome (mesh T).

  (** Driver.cpp:58-65 loadFromFile *)
  Definition loadFromFile (fn : string) : cmd T unit (driver T) :=
    let! mo := clift (loadInput fs load_mesh fn) in
    mkDriver dbg femlib (fst mo) (snd mo).
  (** pulmtln.cpp:38-46 *)
  Definition launch (fn : string) : cmd T unit unit :=
    let! d := loadFromFile fn in
    fun _ => let '((r, _), w) := (do! setExportFolder (input_directory fn); run dbg femlib moment) d in ((r, tt), w).
  (** pulmtln.cpp:8-50 main; what it prints is not modelled. *)
  Definition program (args : list string) : ending * list (event T) :=
    match parse_command_line args no_options with
    | Some {| c_help := false; c_input := Some fn |} =>
        let '((r, _), w) := launch fn tt in
        (match r with Ok _ => Exit0 | Throw e => Uncaught e | Undef u => Undefined u end, w)
    | Some _ => (Exit0, [])
    | None => (BadArguments, [])
    end.
End Main.
