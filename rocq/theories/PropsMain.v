(** Properties C65, C66 (and C05, C53 end to end): the command line program. *)
From Coq Require Import QArith Reals Lia.
From Verif Require Import Prelude StdMap Json Materials Graph ModelM Parser Matrix Solver Domain Results Driver Main
  SpecInput SpecModel SpecSolver SpecDriver SpecMain InputProofs RunProofs Toy MainProofs.
Open Scope string_scope.
Open Scope list_scope.

(** A case: the toy problem read from a file. *)
Definition toy_text (op : openness) (folder : string) : jtext Q :=
  TObj [("analysis", TObj [("exportFolder", TStr folder)]);
        ("model", TObj [("gmshFile", TStr "toy.msh");
                        ("materials", TObj ([("Conductor_1", TObj [("type", TStr "PEC"); ("tag", TInt 2); ("area", TFloat 1%Q)]);
                                             ("Conductor_0", TObj [("type", TStr "PEC"); ("tag", TInt 1); ("area", TFloat 1%Q)]);
                                             ("Vacuum_0", TObj [("type", TStr "Vacuum"); ("tag", TInt 3)])] ++
                                            match op with Closed => [] | _ => [("Open_0", TObj [("type", TStr "OpenBoundary"); ("tag", TInt 4)])] end))])].
Definition toy_files (fn : string) (op : openness) (folder : string) (f : string) : option (option (jtext Q)) :=
  if String.eqb f fn then Some (Some (toy_text op folder)) else None.
Definition toy_meshes (op : openness) (f : string) : outcome (mesh Q) :=
  if String.eqb f "./cases/toy.msh" then Ok (toy_mesh op) else Throw MfemError.
Definition q_moment (c : Q * Q) (n k : nat) (p : Q * Q) : Q := 0%Q.
Definition toy_program (op : openness) (folder : string) : list string -> ending * list (event Q) :=
  program true toy_lib q_moment (toy_files "cases/toy.json" op folder) (toy_meshes op).

(** ** C65 *)
(** A program that ends well has written one result file: the result of a Driver built for the
    model and the options of the input file, in the directory of that file. Full statement: for
    every path of the input file; it holds for relative ones. *)
Theorem C65_result_beside_the_input_partial :
  forall (T : Type) (N : Num T) (dbg : bool) femlib moment fs load_mesh (cwd : list string) (args : list string) (fn : string) w,
    asks_for args fn -> names_file fn -> absolute fn = false ->
    program dbg femlib moment fs load_mesh args = (Exit0, w) ->
    exists m o d path, loadInput fs load_mesh fn = Ok (m, o) /\ built dbg femlib m o d /\
      ((exists p, determineOpenness dbg m = Ok Closed /\ fst (reply dbg femlib moment CallPUL d) = Ok (VPul p) /\
          filter is_result w = [EvJson path (pulToJSON p)] /\
          resolve cwd path = removelast (resolve cwd fn) ++ ["pulmtln.out.json"]) \/
       (exists p, determineOpenness dbg m = Ok Open /\ fst (reply dbg femlib moment CallInCell d) = Ok (VInCell p) /\
          filter is_result w = [EvJson path (incellToJSON p)] /\
          resolve cwd path = removelast (resolve cwd fn) ++ ["inCellPotentials.out.json"])).
Proof.
  intros T N dbg femlib moment fs load cwd args fn w A Nf Ab E.
  destruct (program_result dbg femlib moment fs load args fn w A E) as (m & o & d & L & B & [(p & O & P & W)|(p & O & P & W)]).
  - exists m, o, d. eexists. split; [exact L|]. split; [exact B|]. left. exists p. split; [exact O|]. split; [exact P|].
    split; [exact W|]. now apply beside.
  - exists m, o, d. eexists. split; [exact L|]. split; [exact B|]. right. exists p. split; [exact O|]. split; [exact P|].
    split; [exact W|]. now apply beside.
Qed.
Print Assumptions C65_result_beside_the_input_partial.
(** With an absolute path it is never beside the input file (unless run from the root directory). *)
Theorem C65_absolute_paths_refuted :
  forall (T : Type) (N : Num T) (dbg : bool) femlib moment fs load_mesh (cwd : list string) (args : list string) (fn : string) w path j name,
    asks_for args fn -> names_file fn -> absolute fn = true -> cwd <> [] ->
    program dbg femlib moment fs load_mesh args = (Exit0, w) -> In (EvJson path j) w ->
    resolve cwd path <> removelast (resolve cwd fn) ++ [name].
Proof.
  intros T N dbg femlib moment fs load cwd args fn w path j name A Nf Ab Cw E I.
  assert (I' : In (EvJson path j) (filter is_result w)) by (apply filter_In; auto).
  assert (G : exists name', path = (input_directory fn ++ name')%string /\ components name' = [name']).
  { destruct (program_result dbg femlib moment fs load args fn w A E) as (m & o & d & L & B & [(p & O & P & W)|(p & O & P & W)]);
      rewrite W in I'; destruct I' as [I'|[]]; injection I' as <- _; eexists; split; reflexivity. }
  destruct G as (name' & -> & C). intros Er.
  pose proof (OptionsProofs.mesh_of_absolute_input cwd fn name' Nf Ab) as M.
  change (meshFilename fn name') with (input_directory fn ++ name')%string in M. rewrite Er, C in M.
  apply (f_equal (@List.length string)) in M. rewrite !app_length in M. cbn in M. destruct cwd; [contradiction|]. cbn in M. lia.
Qed.
Print Assumptions C65_absolute_paths_refuted.
(** The file that README.md announces is never written. *)
Theorem C65_documented_name_refuted :
  forall (T : Type) (N : Num T) (dbg : bool) femlib moment fs load_mesh (cwd : list string) (args : list string) (fn : string) w path j,
    asks_for args fn -> names_file fn -> absolute fn = false ->
    program dbg femlib moment fs load_mesh args = (Exit0, w) -> In (EvJson path j) w ->
    resolve cwd path <> removelast (resolve cwd fn) ++ ["matrices.pulmtln.out.json"].
Proof.
  intros T N dbg femlib moment fs load cwd args fn w path j A Nf Ab E I Er.
  assert (I' : In (EvJson path j) (filter is_result w)) by (apply filter_In; auto).
  destruct (C65_result_beside_the_input_partial T N dbg femlib moment fs load cwd args fn w A Nf Ab E)
    as (m & o & d & path' & L & B & [(p & O & P & W & R)|(p & O & P & W & R)]);
    rewrite W in I'; destruct I' as [I'|[]]; injection I' as <- _; rewrite R in Er; apply app_inv_head in Er; discriminate Er.
Qed.
Print Assumptions C65_documented_name_refuted.
(** A program that does not end well writes no result. *)
Theorem C65_failures_write_no_result :
  forall (T : Type) (N : Num T) (dbg : bool) femlib moment fs load_mesh (args : list string) e w,
    program dbg femlib moment fs load_mesh args = (e, w) -> e <> Exit0 -> filter is_result w = [].
Proof. exact @program_failure. Qed.
Print Assumptions C65_failures_write_no_result.
(** A file that cannot be opened, or is not JSON: json::parse throws, nothing catches it, and nothing
    is written. (The message "Can not open file" of Parser.cpp is never seen: its exception is built
    and not thrown.) An input file whose mesh cannot be read: the exception of the mesh reader. *)
Theorem C65_unreadable_input :
  forall (T : Type) (N : Num T) (dbg : bool) femlib moment fs load_mesh (args : list string) (fn : string),
    asks_for args fn ->
    (fs fn = None \/ fs fn = Some None -> program dbg femlib moment fs load_mesh args = (Uncaught JsonParseError, [])) /\
    (forall text j gmsh e, fs fn = Some (Some text) -> field (jparse text) "model" j -> field j "gmshFile" (JStr gmsh) ->
       load_mesh (meshFilename fn gmsh) = Throw e -> program dbg femlib moment fs load_mesh args = (Uncaught e, [])).
Proof.
  intros T N dbg femlib moment fs load args fn A. rewrite (launched dbg femlib moment fs load _ _ A). split.
  - intros H. assert (R : readJSON fs fn = Throw JsonParseError) by (unfold readJSON; destruct H as [-> | ->]; reflexivity).
    unfold launch, loadFromFile, cbind, clift, loadInput. rewrite R. reflexivity.
  - intros text j gmsh e Ef (m & Ej & Gj) (m' & Eg & Gg) L. unfold launch, loadFromFile, cbind, clift, loadInput, readJSON, readModel, jat.
    rewrite Ef. cbn [bind]. rewrite Ej, Gj. cbn [bind]. rewrite Eg, Gg. cbn [bind jget_string]. rewrite L. reflexivity.
Qed.
Print Assumptions C65_unreadable_input.
(** Without arguments or with --help, before or after an input file, nothing is written; --help twice is an error. *)
Theorem C65_help_writes_nothing :
  forall (T : Type) (N : Num T) (dbg : bool) femlib moment fs load_mesh (args : list string) (h h' fn : string),
    In h ["--help"; "-h"] -> In h' ["--help"; "-h"] -> asks_for args fn ->
    program dbg femlib moment fs load_mesh [] = (Exit0, []) /\ program dbg femlib moment fs load_mesh [h] = (Exit0, []) /\
    program dbg femlib moment fs load_mesh (h :: args) = (Exit0, []) /\ program dbg femlib moment fs load_mesh (args ++ [h]) = (Exit0, []) /\
    program dbg femlib moment fs load_mesh [h; h'] = (BadArguments, []).
Proof.
  intros T N dbg femlib moment fs load args h h' fn Ih Ih' A.
  assert (R : forall h, In h ["--help"; "-h"] -> read_argument h = ArgHelp) by (intros x [<-|[<-|[]]]; reflexivity).
  pose proof (R h Ih) as R1. pose proof (R h' Ih') as R2. unfold program.
  split; [reflexivity|]. cbn [parse_command_line]. rewrite R1. cbn [set_help c_help no_options c_input]. split; [reflexivity|]. split.
  - rewrite <- (app_nil_r args), (parse_asks_then args fn [] _ A). reflexivity.
  - split.
    + rewrite (parse_asks_then args fn [h] _ A). cbn [set_input no_options c_input c_help parse_command_line]. rewrite R1. reflexivity.
    + rewrite R2. reflexivity.
Qed.
Print Assumptions C65_help_writes_nothing.

(** Arguments that are not options, options without their value and options given twice are errors. *)
Theorem C65_bad_arguments :
  forall (T : Type) (N : Num T) (dbg : bool) femlib moment fs load_mesh (args args' : list string) (a fn fn' : string),
    (~ In a ["--help"; "-h"; "--input"; "-i"] -> (forall f, f <> ""%string -> a <> ("--input=" ++ f)%string /\ a <> ("-i" ++ f)%string) ->
       program dbg femlib moment fs load_mesh (a :: args) = (BadArguments, [])) /\
    program dbg femlib moment fs load_mesh ["-i"] = (BadArguments, []) /\ program dbg femlib moment fs load_mesh ["--input"] = (BadArguments, []) /\
    (asks_for args fn -> asks_for args' fn' -> program dbg femlib moment fs load_mesh (args ++ args') = (BadArguments, [])).
Proof.
  intros T N dbg femlib moment fs load args args' a fn fn'. split; [|split; [reflexivity|split; [reflexivity|]]].
  - intros Nk Nf. unfold program. cbn [parse_command_line]. now rewrite (unknown_argument a Nk Nf).
  - intros A A'. unfold program. now rewrite (asked_twice args args' fn fn' A A').
Qed.
Print Assumptions C65_bad_arguments.
(** So is asking for help twice, whatever else is given. *)
Lemma help_argument h : In h ["--help"; "-h"] -> read_argument h = ArgHelp.
Proof. intros [<- | [<- | []]]; reflexivity. Qed.
Lemma helped_once h l3 : In h ["--help"; "-h"] -> forall n l2 c, (List.length l2 <= n)%nat -> c_help c = true -> parse_command_line (l2 ++ h :: l3) c = None.
Proof.
  intros Ih. induction n as [|n IH]; intros l2 c Ln Hc.
  - destruct l2; [|cbn in Ln; lia]. cbn [app parse_command_line]. rewrite (help_argument h Ih). unfold set_help. now rewrite Hc.
  - destruct l2 as [|a l2]; cbn [app parse_command_line].
    + rewrite (help_argument h Ih). unfold set_help. now rewrite Hc.
    + cbn [List.length] in Ln. destruct (read_argument a) as [|[f|]|]; [| | |reflexivity].
      * unfold set_help. now rewrite Hc.
      * unfold set_input. destruct (c_input c); [reflexivity|]. apply IH; [lia|exact Hc].
      * destruct l2 as [|f l2]; cbn [app].
        { destruct Ih as [<- | [<- | []]]; reflexivity. }
        destruct (String.eqb f "" || prefix "-" f)%bool; [reflexivity|]. unfold set_input. destruct (c_input c); [reflexivity|]. cbn [List.length] in Ln. apply IH; [lia|exact Hc].
Qed.
Lemma helped_twice h h' l2 l3 : In h ["--help"; "-h"] -> In h' ["--help"; "-h"] ->
  forall n l1 c, (List.length l1 <= n)%nat -> parse_command_line (l1 ++ h :: l2 ++ h' :: l3) c = None.
Proof.
  intros Ih Ih'. assert (Z : forall c, parse_command_line (h :: l2 ++ h' :: l3) c = None).
  { intros c. cbn [parse_command_line]. rewrite (help_argument h Ih). unfold set_help. destruct (c_help c); [reflexivity|]. now apply (helped_once h' l3 Ih' (List.length l2)). }
  induction n as [|n IH]; intros l1 c Ln.
  - destruct l1; [|cbn in Ln; lia]. exact (Z c).
  - destruct l1 as [|a l1]; [exact (Z c)|]. cbn [app parse_command_line]. cbn [List.length] in Ln. destruct (read_argument a) as [|[f|]|]; [| | |reflexivity].
    + unfold set_help. destruct (c_help c); [reflexivity|]. apply IH; lia.
    + unfold set_input. destruct (c_input c); [reflexivity|]. apply IH; lia.
    + destruct l1 as [|f l1]; cbn [app].
      { destruct Ih as [<- | [<- | []]]; reflexivity. }
      destruct (String.eqb f "" || prefix "-" f)%bool; [reflexivity|]. unfold set_input. destruct (c_input c); [reflexivity|]. cbn [List.length] in Ln. apply IH; lia.
Qed.
Theorem C65_help_twice :
  forall (T : Type) (N : Num T) (dbg : bool) femlib moment fs load_mesh (l1 l2 l3 : list string) (h h' : string),
    In h ["--help"; "-h"] -> In h' ["--help"; "-h"] ->
    program dbg femlib moment fs load_mesh (l1 ++ h :: l2 ++ h' :: l3) = (BadArguments, []).
Proof. intros T N dbg femlib moment fs load l1 l2 l3 h h' I I'. unfold program. now rewrite (helped_twice h h' l2 l3 I I' (List.length l1) l1 no_options). Qed.
Print Assumptions C65_help_twice.

(** The closed and the open toy problem, run from /home/me. *)
Example C65_example_closed :
  asks_for ["-i"; "cases/toy.json"] "cases/toy.json" /\ names_file "cases/toy.json" /\ absolute "cases/toy.json" = false /\
  match toy_program Closed "out/" ["-i"; "cases/toy.json"] with
  | (Exit0, w) => match filter is_result w with
                  | [EvJson path _] => resolve ["home"; "me"] path = ["home"; "me"; "cases"; "pulmtln.out.json"]
                  | _ => False
                  end
  | _ => False
  end.
Proof.
  split; [split; [discriminate|left; split; [now left|reflexivity]]|]. split.
  { exists "cases/", "toy.json". split; [reflexivity|]. split; [right; now exists "cases"|]. split; [reflexivity|]. cbn. intuition discriminate. }
  split; [reflexivity|]. vm_compute. reflexivity.
Qed.
Example C65_example_open :
  match toy_program Open "out/" ["--input=cases/toy.json"] with
  | (Exit0, w) => match filter is_result w with
                  | [EvJson path _] => resolve ["home"; "me"] path = ["home"; "me"; "cases"; "inCellPotentials.out.json"]
                  | _ => False
                  end
  | _ => False
  end.
Proof. vm_compute. reflexivity. Qed.
Example C65_example_missing : exists w, toy_program Closed "out/" ["-i"; "other.json"] = (Uncaught JsonParseError, w).
Proof. eexists. vm_compute. reflexivity. Qed.
(** An absolute path that meets the hypotheses: the mesh and the result are below the working
    directory. *)
Example C65_example_absolute :
  asks_for ["-i"; "/data/toy.json"] "/data/toy.json" /\ names_file "/data/toy.json" /\ absolute "/data/toy.json" = true /\ match program (T := Q) true toy_lib q_moment (toy_files "/data/toy.json" Closed "out/") (fun _ => Ok (toy_mesh Closed)) ["-i"; "/data/toy.json"] with
  | (Exit0, w) => match filter is_result w with
                  | [EvJson path _] => resolve ["home"; "me"] path = ["home"; "me"; "data"; "pulmtln.out.json"]
                  | _ => False
                  end
  | _ => False
  end.
Proof.
  split; [split; [discriminate|left; split; [now left|reflexivity]]|]. split.
  { exists "/data/", "toy.json". split; [reflexivity|]. split; [right; now exists "/data"|]. split; [reflexivity|]. cbn. intuition discriminate. }
  split; [reflexivity|]. vm_compute. reflexivity.
Qed.

(** ** C66 *)
(** Full statement: every field export of the program is in the exportFolder of the input file.
    It holds for the exports made while the fields are solved ([w1]); those made afterwards go to
    the directory of the input file. *)
Theorem C66_where_fields_are_exported_partial :
  forall (T : Type) (N : Num T) (dbg : bool) femlib moment fs load_mesh (args : list string) (fn : string) e w (m : model T) o,
    asks_for args fn -> program dbg femlib moment fs load_mesh args = (e, w) -> loadInput fs load_mesh fn = Ok (m, o) ->
    exists w1 w2, w = w1 ++ w2 /\
      Forall (field_export (o_exportFolder o) (map p_name (pecs (mo_mats m)))) w1 /\
      Forall (fun ev => is_result ev = true \/ field_export (input_directory fn) (map p_name (pecs (mo_mats m))) ev) w2.
Proof. exact @program_exports. Qed.
Print Assumptions C66_where_fields_are_exported_partial.
Theorem C66_exports_outside_the_folder_refuted :
  exists (m : model Q) o w name fields,
    loadInput (toy_files "cases/toy.json" Closed "Results/") (toy_meshes Closed) "cases/toy.json" = Ok (m, o) /\
    o_exportFolder o = "Results/" /\
    toy_program Closed "Results/" ["-i"; "cases/toy.json"] = (Exit0, w) /\
    In (EvParaView name fields) w /\ prefix "Results/" name = false.
Proof.
  do 3 eexists. exists "./cases//ParaView/Conductor_0". eexists. split; [vm_compute; reflexivity|]. split; [reflexivity|].
  split; [vm_compute; reflexivity|]. split; [|reflexivity]. cbn [In]. tauto.
Qed.
Print Assumptions C66_exports_outside_the_folder_refuted.

(** ** C53: all calls of a Driver (but the per-domain one, which builds other Drivers) export under
    the names of C53. *)
Theorem C53_calls_export_under_these_names :
  forall (T : Type) (N : Num T) (dbg : bool) femlib moment (op : dop) (d : driver T) e,
    op <> CallByDomains -> In e (snd (reply dbg femlib moment op d)) -> is_result e = false ->
    exists x fields, In (x_conductor x) (map p_name (pecs (mo_mats (dr_model d)))) /\ e = saved (o_exportFolder (dr_opts d)) x fields.
Proof.
  intros T N dbg femlib moment op d e Nd I Q. pose proof (call_exports dbg femlib moment op d Nd) as K.
  rewrite Forall_forall in K. destruct (K e I) as [C|C]; [rewrite Q in C; discriminate C|exact C].
Qed.
Print Assumptions C53_calls_export_under_these_names.

(** ** C05: the program does the same for two input files that differ in the order of the members of
    their objects. *)
Theorem C05_program_does_the_same :
  forall (dbg : bool) femlib moment (fs1 fs2 : string -> option (option (jtext R))) load_mesh (args : list string) (fn : string) (t1 t2 : jtext R),
    asks_for args fn -> fs1 fn = Some (Some t1) -> fs2 fn = Some (Some t2) -> same_text t1 t2 ->
    program dbg femlib moment fs1 load_mesh args = program dbg femlib moment fs2 load_mesh args.
Proof.
  intros dbg femlib moment fs1 fs2 load args fn t1 t2 A E1 E2 S. rewrite !(launched _ _ _ _ _ _ _ A).
  unfold launch, loadFromFile. now rewrite (load_same_text fs1 fs2 load fn t1 t2 E1 E2 S).
Qed.
Print Assumptions C05_program_does_the_same.
