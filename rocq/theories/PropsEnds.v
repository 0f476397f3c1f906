(** Property C88: when the program ends well, and what is in the file then. *)
From Coq Require Import Reals Lra Lia.
From Verif Require Import Prelude StdMap Json Materials Graph ModelM Parser Matrix Multipole Solver Fem Triangles Elements RefElements Iterative Domain Results Driver Main RSum
  SpecGraph SpecInput SpecModel SpecSolver SpecDriver SpecMatrix SpecCharge SpecField SpecFem SpecTriangles SpecElements SpecExact SpecResults SpecInCell SpecMain SpecDrawing SpecFlux SpecUniform SpecIter SpecEnds
  SolverProofs DriverProofs RunProofs MainProofs FemModel LinAlg DriverFacts MatrixFacts FemMatrix IterCalls IterFlux ElemProofs ElemTables ElemModel RefProofs RefOrder Boole InputProofs Toy FemToy Kite Plates PropsDriver PropsResults PropsFem PropsInCell PropsExact PropsElements PropsElemExact PropsRead IterMatrix MatrixProofs MatrixCalls ChainIter FileChain PropsIterative.
Open Scope string_scope.
Open Scope list_scope.

Section Ends.
  Context {T : Type} `{N : Num T}.
  Variable dbg : bool.
  Variable femlib : mesh T -> Z -> fem T.
  Variable moment : T * T -> nat -> nat -> T * T -> T.
  Variable fs : string -> option (option (jtext T)).
  Variable load_mesh : string -> outcome (mesh T).

  Lemma run_like (d : driver T) : 
    match determineOpenness dbg (dr_model d) with
    | Ok SemiOpen => exists msg, fst (reply dbg femlib moment CallRun d) = Throw (RuntimeError msg)
    | Ok op => fst (reply dbg femlib moment CallRun d) = bind (fst (reply dbg femlib moment (asked op) d)) (fun _ => Ok VUnit)
    | Throw e => fst (reply dbg femlib moment CallRun d) = Throw e
    | Undef u => fst (reply dbg femlib moment CallRun d) = Undef u
    end.
  Proof.
    destruct (determineOpenness dbg (dr_model d)) as [op|e|u] eqn:Eo.
    - destruct op; unfold reply; cbn [call asked]; unfold cbind at 1; unfold run; rewrite cbind_get, (cbind_lift _ _ _ _ Eo); cbn iota.
      + unfold cbind. destruct (getInCellPotentials dbg femlib moment d) as [[[p|e|u] d1] w1]; reflexivity.
      + eexists. reflexivity.
      + unfold cbind, getPULMTL. destruct (buildPULParametersForModel dbg femlib d) as [[[p|e|u] d1] w1]; reflexivity.
    - unfold reply; cbn [call]; unfold cbind, run, cget, clift; cbn. now rewrite Eo.
    - unfold reply; cbn [call]; unfold cbind, run, cget, clift; cbn. now rewrite Eo.
  Qed.
  Lemma launch_value fn : launch dbg femlib moment fs load_mesh fn tt =
    match loadInput fs load_mesh fn with
    | Ok (m, o) =>
        match mkDriver dbg femlib m o tt with
        | ((Ok d, _), w1) => let '((r, _), w2) := run dbg femlib moment (in_folder d (input_directory fn)) in ((r, tt), w1 ++ w2)
        | ((Throw e, _), w1) => ((Throw e, tt), w1)
        | ((Undef u, _), w1) => ((Undef u, tt), w1)
        end
    | Throw e => ((Throw e, tt), [])
    | Undef u => ((Undef u, tt), [])
    end.
  Proof.
    unfold launch, loadFromFile. unfold cbind at 1. unfold cbind at 1, clift.
    destruct (loadInput fs load_mesh fn) as [[m o]|e|e0]; try reflexivity. cbn [fst snd].
    destruct (mkDriver dbg femlib m o tt) as [[[d|e|e0] []] w1]; try reflexivity.
    rewrite set_then. destruct (run dbg femlib moment (in_folder d (input_directory fn))) as [[r1 d1] w2]. reflexivity.
  Qed.
End Ends.

(** The program ends as the computation it was asked for, if there is one. *)
Theorem C88_how_the_program_ends :
  forall (T : Type) (N : Num T) (dbg : bool) femlib moment fs load_mesh (args : list string) (fn : string),
    asks_for args fn ->
    let run := program dbg femlib moment fs load_mesh args in
    (forall x, loadInput fs load_mesh fn = Throw x -> run = (Uncaught x, [])) /\
    (forall u, loadInput fs load_mesh fn = Undef u -> run = (Undefined u, [])) /\
    forall (m : model T) (o : driver_options), loadInput fs load_mesh fn = Ok (m, o) ->
      ((forall d, ~ built dbg femlib m o d) -> fst run <> Exit0) /\
      forall d, built dbg femlib m o d ->
        (forall x, determineOpenness dbg m = Throw x -> fst run = Uncaught x) /\
        (forall u, determineOpenness dbg m = Undef u -> fst run = Undefined u) /\
        (determineOpenness dbg m = Ok SemiOpen -> exists msg, fst run = Uncaught (RuntimeError msg)) /\
        forall op, determineOpenness dbg m = Ok op -> op <> SemiOpen ->
          ends_like (fst (reply dbg femlib moment (asked op) d)) (fst run).
Proof.
  intros T N dbg femlib moment fs load args fn A run. unfold run. rewrite (launched dbg femlib moment fs load args fn A).
  rewrite launch_value. split; [intros x E; now rewrite E|]. split; [intros u E; now rewrite E|].
  intros m o E. rewrite E. destruct (mkDriver dbg femlib m o tt) as [[[d0|x|u] []] w1] eqn:Em.
  2, 3: split; [intros _; discriminate|]; intros d (w & B); rewrite Em in B; discriminate B.
  split; [intros K; exfalso; apply (K d0); now exists w1|]. intros d (w & B). rewrite Em in B. injection B as <- _.
  destruct (mkDriver_keeps dbg femlib m o d0 w1 Em) as [Mm _].
  pose proof (run_like dbg femlib moment (in_folder d0 (input_directory fn))) as K.
  change (dr_model (in_folder d0 (input_directory fn))) with (dr_model d0) in K. rewrite Mm in K.
  assert (Er : forall r : outcome (dval T), fst (reply dbg femlib moment CallRun (in_folder d0 (input_directory fn))) = r ->
    let '((x, _), y) := Driver.run dbg femlib moment (in_folder d0 (input_directory fn)) in bind x (fun _ => Ok VUnit) = r).
  { intros r <-. unfold reply. cbn [call]. unfold cbind. destruct (Driver.run dbg femlib moment (in_folder d0 (input_directory fn))) as [[[[]|x|u] d1] w2]; reflexivity. }
  destruct (Driver.run dbg femlib moment (in_folder d0 (input_directory fn))) as [[r1 d1] w2]. cbn [fst].
  split; [|split; [|split]].
  - intros x Ex. rewrite Ex in K. apply Er in K. destruct r1; cbn in K; congruence.
  - intros u Eu. rewrite Eu in K. apply Er in K. destruct r1; cbn in K; congruence.
  - intros Es. rewrite Es in K. destruct K as (msg & K). apply Er in K. exists msg. destruct r1; cbn in K; congruence.
  - intros op Eo No. rewrite Eo in K.
    assert (K' : fst (reply dbg femlib moment CallRun (in_folder d0 (input_directory fn))) =
                 bind (fst (reply dbg femlib moment (asked op) d0)) (fun _ => Ok VUnit)).
    { rewrite <- (folder_irrelevant dbg femlib moment d0 (input_directory fn) (asked op)) by (destruct op; cbn; auto). destruct op; [exact K|congruence|exact K]. }
    apply Er in K'. destruct (fst (reply dbg femlib moment (asked op) d0)) as [v|x|u], r1; cbn in K' |- *; congruence.
Qed.
Print Assumptions C88_how_the_program_ends.

(** In particular it ends well exactly when a Driver can be built for the input and the parameters it asks for exist. *)
Theorem C88_ends_well_exactly_when :
  forall (T : Type) (N : Num T) (dbg : bool) femlib moment fs load_mesh (args : list string) (fn : string),
    asks_for args fn ->
    (exists w, program dbg femlib moment fs load_mesh args = (Exit0, w)) <->
    (exists m o d, loadInput fs load_mesh fn = Ok (m, o) /\ built dbg femlib m o d /\
       ((determineOpenness dbg m = Ok Closed /\ exists p w, reply dbg femlib moment CallPUL d = (Ok (VPul p), w)) \/
        (determineOpenness dbg m = Ok Open /\ exists p w, reply dbg femlib moment CallInCell d = (Ok (VInCell p), w)))).
Proof.
  intros T N dbg femlib moment fs load args fn A. split.
  - intros (w & E). destruct (program_result dbg femlib moment fs load args fn w A E) as (m & o & d & L & B & [(p & O & P & _)|(p & O & P & _)]).
    + exists m, o, d. split; [exact L|]. split; [exact B|]. left. split; [exact O|]. exists p. destruct (reply dbg femlib moment CallPUL d) as [r w']. exists w'. now rewrite <- P.
    + exists m, o, d. split; [exact L|]. split; [exact B|]. right. split; [exact O|]. exists p. destruct (reply dbg femlib moment CallInCell d) as [r w']. exists w'. now rewrite <- P.
  - intros (m & o & d & L & B & C). destruct (C88_how_the_program_ends T N dbg femlib moment fs load args fn A) as (_ & _ & K).
    destruct (K m o L) as (_ & K'). destruct (K' d B) as (_ & _ & _ & R).
    destruct (program dbg femlib moment fs load args) as [e w] eqn:Ep. exists w. f_equal. cbn [fst] in R.
    destruct C as [(O & p & w' & E)|(O & p & w' & E)]; specialize (R _ O ltac:(discriminate)); cbn [asked] in R; rewrite E in R; exact R.
Qed.
Print Assumptions C88_ends_well_exactly_when.

(** Input files whose conductors are not numbered from 0 up end it before anything is computed or written; ... *)
Theorem C88_wrong_numbers :
  forall (T : Type) (N : Num T) (dbg : bool) femlib moment fs load_mesh (args : list string) (fn : string) (m : model T) (o : driver_options) (ids : list Z),
    asks_for args fn -> loadInput fs load_mesh fn = Ok (m, o) ->
    NoDup (map p_name (pecs (mo_mats m))) -> conductor_ids (mo_mats m) ids -> ~ (ids <> [] /\ numbered_from_zero ids) ->
    exists msg, program dbg femlib moment fs load_mesh args = (Uncaught (RuntimeError msg), []).
Proof.
  intros T N dbg femlib moment fs load args fn m o ids A L Nd Ci Bad. destruct (C02_others_are_rejected_before_solving T N m ids Nd Ci Bad) as (msg & K).
  exists msg. rewrite (launched dbg femlib moment fs load args fn A), launch_value, L. now rewrite K.
Qed.
Print Assumptions C88_wrong_numbers.

(** ... closed problems with a single conductor, once the fields were solved. *)
Theorem C88_single_conductor_in_a_closed_problem :
  forall (T : Type) (N : Num T) (dbg : bool) femlib moment fs load_mesh (args : list string) (fn : string) (m : model T) (o : driver_options) (d : driver T) (p : pec T),
    asks_for args fn -> loadInput fs load_mesh fn = Ok (m, o) -> built dbg femlib m o d ->
    in_order (mo_mats m) [p] -> determineOpenness dbg m = Ok Closed ->
    exists msg, fst (program dbg femlib moment fs load_mesh args) = Uncaught (RuntimeError msg).
Proof.
  intros T N dbg femlib moment fs load args fn m o d p A L B Io O. destruct (C88_how_the_program_ends T N dbg femlib moment fs load args fn A) as (_ & _ & K).
  destruct (K m o L) as (_ & K'). destruct (K' d B) as (_ & _ & _ & R). specialize (R Closed O ltac:(discriminate)). cbn [asked] in R.
  destruct B as (w & B). destruct (mkDriver_keeps dbg femlib m o d w B) as [Em _]. rewrite <- Em in Io, O.
  destruct (C32_single_conductor_closed_throws T N dbg femlib moment d p CallPUL Io O ltac:(auto)) as (msg & E).
  exists msg. unfold reply in R. rewrite E in R. exact R.
Qed.
Print Assumptions C88_single_conductor_in_a_closed_problem.

(** When the charges obey Gauss's law on a connected mesh, closed problems with two conductors or more and open ones with
    an inner region and one open boundary are solved. *)
Theorem C88_ends_well_when_charges_obey_gauss :
  forall (abc : R * R -> R) disc (dbg : bool) moment fs load_mesh (args : list string) (fn : string) (m : model R) (o : driver_options) (d : driver R) (conds : list (pec R)),
    let D := disc (mo_mesh m) (o_order o) in
    asks_for args fn -> loadInput fs load_mesh fn = Ok (m, o) ->
    galerkin_driver abc disc dbg m o d conds -> connected_mesh abc D m -> constants_ok D ->
    gauss abc D dbg m false -> gauss abc D dbg m true ->
    (determineOpenness dbg m = Ok Closed /\ (2 <= List.length conds)%nat) \/
    (determineOpenness dbg m = Ok Open /\ inner_region_named (mo_mats m) /\ List.length (openBoundaries (mo_mats m)) = 1%nat) ->
    exists w, program dbg (galerkin abc disc) moment fs load_mesh args = (Exit0, w).
Proof.
  intros abc disc dbg moment fs load args fn m o d conds D A L G Cm Co G1 G2 C. apply (C88_ends_well_exactly_when R RNum dbg _ moment fs load args fn A).
  exists m, o, d. split; [exact L|]. split; [exact (gd_built _ _ _ _ _ _ _ G)|]. destruct C as [(O & Two)|(O & Nm & One)].
  - left. split; [exact O|]. destruct conds as [|c0 [|c1 conds]]; cbn in Two; try (exfalso; lia).
    destruct (C61_PUL_parameters_exist_and_are_positive_definite_partial abc disc dbg moment m o d [] (c0 :: c1 :: conds) Closed (S (List.length conds)) G Cm Co G1 G2 O eq_refl ltac:(discriminate)) as (p & w & E & _).
    exists p, w. exact E.
  - right. split; [exact O|]. destruct (C80_in_cell_parameters_exist_when_charges_obey_gauss abc disc dbg moment m o d [] conds G Cm Co G1 G2 O Nm One) as (p & w & E).
    exists p, w. exact E.
Qed.
Print Assumptions C88_ends_well_when_charges_obey_gauss.

Open Scope R_scope.
Open Scope list_scope.
(** Nor does stopping the iterative solver after 500 iterations stop the program: in closed problems it ends well with
    mfem::PCG if its parameters exist for the exact solution and the error of the charges is small against them. *)
Theorem C88_ends_well_with_the_iterative_solver :
  forall (abc : R * R -> R) disc (dbg : bool) moment fs load_mesh (args : list string) (fn : string) (m : model R) (o : driver_options) (d : driver R) (conds : list (pec R))
         (n : nat) (p : pul R) w (t0 : R),
    asks_for args fn -> loadInput fs load_mesh fn = Ok (m, o) ->
    galerkin_driver abc disc dbg m o d conds -> determineOpenness dbg m = Ok Closed -> List.length conds = S n ->
    reply dbg (galerkin abc disc) moment CallPUL d = (Ok (VPul p), w) ->
    (exists pr c w c' w' mu g WW Phi,
      solver_constants abc (disc (mo_mesh m) (o_order o)) m true conds pr c w c' w' mu g WW Phi /\ t0 = tolerance c w c' w' mu g WW Phi) ->
    t0 / mu0 * Sum n (fun i => Sum n (fun k => Rabs (ent (pul_L p) i k))) < 1 ->
    exists w', program dbg (iterative abc disc) moment fs load_mesh args = (Exit0, w').
Proof.
  intros abc disc dbg moment fs load args fn m o d conds n p w t0 A L G Eo Ln E Ht0 Lt.
  destruct (mkDriver_ok dbg (iterative abc disc) m o
    (posed_pcg abc disc m o (gd_posed _ _ _ _ _ _ _ G) (gd_regular _ _ _ _ _ _ _ G)) conds (gd_order _ _ _ _ _ _ _ G)) as (d' & E' & _).
  { intros Z. rewrite Z in Ln. discriminate. }
  assert (B' : built dbg (iterative abc disc) m o d') by (eexists; exact E').
  destruct (C79_parameters_exist abc disc dbg moment m o d conds d' [] [] p w n t0 G B' Eo Ln E Ht0 Lt) as (p' & w' & Ep).
  apply (C88_ends_well_exactly_when R RNum dbg _ moment fs load args fn A). exists m, o, d'. split; [exact L|]. split; [exact B'|]. left. split; [exact Eo|]. exists p', w'. exact Ep.
Qed.
Print Assumptions C88_ends_well_with_the_iterative_solver.
(** Parallel plates, from the command line to the file: elements of any order, any stack of layers. The file is the text of one
    object; read back it has the capacitance and the inductance of the plates. *)
Theorem C88_parallel_plates_from_the_command_line :
  forall (ref : Z -> reference R) (abc : R * R -> R) (dbg : bool) moment fs load_mesh (cwd args : list string) (fn : string) (m : model R) (o : driver_options)
         (c0 c1 : pec R) (eps : Z -> R) (y0 y1 width : R) (h : R -> R) (outer : list (Z * Z)),
    asks_for args fn -> names_file fn -> absolute fn = false -> loadInput fs load_mesh fn = Ok (m, o) ->
    reference_ok (ref (o_order o)) -> linear_complete (ref (o_order o)) -> cross_section abc m -> in_order (mo_mats m) [c0; c1] ->
    openBoundaries (mo_mats m) = [] -> relative_permittivity (mo_mats m) false eps ->
    plates m eps c0 c1 y0 y1 h outer -> walls m outer -> y0 < y1 -> extent m (p_attr c1) = - width -> 0 < width ->
    exists w path j q,
      program dbg (galerkin abc (elements_of ref)) moment fs load_mesh args = (Exit0, w) /\
      filter is_result w = [EvJson path j] /\ resolve cwd path = removelast (resolve cwd fn) ++ ["pulmtln.out.json"] /\
      pulFromJSON (jparse (jdump j)) = Ok q /\ square 1 (pul_C q) /\ square 1 (pul_L q) /\
      ent (pul_C q) 0 0 = eps0 * (width / h y1) /\ ent (pul_L q) 0 0 = mu0 * ((y1 - y0) / width).
Proof.
  intros ref abc dbg moment fs load cwd args fn m o c0 c1 eps y0 y1 width h outer A Nf Ab L Ro Lc Cs Io Eo Rp Pl Wa Ly Ew Pw.
  destruct (mkDriver_ok dbg (galerkin abc (elements_of ref)) m o (elements_posed _ Ro abc _ Cs) [c0; c1] Io) as (d & B & _); [discriminate|].
  assert (Ed : element_driver ref abc dbg m o d [c0; c1]) by (constructor; [exact Ro|exact Cs|eexists; exact B|exact Io]).
  destruct (C72_parallel_plates_parameters_at_any_order ref abc dbg moment m o d [] c0 c1 eps y0 y1 width h outer Ed Lc Eo Rp Pl Wa Ly Ew Pw)
    as (p & w' & E & Sc & Sl & EC & EL).
  assert (O : determineOpenness dbg m = Ok Closed) by (unfold determineOpenness; rewrite Eo; now destruct dbg).
  destruct (proj2 (C88_ends_well_exactly_when R RNum dbg (galerkin abc (elements_of ref)) moment fs load args fn A)) as (w & Ep).
  { exists m, o, d. split; [exact L|]. split; [exact (ed_built _ _ _ _ _ _ _ Ed)|]. left. split; [exact O|]. exists p, w'. exact E. }
  destruct (program_result dbg _ moment fs load args fn w A Ep) as (m2 & o2 & d2 & L2 & B2 & [(p2 & O2 & P2 & W2)|(p2 & O2 & _)]);
    rewrite L in L2; injection L2 as <- <-; [|congruence].
  destruct B2 as (w2 & B2). rewrite B in B2. injection B2 as <- _. change (after dbg (galerkin abc (elements_of ref)) moment [] d) with d in E.
  rewrite E in P2. injection P2 as <-.
  destruct (C42_real_numbers p) as (q & Eq & (Q1 & Q2) & _); [left; rewrite (proj2 Sc); lia|left; rewrite (proj2 Sl); lia|].
  assert (one : forall a b : matrix R, square 1 a -> same_numbers eq a b -> square 1 b /\ ent b 0 0 = ent a 0 0).
  { intros a b (S1 & S2) (H1 & H2 & H3). rewrite S1 in H1, H2, H3. rewrite S2 in H2, H3. split; [split; [now symmetry|now rewrite <- H2 by lia]|]. symmetry. apply H3; lia. }
  destruct (one _ _ Sc Q1) as (Sc' & C'). destruct (one _ _ Sl Q2) as (Sl' & L').
  do 3 eexists. exists q. split; [exact Ep|]. split; [exact W2|]. split; [now apply beside|]. split; [exact Eq|]. split; [exact Sc'|]. split; [exact Sl'|].
  split; [now rewrite C'|now rewrite L'].
Qed.
Print Assumptions C88_parallel_plates_from_the_command_line.

(** ** A case: the two plates of Plates.v, 2 wide and 3 apart with two layers, in a file without options (so with elements
    of order 3). The file with the results holds C = eps0 4/5 and L = mu0 3/2. *)
Definition plates_text : jtext R :=
  TObj [("model", TObj [("materials", TObj [("Conductor_1", TObj [("type", TStr "PEC"); ("tag", TInt 2); ("area", TInt 1000000)]);
                                            ("Vacuum_0", TObj [("type", TStr "Vacuum"); ("tag", TInt 3)]);
                                            ("Conductor_0", TObj [("tag", TInt 1); ("area", TInt 1000000); ("type", TStr "PEC")]);
                                            ("Dielectric_1", TObj [("type", TStr "Dielectric"); ("tag", TInt 4); ("eps_r", TInt 2)])]);
                        ("gmshFile", TStr "plates.msh")]);
        ("analysis", TObj [])].
Definition plates_files (f : string) : option (option (jtext R)) := if String.eqb f "cases/plates.json" then Some (Some plates_text) else None.
Definition plates_meshes (f : string) : outcome (mesh R) := if String.eqb f "./cases/plates.msh" then Ok plates_mesh else Throw MfemError.

Lemma plates_loaded : loadInput plates_files plates_meshes "cases/plates.json" = Ok (plates_model, default_options).
Proof.
  assert (K : forall t, (Z.eqb t 1 || Z.eqb t 2 || Z.eqb t 3 || Z.eqb t 4)%bool = true <-> in_mesh plates_mesh t).
  { intros t. rewrite !Bool.orb_true_iff, !Z.eqb_eq. unfold in_mesh. split.
    - intros [[[-> | ->] | ->] | ->]; eexists; (split; [|]).
      1: right; left; reflexivity. 2: right; right; left; reflexivity. 3: left; right; right; left; reflexivity. 4: left; left; reflexivity. all: reflexivity.
    - intros (e & I & <-). cbn in I. destruct I as [[<- | [<- | [<- | [<- | []]]]] | [<- | [<- | []]]]; cbn; auto. }
  destruct (C03_model_of_a_file plates_files plates_meshes "cases/plates.json" "plates.msh" plates_text
    (JObj [("gmshFile", JStr "plates.msh");
           ("materials", JObj [("Conductor_0", JObj [("area", JInt 1000000); ("tag", JInt 1); ("type", JStr "PEC")]);
                               ("Conductor_1", JObj [("area", JInt 1000000); ("tag", JInt 2); ("type", JStr "PEC")]);
                               ("Dielectric_1", JObj [("eps_r", JInt 2); ("tag", JInt 4); ("type", JStr "Dielectric")]);
                               ("Vacuum_0", JObj [("tag", JInt 3); ("type", JStr "Vacuum")])])])
    [("Conductor_0", JObj [("area", JInt 1000000); ("tag", JInt 1); ("type", JStr "PEC")]);
     ("Conductor_1", JObj [("area", JInt 1000000); ("tag", JInt 2); ("type", JStr "PEC")]);
     ("Dielectric_1", JObj [("eps_r", JInt 2); ("tag", JInt 4); ("type", JStr "Dielectric")]);
     ("Vacuum_0", JObj [("tag", JInt 3); ("type", JStr "Vacuum")])]
    [Conductor "Conductor_0" 1 1000000; Conductor "Conductor_1" 2 1000000; Medium "Dielectric_1" 4 2; Medium "Vacuum_0" 3 1]
    plates_mesh default_options (fun t => (Z.eqb t 1 || Z.eqb t 2 || Z.eqb t 3 || Z.eqb t 4)%bool)) as (m & E & H1 & H2 & H3 & H4 & H5).
  - reflexivity.
  - eexists. split; reflexivity.
  - eexists. split; reflexivity.
  - eexists. split; reflexivity.
  - repeat apply Forall2_cons; [| | | |apply Forall2_nil].
    + apply (d_pec _ _ 1 1000000 (JInt 1000000)); try (eexists; split; reflexivity); [split; lia|constructor].
    + apply (d_pec _ _ 2 1000000 (JInt 1000000)); try (eexists; split; reflexivity); [split; lia|constructor].
    + apply (d_diel _ _ 4 2 (JInt 2)); try (eexists; split; reflexivity); [split; lia|constructor].
    + apply (d_vacuum _ _ 3); try (eexists; split; reflexivity). split; lia.
  - reflexivity.
  - reflexivity.
  - exact K.
  - rewrite E. repeat f_equal. destruct m as [[ps os ds] ms g]. cbn [mo_mesh mo_mats mo_ground pecs openBoundaries dielectrics] in *. subst ms g ps os ds.
    cbn. unfold plates_model, plates_mats, toy_conds. repeat f_equal; cbn; lra.
Qed.
Example C88_example : forall (abc : R * R -> R) (dbg : bool) moment, exists w path j q,
  program dbg (galerkin abc (elements_of boole_elements)) moment plates_files plates_meshes ["-i"; "cases/plates.json"] = (Exit0, w) /\
  filter is_result w = [EvJson path j] /\ resolve ["home"; "me"] path = ["home"; "me"; "cases"; "pulmtln.out.json"] /\
  pulFromJSON (jparse (jdump j)) = Ok q /\ square 1 (pul_C q) /\ square 1 (pul_L q) /\
  ent (pul_C q) 0 0 = eps0 * (4 / 5) /\ ent (pul_L q) 0 0 = mu0 * (3 / 2).
Proof.
  intros abc dbg moment. assert (Ew : extent plates_model 2 = - 2) by (unfold extent; cbn; lra).
  destruct (C88_parallel_plates_from_the_command_line boole_elements abc dbg moment plates_files plates_meshes ["home"; "me"] ["-i"; "cases/plates.json"] "cases/plates.json"
    plates_model default_options {| p_name := "Conductor_0"; p_attr := 1; p_area := 1 |} {| p_name := "Conductor_1"; p_attr := 2; p_area := 1 |}
    plates_eps 0 3 2 plates_h plates_outer) as (w & path & j & q & H1 & H2 & H3 & H4 & H5 & H6 & H7 & H8);
    [split; [discriminate|left; split; [now left|reflexivity]]| |reflexivity|exact plates_loaded|exact (C85_reference_elements 3 _ _ _ ltac:(lia) (boole_rules 3 ltac:(lia)))|
     exact (C72_orders_contain_uniform_fields 3 _ _ _ ltac:(lia) (boole_rules 3 ltac:(lia)))|exact (plates_section abc)|exact plates_order|reflexivity|exact plates_permittivity|exact plates_layers|
     exact plates_walls|lra|exact Ew|lra|].
  - exists "cases/", "plates.json". split; [reflexivity|]. split; [right; now exists "cases"|]. split; [reflexivity|]. cbn. intuition discriminate.
  - exists w, path, j, q. repeat (split; [assumption|]). split.
    + rewrite H7. f_equal. unfold plates_h. destruct (Rle_dec 3 1); lra.
    + rewrite H8. f_equal. lra.
Qed.

(** The chain of Toy.v, with PCG, from the text of an input file. *)
Definition chain_text : jtext R :=
  TObj [("analysis", TObj []);
        ("model", TObj [("gmshFile", TStr "chain.msh");
                        ("materials", TObj [("Vacuum_0", TObj [("type", TStr "Vacuum"); ("tag", TInt 3)]);
                                            ("Conductor_1", TObj [("type", TStr "PEC"); ("tag", TInt 2); ("area", TInt 1000000)]);
                                            ("Conductor_0", TObj [("tag", TInt 1); ("area", TInt 1000000); ("type", TStr "PEC")])])])].
Definition chain_files (f : string) : option (option (jtext R)) := if String.eqb f "cases/chain.json" then Some (Some chain_text) else None.
Definition chain_meshes (f : string) : outcome (mesh R) := if String.eqb f "./cases/chain.msh" then Ok (mo_mesh file_chain) else Throw MfemError.
Lemma chain_loaded : loadInput chain_files chain_meshes "cases/chain.json" = Ok (file_chain, default_options).
Proof.
  assert (K : forall t, (Z.eqb t 1 || Z.eqb t 2 || Z.eqb t 3)%bool = true <-> in_mesh (mo_mesh file_chain) t).
  { intros t. rewrite !Bool.orb_true_iff, !Z.eqb_eq. unfold in_mesh. split.
    - intros [[-> | ->] | ->]; eexists; (split; [|]).
      1: right; left; reflexivity. 2: right; right; left; reflexivity. 3: left; left; reflexivity. all: reflexivity.
    - intros (e & I & <-). cbn in I. destruct I as [[<- | []] | [<- | [<- | []]]]; cbn; auto. }
  destruct (C03_model_of_a_file chain_files chain_meshes "cases/chain.json" "chain.msh" chain_text
    (JObj [("gmshFile", JStr "chain.msh");
           ("materials", JObj [("Conductor_0", JObj [("area", JInt 1000000); ("tag", JInt 1); ("type", JStr "PEC")]);
                               ("Conductor_1", JObj [("area", JInt 1000000); ("tag", JInt 2); ("type", JStr "PEC")]);
                               ("Vacuum_0", JObj [("tag", JInt 3); ("type", JStr "Vacuum")])])])
    [("Conductor_0", JObj [("area", JInt 1000000); ("tag", JInt 1); ("type", JStr "PEC")]);
     ("Conductor_1", JObj [("area", JInt 1000000); ("tag", JInt 2); ("type", JStr "PEC")]);
     ("Vacuum_0", JObj [("tag", JInt 3); ("type", JStr "Vacuum")])]
    [Conductor "Conductor_0" 1 1000000; Conductor "Conductor_1" 2 1000000; Medium "Vacuum_0" 3 1]
    (mo_mesh file_chain) default_options (fun t => (Z.eqb t 1 || Z.eqb t 2 || Z.eqb t 3)%bool)) as (m & E & H1 & H2 & H3 & H4 & H5).
  - reflexivity.
  - eexists. split; reflexivity.
  - eexists. split; reflexivity.
  - eexists. split; reflexivity.
  - repeat apply Forall2_cons; [| | |apply Forall2_nil].
    + apply (d_pec _ _ 1 1000000 (JInt 1000000)); try (eexists; split; reflexivity); [split; lia|constructor].
    + apply (d_pec _ _ 2 1000000 (JInt 1000000)); try (eexists; split; reflexivity); [split; lia|constructor].
    + apply (d_vacuum _ _ 3); try (eexists; split; reflexivity). split; lia.
  - reflexivity.
  - reflexivity.
  - exact K.
  - rewrite E. repeat f_equal. destruct m as [[ps os ds] ms g]. cbn [mo_mesh mo_mats mo_ground pecs openBoundaries dielectrics] in *. subst ms g ps os ds.
    cbn. unfold file_chain, toy_conds. cbn. repeat f_equal; cbn; lra.
Qed.
Example C88_example_iterative : forall (dbg : bool) moment, exists w,
  program dbg (iterative two toy_disc) moment chain_files chain_meshes ["--input=cases/chain.json"] = (Exit0, w).
Proof.
  intros dbg moment. destruct (fc_driver dbg default_options) as (d & G).
  assert (Eo : determineOpenness dbg file_chain = Ok Closed) by (destruct dbg; reflexivity).
  assert (Cm : connected_mesh two (toy_disc (mo_mesh file_chain) (o_order default_options)) file_chain) by (rewrite fc_disc; exact fc_connected).
  assert (Co : constants_ok (toy_disc (mo_mesh file_chain) (o_order default_options))) by (rewrite fc_disc; exact (chain_constants 1 Rlt_0_1)).
  assert (Gs : forall i, gauss two (toy_disc (mo_mesh file_chain) (o_order default_options)) dbg file_chain i) by (intros i; rewrite fc_disc; exact (fc_gauss dbg i)).
  destruct (C61_PUL_parameters_exist_and_are_positive_definite_partial two toy_disc dbg moment file_chain default_options d [] toy_conds Closed 1 G Cm Co (Gs false) (Gs true) Eo eq_refl)
    as (p & w & Ep & _); [discriminate|].
  pose proof G as [W Rm B O].
  destruct (PUL_inv dbg (galerkin two toy_disc) moment Rmul0 file_chain default_options d [] W B p w Ep) as (C & L & w1 & w2 & _ & EL & Pp).
  destruct (L_inv _ _ _ _ _ _ EL) as (g0 & op2 & Eg0 & Eo2 & IL).
  rewrite (D_model dbg (galerkin two toy_disc) moment Rmul0 file_chain default_options d [] W B), Eo in Eo2. injection Eo2 as <-.
  destruct (fc_matrix dbg moment default_options d [] true g0 _ G Eg0) as (Sg & V). pose proof oc_tolerance as (K1 & K2).
  apply (C88_ends_well_with_the_iterative_solver two toy_disc dbg moment chain_files chain_meshes ["--input=cases/chain.json"] "cases/chain.json" file_chain default_options d toy_conds 1 p w (tolerance 1 2 1 0 1 1 1 1)); auto.
  - split; [discriminate|]. right. now left.
  - exact chain_loaded.
  - destruct (fc_constants true) as (pr & Sc). exists pr, 1, 2%nat, 1, 0%nat, 1, 1, 1, 1. split; [|reflexivity]. rewrite fc_disc. exact Sc.
  - set (t := tolerance 1 2 1 0 1 1 1 1) in *. assert (P10 : forall k, 0 < / 10 ^ k) by (intros k; apply Rinv_0_lt_compat, pow_lt; lra).
    assert (Pm : 0 < mu0) by (apply Rmult_lt_0_compat; [pose proof PI_RGT_0; lra|apply P10]).
    destruct (invert_product _ 1 (reduced_size g0 1 Sg Closed) L IL) as (_ & P1 & _). pose proof (P1 0%nat 0%nat ltac:(lia) ltac:(lia)) as P2.
    unfold Sum, Rsum in *. cbn [seq map fold_left fold_right Nat.eqb getCFromGeneralizedC ent] in *. rewrite V in P2.
    assert (E0 : ent L 0 0 = 2) by lra. rewrite Pp. cbn [pul_L]. rewrite mu0_value. unfold mscale. cbn [ent]. change (nmul (ent L 0 0) mu0) with (ent L 0 0 * mu0). rewrite E0.
    rewrite (Rabs_pos_eq (2 * mu0)) by lra. clearbody t. replace (_ / mu0 * _) with (2 * t) by (field; lra). lra.
Qed.
