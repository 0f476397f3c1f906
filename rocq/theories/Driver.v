(** Model of src/Driver.h and src/Driver.cpp. *)
From Verif Require Import Prelude StdMap Json Materials Graph ModelM Parser Matrix Solver Domain Results.
Open Scope string_scope.

(** Files written: ParaView and VisIt collections (by name, with the fields in them) and JSON files. *)
Inductive event (T : Type) :=
| EvParaView (name : string) (fields : list (string * list T))
| EvVisIt (name : string) (fields : list (string * list T))
| EvJson (path : string) (j : json T).
Arguments EvParaView {T}. Arguments EvVisIt {T}. Arguments EvJson {T}.

(** Methods: from a state to a result, the state left behind (also when an exception is
    thrown) and the files written. *)
Definition cmd (T S A : Type) := S -> (outcome A * S) * list (event T).
Section Cmd.
  Context {T S : Type}.
  Definition cret {A} (a : A) : cmd T S A := fun s => ((Ok a, s), []).
  Definition cbind {A B} (m : cmd T S A) (f : A -> cmd T S B) : cmd T S B :=
    fun s => let '((r, s1), w1) := m s in
             match r with
             | Ok a => let '((r2, s2), w2) := f a s1 in ((r2, s2), (w1 ++ w2)%list)
             | Throw e => ((Throw e, s1), w1)
             | Undef u => ((Undef u, s1), w1)
             end.
  Definition clift {A} (x : outcome A) : cmd T S A := fun s => ((x, s), []).
  Definition cget : cmd T S S := fun s => ((Ok s, s), []).
  Definition cput (s : S) : cmd T S unit := fun _ => ((Ok tt, s), []).
  Definition cemit (w : list (event T)) : cmd T S unit := fun s => ((Ok tt, s), w).
  Fixpoint cfold {A B} (f : B -> A -> cmd T S B) (l : list A) (b : B) : cmd T S B :=
    match l with [] => cret b | x :: r => cbind (f b x) (fun b' => cfold f r b') end.
End Cmd.
Notation "'let!' x ':=' e 'in' k" := (cbind e (fun x => k))
  (at level 200, x pattern, e at level 100, k at level 200, right associativity).
Notation "'do!' e ';' k" := (cbind e (fun _ => k))
  (at level 200, e at level 100, k at level 200, right associativity).

(** Driver.cpp:11 *)
Definition INNER_REGION_DEFAULT_NAME : string := "Vacuum_0".

(** std::sort *)
Fixpoint zinsert (x : Z) (l : list Z) : list Z :=
  match l with [] => [x] | y :: r => if (x <=? y)%Z then x :: l else y :: zinsert x r end.
Definition zsort (l : list Z) : list Z := fold_right zinsert [] l.

(** std::string::find(sub) != npos *)
Fixpoint contains (sub s : string) : bool :=
  prefix sub s || match s with EmptyString => false | String _ r => contains sub r end.

Section DriverModel.
  Context {T : Type} `{Num T}.
  Open Scope num_scope.
  Variable dbg : bool.
  (** the finite element library on a mesh, for a given order *)
  Variable femlib : mesh T -> Z -> fem T.
  (** momentComponent *)
  Variable moment : T * T -> nat -> nat -> T * T -> T.

  (** Driver.cpp:13-21 buildAttrToValueMap *)
  Definition buildAttrToValueMap (m : list (string * Z)) (v : T) : list (Z * T) :=
    mset_all (map (fun na => (snd na, v)) m) [].
  (** Driver.cpp:23-30 getAttributesInMap *)
  Definition getAttributesInMap (m : list (string * Z)) : list Z := map snd m.

  (** Driver.cpp:32-55 exportFieldSolutions *)
  Definition export_name (folder kind name : string) (ignore : bool) : string :=
    folder ++ "/" ++ kind ++ "/" ++ name ++ (if ignore then "_no_dielectrics" else "").
  Definition exportFieldSolutions (o : driver_options) (s : solver T) (name : string) (ignore : bool)
    : list (event T) :=
    ((if o_exportParaView o
      then [EvParaView (export_name (o_exportFolder o) "ParaView" name ignore) (writeParaViewFields s)]
      else [])
    ++
    (if o_exportVisIt o
     then [EvVisIt (export_name (o_exportFolder o) "VisIt" name ignore) (writeVisItFields s)]
     else []))%list.

  (** Driver.h:12-15 *)
  Record solved := { sp_solver : solver T; sp_solutions : list (option (solution T)) }.
  (** Driver.h:44-47 *)
  Record driver := { dr_model : model T; dr_opts : driver_options; dr_el : solved; dr_mag : solved }.

  (** Driver.cpp:175-196 buildSolverInputsFromModel *)
  Definition buildSolverInputsFromModel (m : model T) (ignore : bool) : outcome (solver_inputs T) :=
    let mats := mo_mats m in
    let eps0 := buildAttrToValueMap (nameToAttr_Diel mats) n1 in
    let* eps := if ignore then Ok eps0
                else foldM (fun r d => let* _ := mat_ (d_attr d) r in Ok (mset (d_attr d) (d_epsr d) r))
                           (dielectrics mats) eps0 in
    Ok {| si_dirichlet := buildAttrToValueMap (nameToAttr_PEC mats) n0;
          si_neumann := [];
          si_open := getAttributesInMap (nameToAttr_Open mats);
          si_eps := eps |}.

  (** solutions[i] = x and solutions[i] on a std::vector *)
  Definition put_solution (l : list (option (solution T))) (i : Z) (x : solution T)
    : outcome (list (option (solution T))) :=
    let* _ := vec_at l i in
    Ok (map (fun p => if (fst p =? Z.to_nat i)%nat then Some x else snd p) (enum l)).
  Definition get_solution (sp : solved) (i : Z) : outcome (solution T) :=
    let* o := vec_at (sp_solutions sp) i in
    match o with Some x => Ok x | None => Undef UninitialisedRead end.

  (** Driver.cpp:147-173 solveForAllConductors *)
  Definition solve_step (m : model T) (o : driver_options) (ignore : bool) (base : solver_inputs T)
      (sp : solved) (ca : Z * Z) : cmd T unit solved :=
    let F := femlib (mo_mesh m) (o_order o) in
    let s1 := setDirichletConditions (sp_solver sp) (mset (snd ca) n1 (si_dirichlet base)) in
    let! s2 := clift (Solve F s1) in
    let! p := clift (get_PEC_by_id (mo_mats m) (fst ca)) in
    do! cemit (exportFieldSolutions o s2 (p_name p) ignore);
    let! sols := clift (put_solution (sp_solutions sp) (fst ca) (getSolution s2)) in
    cret {| sp_solver := s2; sp_solutions := sols |}.
  Definition solveForAllConductors (m : model T) (o : driver_options) (ignore : bool)
    : cmd T unit solved :=
    let! base := clift (buildSolverInputsFromModel m ignore) in
    let! s := clift (mkSolver (femlib (mo_mesh m) (o_order o)) dbg base) in
    let! conductors := clift (idToAttr_PEC (mo_mats m)) in
    cfold (solve_step m o ignore base) conductors
          {| sp_solver := s; sp_solutions := repeat None (List.length conductors) |}.

  (** Driver.cpp:71-94 preconditions of the constructor *)
  Fixpoint consecutive_ids (l : list Z) : bool :=
    match l with
    | a :: ((b :: _) as r) => (b =? a + 1)%Z && consecutive_ids r
    | _ => true
    end.
  Definition checkConductors (m : model T) : outcome unit :=
    let* ids := mapM (fun na => getMaterialIdFromName (fst na)) (nameToAttr_PEC (mo_mats m)) in
    match zsort ids with
    | [] => Throw (RuntimeError "Model must have at least one conductor.")
    | i0 :: _ =>
        if negb (i0 =? 0)%Z then
          Throw (RuntimeError "Conductor with id 0 must be present in the model. ")
        else if negb (consecutive_ids (zsort ids)) then
          Throw (RuntimeError "Conductor ids must be consecutive.")
        else Ok tt
    end.

  (** Driver.cpp:67-102 constructor *)
  Definition mkDriver (m : model T) (o : driver_options) : cmd T unit driver :=
    do! clift (checkConductors m);
    let! el := solveForAllConductors m o false in
    let! mg := solveForAllConductors m o true in
    cret {| dr_model := m; dr_opts := o; dr_el := el; dr_mag := mg |}.

  (** Driver.cpp:104-145 getCFromGeneralizedC. The loops are written as sums; the products and
      sums are done in the same order. *)
  Definition getCFromGeneralizedC (gC : matrix T) (o : openness) : matrix T :=
    let r := (nr gC - 1)%nat in
    let c := (nc gC - 1)%nat in
    match o with
    | Closed => {| nr := r; nc := c; ent := fun i j => ent gC (S i) (S j) |}
    | _ =>
        let den := fold_left (fun d i => fold_left (fun d j => d + ent gC i j) (seq 0 (nc gC)) d)
                             (seq 0 (nr gC)) n0 in
        {| nr := r; nc := c;
           ent := fun i j =>
                    let rowSum := sum_upto (nc gC) (fun k => ent gC (S i) k) in
                    let colSum := sum_upto (nr gC) (fun k => ent gC k (S j)) in
                    ent gC (S i) (S j) - rowSum * colSum / den |}
    end.

  Notation dcmd := (cmd T driver).

  Definition problem (d : driver) (ignore : bool) : solved := if ignore then dr_mag d else dr_el d.
  Definition set_solver (d : driver) (ignore : bool) (s : solver T) : driver :=
    let upd sp := {| sp_solver := s; sp_solutions := sp_solutions sp |} in
    {| dr_model := dr_model d; dr_opts := dr_opts d;
       dr_el := if ignore then dr_el d else upd (dr_el d);
       dr_mag := if ignore then upd (dr_mag d) else dr_mag d |}.

  (** Driver.cpp:198-239 getGeneralizedCMatrix *)
  Definition row_step (ignore : bool) (conductors : list (Z * Z)) (C : matrix T) (ca : Z * Z)
    : dcmd (matrix T) :=
    let! d := cget in
    let F := femlib (mo_mesh (dr_model d)) (o_order (dr_opts d)) in
    let! x := clift (get_solution (problem d ignore) (fst ca)) in
    let! s := clift (setSolution dbg (sp_solver (problem d ignore)) x) in
    do! cput (set_solver d ignore s);
    let! C' := clift (foldM (fun C (cb : Z * Z) =>
                               let* a := mat_ (fst cb) conductors in
                               set_at C (fst ca) (fst cb) (getChargeInBoundary F s a))
                            conductors C) in
    let! p := clift (get_PEC_by_id (mo_mats (dr_model d)) (fst ca)) in
    do! cemit (exportFieldSolutions (dr_opts d) s (p_name p) ignore);
    cret C'.
  Definition getGeneralizedCMatrix (ignore : bool) : dcmd (matrix T) :=
    let! d := cget in
    let! conductors := clift (idToAttr_PEC (mo_mats (dr_model d))) in
    let! o := clift (determineOpenness dbg (dr_model d)) in
    if ((List.length conductors =? 1)%nat && openness_eqb o Closed)%bool then
      clift (Throw (RuntimeError "The number of conductors must be at least 2 for closed problems."))
    else
      let n := List.length conductors in
      let! C := cfold (row_step ignore conductors) conductors (zero_matrix n n) in
      cret (symmetrize C).

  (** Driver.cpp:241-250 *)
  Definition getCMatrix : dcmd (matrix T) :=
    let! gC := getGeneralizedCMatrix false in
    let! d := cget in
    let! o := clift (determineOpenness dbg (dr_model d)) in
    cret (getCFromGeneralizedC gC o).
  (** Driver.cpp:252-264 *)
  Definition getLMatrix : dcmd (matrix T) :=
    let! gC := getGeneralizedCMatrix true in
    let! d := cget in
    let! o := clift (determineOpenness dbg (dr_model d)) in
    clift (invert (getCFromGeneralizedC gC o)).
  (** Driver.cpp:266-277 *)
  Definition buildPULParametersForModel : dcmd (pul T) :=
    let! C := getCMatrix in
    let! L := getLMatrix in
    cret {| pul_L := mscale MU0_SI L; pul_C := mscale EPSILON0_SI C |}.
  (** Driver.cpp:299-302 *)
  Definition getPULMTL : dcmd (pul T) := buildPULParametersForModel.

  (** Driver.cpp:322-389 getFloatingPotentialsMatrix *)
  Definition floating_row (C : matrix T) (i : nat) : outcome (list T) :=
    let N := nr C in
    let A := set_col C i (fun k => if (k =? i)%nat then nopp n1 else n0) in
    let b := fun k => ent C k i * nopp n1 in
    inverse_mult A b.
  Definition floating_matrix (C : matrix T) : outcome (matrix T) :=
    let N := nr C in
    let* rows := mapM (floating_row C) (seq 0 N) in
    Ok {| nr := N; nc := N;
          ent := fun i j => if (i =? j)%nat then n1 else nth j (nth i rows []) n0 |}.
  Definition getFloatingPotentialsMatrix (ignore : bool) : dcmd (matrix T) :=
    let! d := cget in
    if (List.length (nameToAttr_PEC (mo_mats (dr_model d))) =? 1)%nat then
      cret {| nr := 1; nc := 1; ent := fun _ _ => n1 |}
    else
      let! o := clift (determineOpenness dbg (dr_model d)) in
      let! C := match o with
                | Closed => let! gC := getGeneralizedCMatrix ignore in
                            cret (getCFromGeneralizedC gC o)
                | Open => getGeneralizedCMatrix ignore
                | SemiOpen => clift (Throw (RuntimeError
                     "Floating potentials not implemented for this kind of openness."))
                end in
      clift (floating_matrix C).
  (** Results.h:32-34, Driver.cpp:391-399 *)
  Definition getFloatingPotentials : dcmd (matrix T * matrix T) :=
    let! e := getFloatingPotentialsMatrix false in
    let! m := getFloatingPotentialsMatrix true in
    cret (e, m).

  (** Driver.cpp:401-419 listMaterialsInInnerRegion *)
  Definition listMaterialsInInnerRegion (m : model T) (includeConductors : bool) : list string :=
    (INNER_REGION_DEFAULT_NAME ::
     filter (fun name => negb (contains "Vacuum_" name)) (map fst (nameToAttr_Diel (mo_mats m)))
     ++ (if includeConductors then map fst (nameToAttr_PEC (mo_mats m)) else []))%list.

  (** Driver.cpp:422-445 getInnerRegionAveragePotential *)
  Definition inner_step (m : model T) (F : fem T) (s : solver T) (acc : T * T) (name : string)
    : outcome (T * T) :=
    let* tag := mat_ name (buildNameToAttrMap (mo_mats m)) in
    let* area := getAreaOfMaterial m name in
    let v := if isDomainMaterial (mo_mats m) name then getAveragePotentialInDomain F s tag
             else getAveragePotentialInBoundary F s tag in
    Ok (fst acc + v * area, snd acc + area).
  Definition getInnerRegionAveragePotential (m : model T) (F : fem T) (s : solver T)
      (includeConductors : bool) : outcome T :=
    let* r := foldM (inner_step m F s) (listMaterialsInInnerRegion m includeConductors) (n0, n0) in
    Ok (fst r / snd r).

  (** fp(condI, condJ) *)
  Definition mat_atZ (m : matrix T) (i j : Z) : outcome T :=
    if ((0 <=? i)%Z && (0 <=? j)%Z)%bool then mat_at m (Z.to_nat i) (Z.to_nat j)
    else Undef IndexOutOfBounds.

  (** Driver.cpp:467-474: superposition of the unit solutions *)
  Definition superpose_step (sp : solved) (fp : matrix T) (i : Z) (s : solver T) (cb : Z * Z)
    : outcome (solver T) :=
    let* a := mat_atZ fp i (fst cb) in
    let* x := get_solution sp (fst cb) in
    Ok (set_fields s (gf_add (s_phi s) a (so_phi x)) (gf_add (s_e s) a (so_e x))
                   (gf_add (s_d s) a (so_d x))).
  Definition superpose (sp : solved) (fp : matrix T) (i : Z) (conductors : list (Z * Z))
    : outcome (solver T) :=
    let s := sp_solver sp in
    let s0 := set_fields s (gf_scale n0 (s_phi s)) (gf_scale n0 (s_e s)) (gf_scale n0 (s_d s)) in
    foldM (superpose_step sp fp i) conductors s0.

  (** Driver.cpp:447-493 getFieldParameters *)
  Definition field_step (ignore : bool) (fp : matrix T) (conductors : list (Z * Z))
      (res : list (Z * fieldrec T)) (ca : Z * Z) : dcmd (list (Z * fieldrec T)) :=
    let! d := cget in
    let m := dr_model d in
    let F := femlib (mo_mesh m) (o_order (dr_opts d)) in
    let! s := clift (superpose (problem d ignore) fp (fst ca) conductors) in
    do! cput (set_solver d ignore s);
    let! p := clift (get_PEC_by_id (mo_mats m) (fst ca)) in
    do! cemit (exportFieldSolutions (dr_opts d) s (p_name p ++ "_prescribed_and_others_floating") ignore);
    let! av := clift (getInnerRegionAveragePotential m F s true) in
    let! cc := clift (getCenterOfCharge F moment s) in
    let! ab := clift (getMultipolarCoefficients F moment s (o_multipolarExpansionOrder (dr_opts d))) in
    let! pots := clift (foldM (fun r (cb : Z * Z) =>
                                 let* v := mat_atZ fp (fst ca) (fst cb) in Ok (mset (fst cb) v r))
                              conductors []) in
    cret (mset (fst ca) {| fr_avg := av; fr_center := cc; fr_ab := ab; fr_pots := pots |} res).
  Definition getFieldParameters (ignore : bool) : dcmd (list (Z * fieldrec T)) :=
    let! fp := getFloatingPotentialsMatrix ignore in
    let! d := cget in
    let! conductors := clift (idToAttr_PEC (mo_mats (dr_model d))) in
    cfold (field_step ignore fp conductors) conductors [].

  (** Driver.cpp:495-509 getInCellPotentials *)
  Definition getInCellPotentials : dcmd (incell T) :=
    let! d := cget in
    let! o := clift (determineOpenness dbg (dr_model d)) in
    if negb (openness_eqb o Open) then
      clift (Throw (RuntimeError "In cell parameters can only be computed for open problems."))
    else
      let! b := clift (getBoundingBoxOfMaterial (dr_model d) INNER_REGION_DEFAULT_NAME) in
      let! e := getFieldParameters false in
      let! m := getFieldParameters true in
      cret {| ic_box := b; ic_electric := e; ic_magnetic := m |}.

  (** Driver.cpp:279-297 run *)
  Definition run : dcmd unit :=
    let! d := cget in
    let! o := clift (determineOpenness dbg (dr_model d)) in
    match o with
    | Closed =>
        let! p := buildPULParametersForModel in
        cemit [EvJson (o_exportFolder (dr_opts d) ++ "pulmtln.out.json") (pulToJSON p)]
    | Open =>
        let! p := getInCellPotentials in
        cemit [EvJson (o_exportFolder (dr_opts d) ++ "inCellPotentials.out.json") (incellToJSON p)]
    | SemiOpen => clift (Throw (RuntimeError "Openness of the model is not supported."))
    end.

  (** Driver.h:26 *)
  Definition setExportFolder (folder : string) : dcmd unit :=
    let! d := cget in
    cput {| dr_model := dr_model d; dr_opts := with_folder (dr_opts d) folder;
            dr_el := dr_el d; dr_mag := dr_mag d |}.

  (** Driver.cpp:304-320 getPULMTLByDomains: the sub-drivers work on copies. *)
  Definition sub_pul (m : model T) (o : driver_options) (dom : domain) : cmd T unit (pul T) :=
    let! gm := clift (buildModelForDomain (mo_mesh m) (mo_mats m) dom) in
    let! sd := mkDriver (snd gm) o in
    fun _ => let '((r, _), w) := getPULMTL sd in ((r, tt), w).
  Definition getPULMTLByDomains : dcmd (digraph * list (Z * pul T)) :=
    let! d := cget in
    let! ds := clift (buildDomains dbg (dr_model d)) in
    let! puls := cfold (fun r (idd : Z * domain) =>
                          fun s => let '((x, _), w) := sub_pul (dr_model d) (dr_opts d) (snd idd) tt in
                                   ((bind x (fun p => Ok (mset (fst idd) p r)), s), w))
                       ds [] in
    let! tree := clift (mkDomainTree dbg ds) in
    cret (tree, puls).
End DriverModel.
Arguments driver T : clear implicits.
Arguments solved T : clear implicits.
