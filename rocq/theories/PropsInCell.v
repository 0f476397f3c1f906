(** Property C80: when the in-cell parameters are produced. *)
From Coq Require Import QArith Reals Lra.
From Verif Require Import Prelude StdMap Json Materials Graph ModelM Parser Matrix Solver Fem Domain Results Driver
  SpecInput SpecModel SpecSolver SpecDriver SpecMatrix SpecField SpecFem SpecTriangles SpecInCell DriverProofs DriverFacts MatrixFacts InCellOk Toy Triangles Kite Bars
  CallProofs MatrixCalls PropsFem.
Open Scope R_scope.
Open Scope list_scope.

(** ** C80 *)
(** Exactly for open cross-sections with one open boundary and an inner region called Vacuum_0
    whose floating potentials exist. *)
Theorem C80_when_in_cell_parameters_exist :
  forall (dbg : bool) femlib moment (m : model R) (o : driver_options) (d : driver R) (ops : list dop),
    well_posed (femlib (mo_mesh m) (o_order o)) m -> built dbg femlib m o d ->
    (exists p w, reply dbg femlib moment CallInCell (after dbg femlib moment ops d) = (Ok (VInCell p), w)) <->
    (determineOpenness dbg m = Ok Open /\ inner_region_named (mo_mats m) /\ List.length (openBoundaries (mo_mats m)) = 1%nat /\
     exists e f w, reply dbg femlib moment CallFloating (after dbg femlib moment ops d) = (Ok (VMatrices e f), w)).
Proof. intros dbg femlib moment m o d ops W B. exact (reply_incell_iff dbg femlib moment m o d ops W B). Qed.
Print Assumptions C80_when_in_cell_parameters_exist.

(** One conductor: its potential always exists. *)
Theorem C80_single_conductor :
  forall (dbg : bool) femlib moment (m : model R) (o : driver_options) (d : driver R) (ops : list dop),
    well_posed (femlib (mo_mesh m) (o_order o)) m -> built dbg femlib m o d -> List.length (pecs (mo_mats m)) = 1%nat ->
    (exists p w, reply dbg femlib moment CallInCell (after dbg femlib moment ops d) = (Ok (VInCell p), w)) <->
    (determineOpenness dbg m = Ok Open /\ inner_region_named (mo_mats m) /\ List.length (openBoundaries (mo_mats m)) = 1%nat).
Proof.
  intros dbg femlib moment m o d ops W B L. rewrite (C80_when_in_cell_parameters_exist dbg femlib moment m o d ops W B).
  split; [intros (H1 & H2 & H3 & _); auto|]. intros (H1 & H2 & H3). split; [exact H1|]. split; [exact H2|]. split; [exact H3|].
  destruct (floating_single dbg femlib moment (after dbg femlib moment ops d)) as (e & f & E & _); [|exists e, f; eauto].
  rewrite (D_model dbg femlib moment Rmul0 m o d ops W B). exact L.
Qed.
Print Assumptions C80_single_conductor.

(** Several: when the charges are those of the fields (Gauss), on a connected mesh. *)
Theorem C80_in_cell_parameters_exist_when_charges_obey_gauss :
  forall (abc : R * R -> R) disc (dbg : bool) moment (m : model R) (o : driver_options) (d : driver R) (ops : list dop) (conds : list (pec R)),
    let D := disc (mo_mesh m) (o_order o) in
    galerkin_driver abc disc dbg m o d conds -> connected_mesh abc D m -> constants_ok D ->
    gauss abc D dbg m false -> gauss abc D dbg m true ->
    determineOpenness dbg m = Ok Open -> inner_region_named (mo_mats m) -> List.length (openBoundaries (mo_mats m)) = 1%nat ->
    exists p w, reply dbg (galerkin abc disc) moment CallInCell (after dbg (galerkin abc disc) moment ops d) = (Ok (VInCell p), w).
Proof.
  intros abc disc dbg moment m o d ops conds D G Cm Co G1 G2 Eo Nm One.
  apply (C80_when_in_cell_parameters_exist dbg (galerkin abc disc) moment m o d ops (gd_posed _ _ _ _ _ _ _ G) (gd_built _ _ _ _ _ _ _ G)).
  split; [exact Eo|]. split; [exact Nm|]. split; [exact One|].
  exact (C61_floating_potentials_exist_partial abc disc dbg moment m o d ops conds Open G Cm Co G1 G2 Eo ltac:(discriminate)).
Qed.
Print Assumptions C80_in_cell_parameters_exist_when_charges_obey_gauss.

(** Without a material of that name: std::out_of_range, before any field is written. *)
Theorem C80_without_the_inner_region_throws :
  forall (T : Type) (N : Num T) (dbg : bool) femlib moment (d : driver T),
    determineOpenness dbg (dr_model d) = Ok Open -> NoDup (all_names (mo_mats (dr_model d))) ->
    ~ In "Vacuum_0"%string (all_names (mo_mats (dr_model d))) ->
    call dbg femlib moment CallInCell d = ((Throw OutOfRange, d), []).
Proof. intros T N. exact (@incell_unnamed T N). Qed.
Print Assumptions C80_without_the_inner_region_throws.

(** The two bars have in-cell parameters, and so has the toy problem, also after other calls. *)
Example C80_example : forall dbg moment ops, exists d p w,
  built dbg (galerkin quarter (kite_disc distance)) bars_model kite_options d /\
  reply dbg (galerkin quarter (kite_disc distance)) moment CallInCell (after dbg (galerkin quarter (kite_disc distance)) moment ops d) = (Ok (VInCell p), w).
Proof. intros dbg moment ops. destruct (bars_driver dbg) as (d & B). destruct (bars_incell dbg moment ops d B) as (p & w & E). exists d, p, w. auto. Qed.
(** A section whose medium is called Vacuum_1 has none. *)
Definition renamed (m : model Q) : model Q :=
  {| mo_mats := {| pecs := pecs (mo_mats m); openBoundaries := openBoundaries (mo_mats m);
                   dielectrics := [{| d_name := "Vacuum_1"; d_attr := 3; d_epsr := 2%Q |}] |};
     mo_mesh := mo_mesh m; mo_ground := mo_ground m |}.
Example C80_example_throws :
  match mkDriver true toy_lib (renamed (toy_model Open 2%Q)) toy_options tt with
  | ((Ok d, _), _) => fst (reply true toy_lib (fun _ _ _ _ => 0%Q) CallInCell d) = Throw OutOfRange /\ ~ In "Vacuum_0"%string (all_names (mo_mats (dr_model d)))
  | _ => False
  end.
Proof. vm_compute. split; [reflexivity|]. intuition discriminate. Qed.
