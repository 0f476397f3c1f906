(** Property C67: the numbers of the conductors only order the results. *)
From Coq Require Import Reals Permutation.
From Verif Require Import Prelude StdMap Json Materials Graph ModelM Parser Matrix Solver Domain Results Driver
  SpecInput SpecModel SpecSolver SpecDriver SpecMatrix SpecRenumber SpecField RSum DriverProofs DriverFacts RenumberProofs RenumberCell Toy Fem SpecFem Triangles SpecTriangles Kite Transfer Bars PropsDriver.
Open Scope R_scope.
Open Scope list_scope.

(** ** C67 *)
(** Two Drivers, with the same order of the elements, of models that differ in the names and
    numbers of the materials only ([renumbered]: conductor i of the first is conductor s(i) of the
    second), after any histories of calls: the entries of the generalized capacitance matrices
    agree. *)
Theorem C67_generalized_matrix :
  forall (dbg : bool) femlib moment (s : nat -> nat) (m m' : model R) (o o' : driver_options) (d d' : driver R)
         (ops ops' : list dop) (conds conds' : list (pec R)) (ignore : bool) (g g' : matrix R) w w',
    renumbered s m m' conds conds' -> o_order o' = o_order o ->
    well_posed (femlib (mo_mesh m) (o_order o)) m -> well_posed (femlib (mo_mesh m) (o_order o)) m' ->
    built dbg femlib m o d -> built dbg femlib m' o' d' ->
    reply dbg femlib moment (CallGeneralizedC ignore) (after dbg femlib moment ops d) = (Ok (VMatrix g), w) ->
    reply dbg femlib moment (CallGeneralizedC ignore) (after dbg femlib moment ops' d') = (Ok (VMatrix g'), w') ->
    square (List.length conds) g /\ square (List.length conds) g' /\
    forall i j, (i < List.length conds)%nat -> (j < List.length conds)%nat -> ent g' (s i) (s j) = ent g i j.
Proof.
  intros dbg femlib moment s m m' o o' d d' ops ops' conds conds' ignore g g' w w' Rn Oo W W0 B B' E E'.
  exact (renumbered_g dbg femlib moment s m m' o o' d d' ops ops' conds conds' Rn Oo W W0 B B' ignore g g' w w' E E').
Qed.
Print Assumptions C67_generalized_matrix.
(** When conductor 0 stays the same, so do those of the matrices C and L of getPULMTL. *)
Theorem C67_PUL_matrices :
  forall (dbg : bool) femlib moment (s : nat -> nat) (m m' : model R) (o o' : driver_options) (d d' : driver R)
         (ops ops' : list dop) (conds conds' : list (pec R)) (p p' : pul R) w w' (n : nat),
    renumbered s m m' conds conds' -> s 0%nat = 0%nat -> o_order o' = o_order o -> List.length conds = S n ->
    well_posed (femlib (mo_mesh m) (o_order o)) m -> well_posed (femlib (mo_mesh m) (o_order o)) m' ->
    built dbg femlib m o d -> built dbg femlib m' o' d' ->
    reply dbg femlib moment CallPUL (after dbg femlib moment ops d) = (Ok (VPul p), w) ->
    reply dbg femlib moment CallPUL (after dbg femlib moment ops' d') = (Ok (VPul p'), w') ->
    square n (pul_C p) /\ square n (pul_C p') /\ square n (pul_L p) /\ square n (pul_L p') /\
    forall i j, (i < n)%nat -> (j < n)%nat ->
      ent (pul_C p') (without_reference s i) (without_reference s j) = ent (pul_C p) i j /\
      ent (pul_L p') (without_reference s i) (without_reference s j) = ent (pul_L p) i j.
Proof.
  intros dbg femlib moment s m m' o o' d d' ops ops' conds conds' p p' w w' n Rn S0 Oo Ln W W0 B B' E E'.
  exact (renumbered_pul dbg femlib moment s m m' o o' d d' ops ops' conds conds' Rn Oo W W0 B B' p p' w w' n S0 Ln E E').
Qed.
Print Assumptions C67_PUL_matrices.
(** And the floating potentials: of open problems in any case, of closed ones when conductor 0 stays. *)
Theorem C67_floating_potentials :
  forall (dbg : bool) femlib moment (s : nat -> nat) (m m' : model R) (o o' : driver_options) (d d' : driver R)
         (ops ops' : list dop) (conds conds' : list (pec R)) (op : openness) (e f e' f' : matrix R) w w',
    renumbered s m m' conds conds' -> o_order o' = o_order o -> (2 <= List.length conds)%nat -> determineOpenness dbg m = Ok op ->
    well_posed (femlib (mo_mesh m) (o_order o)) m -> well_posed (femlib (mo_mesh m) (o_order o)) m' ->
    built dbg femlib m o d -> built dbg femlib m' o' d' ->
    reply dbg femlib moment CallFloating (after dbg femlib moment ops d) = (Ok (VMatrices e f), w) ->
    reply dbg femlib moment CallFloating (after dbg femlib moment ops' d') = (Ok (VMatrices e' f'), w') ->
    (op = Open -> forall i j, (i < List.length conds)%nat -> (j < List.length conds)%nat ->
       ent e' (s i) (s j) = ent e i j /\ ent f' (s i) (s j) = ent f i j) /\
    (op = Closed -> s 0%nat = 0%nat -> forall i j, (S i < List.length conds)%nat -> (S j < List.length conds)%nat ->
       ent e' (without_reference s i) (without_reference s j) = ent e i j /\
       ent f' (without_reference s i) (without_reference s j) = ent f i j).
Proof.
  intros dbg femlib moment s m m' o o' d d' ops ops' conds conds' op e f e' f' w w' Rn Oo L2 Op W W0 B B' E E'.
  exact (renumbered_floating dbg femlib moment s m m' o o' d d' ops ops' conds conds' Rn Oo W W0 B B' op e f e' f' w w' L2 Op E E').
Qed.
Print Assumptions C67_floating_potentials.

(** The open toy problem with its conductors exchanged and other names. *)
Definition swapped_conds : list (pec R) :=
  [{| p_name := "Wire_0"; p_attr := 2; p_area := 0 |}; {| p_name := "Wire_1"; p_attr := 1; p_area := 7 |}].
Definition swapped_model : model R :=
  {| mo_mats := {| pecs := swapped_conds; openBoundaries := [{| o_name := "Infinity"; o_attr := 4 |}];
                   dielectrics := [{| d_name := "Vacuum_0"; d_attr := 3; d_epsr := 2 |}] |};
     mo_mesh := toy_mesh Open; mo_ground := 0 |}.
Lemma swapped_openness dbg : determineOpenness dbg swapped_model = Ok Open.
Proof. destruct dbg; reflexivity. Qed.
Example C67_example :
  renumbered (fun i => (1 - i)%nat) (toy_model Open 2) swapped_model toy_conds swapped_conds /\
  well_posed (toy_lib (mo_mesh (toy_model Open 2)) 3%Z) swapped_model /\
  exists d d' g g' w w', built true toy_lib (toy_model Open 2) toy_options d /\ built true toy_lib swapped_model toy_options d' /\
    reply true toy_lib (fun _ _ _ _ => 0) (CallGeneralizedC false) d = (Ok (VMatrix g), w) /\
    reply true toy_lib (fun _ _ _ _ => 0) (CallGeneralizedC false) d' = (Ok (VMatrix g'), w').
Proof.
  assert (Wp : well_posed (toy_lib (mo_mesh (toy_model Open 2)) 3%Z) swapped_model).
  { constructor; [|repeat constructor|repeat constructor| |apply toy_fem_ok].
    - unfold all_names; cbn; repeat constructor; cbn; intuition discriminate.
    - repeat constructor; cbn; lia. }
  assert (Os : in_order (mo_mats swapped_model) swapped_conds).
  { split; [apply Permutation_refl|]. intros [|[|i]] p E; cbn in E; try (injection E as <-; reflexivity). destruct i; discriminate. }
  split; [|split; [exact Wp|]].
  - constructor; try reflexivity.
    + split; [apply toy_order|exact Os].
    + apply perm_swap.
    + intros [|[|i]] p E; cbn in E; try (injection E as <-; eexists; split; reflexivity). destruct i; discriminate.
  - destruct (C02_conductors_0_to_n_are_accepted R _ (toy_model Open 2) [1; 0]%Z true toy_lib toy_options
              (toy_posed _ _ _) ltac:(repeat constructor) ltac:(discriminate) ltac:(apply perm_swap)) as (d & B & _).
    destruct (C02_conductors_0_to_n_are_accepted R _ swapped_model [0; 1]%Z true toy_lib toy_options
              Wp ltac:(repeat constructor) ltac:(discriminate) ltac:(apply Permutation_refl)) as (d' & B' & _).
    destruct (generalized_matrix true toy_lib (fun _ _ _ _ => 0) (toy_model Open 2) toy_options d [] toy_conds false Open (toy_posed _ _ _) B (toy_order _ _)
       (toy_openness true Open 2) ltac:(discriminate)) as (g & w & E & _).
    destruct (generalized_matrix true toy_lib (fun _ _ _ _ => 0) swapped_model toy_options d' [] swapped_conds false Open Wp B' Os
       (swapped_openness true) ltac:(discriminate)) as (g' & w' & E' & _).
    exists d, d', g, g', w, w'. split; [exact B|split; [exact B'|split; [exact E|exact E']]].
Qed.

(** In-cell parameters: when the first model has them, so has the second (same order of the
    expansion), with the same box, and the field of conductor s(i) of the second is described like
    that of conductor i of the first: same average over the inner region, same centre of charge, same
    multipolar coefficients, and conductor s(j) at the potential of conductor j. Both with and
    without dielectrics. *)
Theorem C67_in_cell_parameters :
  forall (dbg : bool) femlib moment (s : nat -> nat) (m m' : model R) (o o' : driver_options) (d d' : driver R)
         (ops ops' : list dop) (conds conds' : list (pec R)) (p : incell R) w,
    renumbered s m m' conds conds' -> same_inner_region s m m' conds conds' ->
    o_order o' = o_order o -> o_multipolarExpansionOrder o' = o_multipolarExpansionOrder o ->
    well_posed (femlib (mo_mesh m) (o_order o)) m -> well_posed (femlib (mo_mesh m) (o_order o)) m' ->
    built dbg femlib m o d -> built dbg femlib m' o' d' ->
    reply dbg femlib moment CallInCell (after dbg femlib moment ops d) = (Ok (VInCell p), w) ->
    exists p' w', reply dbg femlib moment CallInCell (after dbg femlib moment ops' d') = (Ok (VInCell p'), w') /\
      ic_box p' = ic_box p /\
      forall (ignore : bool) i fr, In (Z.of_nat i, fr) (fields_of p ignore) ->
        exists fr', In (Z.of_nat (s i), fr') (fields_of p' ignore) /\ same_field s (List.length conds) fr fr'.
Proof.
  intros dbg femlib moment s m m' o o' d d' ops ops' conds conds' p w Rn Si Oo Om W W0 B B' E.
  exact (renumbered_incell dbg femlib moment s m m' o o' d d' ops ops' conds conds' Rn Si Oo Om W W0 B B' p w E).
Qed.
Print Assumptions C67_in_cell_parameters.

(** The two bars with their numbers exchanged. *)
Definition other_bars_conds : list (pec R) :=
  [{| p_name := "Wire_0"; p_attr := 2; p_area := 1 |}; {| p_name := "Wire_1"; p_attr := 1; p_area := 1 |}].
Definition other_bars : model R :=
  {| mo_mats := {| pecs := other_bars_conds; openBoundaries := [{| o_name := "Infinity"; o_attr := 4 |}];
                   dielectrics := [{| d_name := "Vacuum_0"; d_attr := 3; d_epsr := 1 |}] |};
     mo_mesh := mesh_R bars_mesh; mo_ground := 0 |}.
Lemma other_bars_order : in_order (mo_mats other_bars) other_bars_conds.
Proof. split; [apply Permutation_refl|]. intros [|[|i]] p E; cbn in E; try (injection E as <-; reflexivity). destruct i; discriminate. Qed.
Lemma other_bars_renumbered : renumbered (fun i => (1 - i)%nat) bars_model other_bars toy_conds other_bars_conds.
Proof.
  constructor; try reflexivity.
  - split; [apply bars_order|apply other_bars_order].
  - apply perm_swap.
  - intros [|[|i]] p E; cbn in E; try (injection E as <-; eexists; split; reflexivity). destruct i; discriminate.
Qed.
Lemma other_bars_posed : well_posed (galerkin quarter (kite_disc distance) (mo_mesh bars_model) 1) other_bars.
Proof.
  destruct bars_posed as [H1 H2 H3 H4 H5]. constructor; auto.
  - unfold all_names; cbn; repeat constructor; cbn; intuition discriminate.
  - repeat constructor.
  - repeat constructor.
Qed.
Example C67_example_in_cell : forall dbg moment ops,
  renumbered (fun i => (1 - i)%nat) bars_model other_bars toy_conds other_bars_conds /\
  same_inner_region (fun i => (1 - i)%nat) bars_model other_bars toy_conds other_bars_conds /\
  well_posed (galerkin quarter (kite_disc distance) (mo_mesh bars_model) 1) other_bars /\
  exists d d' p w, built dbg (galerkin quarter (kite_disc distance)) bars_model kite_options d /\
    built dbg (galerkin quarter (kite_disc distance)) other_bars kite_options d' /\
    reply dbg (galerkin quarter (kite_disc distance)) moment CallInCell (after dbg (galerkin quarter (kite_disc distance)) moment ops d) = (Ok (VInCell p), w).
Proof.
  intros dbg moment ops. split; [exact other_bars_renumbered|]. split.
  { split; [reflexivity|]. split; [left; reflexivity|]. intros [|[|i]] p p' E E'; cbn in E, E'; try (injection E as <-; injection E' as <-; reflexivity). destruct i; discriminate. }
  split; [exact other_bars_posed|].
  destruct (bars_driver dbg) as (d & B). destruct (bars_incell dbg moment ops d B) as (p & w & E).
  destruct (mkDriver_ok dbg (galerkin quarter (kite_disc distance)) other_bars kite_options other_bars_posed other_bars_conds other_bars_order) as (d' & E' & _); [discriminate|].
  exists d, d', p, w. split; [exact B|]. split; [eexists; exact E'|exact E].
Qed.
