(** Properties C57-C64: the fields computed by the solver and what follows for the parameters. *)
From Coq Require Import QArith Reals Lra Permutation.
From Verif Require Import Prelude StdMap Json Materials Graph ModelM Parser Matrix Multipole Solver Fem Domain Results Driver RSum LinAlg
  SpecInput SpecModel SpecSolver SpecDriver SpecMatrix SpecCharge SpecField SpecFem ListLemmas SolverProofs DriverProofs CallProofs DriverFacts MatrixProofs MatrixCalls MatrixFacts FieldProofs
  FemProofs FemCalls FemFacts FemModel FemLaws FemDriver FemMatrix FemMore PropsMatrix FemPul Toy FemToy.
Open Scope R_scope.
Open Scope list_scope.

(** ** C57 *)
(** Solve returns the potential with the prescribed boundary values that has strictly the least
    energy (1/2 integral of eps |grad phi|^2, plus the absorbing term of open boundaries, minus the
    work of the surface charges) among all potentials of the space with these values; E is minus
    its gradient; D is the projection of eps E to the flux space. *)
Theorem C57_fields_minimize_the_energy :
  forall (abc : R * R -> R) (D : discretization R) (dbg : bool) (p : solver_inputs R),
    tables_ok D -> problem_ok abc D p -> anchored abc D p ->
    exists x sigma, computes abc D dbg p x /\ surface_density abc D p sigma /\
      potential D (so_phi x) /\ prescribed abc D p (so_phi x) /\
      (forall psi, potential D psi -> prescribed abc D p psi -> psi <> so_phi x ->
         energy abc D p sigma (so_phi x) < energy abc D p sigma psi) /\
      is_minus_gradient D x /\
      forall d, projects D p (so_e x) d <-> d = so_d x.
Proof.
  intros abc D dbg p OK Hp An. destruct (computes_exists abc D OK dbg p Hp) as (x & Cx).
  destruct (minimal abc D OK dbg p x Hp An Cx) as (sigma & Sd & P1 & P2 & P3 & _).
  exists x, sigma. repeat (split; [assumption|]). split.
  - exact (e_of_phi abc D OK dbg p x Hp Cx).
  - intros d. exact (d_of_e abc D OK dbg p x d Hp Cx).
Qed.
Print Assumptions C57_fields_minimize_the_energy.
(** The fields satisfy the weak form of Poisson's equation, and no other potential with the
    prescribed values does. *)
Theorem C57_weak_form :
  forall (abc : R * R -> R) (D : discretization R) (dbg : bool) (p : solver_inputs R) (x : solution R) (phi sigma : list R),
    tables_ok D -> problem_ok abc D p -> anchored abc D p -> computes abc D dbg p x -> surface_density abc D p sigma ->
    potential D phi -> prescribed abc D p phi ->
    ((forall psi, potential D psi ->
        (forall t v k, In (t, v) (si_dirichlet p) -> on_boundary (discretize abc D) t k -> nth_error psi k = Some 0) ->
        work abc D p phi psi = source D sigma psi) <-> phi = so_phi x).
Proof.
  intros abc D dbg p x phi sigma OK Hp An Cx Sd Lp Pp.
  destruct (minimal abc D OK dbg p x Hp An Cx) as (sigma' & Sd' & L & Pr & Mi & Wk).
  assert (Es : sigma' = sigma).
  { eapply density_unique; eassumption. }
  subst sigma'. split.
  - intros Wf. symmetry. eapply weak_unique; eassumption.
  - intros ->. exact Wk.
Qed.
Print Assumptions C57_weak_form.

(** ** C58 *)
(** Superposition: if the boundary values of [p] are the combination sum_j c_j (those of the
    problems [ps]), and permittivities and open boundaries agree, so are the fields. *)
Theorem C58_superposition :
  forall (abc : R * R -> R) (D : discretization R) (dbg : bool) (ps : list (solver_inputs R)) (c : nat -> R)
         (p : solver_inputs R) (us : list (solution R)) (x : solution R),
    tables_ok D -> problem_ok abc D p -> Forall (problem_ok abc D) ps -> anchored abc D p ->
    (forall p', In p' ps -> Permutation (si_open p') (si_open p) /\ si_eps p' = si_eps p) ->
    combined_values (map si_dirichlet ps) c (si_dirichlet p) -> combined_values (map si_neumann ps) c (si_neumann p) ->
    Forall2 (computes abc D dbg) ps us -> computes abc D dbg p x -> combines us c x.
Proof. intros. eapply superposition; eassumption. Qed.
Print Assumptions C58_superposition.
(** The field with the potentials V on the conductors is the combination of the unit solutions with
    coefficients V. *)
Theorem C58_conductor_potentials :
  forall (abc : R * R -> R) (D : discretization R) (dbg : bool) (m : model R) (ignore : bool) (conds : list (pec R))
         (us : list (solution R)) (V : nat -> R) (v : Z -> R),
    well_posed (discretize abc D) m -> regular_model abc D m -> in_order (mo_mats m) conds ->
    Forall2 (fun p u => unit_solution (discretize abc D) dbg (mo_mats m) ignore (p_attr p) u) conds us ->
    potentials_by_number conds V v ->
    exists x, model_fields abc D dbg m ignore v x /\ combines us V x.
Proof.
  intros abc D dbg m ignore conds us V v W Rm O Fu Hv.
  destruct (model_fields_exist abc D dbg m W Rm ignore v) as (x & Hx). exists x. split; [exact Hx|].
  eapply conductor_combination; eassumption.
Qed.
Print Assumptions C58_conductor_potentials.
(** The fields that getInCellPotentials reconstructs from the unit solutions are those the solver
    would compute with the stored potentials on the conductors. *)
Theorem C58_reconstructed_fields_are_solutions :
  forall (abc : R * R -> R) disc (dbg : bool) moment (m : model R) (o : driver_options) (d : driver R) (ops : list dop)
         (conds : list (pec R)) (p : incell R) w (ignore : bool) (i : nat) (fr : fieldrec R),
    galerkin_driver abc disc dbg m o d conds ->
    reply dbg (galerkin abc disc) moment CallInCell (after dbg (galerkin abc disc) moment ops d) = (Ok (VInCell p), w) ->
    In (Z.of_nat i, fr) (fields_of p ignore) ->
    exists V x v, reconstruction (galerkin abc disc (mo_mesh m) (o_order o)) dbg moment m (o_multipolarExpansionOrder o) ignore conds V x fr /\
      fr_pots fr = map (fun j => (Z.of_nat j, V j)) (seq 0 (List.length conds)) /\
      potentials_by_number conds V v /\
      model_fields abc (disc (mo_mesh m) (o_order o)) dbg m ignore v x.
Proof.
  intros abc disc dbg moment m o d ops conds p w ignore i fr [W Rm B O] E I.
  destruct (incell_fields dbg _ moment m o d ops conds W B O p w E) as (_ & H).
  destruct (H ignore) as (_ & g & wg & V & _ & _ & Hi). destruct (Hi i fr I) as (_ & _ & x & Rx).
  destruct (by_tag conds (V i) (order_tags abc (disc (mo_mesh m) (o_order o)) m Rm conds O)) as (v & Hv).
  exists (V i), x, v. split; [exact Rx|]. split; [exact (rc_potentials _ _ _ _ _ _ _ _ _ _ Rx)|]. split; [exact Hv|].
  destruct (rc_units _ _ _ _ _ _ _ _ _ _ Rx) as (us & Fu & Cu).
  destruct (model_fields_exist abc (disc (mo_mesh m) (o_order o)) dbg m W Rm ignore v) as (y & Hy).
  pose proof (conductor_combination abc (disc (mo_mesh m) (o_order o)) dbg m W Rm ignore conds us (V i) v y O Fu Hv Hy) as Cy.
  assert (x = y) as ->; [|exact Hy].
  apply (combines_unique abc (disc (mo_mesh m) (o_order o)) us (V i)); auto.
  - exact (rc_sized _ _ _ _ _ _ _ _ _ _ Rx).
  - eapply fields_sized; eassumption.
Qed.
Print Assumptions C58_reconstructed_fields_are_solutions.

(** ** C59 *)
(** In a closed problem only differences of potential matter: with the same potential on all
    conductors the potential is constant, there is no field and no charge ... *)
Theorem C59_equal_potentials_give_no_field :
  forall (abc : R * R -> R) (D : discretization R) (dbg : bool) (m : model R) (ignore : bool) (c : R) (v : Z -> R) (x : solution R),
    well_posed (discretize abc D) m -> regular_model abc D m -> constants_ok D -> openBoundaries (mo_mats m) = [] ->
    (forall q, In q (pecs (mo_mats m)) -> v (p_attr q) = c) -> model_fields abc D dbg m ignore v x ->
    so_phi x = repeat c (di_nH1 D) /\ so_e x = repeat 0 (di_nND D) /\ so_d x = repeat 0 (di_nRT D) /\
    forall t, charge_on (discretize abc D) x t 0.
Proof.
  intros abc D dbg m ignore c v x W Rm Co Eo Hv Hx.
  destruct (constant_fields abc D dbg m W Rm ignore c v x Eo Co Hv Hx) as (P1 & P2 & P3).
  repeat (split; [assumption|]). intros t. now apply no_charge.
Qed.
Print Assumptions C59_equal_potentials_give_no_field.
(** ... adding the same potential to all conductors only shifts phi ... *)
Theorem C59_only_differences_matter :
  forall (abc : R * R -> R) (D : discretization R) (dbg : bool) (m : model R) (ignore : bool) (c : R) (v : Z -> R) (x y : solution R),
    well_posed (discretize abc D) m -> regular_model abc D m -> constants_ok D -> openBoundaries (mo_mats m) = [] ->
    model_fields abc D dbg m ignore v x -> model_fields abc D dbg m ignore (fun t => v t + c) y ->
    so_phi y = map (fun a => a + c) (so_phi x) /\ so_e y = so_e x /\ so_d y = so_d x.
Proof. intros. eapply shifted_fields; eassumption. Qed.
Print Assumptions C59_only_differences_matter.
(** ... the charges on any conductor in the unit solutions add up to zero, and so do the rows and the
    columns of the generalized capacitance matrix when the raw charges are symmetric. *)
Theorem C59_rows_add_up_to_zero_partial :
  forall (abc : R * R -> R) disc (dbg : bool) moment (m : model R) (o : driver_options) (d : driver R) (ops : list dop)
         (conds : list (pec R)) (ignore : bool) (g : matrix R) w,
    galerkin_driver abc disc dbg m o d conds -> constants_ok (disc (mo_mesh m) (o_order o)) ->
    determineOpenness dbg m = Ok Closed -> reciprocal (galerkin abc disc (mo_mesh m) (o_order o)) dbg m ignore conds ->
    reply dbg (galerkin abc disc) moment (CallGeneralizedC ignore) (after dbg (galerkin abc disc) moment ops d) = (Ok (VMatrix g), w) ->
    forall i, (i < List.length conds)%nat ->
      Sum (List.length conds) (fun k => ent g i k) = 0 /\ Sum (List.length conds) (fun k => ent g k i) = 0.
Proof.
  intros abc disc dbg moment m o d ops conds ignore g w [W Rm B O] Co Cl Rc E i L.
  pose proof (closed_rows abc disc dbg moment m o d ops conds W Rm B O ignore g w Rc Cl Co E i L) as Z. split; [exact Z|].
  refine (eq_trans _ Z). apply Sum_ext. intros k _. eapply gc_symmetric; exact E.
Qed.
Print Assumptions C59_rows_add_up_to_zero_partial.
(** ... unconditionally: so do all entries of the generalized matrix ... *)
Theorem C59_entries_add_up_to_zero :
  forall (abc : R * R -> R) disc (dbg : bool) moment (m : model R) (o : driver_options) (d : driver R) (ops : list dop)
         (conds : list (pec R)) (ignore : bool) (g : matrix R) w,
    galerkin_driver abc disc dbg m o d conds -> constants_ok (disc (mo_mesh m) (o_order o)) ->
    determineOpenness dbg m = Ok Closed ->
    reply dbg (galerkin abc disc) moment (CallGeneralizedC ignore) (after dbg (galerkin abc disc) moment ops d) = (Ok (VMatrix g), w) ->
    total g = 0.
Proof.
  intros abc disc dbg moment m o d ops conds ignore g w [W Rm B O] Co Cl E.
  exact (closed_total abc disc dbg moment m o d ops conds W Rm B O ignore g w Cl Co E).
Qed.
Print Assumptions C59_entries_add_up_to_zero.
(** ... and the charges of the unit solutions on each conductor. *)
Theorem C59_unit_charges_add_up_to_zero :
  forall (abc : R * R -> R) (D : discretization R) (dbg : bool) (m : model R) (ignore : bool) (conds : list (pec R))
         (us : list (solution R)) (t : Z) (Q : nat -> R),
    well_posed (discretize abc D) m -> regular_model abc D m -> constants_ok D -> openBoundaries (mo_mats m) = [] ->
    in_order (mo_mats m) conds ->
    Forall2 (fun p u => unit_solution (discretize abc D) dbg (mo_mats m) ignore (p_attr p) u) conds us ->
    (forall j u, nth_error us j = Some u -> charge_on (discretize abc D) u t (Q j)) -> Sum (List.length conds) Q = 0.
Proof. intros. eapply closed_unit_charges; eassumption. Qed.
Print Assumptions C59_unit_charges_add_up_to_zero.

(** ** C60 *)
(** In a closed problem filled with a homogeneous medium the potentials and E are those of vacuum,
    D is er times that of vacuum ... *)
Theorem C60_homogeneous_fields :
  forall (abc : R * R -> R) (D : discretization R) (dbg : bool) (m : model R) (er : R) (v : Z -> R) (x y : solution R),
    well_posed (discretize abc D) m -> regular_model abc D m -> openBoundaries (mo_mats m) = [] -> homogeneous D m er ->
    model_fields abc D dbg m false v x -> model_fields abc D dbg m true v y ->
    so_phi x = so_phi y /\ so_e x = so_e y /\ so_d x = vscale er (so_d y).
Proof. intros abc D dbg m er v x y W Rm Eo (P & H1 & H2 & H3) Hx Hy. eapply homogeneous_fields; eassumption. Qed.
Print Assumptions C60_homogeneous_fields.
(** ... and L C = mu0 eps0 er: all modes travel with the speed of light in the medium. *)
Theorem C60_LC_product :
  forall (abc : R * R -> R) disc (dbg : bool) moment (m : model R) (o : driver_options) (d : driver R) (ops : list dop)
         (conds : list (pec R)) (er : R) (p : pul R) w (n : nat),
    galerkin_driver abc disc dbg m o d conds -> determineOpenness dbg m = Ok Closed ->
    homogeneous (disc (mo_mesh m) (o_order o)) m er -> List.length conds = S n ->
    reply dbg (galerkin abc disc) moment CallPUL (after dbg (galerkin abc disc) moment ops d) = (Ok (VPul p), w) ->
    square n (pul_L p) /\ square n (pul_C p) /\
    product_is n (pul_L p) (pul_C p) (mu0 * eps0 * er) /\ product_is n (pul_C p) (pul_L p) (mu0 * eps0 * er).
Proof.
  intros abc disc dbg moment m o d ops conds er p w n [W Rm B O] Cl (P & H1 & H2 & H3) L E.
  eapply homogeneous_pul; eassumption.
Qed.
Print Assumptions C60_LC_product.

(** ** C61 *)
(** With Gauss's law (the charges computed from the flux are the reactions of the weak form) on a
    connected mesh, the generalized matrix is positive ... *)
Theorem C61_generalized_matrix_is_positive_partial :
  forall (abc : R * R -> R) disc (dbg : bool) moment (m : model R) (o : driver_options) (d : driver R) (ops : list dop)
         (conds : list (pec R)) (ignore : bool) (g : matrix R) w,
    let D := disc (mo_mesh m) (o_order o) in
    galerkin_driver abc disc dbg m o d conds -> gauss abc D dbg m ignore -> connected_mesh abc D m -> constants_ok D ->
    reply dbg (galerkin abc disc) moment (CallGeneralizedC ignore) (after dbg (galerkin abc disc) moment ops d) = (Ok (VMatrix g), w) ->
    symmetric g /\ positive_for_differences g /\ (openBoundaries (mo_mats m) <> [] -> 0 < total g /\ positive_definite g).
Proof.
  intros abc disc dbg moment m o d ops conds ignore g w D [W Rm B O] G Cm Co E.
  destruct (g_positive abc disc dbg moment m o d ops conds W Rm B O ignore g w G Cm Co E) as (P & Q).
  split; [intros i j _ _; eapply gc_symmetric; exact E|]. split; [exact P|]. intros Ho. split; [exact (Q Ho)|].
  eapply g_definite; eassumption.
Qed.
Print Assumptions C61_generalized_matrix_is_positive_partial.
(** ... and getPULMTL returns symmetric positive definite matrices C and L. *)
Theorem C61_PUL_parameters_exist_and_are_positive_definite_partial :
  forall (abc : R * R -> R) disc (dbg : bool) moment (m : model R) (o : driver_options) (d : driver R) (ops : list dop)
         (conds : list (pec R)) (op : openness) (n : nat),
    let D := disc (mo_mesh m) (o_order o) in
    galerkin_driver abc disc dbg m o d conds -> connected_mesh abc D m -> constants_ok D ->
    gauss abc D dbg m false -> gauss abc D dbg m true ->
    determineOpenness dbg m = Ok op -> List.length conds = S n -> (n = 0%nat -> op <> Closed) ->
    exists p w, reply dbg (galerkin abc disc) moment CallPUL (after dbg (galerkin abc disc) moment ops d) = (Ok (VPul p), w) /\
      square n (pul_C p) /\ symmetric (pul_C p) /\ positive_definite (pul_C p) /\
      square n (pul_L p) /\ symmetric (pul_L p) /\ positive_definite (pul_L p).
Proof. intros abc disc dbg moment m o d ops conds op n D [W Rm B O]. intros. eapply pul_positive; eassumption. Qed.
Print Assumptions C61_PUL_parameters_exist_and_are_positive_definite_partial.
(** ... and the floating potentials exist. *)
Theorem C61_floating_potentials_exist_partial :
  forall (abc : R * R -> R) disc (dbg : bool) moment (m : model R) (o : driver_options) (d : driver R) (ops : list dop)
         (conds : list (pec R)) (op : openness),
    let D := disc (mo_mesh m) (o_order o) in
    galerkin_driver abc disc dbg m o d conds -> connected_mesh abc D m -> constants_ok D ->
    gauss abc D dbg m false -> gauss abc D dbg m true ->
    determineOpenness dbg m = Ok op -> op <> SemiOpen ->
    exists e f w, reply dbg (galerkin abc disc) moment CallFloating (after dbg (galerkin abc disc) moment ops d) = (Ok (VMatrices e f), w).
Proof. intros abc disc dbg moment m o d ops conds op D [W Rm B O]. intros. eapply floating_exist; eassumption. Qed.
Print Assumptions C61_floating_potentials_exist_partial.

(** ** C62 *)
(** The parameters per unit length do not depend on the unit of length of the mesh: of a closed
    problem ... *)
Theorem C62_closed_problems_do_not_depend_on_the_unit_of_length :
  forall (abc : R * R -> R) disc (dbg : bool) moment (m m' : model R) (o : driver_options) (d d' : driver R)
         (ops ops' : list dop) (conds : list (pec R)) (s : R) (p p' : pul R) w w' (n : nat),
    galerkin_driver abc disc dbg m o d conds -> galerkin_driver abc disc dbg m' o d' conds ->
    0 < s -> rescaled s (disc (mo_mesh m) (o_order o)) (disc (mo_mesh m') (o_order o)) -> mo_mats m' = mo_mats m ->
    determineOpenness dbg m = Ok Closed -> List.length conds = S n ->
    reply dbg (galerkin abc disc) moment CallPUL (after dbg (galerkin abc disc) moment ops d) = (Ok (VPul p), w) ->
    reply dbg (galerkin abc disc) moment CallPUL (after dbg (galerkin abc disc) moment ops' d') = (Ok (VPul p'), w') ->
    square n (pul_C p) /\ square n (pul_L p) /\ square n (pul_C p') /\ square n (pul_L p') /\
    forall i j, (i < n)%nat -> (j < n)%nat -> ent (pul_C p) i j = ent (pul_C p') i j /\ ent (pul_L p) i j = ent (pul_L p') i j.
Proof.
  intros abc disc dbg moment m m' o d d' ops ops' conds s p p' w w' n [W Rm B O] [W' Rm' B' _] Ps Rs Em Cl Ln E E'.
  apply (scale_pul abc abc disc dbg moment m m' o d d' ops ops' conds s Ps Rs Em W W' Rm Rm' B B' O
           (or_introl (closed_model dbg m Cl)) Closed p p' w w' n Cl); auto.
  unfold determineOpenness. rewrite Em, (closed_model dbg m Cl). destruct dbg; reflexivity.
Qed.
Print Assumptions C62_closed_problems_do_not_depend_on_the_unit_of_length.
(** ... and of an open one if the coefficient of the absorbing condition scales like 1/length. *)
Theorem C62_open_problems_with_a_scaling_absorbing_condition :
  forall (abc abc' : R * R -> R) disc (dbg : bool) moment (m m' : model R) (o : driver_options) (d d' : driver R)
         (ops ops' : list dop) (conds : list (pec R)) (op : openness) (s : R) (p p' : pul R) w w' (n : nat),
    galerkin_driver abc disc dbg m o d conds -> galerkin_driver abc' disc dbg m' o d' conds ->
    0 < s -> rescaled s (disc (mo_mesh m) (o_order o)) (disc (mo_mesh m') (o_order o)) -> mo_mats m' = mo_mats m ->
    (forall x y, abc' (s * x, s * y) = abc (x, y) / s) ->
    determineOpenness dbg m = Ok op -> determineOpenness dbg m' = Ok op -> List.length conds = S n ->
    reply dbg (galerkin abc disc) moment CallPUL (after dbg (galerkin abc disc) moment ops d) = (Ok (VPul p), w) ->
    reply dbg (galerkin abc' disc) moment CallPUL (after dbg (galerkin abc' disc) moment ops' d') = (Ok (VPul p'), w') ->
    forall i j, (i < n)%nat -> (j < n)%nat -> ent (pul_C p) i j = ent (pul_C p') i j /\ ent (pul_L p) i j = ent (pul_L p') i j.
Proof.
  intros abc abc' disc dbg moment m m' o d d' ops ops' conds op s p p' w w' n [W Rm B O] [W' Rm' B' _] Ps Rs Em Ha Eo Eo' Ln E E'.
  apply (scale_pul abc abc' disc dbg moment m m' o d d' ops ops' conds s Ps Rs Em W W' Rm Rm' B B' O
           (or_intror Ha) op p p' w w' n Eo Eo'); auto.
Qed.
Print Assumptions C62_open_problems_with_a_scaling_absorbing_condition.
(** The coefficient of the code, -1/(r ln r), does not scale like this: the generalized matrix of the
    same open problem is another one in other units. *)
Theorem C62_open_problems_depend_on_the_unit_of_length_refuted :
  ~ (forall disc (dbg : bool) moment (m m' : model R) (o : driver_options) (d d' : driver R)
            (conds : list (pec R)) (s : R) (g g' : matrix R) w w',
       galerkin_driver firstOrderABC disc dbg m o d conds -> galerkin_driver firstOrderABC disc dbg m' o d' conds ->
       0 < s -> rescaled s (disc (mo_mesh m) (o_order o)) (disc (mo_mesh m') (o_order o)) -> mo_mats m' = mo_mats m ->
       determineOpenness dbg m = Ok Open -> determineOpenness dbg m' = Ok Open ->
       reply dbg (galerkin firstOrderABC disc) moment (CallGeneralizedC false) d = (Ok (VMatrix g), w) ->
       reply dbg (galerkin firstOrderABC disc) moment (CallGeneralizedC false) d' = (Ok (VMatrix g'), w') ->
       forall i j, (i < List.length conds)%nat -> (j < List.length conds)%nat -> ent g i j = ent g' i j).
Proof. exact unit_of_length. Qed.
Print Assumptions C62_open_problems_depend_on_the_unit_of_length_refuted.

(** ** C63 *)
(** The energy a solver reports for the potentials V in a closed problem is that of the capacitance
    matrix of getCMatrix, 1/2 sum C_ij (V_i+1 - V_0) (V_j+1 - V_0). *)
Theorem C63_energy_of_the_fields_partial :
  forall (abc : R * R -> R) disc (dbg : bool) moment (m : model R) (o : driver_options) (d : driver R) (ops : list dop)
         (conds : list (pec R)) (n : nat) (C : matrix R) w (V : nat -> R) (v : Z -> R) (p : solver_inputs R) (s0 s : solver R),
    let D := disc (mo_mesh m) (o_order o) in
    galerkin_driver abc disc dbg m o d conds -> constants_ok D -> gauss abc D dbg m false -> same_quadrature D ->
    determineOpenness dbg m = Ok Closed -> List.length conds = S n ->
    reply dbg (galerkin abc disc) moment CallC (after dbg (galerkin abc disc) moment ops d) = (Ok (VMatrix C), w) ->
    potentials_by_number conds V v -> conductor_problem (mo_mats m) false v p ->
    mkSolver (discretize abc D) dbg p = Ok s0 -> Solve (discretize abc D) s0 = Ok s ->
    getTotalEnergy (discretize abc D) s =
      Ok (/ 2 * Sum n (fun i => Sum n (fun j => (V (S i) - V 0%nat) * ent C i j * (V (S j) - V 0%nat)))).
Proof.
  intros abc disc dbg moment m o d ops conds n C w V v p s0 s D [W Rm B O] Co Gs Sq Cl Ln E Hv Cp E0 Es.
  assert (Ep : s_params s = p).
  { transitivity (s_params s0).
    - clear -Es. unfold Solve in Es. apply bind_ok in Es as (phi0 & _ & Es). apply bind_ok in Es as (ess & _ & [= <-]). reflexivity.
    - clear -E0. unfold mkSolver in E0. apply bind_ok in E0 as (? & _ & E0). apply bind_ok in E0 as (? & _ & E0).
      apply bind_ok in E0 as (? & _ & E0). apply bind_ok in E0 as (? & _ & [= <-]). reflexivity. }
  subst p. apply (closed_energy abc disc dbg moment m o d ops conds W Rm B O Co n Ln C w V v s Gs Sq Cl E Hv Cp).
  exists s0. split; [exact E0|]. unfold solved_fields. unfold D in Es. rewrite Es. reflexivity.
Qed.
Print Assumptions C63_energy_of_the_fields_partial.

(** ** C64 *)
(** The matrix of getCMatrix gives the charges of the fields the solver computes with any potentials
    V on the conductors: in closed problems ... *)
Theorem C64_charges_of_closed_problems_partial :
  forall (abc : R * R -> R) disc (dbg : bool) moment (m : model R) (o : driver_options) (d : driver R) (ops : list dop)
         (conds : list (pec R)) (n : nat) (C : matrix R) w (V : nat -> R) (v : Z -> R) (x : solution R) (i : nat) (p : pec R),
    let D := disc (mo_mesh m) (o_order o) in
    galerkin_driver abc disc dbg m o d conds -> constants_ok D -> reciprocal (discretize abc D) dbg m false conds ->
    determineOpenness dbg m = Ok Closed -> List.length conds = S n ->
    reply dbg (galerkin abc disc) moment CallC (after dbg (galerkin abc disc) moment ops d) = (Ok (VMatrix C), w) ->
    potentials_by_number conds V v -> model_fields abc D dbg m false v x ->
    (i < n)%nat -> nth_error conds (S i) = Some p ->
    charge_on (discretize abc D) x (p_attr p) (Sum n (fun j => ent C i j * (V (S j) - V 0%nat))).
Proof.
  intros abc disc dbg moment m o d ops conds n C w V v x i p D [W Rm B O] Co Rc Cl Ln E Hv Hx Li Ep.
  eapply closed_C_charges; eassumption.
Qed.
Print Assumptions C64_charges_of_closed_problems_partial.
(** ... and in open ones for the potentials whose charges on the conductors add up to zero. *)
Theorem C64_charges_of_open_problems_partial :
  forall (abc : R * R -> R) disc (dbg : bool) moment (m : model R) (o : driver_options) (d : driver R) (ops : list dop)
         (conds : list (pec R)) (n : nat) (op : openness) (C : matrix R) w (V : nat -> R) (v : Z -> R) (x : solution R) (Q : nat -> R) (i : nat),
    let D := disc (mo_mesh m) (o_order o) in
    galerkin_driver abc disc dbg m o d conds -> constants_ok D -> gauss abc D dbg m false -> connected_mesh abc D m ->
    determineOpenness dbg m = Ok op -> op <> Closed -> List.length conds = S n ->
    reply dbg (galerkin abc disc) moment CallC (after dbg (galerkin abc disc) moment ops d) = (Ok (VMatrix C), w) ->
    potentials_by_number conds V v -> model_fields abc D dbg m false v x ->
    (forall j q, nth_error conds j = Some q -> charge_on (discretize abc D) x (p_attr q) (Q j)) -> Sum (S n) Q = 0 -> (i < n)%nat ->
    Q (S i) = Sum n (fun j => ent C i j * (V (S j) - V 0%nat)).
Proof.
  intros abc disc dbg moment m o d ops conds n op C w V v x Q i D [W Rm B O]. intros. eapply open_C_charges; eassumption.
Qed.
Print Assumptions C64_charges_of_open_problems_partial.
(** Gauss's law implies the symmetry of the charges assumed in C30, C59 and C64. *)
Theorem C64_reciprocity :
  forall (abc : R * R -> R) (D : discretization R) (dbg : bool) (m : model R) (ignore : bool) (conds : list (pec R)),
    well_posed (discretize abc D) m -> regular_model abc D m -> gauss abc D dbg m ignore -> in_order (mo_mats m) conds ->
    reciprocal (discretize abc D) dbg m ignore conds.
Proof. intros. apply gauss_reciprocal; assumption. Qed.
Print Assumptions C64_reciprocity.

(** ** Concrete cases *)
(** The chain of FemToy.v: conductors at 1 V and 0 V, relative permittivity 2, surface charge 3 on
    the middle node: potential 5/4 there. *)
Definition charged_problem {T} `{Num T} : solver_inputs T :=
  let two := (n1 + n1)%num in
  {| si_dirichlet := [(1%Z, n1); (2%Z, n0)]; si_neumann := [(4%Z, (two + n1)%num)]; si_open := []; si_eps := [(3%Z, two)] |}.
Example C57_example : tables_ok (chain 1) /\ problem_ok (fun _ => 1) (chain 1) charged_problem /\ anchored (fun _ => 1) (chain 1) charged_problem.
Proof.
  split; [apply chain_tables; lra|]. split.
  - constructor.
    + constructor; cbn; repeat constructor; cbn; try lia; lra.
    + cbn. repeat split; repeat constructor.
    + discriminate.
    + cbn. intros t x [[= <- <-]|[]]. lra.
    + cbn. intros q [].
  - intros z L Hz Fl _. destruct (len3 z L) as (a & b & c & ->).
    assert (Fl' : flat (chain 1) [a; b; c]) by exact Fl. apply (chain_flat 1 Rlt_0_1) in Fl' as [E1 E2].
    assert (H1 : nth_error [a; b; c] 0 = Some 0) by (apply (Hz 1%Z 1 0%nat); [cbn; auto|apply (chain_bdr 1 (fun _ => 1)); auto]).
    cbn in H1. injection H1 as ->. cbn. repeat f_equal; lra.
Qed.
Example C57_example_computed :
  match (let* s := mkSolver (discretize (fun _ => 1%Q) (chain 1%Q)) true charged_problem in Solve (discretize (fun _ => 1%Q) (chain 1%Q)) s) with
  | Ok s => Some (s_phi s, s_e s, s_d s) | _ => None
  end = Some ([1; 0; 5 # 4], [- (1 # 4); 5 # 4], [- (1 # 2); 5 # 2])%Q.
Proof. vm_compute. reflexivity. Qed.

(** ** C34, on a discretization *)
(** A boundary that gets a potential only after the solver was built: it is not prescribed. *)
Theorem C34_new_boundaries_miss_their_values_refuted :
  exists (D : discretization Q) (p : solver_inputs Q) (s0 : solver Q) (ops : list sop) (s : solver Q) (x : solution Q),
    let F := discretize (fun _ => 1%Q) D in
    inputs_ok F p /\ si_dirichlet p = [(1%Z, 1%Q)] /\
    mkSolver F true p = Ok s0 /\ Forall dirichlet_op ops /\ srun F true s0 ops = Ok s /\
    last_dirichlet ops (si_dirichlet p) = [(1%Z, 1%Q); (2%Z, 0%Q)] /\ solved_fields F s = Ok x /\
    on_boundary F 1 0 /\ nth_error (so_phi x) 0 = Some 1%Q /\ on_boundary F 2 1 /\ nth_error (so_phi x) 1 = Some 1%Q.
Proof.
  exists (chain 1%Q), {| si_dirichlet := [(1%Z, 1%Q)]; si_neumann := []; si_open := []; si_eps := [] |}.
  eexists. exists [DoSolve; SetDirichlet [(1%Z, 1%Q); (2%Z, 0%Q)]]. do 2 eexists. cbv zeta.
  split; [constructor; cbn; repeat constructor|]. split; [reflexivity|]. split; [vm_compute; reflexivity|]. split; [repeat constructor|].
  split; [vm_compute; reflexivity|]. split; [reflexivity|]. split; [vm_compute; reflexivity|].
  split; [exists (1%Z, [0%nat]); cbn; auto|]. split; [vm_compute; reflexivity|]. split; [exists (2%Z, [1%nat]); cbn; auto|]. vm_compute; reflexivity.
Qed.
(** Conditions given back to a solver that was solved without any: with an absorbing boundary the potentials prescribed on
    all degrees of freedom are found, ... *)
Example C34_given_back_example :
  let F := discretize (fun _ => 1%Q) (chain 1%Q) in
  let found := fun bc : list (Z * Q) =>
    (let* s0 := mkSolver F true {| si_dirichlet := bc; si_neumann := []; si_open := [4%Z]; si_eps := [] |} in
     let* s := srun F true s0 [SetDirichlet []; DoSolve; SetDirichlet bc] in
     let* x := solved_fields F s in Ok (so_phi x)) in
  found [(1%Z, 1%Q); (2%Z, 3%Q); (4%Z, 5%Q)] = Ok [1%Q; 3%Q; 5%Q] /\
  (* ... but next to a free one they are not: 1/2 V instead of 0 V *)
  found [(1%Z, 1%Q); (2%Z, 0%Q)] = Ok [1%Q; (1#2)%Q; (1#2)%Q] /\
  (* The first degree of freedom, eliminated then and free now, follows from its neighbours' prescribed values: the
     end of the chain next to a point at 5 V has 5 V. *)
  found [(2%Z, 3%Q); (4%Z, 5%Q)] = Ok [5%Q; 3%Q; 5%Q].
Proof. repeat split; vm_compute; reflexivity. Qed.
(** Two conductors (tags 1 and 2) and a point between them. A solver that was solved once without
    prescribed boundaries keeps the matrix of that system: when the conditions it was built with are
    given back to it (1 V on tag 1, 0 V on tag 2), the potential of tag 2 comes out as 1 V, while a new
    solver gives 0 V. *)
Theorem C34_solving_without_conditions_is_remembered_refuted :
  exists (D : discretization Q) (p : solver_inputs Q) (s0 : solver Q) (ops : list sop) (s s1 : solver Q) (x y : solution Q),
    let F := discretize (fun _ => 1%Q) D in
    inputs_ok F p /\ si_dirichlet p = [(1%Z, 1%Q); (2%Z, 0%Q)] /\
    mkSolver F true p = Ok s0 /\ Forall dirichlet_op ops /\ srun F true s0 ops = Ok s /\
    last_dirichlet ops (si_dirichlet p) = si_dirichlet p /\
    mkSolver F true (with_dirichlet p (last_dirichlet ops (si_dirichlet p))) = Ok s1 /\
    solved_fields F s = Ok x /\ solved_fields F s1 = Ok y /\
    on_boundary F 2 1 /\ nth_error (so_phi x) 1 = Some 1%Q /\ nth_error (so_phi y) 1 = Some 0%Q.
Proof.
  exists (chain 1%Q), {| si_dirichlet := [(1%Z, 1%Q); (2%Z, 0%Q)]; si_neumann := []; si_open := []; si_eps := [] |}.
  eexists. exists [SetDirichlet []; DoSolve; SetDirichlet [(1%Z, 1%Q); (2%Z, 0%Q)]]. do 4 eexists. cbv zeta.
  split; [constructor; cbn; repeat constructor|]. split; [reflexivity|]. split; [vm_compute; reflexivity|]. split; [repeat constructor|].
  split; [vm_compute; reflexivity|]. split; [reflexivity|]. split; [vm_compute; reflexivity|]. split; [vm_compute; reflexivity|].
  split; [vm_compute; reflexivity|]. split; [exists (2%Z, [1%nat]); cbn; auto|]. split; vm_compute; reflexivity.
Qed.
Print Assumptions C34_solving_without_conditions_is_remembered_refuted.
(** The hypotheses of C34_last_conditions_partial with all kinds of operations. *)
Example C34_example_on_a_chain :
  let F := discretize (fun _ => 1%Q) (chain 1%Q) in
  let p := {| si_dirichlet := [(1%Z, 1%Q); (2%Z, 0%Q)]; si_neumann := []; si_open := []; si_eps := [] |} in
  let ops := [DoSolve; SetDirichlet [(1%Z, 2%Q); (2%Z, 4%Q)]; SetNeumann 4 (fun _ => 1%Q); SetDirichlet []; DoSolve;
              SetSolution {| so_phi := [7; 7; 7]%Q; so_e := [0; 0]%Q; so_d := [0; 0]%Q |}; SetDirichlet [(1%Z, 1%Q); (2%Z, 3%Q)]] in
  exists s0 s x, mkSolver F true p = Ok s0 /\ srun F true s0 ops = Ok s /\
    first_solved ops (si_dirichlet p) = Some (si_dirichlet p) /\ si_dirichlet p <> [] /\
    last_dirichlet ops (si_dirichlet p) = [(1%Z, 1%Q); (2%Z, 3%Q)] /\ solved_fields F s = Ok x /\ so_phi x = [1; 3; 5 # 2]%Q.
Proof.
  cbv zeta. do 3 eexists. split; [vm_compute; reflexivity|]. split; [vm_compute; reflexivity|]. split; [reflexivity|].
  split; [discriminate|]. split; [reflexivity|]. split; vm_compute; reflexivity.
Qed.

(** All hypotheses of C58-C64 hold for the chain, open or closed, with the absorbing coefficient of
    the code. *)
Example C58_to_C64_example : forall (op : openness) (er : R), 0 < er ->
  exists d, galerkin_driver firstOrderABC toy_disc true (scaled_model 1 op er) toy_options d toy_conds /\
    let D := toy_disc (mo_mesh (scaled_model 1 op er)) (o_order toy_options) in
    connected_mesh firstOrderABC D (scaled_model 1 op er) /\ constants_ok D /\ same_quadrature D /\
    (forall ignore, gauss firstOrderABC D true (scaled_model 1 op er) ignore) /\
    homogeneous D (scaled_model 1 op er) er /\ determineOpenness true (scaled_model 1 op er) = Ok op.
Proof.
  intros op er Pe. assert (P1 : 0 < 1) by lra. destruct (abc_at (1 / 2)) as [_ A]; [lra|].
  destruct (toy_driver 1 P1 firstOrderABC A op er Pe true toy_options) as (d & G). exists d. split; [exact G|].
  destruct (toy_all 1 P1 firstOrderABC A op er Pe true (o_order toy_options)) as (H1 & H2 & H3 & H4).
  repeat (split; [assumption|]). split; [now apply toy_homogeneous|]. apply toy_openness_scaled.
Qed.
(** ... and it can be measured in any unit of length (C62). *)
Example C62_example : forall s : R, 0 < s -> rescaled s (toy_disc (toy_mesh Closed) 3) (toy_disc (scaled_mesh s Closed) 3).
Proof.
  intros s P. replace (toy_disc (scaled_mesh s Closed) 3) with (@chain R _ s); [now apply chain_rescaled|].
  symmetry. apply (disc_scaled s Closed 1).
Qed.
(** Computed: the generalized matrix of the closed chain is eps/2 (1 -1; -1 1); the open one with
    absorbing coefficient 2 and eps 2 has the floating potentials 1/2 and the charge 1. *)
Example C59_example_computed :
  match mkDriver true (fun ms k => discretize (fun _ => 2%Q) (toy_disc ms k)) (toy_model Closed 2%Q) toy_options tt with
  | ((Ok d, _), _) =>
      match fst (reply true (fun ms k => discretize (fun _ => 2%Q) (toy_disc ms k)) (fun _ _ _ _ => 0%Q) (CallGeneralizedC false) d),
            fst (reply true (fun ms k => discretize (fun _ => 2%Q) (toy_disc ms k)) (fun _ _ _ _ => 0%Q) CallC d) with
      | Ok (VMatrix g), Ok (VMatrix C) => Some (rows_list g, rows_list C) | _, _ => None end
  | _ => None
  end = Some ([[1; -1]; [-1; 1]], [[1]])%Q.
Proof. vm_compute. reflexivity. Qed.
Example C58_example_computed :
  match mkDriver true (fun ms k => discretize (fun _ => 2%Q) (toy_disc ms k)) (toy_model Open 2%Q) toy_options tt with
  | ((Ok d, _), _) =>
      match fst (reply true (fun ms k => discretize (fun _ => 2%Q) (toy_disc ms k)) (fun _ _ _ _ => 0%Q) CallInCell d) with
      | Ok (VInCell p) => Some (map (fun kf => (fst kf, fr_pots (snd kf), map fst (fr_ab (snd kf)))) (ic_electric p))
      | _ => None end
  | _ => None
  end = Some [(0%Z, [(0%Z, 1%Q); (1%Z, 1 # 2)], [1; 0]); (1%Z, [(0%Z, 1 # 2); (1%Z, 1%Q)], [1; 0])]%Q.
Proof. vm_compute. reflexivity. Qed.

Print Assumptions C34_new_boundaries_miss_their_values_refuted.
