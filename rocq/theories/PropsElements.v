(** Property C85, and C59, C60 at any order: on every cross section drawn on triangles the solver with finite
    elements of any order (the default of SolverOptions.h:8 is 3) computes the potential of least energy. *)
From Coq Require Import Reals Lra Permutation Relations.
From Verif Require Import Prelude StdMap Json Materials Graph ModelM Parser Matrix Multipole Solver Fem Domain Results Driver RSum LinAlg
  SpecInput SpecModel SpecSolver SpecDriver SpecMatrix SpecCharge SpecField SpecFem SpecTriangles SpecElements Triangles Elements RefElements ListLemmas
  FemProofs FemCalls FemFacts FemModel FemLaws FemDriver FemMatrix FemMore TriProofs TriModel ElemProofs ElemTables ElemModel ElemFields RefProofs Boole Toy Kite
  DriverProofs CallProofs DriverFacts MatrixProofs MatrixCalls MatrixFacts PropsMatrix PropsFem PropsTriangles.
Open Scope R_scope.
Open Scope list_scope.

(** ** C85 *)
(** What a new solver with the potentials [v] on the conductors computes *)
Lemma element_fields ref abc dbg (m : model R) ignore v p eps : reference_ok ref -> cross_section abc m ->
  conductor_problem (mo_mats m) ignore v p -> relative_permittivity (mo_mats m) ignore eps ->
  let D := elements ref distance (mo_mesh m) in let F := discretize abc D in
  exists s0 s, mkSolver F dbg p = Ok s0 /\ Solve F s0 = Ok s /\ s_params s = p /\ problem_ok abc D p /\ anchored abc D p /\ computes abc D dbg p (getSolution s).
Proof.
  intros Ro Cs Cp He D F. pose proof (elements_posed ref Ro abc m Cs) as W. pose proof (elements_regular ref Ro abc m Cs) as Rm. fold D in W, Rm.
  destruct (model_problem abc D m W Rm ignore v p Cp) as (Hp & An).
  destruct (computes_exists abc D (rm_tables _ _ _ Rm) dbg p Hp) as (x & Cx). pose proof Cx as (s0 & E0 & Ex).
  unfold solved_fields in Ex. apply bind_ok in Ex as (s & Es & Ex).
  assert (Ep : s_params s = p).
  { transitivity (s_params s0).
    - clear -Es. unfold Solve in Es. apply bind_ok in Es as (phi0 & _ & Es). apply bind_ok in Es as (ess & _ & [= <-]). reflexivity.
    - clear -E0. unfold mkSolver in E0. apply bind_ok in E0 as (? & _ & E0). apply bind_ok in E0 as (? & _ & E0).
      apply bind_ok in E0 as (? & _ & E0). apply bind_ok in E0 as (? & _ & [= <-]). reflexivity. }
  assert (Exs : x = getSolution s) by (now injection Ex). subst x. exists s0, s. auto 7.
Qed.
(** In a closed cross section the solver finds the continuous potential, of the degree of the elements, that has
    the potentials [v] in every point of the conductors and strictly the least energy 1/2 integral eps |grad phi|^2;
    it reports that energy. *)
Theorem C85_potential_of_least_energy :
  forall (ref : reference R) (abc : R * R -> R) (dbg : bool) (m : model R) (ignore : bool) (v : Z -> R) (p : solver_inputs R) (eps : Z -> R),
    reference_ok ref -> cross_section abc m -> openBoundaries (mo_mats m) = [] ->
    conductor_problem (mo_mats m) ignore v p -> relative_permittivity (mo_mats m) ignore eps ->
    let ms := mo_mesh m in let F := discretize abc (elements ref distance ms) in
    exists s0 s, mkSolver F dbg p = Ok s0 /\ Solve F s0 = Ok s /\
      held_along ref ms (mo_mats m) v (s_phi s) /\ continuous ref ms (s_phi s) /\
      getTotalEnergy F s = Ok (energy_by_rule ref ms eps (s_phi s)) /\
      (forall psi, held_along ref ms (mo_mats m) v psi -> psi <> s_phi s -> energy_by_rule ref ms eps (s_phi s) < energy_by_rule ref ms eps psi).
Proof.
  intros ref abc dbg m ignore v p eps Ro Cs Eo Cp He ms F.
  destruct (element_fields ref abc dbg m ignore v p eps Ro Cs Cp He) as (s0 & s & E0 & Es & Ep & Hp & An & Cx).
  set (D := elements ref distance ms) in *.
  pose proof (elements_posed ref Ro abc m Cs) as W. pose proof (elements_regular ref Ro abc m Cs) as Rm. fold ms D in W, Rm.
  pose proof (proj1 (cs_mesh _ _ Cs)) as Tr. pose proof (elements_quadrature ref Ro (mo_mesh m) Tr) as Sq. fold ms D in Sq.
  destruct (minimal abc D (rm_tables _ _ _ Rm) dbg p _ Hp An Cx) as (sigma & Sd & L & Pr & Mi & _). cbn [getSolution so_phi so_e] in *.
  assert (HP : forall psi, potential D psi -> (prescribed abc D p psi <-> held_along ref ms (mo_mats m) v psi)).
  { intros psi Lp. unfold ms. rewrite (held_along_iff ref Ro abc m Cs). exact (prescribed_model abc D m ignore v p psi Cp Lp). }
  assert (En : forall psi, potential D psi -> energy abc D p sigma psi = energy_by_rule ref ms eps psi).
  { intros psi Lp. unfold energy. rewrite (no_source abc D p sigma psi Sd (cp_neu _ _ _ _ Cp)).
    pose proof (el_work_energy ref abc m Cs ignore v p eps psi Cp He Eo Lp) as K. fold ms in K. fold D in K. rewrite <- K. ring. }
  exists s0, s. split; [exact E0|]. split; [exact Es|]. split; [now apply HP|]. split; [exact (elements_continuous ref Ro ms Tr (s_phi s) L)|]. split.
  - transitivity (Ok (/ 2 * work abc D (s_params s) (s_phi s) (s_phi s))).
    + apply (energy_work abc D dbg m W Rm ignore v s Eo Sq); rewrite Ep; assumption.
    + rewrite Ep. f_equal. exact (el_work_energy ref abc m Cs ignore v p eps (s_phi s) Cp He Eo L).
  - intros psi Hpsi Npsi. assert (Lp : potential D psi) by (exact (proj1 Hpsi)). rewrite <- !En by assumption. apply Mi; [exact Lp|now apply HP|exact Npsi].
Qed.
(** In every cross section, open ones too, E is minus the gradient of the potential in every point of every
    triangle, its component along common sides is the same in both triangles, the flow of D across them too, and D
    has the same integral as eps E against every field of its space. *)
Theorem C85_fields_of_the_potential :
  forall (ref : reference R) (abc : R * R -> R) (dbg : bool) (m : model R) (ignore : bool) (v : Z -> R) (p : solver_inputs R) (eps : Z -> R),
    reference_ok ref -> cross_section abc m ->
    conductor_problem (mo_mats m) ignore v p -> relative_permittivity (mo_mats m) ignore eps ->
    let ms := mo_mesh m in let F := discretize abc (elements ref distance ms) in
    exists s0 s, mkSolver F dbg p = Ok s0 /\ Solve F s0 = Ok s /\ continuous ref ms (s_phi s) /\
      (forall x pt, triangle ms x -> exists g, is_gradient ref ms (s_phi s) x pt g /\ field_in ref ms (s_e s) x pt = (- fst g, - snd g)) /\
      side_continuous ms (field_in ref ms (s_e s)) (along_side ms) /\ side_continuous ms (flux_in ref ms (s_d s)) (across_side ms) /\
      (forall t, List.length t = n_nd ref ms ->
         integral_by_rule ref ms (fun x pt => inner (flux_in ref ms (s_d s) x pt) (flux_in ref ms t x pt)) =
         integral_by_rule ref ms (fun x pt => eps (e_attr (snd x)) * inner (field_in ref ms (s_e s) x pt) (flux_in ref ms t x pt))).
Proof.
  intros ref abc dbg m ignore v p eps Ro Cs Cp He ms F.
  destruct (element_fields ref abc dbg m ignore v p eps Ro Cs Cp He) as (s0 & s & E0 & Es & Ep & Hp & An & Cx).
  set (D := elements ref distance ms) in *. pose proof (proj1 (cs_mesh _ _ Cs)) as Tr. fold ms in Tr.
  pose proof (elements_regular ref Ro abc m Cs) as Rm. fold ms D in Rm.
  destruct (minimal abc D (rm_tables _ _ _ Rm) dbg p _ Hp An Cx) as (_ & _ & L & _). cbn [getSolution so_phi] in L.
  pose proof (e_of_phi abc D (rm_tables _ _ _ Rm) dbg p _ Hp Cx) as Ee. unfold is_minus_gradient in Ee. cbn [getSolution so_phi so_e] in Ee.
  change (s_e s = mgrad ref ms (s_phi s)) in Ee.
  destruct (proj2 (d_of_e abc D (rm_tables _ _ _ Rm) dbg p _ (so_d (getSolution s)) Hp Cx) eq_refl) as (Ld & Pj). cbn [getSolution so_e so_d] in Ld, Pj.
  exists s0, s. split; [exact E0|]. split; [exact Es|]. split; [exact (elements_continuous ref Ro ms Tr (s_phi s) L)|]. split; [|split; [|split]].
  - intros x pt T. exists (gradient_in ref ms (s_phi s) x pt). split; [exact (elements_gradient ref Ro ms Tr (s_phi s) x pt T L)|].
    rewrite Ee. unfold field_in, gradient_in. cbn [fst snd]. destruct (field_of_mgrad ref Ro ms Tr x pt (s_phi s) T L) as (-> & ->). reflexivity.
  - apply (fields_side_continuous ref Ro ms Tr). rewrite Ee. exact (mgrad_length ref Ro ms Tr (s_phi s) L).
  - apply (fluxes_side_continuous ref Ro ms Tr). exact Ld.
  - intros t Lt. specialize (Pj t Lt). cbn [di_rt di_mix elements D] in Pj. rewrite !Rsum_flat_map in Pj. unfold integral_by_rule.
    etransitivity; [|etransitivity; [exact Pj|]].
    + apply Rsum_ext. intros x I. apply numbered_in in I. unfold el_rt_points. rewrite Rsum_map, <- Rsum_scal. cbn [r_weight r_x r_y]. apply Rsum_ext. intros q J.
      rewrite (proj1 (jacobian_area ms Tr _ (tri_in ms x I))). unfold inner, flux_in. cbn [fst snd nmul RNum]. ring.
    + apply Rsum_ext. intros x I. apply numbered_in in I. unfold el_mix_points. rewrite Rsum_map, <- Rsum_scal. cbn [x_attr x_weight x_ndx x_ndy x_rtx x_rty]. apply Rsum_ext. intros q J.
      rewrite (proj1 (jacobian_area ms Tr _ (tri_in ms x I))), (eps_of_relative m ignore v p eps Cp He). unfold inner, flux_in, field_in. cbn [fst snd nmul RNum]. ring.
Qed.
(** The charge reported for a conductor is minus the flow of D out of the domain through it. *)
Theorem C85_charges_are_fluxes :
  forall (ref : reference R) (abc : R * R -> R) (dbg : bool) (m : model R) (ignore : bool) (v : Z -> R) (p : solver_inputs R) (s0 s : solver R) (t : Z) (j : element R -> R -> R),
    reference_ok ref -> cross_section abc m -> conductor_problem (mo_mats m) ignore v p ->
    let ms := mo_mesh m in let F := discretize abc (elements ref distance ms) in
    mkSolver F dbg p = Ok s0 -> Solve F s0 = Ok s ->
    (forall b r, In b (m_bdr ms) -> outflow ref ms (s_d s) b r (j b r)) ->
    getChargeInBoundary F s t =
      - Rsum (filter (fun b => (e_attr b =? t)%Z) (m_bdr ms)) (fun b => Rsum (re_rule1 ref) (fun q => snd q * j b (fst q))).
Proof.
  intros ref abc dbg m ignore v p s0 s t j Ro Cs Cp ms F E0 Es Hj. set (D := elements ref distance ms) in *.
  pose proof (elements_posed ref Ro abc m Cs) as W. pose proof (elements_regular ref Ro abc m Cs) as Rm. fold ms D in W, Rm.
  destruct (model_problem abc D m W Rm ignore v p Cp) as (Hp & An).
  assert (Cx : computes abc D dbg p (getSolution s)) by (exists s0; split; [exact E0|]; unfold solved_fields; fold F; rewrite Es; reflexivity).
  destruct (proj2 (d_of_e abc D (rm_tables _ _ _ Rm) dbg p _ (so_d (getSolution s)) Hp Cx) eq_refl) as (Ld & _).
  apply (charge_outflow ref Ro ms (proj1 (cs_mesh _ _ Cs))); [exact Ld|exact Hj].
Qed.
(** Lagrange and Nedelec elements of the orders 1, 2 and 3 satisfy what the theorems require of reference elements, with
    all quadrature rules of positive weights that are exact to degree 2 (order - 1) and determine
    polynomials. *)
Theorem C85_reference_elements :
  forall (k : nat) (rule1 : list (R * R)) (rule0 rule2 : list (R * R * R)),
    (1 <= k <= 3)%nat -> rules_of_order k rule1 rule0 rule2 -> reference_ok (reference_of rule1 rule0 rule2 (Z.of_nat k)).
Proof.
  intros k rule1 rule0 rule2 L Rk. assert (k = 1 \/ k = 2 \/ k = 3)%nat as [-> |[-> | ->]] by lia.
  - exact (linear_reference _ _ _ Rk).
  - exact (quadratic_reference _ _ _ Rk).
  - exact (cubic_reference _ _ _ Rk).
Qed.

(** ** C59, C60 at any order *)
Lemma element_facts ref abc dbg (m : model R) o (d : driver R) conds : element_driver ref abc dbg m o d conds ->
  let disc := elements_of ref in let D := disc (mo_mesh m) (o_order o) in
  galerkin_driver abc disc dbg m o d conds /\ constants_ok D /\ connected_mesh abc D m /\ same_quadrature D.
Proof.
  intros [Ro Cs B O] disc D. pose proof (proj1 (cs_mesh _ _ Cs)) as Tr. split; [|split; [|split]].
  - constructor; [exact (elements_posed _ Ro abc m Cs)|exact (elements_regular _ Ro abc m Cs)|exact B|exact O].
  - exact (elements_constants _ Ro (mo_mesh m) Tr).
  - exact (elements_connected_model _ Ro abc m Cs).
  - exact (elements_quadrature _ Ro (mo_mesh m) Tr).
Qed.
Theorem C59_only_differences_matter_at_any_order :
  forall (ref : reference R) (abc : R * R -> R) (dbg : bool) (m : model R) (ignore : bool) (c : R) (v : Z -> R) (x y : solution R),
    let D := elements ref distance (mo_mesh m) in
    reference_ok ref -> cross_section abc m -> openBoundaries (mo_mats m) = [] ->
    model_fields abc D dbg m ignore v x -> model_fields abc D dbg m ignore (fun t => v t + c) y ->
    so_phi y = map (fun a => a + c) (so_phi x) /\ so_e y = so_e x /\ so_d y = so_d x.
Proof.
  intros ref abc dbg m ignore c v x y D Ro Cs Eo Hx Hy.
  exact (C59_only_differences_matter abc D dbg m ignore c v x y (elements_posed ref Ro abc m Cs) (elements_regular ref Ro abc m Cs)
           (elements_constants ref Ro (mo_mesh m) (proj1 (cs_mesh _ _ Cs))) Eo Hx Hy).
Qed.
Theorem C59_entries_add_up_to_zero_at_any_order :
  forall (ref : Z -> reference R) (abc : R * R -> R) (dbg : bool) moment (m : model R) (o : driver_options) (d : driver R) (ops : list dop)
         (conds : list (pec R)) (ignore : bool) (g : matrix R) w,
    let femlib := galerkin abc (elements_of ref) in
    element_driver ref abc dbg m o d conds -> determineOpenness dbg m = Ok Closed ->
    reply dbg femlib moment (CallGeneralizedC ignore) (after dbg femlib moment ops d) = (Ok (VMatrix g), w) -> total g = 0.
Proof.
  intros ref abc dbg moment m o d ops conds ignore g w femlib Td Cl E. destruct (element_facts _ _ _ _ _ _ _ Td) as (G & Co & _ & _).
  exact (C59_entries_add_up_to_zero abc _ dbg moment m o d ops conds ignore g w G Co Cl E).
Qed.
Theorem C60_LC_product_at_any_order :
  forall (ref : Z -> reference R) (abc : R * R -> R) (dbg : bool) moment (m : model R) (o : driver_options) (d : driver R) (ops : list dop)
         (conds : list (pec R)) (er : R) (p : pul R) w (n : nat),
    let femlib := galerkin abc (elements_of ref) in
    element_driver ref abc dbg m o d conds -> determineOpenness dbg m = Ok Closed ->
    filled m er -> List.length conds = S n ->
    reply dbg femlib moment CallPUL (after dbg femlib moment ops d) = (Ok (VPul p), w) ->
    square n (pul_L p) /\ square n (pul_C p) /\
    product_is n (pul_L p) (pul_C p) (mu0 * eps0 * er) /\ product_is n (pul_C p) (pul_L p) (mu0 * eps0 * er).
Proof.
  intros ref abc dbg moment m o d ops conds er p w n femlib Td Cl (P & H1 & H2) Ln E. destruct (element_facts _ _ _ _ _ _ _ Td) as (G & _).
  refine (C60_LC_product abc _ dbg moment m o d ops conds er p w n G Cl _ Ln E).
  split; [exact P|]. split; [exact H1|]. split; intros q I.
  - unfold elements_of in I. cbn [di_grad elements] in I. apply in_flat_map in I as (x & Ix & J). apply numbered_in in Ix. unfold el_grad_points in J. apply in_map_iff in J as (pw & <- & _). exact (H2 _ (tri_in _ x Ix)).
  - unfold elements_of in I. cbn [di_mix elements] in I. apply in_flat_map in I as (x & Ix & J). apply numbered_in in Ix. unfold el_mix_points in J. apply in_map_iff in J as (pw & <- & _). exact (H2 _ (tri_in _ x Ix)).
Qed.

(** The hypotheses hold on the quadrilateral with the default order 3, and with the orders 1 and 2. *)
Definition boole_elements (k : Z) : reference R := reference_of boole boole_rule boole_rule k.
Definition kite_order (k : Z) : driver_options :=
  {| o_order := k; o_printIterations := false; o_exportParaView := false; o_exportVisIt := false; o_exportFolder := ""; o_multipolarExpansionOrder := 1 |}.
Lemma kite_element_driver abc dbg er k : 0 < er -> (1 <= k <= 3)%nat -> exists d,
  element_driver boole_elements abc dbg (kite_model er) (kite_order (Z.of_nat k)) d toy_conds.
Proof.
  intros P L. pose proof (C85_reference_elements k _ _ _ L (boole_rules k L)) as Ro.
  destruct (mkDriver_ok dbg (galerkin abc (elements_of boole_elements)) (kite_model er) (kite_order (Z.of_nat k)) (elements_posed _ Ro abc _ (kite_section abc er P)) toy_conds) as (d & E & _).
  - apply toy_order.
  - discriminate.
  - exists d. constructor; [exact Ro|exact (kite_section abc er P)|eexists; exact E|apply toy_order].
Qed.
Example C85_example : forall (abc : R * R -> R) (er : R) (v : Z -> R) (k : nat), 0 < er -> (1 <= k <= 3)%nat ->
  reference_ok (boole_elements (Z.of_nat k)) /\ cross_section abc (kite_model er) /\ openBoundaries (mo_mats (kite_model er)) = [] /\
  exists p, conductor_problem (mo_mats (kite_model er)) false v p /\ relative_permittivity (mo_mats (kite_model er)) false (fun t => if (t =? 3)%Z then er else 1).
Proof.
  intros abc er v k P L. pose proof (C85_reference_elements k _ _ _ L (boole_rules k L)) as Ro. split; [exact Ro|]. split; [exact (kite_section abc er P)|]. split; [reflexivity|].
  destruct (problem_exists abc _ (kite_model er) (elements_posed _ Ro abc _ (kite_section abc er P)) false v) as (p & Cp). exists p. split; [exact Cp|]. split.
  - intros t e (l1 & q & l2 & El & <- & _ & ->). cbn in El. destruct l1 as [|? [|? l1]]; cbn in El; try discriminate. injection El as <- _. reflexivity.
  - intros t N. destruct (Z.eqb_spec t 3); [|reflexivity]. subst t. exfalso. apply N. now left.
Qed.
Example C59_any_order_example : forall abc dbg er (k : nat), 0 < er -> (1 <= k <= 3)%nat -> exists d,
  element_driver boole_elements abc dbg (kite_model er) (kite_order (Z.of_nat k)) d toy_conds /\ filled (kite_model er) er.
Proof.
  intros abc dbg er k P L. destruct (kite_element_driver abc dbg er k P L) as (d & B). exists d. split; [exact B|].
  split; [exact P|]. split; [intros q [<-|[]]; reflexivity|]. intros e [<-|[<-|[]]]; cbn; auto.
Qed.
(** Every boundary element has a flow at every point. *)
Example C85_outflow_example : forall (ref : reference R) (abc : R * R -> R) (er : R) (d : list R) b (r : R), 0 < er ->
  In b (m_bdr (kite_mesh (T:=R))) -> exists j, outflow ref kite_mesh d b r j.
Proof. intros ref abc er d b r P I. exact (outflow_exists ref kite_mesh kite_triangulation d b r I). Qed.

Print Assumptions C85_potential_of_least_energy.
Print Assumptions C85_fields_of_the_potential.
Print Assumptions C85_charges_are_fluxes.
Print Assumptions C85_reference_elements.
Print Assumptions C59_only_differences_matter_at_any_order.
Print Assumptions C59_entries_add_up_to_zero_at_any_order.
Print Assumptions C60_LC_product_at_any_order.
