(** Property C72 with elements of any order: exact solutions with uniform fields in each triangle are found, in
    particular the field between parallel plates. *)
From Coq Require Import Reals Lra Relations Permutation.
From Verif Require Import Prelude StdMap Materials Graph ModelM Parser Matrix Multipole Solver Fem Domain Results Driver RSum ListLemmas SpecGraph SpecInput SpecModel SpecSolver SpecDriver SpecMatrix SpecCharge SpecField SpecFem
  SpecTriangles SpecDrawing SpecFlux SpecExact SpecElements SpecExtend SpecUniform Triangles Elements RefElements SolverProofs ChargeProofs FemProofs FemCalls FemFacts FemModel FemLaws FemDriver FemMatrix FemMore TriProofs TriModel
  DrawLocal FluxProofs ExactProofs ElemProofs ElemTables ElemModel ElemFields ElemOrder RefProofs RefOrder ElemExact DrawCell Boole DriverProofs CallProofs DriverFacts MatrixProofs MatrixCalls MatrixFacts
  PropsMatrix PropsGraph Toy Kite Plates PropsTriangles PropsDrawing PropsFlux PropsExact PropsElements.
Open Scope R_scope.
Open Scope list_scope.

(** Elements of the orders 1, 2 and 3 contain the linear functions and the uniform fields. *)
Theorem C72_orders_contain_uniform_fields :
  forall (k : nat) (rule1 : list (R * R)) (rule0 rule2 : list (R * R * R)),
    (1 <= k <= 3)%nat -> rules_of_order k rule1 rule0 rule2 -> linear_complete (reference_of rule1 rule0 rule2 (Z.of_nat k)).
Proof. intros k rule1 rule0 rule2 L Rk. exact (orders_linear_complete k rule1 rule0 rule2 L Rk). Qed.
Print Assumptions C72_orders_contain_uniform_fields.

(** If a potential with the values of the conductors has a field that is an exact solution, a new solver finds
    it, its displacement, and reports as charges the exact fluxes. *)
Theorem C72_exact_solutions_are_found_at_any_order :
  forall (ref : reference R) (abc : R * R -> R) (dbg : bool) (m : model R) (ignore : bool) (v : Z -> R) (p : solver_inputs R) (eps : Z -> R)
         (psi : list R) (u : element R -> R * R) (outer : list (Z * Z)),
    reference_ok ref -> linear_complete ref -> cross_section abc m -> openBoundaries (mo_mats m) = [] ->
    conductor_problem (mo_mats m) ignore v p -> relative_permittivity (mo_mats m) ignore eps ->
    held_along ref (mo_mesh m) (mo_mats m) v psi -> has_field ref m psi u -> outline m outer -> exact_field_in m eps u outer ->
    let F := discretize abc (elements ref distance (mo_mesh m)) in
    exists s0 s, mkSolver F dbg p = Ok s0 /\ Solve F s0 = Ok s /\ s_phi s = psi /\
      (forall x q, triangle (mo_mesh m) x -> flux_in ref (mo_mesh m) (s_d s) x q = (eps (e_attr (snd x)) * fst (u (snd x)), eps (e_attr (snd x)) * snd (u (snd x)))) /\
      forall t, flux_from (mo_mesh m) (displacement eps u) t (getChargeInBoundary F s t).
Proof.
  intros ref abc dbg m ignore v p eps psi u outer Ro Lc Cs Eo Cp He Hpsi Hu Ou Ef F.
  destruct (C85_potential_of_least_energy ref abc dbg m ignore v p eps Ro Cs Eo Cp He) as (s0 & s & E0 & Es & Hs & _ & _ & Mi). fold F in E0, Es.
  pose proof (relative_positive abc m ignore eps Cs He) as Pe. pose proof (proj1 (cs_mesh _ _ Cs)) as Tr.
  assert (Ep : s_phi s = psi).
  { destruct (list_eq_dec Req_EM_T psi (s_phi s)) as [E | N]; [now symmetry|]. exfalso. specialize (Mi psi Hpsi N).
    pose proof (el_exact_least ref Ro Lc abc m Cs eps u outer v psi (s_phi s) Pe Ou Ef Hpsi Hu Hs). lra. }
  exists s0, s. split; [exact E0|]. split; [exact Es|]. split; [exact Ep|].
  set (D := elements ref distance (mo_mesh m)) in *.
  pose proof (elements_posed ref Ro abc m Cs) as W. pose proof (elements_regular ref Ro abc m Cs) as Rm. fold D in W, Rm.
  destruct (model_problem abc D m W Rm ignore v p Cp) as (Hp & An).
  assert (Cx : computes abc D dbg p (getSolution s)) by (exists s0; split; [exact E0|]; unfold solved_fields; fold F; rewrite Es; reflexivity).
  pose proof (e_of_phi abc D (rm_tables _ _ _ Rm) dbg p _ Hp Cx) as Ee. unfold is_minus_gradient in Ee. cbn [getSolution so_phi so_e] in Ee.
  change (s_e s = mgrad ref (mo_mesh m) (s_phi s)) in Ee. rewrite Ep in Ee.
  pose proof (proj1 Hpsi) as Lp.
  destruct (displacement_coefficients ref Ro Lc abc m Cs (fun e => (eps (e_attr e) * fst (u e), eps (e_attr e) * snd (u e)))) as (d & Ld & Fd); [exact (proj1 Ef)|].
  assert (Ed : d = s_d s).
  { change (d = so_d (getSolution s)). apply (d_of_e abc D (rm_tables _ _ _ Rm) dbg p (getSolution s) d Hp Cx). cbn [getSolution so_e]. rewrite Ee. split; [exact Ld|]. intros t Lt.
    cbn [di_rt di_mix elements D]. rewrite !Rsum_flat_map. apply Rsum_ext. intros x I. apply numbered_in in I. unfold el_rt_points, el_mix_points. rewrite !Rsum_map.
    cbn [r_weight r_x r_y x_attr x_weight x_ndx x_ndy x_rtx x_rty]. apply Rsum_ext. intros q J. rewrite (eps_of_relative m ignore v p eps Cp He).
    pose proof (Fd x (fst q) I) as E. unfold flux_in in E. injection E as E1 E2. rewrite E1, E2.
    destruct (field_of_mgrad ref Ro (mo_mesh m) Tr x (fst q) psi I Lp) as (-> & ->).
    pose proof (field_gradient ref Ro abc m Cs psi u x (fst q) Lp Hu I) as G. unfold gradient_in in G. injection G as G1 G2. rewrite G1, G2. ring. }
  rewrite Ed in Fd. split; [exact Fd|]. intros t.
  destruct (coefficients (mo_mesh m) Tr _ (proj1 Ef)) as (d1 & _ & Ed1).
  assert (Fl : forall b, In b (m_bdr (mo_mesh m)) -> exists a c e, e_verts b = [a; c] /\ In e (m_elems (mo_mesh m)) /\ side_of e a c /\
                flux_through (displacement eps u e) (m_coord (mo_mesh m) a) (m_coord (mo_mesh m) c) = fl (mo_mesh m) d1 (ends b)).
  { intros b Ib. destruct (tr_bdr _ Tr b Ib) as (_ & a & c & e & Ev & Ie & Sd). exists a, c, e. repeat (split; [assumption|]).
    rewrite (Ed1 e Ie), (field_flux_any (mo_mesh m) Tr d1 e a c Ie (or_introl Sd)). unfold ends, verts. rewrite Ev. reflexivity. }
  exists (fun b => - fl (mo_mesh m) d1 (ends b)). split.
  - intros b Ib. destruct (Fl b Ib) as (a & c & e & Ev & Ie & Sd & Ef1). exists a, c, e. repeat (split; [assumption|]). now rewrite Ef1.
  - refine (eq_trans (C85_charges_are_fluxes ref abc dbg m ignore v p s0 s t (fun b _ => fl (mo_mesh m) d1 (ends b)) Ro Cs Cp E0 Es _) _); cycle 1.
    + rewrite <- Rsum_opp. apply Rsum_ext. intros b _. rewrite Rsum_scal_r, (proj1 (proj2 (ro_rules _ Ro))). ring.
    + intros b r Ib. destruct (Fl b Ib) as (a & c & e & Ev & Ie & Sd & Ef1). destruct Sd as (v1 & v2 & v3 & Ee1 & Sd). destruct (in_tri (mo_mesh m) e Ie) as (i & T).
      assert (K : forall q, on_side e a c r q -> outflow ref (mo_mesh m) (s_d s) b r (fl (mo_mesh m) d1 (ends b))).
      { intros q Sq. exists a, c, (i, e), q. split; [exact Ev|]. split; [exact T|]. split; [exact Sq|]. rewrite (Fd (i, e) q T), <- Ef1. unfold across_side, flux_through, displacement, value, midpoint. cbn [fst snd]. ring. }
      destruct Sd as [S | [S | S]]; [apply (K (r, 0))|apply (K (1 - r, r))|apply (K (0, 1 - r))]; exists v1, v2, v3; (split; [exact Ee1|]); [left|right; left|right; right]; split; congruence.
Qed.
Print Assumptions C72_exact_solutions_are_found_at_any_order.

(** Parallel plates: the potential rises from plate to plate with h, the displacement is uniform. *)
Theorem C72_parallel_plates_at_any_order :
  forall (ref : reference R) (abc : R * R -> R) (dbg : bool) (m : model R) (ignore : bool) (v : Z -> R) (p : solver_inputs R) (eps : Z -> R)
         (c0 c1 : pec R) (y0 y1 : R) (h : R -> R) (outer : list (Z * Z)),
    reference_ok ref -> linear_complete ref -> cross_section abc m -> openBoundaries (mo_mats m) = [] ->
    conductor_problem (mo_mats m) ignore v p -> relative_permittivity (mo_mats m) ignore eps ->
    plates m eps c0 c1 y0 y1 h outer -> walls m outer ->
    let F := discretize abc (elements ref distance (mo_mesh m)) in
    let V := v (p_attr c1) - v (p_attr c0) in
    let H := fun k => h (snd (m_coord (mo_mesh m) k)) in
    exists s0 s, mkSolver F dbg p = Ok s0 /\ Solve F s0 = Ok s /\
      (forall x a b c q, triangle (mo_mesh m) x -> e_verts (snd x) = [a; b; c] ->
         value_in ref (mo_mesh m) (s_phi s) x q = v (p_attr c0) + V * ((1 - fst q - snd q) * H a + fst q * H b + snd q * H c) / h y1) /\
      (forall x q, triangle (mo_mesh m) x -> flux_in ref (mo_mesh m) (s_d s) x q = (0, - V / h y1)) /\
      forall t, getChargeInBoundary F s t = - V / h y1 * extent m t.
Proof.
  intros ref abc dbg m ignore v p eps c0 c1 y0 y1 h outer Ro Lc Cs Eo Cp He [Ou Co (Hb & Ht) _ (h0 & h1 & La)] Wa F V H.
  pose proof (proj1 (cs_mesh _ _ Cs)) as Tr. pose proof (relative_positive abc m ignore eps Cs He) as Pe.
  set (ms := mo_mesh m) in *.
  destruct (lc_functions _ Lc) as (S & I & Ls & Li & Hv & Hr).
  set (lin := linear (boole (T:=R)) (re_rule0 ref) boole_rule).
  assert (Ex : extends lin ref S I).
  { constructor; [split; assumption| | |reflexivity].
    - intros q a b c l0 l1 l2 l (A0 & A1 & A2 & A3). cbn in A0, A1, A2, A3. take l0 0%nat. take l1 0%nat. take l2 0%nat. take l 0%nat.
      change (local a b c [] [] [] []) with [a; b; c]. rewrite Hv. unfold lin. unf. ring.
    - intros a b l A. cbn in A. take l 0%nat. apply Hr. }
  set (val := fun k : nat => v (p_attr c0) + V * H (Z.of_nat k) / h y1).
  set (psi1 := map val (seq 0 (nverts ms))). set (psi := raise lin S I m psi1).
  assert (L1 : List.length psi1 = n_h1 lin ms) by (unfold psi1, n_h1; rewrite map_length, seq_length; cbn; lia).
  assert (N1 : forall k, (k < nverts ms)%nat -> nth k psi1 0 = val k).
  { intros k Lk. unfold psi1. rewrite (nth_indep _ 0 (val 0%nat)) by (rewrite map_length, seq_length; exact Lk). rewrite (map_nth val), seq_nth by exact Lk. reflexivity. }
  assert (Lpsi : List.length psi = n_h1 ref ms) by exact (raise_length lin ref S I Ex m psi1).
  assert (Vp : forall x a b c q, triangle ms x -> e_verts (snd x) = [a; b; c] ->
         value_in ref ms psi x q = v (p_attr c0) + V * ((1 - fst q - snd q) * H a + fst q * H b + snd q * H c) / h y1).
  { intros x a b c q T E. pose proof (tri_in ms x T) as Ie. destruct (elem_corners ms Tr _ Ie) as (i & j & k & C). rewrite (co_verts _ _ _ _ _ C) in E. injection E as <- <- <-.
    rewrite (value_loc ref ms Tr psi x q T Lpsi). refine (eq_trans (raise_local lin ref S I Ex abc m Cs psi1 x q T) _). fold ms. rewrite (loc_eq lin ms psi1 x i j k C).
    assert (Nil : forall s, values psi1 (side_nodes lin ms s) = []) by (intros s; unfold side_nodes, oriented; destruct (fst s <? snd s)%nat; reflexivity).
    rewrite !Nil. change (values psi1 (inner_nodes lin ms (fst x))) with (@nil R). unfold local, lin. destruct (corners_lt ms _ i j k Ie C) as (Ia & Ib & Ic). rewrite !N1 by assumption.
    unfold val. unf. fold ms. field. lra. }
  set (u := fun e : element R => (0, - (V / h y1 / eps (e_attr e)))).
  assert (Hpsi : held_along ref ms (mo_mats m) v psi).
  { split; [exact Lpsi|]. intros c b x v1 v2 s q Ic Ib Ea Ev T Hs (a & b' & c' & Ee & Sd). rewrite (Vp x a b' c' q T Ee).
    assert (Hc : v (p_attr c0) + V * H v1 / h y1 = v (p_attr c) /\ H v2 = H v1).
    { assert (B1 : at_boundary ms (p_attr c) v1) by (exists b; rewrite Ev; cbn; auto). assert (B2 : at_boundary ms (p_attr c) v2) by (exists b; rewrite Ev; cbn; auto).
      unfold H, V. apply Co in Ic as [-> | ->]; [rewrite (Hb v1 B1), (Hb v2 B2), h0|rewrite (Ht v1 B1), (Ht v2 B2)]; (split; [field; lra|reflexivity]). }
    destruct Hc as (Hc1 & Hc2). rewrite <- Hc1. destruct Sd as [(S1 & ->) | [(S1 & ->) | (S1 & ->)]]; injection S1 as <- <-; cbn [fst snd]; rewrite Hc2; field; lra. }
  assert (Hu : has_field ref m psi u).
  { intros x q T w0 q1 q0. destruct (tr_elem _ Tr _ (tri_in ms x T)) as (_ & a & b & c & Ee & _).
    intros e He0. exists (mkposreal 1 Rlt_0_1). intros t Nt _. rewrite !(Vp x a b c _ T Ee). cbn [fst snd]. unfold q1, q0, place. rewrite Ee. cbn [fst snd].
    assert (Ka : forall k, In k [a; b; c] -> H k = H a + (snd (m_coord ms k) - snd (m_coord ms a)) / eps (e_attr (snd x))).
    { intros k Ik. specialize (La (snd x) a k (tri_in ms x T)). rewrite Ee in La. specialize (La (or_introl eq_refl) Ik). specialize (Pe (e_attr (snd x))).
      assert (K : snd (m_coord ms k) - snd (m_coord ms a) = eps (e_attr (snd x)) * (H k - H a)) by (symmetry; exact La). rewrite K. field. lra. }
    specialize (Pe (e_attr (snd x))). rewrite (Ka b), (Ka c) by (cbn; auto). unfold u. cbn [fst snd]. fold ms.
    match goal with |- Rabs ?z < _ => replace z with 0 end; [rewrite Rabs_R0; exact He0|]. field. repeat split; lra. }
  assert (Dc : forall e, displacement eps u e = (0, - (V / h y1), 0)).
  { intros e. unfold displacement, u. cbn [fst snd]. specialize (Pe (e_attr e)). apply TriLocal.pair3; [ring|field; lra|reflexivity]. }
  assert (Ef : exact_field_in m eps u outer).
  { split; [intros e e' a b _ _ _ _; now rewrite !Dc|]. intros sd e Is _ _. destruct (Wa sd Is) as [Oc | Vx]; [now left|right].
    rewrite Dc. unfold flux_through, value. cbn [fst snd]. rewrite Vx. ring. }
  destruct (C72_exact_solutions_are_found_at_any_order ref abc dbg m ignore v p eps psi u outer Ro Lc Cs Eo Cp He Hpsi Hu Ou Ef) as (s0 & s & E0 & Es & Ep & Fd & Ch).
  exists s0, s. split; [exact E0|]. split; [exact Es|]. rewrite Ep. split; [exact Vp|]. split.
  - intros x q T. refine (eq_trans (Fd x q T) _). unfold u. cbn [fst snd]. specialize (Pe (e_attr (snd x))). f_equal; [ring|field; lra].
  - intros t. destruct (Ch t) as (f & Hf & Eq). refine (eq_trans Eq _). unfold extent. rewrite <- Rsum_scal. apply Rsum_ext. intros b Ib. apply filter_In in Ib as (Ib & _).
    destruct (Hf b Ib) as (a & c & e & Ev & Ie & _ & ->). rewrite Dc, Ev. unfold flux_through, value. cbn [fst snd]. fold ms. field. lra.
Qed.
Print Assumptions C72_parallel_plates_at_any_order.

(** A Driver of any order for two plates at the distance y1 - y0, of width w, with layers of total effective
    thickness h y1, returns C = eps0 w / h(y1) and L = mu0 (y1 - y0) / w. *)
Lemma element_plates_entry ref abc dbg moment m o d ops c0 c1 ignore eps y0 y1 h outer :
  element_driver ref abc dbg m o d [c0; c1] -> linear_complete (ref (o_order o)) -> openBoundaries (mo_mats m) = [] ->
  relative_permittivity (mo_mats m) ignore eps -> plates m eps c0 c1 y0 y1 h outer -> walls m outer ->
  let femlib := galerkin abc (elements_of ref) in
  exists g w, reply dbg femlib moment (CallGeneralizedC ignore) (after dbg femlib moment ops d) = (Ok (VMatrix g), w) /\
    square 2 g /\ ent g 1 1 = - extent m (p_attr c1) / h y1.
Proof.
  intros Td Lc Eo He Pl Wa femlib. pose proof Td as [Ro Cs _ _]. destruct (element_facts _ _ _ _ _ _ _ Td) as ([W Rm B O] & _).
  pose proof (C14_closed_without_open_boundary R _ dbg m Eo) as Op.
  destruct (generalized_matrix dbg femlib moment m o d ops [c0; c1] ignore Closed W B O Op) as (g & w & E & _); [discriminate|].
  exists g, w. split; [exact E|].
  destruct (gc_entries abc (elements_of ref) dbg moment m o d ops [c0; c1] W B O ignore g w E) as (Sq & G). split; [exact Sq|].
  destruct (units_exist abc (elements_of ref (mo_mesh m) (o_order o)) dbg m W Rm ignore [c0; c1]) as (us & Fu).
  inversion Fu as [|? u0 ? us0 U0 Fu0]; subst. inversion Fu0 as [|? u1 ? us1 U1 Fu1]; subst. inversion Fu1; subst.
  pose proof U1 as (q & s0 & Cp & E0 & E1).
  destruct (C72_parallel_plates_at_any_order (ref (o_order o)) abc dbg m ignore _ q eps c0 c1 y0 y1 h outer Ro Lc Cs Eo Cp He Pl Wa) as (s0' & s & E0' & Es & _ & _ & Ch).
  change (elements_of ref (mo_mesh m) (o_order o)) with (elements (ref (o_order o)) distance (mo_mesh m)) in *.
  rewrite E0 in E0'. apply Ok_inj in E0'. subst s0'. unfold solved_fields in E1. rewrite Es in E1. cbn [bind] in E1. apply Ok_inj in E1.
  assert (C1 : charge_on (discretize abc (elements (ref (o_order o)) distance (mo_mesh m))) u1 (p_attr c1) (- extent m (p_attr c1) / h y1)).
  { intros s' Es'. rewrite <- E1 in Es'. transitivity (getChargeInBoundary (discretize abc (elements (ref (o_order o)) distance (mo_mesh m))) s (p_attr c1)).
    - unfold getChargeInBoundary. f_equal. change (so_d (getSolution s') = so_d (getSolution s)). now rewrite Es'.
    - rewrite Ch. unfold unit_potential. rewrite Z.eqb_refl. destruct (Z.eqb_spec (p_attr c0) (p_attr c1)) as [Ec | Nc].
      + exfalso. destruct (cs_conductors _ _ Cs) as (_ & Nd & _). pose proof (Permutation_map p_attr (proj1 O)) as Pm. cbn [map] in Pm.
        apply Permutation_sym in Pm. apply (Permutation_NoDup Pm) in Nd. inversion Nd as [|? ? N _]; subst. apply N. rewrite Ec. now left.
      + cbn [n1 n0 RNum]. pose proof (proj1 (proj2 (pt_layers _ _ _ _ _ _ _ _ Pl))). field. lra. }
  rewrite (G _ 1%nat 1%nat _ _ u1 u1 _ _ Fu eq_refl eq_refl eq_refl eq_refl C1 C1). pose proof (proj1 (proj2 (pt_layers _ _ _ _ _ _ _ _ Pl))). field. lra.
Qed.
Theorem C72_parallel_plates_parameters_at_any_order :
  forall (ref : Z -> reference R) (abc : R * R -> R) (dbg : bool) moment (m : model R) (o : driver_options) (d : driver R) (ops : list dop)
         (c0 c1 : pec R) (eps : Z -> R) (y0 y1 width : R) (h : R -> R) (outer : list (Z * Z)),
    let femlib := galerkin abc (elements_of ref) in
    element_driver ref abc dbg m o d [c0; c1] -> linear_complete (ref (o_order o)) -> openBoundaries (mo_mats m) = [] ->
    relative_permittivity (mo_mats m) false eps -> plates m eps c0 c1 y0 y1 h outer -> walls m outer -> y0 < y1 ->
    extent m (p_attr c1) = - width -> 0 < width ->
    exists p w, reply dbg femlib moment CallPUL (after dbg femlib moment ops d) = (Ok (VPul p), w) /\
      square 1 (pul_C p) /\ square 1 (pul_L p) /\
      ent (pul_C p) 0 0 = eps0 * (width / h y1) /\ ent (pul_L p) 0 0 = mu0 * ((y1 - y0) / width).
Proof.
  intros ref abc dbg moment m o d ops c0 c1 eps y0 y1 width h outer femlib Td Lc Eo He Pl Wa Hy Ew Pw.
  pose proof Pl as [Ou Co Hh Ve (h0 & h1 & La)].
  assert (He' : relative_permittivity (mo_mats m) true (fun _ => 1)) by (split; [intros t er (l1 & q & l2 & _ & _ & _ & ->); reflexivity|reflexivity]).
  assert (Pl' : plates m (fun _ => 1) c0 c1 y0 y1 (fun y => y - y0) outer).
  { constructor; [exact Ou|exact Co|exact Hh|exact Ve|]. split; [ring|]. split; [lra|]. intros; ring. }
  destruct (element_plates_entry ref abc dbg moment m o d ops c0 c1 false eps y0 y1 h outer Td Lc Eo He Pl Wa) as (ge & we & Ee & Se & Ge).
  destruct (element_plates_entry ref abc dbg moment m o d ops c0 c1 true (fun _ => 1) y0 y1 _ outer Td Lc Eo He' Pl' Wa) as (gm & wm & Em & Sm & Gm).
  fold femlib in Ee, Em. destruct (element_facts _ _ _ _ _ _ _ Td) as ([W Rm B O] & _).
  assert (Op : determineOpenness dbg (dr_model (after dbg femlib moment ops d)) = Ok Closed).
  { rewrite (D_model dbg femlib moment Rmul0 m o d ops W B). exact (C14_closed_without_open_boundary R _ dbg m Eo). }
  pose proof (reply_C _ _ _ _ _ _ _ Ee Op) as EC. pose proof (reply_L _ _ _ _ _ _ _ Em Op) as EL.
  rewrite Ew, Ropp_involutive in Ge, Gm.
  assert (Nz : width / (y1 - y0) <> 0).
  { unfold Rdiv. apply Rmult_integral_contrapositive_currified; [lra|apply Rinv_neq_0_compat; lra]. }
  destruct (kite_inverse gm _ Sm Gm Nz) as (L & Ei). rewrite Ei in EL. cbn [bind] in EL.
  destruct (C28_units dbg femlib moment m o d ops _ L we wm W B EC EL) as (p & w & E & A1 & A2 & A3 & A4 & A5).
  exists p, w. split; [exact E|]. destruct Se as (S1 & S2). pose proof Sm as (S3 & S4).
  assert (Sc : square 1 (getCFromGeneralizedC gm Closed)) by (unfold square, getCFromGeneralizedC; cbn [nr nc]; rewrite S3, S4; auto).
  destruct (invert_product _ 1%nat Sc L Ei) as ((L1 & L2) & (Pr & _)).
  split; [unfold square; rewrite A1, A2; unfold getCFromGeneralizedC; cbn [nr nc]; rewrite S1, S2; auto|].
  split; [unfold square; rewrite A3, A4; auto|]. destruct (A5 0%nat 0%nat) as (-> & ->).
  change (ent (getCFromGeneralizedC ge Closed) 0 0) with (ent ge 1 1). rewrite Ge. split; [reflexivity|].
  specialize (Pr 0%nat 0%nat ltac:(lia) ltac:(lia)). change (Sum 1 (fun k => ent (getCFromGeneralizedC gm Closed) 0 k * ent L k 0)) with (ent gm 1 1 * ent L 0 0 + 0) in Pr. rewrite Gm in Pr. cbn [Nat.eqb] in Pr. f_equal.
  apply (Rmult_eq_reg_l (width / (y1 - y0))); [|exact Nz]. transitivity 1; [lra|field; lra].
Qed.
Print Assumptions C72_parallel_plates_parameters_at_any_order.

Lemma plates_walls : walls plates_model plates_outer.
Proof.
  cbn. intros s [<-|[<-|[<-|[<-|[<-|[<-|[]]]]]]]; try (right; reflexivity); left.
  - do 2 eexists. split; [left; reflexivity|]. split; [left; reflexivity|]. split; reflexivity.
  - do 2 eexists. split; [right; left; reflexivity|]. split; [right; left; reflexivity|]. split; reflexivity.
Qed.
(** Plates of width 2 at the distance 3 with two layers (Plates.v) and elements of the orders 1, 2 or 3: C = eps0 4/5, L = mu0 3/2. *)
Example C72_any_order_example : forall (abc : R * R -> R) (dbg : bool) moment (ops : list dop) (k : nat), (1 <= k <= 3)%nat ->
  let femlib := galerkin abc (elements_of boole_elements) in
  exists d, element_driver boole_elements abc dbg plates_model (kite_order (Z.of_nat k)) d toy_conds /\
    linear_complete (boole_elements (Z.of_nat k)) /\ relative_permittivity plates_mats false plates_eps /\
    plates plates_model plates_eps {| p_name := "Conductor_0"; p_attr := 1; p_area := 1 |}
      {| p_name := "Conductor_1"; p_attr := 2; p_area := 1 |} 0 3 plates_h plates_outer /\ walls plates_model plates_outer /\
    exists p w, reply dbg femlib moment CallPUL (after dbg femlib moment ops d) = (Ok (VPul p), w) /\
      ent (pul_C p) 0 0 = eps0 * (4 / 5) /\ ent (pul_L p) 0 0 = mu0 * (3 / 2).
Proof.
  intros abc dbg moment ops k L femlib. pose proof (C85_reference_elements k _ _ _ L (boole_rules k L)) as Ro. pose proof (C72_orders_contain_uniform_fields k _ _ _ L (boole_rules k L)) as Lc.
  destruct (mkDriver_ok dbg femlib plates_model (kite_order (Z.of_nat k)) (elements_posed _ Ro abc _ (plates_section abc)) toy_conds plates_order) as (d & E & _); [discriminate|].
  assert (Td : element_driver boole_elements abc dbg plates_model (kite_order (Z.of_nat k)) d toy_conds) by (constructor; [exact Ro|exact (plates_section abc)|eexists; exact E|exact plates_order]).
  exists d. split; [exact Td|]. split; [exact Lc|]. split; [exact plates_permittivity|]. split; [exact plates_layers|]. split; [exact plates_walls|].
  assert (Ew : extent plates_model 2 = - 2) by (unfold extent; cbn; lra).
  destruct (C72_parallel_plates_parameters_at_any_order boole_elements abc dbg moment plates_model (kite_order (Z.of_nat k)) d ops _ _ plates_eps 0 3 2 plates_h plates_outer
    Td Lc eq_refl plates_permittivity plates_layers plates_walls ltac:(lra) Ew ltac:(lra)) as (p & w & E' & _ & _ & EC & EL).
  exists p, w. split; [exact E'|]. split.
  - rewrite EC. f_equal. unfold plates_h. destruct (Rle_dec 3 1); lra.
  - rewrite EL. f_equal. lra.
Qed.
