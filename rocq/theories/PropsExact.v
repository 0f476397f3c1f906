(** Property C72: exact solutions that first order elements can represent are found, in particular
    the field between parallel plates. *)
From Coq Require Import Reals Lra Relations Permutation.
From Verif Require Import Prelude StdMap Materials Graph ModelM Parser Matrix Multipole Solver Fem Domain Results Driver RSum ListLemmas SpecGraph SpecInput SpecModel SpecSolver SpecDriver SpecMatrix SpecCharge SpecField SpecFem
  SpecTriangles SpecDrawing SpecFlux SpecExact Triangles SolverProofs ChargeProofs FemProofs FemCalls FemFacts FemModel FemLaws FemDriver FemMatrix FemMore TriProofs TriModel DrawLocal FluxProofs ExactProofs
  DriverProofs CallProofs DriverFacts MatrixProofs MatrixCalls MatrixFacts PropsMatrix PropsGraph Toy Kite Plates PropsTriangles PropsDrawing PropsFlux.
Open Scope R_scope.
Open Scope list_scope.

(** If a potential [psi] with the values of the conductors has a field that is an exact solution, a
    new solver finds it, and reports as charges the exact fluxes. *)
Theorem C72_exact_solutions_are_found :
  forall rule1 rule0 rule2 (abc : R * R -> R) (dbg : bool) (m : model R) (ignore : bool) (v : Z -> R) (p : solver_inputs R) (eps : Z -> R)
         (psi : list R) (u : element R -> R * R) (outer : list (Z * Z)),
    rules_ok rule1 rule0 rule2 -> exact_for_quadratics rule2 -> cross_section abc m -> openBoundaries (mo_mats m) = [] ->
    conductor_problem (mo_mats m) ignore v p -> relative_permittivity (mo_mats m) ignore eps ->
    held m v psi -> minus_slope (mo_mesh m) psi u -> outline m outer -> exact_field m eps u outer ->
    let F := discretize abc (first_order rule1 rule0 rule2 distance (mo_mesh m)) in
    exists s0 s, mkSolver F dbg p = Ok s0 /\ Solve F s0 = Ok s /\ s_phi s = psi /\
      forall t, flux_from (mo_mesh m) (displacement eps u) t (getChargeInBoundary F s t).
Proof.
  intros rule1 rule0 rule2 abc dbg m ignore v p eps psi u outer Ru Ex Cs Eo Cp He Hpsi Hu Ou Ef F.
  destruct (C69_piecewise_linear_potential_of_least_energy rule1 rule0 rule2 abc dbg m ignore v p eps Ru Cs Eo Cp He) as (s0 & s & W & E0 & Es & Hs & FE & _ & Mi & _).
  destruct (C71_charges_are_fluxes_of_the_nearest_conservative_field rule1 rule0 rule2 abc dbg m ignore v p eps Ru Ex Cs Cp He) as (s0' & s' & U & E0' & Es' & CU & Nr & Ch).
  fold F in E0, Es, E0', Es', Ch. rewrite E0 in E0'. injection E0' as <-. rewrite Es in Es'. injection Es' as <-.
  exists s0, s. split; [exact E0|]. split; [exact Es|].
  pose proof (relative_positive abc m ignore eps Cs He) as Pe.
  assert (FP : exists W', field_energy (mo_mesh m) eps psi W').
  { eexists. exists (fun e => (- fst (u e), - snd (u e))). split; [exact Hu|reflexivity]. }
  assert (Ep : s_phi s = psi).
  { destruct (list_eq_dec Req_EM_T psi (s_phi s)) as [E | N]; [now symmetry|]. exfalso. destruct FP as (W' & FW). specialize (Mi psi W' Hpsi N FW).
    pose proof (exact_least rule1 rule0 rule2 abc m Cs eps u outer v psi (s_phi s) W' W Pe Ou Ef Hpsi Hu Hs FW FE). lra. }
  split; [exact Ep|]. rewrite Ep in Nr.
  assert (EU : forall e, In e (m_elems (mo_mesh m)) -> U e = displacement eps u e).
  { intros e I.
    assert (Dec : U e = displacement eps u e \/ U e <> displacement eps u e).
    { destruct (U e) as [[a b] c], (displacement eps u e) as [[a' b'] c'].
      destruct (Req_dec a a') as [-> | N]; [|right; congruence]. destruct (Req_dec b b') as [-> | N]; [|right; congruence].
      destruct (Req_dec c c') as [-> | N]; [now left|right; congruence]. }
    destruct Dec as [E | N]; [exact E|]. exfalso.
    assert (Zero : total_misfit (mo_mesh m) eps u (displacement eps u) = 0).
    { unfold total_misfit. apply Rsum_zero. intros e' I'. unfold misfit. destruct (e_verts e') as [|a [|b [|c [|]]]]; try reflexivity.
      unfold square_distance, displacement, value. cbn [fst snd]. ring. }
    assert (Pos : 0 <= total_misfit (mo_mesh m) eps u U).
    { unfold total_misfit. apply Rsum_nonneg. intros e' I'. destruct (tr_elem _ (proj1 (cs_mesh _ _ Cs)) e' I') as (_ & a & b & c & E & _ & _ & _ & Ar).
      unfold misfit. rewrite E. apply Rmult_le_pos; [lra|].
      assert (S : forall F k w q, 0 <= square_distance F k w q).
      { intros F' k w q. unfold square_distance. pose proof (Rle_0_sqr (fst (value F' q) - k * fst w)). pose proof (Rle_0_sqr (snd (value F' q) - k * snd w)). unfold Rsqr in *. lra. }
      pose proof (S (U e') (eps (e_attr e')) (u e') (midpoint (m_coord (mo_mesh m) a) (m_coord (mo_mesh m) b))).
      pose proof (S (U e') (eps (e_attr e')) (u e') (midpoint (m_coord (mo_mesh m) b) (m_coord (mo_mesh m) c))).
      pose proof (S (U e') (eps (e_attr e')) (u e') (midpoint (m_coord (mo_mesh m) c) (m_coord (mo_mesh m) a))). lra. }
    pose proof (Nr u (displacement eps u) Hu (proj1 Ef) (ex_intro _ e (conj I (not_eq_sym N)))). lra. }
  intros t. destruct (Ch t) as (f & Hf & Eq). exists f. split; [|exact Eq]. intros b Ib. destruct (Hf b Ib) as (a & c & e & Ev & Ie & Sd & Ee).
  exists a, c, e. repeat (split; [assumption|]). now rewrite Ee, (EU e Ie).
Qed.
Print Assumptions C72_exact_solutions_are_found.

(** Parallel plates: the potential rises from plate to plate with h, the displacement is uniform. *)
Theorem C72_parallel_plates :
  forall rule1 rule0 rule2 (abc : R * R -> R) (dbg : bool) (m : model R) (ignore : bool) (v : Z -> R) (p : solver_inputs R) (eps : Z -> R)
         (c0 c1 : pec R) (y0 y1 : R) (h : R -> R) (outer : list (Z * Z)),
    rules_ok rule1 rule0 rule2 -> exact_for_quadratics rule2 -> cross_section abc m -> openBoundaries (mo_mats m) = [] ->
    conductor_problem (mo_mats m) ignore v p -> relative_permittivity (mo_mats m) ignore eps ->
    plates m eps c0 c1 y0 y1 h outer ->
    let F := discretize abc (first_order rule1 rule0 rule2 distance (mo_mesh m)) in
    let V := v (p_attr c1) - v (p_attr c0) in
    exists s0 s, mkSolver F dbg p = Ok s0 /\ Solve F s0 = Ok s /\
      (forall k, vertex (mo_mesh m) k -> at_vertex (s_phi s) k = v (p_attr c0) + V * h (snd (m_coord (mo_mesh m) k)) / h y1) /\
      forall t, getChargeInBoundary F s t = - V / h y1 * extent m t.
Proof.
  intros rule1 rule0 rule2 abc dbg m ignore v p eps c0 c1 y0 y1 h outer Ru Ex Cs Eo Cp He [Ou Co (Hb & Ht) Ve (h0 & h1 & La)] F V.
  pose proof (proj1 (cs_mesh _ _ Cs)) as Tr. pose proof (relative_positive abc m ignore eps Cs He) as Pe.
  set (ms := mo_mesh m) in *. set (n := nverts ms).
  set (val := fun k : nat => v (p_attr c0) + V * h (snd (m_coord ms (Z.of_nat k))) / h y1).
  set (psi := map val (seq 0 n)).
  assert (Lpsi : potential (first_order rule1 rule0 rule2 distance ms) psi) by (unfold potential, psi; now rewrite map_length, seq_length).
  assert (Npsi : nodal ms psi) by (now apply (nodal_length rule1 rule0 rule2 abc m Cs)).
  assert (Vpsi : forall k, vertex ms k -> at_vertex psi k = v (p_attr c0) + V * h (snd (m_coord ms k)) / h y1).
  { intros k Hk. pose proof (proj1 (Npsi k) Hk) as (P0 & P1). unfold psi in P1. rewrite map_length, seq_length in P1.
    unfold at_vertex, psi. rewrite (nth_indep _ 0 (val 0%nat)) by (rewrite map_length, seq_length; lia).
    rewrite (map_nth val), seq_nth by lia. unfold val. rewrite Nat.add_0_l, Z2Nat.id by lia. reflexivity. }
  assert (Bv : forall t k, at_boundary ms t k -> vertex ms k).
  { intros t k (b & Ib & _ & Jb). destruct (tr_bdr _ Tr b Ib) as (_ & a & c & e & Ev & Ie & (x1 & x2 & x3 & Ee & S)).
    exists e. split; [exact Ie|]. rewrite Ee. rewrite Ev in Jb. destruct S as [S | [S | S]]; injection S as -> ->; cbn in Jb |- *; tauto. }
  assert (Hpsi : held m v psi).
  { split; [exact Npsi|]. intros c k Ic Bk. rewrite (Vpsi k (Bv _ _ Bk)). unfold V. apply Co in Ic as [-> | ->].
    - rewrite (Hb k Bk), h0. field. lra.
    - rewrite (Ht k Bk). field. lra. }
  set (u := fun e : element R => (0, - (V / h y1 / eps (e_attr e)))).
  assert (Hu : minus_slope ms psi u).
  { intros e Ie a b Ia Ib. unfold u. cbn [fst snd]. rewrite (Vpsi a (ex_intro _ e (conj Ie Ia))), (Vpsi b (ex_intro _ e (conj Ie Ib))).
    rewrite <- (La e a b Ie Ia Ib). specialize (Pe (e_attr e)). field. lra. }
  assert (Dc : forall e, displacement eps u e = (0, - (V / h y1), 0)).
  { intros e. unfold displacement, u. cbn [fst snd]. specialize (Pe (e_attr e)). apply TriLocal.pair3; [ring|field; lra|reflexivity]. }
  assert (Ef : exact_field m eps u outer).
  { split; [intros e e' a b _ _ _ _; now rewrite !Dc|]. intros sd e Is _ _. destruct (Ve sd Is) as [Oc | Vx]; [now left|right].
    rewrite Dc. unfold flux_through, value. cbn [fst snd]. change (mo_mesh m) with ms. change (mo_mesh m) with ms in Vx. rewrite Vx. ring. }
  destruct (C72_exact_solutions_are_found rule1 rule0 rule2 abc dbg m ignore v p eps psi u outer Ru Ex Cs Eo Cp He Hpsi Hu Ou Ef) as (s0 & s & E0 & Es & Ep & Ch).
  exists s0, s. split; [exact E0|]. split; [exact Es|]. rewrite Ep. split; [exact Vpsi|].
  intros t. destruct (Ch t) as (f & Hf & Eq). refine (eq_trans Eq _). unfold extent. rewrite <- Rsum_scal. apply Rsum_ext. intros b Ib. apply filter_In in Ib as (Ib & _).
  destruct (Hf b Ib) as (a & c & e & Ev & Ie & _ & ->). rewrite Dc, Ev. unfold flux_through, value. cbn [fst snd]. fold ms. field. lra.
Qed.
Print Assumptions C72_parallel_plates.

(** A Driver for two plates at the distance d = y1 - y0, of width w, with layers of total effective
    thickness h y1, returns C = eps0 w / h(y1) and L = mu0 d / w. *)
Lemma plates_entry rule1 rule0 rule2 abc dbg moment m o d ops c0 c1 ignore eps y0 y1 h outer :
  triangle_driver rule1 rule0 rule2 abc dbg m o d [c0; c1] -> exact_for_quadratics rule2 -> openBoundaries (mo_mats m) = [] ->
  relative_permittivity (mo_mats m) ignore eps -> plates m eps c0 c1 y0 y1 h outer ->
  let femlib := galerkin abc (linear_elements rule1 rule0 rule2) in
  exists g w, reply dbg femlib moment (CallGeneralizedC ignore) (after dbg femlib moment ops d) = (Ok (VMatrix g), w) /\
    square 2 g /\ ent g 1 1 = - extent m (p_attr c1) / h y1.
Proof.
  intros Td Ex Eo He Pl femlib. pose proof Td as [Ru Cs _ _ _]. destruct (triangle_facts _ _ _ _ _ _ _ _ _ Td) as ([W Rm B O] & _).
  pose proof (C14_closed_without_open_boundary R _ dbg m Eo) as Op.
  destruct (generalized_matrix dbg femlib moment m o d ops [c0; c1] ignore Closed W B O Op) as (g & w & E & _); [discriminate|].
  exists g, w. split; [exact E|].
  destruct (gc_entries abc (linear_elements rule1 rule0 rule2) dbg moment m o d ops [c0; c1] W B O ignore g w E) as (Sq & G). split; [exact Sq|].
  destruct (units_exist abc (linear_elements rule1 rule0 rule2 (mo_mesh m) (o_order o)) dbg m W Rm ignore [c0; c1]) as (us & Fu).
  inversion Fu as [|? u0 ? us0 U0 Fu0]; subst. inversion Fu0 as [|? u1 ? us1 U1 Fu1]; subst. inversion Fu1; subst.
  pose proof U1 as (q & s0 & Cp & E0 & E1).
  destruct (C72_parallel_plates rule1 rule0 rule2 abc dbg m ignore _ q eps c0 c1 y0 y1 h outer Ru Ex Cs Eo Cp He Pl) as (s0' & s & E0' & Es & _ & Ch).
  change (linear_elements rule1 rule0 rule2 (mo_mesh m) (o_order o)) with (first_order rule1 rule0 rule2 distance (mo_mesh m)) in *.
  rewrite E0 in E0'. injection E0' as <-. unfold solved_fields in E1. rewrite Es in E1. cbn [bind] in E1. injection E1 as E1.
  assert (C1 : charge_on (discretize abc (first_order rule1 rule0 rule2 distance (mo_mesh m))) u1 (p_attr c1) (- extent m (p_attr c1) / h y1)).
  { intros s' Es'. rewrite <- E1 in Es'. transitivity (getChargeInBoundary (discretize abc (first_order rule1 rule0 rule2 distance (mo_mesh m))) s (p_attr c1)).
    - unfold getChargeInBoundary. f_equal. change (so_d (getSolution s') = so_d (getSolution s)). now rewrite Es'.
    - rewrite Ch. unfold unit_potential. rewrite Z.eqb_refl. destruct (Z.eqb_spec (p_attr c0) (p_attr c1)) as [Ec | Nc].
      + exfalso. assert (I0 : In c0 (pecs (mo_mats m))) by (apply (pt_conductors _ _ _ _ _ _ _ _ Pl); auto). assert (I1 : In c1 (pecs (mo_mats m))) by (apply (pt_conductors _ _ _ _ _ _ _ _ Pl); auto).
        destruct (cs_conductors _ _ Cs) as (_ & Nd & _). pose proof (Permutation_map p_attr (proj1 O)) as Pm. cbn [map] in Pm.
        apply Permutation_sym in Pm. apply (Permutation_NoDup Pm) in Nd. inversion Nd as [|? ? N _]; subst. apply N. rewrite Ec. now left.
      + cbn [n1 n0 RNum]. pose proof (proj1 (proj2 (pt_layers _ _ _ _ _ _ _ _ Pl))). field. lra. }
  rewrite (G _ 1%nat 1%nat _ _ u1 u1 _ _ Fu eq_refl eq_refl eq_refl eq_refl C1 C1). pose proof (proj1 (proj2 (pt_layers _ _ _ _ _ _ _ _ Pl))). field. lra.
Qed.
Theorem C72_parallel_plates_parameters :
  forall rule1 rule0 rule2 (abc : R * R -> R) (dbg : bool) moment (m : model R) (o : driver_options) (d : driver R) (ops : list dop)
         (c0 c1 : pec R) (eps : Z -> R) (y0 y1 width : R) (h : R -> R) (outer : list (Z * Z)),
    let femlib := galerkin abc (linear_elements rule1 rule0 rule2) in
    triangle_driver rule1 rule0 rule2 abc dbg m o d [c0; c1] -> exact_for_quadratics rule2 -> openBoundaries (mo_mats m) = [] ->
    relative_permittivity (mo_mats m) false eps -> plates m eps c0 c1 y0 y1 h outer -> y0 < y1 ->
    extent m (p_attr c1) = - width -> 0 < width ->
    exists p w, reply dbg femlib moment CallPUL (after dbg femlib moment ops d) = (Ok (VPul p), w) /\
      square 1 (pul_C p) /\ square 1 (pul_L p) /\
      ent (pul_C p) 0 0 = eps0 * (width / h y1) /\ ent (pul_L p) 0 0 = mu0 * ((y1 - y0) / width).
Proof.
  intros rule1 rule0 rule2 abc dbg moment m o d ops c0 c1 eps y0 y1 width h outer femlib Td Ex Eo He Pl Hy Ew Pw.
  pose proof Pl as [Ou Co Hh Ve (h0 & h1 & La)].
  assert (He' : relative_permittivity (mo_mats m) true (fun _ => 1)) by (split; [intros t er (l1 & q & l2 & _ & _ & _ & ->); reflexivity|reflexivity]).
  assert (Pl' : plates m (fun _ => 1) c0 c1 y0 y1 (fun y => y - y0) outer).
  { constructor; [exact Ou|exact Co|exact Hh|exact Ve|]. split; [ring|]. split; [lra|]. intros; ring. }
  destruct (plates_entry rule1 rule0 rule2 abc dbg moment m o d ops c0 c1 false eps y0 y1 h outer Td Ex Eo He Pl) as (ge & we & Ee & Se & Ge).
  destruct (plates_entry rule1 rule0 rule2 abc dbg moment m o d ops c0 c1 true (fun _ => 1) y0 y1 _ outer Td Ex Eo He' Pl') as (gm & wm & Em & Sm & Gm).
  fold femlib in Ee, Em. destruct (triangle_facts _ _ _ _ _ _ _ _ _ Td) as ([W Rm B O] & _).
  assert (Op : determineOpenness dbg (dr_model (after dbg femlib moment ops d)) = Ok Closed).
  { rewrite (D_model dbg femlib moment Rmul0 m o d ops W B). exact (C14_closed_without_open_boundary R _ dbg m Eo). }
  pose proof (reply_C _ _ _ _ _ _ _ Ee Op) as EC. pose proof (reply_L _ _ _ _ _ _ _ Em Op) as EL.
  rewrite Ew, Ropp_involutive in Ge, Gm.
  assert (Nz : width / (y1 - y0) <> 0).
  { unfold Rdiv. apply Rmult_integral_contrapositive_currified; [lra|apply Rinv_neq_0_compat; lra]. }
  destruct (kite_inverse gm _ Sm Gm Nz) as (L & Ei). rewrite Ei in EL. cbn [bind] in EL.
  destruct (C28_units dbg femlib moment m o d ops _ L we wm W B EC EL) as (p & w & E & A1 & A2 & A3 & A4 & A5).
  exists p, w. split; [exact E|]. destruct Se as (S1 & S2). pose proof Sm as (S3 & S4).
  assert (Sc : square 1 (getCFromGeneralizedC gm Closed)) by (unfold square, getCFromGeneralizedC; cbn [nr nc]; rewrite S3, S4; auto).
  destruct (invert_product _ 1%nat Sc L Ei) as ((L1 & L2) & (Pr & _)).
  split; [unfold square; rewrite A1, A2; unfold getCFromGeneralizedC; cbn [nr nc]; rewrite S1, S2; auto|].
  split; [unfold square; rewrite A3, A4; auto|]. destruct (A5 0%nat 0%nat) as (-> & ->).
  change (ent (getCFromGeneralizedC ge Closed) 0 0) with (ent ge 1 1). rewrite Ge. split; [reflexivity|].
  specialize (Pr 0%nat 0%nat ltac:(lia) ltac:(lia)). change (Sum 1 (fun k => ent (getCFromGeneralizedC gm Closed) 0 k * ent L k 0)) with (ent gm 1 1 * ent L 0 0 + 0) in Pr. rewrite Gm in Pr. cbn [Nat.eqb] in Pr. f_equal.
  apply (Rmult_eq_reg_l (width / (y1 - y0))); [|exact Nz]. transitivity 1; [lra|field; lra].
Qed.
Print Assumptions C72_parallel_plates_parameters.

(** Plates of width 2 at the distance 3, with a layer of thickness 1 and permittivity 2 and one of
    thickness 2 and permittivity 1: C = eps0 * 2 / (1/2 + 2), L = mu0 * 3 / 2, on the mesh of four
    triangles of Plates.v. *)
Example C72_example : forall (abc : R * R -> R) (dbg : bool) moment (ops : list dop),
  let femlib := galerkin abc (linear_elements segment_rule one_point_rule three_point_rule) in
  exists d, triangle_driver segment_rule one_point_rule three_point_rule abc dbg plates_model kite_options d toy_conds /\
    exact_for_quadratics (three_point_rule (T:=R)) /\ relative_permittivity plates_mats false plates_eps /\
    plates plates_model plates_eps {| p_name := "Conductor_0"; p_attr := 1; p_area := 1 |}
      {| p_name := "Conductor_1"; p_attr := 2; p_area := 1 |} 0 3 plates_h plates_outer /\
    exists p w, reply dbg femlib moment CallPUL (after dbg femlib moment ops d) = (Ok (VPul p), w) /\
      ent (pul_C p) 0 0 = eps0 * (4 / 5) /\ ent (pul_L p) 0 0 = mu0 * (3 / 2).
Proof.
  intros abc dbg moment ops femlib. destruct (plates_driver abc dbg) as (d & Td). exists d. split; [exact Td|].
  split; [exact kite_exact|]. split; [exact plates_permittivity|]. split; [exact plates_layers|].
  assert (Ew : extent plates_model 2 = - 2) by (unfold extent; cbn; lra).
  destruct (C72_parallel_plates_parameters _ _ _ abc dbg moment plates_model kite_options d ops _ _ plates_eps 0 3 2 plates_h plates_outer
    Td kite_exact eq_refl plates_permittivity plates_layers ltac:(lra) Ew ltac:(lra)) as (p & w & E & _ & _ & EC & EL).
  exists p, w. split; [exact E|]. split.
  - rewrite EC. f_equal. unfold plates_h. destruct (Rle_dec 3 1); lra.
  - rewrite EL. f_equal. lra.
Qed.
