(** Property C69, and C59-C61, C63, C64 on triangles: on every cross section drawn on triangles the solver with first order elements
    computes the piecewise linear potential of least energy. *)
From Coq Require Import QArith Reals Lra Permutation Relations.
From Verif Require Import Prelude StdMap Json Materials Graph ModelM Parser Matrix Multipole Solver Fem Domain Results Driver RSum LinAlg
  SpecInput SpecModel SpecSolver SpecDriver SpecMatrix SpecCharge SpecField SpecFem SpecTriangles Triangles ListLemmas
  FemProofs FemCalls FemFacts FemModel FemLaws FemDriver FemMatrix FemMore TriProofs TriModel Toy Kite Hexagon DriverProofs CallProofs DriverFacts MatrixProofs MatrixCalls MatrixFacts PropsMatrix PropsFem.
Open Scope R_scope.
Open Scope list_scope.

(** ** C69 *)
(** In a closed cross section a new solver with the potentials [v] on the conductors finds the
    piecewise linear potential with these values that has strictly the least energy
    1/2 integral eps |grad phi|^2, reports that energy, and its E is minus the gradient in every
    point of every triangle. *)
Theorem C69_piecewise_linear_potential_of_least_energy :
  forall rule1 rule0 rule2 (abc : R * R -> R) (dbg : bool) (m : model R) (ignore : bool) (v : Z -> R) (p : solver_inputs R) (eps : Z -> R),
    rules_ok rule1 rule0 rule2 -> cross_section abc m -> openBoundaries (mo_mats m) = [] ->
    conductor_problem (mo_mats m) ignore v p -> relative_permittivity (mo_mats m) ignore eps ->
    let F := discretize abc (first_order rule1 rule0 rule2 distance (mo_mesh m)) in
    exists s0 s W, mkSolver F dbg p = Ok s0 /\ Solve F s0 = Ok s /\
      held m v (s_phi s) /\
      field_energy (mo_mesh m) eps (s_phi s) W /\ getTotalEnergy F s = Ok W /\
      (forall psi W', held m v psi -> psi <> s_phi s -> field_energy (mo_mesh m) eps psi W' -> W < W') /\
      (forall e g pt, In e (m_elems (mo_mesh m)) -> slope (mo_mesh m) (s_phi s) e g ->
         dot (nd_x (mo_mesh m) e pt) (s_e s) = - fst g /\ dot (nd_y (mo_mesh m) e pt) (s_e s) = - snd g).
Proof.
  intros rule1 rule0 rule2 abc dbg m ignore v p eps Ru Cs Eo Cp He F.
  set (D := first_order rule1 rule0 rule2 distance (mo_mesh m)) in *.
  pose proof (cross_section_posed rule1 rule0 rule2 Ru abc m Cs) as W. pose proof (cross_section_regular rule1 rule0 rule2 Ru abc m Cs) as Rm. fold D in W, Rm.
  pose proof (proj1 (cs_mesh _ _ Cs)) as Tr. pose proof (first_order_quadrature rule1 rule0 rule2 Ru (mo_mesh m) Tr) as Sq. fold D in Sq.
  destruct (model_problem abc D m W Rm ignore v p Cp) as (Hp & An).
  destruct (computes_exists abc D (rm_tables _ _ _ Rm) dbg p Hp) as (x & Cx). pose proof Cx as (s0 & E0 & Ex).
  unfold solved_fields in Ex. apply bind_ok in Ex as (s & Es & Ex).
  assert (Ep : s_params s = p).
  { transitivity (s_params s0).
    - clear -Es. unfold Solve in Es. apply bind_ok in Es as (phi0 & _ & Es). apply bind_ok in Es as (ess & _ & [= <-]). reflexivity.
    - clear -E0. unfold mkSolver in E0. apply bind_ok in E0 as (? & _ & E0). apply bind_ok in E0 as (? & _ & E0).
      apply bind_ok in E0 as (? & _ & E0). apply bind_ok in E0 as (? & _ & [= <-]). reflexivity. }
  assert (Exs : x = getSolution s) by (now injection Ex). subst x.
  destruct (minimal abc D (rm_tables _ _ _ Rm) dbg p _ Hp An Cx) as (sigma & Sd & L & Pr & Mi & _).
  pose proof (e_of_phi abc D (rm_tables _ _ _ Rm) dbg p _ Hp Cx) as Ee. cbn [getSolution so_phi so_e] in *.
  assert (HP : forall psi, potential D psi -> (prescribed abc D p psi <-> held m v psi)).
  { intros psi Lp. rewrite (held_iff rule1 rule0 rule2 abc m Cs). fold D. unfold prescribed, has_potentials. split.
    - intros H. split; [exact Lp|]. intros c k I B Mx. apply (H (p_attr c) (v (p_attr c)) k); [apply (cp_dir _ _ _ _ Cp); eauto|exact B|].
      intros t' v' I' B'. apply (cp_dir _ _ _ _ Cp) in I' as ((c' & I' & <-) & _). exact (Mx c' I' B').
    - intros (_ & H) t x k I B Mx. apply (cp_dir _ _ _ _ Cp) in I as ((c & I & <-) & ->). apply (H c k I B).
      intros c' I' B'. apply (Mx (p_attr c') (v (p_attr c')) ); [apply (cp_dir _ _ _ _ Cp); eauto|exact B']. }
  assert (En : forall psi, energy abc D p sigma psi = / 2 * work abc D p psi psi).
  { intros psi. unfold energy. rewrite (no_source abc D p sigma psi Sd (cp_neu _ _ _ _ Cp)). ring. }
  exists s0, s, (/ 2 * work abc D p (s_phi s) (s_phi s)). split; [exact E0|]. split; [exact Es|]. split; [now apply HP|].
  split; [exact (work_energy rule1 rule0 rule2 Ru abc m Cs ignore v p eps (s_phi s) Cp He Eo L)|].
  split.
  { rewrite <- Ep. apply (energy_work abc D dbg m W Rm ignore v s Eo Sq); rewrite Ep; assumption. }
  split.
  - intros psi W' Hpsi Npsi FE.
    assert (Lp : potential D psi) by (apply (nodal_length rule1 rule0 rule2 abc m Cs); exact (proj1 Hpsi)).
    rewrite (energy_unique rule1 rule0 rule2 abc m Cs eps psi W' _ Lp FE (work_energy rule1 rule0 rule2 Ru abc m Cs ignore v p eps psi Cp He Eo Lp)).
    fold D. rewrite <- !En. apply Mi; [exact Lp|now apply HP|exact Npsi].
  - intros e g pt I Sl. rewrite (slope_unique rule1 rule0 rule2 (mo_mesh m) Tr e (s_phi s) g I L Sl). cbn [fst snd].
    change (s_e s) with (so_e (getSolution s)). unfold is_minus_gradient in Ee. rewrite Ee. exact (nd_minus_grad rule1 rule0 rule2 (mo_mesh m) Tr e pt (s_phi s) I L).
Qed.

(** The same for any Driver of order 1 on triangles: what C57-C64 assume holds. *)
Lemma triangle_facts rule1 rule0 rule2 abc dbg (m : model R) o (d : driver R) conds : triangle_driver rule1 rule0 rule2 abc dbg m o d conds ->
  let disc := linear_elements rule1 rule0 rule2 in let D := disc (mo_mesh m) (o_order o) in
  galerkin_driver abc disc dbg m o d conds /\ constants_ok D /\ connected_mesh abc D m /\ same_quadrature D.
Proof.
  intros [Ru Cs Or B O] disc D. pose proof (proj1 (cs_mesh _ _ Cs)) as Tr. split; [|split; [|split]].
  - constructor; [exact (cross_section_posed rule1 rule0 rule2 Ru abc m Cs)|exact (cross_section_regular rule1 rule0 rule2 Ru abc m Cs)|exact B|exact O].
  - exact (first_order_constants rule1 rule0 rule2 Ru (mo_mesh m) Tr).
  - exact (cross_section_connected rule1 rule0 rule2 Ru abc m Cs).
  - exact (first_order_quadrature rule1 rule0 rule2 Ru (mo_mesh m) Tr).
Qed.

Lemma kite_td er (P : 0 < er) abc dbg d : built dbg (galerkin abc (kite_disc distance)) (kite_model er) kite_options d ->
  triangle_driver segment_rule one_point_rule three_point_rule abc dbg (kite_model er) kite_options d toy_conds.
Proof. intros B. constructor; [exact kite_rules|exact (kite_section _ er P)|reflexivity|exact B|apply toy_order]. Qed.
Lemma kite_inverse (g : matrix R) a : square 2 g -> ent g 1 1 = a -> a <> 0 -> exists L, invert (getCFromGeneralizedC g Closed) = Ok L.
Proof.
  intros (S1 & S2) Ea Na. destruct (LinAlg.injective_invert (getCFromGeneralizedC g Closed)) as [L E]; [| |eauto].
  - unfold getCFromGeneralizedC. cbn [nr nc]. congruence.
  - intros z Hz k Lk. change (nr (getCFromGeneralizedC g Closed)) with (nr g - 1)%nat in *.
    assert (k = 0%nat) as -> by lia. specialize (Hz 0%nat ltac:(lia)). unfold apply_row in Hz. change (nr (getCFromGeneralizedC g Closed)) with (nr g - 1)%nat in Hz.
    replace (nr g - 1)%nat with 1%nat in Hz by lia. unfold Sum, Rsum in Hz. cbn in Hz. rewrite Ea in Hz.
    assert (Z : a * z 0%nat = 0) by lra. apply Rmult_integral in Z as [Z|Z]; [contradiction|exact Z].
Qed.
Lemma kite_pul abc er (P : 0 < er) dbg moment : exists d p C w w',
  built dbg (galerkin abc (kite_disc distance)) (kite_model er) kite_options d /\
  reply dbg (galerkin abc (kite_disc distance)) moment CallPUL d = (Ok (VPul p), w) /\
  reply dbg (galerkin abc (kite_disc distance)) moment CallC d = (Ok (VMatrix C), w') /\
  square 1 C /\ ent C 0 0 = - (27 / 83) * er /\
  square 1 (pul_C p) /\ ent (pul_C p) 0 0 = - (27 / 83) * er * eps0.
Proof.
  destruct (kite_driver abc er P dbg) as (d & B).
  destruct (kite_g abc er P dbg moment false d B) as (ge & we & Ee & Se & _ & _ & _ & Ge).
  destruct (kite_g abc er P dbg moment true d B) as (gm & wm & Em & Sm & _ & _ & _ & Gm).
  assert (Eo : determineOpenness dbg (dr_model d) = Ok Closed).
  { pose proof (D_model dbg (galerkin abc (kite_disc distance)) moment Rmul0 (kite_model er) kite_options d [] (kite_posed abc er P) B) as E. cbn in E. rewrite E. destruct dbg; reflexivity. }
  pose proof (reply_C _ _ _ _ _ _ _ Ee Eo) as EC. pose proof (reply_L _ _ _ _ _ _ _ Em Eo) as EL.
  destruct (kite_inverse gm _ Sm Gm ltac:(cbn; lra)) as (L & Ei). rewrite Ei in EL. cbn [bind] in EL.
  destruct (C28_units dbg (galerkin abc (kite_disc distance)) moment (kite_model er) kite_options d [] _ L we wm (kite_posed abc er P) B EC EL) as (p & w & E & A1 & A2 & _ & _ & A5).
  exists d, p, (getCFromGeneralizedC ge Closed), w, we. split; [exact B|]. split; [exact E|]. split; [exact EC|]. destruct Se as (S1 & S2).
  split; [unfold square, getCFromGeneralizedC; cbn [nr nc]; rewrite S1, S2; auto|]. split; [exact Ge|].
  split; [unfold square; rewrite A1, A2; unfold getCFromGeneralizedC; cbn [nr nc]; rewrite S1, S2; auto|].
  rewrite (proj1 (A5 0%nat 0%nat)). change (ent (getCFromGeneralizedC ge Closed) 0 0) with (ent ge 1 1). rewrite Ge. ring.
Qed.
Lemma eps0_pos : 0 < eps0.
Proof. unfold eps0. pose proof (pow_lt 10 12 ltac:(lra)). apply Rmult_lt_0_compat; try (now apply Rinv_0_lt_compat); lra. Qed.

(** ** C59 *)
(** In a closed cross section adding the same potential to all conductors changes neither E nor D ... *)
Theorem C59_only_differences_matter_on_triangles :
  forall rule1 rule0 rule2 (abc : R * R -> R) (dbg : bool) (m : model R) (ignore : bool) (c : R) (v : Z -> R) (x y : solution R),
    let D := first_order rule1 rule0 rule2 distance (mo_mesh m) in
    rules_ok rule1 rule0 rule2 -> cross_section abc m -> openBoundaries (mo_mats m) = [] ->
    model_fields abc D dbg m ignore v x -> model_fields abc D dbg m ignore (fun t => v t + c) y ->
    so_phi y = map (fun a => a + c) (so_phi x) /\ so_e y = so_e x /\ so_d y = so_d x.
Proof.
  intros rule1 rule0 rule2 abc dbg m ignore c v x y D Ru Cs Eo Hx Hy.
  exact (C59_only_differences_matter abc D dbg m ignore c v x y (cross_section_posed rule1 rule0 rule2 Ru abc m Cs) (cross_section_regular rule1 rule0 rule2 Ru abc m Cs)
           (first_order_constants rule1 rule0 rule2 Ru (mo_mesh m) (proj1 (cs_mesh _ _ Cs))) Eo Hx Hy).
Qed.
(** ... and the entries of the generalized matrix add up to zero, but not those of each row: *)
Theorem C59_entries_add_up_to_zero_on_triangles :
  forall rule1 rule0 rule2 (abc : R * R -> R) (dbg : bool) moment (m : model R) (o : driver_options) (d : driver R) (ops : list dop)
         (conds : list (pec R)) (ignore : bool) (g : matrix R) w,
    let femlib := galerkin abc (linear_elements rule1 rule0 rule2) in
    triangle_driver rule1 rule0 rule2 abc dbg m o d conds -> determineOpenness dbg m = Ok Closed ->
    reply dbg femlib moment (CallGeneralizedC ignore) (after dbg femlib moment ops d) = (Ok (VMatrix g), w) -> total g = 0.
Proof.
  intros rule1 rule0 rule2 abc dbg moment m o d ops conds ignore g w femlib Td Cl E. destruct (triangle_facts _ _ _ _ _ _ _ _ _ Td) as (G & Co & _ & _).
  exact (C59_entries_add_up_to_zero abc _ dbg moment m o d ops conds ignore g w G Co Cl E).
Qed.
Theorem C59_rows_add_up_to_zero_refuted :
  ~ (forall rule1 rule0 rule2 (abc : R * R -> R) (dbg : bool) moment (m : model R) (o : driver_options) (d : driver R)
            (conds : list (pec R)) (ignore : bool) (g : matrix R) w,
       triangle_driver rule1 rule0 rule2 abc dbg m o d conds -> determineOpenness dbg m = Ok Closed ->
       reply dbg (galerkin abc (linear_elements rule1 rule0 rule2)) moment (CallGeneralizedC ignore) d = (Ok (VMatrix g), w) ->
       forall i, (i < List.length conds)%nat -> Sum (List.length conds) (fun k => ent g i k) = 0).
Proof.
  assert (Ok_inj : forall a b : R, Ok a = Ok b -> a = b) by (clear; intros a b E; now injection E).
  intros H. set (moment := fun (_ : R * R) (_ _ : nat) (_ : R * R) => 0). assert (P1 : 0 < 1) by lra.
  destruct (kite_driver (fun _ => 1) 1 P1 true) as (d & B). destruct (kite_g (fun _ => 1) 1 P1 true moment false d B) as (g & w & E & _ & G0 & G1 & _).
  specialize (H segment_rule one_point_rule three_point_rule (fun _ => 1) true moment (kite_model 1) kite_options d toy_conds false g w).
  pose proof (kite_td 1 P1 (fun _ => 1) true d B) as Td.
  specialize (H Td eq_refl E 0%nat ltac:(cbn; lia)). cbn in H. rewrite G0, G1 in H. lra.
Qed.

(** ** C60 *)
(** In a closed cross section filled with a homogeneous medium L C = mu0 eps0 er. *)
Theorem C60_LC_product_on_triangles :
  forall rule1 rule0 rule2 (abc : R * R -> R) (dbg : bool) moment (m : model R) (o : driver_options) (d : driver R) (ops : list dop)
         (conds : list (pec R)) (er : R) (p : pul R) w (n : nat),
    let femlib := galerkin abc (linear_elements rule1 rule0 rule2) in
    triangle_driver rule1 rule0 rule2 abc dbg m o d conds -> determineOpenness dbg m = Ok Closed ->
    filled m er -> List.length conds = S n ->
    reply dbg femlib moment CallPUL (after dbg femlib moment ops d) = (Ok (VPul p), w) ->
    square n (pul_L p) /\ square n (pul_C p) /\
    product_is n (pul_L p) (pul_C p) (mu0 * eps0 * er) /\ product_is n (pul_C p) (pul_L p) (mu0 * eps0 * er).
Proof.
  intros rule1 rule0 rule2 abc dbg moment m o d ops conds er p w n femlib Td Cl (P & H1 & H2) Ln E. destruct (triangle_facts _ _ _ _ _ _ _ _ _ Td) as (G & _).
  refine (C60_LC_product abc _ dbg moment m o d ops conds er p w n G Cl _ Ln E).
  split; [exact P|]. split; [exact H1|]. split; intros q I.
  - cbn [linear_elements di_grad first_order] in I. apply in_flat_map in I as (e & Ie & J). unfold grad_points in J. apply in_map_iff in J as (pw & <- & _). exact (H2 e Ie).
  - cbn [linear_elements di_mix first_order] in I. apply in_flat_map in I as (e & Ie & J). unfold mix_points in J. apply in_map_iff in J as (pw & <- & _). exact (H2 e Ie).
Qed.

(** ** C61, C63, C64 *)
(** The charges computed from the flux of D do not satisfy Gauss's law: on a quadrilateral of two
    triangles getPULMTL returns a negative capacitance, ... *)
Theorem C61_PUL_parameters_are_positive_definite_refuted :
  ~ (forall rule1 rule0 rule2 (abc : R * R -> R) (dbg : bool) moment (m : model R) (o : driver_options) (d : driver R)
            (conds : list (pec R)) (p : pul R) w,
       triangle_driver rule1 rule0 rule2 abc dbg m o d conds -> determineOpenness dbg m = Ok Closed ->
       reply dbg (galerkin abc (linear_elements rule1 rule0 rule2)) moment CallPUL d = (Ok (VPul p), w) ->
       positive_definite (pul_C p)).
Proof.
  assert (Ok_inj : forall a b : R, Ok a = Ok b -> a = b) by (clear; intros a b E; now injection E).
  intros H. set (moment := fun (_ : R * R) (_ _ : nat) (_ : R * R) => 0). assert (P1 : 0 < 1) by lra.
  destruct (kite_pul (fun _ => 1) 1 P1 true moment) as (d & p & C & w & w' & B & E & _ & _ & _ & Sq & Neg).
  specialize (H segment_rule one_point_rule three_point_rule (fun _ => 1) true moment (kite_model 1) kite_options d toy_conds p w (kite_td 1 P1 _ true d B) eq_refl E (fun _ => 1)).
  destruct Sq as (S1 & S2).
  assert (Q : quad (pul_C p) (fun _ => 1) = ent (pul_C p) 0 0) by (unfold quad, charge; rewrite S1, S2; unfold Sum, Rsum; cbn; ring).
  rewrite Q, Neg in H. pose proof eps0_pos. assert (0 < - (27 / 83) * 1 * eps0); [|lra]. apply H. exists 0%nat. rewrite S1. split; [lia|lra].
Qed.
Theorem C61_generalized_matrix_is_positive_refuted :
  ~ (forall rule1 rule0 rule2 (abc : R * R -> R) (dbg : bool) moment (m : model R) (o : driver_options) (d : driver R)
            (conds : list (pec R)) (ignore : bool) (g : matrix R) w,
       triangle_driver rule1 rule0 rule2 abc dbg m o d conds ->
       reply dbg (galerkin abc (linear_elements rule1 rule0 rule2)) moment (CallGeneralizedC ignore) d = (Ok (VMatrix g), w) ->
       positive_for_differences g).
Proof.
  intros H. set (moment := fun (_ : R * R) (_ _ : nat) (_ : R * R) => 0). assert (P1 : 0 < 1) by lra.
  destruct (kite_driver (fun _ => 1) 1 P1 true) as (d & B). destruct (kite_g (fun _ => 1) 1 P1 true moment false d B) as (g & w & E & (S1 & S2) & G00 & G01 & G10 & G11).
  specialize (H segment_rule one_point_rule three_point_rule (fun _ => 1) true moment (kite_model 1) kite_options d toy_conds false g w (kite_td 1 P1 _ true d B) E
                (fun i => match i with 1%nat => 1 | _ => 0 end)).
  unfold quad, charge in H. rewrite S1, S2 in H. unfold Sum, Rsum in H. cbn in H. rewrite G00, G01, G10, G11 in H.
  assert (0 < - (27 / 83) * 1); [|lra]. eapply Rlt_le_trans; [apply H|right; ring]. exists 1%nat. split; [lia|lra].
Qed.
(** ... although the energy of the field is positive, so that the energy is not that of the matrix. *)
Theorem C63_energy_of_the_fields_refuted :
  ~ (forall rule1 rule0 rule2 (abc : R * R -> R) (dbg : bool) moment (m : model R) (o : driver_options) (d : driver R)
            (conds : list (pec R)) (n : nat) (C : matrix R) w (V : nat -> R) (v : Z -> R) (p : solver_inputs R) (s0 s : solver R),
       let F := discretize abc (first_order rule1 rule0 rule2 distance (mo_mesh m)) in
       triangle_driver rule1 rule0 rule2 abc dbg m o d conds -> determineOpenness dbg m = Ok Closed -> List.length conds = S n ->
       reply dbg (galerkin abc (linear_elements rule1 rule0 rule2)) moment CallC d = (Ok (VMatrix C), w) ->
       potentials_by_number conds V v -> conductor_problem (mo_mats m) false v p ->
       mkSolver F dbg p = Ok s0 -> Solve F s0 = Ok s ->
       getTotalEnergy F s = Ok (/ 2 * Sum n (fun i => Sum n (fun j => (V (S i) - V 0%nat) * ent C i j * (V (S j) - V 0%nat))))).
Proof.
  assert (Ok_inj : forall a b : R, Ok a = Ok b -> a = b) by (clear; intros a b E; now injection E).
  intros H. set (moment := fun (_ : R * R) (_ _ : nat) (_ : R * R) => 0). assert (P1 : 0 < 1) by lra.
  destruct (kite_pul (fun _ => 1) 1 P1 true moment) as (d & pp & C & w & w' & B & _ & E & SC & EC & _).
  set (v := fun t : Z => if (t =? 2)%Z then 1 else 0). set (V := fun i => match i with 1%nat => 1 | _ => 0 end : R).
  pose proof (kite_posed (fun _ => 1) 1 P1) as Wp. pose proof (kite_regular (fun _ => 1) 1 P1) as Rm.
  destruct (problem_exists (fun _ => 1) (kite_disc distance kite_mesh 1) (kite_model 1) Wp false v) as (p & Cp).
  destruct (C69_piecewise_linear_potential_of_least_energy segment_rule one_point_rule three_point_rule (fun _ => 1) true (kite_model 1) false v p (fun _ => 1)
              kite_rules (kite_section _ 1 P1) eq_refl Cp) as (s0 & s & W & E0 & Es & _ & (g & _ & EW) & Et & _).
  { split; [|reflexivity]. intros t er (l1 & q & l2 & El & _ & _ & ->). cbn in El. destruct l1 as [|? [|? l1]]; cbn in El; try discriminate. injection El as <- _. reflexivity. }
  specialize (H segment_rule one_point_rule three_point_rule (fun _ => 1) true moment (kite_model 1) kite_options d toy_conds 1%nat C w' V v p s0 s
               (kite_td 1 P1 _ true d B) eq_refl eq_refl E).
  assert (Pn : potentials_by_number toy_conds V v).
  { intros [|[|i]] q Eq; cbn in Eq; try discriminate; [injection Eq as <-; reflexivity|injection Eq as <-; reflexivity|destruct i; discriminate]. }
  specialize (H Pn Cp E0 Es). rewrite Et in H. apply Ok_inj in H. unfold V in H. rewrite H in EW. unfold Sum, Rsum in EW.
  cbn [m_elems mo_mesh kite_model kite_mesh fold_right map seq] in EW. cbn in EW. rewrite EC in EW.
  destruct (g {| e_attr := 3; e_verts := [0%Z; 1%Z; 2%Z]; e_vol := 1 |}) as (a & b). destruct (g {| e_attr := 3; e_verts := [0%Z; 2%Z; 3%Z]; e_vol := 1 |}) as (a' & b').
  cbn in EW. pose proof (Rle_0_sqr a). pose proof (Rle_0_sqr b). pose proof (Rle_0_sqr a'). pose proof (Rle_0_sqr b'). unfold Rsqr in *. lra.
Qed.
(** On a hexagon of four triangles the charge on conductor 2 at 1 V on conductor 3 differs from the
    charge on 3 at 1 V on 2; getCMatrix averages them and gives neither charge. *)
Theorem C64_charges_of_closed_problems_refuted :
  ~ (forall rule1 rule0 rule2 (abc : R * R -> R) (dbg : bool) moment (m : model R) (o : driver_options) (d : driver R)
            (conds : list (pec R)) (n : nat) (C : matrix R) w (V : nat -> R) (v : Z -> R) (x : solution R) (i : nat) (p : pec R),
       let D := first_order rule1 rule0 rule2 distance (mo_mesh m) in
       triangle_driver rule1 rule0 rule2 abc dbg m o d conds -> determineOpenness dbg m = Ok Closed -> List.length conds = S n ->
       reply dbg (galerkin abc (linear_elements rule1 rule0 rule2)) moment CallC d = (Ok (VMatrix C), w) ->
       potentials_by_number conds V v -> model_fields abc D dbg m false v x ->
       (i < n)%nat -> nth_error conds (S i) = Some p ->
       charge_on (discretize abc D) x (p_attr p) (Sum n (fun j => ent C i j * (V (S j) - V 0%nat)))).
Proof.
  intros H. set (moment := fun (_ : R * R) (_ _ : nat) (_ : R * R) => 0).
  destruct (hex_driver (fun _ => 1) true) as (d & B). destruct (hex_g (fun _ => 1) true moment d B) as (g & w & E & (S1 & S2) & G12).
  pose proof (hex_posed (fun _ => 1)) as Wp. pose proof (hex_regular (fun _ => 1)) as Rm.
  set (v := fun t : Z => if (t =? 3)%Z then 1 else 0). set (V := fun i => match i with 2%nat => 1 | _ => 0 end : R).
  destruct (problem_exists (fun _ => 1) (kite_disc distance hex_mesh 1) hex_model Wp false v) as (p & Cp).
  destruct (model_problem _ _ hex_model Wp Rm false v p Cp) as (Hp & An).
  destruct (computes_exists (fun _ => 1) (kite_disc distance hex_mesh 1) (rm_tables _ _ _ Rm) true p Hp) as (x & Cx).
  assert (Eo : determineOpenness true (dr_model d) = Ok Closed).
  { pose proof (D_model true (galerkin (fun _ => 1) (kite_disc distance)) moment Rmul0 hex_model kite_options d [] Wp B) as Em. cbn in Em. rewrite Em. reflexivity. }
  pose proof (reply_C _ _ _ _ _ _ _ E Eo) as EC.
  assert (Td : triangle_driver segment_rule one_point_rule three_point_rule (fun _ => 1) true hex_model kite_options d hex_conds).
  { constructor; [exact kite_rules|apply hex_section|reflexivity|exact B|apply hex_order]. }
  assert (Pn : potentials_by_number hex_conds V v).
  { intros [|[|[|i]]] q Eq; cbn in Eq; try discriminate; try (injection Eq as <-; reflexivity). destruct i; discriminate. }
  assert (Mf : model_fields (fun _ => 1) (kite_disc distance hex_mesh 1) true hex_model false v x) by (exists p; split; assumption).
  specialize (H segment_rule one_point_rule three_point_rule (fun _ => 1) true moment hex_model kite_options d hex_conds 2%nat _ w V v x 0%nat
                {| p_name := "Conductor_1"; p_attr := 2; p_area := 1 |} Td eq_refl eq_refl EC Pn Mf ltac:(lia) eq_refl).
  destruct (hex_charge (fun _ => 1) true v p x _ _ _ Cp Cx (chargeF _ _ x 1) H (chargeF _ _ x 3)) as (_ & Q & _).
  unfold Sum, Rsum, V, v in Q. cbn in Q. rewrite G12 in Q. lra.
Qed.

(** The hypotheses hold on the quadrilateral and the hexagon. *)
Example C69_example : forall (abc : R * R -> R) (er : R) (v : Z -> R), 0 < er ->
  rules_ok (segment_rule (T:=R)) one_point_rule three_point_rule /\ cross_section abc (kite_model er) /\ cross_section abc hex_model /\
  exists p, conductor_problem (mo_mats hex_model) false v p /\ relative_permittivity (mo_mats hex_model) false (fun _ => 1).
Proof.
  intros abc er v P. split; [exact kite_rules|]. split; [exact (kite_section abc er P)|]. split; [exact (hex_section abc)|].
  destruct (problem_exists abc (kite_disc distance hex_mesh 1) hex_model (hex_posed abc) false v) as (p & Cp). exists p. split; [exact Cp|].
  split; [|reflexivity]. intros t e (l1 & q & l2 & El & _ & _ & ->). cbn in El. destruct l1 as [|? [|? l1]]; cbn in El; try discriminate. injection El as <- _. reflexivity.
Qed.
Example C59_triangles_example : forall abc dbg er, 0 < er -> exists d,
  triangle_driver segment_rule one_point_rule three_point_rule abc dbg (kite_model er) kite_options d toy_conds /\ filled (kite_model er) er.
Proof.
  intros abc dbg er P. destruct (kite_driver abc er P dbg) as (d & B). exists d. split; [exact (kite_td er P abc dbg d B)|].
  split; [exact P|]. split; [intros q [<-|[]]; reflexivity|]. intros e [<-|[<-|[]]]; cbn; auto.
Qed.
(** The quadrilateral, computed: the capacitance matrices returned by the Driver. *)
Example C61_negative_capacitance_example :
  let len := fun p q : Q * Q => if Qeq_bool (fst p) 0 then 1%Q else 5%Q in
  let femlib := fun ms k => discretize (fun _ => 1%Q) (kite_disc len ms k) in
  match mkDriver true femlib (kite_model 1%Q) kite_options tt with
  | (Ok d, _, _) =>
      match fst (reply true femlib (fun _ _ _ _ => 0%Q) (CallGeneralizedC false) d), fst (reply true femlib (fun _ _ _ _ => 0%Q) CallC d) with
      | Ok (VMatrix g), Ok (VMatrix c) =>
          Some (map (fun ij => Qred (ent g (fst ij) (snd ij))) [(0, 0); (0, 1); (1, 0); (1, 1)]%nat, (nr c, nc c, Qred (ent c 0 0)))
      | _, _ => None
      end
  | _ => None
  end = Some ([287 # 83; -130 # 83; -130 # 83; -27 # 83]%Q, (1%nat, 1%nat, -27 # 83)).
Proof. vm_compute. reflexivity. Qed.

Print Assumptions C69_piecewise_linear_potential_of_least_energy.
Print Assumptions C59_only_differences_matter_on_triangles.
Print Assumptions C59_entries_add_up_to_zero_on_triangles.
Print Assumptions C59_rows_add_up_to_zero_refuted.
Print Assumptions C60_LC_product_on_triangles.
Print Assumptions C61_PUL_parameters_are_positive_definite_refuted.
Print Assumptions C61_generalized_matrix_is_positive_refuted.
Print Assumptions C63_energy_of_the_fields_refuted.
Print Assumptions C64_charges_of_closed_problems_refuted.
