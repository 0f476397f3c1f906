(** Property C71: with first order elements on triangles the displacement field is the conservative
    field nearest to eps E, and the charges are its fluxes out of the conductors. *)
From Coq Require Import Reals Lra Relations Permutation.
From Verif Require Import Prelude StdMap Materials Graph ModelM Parser Matrix Multipole Solver Fem Domain Results Driver RSum ListLemmas SpecGraph SpecInput SpecModel SpecSolver SpecDriver SpecMatrix SpecCharge SpecField SpecFem
  SpecTriangles SpecDrawing SpecFlux Triangles SolverProofs ChargeProofs FemProofs FemCalls FemFacts FemModel FemLaws FemMatrix FemMore TriProofs TriModel DrawLocal FluxProofs Toy Kite Hexagon Iso PropsTriangles PropsDrawing.
Open Scope R_scope.
Open Scope list_scope.

(** A new solver with the potentials [v] on the conductors has a displacement field [U] that is
    conservative and, of all conservative fields, strictly the nearest to eps E in the mean square
    (E = - grad phi, constant in each triangle); the charge it reports for a boundary is the flux
    of [U] that enters the domain through it. *)
Theorem C71_charges_are_fluxes_of_the_nearest_conservative_field :
  forall rule1 rule0 rule2 (abc : R * R -> R) (dbg : bool) (m : model R) (ignore : bool) (v : Z -> R) (p : solver_inputs R) (eps : Z -> R),
    rules_ok rule1 rule0 rule2 -> exact_for_quadratics rule2 -> cross_section abc m ->
    conductor_problem (mo_mats m) ignore v p -> relative_permittivity (mo_mats m) ignore eps ->
    let F := discretize abc (first_order rule1 rule0 rule2 distance (mo_mesh m)) in
    exists s0 s U, mkSolver F dbg p = Ok s0 /\ Solve F s0 = Ok s /\
      conservative_flux (mo_mesh m) U /\
      (forall u V, minus_slope (mo_mesh m) (s_phi s) u -> conservative_flux (mo_mesh m) V ->
         (exists e, In e (m_elems (mo_mesh m)) /\ V e <> U e) ->
         total_misfit (mo_mesh m) eps u U < total_misfit (mo_mesh m) eps u V) /\
      forall t, flux_from (mo_mesh m) U t (getChargeInBoundary F s t).
Proof.
  intros rule1 rule0 rule2 abc dbg m ignore v p eps Ru Ex Cs Cp He F.
  set (D := first_order rule1 rule0 rule2 distance (mo_mesh m)) in *.
  pose proof (cross_section_posed rule1 rule0 rule2 Ru abc m Cs) as W. pose proof (cross_section_regular rule1 rule0 rule2 Ru abc m Cs) as Rm. fold D in W, Rm.
  pose proof (proj1 (cs_mesh _ _ Cs)) as Tr.
  destruct (model_problem abc D m W Rm ignore v p Cp) as (Hp & An).
  destruct (computes_exists abc D (rm_tables _ _ _ Rm) dbg p Hp) as (x & Cx). pose proof Cx as (s0 & E0 & Ex').
  unfold solved_fields in Ex'. apply bind_ok in Ex' as (s & Es & Ex').
  assert (Exs : x = getSolution s) by (now injection Ex'). subst x.
  destruct (minimal abc D (rm_tables _ _ _ Rm) dbg p _ Hp An Cx) as (sigma & _ & L & _).
  pose proof (e_of_phi abc D (rm_tables _ _ _ Rm) dbg p _ Hp Cx) as Ee.
  pose proof (proj2 (d_of_e abc D (rm_tables _ _ _ Rm) dbg p (getSolution s) _ Hp Cx) eq_refl) as Pd. unfold is_minus_gradient in Ee. rewrite Ee in Pd.
  cbn [getSolution so_phi so_e so_d] in *. change (so_phi (getSolution s)) with (s_phi s) in *. change (so_d (getSolution s)) with (s_d s) in *.
  exists s0, s, (field_of (mo_mesh m) (s_d s)). split; [exact E0|]. split; [exact Es|]. split; [exact (field_of_conservative (mo_mesh m) Tr (s_d s))|]. split.
  - intros u V Hu Cv Nv. exact (nearest rule1 rule0 rule2 Ru Ex (mo_mesh m) Tr p (s_phi s) (s_d s) eps u V L Pd
      (fun e _ => eps_of_relative m ignore v p eps Cp He (e_attr e)) Hu Cv Nv).
  - intros t. exists (fun b => - fl (mo_mesh m) (s_d s) (ends b)). split.
    + intros b Ib. destruct (tr_bdr _ Tr b Ib) as (_ & a & c & e & Ev & Ie & Sd). exists a, c, e. split; [exact Ev|]. split; [exact Ie|]. split; [exact Sd|].
      rewrite (field_flux_any (mo_mesh m) Tr (s_d s) e a c Ie (or_introl Sd)). unfold ends, verts. now rewrite Ev.
    + unfold getChargeInBoundary. rewrite flux_form_Rsum. change (fe_flux F) with (di_flux D).
      rewrite Rsum_opp, ChargeProofs.Rsum_filter, <- (flux_sum rule1 rule0 rule2 Ru (mo_mesh m) Tr (s_d s) t (proj1 Pd)), <- Rsum_opp. apply Rsum_ext.
      intros q _. unfold flux_at. destruct (q_attr q =? t)%Z; cbn [nopp n0 n1 RNum]; ring.
Qed.
Print Assumptions C71_charges_are_fluxes_of_the_nearest_conservative_field.
(** The hypotheses hold on the quadrilateral of two triangles; uniform fields are conservative there,
    but not fields that jump across the side the triangles share. *)
Example C71_example : forall (abc : R * R -> R) (er : R) (v : Z -> R), 0 < er ->
  rules_ok (segment_rule (T:=R)) one_point_rule three_point_rule /\ exact_for_quadratics (three_point_rule (T:=R)) /\ cross_section abc (kite_model er) /\
  (exists p, conductor_problem (mo_mats (kite_model er)) false v p) /\
  (forall a b, conservative_flux kite_mesh (fun _ => (a, b, 0))) /\
  ~ conservative_flux kite_mesh (fun e => if (nth 1 (e_verts e) 0 =? 1)%Z then (1, 0, 0) else (0, 0, 0)).
Proof.
  intros abc er v P. split; [exact kite_rules|]. split; [exact kite_exact|]. split; [exact (kite_section abc er P)|]. split; [|split].
  - destruct (problem_exists abc (kite_disc distance kite_mesh 1) (kite_model er) (kite_posed abc er P) false v) as (p & Cp). now exists p.
  - intros a b e e' u w _ _ _ _. reflexivity.
  - intros H.
    specialize (H {| e_attr := 3; e_verts := [0%Z; 1%Z; 2%Z]; e_vol := 1 |} {| e_attr := 3; e_verts := [0%Z; 2%Z; 3%Z]; e_vol := 1 |} 0%Z 2%Z (or_introl eq_refl) (or_intror (or_introl eq_refl))).
    assert (J1 : joins {| e_attr := 3; e_verts := [0%Z; 1%Z; 2%Z]; e_vol := 1 |} 0 2) by (right; exists 0%Z, 1%Z, 2%Z; auto).
    assert (J2 : joins {| e_attr := 3; e_verts := [0%Z; 2%Z; 3%Z]; e_vol := 1 |} 0 2) by (left; exists 0%Z, 2%Z, 3%Z; auto).
    specialize (H J1 J2). unfold flux_through, value, midpoint in H. cbn in H. lra.
Qed.
