(** The same cross section, drawn elsewhere or in another unit of length (C62, C70), at any order. *)
From Coq Require Import Reals Lra Permutation.
From Verif Require Import Prelude StdMap Materials Graph ModelM Parser Matrix Solver Fem Domain Results Driver RSum LinAlg ListLemmas
  SpecSolver SpecCharge SpecModel SpecDriver SpecMatrix SpecField SpecFem SpecRedraw DriverProofs CallProofs DriverFacts MatrixProofs MatrixCalls MatrixFacts
  SolverProofs ChargeProofs FieldProofs FemProofs FemCalls FemFacts FemModel FemLaws FemDriver FemMatrix FemMore.
Open Scope R_scope.
Open Scope list_scope.

Section Redraw.
  Variable abc abc' : R * R -> R.
  Variable D D' : discretization R.
  Variable s c n : R.
  Variable f : R * R -> R * R.
  Hypothesis Rs : redrawn_spaces s c n f D D'.
  Variable dbg dbg' : bool.
  Variable m m' : model R.
  Hypothesis W : well_posed (discretize abc D) m.
  Hypothesis W' : well_posed (discretize abc' D') m'.
  Hypothesis Rm : regular_model abc D m.
  Hypothesis Rm' : regular_model abc' D' m'.
  Hypothesis Em : mo_mats m' = mo_mats m.
  Hypothesis Ab : absorbs_as_before s f abc abc' D m.

  Let Ps : 0 < s := proj1 (rw_motion _ _ _ _ _ _ Rs).
  Let Cn : c * c + n * n = 1 := proj2 (rw_motion _ _ _ _ _ _ Rs).
  Lemma carried_dot x y x' y' a : carried s c n x y x' y' ->
    dot x' a = (c * dot x a - n * dot y a) / s /\ dot y' a = (n * dot x a + c * dot y a) / s.
  Proof.
    intros H. rewrite (dot_sum x' a _ eq_refl), (dot_sum y' a _ eq_refl), (dot_sum x a _ eq_refl), (dot_sum y a _ eq_refl).
    split.
    - unfold Rdiv. rewrite <- !Sum_scal. unfold Rminus. rewrite <- (Rmult_1_l (Sum _ (fun i => n * _))), Ropp_mult_distr_l, <- Sum_scal, <- Sum_plus, <- Sum_scal_r.
      apply Sum_ext. intros k _. destruct (H k) as (-> & _). unfold Rdiv. ring.
    - unfold Rdiv. rewrite <- !Sum_scal, <- Sum_plus, <- Sum_scal_r. apply Sum_ext. intros k _. destruct (H k) as (_ & ->). unfold Rdiv. ring.
  Qed.
  Lemma carried_inner x y x' y' u v u' v' a b : carried s c n x y x' y' -> carried s c n u v u' v' ->
    s * s * (dot x' a * dot u' b + dot y' a * dot v' b) = dot x a * dot u b + dot y a * dot v b.
  Proof.
    intros H1 H2. destruct (carried_dot _ _ _ _ a H1) as (-> & ->). destruct (carried_dot _ _ _ _ b H2) as (-> & ->).
    transitivity ((c * c + n * n) * (dot x a * dot u b + dot y a * dot v b)); [field; lra|rewrite Cn; ring].
  Qed.
  Lemma redrawn_work i v p a b : conductor_problem (mo_mats m) i v p -> work abc' D' p a b = work abc D p a b.
  Proof.
    intros C. unfold work. f_equal.
    - symmetry. apply (Rsum_Forall2 _ _ _ _ _ (rw_grad _ _ _ _ _ _ Rs)). intros q q' _ (Ea & Ew & Ec).
      unfold grad2. rewrite Ea, Ew, <- (carried_inner _ _ _ _ _ _ _ _ a b Ec Ec). ring.
    - unfold open_points. rewrite !Rsum_filter. symmetry.
      apply (Rsum_Forall2 _ _ _ _ _ (rw_abc _ _ _ _ _ _ Rs)). intros q q' Iq (Ea & Ew & Eb & Ep).
      rewrite Ea, Ew, Eb, Ep. destruct (zmem (b_attr q) (si_open p)) eqn:Z; [|reflexivity].
      assert (Ha : at_open D m q).
      { split; [exact Iq|]. apply zmem_in in Z. apply (Permutation_in _ (cp_open _ _ _ _ C)) in Z. apply in_map_iff in Z as (o & Eo & Io). exists o. auto. }
      rewrite <- (Ab q Ha). ring.
  Qed.
  Lemma redrawn_projects p e d : projects D' p e d <-> projects D p e d.
  Proof.
    unfold projects. destruct (rw_sizes _ _ _ _ _ _ Rs) as (_ & _ & -> & _).
    assert (A : forall t, Rsum (di_rt D') (fun q => r_weight q * (dot (r_x q) d * dot (r_x q) t + dot (r_y q) d * dot (r_y q) t)) =
                          Rsum (di_rt D) (fun q => r_weight q * (dot (r_x q) d * dot (r_x q) t + dot (r_y q) d * dot (r_y q) t))).
    { intros t. symmetry. apply (Rsum_Forall2 _ _ _ _ _ (rw_rt _ _ _ _ _ _ Rs)). intros q q' _ (Ew & Ec).
      rewrite Ew, <- (carried_inner _ _ _ _ _ _ _ _ d t Ec Ec). ring. }
    assert (B : forall t, Rsum (di_mix D') (fun q => x_weight q * eps_of (si_eps p) (x_attr q) * (dot (x_ndx q) e * dot (x_rtx q) t + dot (x_ndy q) e * dot (x_rty q) t)) =
                          Rsum (di_mix D) (fun q => x_weight q * eps_of (si_eps p) (x_attr q) * (dot (x_ndx q) e * dot (x_rtx q) t + dot (x_ndy q) e * dot (x_rty q) t))).
    { intros t. symmetry. apply (Rsum_Forall2 _ _ _ _ _ (rw_mix _ _ _ _ _ _ Rs)). intros q q' _ (Ea & Ew & E1 & E2).
      rewrite Ea, Ew, <- (carried_inner _ _ _ _ _ _ _ _ e t E1 E2). ring. }
    split; intros (L & H); (split; [exact L|]); intros t Lt; specialize (H t Lt).
    - now rewrite A, B in H.
    - now rewrite A, B.
  Qed.
  Lemma redrawn_bdr t k : on_boundary (discretize abc' D') t k <-> on_boundary (discretize abc D) t k.
  Proof. unfold on_boundary. change (fe_bdrDofs (discretize abc' D')) with (di_bdrDofs D'). destruct (rw_sizes _ _ _ _ _ _ Rs) as (_ & _ & _ & ->). reflexivity. Qed.
  Lemma redrawn_fields ignore v x y : model_fields abc D dbg m ignore v x -> model_fields abc' D' dbg' m' ignore v y -> x = y.
  Proof.
    intros (p & Cp & Cx) (p' & Cp' & Cy).
    pose proof (rm_tables _ _ _ Rm) as OK. pose proof (rm_tables _ _ _ Rm') as OK'.
    destruct (model_problem abc D m W Rm ignore v p Cp) as (Hp & An). destruct (model_problem abc' D' m' W' Rm' ignore v p' Cp') as (Hp' & An').
    assert (Nn : si_neumann p' = []) by apply (cp_neu _ _ _ _ Cp'). rewrite Em in Cp'.
    assert (Dir : si_dirichlet p = si_dirichlet p').
    { apply msorted_in_ext; [apply Cp|apply Cp'|]. intros t z. rewrite (cp_dir _ _ _ _ Cp), (cp_dir _ _ _ _ Cp'). reflexivity. }
    assert (Eps : si_eps p = si_eps p').
    { apply msorted_in_ext; [apply Cp|apply Cp'|]. intros t z. rewrite (cp_eps _ _ _ _ Cp), (cp_eps _ _ _ _ Cp'). reflexivity. }
    assert (P : so_phi x = so_phi y).
    { destruct (minimal abc' D' OK' dbg' p' y Hp' An' Cy) as (_ & _ & Ly & Py & _).
      apply (weak_field abc D OK dbg p x _ Hp An Cx (cp_neu _ _ _ _ Cp)).
      - unfold potential in *. rewrite Ly. apply (rw_sizes _ _ _ _ _ _ Rs).
      - intros t z k I B M. apply (Py t z k); [now rewrite <- Dir|now apply redrawn_bdr|].
        intros t' z' I' B'. apply (M t' z'); [now rewrite Dir|now apply redrawn_bdr].
      - intros psi Lp Zp.
        assert (Z : work abc' D' p' (so_phi y) psi = 0).
        { apply (computed_weak abc' D' OK' dbg' p' y psi Hp' An' Cy Nn).
          - unfold potential in *. rewrite Lp. symmetry. apply (rw_sizes _ _ _ _ _ _ Rs).
          - intros t z k I B. apply (Zp t z k); [now rewrite Dir|now apply redrawn_bdr]. }
        rewrite <- Z, (redrawn_work ignore v p' _ _ Cp'). unfold work. rewrite Eps, (open_points_perm D p p'); [reflexivity|].
        eapply Permutation_trans; [exact (cp_open _ _ _ _ Cp)|]. apply Permutation_sym. exact (cp_open _ _ _ _ Cp'). }
    assert (E : so_e x = so_e y).
    { pose proof (e_of_phi abc D OK dbg p x Hp Cx) as G1. pose proof (e_of_phi abc' D' OK' dbg' p' y Hp' Cy) as G2.
      unfold is_minus_gradient in *. rewrite G1, G2, P, (rw_gradient _ _ _ _ _ _ Rs). reflexivity. }
    assert (Dd : so_d x = so_d y).
    { symmetry. apply (d_of_e abc D OK dbg p x _ Hp Cx).
      assert (Q : projects D' p' (so_e y) (so_d y)) by now apply (d_of_e abc' D' OK' dbg' p' y _ Hp' Cy).
      apply redrawn_projects in Q. unfold projects in *. now rewrite Eps, E. }
    destruct x, y; cbn in *; congruence.
  Qed.
  Lemma redrawn_charge x t q : charge_on (discretize abc D) x t q <-> charge_on (discretize abc' D') x t q.
  Proof.
    assert (G : forall z, getChargeInBoundary (discretize abc D) z t = getChargeInBoundary (discretize abc' D') z t).
    { intros z. unfold getChargeInBoundary. rewrite !flux_form_Rsum.
      change (fe_flux (discretize abc D)) with (di_flux D). change (fe_flux (discretize abc' D')) with (di_flux D').
      apply (Rsum_Forall2 _ _ _ _ _ (rw_flux _ _ _ _ _ _ Rs)). intros a b _ (-> & Eb). unfold flux_at. now rewrite Eb. }
    unfold charge_on. split; intros H z Ez; [rewrite <- G|rewrite G]; now apply H.
  Qed.
  Lemma redrawn_charges ignore v x y t q : model_fields abc D dbg m ignore v x -> model_fields abc' D' dbg' m' ignore v y ->
    charge_on (discretize abc D) x t q -> charge_on (discretize abc' D') y t q.
  Proof. intros Hx Hy. rewrite <- (redrawn_fields ignore v x y Hx Hy). apply redrawn_charge. Qed.
End Redraw.
