(** The energy reported under PCG (C77). *)
From Coq Require Import Reals Lra Lia.
From Verif Require Import Prelude StdMap Matrix Solver Fem Iterative RSum LinAlg ListLemmas SpecSolver SpecDriver SpecCharge SpecField SpecFem SpecIter
  SolverProofs ChargeProofs FieldProofs FemProofs FemCalls FemFacts FemLaws PcgProofs IterProofs IterCalls IterFlux.
Open Scope R_scope.
Open Scope list_scope.
Local Opaque pcg iterated_phi reiterated_phi iterated_d.

Section Energy.
  Variable abc : R * R -> R.
  Variable D : discretization R.
  Hypothesis OK : tables_ok D.
  Notation F := (discretize abc D).
  Variable dbg : bool.
  Variable p : solver_inputs R.
  Hypothesis Hp : problem_ok abc D p.
  Hypothesis An : anchored abc D p.
  Hypothesis Sq : same_quadrature D.
  Hypothesis Closed : si_open p = [].
  Hypothesis Neutral : si_neumann p = [].
  Lemma reported s : s_params s = p -> potential D (s_phi s) -> s_e s = field_of D (s_phi s) ->
    getTotalEnergy F s = Ok (/ 2 * work abc D p (s_phi s) (s_phi s)).
  Proof.
    intros Ep Lp Ee. destruct Sq as [Ty Q]. change (energy_tags_ok F) in Ty.
    rewrite (energy_formula F s); [|rewrite Ep; apply msorted_nodup, (po_sorted _ _ _ Hp)|rewrite Ep; exact (io_eps F _ (po_inputs _ _ _ Hp))|exact Ty].
    f_equal. unfold energy_spec. f_equal. unfold work, open_points. rewrite Closed.
    assert (Op : filter (fun q => zmem (b_attr q) []) (di_abc D) = []) by (clear; induction (di_abc D); cbn; auto).
    rewrite Op, Rsum_nil, Rplus_0_r, Ep, Ee. change (fe_energy F) with (di_energy D).
    refine (eq_trans _ (Q (s_phi s) (eps_of (si_eps p)) Lp)). apply Rsum_ext. intros y _. unfold field_of. cbn zeta. ring.
  Qed.
  Lemma no_source sigma psi : surface_density abc D p sigma -> source D sigma psi = 0.
  Proof.
    intros (L & H). unfold source. apply Rsum_zero. intros q _. rewrite (dot_sum _ sigma _ L), Sum_zero; [ring|].
    intros k Lk. destruct (H k Lk) as [(t & I & _) | (E & _)]; [rewrite Neutral in I; destruct I|]. change (nth k sigma 0 = 0) in E. rewrite E. ring.
  Qed.
  Lemma params_kept (G : fem R) s0 s : mkSolver G dbg p = Ok s0 -> Solve G s0 = Ok s -> s_params s = p.
  Proof.
    intros E0 Es. transitivity (s_params s0).
    - clear -Es. unfold Solve in Es. apply bind_ok in Es as (phi0 & _ & Es). apply bind_ok in Es as (ess & _ & Es). apply Ok_inj' in Es. subst s. reflexivity.
    - clear -E0. unfold mkSolver in E0. apply bind_ok in E0 as (? & _ & E0). apply bind_ok in E0 as (? & _ & E0).
      apply bind_ok in E0 as (? & _ & E0). apply bind_ok in E0 as (? & _ & E0). apply Ok_inj' in E0. subst s0. reflexivity.
  Qed.
  Lemma energies s0 sx s1 sy a b : mkSolver F dbg p = Ok s0 -> Solve F s0 = Ok sx ->
    mkSolver (discretize_pcg abc D) dbg p = Ok s1 -> Solve (discretize_pcg abc D) s1 = Ok sy ->
    getTotalEnergy F sx = Ok a -> getTotalEnergy (discretize_pcg abc D) sy = Ok b ->
    computes abc D dbg p (getSolution sx) /\ iterates abc D dbg p (getSolution sy) /\
    b = a + / 2 * work abc D p (minus (s_phi sx) (s_phi sy)) (minus (s_phi sx) (s_phi sy)).
  Proof.
    intros E0 Ex E1 Ey Ea Eb. change (getTotalEnergy (discretize_pcg abc D) sy) with (getTotalEnergy F sy) in Eb.
    assert (Cx : computes abc D dbg p (getSolution sx)) by (exists s0; split; [exact E0|]; unfold solved_fields; now rewrite Ex).
    assert (Iy : iterates abc D dbg p (getSolution sy)) by (exists s1; split; [exact E1|]; unfold solved_fields; now rewrite Ey).
    split; [exact Cx|]. split; [exact Iy|].
    destruct (difference_of_potentials abc D OK dbg p Hp An _ _ Cx Iy) as (Lx & Ly & _).
    pose proof (e_of_phi abc D OK dbg p _ Hp Cx) as Gx. pose proof (y_gradient abc D OK dbg p Hp _ Iy) as Gy.
    rewrite (reported sx (params_kept F s0 sx E0 Ex) Lx Gx) in Ea. rewrite (reported sy (params_kept _ s1 sy E1 Ey) Ly Gy) in Eb.
    apply Ok_inj' in Ea. apply Ok_inj' in Eb. subst a b.
    destruct (iterates_inv abc D OK dbg p Hp _ Iy) as (s & ess & phi0 & Es & So & Ep & _ & _).
    pose proof (computes_xs abc D OK dbg p Hp An s ess phi0 So _ Cx) as Exs.
    destruct (y_facts abc D OK dbg p Hp An s ess phi0 So) as (Ly' & Ey' & _). rewrite <- Ep in Ly', Ey'.
    pose proof (energy_gap abc D OK dbg p Hp An s ess phi0 So _ Ly' Ey') as Gap. rewrite <- Exs in Gap.
    unfold energy in Gap. rewrite !(no_source (s_sigma s)) in Gap by exact (sf_sigma _ _ _ _ _ _ _ So).
    change (so_phi (getSolution sx)) with (s_phi sx) in *. change (so_phi (getSolution sy)) with (s_phi sy) in *.
    rewrite (minus_diff D) by exact Lx. lra.
  Qed.
End Energy.
