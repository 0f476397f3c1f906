(** Constant potentials, homogeneous media and charges of the fields of a model (C59-C63). *)
From Coq Require Import Reals Lra Permutation.
From Verif Require Import Prelude StdMap Materials ModelM Matrix Solver Fem RSum LinAlg ListLemmas SpecSolver SpecCharge SpecModel SpecDriver
  SpecField SpecFem DriverProofs SolverProofs ChargeProofs FieldProofs FemProofs FemCalls FemFacts FemModel.
Open Scope R_scope.
Open Scope list_scope.

Section Laws.
  Variable abc : R * R -> R.
  Variable D : discretization R.
  Hypothesis OK : tables_ok D.
  Notation F := (discretize abc D).
  Notation n := (di_nH1 D).
  Variable dbg : bool.

  Lemma e_of_phi p x : problem_ok abc D p -> computes abc D dbg p x -> is_minus_gradient D x.
  Proof.
    intros Hp C. destruct (computes_inv abc D OK dbg p x Hp C) as (s & ess & phi0 & _ & _ & _ & Ee & _).
    unfold is_minus_gradient. rewrite Ee. unfold solve_e. apply map_ext. intros r. cbn [nmul nopp n1 RNum]. ring.
  Qed.
  Lemma projects_iff p cf e d : inputs_ok F p -> msorted (si_eps p) -> build_eps F dbg (si_eps p) = Ok cf ->
    (projects D p e d <-> mass_solution D cf e d).
  Proof.
    intros Hi S E. unfold projects, mass_solution.
    assert (Ex : forall q, In q (di_mix D) -> coef_at cf (x_attr q) = eps_of (si_eps p) (x_attr q)).
    { intros q I. apply (eps_value abc D dbg p cf _ Hi S E). apply (to_mix D OK q I). }
    assert (Hr : forall i, hCurlHDivEps D cf e i = Rsum (di_mix D) (fun q => x_weight q * eps_of (si_eps p) (x_attr q) *
        (nth i (x_rtx q) 0 * dot (x_ndx q) e + nth i (x_rty q) 0 * dot (x_ndy q) e))).
    { intros i. unfold hCurlHDivEps. rewrite quadrature_Rsum. apply Rsum_ext. intros q I. rewrite (Ex q I). reflexivity. }
    split; intros (L & H); (split; [exact L|]).
    - intros i Li. rewrite (mass_row D d i L), Hr.
      assert (B : forall a : list R, dot a (to_list (di_nRT D) (fun k => if (k =? i)%nat then 1 else 0)) = nth i a 0).
      { intros a. rewrite (dot_sum _ _ (di_nRT D)) by apply to_list_length.
        rewrite (Sum_ext _ _ (fun k => if (k =? i)%nat then nth k a 0 else 0)).
        - now rewrite Sum_single.
        - intros k Lk. change (nth k (to_list (di_nRT D) ?f) 0) with (vec (to_list (di_nRT D) f) k). rewrite vec_to_list by exact Lk.
          destruct (k =? i)%nat; ring. }
      specialize (H (to_list (di_nRT D) (fun k => if (k =? i)%nat then 1 else 0)) (to_list_length _ _)).
      transitivity (Rsum (di_rt D) (fun q => r_weight q * (dot (r_x q) d * nth i (r_x q) 0 + dot (r_y q) d * nth i (r_y q) 0))).
      { apply Rsum_ext. intros; ring. }
      rewrite (Rsum_ext (di_rt D) _ (fun q => r_weight q * (dot (r_x q) d * nth i (r_x q) 0 + dot (r_y q) d * nth i (r_y q) 0))) in H by (intros; now rewrite !B).
      rewrite H. apply Rsum_ext. intros q _. rewrite !B. ring.
    - intros t Lt.
      transitivity (Sum (di_nRT D) (fun i => nth i t 0 * Sum (di_nRT D) (fun j => ent (hDivMass D) i j * nth j d 0))).
      + rewrite (Sum_ext _ (fun i => nth i t 0 * _) (fun i => Rsum (di_rt D) (fun q => r_weight q *
           (dot (r_x q) d * (nth i (r_x q) 0 * nth i t 0) + dot (r_y q) d * (nth i (r_y q) 0 * nth i t 0))))).
        * rewrite Sum_Rsum. apply Rsum_ext. intros q _. rewrite Sum_scal, Sum_plus, !Sum_scal, <- !(dot_sum _ t _ Lt). reflexivity.
        * intros i _. rewrite (mass_row D d i L), <- Rsum_scal. apply Rsum_ext. intros; ring.
      + rewrite (Sum_ext _ (fun i => nth i t 0 * _) (fun i => Rsum (di_mix D) (fun q => x_weight q * eps_of (si_eps p) (x_attr q) *
           (dot (x_ndx q) e * (nth i (x_rtx q) 0 * nth i t 0) + dot (x_ndy q) e * (nth i (x_rty q) 0 * nth i t 0))))).
        * rewrite Sum_Rsum. apply Rsum_ext. intros q _. rewrite Sum_scal, Sum_plus, !Sum_scal, <- !(dot_sum _ t _ Lt). reflexivity.
        * intros i Li. rewrite (H i Li), Hr, <- Rsum_scal. apply Rsum_ext. intros; ring.
  Qed.
  Lemma d_of_e p x d : problem_ok abc D p -> computes abc D dbg p x -> (projects D p (so_e x) d <-> d = so_d x).
  Proof.
    intros Hp C. destruct (computes_inv abc D OK dbg p x Hp C) as (s & ess & phi0 & _ & So & _ & _ & Ed).
    rewrite Ed, <- (solve_d_spec D OK). apply projects_iff; [apply (po_inputs _ _ _ Hp)|apply (po_sorted _ _ _ Hp)|apply (sf_eps _ _ _ _ _ _ _ So)].
  Qed.
  Lemma dot_zeros (a l : list R) : (forall k, (k < List.length l)%nat -> nth k l 0 = 0) -> dot a l = 0.
  Proof. intros H. rewrite (dot_sum a l _ eq_refl). apply Sum_zero. intros k L. rewrite H by exact L. ring. Qed.
  Lemma no_source p sigma psi : surface_density abc D p sigma -> si_neumann p = [] -> source D sigma psi = 0.
  Proof.
    intros (L & H) E. unfold source. apply Rsum_zero. intros q _. rewrite (dot_zeros (b_shape q) sigma); [ring|].
    intros k Lk. rewrite L in Lk. specialize (H k Lk). rewrite E in H. destruct H as [(t & [] & _)|(-> & _)]. reflexivity.
  Qed.
  (** A potential with the prescribed values that satisfies the weak form is that of the solver. *)
  Lemma weak_field p x y : problem_ok abc D p -> anchored abc D p -> computes abc D dbg p x -> si_neumann p = [] ->
    potential D y -> prescribed abc D p y ->
    (forall psi, potential D psi -> (forall t v k, In (t, v) (si_dirichlet p) -> on_boundary F t k -> nth_error psi k = Some 0) ->
       work abc D p y psi = 0) -> so_phi x = y.
  Proof.
    intros Hp An C N Ly Py Wy. destruct (computes_inv abc D OK dbg p x Hp C) as (s & ess & phi0 & Es & So & Ep & _).
    pose proof (one_solve abc D OK dbg p Hp An s ess phi0 So) as W. rewrite <- Ep in W.
    apply (one_unique abc D OK dbg p Hp An s ess phi0 So); [exact W|]. split; [exact Ly|].
    split; [apply (prescribed_iff abc D OK dbg p s ess phi0 y So (proj1 (po_sorted _ _ _ Hp)) Ly); exact Py|].
    intros psi Lp Zp. rewrite (one_work abc D OK dbg p Hp s ess phi0 So).
    rewrite Wy; [symmetry; apply (no_source p); [exact (sf_sigma _ _ _ _ _ _ _ So)|exact N]|exact Lp|].
    intros t v k I B. pose proof (on_bdr_lt abc D OK t k B) as Lk. rewrite (nth_error_nth0 psi k) by (unfold potential in Lp; rewrite Lp; exact Lk).
    f_equal. apply Zp; [exact Lk|]. apply (sf_ess _ _ _ _ _ _ _ So). eauto.
  Qed.
  Lemma computed_weak p x psi : problem_ok abc D p -> anchored abc D p -> computes abc D dbg p x -> si_neumann p = [] ->
    potential D psi -> (forall t v k, In (t, v) (si_dirichlet p) -> on_boundary F t k -> nth_error psi k = Some 0) ->
    work abc D p (so_phi x) psi = 0.
  Proof.
    intros Hp An C N Lp Zp. destruct (minimal abc D OK dbg p x Hp An C) as (sigma & Sg & _ & _ & _ & Wk).
    rewrite (Wk psi Lp Zp). now apply (no_source p).
  Qed.
  Lemma dot_const (a : list R) c k : dot a (repeat c k) = c * dot a (repeat 1 k).
  Proof.
    rewrite !(dot_sum a _ k) by apply repeat_length. rewrite <- Sum_scal. apply Sum_ext. intros i L.
    assert (G : forall y : R, nth i (repeat y k) 0 = y).
    { intros y. rewrite (nth_indep (repeat y k) 0 y) by (rewrite repeat_length; exact L). apply nth_repeat. }
    rewrite !G. ring.
  Qed.
End Laws.
