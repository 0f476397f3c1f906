(** Properties C77-C79: the fields of the iterative linear solver that Solve uses. *)
From Coq Require Import QArith Reals Lra Lia.
From Verif Require Import Prelude StdMap Materials Graph ModelM Parser Matrix Multipole Solver Fem Iterative Domain Results Driver RSum LinAlg ListLemmas SpecSolver SpecDriver SpecCharge SpecField SpecFem SpecMatrix SpecIter
  SolverProofs ChargeProofs FieldProofs FemProofs FemCalls FemFacts FemLaws PcgProofs IterProofs IterCalls IterFlux IterEnergy DriverProofs CallProofs DriverFacts MatrixProofs MatrixCalls MatrixFacts FemDriver FemMatrix IterMatrix Toy FemToy ChainIter PropsFem.
Open Scope R_scope.
Open Scope list_scope.
Local Opaque pcg iterated_phi reiterated_phi iterated_d.

(** ** C77 *)
(** With mfem::PCG in place of an exact solver (C57) the potential still has exactly the prescribed
    values, E is minus its gradient, and its energy lies between the least one and that of the start
    (the prescribed values continued by zero); it is the least one only at the exact potential. *)
Theorem C77_iterated_potential :
  forall (abc : R * R -> R) (D : discretization R) (dbg : bool) (p : solver_inputs R),
    tables_ok D -> problem_ok abc D p -> anchored abc D p ->
    exists x y z sigma, computes abc D dbg p x /\ iterates abc D dbg p y /\ zero_extension abc D p z /\ surface_density abc D p sigma /\
      potential D (so_phi y) /\ prescribed abc D p (so_phi y) /\ is_minus_gradient D y /\
      energy abc D p sigma (so_phi x) <= energy abc D p sigma (so_phi y) <= energy abc D p sigma z /\
      (energy abc D p sigma (so_phi y) = energy abc D p sigma (so_phi x) -> so_phi y = so_phi x).
Proof.
  intros abc D dbg p OK Hp An. destruct (computes_exists abc D OK dbg p Hp) as (x & Cx). destruct (iterates_exists abc D OK dbg p Hp) as (y & Iy).
  destruct (iterates_inv abc D OK dbg p Hp y Iy) as (s & ess & phi0 & Es & So & Ep & _ & _).
  pose proof (computes_xs abc D OK dbg p Hp An s ess phi0 So x Cx) as Ex.
  destruct (y_facts abc D OK dbg p Hp An s ess phi0 So) as (Ly & Ey & _). pose proof (y_energy abc D OK dbg p Hp An s ess phi0 So) as En.
  rewrite <- Ep in Ly, Ey, En. rewrite <- Ex in En.
  assert (Pr : prescribed abc D p (so_phi y)) by (apply (prescribed_iff abc D OK dbg p s ess phi0 _ So (proj1 (po_sorted _ _ _ Hp)) Ly); exact Ey).
  exists x, y, (start D ess phi0), (s_sigma s). split; [exact Cx|]. split; [exact Iy|]. split; [exact (start_extension abc D OK dbg p Hp s ess phi0 So)|].
  split; [exact (sf_sigma _ _ _ _ _ _ _ So)|]. split; [exact Ly|]. split; [exact Pr|]. split; [exact (y_gradient abc D OK dbg p Hp y Iy)|]. split; [exact En|].
  intros Eq. destruct (list_eq_dec Req_EM_T (so_phi y) (so_phi x)) as [E | N]; [exact E|exfalso].
  pose proof (one_solve abc D OK dbg p Hp An s ess phi0 So) as W. rewrite <- Ex in W.
  pose proof (one_minimises abc D OK dbg p Hp An s ess phi0 So _ _ W Ly Ey N). lra.
Qed.
Print Assumptions C77_iterated_potential.

(** Error of the potential in the energy norm: at most the factor [reduction] times that of the
    start, and 1e-12 kappa if there are at most 500 unknowns. *)
Theorem C77_accuracy :
  forall (abc : R * R -> R) (D : discretization R) (dbg : bool) (p : solver_inputs R) (x y : solution R) (z : list R) (c : R) (w : nat),
    tables_ok D -> problem_ok abc D p -> anchored abc D p ->
    computes abc D dbg p x -> iterates abc D dbg p y -> zero_extension abc D p z ->
    conditioned (di_nH1 D) (work abc D p) (vanishing abc D p) c w ->
    let err u := work abc D p (minus (so_phi x) u) (minus (so_phi x) u) in
    err (so_phi y) <= err z /\
    err (so_phi y) <= reduction c w * err z /\
    (forall free, (forall k, (k < di_nH1 D)%nat -> held abc D p k \/ In k free) -> (List.length free <= 500)%nat ->
       err (so_phi y) <= kappa c w / 10 ^ 12 * err z).
Proof.
  intros abc D dbg p x y z c w OK Hp An Cx Iy Zz Cd err. unfold err.
  destruct (iterates_inv abc D OK dbg p Hp y Iy) as (s & ess & phi0 & Es & So & Ep & _ & _).
  pose proof (computes_xs abc D OK dbg p Hp An s ess phi0 So x Cx) as Ex.
  pose proof (zero_extension_start abc D OK dbg p Hp s ess phi0 So z Zz) as ->.
  destruct (one_solve abc D OK dbg p Hp An s ess phi0 So) as (Lx & _). rewrite <- Ex in Lx.
  rewrite !(minus_diff D) by exact Lx. unfold reduction, Rdiv. rewrite <- lit12.
  destruct (y_facts abc D OK dbg p Hp An s ess phi0 So) as (_ & _ & B0). rewrite <- Ex, <- Ep in B0. split; [exact B0|]. split.
  - pose proof (y_error abc D OK dbg p Hp An s ess phi0 So c w Cd) as B. rewrite <- Ex, <- Ep in B. exact B.
  - intros free Fr Le. pose proof (y_error_small abc D OK dbg p Hp An s ess phi0 So c w Cd free Fr Le) as B. rewrite <- Ex, <- Ep in B. exact B.
Qed.
Print Assumptions C77_accuracy.

(** In closed problems without surface charges the energy reported is never below the exact one,
    and exceeds it by half the square of that error. *)
Theorem C77_reported_energy :
  forall (abc : R * R -> R) (D : discretization R) (dbg : bool) (p : solver_inputs R) (s0 sx s1 sy : solver R) (a b : R),
    tables_ok D -> problem_ok abc D p -> anchored abc D p -> same_quadrature D -> si_open p = [] -> si_neumann p = [] ->
    mkSolver (discretize abc D) dbg p = Ok s0 -> Solve (discretize abc D) s0 = Ok sx -> getTotalEnergy (discretize abc D) sx = Ok a ->
    mkSolver (discretize_pcg abc D) dbg p = Ok s1 -> Solve (discretize_pcg abc D) s1 = Ok sy -> getTotalEnergy (discretize_pcg abc D) sy = Ok b ->
    a <= b /\
    forall z c w, zero_extension abc D p z -> conditioned (di_nH1 D) (work abc D p) (vanishing abc D p) c w ->
      b - a <= / 2 * (reduction c w * work abc D p (minus (s_phi sx) z) (minus (s_phi sx) z)).
Proof.
  intros abc D dbg p s0 sx s1 sy a b OK Hp An Sq Cl Ne E0 Ex Ea E1 Ey Eb.
  destruct (energies abc D OK dbg p Hp An Sq Cl Ne s0 sx s1 sy a b E0 Ex E1 Ey Ea Eb) as (Cx & Iy & ->).
  destruct (iterates_inv abc D OK dbg p Hp _ Iy) as (s & ess & phi0 & Es & So & _).
  assert (P : 0 <= work abc D p (minus (s_phi sx) (s_phi sy)) (minus (s_phi sx) (s_phi sy))).
  { rewrite <- (wk_work abc D OK dbg p Hp s ess phi0 So). apply (workc_nonneg abc D OK _ _ (one_pos abc D OK dbg p Hp s ess phi0 So) (one_abc abc D OK dbg p Hp s ess phi0 So)). }
  split; [lra|]. intros z c w Zz Cd.
  destruct (C77_accuracy abc D dbg p _ _ z c w OK Hp An Cx Iy Zz Cd) as (_ & B & _). cbv zeta in B.
  change (so_phi (getSolution sx)) with (s_phi sx) in B. change (so_phi (getSolution sy)) with (s_phi sy) in B. lra.
Qed.
Print Assumptions C77_reported_energy.

(** Every regular problem has such constants. *)
Theorem C77_conditioned :
  forall (abc : R * R -> R) (D : discretization R) (p : solver_inputs R),
    tables_ok D -> problem_ok abc D p -> anchored abc D p ->
    (exists z, zero_extension abc D p z) /\ (exists c w, conditioned (di_nH1 D) (work abc D p) (vanishing abc D p) c w) /\
    (exists c w, conditioned (di_nRT D) (flux2 D) (fun d => List.length d = di_nRT D) c w) /\
    (exists m, flux_bound abc D p m) /\ forall t, exists g, charge_bound abc D t g.
Proof.
  intros abc D p OK Hp An. split.
  { destruct (C77_iterated_potential abc D true p OK Hp An) as (_ & _ & z & _ & _ & _ & Z & _). eauto. }
  split; [exact (work_conditioned abc D OK true p Hp An)|]. split; [exact (flux_conditioned D OK)|].
  split; [exact (flux_bound_exists abc D OK true p Hp An)|]. intros t. exact (charge_bound_exists abc D OK t).
Qed.
Print Assumptions C77_conditioned.

(** ** C78 *)
(** D is computed to the same tolerance from E: it differs from the projection of eps E by no more
    than that projection itself, by the factor [reduction] of it (or the absolute tolerance 1e-24)
    and, with at most 500 degrees of freedom, by 1e-12 kappa. *)
Theorem C78_iterated_flux :
  forall (abc : R * R -> R) (D : discretization R) (dbg : bool) (p : solver_inputs R) (y : solution R) (d : list R),
    tables_ok D -> problem_ok abc D p -> iterates abc D dbg p y -> projects D p (so_e y) d ->
    let err := flux2 D (minus d (so_d y)) (minus d (so_d y)) in
    List.length (so_d y) = di_nRT D /\ err <= flux2 D d d /\
    forall c w, conditioned (di_nRT D) (flux2 D) (fun d => List.length d = di_nRT D) c w ->
      err <= Rmax (reduction c w * flux2 D d d) (kappa c w / 10 ^ 24) /\
      ((di_nRT D <= 500)%nat -> err <= kappa c w * Rmax (flux2 D d d / 10 ^ 12) (/ 10 ^ 24)).
Proof. intros abc D dbg p y d OK Hp Iy P. exact (iterated_flux abc D OK dbg p Hp y d Iy P). Qed.
Print Assumptions C78_iterated_flux.

(** The charge on a boundary differs from that of the exact fields by no more than these errors
    allow. *)
Theorem C78_iterated_charges :
  forall (abc : R * R -> R) (D : discretization R) (dbg : bool) (p : solver_inputs R) (x y : solution R) (z d : list R) (t : Z) (q q' : R)
         (c : R) (w : nat) (c' : R) (w' : nat) (m g : R),
    tables_ok D -> problem_ok abc D p -> anchored abc D p ->
    computes abc D dbg p x -> iterates abc D dbg p y -> zero_extension abc D p z -> projects D p (so_e y) d ->
    conditioned (di_nH1 D) (work abc D p) (vanishing abc D p) c w -> conditioned (di_nRT D) (flux2 D) (fun d => List.length d = di_nRT D) c' w' ->
    flux_bound abc D p m -> charge_bound abc D t g ->
    charge_on (discretize abc D) x t q -> charge_on (discretize_pcg abc D) y t q' ->
    (q - q') ^ 2 <= 2 * g * (m * reduction c w * work abc D p (minus (so_phi x) z) (minus (so_phi x) z) +
                             Rmax (reduction c' w' * flux2 D d d) (kappa c' w' / 10 ^ 24)).
Proof.
  intros abc D dbg p x y z d t q q' c w c' w' m g OK Hp An Cx Iy Zz P Cd Cd' Fb Cb Q Q'.
  exact (iterated_charges abc D OK dbg p Hp An x y z d t q q' c w c' w' m g Cx Iy Zz P Cd Cd' Fb Cb Q Q').
Qed.
Print Assumptions C78_iterated_charges.

(** The chain of two elements with a surface charge on its middle node, as in C57. *)
Lemma charged_vanishing u : vanishing (fun _ => 1) (chain 1) charged_problem u -> exists c, u = [0; 0; c].
Proof.
  intros (L & Hz). destruct (len3 u L) as (a & b & c & ->).
  assert (H1 : nth_error [a; b; c] 0 = Some 0) by (apply Hz; exists 1%Z, 1; split; [cbn; auto|apply (chain_bdr 1 (fun _ => 1)); auto]).
  assert (H2 : nth_error [a; b; c] 1 = Some 0) by (apply Hz; exists 2%Z, 0; split; [cbn; auto|apply (chain_bdr 1 (fun _ => 1)); auto]).
  cbn in H1, H2. injection H1 as ->. injection H2 as ->. now exists c.
Qed.
Example C77_example :
  (tables_ok (chain 1) /\ problem_ok (fun _ => 1) (chain 1) charged_problem /\ anchored (fun _ => 1) (chain 1) charged_problem) /\
  zero_extension (fun _ => 1) (chain 1) charged_problem [1; 0; 0] /\
  conditioned (di_nH1 (chain 1)) (work (fun _ => 1) (chain 1) charged_problem) (vanishing (fun _ => 1) (chain 1) charged_problem) 1 2 /\
  kappa 1 2 = 5 /\ reduction 1 2 = 5 / 10 ^ 12.
Proof.
  split; [exact C57_example|]. split.
  { split; [reflexivity|]. split.
    - intros t v k I B. apply (chain_bdr 1 (fun _ => 1)) in B. cbn in I.
      destruct I as [[= <- <-]|[[= <- <-]|[]]]; destruct B as [[E ->]|[[E ->]|[E ->]]]; try discriminate E; reflexivity.
    - intros k Lk N. destruct k as [|[|[|k]]]; [exfalso; apply N; exists 1%Z, 1|reflexivity|reflexivity|cbn in Lk; lia].
      split; [cbn; auto|apply (chain_bdr 1 (fun _ => 1)); auto]. }
  split.
  { split; [lra|]. split.
    - intros u V. destruct (charged_vanishing u V) as (c & ->). unfold work, Sum, hat, grad2. cbn. unfold Rdiv. rewrite !Rinv_1. nra.
    - intros i Li. exists (filter (fun j => negb (j =? i)%nat) (seq 0 3)). split.
      + cbn in Li. destruct i as [|[|[|i]]]; cbn; lia.
      + intros j Lj N _. cbn in Lj. apply filter_In. split; [apply in_seq; lia|]. apply Bool.negb_true_iff, Nat.eqb_neq, N. }
  assert (K : kappa 1 2 = 5) by (unfold kappa; cbn; lra). split; [exact K|]. unfold reduction. rewrite K. apply Rmax_left.
  apply Rle_trans with ((1 - / 5) ^ 150).
  - replace 500%nat with (150 + 350)%nat by reflexivity. rewrite pow_add. rewrite <- (Rmult_1_r ((1 - / 5) ^ 150)) at 2.
    apply Rmult_le_compat_l; [apply pow_le; lra|]. rewrite <- (pow1 350). apply pow_incr. lra.
  - replace ((1 - / 5) ^ 150) with (((1 - / 5) ^ 15) ^ 10) by (rewrite <- pow_mult; reflexivity).
    apply Rle_trans with ((/ 25) ^ 10); [apply pow_incr; split; [apply pow_le; lra|cbn; lra]|cbn; lra].
Qed.
(** Computed: PCG ends at the exact fields of this problem, which are those of C57_example_computed;
    without the surface charge the energy it reports is the exact one. *)
Example C77_example_computed :
  match (let* s := mkSolver (discretize_pcg (fun _ => 1%Q) (chain 1%Q)) true charged_problem in Solve (discretize_pcg (fun _ => 1%Q) (chain 1%Q)) s) with
  | Ok s => Some (s_phi s, s_e s, s_d s) | _ => None
  end = Some ([1; 0; 5 # 4], [- (1 # 4); 5 # 4], [- (1 # 2); 5 # 2])%Q.
Proof. vm_compute. reflexivity. Qed.
Example C78_example : forall t, exists x y z d q q' c w c' w' m g,
  computes (fun _ => 1) (chain 1) true charged_problem x /\ iterates (fun _ => 1) (chain 1) true charged_problem y /\
  zero_extension (fun _ => 1) (chain 1) charged_problem z /\ projects (chain 1) charged_problem (so_e y) d /\
  conditioned (di_nH1 (chain 1)) (work (fun _ => 1) (chain 1) charged_problem) (vanishing (fun _ => 1) (chain 1) charged_problem) c w /\
  conditioned (di_nRT (chain 1)) (flux2 (chain 1)) (fun d => List.length d = di_nRT (chain 1)) c' w' /\
  flux_bound (fun _ => 1) (chain 1) charged_problem m /\ charge_bound (fun _ => 1) (chain 1) t g /\
  charge_on (discretize (fun _ => 1) (chain 1)) x t q /\ charge_on (discretize_pcg (fun _ => 1) (chain 1)) y t q'.
Proof.
  intros t. destruct C57_example as (OK & Hp & An).
  destruct (C77_iterated_potential (fun _ => 1) (chain 1) true charged_problem OK Hp An) as (x & y & z & _ & Cx & Iy & Zz & _).
  destruct (C77_conditioned (fun _ => 1) (chain 1) charged_problem OK Hp An) as (_ & (c & w & Cd) & (c' & w' & Cd') & (m & Fb) & Cb).
  destruct (Cb t) as (g & Cg). destruct (iterates_inv (fun _ => 1) (chain 1) OK true charged_problem Hp y Iy) as (s & ess & phi0 & Es & So & _).
  exists x, y, z, (solve_d (chain 1) (s_eps s) (so_e y)). eexists. eexists. exists c, w, c', w', m, g.
  split; [exact Cx|]. split; [exact Iy|]. split; [exact Zz|].
  split; [exact (proj2 (projects_solve (fun _ => 1) (chain 1) OK true charged_problem Hp s (so_e y) _ (sf_eps _ _ _ _ _ _ _ So)) eq_refl)|].
  split; [exact Cd|]. split; [exact Cd'|]. split; [exact Fb|]. split; [exact Cg|].
  split; [exact (FemDriver.chargeF (fun _ => 1) (chain 1) x t)|]. exact (FemDriver.chargeF (fun _ => 1) (chain 1) y t).
Qed.
Definition plain_problem {T} `{Num T} : solver_inputs T :=
  {| si_dirichlet := [(1%Z, n1); (2%Z, n0)]; si_neumann := []; si_open := []; si_eps := [(3%Z, n1)] |}.
Example C77_example_energy :
  (let* s := mkSolver (discretize (fun _ => 1%Q) (chain 1%Q)) true plain_problem in
   let* s := Solve (discretize (fun _ => 1%Q) (chain 1%Q)) s in getTotalEnergy (discretize (fun _ => 1%Q) (chain 1%Q)) s) = Ok (1 # 4)%Q /\
  (let* s := mkSolver (discretize_pcg (fun _ => 1%Q) (chain 1%Q)) true plain_problem in
   let* s := Solve (discretize_pcg (fun _ => 1%Q) (chain 1%Q)) s in getTotalEnergy (discretize_pcg (fun _ => 1%Q) (chain 1%Q)) s) = Ok (1 # 4)%Q /\
  same_quadrature (chain 1%R).
Proof. split; [vm_compute; reflexivity|]. split; [vm_compute; reflexivity|]. apply chain_quadrature. lra. Qed.

(** ** C79 *)
(** The generalized capacitance matrix of a Driver whose linear systems PCG solves exists whenever
    the exact one does, and every entry is as close to the exact one as the condition numbers allow. *)
Theorem C79_generalized_matrix :
  forall abc disc (dbg : bool) moment m o d conds d' ops ops' ignore g w pr c wd c' wd' mu ga WW Phi,
    galerkin_driver abc disc dbg m o d conds -> built dbg (iterative abc disc) m o d' ->
    reply dbg (galerkin abc disc) moment (CallGeneralizedC ignore) (after dbg (galerkin abc disc) moment ops d) = (Ok (VMatrix g), w) ->
    solver_constants abc (disc (mo_mesh m) (o_order o)) m ignore conds pr c wd c' wd' mu ga WW Phi ->
    exists g' w', reply dbg (iterative abc disc) moment (CallGeneralizedC ignore) (after dbg (iterative abc disc) moment ops' d') = (Ok (VMatrix g'), w') /\
      square (List.length conds) g /\ square (List.length conds) g' /\
      forall i j, (i < List.length conds)%nat -> (j < List.length conds)%nat ->
        Rabs (ent g i j - ent g' i j) <= tolerance c wd c' wd' mu ga WW Phi.
Proof.
  intros abc disc dbg moment m o d conds d' ops ops' ignore g w pr c wd c' wd' mu ga WW Phi [W Rm B O] B' E Sc.
  destruct (FemMatrix.gc_openness abc disc dbg moment m o d ops conds W B O ignore g w E) as (op & Eo & N1).
  destruct (generalized_exists abc disc dbg moment m o conds W Rm O ops' ignore op d' B' Eo N1) as (g' & w' & E').
  exists g', w'. split; [exact E'|].
  exact (generalized_close abc disc dbg moment m o conds W Rm O ops ops' ignore d d' g w g' w' pr c wd c' wd' mu ga WW Phi B B' E E' Sc).
Qed.
Print Assumptions C79_generalized_matrix.

(** Such constants exist for every mesh and every problem. *)
Theorem C79_constants_exist :
  forall abc disc (dbg : bool) m o d conds ignore,
    galerkin_driver abc disc dbg m o d conds ->
    exists pr c w c' w' mu g WW Phi, solver_constants abc (disc (mo_mesh m) (o_order o)) m ignore conds pr c w c' w' mu g WW Phi.
Proof. intros abc disc dbg m o d conds ignore [W Rm B O]. exact (constants_exist abc disc dbg m o conds W Rm ignore). Qed.
Print Assumptions C79_constants_exist.

(** Parameters per unit length of closed problems: C changes by at most eps0 times the tolerance of
    the electric problem, L by at most |L'| (tolerance of the magnetic problem / mu0) |L|. *)
Theorem C79_PUL_parameters :
  forall abc disc (dbg : bool) moment m o d conds d' ops ops' p w p' w' n t t0,
    galerkin_driver abc disc dbg m o d conds -> built dbg (iterative abc disc) m o d' ->
    determineOpenness dbg m = Ok Closed -> List.length conds = S n ->
    reply dbg (galerkin abc disc) moment CallPUL (after dbg (galerkin abc disc) moment ops d) = (Ok (VPul p), w) ->
    reply dbg (iterative abc disc) moment CallPUL (after dbg (iterative abc disc) moment ops' d') = (Ok (VPul p'), w') ->
    (exists pr c w c' w' mu g WW Phi,
      solver_constants abc (disc (mo_mesh m) (o_order o)) m false conds pr c w c' w' mu g WW Phi /\ t = tolerance c w c' w' mu g WW Phi) ->
    (exists pr c w c' w' mu g WW Phi,
      solver_constants abc (disc (mo_mesh m) (o_order o)) m true conds pr c w c' w' mu g WW Phi /\ t0 = tolerance c w c' w' mu g WW Phi) ->
    square n (pul_C p) /\ square n (pul_C p') /\ square n (pul_L p) /\ square n (pul_L p') /\
    forall i j, (i < n)%nat -> (j < n)%nat ->
      Rabs (ent (pul_C p) i j - ent (pul_C p') i j) <= eps0 * t /\
      Rabs (ent (pul_L p) i j - ent (pul_L p') i j) <=
        t0 / mu0 * Sum n (fun k => Rabs (ent (pul_L p') i k)) * Sum n (fun l => Rabs (ent (pul_L p) l j)).
Proof.
  intros abc disc dbg moment m o d conds d' ops ops' p w p' w' n t t0 [W Rm B O] B' Eo Ln E E' Ht Ht0.
  exact (pul_close abc disc dbg moment m o conds W Rm O ops ops' d d' p w p' w' n t t0 B B' Eo Ln E E' Ht Ht0).
Qed.
Print Assumptions C79_PUL_parameters.

(** and the parameters exist when the exact ones do and this error is small: *)
Theorem C79_parameters_exist :
  forall abc disc (dbg : bool) moment m o d conds d' ops ops' p w n t0,
    galerkin_driver abc disc dbg m o d conds -> built dbg (iterative abc disc) m o d' ->
    determineOpenness dbg m = Ok Closed -> List.length conds = S n ->
    reply dbg (galerkin abc disc) moment CallPUL (after dbg (galerkin abc disc) moment ops d) = (Ok (VPul p), w) ->
    (exists pr c w c' w' mu g WW Phi,
      solver_constants abc (disc (mo_mesh m) (o_order o)) m true conds pr c w c' w' mu g WW Phi /\ t0 = tolerance c w c' w' mu g WW Phi) ->
    t0 / mu0 * Sum n (fun i => Sum n (fun k => Rabs (ent (pul_L p) i k))) < 1 ->
    exists p' w', reply dbg (iterative abc disc) moment CallPUL (after dbg (iterative abc disc) moment ops' d') = (Ok (VPul p'), w').
Proof.
  intros abc disc dbg moment m o d conds d' ops ops' p w n t0 [W Rm B O] B' Eo Ln E Ht0 Lt.
  exact (pul_exists abc disc dbg moment m o conds W Rm O ops ops' d d' p w n t0 B B' Eo Ln E Ht0 Lt).
Qed.
Print Assumptions C79_parameters_exist.

(** Open (and semi-open) problems: the charge-neutral reduction enlarges the tolerance, which has to
    be small against the total of the generalized matrices [g], [g0] (with and without dielectrics). *)
Theorem C79_PUL_parameters_of_open_problems :
  forall abc disc (dbg : bool) moment m o d conds d' ops ops' p w p' w' n op t t0 g wg a g0 wg0 a0,
    galerkin_driver abc disc dbg m o d conds -> built dbg (iterative abc disc) m o d' ->
    determineOpenness dbg m = Ok op -> op <> Closed -> List.length conds = S n ->
    reply dbg (galerkin abc disc) moment CallPUL (after dbg (galerkin abc disc) moment ops d) = (Ok (VPul p), w) ->
    reply dbg (iterative abc disc) moment CallPUL (after dbg (iterative abc disc) moment ops' d') = (Ok (VPul p'), w') ->
    reply dbg (galerkin abc disc) moment (CallGeneralizedC false) (after dbg (galerkin abc disc) moment ops d) = (Ok (VMatrix g), wg) ->
    reply dbg (galerkin abc disc) moment (CallGeneralizedC true) (after dbg (galerkin abc disc) moment ops d) = (Ok (VMatrix g0), wg0) ->
    (exists pr c w c' w' mu ga WW Phi,
      solver_constants abc (disc (mo_mesh m) (o_order o)) m false conds pr c w c' w' mu ga WW Phi /\ t = tolerance c w c' w' mu ga WW Phi) ->
    (exists pr c w c' w' mu ga WW Phi,
      solver_constants abc (disc (mo_mesh m) (o_order o)) m true conds pr c w c' w' mu ga WW Phi /\ t0 = tolerance c w c' w' mu ga WW Phi) ->
    sums_bounded (S n) g a -> INR (S n) ^ 2 * t < Rabs (total g) ->
    sums_bounded (S n) g0 a0 -> INR (S n) ^ 2 * t0 < Rabs (total g0) ->
    square n (pul_C p) /\ square n (pul_C p') /\ square n (pul_L p) /\ square n (pul_L p') /\
    forall i j, (i < n)%nat -> (j < n)%nat ->
      Rabs (ent (pul_C p) i j - ent (pul_C p') i j) <= eps0 * neutral_tolerance (S n) a (Rabs (total g)) t /\
      Rabs (ent (pul_L p) i j - ent (pul_L p') i j) <=
        neutral_tolerance (S n) a0 (Rabs (total g0)) t0 / mu0 * Sum n (fun k => Rabs (ent (pul_L p') i k)) * Sum n (fun l => Rabs (ent (pul_L p) l j)).
Proof.
  intros abc disc dbg moment m o d conds d' ops ops' p w p' w' n op t t0 g wg a g0 wg0 a0 [W Rm B O] B' Eo Ne Ln E E' Eg Eg0 Ht Ht0 Ba Lt Ba0 Lt0.
  exact (pul_close_open abc disc dbg moment m o conds W Rm O ops ops' d d' p w p' w' n op t t0 g wg a g0 wg0 a0 B B' Eo Ne Ln E E' Eg Eg0 Ht Ht0 Ba Lt Ba0 Lt0).
Qed.
Print Assumptions C79_PUL_parameters_of_open_problems.

Theorem C79_parameters_of_open_problems_exist :
  forall abc disc (dbg : bool) moment m o d conds d' ops ops' p w n op t0 g0 wg0 a0,
    galerkin_driver abc disc dbg m o d conds -> built dbg (iterative abc disc) m o d' ->
    determineOpenness dbg m = Ok op -> op <> Closed -> List.length conds = S n ->
    reply dbg (galerkin abc disc) moment CallPUL (after dbg (galerkin abc disc) moment ops d) = (Ok (VPul p), w) ->
    reply dbg (galerkin abc disc) moment (CallGeneralizedC true) (after dbg (galerkin abc disc) moment ops d) = (Ok (VMatrix g0), wg0) ->
    (exists pr c w c' w' mu ga WW Phi,
      solver_constants abc (disc (mo_mesh m) (o_order o)) m true conds pr c w c' w' mu ga WW Phi /\ t0 = tolerance c w c' w' mu ga WW Phi) ->
    sums_bounded (S n) g0 a0 -> INR (S n) ^ 2 * t0 < Rabs (total g0) ->
    neutral_tolerance (S n) a0 (Rabs (total g0)) t0 / mu0 * Sum n (fun i => Sum n (fun k => Rabs (ent (pul_L p) i k))) < 1 ->
    exists p' w', reply dbg (iterative abc disc) moment CallPUL (after dbg (iterative abc disc) moment ops' d') = (Ok (VPul p'), w').
Proof.
  intros abc disc dbg moment m o d conds d' ops ops' p w n op t0 g0 wg0 a0 [W Rm B O] B' Eo Ne Ln E Eg0 Ht0 Ba0 Lt0 Lt.
  exact (pul_exists_open abc disc dbg moment m o conds W Rm O ops ops' d d' p w n op t0 g0 wg0 a0 B B' Eo Ne Ln E Eg0 Ht0 Ba0 Lt0 Lt).
Qed.
Print Assumptions C79_parameters_of_open_problems_exist.

(** Both Drivers and the constants of the chain, open or closed, with the absorbing coefficient of the code *)
Example C79_example : forall (op : openness) (er : R), 0 < er ->
  exists d d', galerkin_driver firstOrderABC toy_disc true (scaled_model 1 op er) toy_options d toy_conds /\
    built true (iterative firstOrderABC toy_disc) (scaled_model 1 op er) toy_options d' /\
    determineOpenness true (scaled_model 1 op er) = Ok op /\ List.length (@toy_conds R _) = 2%nat /\
    forall ignore, exists pr c w c' w' mu g WW Phi,
      solver_constants firstOrderABC (toy_disc (mo_mesh (scaled_model 1 op er)) (o_order toy_options)) (scaled_model 1 op er) ignore toy_conds
        pr c w c' w' mu g WW Phi.
Proof.
  intros op er Pe. destruct (C58_to_C64_example op er Pe) as (d & G & _ & _ & _ & _ & _ & Eo).
  destruct (mkDriver_ok true (iterative firstOrderABC toy_disc) (scaled_model 1 op er) toy_options
    (posed_pcg firstOrderABC toy_disc (scaled_model 1 op er) toy_options (gd_posed _ _ _ _ _ _ _ G) (gd_regular _ _ _ _ _ _ _ G)) toy_conds) as (d' & E & _).
  { exact (gd_order _ _ _ _ _ _ _ G). }
  { discriminate. }
  exists d, d'. split; [exact G|]. split; [eexists; exact E|]. split; [exact Eo|]. split; [reflexivity|].
  intros ignore. exact (C79_constants_exist _ _ _ _ _ _ _ ignore G).
Qed.
(** Computed: on the closed chain PCG gives the exact matrices of C59_example_computed. *)
Example C79_example_computed :
  match mkDriver true (fun ms k => discretize_pcg (fun _ => 2%Q) (toy_disc ms k)) (toy_model Closed 2%Q) toy_options tt with
  | ((Ok d, _), _) =>
      match fst (reply true (fun ms k => discretize_pcg (fun _ => 2%Q) (toy_disc ms k)) (fun _ _ _ _ => 0%Q) (CallGeneralizedC false) d),
            fst (reply true (fun ms k => discretize_pcg (fun _ => 2%Q) (toy_disc ms k)) (fun _ _ _ _ => 0%Q) CallC d) with
      | Ok (VMatrix g), Ok (VMatrix C) => Some (rows_list g, rows_list C) | _, _ => None end
  | _ => None
  end = Some ([[1; -1]; [-1; 1]], [[1]])%Q.
Proof. vm_compute. reflexivity. Qed.

(** The open chain with the absorbing coefficient 2: with the constants 1, 1, ... both generalized
    matrices are (3/4 -1/4; -1/4 3/4), the tolerance is below 1/100 and all is as the theorems about
    open problems ask, so that getPULMTL answers with PCG too. *)
Example C79_example_open : forall moment (ops ops' : list dop),
  exists d d' p w p' w' t g wg g0 wg0,
    galerkin_driver two toy_disc true open_chain toy_options d toy_conds /\ built true (iterative two toy_disc) open_chain toy_options d' /\
    determineOpenness true open_chain = Ok Open /\
    reply true (galerkin two toy_disc) moment CallPUL (after true (galerkin two toy_disc) moment ops d) = (Ok (VPul p), w) /\
    reply true (iterative two toy_disc) moment CallPUL (after true (iterative two toy_disc) moment ops' d') = (Ok (VPul p'), w') /\
    reply true (galerkin two toy_disc) moment (CallGeneralizedC false) (after true (galerkin two toy_disc) moment ops d) = (Ok (VMatrix g), wg) /\
    reply true (galerkin two toy_disc) moment (CallGeneralizedC true) (after true (galerkin two toy_disc) moment ops d) = (Ok (VMatrix g0), wg0) /\
    (forall ignore, exists pr, solver_constants two (toy_disc (mo_mesh open_chain) (o_order toy_options)) open_chain ignore toy_conds pr 1 2 1 0 1 1 1 1) /\
    t = tolerance 1 2 1 0 1 1 1 1 /\ total g = 1 /\ total g0 = 1 /\
    sums_bounded 2 g (1 / 2) /\ INR 2 ^ 2 * t < Rabs (total g) /\ sums_bounded 2 g0 (1 / 2) /\ INR 2 ^ 2 * t < Rabs (total g0) /\
    neutral_tolerance 2 (1 / 2) (Rabs (total g0)) t / mu0 * Sum 1 (fun i => Sum 1 (fun k => Rabs (ent (pul_L p) i k))) < 1 /\
    neutral_tolerance 2 (1 / 2) (Rabs (total g)) t < / 20.
Proof.
  intros moment ops ops'. destruct oc_driver as (d & G). pose proof G as [W Rm B O].
  destruct (mkDriver_ok true (iterative two toy_disc) open_chain toy_options (posed_pcg two toy_disc open_chain toy_options W Rm) toy_conds O) as (d' & E' & _); [discriminate|].
  assert (B' : built true (iterative two toy_disc) open_chain toy_options d') by (eexists; exact E').
  assert (Pa : 0 < two (1 / 2, 0)) by (unfold two; lra).
  destruct (toy_all 1 Rlt_0_1 two Pa Open 1 Rlt_0_1 true (o_order toy_options)) as (H1 & H2 & H3 & H4).
  assert (Eo : determineOpenness true open_chain = Ok Open) by apply toy_openness_scaled.
  destruct (C61_PUL_parameters_exist_and_are_positive_definite_partial two toy_disc true moment open_chain toy_options d ops toy_conds Open 1 G H1 H2 (H4 false) (H4 true) Eo eq_refl)
    as (p & w & Ep & _); [discriminate|].
  destruct (PUL_inv true (galerkin two toy_disc) moment Rmul0 open_chain toy_options d ops W B p w Ep) as (C & L & w1 & w2 & EC & EL & Pp).
  destruct (C_inv _ _ _ _ _ _ EC) as (g & op1 & Eg & _ & _). destruct (L_inv _ _ _ _ _ _ EL) as (g0 & op2 & Eg0 & Eo2 & IL).
  rewrite (D_model true (galerkin two toy_disc) moment Rmul0 open_chain toy_options d ops W B), Eo in Eo2. injection Eo2 as <-.
  pose proof (oc_matrix moment d ops false g _ G Eg) as (Sg & G1). pose proof (oc_matrix moment d ops true g0 _ G Eg0) as (Sg0 & G0).
  assert (Tot : forall g : matrix R, square 2 g -> ent g 0 0 = 3 / 4 /\ ent g 0 1 = - (1 / 4) /\ ent g 1 0 = - (1 / 4) /\ ent g 1 1 = 3 / 4 -> total g = 1 /\ sums_bounded 2 g (1 / 2)).
  { intros h (S1 & S2) (V1 & V2 & V3 & V4). unfold total. rewrite S1, S2. unfold Sum, Rsum. cbn [seq map fold_left fold_right]. rewrite V1, V2, V3, V4. split; [field|].
    intros i Li. unfold Sum, Rsum. cbn [seq map fold_left fold_right].
    destruct i as [|[|i]]; [| |lia]; rewrite ?V1, ?V2, ?V3, ?V4; split; apply Rabs_le; lra. }
  destruct (Tot g Sg G1) as (T1 & Q1). destruct (Tot g0 Sg0 G0) as (T0 & Q0). pose proof oc_tolerance as (K1 & K2). set (t := tolerance 1 2 1 0 1 1 1 1) in *.
  assert (N2 : INR 2 = 2) by (cbn; ring).
  assert (Nt : 0 <= neutral_tolerance 2 (1 / 2) 1 t < / 20).
  { unfold neutral_tolerance. rewrite N2. clearbody t.
    assert (D0 : 24 / 25 <= 1 - 2 ^ 2 * t) by lra. assert (D1 : 0 <= / (1 - 2 ^ 2 * t) <= 25 / 24).
    { split; [left; apply Rinv_0_lt_compat; lra|]. replace (25 / 24) with (/ (24 / 25)) by field. apply Rinv_le_contravar; lra. }
    replace (1 * (1 - 2 ^ 2 * t)) with (1 - 2 ^ 2 * t) by ring.
    assert (Ed : forall a, a / (1 - 2 ^ 2 * t) = a * / (1 - 2 ^ 2 * t)) by reflexivity. rewrite !Ed. clear Ed.
    assert (A1 : 0 <= 2 * t * (2 * (1 / 2) + 2 * t) <= 51 / 2500).
    { assert (t * t <= 1 / 100 * t) by (apply Rmult_le_compat_r; lra). assert (0 <= t * t) by (apply Rmult_le_pos; lra). lra. }
    assert (A2 : 0 <= (1 / 2) ^ 2 * (2 ^ 2 * t) <= 1 / 100) by lra.
    set (x := 2 * t * _) in *. set (y := (1 / 2) ^ 2 * _) in *. set (z := / (1 - 2 ^ 2 * t)) in *. clearbody x y z.
    assert (0 <= x * z <= 51 / 2500 * (25 / 24)) by (split; [apply Rmult_le_pos; tauto|apply Rmult_le_compat; tauto]).
    assert (0 <= y * z <= 1 / 100 * (25 / 24)) by (split; [apply Rmult_le_pos; tauto|apply Rmult_le_compat; tauto]). lra. }
  assert (Ab : Rabs 1 = 1) by apply Rabs_R1.
  assert (Sm : neutral_tolerance 2 (1 / 2) (Rabs (total g0)) t / mu0 * Sum 1 (fun i => Sum 1 (fun k => Rabs (ent (pul_L p) i k))) < 1).
  { rewrite T0, Ab. assert (P10 : forall k, 0 < / 10 ^ k) by (intros k; apply Rinv_0_lt_compat, pow_lt; lra).
    assert (Pm : 0 < mu0) by (apply Rmult_lt_0_compat; [pose proof PI_RGT_0; lra|apply P10]).
    destruct (invert_product _ 1 (reduced_size g0 1 Sg0 Open) L IL) as (_ & P1 & _). pose proof (P1 0%nat 0%nat ltac:(lia) ltac:(lia)) as P2.
    destruct G0 as (V1 & V2 & V3 & V4). unfold Sum, Rsum in *. cbn [seq map fold_left fold_right Nat.eqb] in *.
    rewrite (reduced_open g0 1 Sg0 Open 0 0 ltac:(discriminate)), T0 in P2. unfold rowsum, colsum, Sum, Rsum in P2. cbn [seq map fold_left fold_right] in P2. rewrite V2, V3, V4 in P2.
    assert (E0 : ent L 0 0 = 2) by lra. rewrite Pp. cbn [pul_L]. rewrite mu0_value. unfold mscale. cbn [ent]. change (nmul (ent L 0 0) mu0) with (ent L 0 0 * mu0). rewrite E0.
    rewrite (Rabs_pos_eq (2 * mu0)) by lra. replace (_ / mu0 * _) with (2 * neutral_tolerance 2 (1 / 2) 1 t) by (field; lra). lra. }
  destruct (C79_parameters_of_open_problems_exist two toy_disc true moment open_chain toy_options d toy_conds d' ops ops' p w 1 Open t g0 w2 (1 / 2) G B' Eo ltac:(discriminate) eq_refl Ep Eg0)
    as (p' & w' & Ep'); [|exact Q0|rewrite T0, Ab, N2; lra|exact Sm|].
  { destruct (oc_constants true) as (pr & Sc). exists pr, 1, 2%nat, 1, 0%nat, 1, 1, 1, 1. split; [|reflexivity]. rewrite oc_disc. exact Sc. }
  exists d, d', p, w, p', w', t, g, w1, g0, w2. do 7 (split; [assumption|]).
  split; [intros ignore; rewrite oc_disc; apply oc_constants|]. split; [reflexivity|]. split; [exact T1|]. split; [exact T0|].
  split; [exact Q1|]. split; [rewrite T1, Ab, N2; lra|]. split; [exact Q0|]. split; [rewrite T0, Ab, N2; lra|]. split; [exact Sm|]. rewrite T1, Ab. apply Nt.
Qed.
