(** Model of the bilinear forms and of the two linear systems of ElectrostaticSolver
    (src/ElectrostaticSolver.cpp: constructor, Assemble, Solve) on top of the values of the basis
    functions at quadrature points. It instantiates the oracle record [fem] of Solver.v. *)
From Verif Require Import Prelude Matrix Solver.
Open Scope list_scope.

(** A quadrature point of DiffusionIntegrator: attribute of its element, weight (with the
    Jacobian) and the gradient of each H1 basis function. *)
Record grad_point (T : Type) := { g_attr : Z; g_weight : T; g_x : list T; g_y : list T }.
Arguments g_attr {T}. Arguments g_weight {T}. Arguments g_x {T}. Arguments g_y {T}.
(** A quadrature point of a boundary mass integrator: attribute, position, weight and the value
    of each H1 basis function. *)
Record surf_point (T : Type) := { b_attr : Z; b_pos : T * T; b_weight : T; b_shape : list T }.
Arguments b_attr {T}. Arguments b_pos {T}. Arguments b_weight {T}. Arguments b_shape {T}.
(** A quadrature point of the RT mass integrator: weight and components of the basis. *)
Record rt_point (T : Type) := { r_weight : T; r_x : list T; r_y : list T }.
Arguments r_weight {T}. Arguments r_x {T}. Arguments r_y {T}.
(** A quadrature point of the mixed ND-RT mass integrator. *)
Record mix_point (T : Type) := { x_attr : Z; x_weight : T; x_ndx : list T; x_ndy : list T; x_rtx : list T; x_rty : list T }.
Arguments x_attr {T}. Arguments x_weight {T}. Arguments x_ndx {T}. Arguments x_ndy {T}. Arguments x_rtx {T}. Arguments x_rty {T}.

(** FES.h/FES.cpp and the integrators: the finite element spaces of a mesh, tabulated. *)
Record discretization (T : Type) := {
  di_nH1 : nat; di_nND : nat; di_nRT : nat;
  di_bdrMax : Z; di_domMax : Z;
  di_bdrDofs : list (Z * list nat);
  di_grad : list (grad_point T);         (* DiffusionIntegrator *)
  di_abc : list (surf_point T);          (* BoundaryMassIntegrator of the open boundaries *)
  di_surf : list (surf_point T);         (* MassIntegrator on all boundaries (h1SurfMass_) *)
  di_rt : list (rt_point T);             (* VectorFEMassIntegrator on RT (hDivMass_) *)
  di_mix : list (mix_point T);           (* VectorFEMassIntegrator from ND to RT (hCurlHDivEps_) *)
  di_gradient : list (list T);           (* rows of the DiscreteGradOperator *)
  di_flux : list (flux_point T); di_bdrPhi : list (Z * list T); di_domPhi : list (Z * list T);
  di_energy : list (energy_point T) }.
Arguments di_nH1 {T}. Arguments di_nND {T}. Arguments di_nRT {T}. Arguments di_bdrMax {T}. Arguments di_domMax {T}.
Arguments di_bdrDofs {T}. Arguments di_grad {T}. Arguments di_abc {T}. Arguments di_surf {T}. Arguments di_rt {T}.
Arguments di_mix {T}. Arguments di_gradient {T}. Arguments di_flux {T}. Arguments di_bdrPhi {T}. Arguments di_domPhi {T}.
Arguments di_energy {T}.

Section Fem.
  Context {T : Type} `{Num T}.
  Open Scope num_scope.
  (** firstOrderABC (ElectrostaticSolver.cpp:51-56), see Multipole.v *)
  Variable abc : T * T -> T.
  Variable D : discretization T.

  (** Coefficient::Eval in an element of attribute [a]: ConstantCoefficient, or constants(a-1) of
      PWConstCoefficient. *)
  Definition coef_at (c : eps_coef T) (a : Z) : T :=
    match c with EpsConst x => x | EpsPW v => nth (Z.to_nat (a - 1)) v n0 end.
  (** boundary elements of attribute [a] take part in an integrator with this marker; without
      open boundaries no integrator is added (line 118) and the marker is empty. *)
  Definition marked (m : list bool) (a : Z) : bool := nth (Z.to_nat (a - 1)) m false.
  Definition at_ (l : list T) (i : nat) : T := nth i l n0.
  Definition quadrature {A} (pts : list A) (f : A -> T) : T := fold_left (fun s q => s + f q) pts n0.

  (** ElectrostaticSolver.cpp:112-125 and 179-180: divEpsGrad_ with DiffusionIntegrator(epsCoef_)
      and, on the open boundaries, BoundaryMassIntegrator(firstOrderABC). *)
  Definition divEpsGrad (eps : eps_coef T) (opn : list bool) : matrix T :=
    {| nr := di_nH1 D; nc := di_nH1 D;
       ent := fun i j =>
         quadrature (di_grad D) (fun q => g_weight q * coef_at eps (g_attr q) *
                                          (at_ (g_x q) i * at_ (g_x q) j + at_ (g_y q) i * at_ (g_y q) j)) +
         quadrature (filter (fun q => marked opn (b_attr q)) (di_abc D))
                    (fun q => b_weight q * abc (b_pos q) * (at_ (b_shape q) i * at_ (b_shape q) j)) |}.
  (** ElectrostaticSolver.cpp:130-131, 188-189 and 224: h1SurfMass_->Mult(sigma_src, rhod) *)
  Definition surface_source (sigma : list T) (i : nat) : T :=
    quadrature (di_surf D) (fun q => b_weight q * at_ (b_shape q) i * dot (b_shape q) sigma).
  (** BilinearForm::FormLinearSystem (first call) with DIAG_KEEP: rows and columns of the essential dofs are
      eliminated except for the diagonal, the right hand side is changed accordingly. *)
  Definition form_matrix (K : matrix T) (ess : list nat) : matrix T :=
    {| nr := nr K; nc := nc K;
       ent := fun i j => if (nmem i ess || nmem j ess)%bool then (if (i =? j)%nat then ent K i i else n0) else ent K i j |}.
  Definition form_rhs (K : matrix T) (ess : list nat) (x : list T) (b : nat -> T) (i : nat) : T :=
    if nmem i ess then ent K i i * at_ x i
    else b i - sum_upto (nr K) (fun j => if nmem j ess then ent K i j * at_ x j else n0).
  (** ElectrostaticSolver.cpp:242-255. PCG is taken to return the exact solution of a regular
      system (of a singular one: zero). *)
  Definition solve_phi (eps : eps_coef T) (opn : list bool) (ess : list nat) (phi0 sigma : list T) : list T :=
    let K := divEpsGrad eps opn in
    match solve_system (form_matrix K ess) (form_rhs K ess phi0 (surface_source sigma)) with
    | Some x => x
    | None => repeat n0 (di_nH1 D)
    end.
  (** The same when the matrix was eliminated for the dofs [elim] in an earlier call
      (BilinearForm::EliminateVDofsInRHS: b -= mat_e x; then b = mat x on the essential dofs, where
      mat is the eliminated matrix and mat_e what was taken out of it). *)
  Definition reform_rhs (K : matrix T) (elim ess : list nat) (x : list T) (b : nat -> T) (i : nat) : T :=
    if nmem i elim
    then if nmem i ess then ent K i i * at_ x i
         else b i - sum_upto (nr K) (fun j => if (j =? i)%nat then n0 else ent K i j * at_ x j)
    else if nmem i ess then sum_upto (nr K) (fun j => if nmem j elim then n0 else ent K i j * at_ x j)
         else b i - sum_upto (nr K) (fun j => if nmem j elim then ent K i j * at_ x j else n0).
  Definition resolve_phi (eps : eps_coef T) (opn : list bool) (elim ess : list nat) (phi0 sigma : list T) : list T :=
    let K := divEpsGrad eps opn in
    match solve_system (form_matrix K elim) (reform_rhs K elim ess phi0 (surface_source sigma)) with
    | Some x => x
    | None => repeat n0 (di_nH1 D)
    end.
  (** ElectrostaticSolver.cpp:193-194 and 258: grad_->Mult(phi, e); e *= -1 *)
  Definition solve_e (phi : list T) : list T := map (fun row => dot row phi * nopp n1) (di_gradient D).
  (** ElectrostaticSolver.cpp:127-134, 182-186 and 260-275 *)
  Definition hDivMass : matrix T :=
    {| nr := di_nRT D; nc := di_nRT D;
       ent := fun i j => quadrature (di_rt D) (fun q => r_weight q * (at_ (r_x q) i * at_ (r_x q) j + at_ (r_y q) i * at_ (r_y q) j)) |}.
  Definition hCurlHDivEps (eps : eps_coef T) (e : list T) (i : nat) : T :=
    quadrature (di_mix D) (fun q => x_weight q * coef_at eps (x_attr q) *
                                    (at_ (x_rtx q) i * dot (x_ndx q) e + at_ (x_rty q) i * dot (x_ndy q) e)).
  Definition solve_d (eps : eps_coef T) (e : list T) : list T :=
    match solve_system hDivMass (hCurlHDivEps eps e) with Some x => x | None => repeat n0 (di_nRT D) end.

  Definition discretize : fem T :=
    {| fe_nH1 := di_nH1 D; fe_nND := di_nND D; fe_nRT := di_nRT D; fe_bdrMax := di_bdrMax D; fe_domMax := di_domMax D;
       fe_bdrDofs := di_bdrDofs D; fe_flux := di_flux D; fe_bdrPhi := di_bdrPhi D; fe_domPhi := di_domPhi D;
       fe_energy := di_energy D; fe_phi := resolve_phi; fe_e := solve_e; fe_d := solve_d |}.

  (** In the first call the eliminated dofs are the essential ones. *)
  Lemma reform_first K ess x b i : reform_rhs K ess ess x b i = form_rhs K ess x b i.
  Proof. unfold reform_rhs, form_rhs. now destruct (nmem i ess). Qed.
  Lemma resolve_first eps opn ess phi0 sigma : resolve_phi eps opn ess ess phi0 sigma = solve_phi eps opn ess phi0 sigma.
  Proof.
    unfold resolve_phi, solve_phi, solve_system.
    now erewrite (map_ext _ _ (fun i => f_equal (fun y => row_list _ i ++ [y]) (reform_first _ _ _ _ i))).
  Qed.
End Fem.
