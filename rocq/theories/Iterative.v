(** Model of the linear solvers behind ElectrostaticSolver::Solve (src/ElectrostaticSolver.cpp:242-255
    and 260-275): mfem::PCG with mfem::GSSmoother. Both are third party (MFEM 4: CGSolver::Mult in
    linalg/solvers.cpp, GSSmoother::Mult in linalg/sparsesmoothers.cpp, SparseMatrix::Gauss_Seidel_forw
    and _back in linalg/sparsemat.cpp), modelled on dense matrices; the tolerances, the limit of 500
    iterations and the use made of the result are those of Solve. Fem.v models the same two systems
    with an exact solver. *)
From Verif Require Import Prelude Matrix Solver Fem.
Open Scope list_scope.

Section Pcg.
  Context {T : Type} `{Num T}.
  Open Scope num_scope.

  (** Operator::Mult, add(v, c, w, r), Dot *)
  Definition mult (A : matrix T) (x : list T) : list T :=
    map (fun i => sum_upto (nr A) (fun j => ent A i j * at_ x j)) (seq 0 (nr A)).
  Definition axpy (n : nat) (x : list T) (c : T) (y : list T) : list T :=
    map (fun i => at_ x i + c * at_ y i) (seq 0 n).
  Definition inner (n : nat) (x y : list T) : T := sum_upto n (fun i => at_ x i * at_ y i).

  (** Gauss_Seidel_forw and _back: one row after the other,
      y[i] = (b[i] - sum of the other entries of the row times y) / diagonal.
      (MFEM stops the program at a zero diagonal entry; here it is a division by zero.) *)
  Definition gs_row (A : matrix T) (b : list T) (y : list T) (i : nat) : list T :=
    map (fun k => if (k =? i)%nat
                  then (at_ b i - sum_upto (nr A) (fun j => if (j =? i)%nat then n0 else ent A i j * at_ y j)) / ent A i i
                  else at_ y k) (seq 0 (nr A)).
  Definition gs_forw (A : matrix T) (b y : list T) : list T := fold_left (gs_row A b) (seq 0 (nr A)) y.
  Definition gs_back (A : matrix T) (b y : list T) : list T := fold_left (gs_row A b) (rev (seq 0 (nr A))) y.
  (** GSSmoother(A) (symmetric, one iteration)::Mult, started from zero as a preconditioner *)
  Definition smooth (A : matrix T) (b : list T) : list T := gs_back A b (gs_forw A b (repeat n0 (nr A))).

  (** CGSolver::Mult. [rest]: iterations left after this one. *)
  Fixpoint cg_loop (A : matrix T) (stop : T) (rest : nat) (x r d z : list T) (nom den : T) : list T :=
    let n := nr A in
    let alpha := nom / den in
    let x := axpy n x alpha d in
    let r := axpy n r (nopp alpha) z in
    let z := smooth A r in
    let betanom := inner n r z in
    if nltb betanom n0 then x
    else if nleb betanom stop then x
    else match rest with
         | O => x
         | S rest =>
             let beta := betanom / nom in
             let d := axpy n z beta d in
             let z := mult A d in
             let den := inner n d z in
             if neqb den n0 then x else cg_loop A stop rest x r d z betanom den
         end.
  (** mfem::PCG(A, GSSmoother(A), b, x, print, max_iter, rtol, atol): the tolerances are compared
      with squared norms (PCG sets the square roots, CGSolver squares them). *)
  Definition pcg (A : matrix T) (b x : list T) (max_iter : nat) (rtol atol : T) : list T :=
    let n := nr A in
    let r := axpy n b (nopp n1) (mult A x) in
    let d := smooth A r in
    let nom := inner n d r in
    if nltb nom n0 then x
    else
      let stop := if nltb (nom * rtol) atol then atol else nom * rtol in
      if nleb nom stop then x
      else
        let z := mult A d in
        let den := inner n z d in
        if neqb den n0 then x
        else match max_iter with
             | O => x    (* not reached from Solve *)
             | S rest => cg_loop A stop rest x r d z nom den
             end.
End Pcg.

Section IterativeFem.
  Context {T : Type} `{Num T}.
  Open Scope num_scope.
  Variable abc : T * T -> T.
  Variable D : discretization T.

  (** ElectrostaticSolver.cpp:242-255. FormLinearSystem (copy_interior = 0) starts from the
      prescribed values at the essential dofs and zero elsewhere. *)
  Definition iterated_phi (eps : eps_coef T) (opn : list bool) (ess : list nat) (phi0 sigma : list T) : list T :=
    let K := divEpsGrad abc D eps opn in
    pcg (form_matrix K ess) (map (form_rhs K ess phi0 (surface_source D sigma)) (seq 0 (di_nH1 D)))
        (map (fun i => if nmem i ess then at_ phi0 i else n0) (seq 0 (di_nH1 D)))
        500 (lit 1 12) n0.
  (** The same when the matrix was eliminated for the dofs [elim] in an earlier call, see Fem.v *)
  Definition reiterated_phi (eps : eps_coef T) (opn : list bool) (elim ess : list nat) (phi0 sigma : list T) : list T :=
    let K := divEpsGrad abc D eps opn in
    pcg (form_matrix K elim) (map (reform_rhs K elim ess phi0 (surface_source D sigma)) (seq 0 (di_nH1 D)))
        (map (fun i => if nmem i ess then at_ phi0 i else n0) (seq 0 (di_nH1 D)))
        500 (lit 1 12) n0.
  (** ElectrostaticSolver.cpp:260-275, with the default absolute tolerance 1e-24 of mfem::PCG *)
  Definition iterated_d (eps : eps_coef T) (e : list T) : list T :=
    pcg (hDivMass D) (map (hCurlHDivEps D eps e) (seq 0 (di_nRT D))) (repeat n0 (di_nRT D)) 500 (lit 1 12) (lit 1 24).

  (** As [discretize] in Fem.v, with these solvers *)
  Definition discretize_pcg : fem T :=
    {| fe_nH1 := di_nH1 D; fe_nND := di_nND D; fe_nRT := di_nRT D; fe_bdrMax := di_bdrMax D; fe_domMax := di_domMax D;
       fe_bdrDofs := di_bdrDofs D; fe_flux := di_flux D; fe_bdrPhi := di_bdrPhi D; fe_domPhi := di_domPhi D;
       fe_energy := di_energy D; fe_phi := reiterated_phi; fe_e := solve_e D; fe_d := iterated_d |}.
  Lemma reiterated_first eps opn ess phi0 sigma : reiterated_phi eps opn ess ess phi0 sigma = iterated_phi eps opn ess phi0 sigma.
  Proof. unfold reiterated_phi, iterated_phi. now rewrite (map_ext _ _ (reform_first _ _ _ _)). Qed.
End IterativeFem.
