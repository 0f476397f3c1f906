(** Model of src/ElectrostaticSolver.h and src/ElectrostaticSolver.cpp. *)
From Verif Require Import Prelude StdMap Matrix.

(** ** The finite element library (MFEM) by contract *)

(** Permittivity coefficient: ConstantCoefficient or PWConstCoefficient. *)
Inductive eps_coef (T : Type) := EpsConst (x : T) | EpsPW (v : list T).
Arguments EpsConst {T}. Arguments EpsPW {T}.

(** A boundary quadrature point of the normal flux form: the attribute of its boundary
    element, its position and, for each degree of freedom of the RT space, weight times normal
    component of the basis function. *)
Record flux_point (T : Type) := { q_attr : Z; q_pos : T * T; q_w : list T }.
Arguments q_attr {T}. Arguments q_pos {T}. Arguments q_w {T}.
(** A quadrature point of the energy form: attribute, weight, and the two components of the
    field as functionals of the ND degrees of freedom. *)
Record energy_point (T : Type) := { y_attr : Z; y_weight : T; y_x : list T; y_y : list T }.
Arguments y_attr {T}. Arguments y_weight {T}. Arguments y_x {T}. Arguments y_y {T}.

(** What the spaces of order p on a mesh provide (FES.h/FES.cpp wrap the MFEM classes). *)
Record fem (T : Type) := {
  fe_nH1 : nat;                          (* H1FESpace_->GetVSize() *)
  fe_nND : nat;                          (* HCurlFESpace_->GetVSize() *)
  fe_nRT : nat;                          (* HDivFESpace_->GetVSize() *)
  fe_bdrMax : Z;                         (* mesh_->bdr_attributes.Max() *)
  fe_domMax : Z;                         (* mesh_->attributes.Max() *)
  fe_bdrDofs : list (Z * list nat);      (* per boundary element: attribute, H1 dofs *)
  fe_flux : list (flux_point T);         (* VectorFEBoundaryFluxLFIntegrator *)
  fe_bdrPhi : list (Z * list T);         (* BoundaryLFIntegrator: attribute, weights per dof *)
  fe_domPhi : list (Z * list T);         (* DomainLFIntegrator *)
  fe_energy : list (energy_point T);     (* VectorFEMassIntegrator on the ND space *)
  (* FormLinearSystem + PCG + RecoverFEMSolution for phi: permittivity, open boundary marker,
     dofs whose rows and columns are eliminated in the matrix, essential dofs of this call, vector
     with the prescribed values, surface charge source. The start value of the interior dofs is
     zero (copy_interior = 0), so nothing else enters. *)
  fe_phi : eps_coef T -> list bool -> list nat -> list nat -> list T -> list T -> list T;
  fe_e : list T -> list T;               (* - grad phi *)
  fe_d : eps_coef T -> list T -> list T  (* H(div) projection of eps E *)
}.
Arguments fe_nH1 {T}. Arguments fe_nND {T}. Arguments fe_nRT {T}. Arguments fe_bdrMax {T}. Arguments fe_domMax {T}. Arguments fe_bdrDofs {T}.
Arguments fe_flux {T}. Arguments fe_bdrPhi {T}. Arguments fe_domPhi {T}. Arguments fe_energy {T}.
Arguments fe_phi {T}. Arguments fe_e {T}. Arguments fe_d {T}.

(** ElectrostaticSolver.h:13-18 SolverInputs *)
Record solver_inputs (T : Type) := {
  si_dirichlet : list (Z * T);
  si_neumann : list (Z * T);
  si_open : list Z;
  si_eps : list (Z * T) }.
Arguments si_dirichlet {T}. Arguments si_neumann {T}. Arguments si_open {T}. Arguments si_eps {T}.

(** ElectrostaticSolver.h:20-22 SolverSolution *)
Record solution (T : Type) := { so_phi : list T; so_e : list T; so_d : list T }.
Arguments so_phi {T}. Arguments so_e {T}. Arguments so_d {T}.

(** ElectrostaticSolver.h:66-96 the state of a solver (spaces and assembled forms are in
    [fem] and in the coefficients they were assembled with). [s_elim] is part of divEpsGrad_:
    BilinearForm::FormSystemMatrix eliminates the essential dofs in the matrix once, in the first
    call of FormLinearSystem (mat_e is null until then), and later calls use that matrix. *)
Record solver (T : Type) := {
  s_params : solver_inputs T;
  s_ess : list bool;            (* ess_bdr_ *)
  s_open : list bool;           (* open_bdr_ *)
  s_eps : eps_coef T;           (* epsCoef_ *)
  s_sigma : list T;             (* sigma_src_ *)
  s_elim : option (list nat);   (* dofs eliminated in divEpsGrad_ *)
  s_phi : list T; s_e : list T; s_d : list T }.
Arguments s_params {T}. Arguments s_ess {T}. Arguments s_open {T}. Arguments s_eps {T}.
Arguments s_sigma {T}. Arguments s_elim {T}. Arguments s_phi {T}. Arguments s_e {T}. Arguments s_d {T}.

(** ElectrostaticSolver.cpp:8-40 AttrToMarker; [bdrMax] is mesh.bdr_attributes.Max(), at least
    1 in any mesh with a boundary. The MFEM_ASSERT of line 22 always holds. *)
Definition set_nth_true (l : list bool) (k : nat) : list bool :=
  map (fun p => if (fst p =? k)%nat then true else snd p) (enum l).
Definition zmax_list (a : Z) (l : list Z) : Z := fold_left Z.max l a.
Definition AttrToMarker (bdrMax : Z) (attrs : list Z) : outcome (list bool) :=
  match attrs with
  | [] => Ok []
  | a :: r =>
      let maxAttr := Z.max (zmax_list a r) bdrMax in
      match attrs with
      | [-1]%Z => Ok (repeat true (Z.to_nat maxAttr))
      | _ => foldM (fun m attr => if (0 <? attr)%Z then Ok (set_nth_true m (Z.to_nat (attr - 1)))
                                  else Throw MfemError)
                   attrs (repeat false (Z.to_nat maxAttr))
      end
  end.

Section Solver.
  Context {T : Type} `{Num T}.
  Open Scope num_scope.
  Variable F : fem T.
  (** momentComponent (multipolarExpansion.h), see Multipole.v *)
  Variable moment : T * T -> nat -> nat -> T * T -> T.

  Definition zeros (n : nat) : list T := repeat n0 n.

  (** v[k] *= x with a checked index *)
  Definition scale_at (v : list T) (k : Z) (x : T) : outcome (list T) :=
    if ((0 <=? k)%Z && (k <? Z.of_nat (List.length v))%Z)%bool
    then Ok (map (fun p => if (fst p =? Z.to_nat k)%nat then snd p * x else snd p) (enum v))
    else Undef IndexOutOfBounds.

  (** ElectrostaticSolver.cpp:98-110 permittivity coefficient *)
  Definition build_eps (dbg : bool) (perm : list (Z * T)) : outcome (eps_coef T) :=
    match perm with
    | [] => Ok (EpsConst n1)
    | _ => let* v := foldM (fun v (ae : Z * T) =>
                              do* assert_ dbg (fst ae <=? Z.of_nat (List.length v))%Z;
                              scale_at v (fst ae - 1) (snd ae))
                           perm (repeat n1 (Z.to_nat (fe_domMax F))) in
           Ok (EpsPW v)
    end.

  (** gf[k] := x for the dofs k in [dofs] *)
  Definition set_dofs (gf : list T) (dofs : list nat) (x : T) : list T :=
    map (fun p => if nmem (fst p) dofs then x else snd p) (enum gf).
  (** dofs of the boundary elements with a given attribute *)
  Definition dofs_of_attr (a : Z) : list nat :=
    flat_map (fun b => if (fst b =? a)%Z then snd b else []) (fe_bdrDofs F).

  (** ElectrostaticSolver.cpp:197-219. GridFunction::ProjectBdrCoefficient with a constant sets
      every dof of the marked boundary elements (the mean of equal values). *)
  Definition applyBoundaryConstantValues (vals : list (Z * T)) (gf : list T) : outcome (list T) :=
    foldM (fun gf (av : Z * T) =>
             if (fst av <=? fe_bdrMax F)%Z then
               if (0 <? fst av)%Z then Ok (set_dofs gf (dofs_of_attr (fst av)) (snd av))
               else Undef IndexOutOfBounds
             else Ok gf)
          vals gf.

  (** ElectrostaticSolver.cpp:59-152 constructor. The grid functions phi, e, d are allocated
      but not initialised; every reader is preceded by Solve or setSolution in the Driver, and
      they are modelled as zero vectors. *)
  Definition mkSolver (dbg : bool) (p : solver_inputs T) : outcome (solver T) :=
    let* ess := AttrToMarker (fe_bdrMax F) (map fst (si_dirichlet p)) in
    let* eps := build_eps dbg (si_eps p) in
    let* opn := AttrToMarker (fe_bdrMax F) (si_open p) in
    let* sig := applyBoundaryConstantValues (si_neumann p) (zeros (fe_nH1 F)) in
    Ok {| s_params := p; s_ess := ess; s_open := opn; s_eps := eps; s_sigma := sig; s_elim := None;
          s_phi := zeros (fe_nH1 F); s_e := zeros (fe_nND F); s_d := zeros (fe_nRT F) |}.

  (** FiniteElementSpace::GetEssentialTrueDofs: dofs of the boundary elements whose attribute
      is marked; bdr_attr_is_ess[attr - 1] is not range checked. *)
  Definition essential_dofs (marker : list bool) : outcome (list nat) :=
    foldM (fun acc (b : Z * list nat) =>
             let* f := vec_at marker (fst b - 1) in
             Ok (if f then acc ++ snd b else acc)) (fe_bdrDofs F) [].

  (** ElectrostaticSolver.cpp:221-277 Solve *)
  Definition Solve (s : solver T) : outcome (solver T) :=
    let* phi0 := applyBoundaryConstantValues (si_dirichlet (s_params s)) (zeros (fe_nH1 F)) in
    let* ess := match si_dirichlet (s_params s) with
                | [] => Ok [0%nat]
                | _ => essential_dofs (s_ess s)
                end in
    let elim := match s_elim s with Some l => l | None => ess end in
    let phi := fe_phi F (s_eps s) (s_open s) elim ess phi0 (s_sigma s) in
    let e := fe_e F phi in
    let d := fe_d F (s_eps s) e in
    Ok {| s_params := s_params s; s_ess := s_ess s; s_open := s_open s; s_eps := s_eps s;
          s_sigma := s_sigma s; s_elim := Some elim; s_phi := phi; s_e := e; s_d := d |}.

  (** ElectrostaticSolver.cpp:279-282 *)
  Definition setDirichletConditions (s : solver T) (dbcs : list (Z * T)) : solver T :=
    {| s_params := {| si_dirichlet := dbcs; si_neumann := si_neumann (s_params s);
                      si_open := si_open (s_params s); si_eps := si_eps (s_params s) |};
       s_ess := s_ess s; s_open := s_open s; s_eps := s_eps s; s_sigma := s_sigma s; s_elim := s_elim s;
       s_phi := s_phi s; s_e := s_e s; s_d := s_d s |}.

  (** ElectrostaticSolver.cpp:284-293; the coefficient is given by its value at each dof. *)
  Definition setNeumannCondition (s : solver T) (attr : Z) (f : nat -> T) : outcome (solver T) :=
    if ((0 <? attr)%Z && (attr <=? fe_bdrMax F)%Z)%bool then
      Ok {| s_params := s_params s; s_ess := s_ess s; s_open := s_open s; s_eps := s_eps s;
            s_sigma := map (fun p => if nmem (fst p) (dofs_of_attr attr) then f (fst p) else snd p)
                           (enum (s_sigma s)); s_elim := s_elim s;
            s_phi := s_phi s; s_e := s_e s; s_d := s_d s |}
    else Undef IndexOutOfBounds.

  (** A boundary linear form with coefficient [c] applied to [d]. MFEM assembles the vector of
      the form first; the sums are exchanged here. *)
  Definition flux_form (c : flux_point T -> T) (d : list T) : T :=
    fold_left (fun a q => a + c q * dot (q_w q) d) (fe_flux F) n0.

  (** ElectrostaticSolver.cpp:295-301 *)
  Definition getTotalCharge (s : solver T) : T := flux_form (fun _ => n1) (s_d s).
  (** ElectrostaticSolver.cpp:388-407 and 463-468 *)
  Definition getChargeInBoundary (s : solver T) (attr : Z) : T :=
    flux_form (fun q => if (q_attr q =? attr)%Z then nopp n1 else n0) (s_d s).

  (** ElectrostaticSolver.cpp:303-347 *)
  Definition chargedBoundaries (s : solver T) : list Z :=
    map fst (si_dirichlet (s_params s)) ++ map fst (si_neumann (s_params s)).
  Definition getChargeMomentComponent (s : solver T) (n d : nat) (center : T * T) : T :=
    match n with
    | O => match d with
           | O => fold_left (fun q b => q + getChargeInBoundary s b) (chargedBoundaries s) n0
           | _ => n0
           end
    | S _ => flux_form (fun q => if zmem (q_attr q) (chargedBoundaries s)
                                 then nopp n1 * moment (q_pos q) n d center else n0) (s_d s)
    end.

  (** ElectrostaticSolver.cpp:349-369 *)
  Definition getCenterOfCharge (s : solver T) : outcome (T * T) :=
    match si_open (s_params s) with
    | [openAttr] =>
        let Q := getTotalCharge s - getChargeInBoundary s openAttr in
        Ok (getChargeMomentComponent s 1 0 (n0, n0) / Q,
            getChargeMomentComponent s 1 1 (n0, n0) / Q)
    | _ => Throw (RuntimeError "Not implemented for closed problems.")
    end.

  (** ElectrostaticSolver.cpp:371-386 *)
  Definition getMultipolarCoefficients (s : solver T) (order : nat) : outcome (list (T * T)) :=
    let* c := getCenterOfCharge s in
    Ok (map (fun n => (getChargeMomentComponent s n 0 c, getChargeMomentComponent s n 1 c))
            (seq 0 (S order))).

  (** ElectrostaticSolver.cpp:430-437 and 447-454 cloneGridFunction, getSolution *)
  Definition getSolution (s : solver T) : solution T :=
    {| so_phi := s_phi s; so_e := s_e s; so_d := s_d s |}.
  (** ElectrostaticSolver.cpp:439-445 and 456-461 copyGridFunctionValues, setSolution *)
  Definition copy_gf (dbg : bool) (tgt src : list T) : outcome (list T) :=
    do* assert_ dbg (List.length tgt =? List.length src)%nat;
    if (List.length src <=? List.length tgt)%nat
    then Ok (src ++ skipn (List.length src) tgt) else Undef IndexOutOfBounds.
  Definition set_fields (s : solver T) (phi e d : list T) : solver T :=
    {| s_params := s_params s; s_ess := s_ess s; s_open := s_open s; s_eps := s_eps s;
       s_sigma := s_sigma s; s_elim := s_elim s; s_phi := phi; s_e := e; s_d := d |}.
  Definition setSolution (dbg : bool) (s : solver T) (x : solution T) : outcome (solver T) :=
    let* phi := copy_gf dbg (s_phi s) (so_phi x) in
    let* e := copy_gf dbg (s_e s) (so_e x) in
    let* d := copy_gf dbg (s_d s) (so_d x) in
    Ok (set_fields s phi e d).

  (** A domain or boundary linear form on H1 restricted to an attribute (PWCoefficient). *)
  Definition h1_form (pts : list (Z * list T)) (attr : Z) (phi : list T) : T :=
    fold_left (fun a (q : Z * list T) =>
                 a + (if (fst q =? attr)%Z then n1 else n0) * dot (snd q) phi) pts n0.
  (** ElectrostaticSolver.cpp:470-493 *)
  Definition getAveragePotentialInDomain (s : solver T) (attr : Z) : T :=
    h1_form (fe_domPhi F) attr (s_phi s) / h1_form (fe_domPhi F) attr (repeat n1 (fe_nH1 F)).
  (** ElectrostaticSolver.cpp:409-428 and 495-507 *)
  Definition getAveragePotentialInBoundary (s : solver T) (attr : Z) : T :=
    h1_form (fe_bdrPhi F) attr (s_phi s) / h1_form (fe_bdrPhi F) attr (repeat n1 (fe_nH1 F)).

  (** ElectrostaticSolver.cpp:509-531 getTotalEnergy: 0.5 <e, M e> with the quadrature of M
      written out. *)
  Definition getTotalEnergy (s : solver T) : outcome T :=
    let* v := foldM (fun v (ae : Z * T) => scale_at v (fst ae - 1) (snd ae))
                    (si_eps (s_params s)) (repeat n1 (Z.to_nat (fe_domMax F))) in
    let* w := foldM (fun a y =>
                       let* eps := vec_at v (y_attr y - 1) in
                       let ex := dot (y_x y) (s_e s) in
                       let ey := dot (y_y y) (s_e s) in
                       Ok (a + y_weight y * eps * (ex * ex + ey * ey))) (fe_energy F) n0 in
    Ok (lit 5 1 * w).

  (** Vector::operator*=(c) and Vector::Add(a, x) (which skips a == 0) *)
  Definition gf_scale (c : T) (x : list T) : list T := map (fun v => v * c) x.
  Fixpoint gf_axpy (a : T) (x y : list T) : list T :=
    match x, y with u :: x', v :: y' => (v + a * u) :: gf_axpy a x' y' | _, _ => y end.
  Definition gf_add (y : list T) (a : T) (x : list T) : list T :=
    if neqb a n0 then y else gf_axpy a x y.

  (** ElectrostaticSolver.cpp:534-543 and 545-554: the fields registered in a collection, by name,
      with the values they have when it is saved (levels of detail and formats are not modelled). *)
  Definition writeParaViewFields (s : solver T) : list (string * list T) :=
    [("Phi", s_phi s); ("D", s_d s); ("E", s_e s)]%string.
  Definition writeVisItFields (s : solver T) : list (string * list T) :=
    [("Phi", s_phi s); ("D", s_d s); ("E", s_e s)]%string.
End Solver.
