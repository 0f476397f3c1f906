(** Specification vocabulary for the field computation (C57-C62), over the real numbers: weak form
    and energy of the boundary value problem, written with the values of the fields at the
    quadrature points. *)
From Coq Require Import Reals.
From Verif Require Import Prelude StdMap Materials Graph ModelM Parser Matrix Solver Fem Driver RSum SpecSolver SpecDriver SpecCharge SpecField.
Open Scope R_scope.
Open Scope list_scope.

Section Spec.
  Variable abc : R * R -> R.
  Variable D : discretization R.

  (** The tables of a discretization have the sizes of their spaces, positive weights and tags of the mesh; no
      basis function of H1 is flat; a field of the RT space that vanishes at all points is zero. *)
  Record tables_ok : Prop := {
    to_bdr : forall b, In b (di_bdrDofs D) -> (0 < fst b <= di_bdrMax D)%Z /\ forall k, In k (snd b) -> (k < di_nH1 D)%nat;
    to_grad : forall q, In q (di_grad D) -> List.length (g_x q) = di_nH1 D /\ List.length (g_y q) = di_nH1 D /\
      0 < g_weight q /\ (0 < g_attr q <= di_domMax D)%Z;
    to_abc : forall q, In q (di_abc D) -> List.length (b_shape q) = di_nH1 D /\ 0 < b_weight q /\ (0 < b_attr q <= di_bdrMax D)%Z;
    to_surf : forall q, In q (di_surf D) -> List.length (b_shape q) = di_nH1 D;
    to_basis : forall k, (k < di_nH1 D)%nat -> exists q, In q (di_grad D) /\ (nth k (g_x q) 0 <> 0 \/ nth k (g_y q) 0 <> 0);
    to_gradient : List.length (di_gradient D) = di_nND D /\ forall r, In r (di_gradient D) -> List.length r = di_nH1 D;
    to_rt : forall q, In q (di_rt D) -> List.length (r_x q) = di_nRT D /\ List.length (r_y q) = di_nRT D /\ 0 < r_weight q;
    to_rt_basis : forall d, List.length d = di_nRT D -> (forall q, In q (di_rt D) -> dot (r_x q) d = 0 /\ dot (r_y q) d = 0) ->
      d = repeat 0 (di_nRT D);
    to_mix : forall q, In q (di_mix D) -> (0 < x_attr q <= di_domMax D)%Z }.

  (** Potentials are given by their coefficients. *)
  Definition potential (phi : list R) : Prop := List.length phi = di_nH1 D.
  Definition grad2 (q : grad_point R) (phi psi : list R) : R := dot (g_x q) phi * dot (g_x q) psi + dot (g_y q) phi * dot (g_y q) psi.
  (** the points of the open boundaries of a problem *)
  Definition open_points (p : solver_inputs R) : list (surf_point R) := filter (fun q => zmem (b_attr q) (si_open p)) (di_abc D).
  (** Weak form: integral of eps grad phi . grad psi, plus integral of the absorbing coefficient
      times phi psi over the open boundaries. *)
  Definition work (p : solver_inputs R) (phi psi : list R) : R :=
    Rsum (di_grad D) (fun q => g_weight q * eps_of (si_eps p) (g_attr q) * grad2 q phi psi) +
    Rsum (open_points p) (fun q => b_weight q * abc (b_pos q) * (dot (b_shape q) phi * dot (b_shape q) psi)).
  (** Work of the surface charge density [sigma] *)
  Definition source (sigma psi : list R) : R :=
    Rsum (di_surf D) (fun q => b_weight q * dot (b_shape q) sigma * dot (b_shape q) psi).
  (** Energy of the potential [psi] *)
  Definition energy (p : solver_inputs R) (sigma psi : list R) : R := / 2 * work p psi psi - source sigma psi.

  (** A problem for the solver: distinct positive tags, positive permittivities, open boundaries
      where the absorbing coefficient is positive. *)
  Record problem_ok (p : solver_inputs R) : Prop := {
    po_inputs : inputs_ok (discretize abc D) p;
    po_sorted : StdMap.msorted (si_dirichlet p) /\ StdMap.msorted (si_eps p) /\ StdMap.msorted (si_neumann p);
    po_dirichlet : si_dirichlet p <> [];
    po_eps : forall t x, In (t, x) (si_eps p) -> 0 < x;
    po_abc : forall q, In q (open_points p) -> 0 < abc (b_pos q) }.
  (** [phi] has the prescribed value on the Dirichlet boundaries (where several meet: that of the
      largest tag). *)
  Definition prescribed (p : solver_inputs R) (phi : list R) : Prop :=
    forall t v k, In (t, v) (si_dirichlet p) -> on_boundary (discretize abc D) t k ->
      (forall t' v', In (t', v') (si_dirichlet p) -> on_boundary (discretize abc D) t' k -> (t' <= t)%Z) ->
      nth_error phi k = Some v.
  (** Every part of the mesh touches a Dirichlet or open boundary: a potential without gradient
      that vanishes on them is zero. *)
  Definition anchored (p : solver_inputs R) : Prop :=
    forall z, potential z ->
      (forall t v k, In (t, v) (si_dirichlet p) -> on_boundary (discretize abc D) t k -> nth_error z k = Some 0) ->
      (forall q, In q (di_grad D) -> dot (g_x q) z = 0 /\ dot (g_y q) z = 0) ->
      (forall q, In q (open_points p) -> dot (b_shape q) z = 0) -> z = repeat 0 (di_nH1 D).
  (** [sigma]: the surface charge density of the Neumann boundaries *)
  Definition surface_density (p : solver_inputs R) (sigma : list R) : Prop :=
    List.length sigma = di_nH1 D /\ forall k, (k < di_nH1 D)%nat -> prescribed_value (discretize abc D) (si_neumann p) k (nth k sigma 0).
  (** [x]: the fields a new solver computes for the problem [p] *)
  Definition computes (dbg : bool) (p : solver_inputs R) (x : solution R) : Prop :=
    exists s, mkSolver (discretize abc D) dbg p = Ok s /\ solved_fields (discretize abc D) s = Ok x.
  (** E is minus the (discrete) gradient of the potential. *)
  Definition is_minus_gradient (x : solution R) : Prop :=
    so_e x = map (fun row => - dot row (so_phi x)) (di_gradient D).
  (** [d] is the projection of eps times [e] to the RT space: both have the same integral against
      every field of that space. *)
  Definition projects (p : solver_inputs R) (e d : list R) : Prop :=
    List.length d = di_nRT D /\ forall t, List.length t = di_nRT D ->
      Rsum (di_rt D) (fun q => r_weight q * (dot (r_x q) d * dot (r_x q) t + dot (r_y q) d * dot (r_y q) t)) =
      Rsum (di_mix D) (fun q => x_weight q * eps_of (si_eps p) (x_attr q) *
                                (dot (x_ndx q) e * dot (x_rtx q) t + dot (x_ndy q) e * dot (x_rty q) t)).

  (** A model whose field problems are regular: positive permittivities, a conductor, positive
      absorbing coefficients, every part of the mesh touches a conductor or an open boundary. *)
  Definition at_open (m : model R) (q : surf_point R) : Prop :=
    In q (di_abc D) /\ exists o, In o (openBoundaries (mo_mats m)) /\ o_attr o = b_attr q.
  Definition flat (z : list R) : Prop := forall q, In q (di_grad D) -> dot (g_x q) z = 0 /\ dot (g_y q) z = 0.
  Record regular_model (m : model R) : Prop := {
    rm_tables : tables_ok;
    rm_epsr : forall d, In d (dielectrics (mo_mats m)) -> 0 < d_epsr d;
    rm_conductors : pecs (mo_mats m) <> [];
    rm_tags : NoDup (map p_attr (pecs (mo_mats m)));
    rm_abc : forall q, at_open m q -> 0 < abc (b_pos q);
    rm_anchored : forall z, potential z -> flat z ->
      (forall c k, In c (pecs (mo_mats m)) -> on_boundary (discretize abc D) (p_attr c) k -> nth_error z k = Some 0) ->
      (forall q, at_open m q -> dot (b_shape q) z = 0) -> z = repeat 0 (di_nH1 D) }.
  (** [x]: the fields a new solver computes with the potentials [v] (by tag) on the conductors *)
  Definition model_fields (dbg : bool) (m : model R) (ignore : bool) (v : Z -> R) (x : solution R) : Prop :=
    exists p, conductor_problem (mo_mats m) ignore v p /\ computes dbg p x.
  (** Constants belong to the H1 space, have no gradient and the value 1 on open boundaries. *)
  Record constants_ok : Prop := {
    co_flat : flat (repeat 1 (di_nH1 D));
    co_gradient : forall r, In r (di_gradient D) -> dot r (repeat 1 (di_nH1 D)) = 0;
    co_shape : forall q, In q (di_abc D) -> dot (b_shape q) (repeat 1 (di_nH1 D)) = 1 }.
  (** [psi] has the potentials [v] on the conductors (where several meet: that of the largest tag). *)
  Definition has_potentials (m : model R) (v : Z -> R) (psi : list R) : Prop :=
    potential psi /\ forall c k, In c (pecs (mo_mats m)) -> on_boundary (discretize abc D) (p_attr c) k ->
      (forall c', In c' (pecs (mo_mats m)) -> on_boundary (discretize abc D) (p_attr c') k -> (p_attr c' <= p_attr c)%Z) ->
      nth_error psi k = Some (v (p_attr c)).
  (** Gauss's law: the charge on a conductor, computed from the flux of D, is the work against any
      potential that is 1 on it and 0 on the other ones. *)
  Definition gauss (dbg : bool) (m : model R) (ignore : bool) : Prop :=
    forall v p x c psi q, conductor_problem (mo_mats m) ignore v p -> computes dbg p x -> In c (pecs (mo_mats m)) ->
      has_potentials m (unit_potential (p_attr c)) psi -> charge_on (discretize abc D) x (p_attr c) q ->
      q = work p (so_phi x) psi.
  (** The mesh is connected, each conductor has a degree of freedom that no conductor with a larger
      tag shares, open boundaries have quadrature points. *)
  Record connected_mesh (m : model R) : Prop := {
    cm_connected : forall z, potential z -> flat z -> exists c, z = repeat c (di_nH1 D);
    cm_visible : forall c, In c (pecs (mo_mats m)) -> exists k, on_boundary (discretize abc D) (p_attr c) k /\
      forall c', In c' (pecs (mo_mats m)) -> on_boundary (discretize abc D) (p_attr c') k -> (p_attr c' <= p_attr c)%Z;
    cm_open : forall o, In o (openBoundaries (mo_mats m)) -> exists q, In q (di_abc D) /\ b_attr q = o_attr o }.
  (** Both quadratures, that of the energy form for E = - grad phi and that of the weak form,
      give the same integrals of |grad phi|^2 over the media. *)
  Definition same_quadrature : Prop :=
    (forall y, In y (di_energy D) -> (0 < y_attr y <= di_domMax D)%Z) /\
    forall (phi : list R) (f : Z -> R), potential phi ->
      let e := map (fun row => - dot row phi) (di_gradient D) in
      Rsum (di_energy D) (fun y => y_weight y * f (y_attr y) * (dot (y_x y) e * dot (y_x y) e + dot (y_y y) e * dot (y_y y) e)) =
      Rsum (di_grad D) (fun q => g_weight q * f (g_attr q) * grad2 q phi phi).
End Spec.

(** The mesh of [D'] is that of [D] with all lengths multiplied by [s]: gradients and fields of the
    ND and RT bases are divided by [s], areas multiplied by its square; degrees of freedom, edge
    integrals (gradient operator) and fluxes through edges stay. The last two lines are for open
    boundaries. *)
Definition shrunk (s : R) (l l' : list R) : Prop := l' = map (fun y => y / s) l.
Record rescaled (s : R) (D D' : discretization R) : Prop := {
  rs_sizes : di_nH1 D' = di_nH1 D /\ di_nND D' = di_nND D /\ di_nRT D' = di_nRT D /\ di_bdrDofs D' = di_bdrDofs D /\ di_domMax D' = di_domMax D;
  rs_gradient : di_gradient D' = di_gradient D;
  rs_grad : Forall2 (fun q q' => g_attr q' = g_attr q /\ g_weight q' = s * s * g_weight q /\ shrunk s (g_x q) (g_x q') /\ shrunk s (g_y q) (g_y q')) (di_grad D) (di_grad D');
  rs_rt : Forall2 (fun q q' => r_weight q' = s * s * r_weight q /\ shrunk s (r_x q) (r_x q') /\ shrunk s (r_y q) (r_y q')) (di_rt D) (di_rt D');
  rs_mix : Forall2 (fun q q' => x_attr q' = x_attr q /\ x_weight q' = s * s * x_weight q /\ shrunk s (x_ndx q) (x_ndx q') /\ shrunk s (x_ndy q) (x_ndy q') /\
                                shrunk s (x_rtx q) (x_rtx q') /\ shrunk s (x_rty q) (x_rty q')) (di_mix D) (di_mix D');
  rs_flux : Forall2 (fun q q' => q_attr q' = q_attr q /\ q_w q' = q_w q) (di_flux D) (di_flux D');
  rs_abc : Forall2 (fun q q' => b_attr q' = b_attr q /\ b_weight q' = s * b_weight q /\ b_shape q' = b_shape q /\
                                b_pos q' = (s * fst (b_pos q), s * snd (b_pos q))) (di_abc D) (di_abc D') }.

(** The value given for a tag (0 if there is none) *)
Definition value_of (l : list (Z * R)) (t : Z) : R := match mget t l with Some v => v | None => 0 end.
(** [l] has the tags of the maps [ls] and the values sum_j c_j l_j. *)
Definition combined_values (ls : list (list (Z * R))) (c : nat -> R) (l : list (Z * R)) : Prop :=
  (forall l', In l' ls -> map fst l' = map fst l) /\ forall t v, In (t, v) l -> v = Sum (List.length ls) (fun j => c j * value_of (nth j ls []) t).

(** A Driver built for the model [m] on the discretization [disc]; [conds]: its conductors by number. *)
Definition galerkin (abc : R * R -> R) (disc : mesh R -> Z -> discretization R) : mesh R -> Z -> fem R :=
  fun ms k => discretize abc (disc ms k).
Record galerkin_driver (abc : R * R -> R) (disc : mesh R -> Z -> discretization R) (dbg : bool) (m : model R)
    (o : driver_options) (d : driver R) (conds : list (pec R)) : Prop := {
  gd_posed : well_posed (galerkin abc disc (mo_mesh m) (o_order o)) m;
  gd_regular : regular_model abc (disc (mo_mesh m) (o_order o)) m;
  gd_built : built dbg (galerkin abc disc) m o d;
  gd_order : in_order (mo_mats m) conds }.
(** The potentials [v] by tag are [V] by number. *)
Definition potentials_by_number (conds : list (pec R)) (V : nat -> R) (v : Z -> R) : Prop :=
  forall j q, nth_error conds j = Some q -> v (p_attr q) = V j.
(** All of the mesh is filled with media of relative permittivity [er]. *)
Definition homogeneous (D : discretization R) (m : model R) (er : R) : Prop :=
  0 < er /\ (forall d, In d (dielectrics (mo_mats m)) -> d_epsr d = er) /\
  (forall q, In q (di_grad D) -> In (g_attr q) (map d_attr (dielectrics (mo_mats m)))) /\
  (forall q, In q (di_mix D) -> In (x_attr q) (map d_attr (dielectrics (mo_mats m)))).
