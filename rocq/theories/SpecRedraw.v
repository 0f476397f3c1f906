(** Specification vocabulary for C62 and C70 at any order: the finite element spaces of a cross
    section that is drawn elsewhere. *)
From Coq Require Import Reals.
From Verif Require Import Prelude Materials ModelM Solver Fem RSum SpecSolver SpecFem.
Open Scope R_scope.
Open Scope list_scope.

(** The vector fields (x', y') of a basis are the fields (x, y), turned by the angle with cosine [c]
    and sine [n] and divided by [s]. *)
Definition carried (s c n : R) (x y x' y' : list R) : Prop :=
  forall k, nth k x' 0 = (c * nth k x 0 - n * nth k y 0) / s /\ nth k y' 0 = (n * nth k x 0 + c * nth k y 0) / s.
(** The mesh of [D'] is that of [D] after turning by that angle, multiplying all lengths by [s]
    and shifting ([f]: where a point of an open boundary goes): gradients and fields of the ND and RT
    bases turn and are divided by [s], areas are multiplied by its square; degrees of freedom, edge
    integrals (gradient operator) and fluxes through edges stay. *)
Record redrawn_spaces (s c n : R) (f : R * R -> R * R) (D D' : discretization R) : Prop := {
  rw_motion : 0 < s /\ c * c + n * n = 1;
  rw_sizes : di_nH1 D' = di_nH1 D /\ di_nND D' = di_nND D /\ di_nRT D' = di_nRT D /\ di_bdrDofs D' = di_bdrDofs D;
  rw_gradient : di_gradient D' = di_gradient D;
  rw_grad : Forall2 (fun q q' => g_attr q' = g_attr q /\ g_weight q' = s * s * g_weight q /\ carried s c n (g_x q) (g_y q) (g_x q') (g_y q')) (di_grad D) (di_grad D');
  rw_rt : Forall2 (fun q q' => r_weight q' = s * s * r_weight q /\ carried s c n (r_x q) (r_y q) (r_x q') (r_y q')) (di_rt D) (di_rt D');
  rw_mix : Forall2 (fun q q' => x_attr q' = x_attr q /\ x_weight q' = s * s * x_weight q /\
                                carried s c n (x_ndx q) (x_ndy q) (x_ndx q') (x_ndy q') /\ carried s c n (x_rtx q) (x_rty q) (x_rtx q') (x_rty q')) (di_mix D) (di_mix D');
  rw_flux : Forall2 (fun q q' => q_attr q' = q_attr q /\ q_w q' = q_w q) (di_flux D) (di_flux D');
  rw_abc : Forall2 (fun q q' => b_attr q' = b_attr q /\ b_weight q' = s * b_weight q /\ b_shape q' = b_shape q /\ b_pos q' = f (b_pos q)) (di_abc D) (di_abc D') }.
(** The absorbing coefficient [abc'] of the new drawing is the one of the old drawing, in the new
    unit of length, at the points of the open boundaries. (No condition in closed problems.) *)
Definition absorbs_as_before (s : R) (f : R * R -> R * R) (abc abc' : R * R -> R) (D : discretization R) (m : model R) : Prop :=
  forall q, at_open D m q -> s * abc' (f (b_pos q)) = abc (b_pos q).

(** The space of potentials of [D'] contains that of [D] (a finer mesh, a higher order): each
    potential of [D] is one of [D'], written [P phi], with the same integrals of |grad|^2 over the
    media; when it is constant on a boundary with a tag of [ts], so is the same potential in [D']. *)
Record richer (abc : R * R -> R) (D D' : discretization R) (ts : list Z) (P : list R -> list R) : Prop := {
  ri_potential : forall phi, potential D phi -> potential D' (P phi);
  ri_energy : forall (phi : list R) (f : Z -> R), potential D phi ->
    Rsum (di_grad D') (fun q => g_weight q * f (g_attr q) * grad2 q (P phi) (P phi)) =
    Rsum (di_grad D) (fun q => g_weight q * f (g_attr q) * grad2 q phi phi);
  ri_boundary : forall phi t x, potential D phi -> In t ts ->
    (forall k, on_boundary (discretize abc D) t k -> nth_error phi k = Some x) ->
    forall k, on_boundary (discretize abc D') t k -> nth_error (P phi) k = Some x }.
(** Conductors have no degree of freedom in common. *)
Definition apart (abc : R * R -> R) (D : discretization R) (m : model R) : Prop :=
  forall c c' k, In c (pecs (mo_mats m)) -> In c' (pecs (mo_mats m)) ->
    on_boundary (discretize abc D) (p_attr c) k -> on_boundary (discretize abc D) (p_attr c') k -> p_attr c = p_attr c'.
