(** Specification vocabulary for the iterative solver (C77-C79), over the real numbers. *)
From Coq Require Import Reals.
From Verif Require Import Prelude StdMap Materials Graph ModelM Parser Matrix Solver Fem Iterative Driver RSum SpecSolver SpecDriver SpecCharge SpecField SpecFem.
Open Scope R_scope.
Open Scope list_scope.

Section Spec.
  Variable abc : R * R -> R.
  Variable D : discretization R.
  (** [x]: the fields a new solver computes for the problem [p] with mfem::PCG *)
  Definition iterates (dbg : bool) (p : solver_inputs R) (x : solution R) : Prop :=
    exists s, mkSolver (discretize_pcg abc D) dbg p = Ok s /\ solved_fields (discretize_pcg abc D) s = Ok x.
  (** difference of two fields, and the basis functions, as coefficients *)
  Definition minus (x y : list R) : list R := map (fun k => nth k x 0 - nth k y 0) (seq 0 (List.length x)).
  Definition hat (n i : nat) : list R := map (fun k => if (k =? i)%nat then 1 else 0) (seq 0 n).
  Definition held (p : solver_inputs R) (k : nat) : Prop := exists t v, In (t, v) (si_dirichlet p) /\ on_boundary (discretize abc D) t k.
  (** [z] has the prescribed values on the Dirichlet boundaries and zeros at all other degrees of freedom. *)
  Definition zero_extension (p : solver_inputs R) (z : list R) : Prop :=
    potential D z /\ prescribed abc D p z /\ forall k, (k < di_nH1 D)%nat -> ~ held p k -> nth k z 0 = 0.
  (** [c] bounds the condition number of the problem and [w] the number of couplings of a degree of
      freedom: sum_i a(h_i, h_i) u_i^2 <= c a(u, u) for the form a and the basis h_i. *)
  Definition conditioned (n : nat) (a : list R -> list R -> R) (V : list R -> Prop) (c : R) (w : nat) : Prop :=
    0 <= c /\
    (forall u, V u -> Sum n (fun i => a (hat n i) (hat n i) * (nth i u 0 * nth i u 0)) <= c * a u u) /\
    forall i, (i < n)%nat -> exists l, (List.length l <= w)%nat /\ forall j, (j < n)%nat -> j <> i -> a (hat n i) (hat n j) <> 0 -> In j l.
  (** potentials that vanish on the Dirichlet boundaries *)
  Definition vanishing (p : solver_inputs R) (u : list R) : Prop := potential D u /\ forall k, held p k -> nth_error u k = Some 0.
  (** integral of the product of two fields of the RT space *)
  Definition flux2 (d t : list R) : R :=
    Rsum (di_rt D) (fun q => r_weight q * (dot (r_x q) d * dot (r_x q) t + dot (r_y q) d * dot (r_y q) t)).
  (** Condition number of the preconditioned problem, and the factor by which at most 500 steps with
      the relative tolerance 1e-12 reduce the square of the error *)
  Definition kappa (c : R) (w : nat) : R := 1 + INR w * INR w * c.
  Definition reduction (c : R) (w : nat) : R := Rmax (kappa c w / 10 ^ 12) ((1 - / kappa c w) ^ 500).
  (** minus the gradient of a potential *)
  Definition field_of (u : list R) : list R := map (fun row => - dot row u) (di_gradient D).
  (** [m] bounds the projection of eps grad u by the energy of u, [g] the flux through the boundaries of tag [t]. *)
  Definition flux_bound (p : solver_inputs R) (m : R) : Prop :=
    0 <= m /\ forall u d, vanishing p u -> projects D p (field_of u) d -> flux2 d d <= m * work abc D p u u.
  Definition charge_bound (t : Z) (g : R) : Prop :=
    0 <= g /\ forall d, List.length d = di_nRT D -> flux_out (discretize abc D) d (fun a => (a =? t)%Z) ^ 2 <= g * flux2 d d.
End Spec.

(** The finite element library whose linear systems are solved with mfem::PCG *)
Definition iterative (abc : R * R -> R) (disc : mesh R -> Z -> discretization R) : mesh R -> Z -> fem R :=
  fun ms k => discretize_pcg abc (disc ms k).
(** Constants for the problems with 1 V on one conductor, [pr i] for the one with number i:
    condition numbers (c, w) and (c', w') of both linear systems, bounds [mu] and [g] for the
    projection of fields and for the flux through a conductor, and the energy [W] and flux [Phi] of
    the potential the iteration starts from. *)
Record solver_constants (abc : R * R -> R) (D : discretization R) (m : model R) (ignore : bool) (conds : list (pec R))
    (pr : nat -> solver_inputs R) (c : R) (w : nat) (c' : R) (w' : nat) (mu g W Phi : R) : Prop := {
  sc_problem : forall i pi, nth_error conds i = Some pi -> conductor_problem (mo_mats m) ignore (unit_potential (p_attr pi)) (pr i);
  sc_work : forall i, (i < List.length conds)%nat -> conditioned (di_nH1 D) (work abc D (pr i)) (vanishing abc D (pr i)) c w;
  sc_flux : conditioned (di_nRT D) (flux2 D) (fun d => List.length d = di_nRT D) c' w';
  sc_project : forall i, (i < List.length conds)%nat -> flux_bound abc D (pr i) mu;
  sc_charge : forall p, In p conds -> charge_bound abc D (p_attr p) g;
  sc_start : forall i z d, (i < List.length conds)%nat -> zero_extension abc D (pr i) z -> projects D (pr i) (field_of D z) d ->
    work abc D (pr i) z z <= W /\ flux2 D d d <= Phi }.
(** Error of a charge with these constants *)
Definition tolerance (c : R) (w : nat) (c' : R) (w' : nat) (mu g W Phi : R) : R :=
  sqrt (2 * g * (mu * reduction c w * W + Rmax (reduction c' w' * (2 * Phi + 8 * mu * W)) (kappa c' w' / 10 ^ 24))).
(** Error of the charge-neutral reduction (Paul 5.21) of an [n] x [n] matrix with row and column sums
    of size at most [a] and the total [s] when its entries have the error [t] *)
Definition neutral_tolerance (n : nat) (a s t : R) : R :=
  t + INR n * t * (2 * a + INR n * t) / (s - INR n ^ 2 * t) + a ^ 2 * (INR n ^ 2 * t) / (s * (s - INR n ^ 2 * t)).
(** [a] bounds the charge a conductor gets with 1 V on all of them, and the total charge with 1 V on one. *)
Definition sums_bounded (n : nat) (g : matrix R) (a : R) : Prop :=
  forall i, (i < n)%nat -> Rabs (Sum n (fun j => ent g i j)) <= a /\ Rabs (Sum n (fun j => ent g j i)) <= a.
