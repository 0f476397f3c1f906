(** Specification vocabulary for C87: the energy of an error. *)
From Coq Require Import Reals.
From Verif Require Import Prelude Materials ModelM Matrix Solver Fem RSum SpecSolver SpecFem SpecIter.
Open Scope R_scope.

(** The energy of the difference of two fields: half the integral of eps |grad u - grad u'|^2 *)
Definition error_energy (abc : R * R -> R) (D : discretization R) (p : solver_inputs R) (u u' : list R) : R :=
  / 2 * work abc D p (minus u u') (minus u u').
(** [phi] has the values [v] on the conductors; seen in the richer space [D'] (by [P]) its error against [phi'] has
    the energy [w], and that of any other potential of [D] with these values has more. *)
Definition best_of (abc : R * R -> R) (D D' : discretization R) (m : model R) (v : Z -> R) (p : solver_inputs R) (P : list R -> list R) (phi phi' : list R) (w : R) : Prop :=
  has_potentials abc D m v phi /\ error_energy abc D' p (P phi) phi' = w /\
  forall psi, has_potentials abc D m v psi -> psi <> phi ->
    error_energy abc D' p (P phi) phi' < error_energy abc D' p (P psi) phi'.
