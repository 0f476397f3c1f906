(** Specification vocabulary for charges, moments, averages and energy (C36-C38, C55, C56),
    over the real numbers. *)
From Verif Require Import Prelude Matrix Solver RSum.
From Coq Require Import Reals.
Open Scope R_scope.

Section Spec.
  Variable F : fem R.
  (** the flux of the field [d] out of the mesh through the quadrature point [q] *)
  Definition flux_at (d : list R) (q : flux_point R) : R := dot (q_w q) d.
  (** ... through all boundaries whose tag satisfies [P] *)
  Definition flux_out (d : list R) (P : Z -> bool) : R :=
    Rsum (filter (fun q => P (q_attr q)) (fe_flux F)) (flux_at d).
  (** every boundary of the mesh has one of these tags *)
  Definition covers (tags : list Z) : Prop :=
    forall q, In q (fe_flux F) -> In (q_attr q) tags.

  (** sum of two fields and multiple of a field *)
  Definition vadd (x y : list R) : list R := map (fun p => fst p + snd p) (combine x y).
  Definition vscale (c : R) (x : list R) : list R := map (fun v => c * v) x.

  (** the same solver with another displacement field, potential or electric field *)
  Definition with_d (s : solver R) (d : list R) : solver R := set_fields s (s_phi s) (s_e s) d.
  Definition with_phi (s : solver R) (phi : list R) : solver R := set_fields s phi (s_e s) (s_d s).
  Definition with_e (s : solver R) (e : list R) : solver R := set_fields s (s_phi s) e (s_d s).

  (** relative permittivity that a map from tags assigns to a tag (1 if it is not listed) *)
  Definition eps_of (eps : list (Z * R)) (t : Z) : R :=
    match find (fun ae => (fst ae =? t)%Z) eps with Some ae => snd ae | None => 1 end.
  (** 1/2 sum of weight * eps * |E|^2 over the quadrature points *)
  Definition energy_spec (eps : list (Z * R)) (e : list R) : R :=
    / 2 * Rsum (fe_energy F) (fun y => y_weight y * eps_of eps (y_attr y) *
                                        (dot (y_x y) e ^ 2 + dot (y_y y) e ^ 2)).
  (** the energy form only has tags of the mesh *)
  Definition energy_tags_ok : Prop :=
    forall y, In y (fe_energy F) -> (0 < y_attr y <= fe_domMax F)%Z.
End Spec.
(** The charges on the charged boundaries: minus the flux at each quadrature point. *)
Definition boundary_charges (F : fem R) (s : solver R) : list (R * (R * R)) :=
  map (fun q => (- flux_at (s_d s) q, q_pos q))
      (filter (fun q => zmem (q_attr q) (chargedBoundaries s)) (fe_flux F)).
