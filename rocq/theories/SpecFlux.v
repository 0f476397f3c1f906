(** Specification vocabulary for C71: the displacement fields of first order elements. *)
From Coq Require Import Reals.
From Verif Require Import Prelude Materials ModelM RSum SpecTriangles.
Open Scope R_scope.
Open Scope list_scope.

(** The vector field (a + c x, b + c y), given by (a, b, c) *)
Definition value (F : R * R * R) (p : R * R) : R * R :=
  let '(a, b, c) := F in (a + c * fst p, b + c * snd p).
Definition midpoint (p q : R * R) : R * R := ((fst p + fst q) / 2, (snd p + snd q) / 2).
(** Its flux through the segment from [p] to [q], from left to right (the normal component of such a
    field is constant along a segment). *)
Definition flux_through (F : R * R * R) (p q : R * R) : R :=
  fst (value F (midpoint p q)) * (snd q - snd p) - snd (value F (midpoint p q)) * (fst q - fst p).

Section Mesh.
  Variable ms : mesh R.
  Notation at_ v := (m_coord ms v).
  (** A field of this kind on each triangle, such that what flows out of a triangle through a side
      flows into its neighbour. *)
  Definition joins (e : element R) (v w : Z) : Prop := side_of e v w \/ side_of e w v.
  Definition conservative_flux (F : element R -> R * R * R) : Prop :=
    forall e e' v w, In e (m_elems ms) -> In e' (m_elems ms) -> joins e v w -> joins e' v w ->
      flux_through (F e) (at_ v) (at_ w) = flux_through (F e') (at_ v) (at_ w).
  (** Integral over the triangle [e] of |F - k u|^2, [u] a constant vector: the rule of the midpoints
      of the sides is exact for polynomials of degree 2. *)
  Definition square_distance (F : R * R * R) (k : R) (u : R * R) (p : R * R) : R :=
    let v := value F p in (fst v - k * fst u) * (fst v - k * fst u) + (snd v - k * snd u) * (snd v - k * snd u).
  Definition misfit (e : element R) (F : R * R * R) (k : R) (u : R * R) : R :=
    match e_verts e with
    | [a; b; c] => area ms e / 3 * (square_distance F k u (midpoint (at_ a) (at_ b)) + square_distance F k u (midpoint (at_ b) (at_ c))
                                    + square_distance F k u (midpoint (at_ c) (at_ a)))
    | _ => 0
    end.
  (** Integral over the mesh of |F - eps E|^2, where E = - grad phi has the value [u e] on [e] *)
  Definition total_misfit (eps : Z -> R) (u : element R -> R * R) (F : element R -> R * R * R) : R :=
    Rsum (m_elems ms) (fun e => misfit e (F e) (eps (e_attr e)) (u e)).
  (** [u] is minus the gradient of [phi]. *)
  Definition minus_slope (phi : list R) (u : element R -> R * R) : Prop :=
    forall e, In e (m_elems ms) -> slope ms phi e (- fst (u e), - snd (u e)).
  (** [f]: flux of [F] into the domain through the boundary element [b] (the domain is to the left) *)
  Definition enters (F : element R -> R * R * R) (b : element R) (f : R) : Prop :=
    exists v w e, e_verts b = [v; w] /\ In e (m_elems ms) /\ side_of e v w /\ f = - flux_through (F e) (at_ v) (at_ w).
  (** [q]: total flux of [F] that enters the domain through the boundary with tag [t] *)
  Definition flux_from (F : element R -> R * R * R) (t : Z) (q : R) : Prop :=
    exists f, (forall b, In b (m_bdr ms) -> enters F b (f b)) /\ q = Rsum (filter (fun b => (e_attr b =? t)%Z) (m_bdr ms)) f.
End Mesh.
