(** Specification vocabulary for averages (C55) and for the energy of open problems (C85) with finite
    elements of any order: integrals by the quadrature rules of the reference element. *)
From Coq Require Import Reals.
From Verif Require Import Prelude Materials ModelM RSum SpecTriangles SpecOpen Elements SpecElements.
Open Scope R_scope.
Open Scope list_scope.

Section Mesh.
  Variable ref : reference R.
  Variable ms : mesh R.
  (** Integral over the elements with the tag [t] of a function of the points of the reference triangle *)
  Definition integral_in (t : Z) (f : nat * element R -> R * R -> R) : R :=
    Rsum (filter (fun x => (e_attr (snd x) =? t)%Z) (numbered ms))
      (fun x => 2 * area ms (snd x) * Rsum (re_rule2 ref) (fun q => snd q * f x (fst q))).
  (** Integral over the boundary elements with the tag [t] of a function of the fraction of the way along them *)
  Definition integral_on (t : Z) (f : element R -> R -> R) : R :=
    Rsum (tagged t (m_bdr ms)) (fun b => segment_length ms b * Rsum (re_rule1 ref) (fun q => snd q * f b (fst q))).
  (** [u] gives the values of the potential [phi] along the boundary elements. *)
  Definition values_along (phi : list R) (u : element R -> R -> R) : Prop :=
    forall b s, In b (m_bdr ms) -> 0 <= s <= 1 ->
      exists v w x p, e_verts b = [v; w] /\ triangle ms x /\ on_side (snd x) v w s p /\ u b s = value_in ref ms phi x p.
  (** The point at the fraction [s] of the way along a boundary element *)
  Definition spot (b : element R) (s : R) : R * R :=
    match e_verts b with
    | [v; w] => let p := m_coord ms v in let q := m_coord ms w in ((1 - s) * fst p + s * fst q, (1 - s) * snd p + s * snd q)
    | _ => (0, 0) end.
End Mesh.

(** 1/2 integral of abc u^2 over the open boundaries *)
Definition absorbed_by_rule (ref : reference R) (abc : R * R -> R) (m : model R) (u : element R -> R -> R) : R :=
  Rsum (filter (fun b => zmem (e_attr b) (map o_attr (openBoundaries (mo_mats m)))) (m_bdr (mo_mesh m)))
    (fun b => / 2 * segment_length (mo_mesh m) b * Rsum (re_rule1 ref) (fun q => snd q * abc (spot (mo_mesh m) b (fst q)) * (u b (fst q) * u b (fst q)))).
