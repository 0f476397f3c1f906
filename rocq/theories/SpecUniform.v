(** Specification vocabulary for C72 at any order: reference elements that contain the linear functions and
    the uniform fields, and exact solutions with uniform fields in each triangle. *)
From Coq Require Import Reals.
From Verif Require Import Prelude Materials ModelM Matrix Solver Fem RSum SpecTriangles SpecFlux SpecExact SpecElements Triangles Elements.
Open Scope R_scope.
Open Scope list_scope.

Section Reference.
  Variable ref : reference R.
  Notation ns := (re_side ref).
  Notation ni := (re_inner ref).
  Definition times (x : R) (l : list R) : list R := map (fun y => x * y) l.
  Record linear_complete : Prop := {
    (** linear functions belong to the space; their coefficients on a side depend on the values at its ends *)
    lc_functions : exists S I, List.length S = ns /\ List.length I = ni /\
      (forall p a b c, dot (re_h1 ref p) (local a b c (applied S [a; b]) (applied S [b; c]) (applied S [c; a]) (applied I [a; b; c])) =
                       (1 - fst p - snd p) * a + fst p * b + snd p * c) /\
      (forall a b, applied S [b; a] = rev (applied S [a; b]));
    (** uniform vector fields belong to the other space; their coefficients on a side depend on the component along it *)
    lc_fields : exists t k, List.length t = re_side_nd ref /\ rev t = t /\ (forall u v, List.length (k u v) = re_inner_nd ref) /\
      forall p u v, dot (re_ndx ref p) (times u t ++ times (v - u) t ++ times (- v) t ++ k u v) = u /\
                    dot (re_ndy ref p) (times u t ++ times (v - u) t ++ times (- v) t ++ k u v) = v;
    (** the rule integrates derivatives exactly: divergence theorem, with the mean of a function along a side *)
    lc_rule : exists mean : list R -> R, (forall a b l, List.length l = ns -> mean (b :: a :: rev l) = mean (a :: b :: l)) /\ mean (repeat 0 (2 + ns)) = 0 /\
      forall a b c l0 l1 l2 l, sized ns ni l0 l1 l2 l ->
        Rsum (re_rule0 ref) (fun q => snd q * dot (re_h1x ref (fst q)) (local a b c l0 l1 l2 l)) = mean (b :: c :: l1) - mean (c :: a :: l2) /\
        Rsum (re_rule0 ref) (fun q => snd q * dot (re_h1y ref (fst q)) (local a b c l0 l1 l2 l)) = mean (b :: c :: l1) - mean (a :: b :: l0) }.
End Reference.

Section Mesh.
  Variable ref : reference R.
  Variable m : model R.
  Notation ms := (mo_mesh m).
  (** The side is an element of the boundary of a conductor. *)
  Definition conductor_side (s : Z * Z) : Prop :=
    exists c b, In c (pecs (mo_mats m)) /\ In b (m_bdr ms) /\ e_attr b = p_attr c /\ e_verts b = [fst s; snd s].
  (** The field [u] (E on each triangle) is an exact solution, as [exact_field], where nothing leaves the
      domain except through sides that are elements of conductors. *)
  Definition exact_field_in (eps : Z -> R) (u : element R -> R * R) (outer : list (Z * Z)) : Prop :=
    conservative_flux ms (displacement eps u) /\
    forall s e, In s outer -> In e (m_elems ms) -> side_of e (fst s) (snd s) ->
      conductor_side s \/ flux_through (displacement eps u e) (m_coord ms (fst s)) (m_coord ms (snd s)) = 0.
  (** The potential [psi] has the field [u]: it is minus its gradient in every point. *)
  Definition has_field (psi : list R) (u : element R -> R * R) : Prop :=
    forall x p, triangle ms x -> is_gradient ref ms psi x p (- fst (u (snd x)), - snd (u (snd x))).
  (** The sides of the domain are elements of the plates or vertical. *)
  Definition walls (outer : list (Z * Z)) : Prop :=
    forall s, In s outer -> conductor_side s \/ fst (m_coord ms (fst s)) = fst (m_coord ms (snd s)).
End Mesh.
