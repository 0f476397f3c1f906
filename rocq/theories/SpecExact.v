(** Specification vocabulary for C72: exact solutions that first order elements can represent. *)
From Coq Require Import Reals Permutation.
From Verif Require Import Prelude Materials ModelM RSum SpecTriangles SpecFlux.
Open Scope R_scope.
Open Scope list_scope.

Section Mesh.
  Variable m : model R.
  Notation ms := (mo_mesh m).
  Notation x v := (fst (m_coord ms v)).
  Notation y v := (snd (m_coord ms v)).
  (** The directed sides of a triangle *)
  Definition directed_sides (e : element R) : list (Z * Z) :=
    match e_verts e with [a; b; c] => [(a, b); (b, c); (c, a)] | _ => [] end.
  (** The triangles fit together: each side either is shared by two triangles, or is one of the
      [outer] sides. *)
  Definition outline (outer : list (Z * Z)) : Prop :=
    exists inner, Permutation (flat_map directed_sides (m_elems ms)) (inner ++ map (fun s => (snd s, fst s)) inner ++ outer).
  (** The ends of the side belong to conductors. *)
  Definition on_conductors (s : Z * Z) : Prop :=
    (exists c, In c (pecs (mo_mats m)) /\ at_boundary ms (p_attr c) (fst s)) /\
    (exists c, In c (pecs (mo_mats m)) /\ at_boundary ms (p_attr c) (snd s)).
  (** The field [u] (E on each triangle) is an exact solution without charge in the domain: eps E is
      uniform on each triangle, what leaves a triangle enters its neighbour, nothing leaves the domain
      except through conductors. *)
  Definition displacement (eps : Z -> R) (u : element R -> R * R) (e : element R) : R * R * R :=
    (eps (e_attr e) * fst (u e), eps (e_attr e) * snd (u e), 0).
  Definition exact_field (eps : Z -> R) (u : element R -> R * R) (outer : list (Z * Z)) : Prop :=
    conservative_flux ms (displacement eps u) /\
    forall s e, In s outer -> In e (m_elems ms) -> side_of e (fst s) (snd s) ->
      on_conductors s \/ flux_through (displacement eps u e) (m_coord ms (fst s)) (m_coord ms (snd s)) = 0.

  (** Plates between the heights y0 and y1 with layers in between: bottom conductor [c0], top
      conductor [c1], the other sides of the domain vertical. [h]: thickness of the layers above y0,
      each divided by its permittivity. *)
  Record plates (eps : Z -> R) (c0 c1 : pec R) (y0 y1 : R) (h : R -> R) (outer : list (Z * Z)) : Prop := {
    pt_outline : outline outer;
    pt_conductors : forall c, In c (pecs (mo_mats m)) <-> c = c0 \/ c = c1;
    pt_heights : (forall v, at_boundary ms (p_attr c0) v -> y v = y0) /\ (forall v, at_boundary ms (p_attr c1) v -> y v = y1);
    pt_vertical : forall s, In s outer -> on_conductors s \/ x (fst s) = x (snd s);
    pt_layers : h y0 = 0 /\ 0 < h y1 /\ forall e v w, In e (m_elems ms) -> In v (e_verts e) -> In w (e_verts e) -> eps (e_attr e) * (h (y w) - h (y v)) = y w - y v }.
  (** Horizontal extent of the boundary with tag [t], to the right along its elements *)
  Definition extent (t : Z) : R :=
    Rsum (filter (fun b => (e_attr b =? t)%Z) (m_bdr ms)) (fun b => match e_verts b with [v; w] => x w - x v | _ => 0 end).
End Mesh.
