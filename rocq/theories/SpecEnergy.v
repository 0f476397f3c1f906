(** Specification vocabulary for C73-C75: triangles without obtuse angles, refinements. *)
From Coq Require Import Reals Permutation.
From Verif Require Import Prelude Materials ModelM RSum SpecTriangles.
Open Scope R_scope.
Open Scope list_scope.

(** The angle at [p] between the directions to [q] and [r] is not obtuse. *)
Definition not_obtuse (p q r : R * R) : Prop :=
  0 <= (fst q - fst p) * (fst r - fst p) + (snd q - snd p) * (snd r - snd p).
Definition no_obtuse_angles (ms : mesh R) : Prop :=
  forall e a b c, In e (m_elems ms) -> In a (e_verts e) -> In b (e_verts e) -> In c (e_verts e) ->
    not_obtuse (m_coord ms a) (m_coord ms b) (m_coord ms c).

(** [fine] refines [coarse]: [parts] lists the triangles of [coarse], each with the triangles of
    [fine] it is divided into, which keep its tag. Each vertex of [fine] is a weighted mean of
    vertices of [coarse] ([shares]: numbers and weights), namely of vertices of each triangle it is
    part of. The vertices of the boundaries with tags in [ts] are means of vertices of the old
    boundaries with the same tag. *)
Record refines (coarse fine : mesh R) (ts : list Z) (parts : list (element R * list (element R))) (shares : Z -> list (Z * R)) : Prop := {
  re_parts : Permutation (map fst parts) (m_elems coarse) /\ Permutation (flat_map snd parts) (m_elems fine);
  re_whole : forall e l, In (e, l) parts -> Rsum l (area fine) = area coarse e;
  re_inside : forall e l e', In (e, l) parts -> In e' l -> e_attr e' = e_attr e /\
    forall v w, In v (e_verts e') -> In w (map fst (shares v)) -> In w (e_verts e);
  re_point : forall v, vertex fine v -> Rsum (shares v) snd = 1 /\
    fst (m_coord fine v) = Rsum (shares v) (fun s => snd s * fst (m_coord coarse (fst s))) /\
    snd (m_coord fine v) = Rsum (shares v) (fun s => snd s * snd (m_coord coarse (fst s)));
  re_boundary : forall t v, In t ts -> at_boundary fine t v -> forall w, In w (map fst (shares v)) -> at_boundary coarse t w }.
