(** Specification vocabulary for meshes of triangles (C69-C71): geometry and piecewise linear
    potentials, given by their values at the vertices. *)
From Coq Require Import Reals Relations.
From Verif Require Import Prelude Materials ModelM Parser Solver Fem Driver RSum SpecInput SpecModel SpecDriver SpecFem Triangles.
Open Scope R_scope.
Open Scope list_scope.

Definition distance (p q : R * R) : R := sqrt ((fst q - fst p) * (fst q - fst p) + (snd q - snd p) * (snd q - snd p)).

Section Mesh.
  Variable ms : mesh R.
  Notation x v := (fst (m_coord ms v)).
  Notation y v := (snd (m_coord ms v)).
  (** Area of a triangle, positive when its vertices are listed counterclockwise *)
  Definition area (e : element R) : R :=
    match e_verts e with
    | [a; b; c] => ((x b - x a) * (y c - y a) - (x c - x a) * (y b - y a)) / 2
    | _ => 0
    end.
  (** The directed segment from v to w is a side of [e]. *)
  Definition side_of (e : element R) (v w : Z) : Prop :=
    exists a b c, e_verts e = [a; b; c] /\ ((v, w) = (a, b) \/ (v, w) = (b, c) \/ (v, w) = (c, a)).
  Definition vertex (v : Z) : Prop := exists e, In e (m_elems ms) /\ In v (e_verts e).
  (** Counterclockwise triangles, vertices numbered from 0 without gaps, boundary elements that are
      sides of triangles, positive tags: what MFEM's reader of gmsh files provides. *)
  Record triangulation : Prop := {
    tr_elem : forall e, In e (m_elems ms) -> (0 < e_attr e)%Z /\
      exists a b c, e_verts e = [a; b; c] /\ (0 <= a)%Z /\ (0 <= b)%Z /\ (0 <= c)%Z /\ 0 < area e;
    tr_numbers : forall v w, vertex w -> (0 <= v <= w)%Z -> vertex v;
    tr_bdr : forall b, In b (m_bdr ms) -> (0 < e_attr b)%Z /\
      exists v w e, e_verts b = [v; w] /\ In e (m_elems ms) /\ side_of e v w }.
  (** One can walk from any vertex to any other one along elements. *)
  Definition connected : Prop :=
    forall v w, vertex v -> vertex w ->
      clos_refl_trans Z (fun v w => exists e, In e (m_elems ms) /\ In v (e_verts e) /\ In w (e_verts e)) v w.

  (** [v] is a vertex of the boundary with tag [t]. *)
  Definition at_boundary (t v : Z) : Prop := exists b, In b (m_bdr ms) /\ e_attr b = t /\ In v (e_verts b).
  (** The point [p] lies on the boundary with tag [t]. *)
  Definition on_line (t : Z) (p : R * R) : Prop :=
    exists b v w s, In b (m_bdr ms) /\ e_attr b = t /\ e_verts b = [v; w] /\ 0 <= s <= 1 /\
      p = ((1 - s) * x v + s * x w, (1 - s) * y v + s * y w).
  (** [phi] has one value for each vertex. *)
  Definition nodal (phi : list R) : Prop := forall v, vertex v <-> (0 <= v < Z.of_nat (List.length phi))%Z.
  (** The value of a potential at a vertex *)
  Definition at_vertex (phi : list R) (v : Z) : R := nth (Z.to_nat v) phi 0.
  (** [g] is the gradient of the linear function on [e] with the values of [phi]. *)
  Definition slope (phi : list R) (e : element R) (g : R * R) : Prop :=
    forall v w, In v (e_verts e) -> In w (e_verts e) ->
      at_vertex phi w - at_vertex phi v = fst g * (x w - x v) + snd g * (y w - y v).
  (** [W] is 1/2 integral of eps |grad phi|^2. *)
  Definition field_energy (eps : Z -> R) (phi : list R) (W : R) : Prop :=
    exists g, (forall e, In e (m_elems ms) -> slope phi e (g e)) /\
      W = Rsum (m_elems ms) (fun e => / 2 * eps (e_attr e) * (fst (g e) * fst (g e) + snd (g e) * snd (g e)) * area e).
End Mesh.

(** Quadrature rules of the reference segment (points in [0,1], weights) and triangle: positive
    weights, exact for constants; the rule for vector fields has more than one point. *)
Record rules_ok (rule1 : list (R * R)) (rule0 rule2 : list (R * R * R)) : Prop := {
  ru_segment : (forall q, In q rule1 -> 0 <= fst q <= 1 /\ 0 < snd q) /\ Rsum rule1 snd = 1;
  ru_gradient : (forall q, In q rule0 -> 0 < snd q) /\ Rsum rule0 snd = / 2;
  ru_vector : (forall q, In q rule2 -> 0 < snd q) /\ Rsum rule2 snd = / 2 /\
              exists p q, In p rule2 /\ In q rule2 /\ fst p <> fst q }.

(** A cross section drawn on a connected mesh of triangles: conductors that do not touch, media with
    positive permittivities, open boundaries where the absorbing coefficient is positive. *)
Record cross_section (abc : R * R -> R) (m : model R) : Prop := {
  cs_mesh : triangulation (mo_mesh m) /\ connected (mo_mesh m);
  cs_names : NoDup (all_names (mo_mats m));
  cs_conductors : pecs (mo_mats m) <> [] /\ NoDup (map p_attr (pecs (mo_mats m))) /\
    forall c, In c (pecs (mo_mats m)) -> exists v, at_boundary (mo_mesh m) (p_attr c) v;
  cs_apart : forall c c' v, In c (pecs (mo_mats m)) -> In c' (pecs (mo_mats m)) ->
    at_boundary (mo_mesh m) (p_attr c) v -> at_boundary (mo_mesh m) (p_attr c') v -> p_attr c = p_attr c';
  cs_media : forall d, In d (dielectrics (mo_mats m)) -> 0 < d_epsr d /\ exists e, In e (m_elems (mo_mesh m)) /\ e_attr e = d_attr d;
  cs_open : forall o, In o (openBoundaries (mo_mats m)) -> (exists p, on_line (mo_mesh m) (o_attr o) p) /\
    forall p, on_line (mo_mesh m) (o_attr o) p -> 0 < abc p }.
(** [f]: relative permittivities by tag, with or without the dielectrics *)
Definition relative_permittivity (mats : materials R) (ignore : bool) (f : Z -> R) : Prop :=
  (forall t er, permittivity mats ignore t er -> f t = er) /\ forall t, ~ In t (map d_attr (dielectrics mats)) -> f t = 1.
(** [phi] has the potentials [v] (by tag) on the conductors. *)
Definition held (m : model R) (v : Z -> R) (phi : list R) : Prop :=
  nodal (mo_mesh m) phi /\ forall c w, In c (pecs (mo_mats m)) -> at_boundary (mo_mesh m) (p_attr c) w -> at_vertex phi w = v (p_attr c).

(** First order elements, with the quadrature rules given. *)
Definition linear_elements (rule1 : list (R * R)) (rule0 rule2 : list (R * R * R)) : mesh R -> Z -> discretization R :=
  fun ms _ => first_order rule1 rule0 rule2 distance ms.
(** A Driver of order 1 built for a cross section; [conds]: its conductors by number. *)
Record triangle_driver rule1 rule0 rule2 (abc : R * R -> R) (dbg : bool) (m : model R) (o : driver_options) (d : driver R) (conds : list (pec R)) : Prop := {
  td_rules : rules_ok rule1 rule0 rule2;
  td_section : cross_section abc m;
  td_order : o_order o = 1%Z;
  td_built : built dbg (galerkin abc (linear_elements rule1 rule0 rule2)) m o d;
  td_conductors : in_order (mo_mats m) conds }.
(** All of the cross section is filled with media of relative permittivity [er]. *)
Definition filled (m : model R) (er : R) : Prop :=
  0 < er /\ (forall d, In d (dielectrics (mo_mats m)) -> d_epsr d = er) /\
  forall e, In e (m_elems (mo_mesh m)) -> In (e_attr e) (map d_attr (dielectrics (mo_mats m))).
