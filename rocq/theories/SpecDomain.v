(** Specification vocabulary for domains (C15-C20): the parts of a mesh that share vertices, the
    conductors that touch them, and the conductors that join them. *)
From Verif Require Import Prelude Materials Graph ModelM Domain SpecGraph.
From Coq Require Import Relations Permutation.

Section Spec.
  Context {T : Type}.

  (** ** Meshes *)
  (** Elements (by number) that have a vertex in common; chains of them. *)
  Definition share_vertex (m : mesh T) (i j : nat) : Prop :=
    exists e f v, nth_error (m_elems m) i = Some e /\ nth_error (m_elems m) j = Some f /\
                  In v (e_verts e) /\ In v (e_verts f).
  Definition linked (m : mesh T) : nat -> nat -> Prop := clos_refl_sym_trans nat (share_vertex m).
  (** The vertices of the elements of a domain. *)
  Definition vertex_in (m : mesh T) (d : domain) (v : Z) : Prop :=
    exists i e, In i (dm_elems d) /\ nth_error (m_elems m) i = Some e /\ In v (e_verts e).
  (** A boundary element with at least two vertices in the domain. *)
  Definition touches (m : mesh T) (d : domain) (be : element T) : Prop :=
    exists v w, v <> w /\ In v (e_verts be) /\ In w (e_verts be) /\ vertex_in m d v /\ vertex_in m d w.
  (** The boundary element number [b] belongs to the conductor [p] and touches the domain. *)
  Definition conductor_touches (m : mesh T) (d : domain) (p : pec T) (b : nat) : Prop :=
    exists be, nth_error (m_bdr m) b = Some be /\ e_attr be = p_attr p /\ touches m d be.

  (** Closed polygons: at least two vertices, consecutive ones different. *)
  Definition proper_polygon (e : element T) : Prop :=
    (2 <= List.length (e_verts e))%nat /\ forall a, ~ In (a, a) (path_edges (e_verts e)).

  (** An element, or a boundary element, on the edge between the vertices a and b. *)
  Definition joins (a b : Z) (e : Z * Z) : bool :=
    ((fst e =? a) && (snd e =? b) || (fst e =? b) && (snd e =? a))%Z%bool.
  (** How many times the elements of a list use the edge between a and b. *)
  Definition edge_uses (es : list (element T)) (a b : Z) : nat :=
    List.length (filter (joins a b) (flat_map (fun e => path_edges (e_verts e)) es)).
  (** [be] is the boundary element number k of the mesh, on the edge between a and b, and no
      later one is. *)
  Definition on_edge (a b : Z) (be : element T) : Prop :=
    exists v w r, e_verts be = v :: w :: r /\ joins a b (v, w) = true.
  Definition boundary_on_edge (m : mesh T) (a b : Z) (be : element T) : Prop :=
    exists k, nth_error (m_bdr m) k = Some be /\ on_edge a b be /\
      forall k' be', (k < k')%nat -> nth_error (m_bdr m) k' = Some be' -> ~ on_edge a b be'.
  (** The elements of the mesh with the numbers in the list, in mesh order. *)
  Definition elements_of (m : mesh T) (ids : list nat) : list (element T) :=
    map snd (filter (fun ie => if in_dec Nat.eq_dec (fst ie) ids then true else false) (enum (m_elems m))).
End Spec.

(** ** Maps of domains *)
(** the domain [id] has the conductor [c] *)
Definition has_conductor (ds : list (Z * domain)) (id c : Z) : Prop :=
  exists d, In (id, d) ds /\ In c (dm_conductors d).
(** ... and no domain with a smaller number has it *)
Definition first_with (ds : list (Z * domain)) (id c : Z) : Prop :=
  has_conductor ds id c /\ forall id', has_conductor ds id' c -> (id <= id')%Z.
(** Maps and sets of the standard library: increasing without repetitions. *)
Fixpoint increasing (l : list Z) : Prop :=
  match l with a :: ((b :: _) as r) => (a < b)%Z /\ increasing r | _ => True end.
Definition domain_map (ds : list (Z * domain)) : Prop :=
  increasing (map fst ds) /\ forall id d, In (id, d) ds -> increasing (dm_conductors d).
(** Conductor numbers are those of names like Conductor_3; -1 is the code's "none". *)
Definition no_conductor_minus_one (ds : list (Z * domain)) : Prop :=
  forall id, ~ has_conductor ds id (-1)%Z.

Section Touch.
  Context {T : Type}.
  (** Some conductor with number [c] has a boundary element with two vertices in the part of
      the mesh linked to the element [i]. *)
  Definition vertex_of_part (m : mesh T) (i : nat) (v : Z) : Prop :=
    exists j e, linked m i j /\ nth_error (m_elems m) j = Some e /\ In v (e_verts e).
  Definition touches_part (m : mesh T) (ps : list (pec T)) (c : Z) (i : nat) : Prop :=
    exists p b be v w, In p ps /\ getMaterialIdFromName (p_name p) = Ok c /\
      nth_error (m_bdr m) b = Some be /\ e_attr be = p_attr p /\ v <> w /\
      In v (e_verts be) /\ In w (e_verts be) /\ vertex_of_part m i v /\ vertex_of_part m i w.
  (** [c] touches exactly one part of the mesh. *)
  Definition touches_one_part (m : mesh T) (ps : list (pec T)) (c : Z) : Prop :=
    (exists i, touches_part m ps c i) /\
    forall i j, touches_part m ps c i -> touches_part m ps c j -> linked m i j.
End Touch.
