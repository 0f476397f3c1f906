(** Specification vocabulary for directed graphs (properties C09-C14): what a user of
    DirectedGraph means by edges, paths, cycles and connected parts. Only lists of vertex ids
    are used, no notion of the implementation; the last section applies the calls to a graph and
    reads it through its observers. *)
From Verif Require Import Prelude Graph ModelM.
From Coq Require Import Relations Permutation.

(** Calls of the public interface that change a graph. *)
Inductive gcall :=
| GVertex (id : Z)
| GEdge (a b : Z)
| GPath (vs : list Z).

(** The edges v0 -> v1 -> ... -> v(n-1) -> v0 of a closed path. *)
Definition path_edges (vs : list Z) : list (Z * Z) :=
  map (fun i => (nth i vs 0%Z, nth (S i mod List.length vs) vs 0%Z)) (seq 0 (List.length vs)).

(** An edge from a vertex to itself is rejected and ends the call. *)
Fixpoint until_rejected (es : list (Z * Z)) : list (Z * Z) :=
  match es with
  | [] => []
  | (a, b) :: r => if (a =? b)%Z then [] else (a, b) :: until_rejected r
  end.

(** Edges and vertices that a call adds. *)
Definition call_edges (c : gcall) : list (Z * Z) :=
  match c with
  | GVertex _ => []
  | GEdge a b => until_rejected [(a, b)]
  | GPath vs => if (List.length vs =? 1)%nat then [] else until_rejected (path_edges vs)
  end.
Definition call_rejected (c : gcall) : Prop :=
  match c with
  | GVertex _ => False
  | GEdge a b => a = b
  | GPath vs => List.length vs = 1%nat \/ exists a, In (a, a) (path_edges vs)
  end.
Definition endpoints (es : list (Z * Z)) (v : Z) : Prop :=
  exists w, In (v, w) es \/ In (w, v) es.
Definition call_vertex (c : gcall) (v : Z) : Prop :=
  match c with GVertex id => v = id | _ => endpoints (call_edges c) v end.

(** Two vertices are connected by a list of edges, whatever their direction. *)
Definition connected (es : list (Z * Z)) : Z -> Z -> Prop :=
  clos_refl_sym_trans Z (fun a b => In (a, b) es).

(** Elementary directed cycles: at least two vertices, none twice, consecutive ones joined by
    an edge, and the last one with the first. *)
Definition elementary_cycle (es : list (Z * Z)) (c : list Z) : Prop :=
  (2 <= List.length c)%nat /\ NoDup c /\ (forall e, In e (path_edges c) -> In e es).
(** The same cycle started at another vertex. *)
Definition rotation (c d : list Z) : Prop := exists l1 l2, c = l1 ++ l2 /\ d = l2 ++ l1.

(** A cell (closed path) uses the edge between a and b in one or the other direction. *)
Definition uses (vs : list Z) (a b : Z) : Prop :=
  In (a, b) (path_edges vs) \/ In (b, a) (path_edges vs).

(** The parts (vertices, edges) of a graph with vertices V and edges E are its connected
    components. *)
Definition within (vs : list Z) (e : Z * Z) : bool :=
  existsb (Z.eqb (fst e)) vs && existsb (Z.eqb (snd e)) vs.
Record components_of (V : list Z) (E : list (Z * Z)) (parts : list (list Z * list (Z * Z))) : Prop := {
  co_nonempty : forall p, In p parts -> fst p <> [];
  co_cover : forall v, In v V <-> exists p, In p parts /\ In v (fst p);
  co_disjoint : forall i j p q v, nth_error parts i = Some p -> nth_error parts j = Some q ->
    In v (fst p) -> In v (fst q) -> i = j;
  co_same : forall a b, In a V -> In b V ->
    ((exists p, In p parts /\ In a (fst p) /\ In b (fst p)) <-> connected E a b);
  co_edges : forall p, In p parts -> snd p = filter (within (fst p)) E;
  co_all : Permutation E (flat_map snd parts) }.

(** Open boundary segments (start, end). They close on themselves when each of them starts
    where some other one ends. *)
Definition segments_close (segs : list (Z * Z)) : Prop :=
  forall s, In s segs -> exists t, In t segs /\ snd t = fst s.

Definition edge_dec (x y : Z * Z) : {x = y} + {x <> y}.
Proof. decide equality; apply Z.eq_dec. Defined.
(** How many times an edge is in a list. *)
Definition times (e : Z * Z) (es : list (Z * Z)) : nat := count_occ edge_dec es e.

(** ** Observing the implementation *)

(** The graph left by a call and by a history of calls that starts with an empty graph; a call
    that throws leaves what it had done. *)
Definition call_left (g : digraph) (c : gcall) : digraph :=
  match c with
  | GVertex id => addVertex g id
  | GEdge a b => addEdge_left g a b
  | GPath vs => addClosedPath_left g vs
  end.
Definition history_left (h : list gcall) : digraph := fold_left call_left h empty_graph.

(** What a user sees of a graph. *)
Definition view (g : digraph) : list Z * list (Z * Z) := (getVertices g, getEdgesAsPairs g).

(** Boundary elements as directed segments. *)
Section Segments.
  Context {T : Type}.
  Definition seg_of (e : element T) : Z * Z := (nth 0 (e_verts e) 0%Z, nth 1 (e_verts e) 0%Z).
  Definition is_segment (e : element T) : Prop := exists a b, e_verts e = [a; b] /\ a <> b.
  (** Those with a given attribute. *)
  Definition segments_with (m : mesh T) (a : Z) : list (Z * Z) :=
    map seg_of (filter (fun e => (e_attr e =? a)%Z) (m_bdr m)).
End Segments.
