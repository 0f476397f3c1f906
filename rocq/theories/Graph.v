(** Model of src/DirectedGraph.h and src/DirectedGraph.cpp on top of
    boost::adjacency_list<vecS, vecS, bidirectionalS>. *)
From Verif Require Import Prelude StdMap.

(** DirectedGraph.h:76-77. The boost graph: vertex descriptors are the indices 0..n-1 of a
    vector holding the ids; edges are kept in one global list in insertion order (this is
    what edges(g) iterates over for bidirectionalS), parallel edges allowed. *)
Record digraph := {
  g_ids : list Z;               (* graph_: bundled Vertex_t::id by descriptor *)
  g_edges : list (nat * nat);   (* graph_: (source, target) in insertion order *)
  g_map : list (Z * nat) }.     (* vertexMap_ *)

Definition empty_graph : digraph := {| g_ids := []; g_edges := []; g_map := [] |}.

(** graph_[v].id *)
Definition vid (g : digraph) (v : nat) : Z := nth v (g_ids g) 0%Z.

(** DirectedGraph.h:56-58 *)
Definition verticesSize (g : digraph) : nat := List.length (g_ids g).
Definition edgesSize (g : digraph) : nat := List.length (g_edges g).

(** DirectedGraph.cpp:15-23 getVertices *)
Definition getVertices (g : digraph) : list Z := sof (g_ids g).

(** DirectedGraph.cpp:25-30 addVertex *)
Definition addVertex (g : digraph) (id : Z) : digraph :=
  if mcount id (g_map g) then g
  else {| g_ids := g_ids g ++ [id];
          g_edges := g_edges g;
          g_map := mins id (List.length (g_ids g)) (g_map g) |}.

(** vertexMap_[id]: operator[] would default-insert 0 for a missing key (it never is). *)
Definition vindex (g : digraph) (id : Z) : nat :=
  match mget id (g_map g) with Some v => v | None => 0 end.

(** DirectedGraph.cpp:32-46 addEdge *)
Definition addEdge (g : digraph) (id1 id2 : Z) : outcome digraph :=
  if (id1 =? id2)%Z then
    Throw (RuntimeError "Edges starting and finishing in same vertex are not allowed.")
  else
    let g1 := if mcount id1 (g_map g) then g else addVertex g id1 in
    let g2 := if mcount id2 (g_map g1) then g1 else addVertex g1 id2 in
    Ok {| g_ids := g_ids g2;
          g_edges := g_edges g2 ++ [(vindex g2 id1, vindex g2 id2)];
          g_map := g_map g2 |}.

(** DirectedGraph.cpp:48-58 addClosedPath: edges vIds[i] -> vIds[(i+1) % size]. *)
Definition closed_pairs (vs : list Z) : list (Z * Z) :=
  match vs with [] => [] | v :: r => combine vs (r ++ [v]) end.
Definition addClosedPath (g : digraph) (vs : list Z) : outcome digraph :=
  if (List.length vs =? 1)%nat then
    Throw (RuntimeError "Paths must contain at least two vertices.")
  else foldM (fun g e => addEdge g (fst e) (snd e)) (closed_pairs vs) g.

(** The graph left behind by a call, also when it throws: addClosedPath (lines 54-57) keeps
    the edges it had added before the one that is rejected. *)
Definition addEdge_left (g : digraph) (id1 id2 : Z) : digraph :=
  match addEdge g id1 id2 with Ok g' => g' | _ => g end.
Fixpoint addEdges_left (g : digraph) (es : list (Z * Z)) : digraph :=
  match es with
  | [] => g
  | (a, b) :: r => match addEdge g a b with Ok g' => addEdges_left g' r | _ => g end
  end.
Definition addClosedPath_left (g : digraph) (vs : list Z) : digraph :=
  if (List.length vs =? 1)%nat then g else addEdges_left g (closed_pairs vs).

(** out_edges(v, g): targets in insertion order. *)
Definition out_adj (g : digraph) (v : nat) : list nat :=
  map snd (filter (fun e => (fst e =? v)%nat) (g_edges g)).
(** edge(u, v, g).second *)
Definition has_edge (g : digraph) (u v : nat) : bool :=
  existsb (fun e => (fst e =? u)%nat && (snd e =? v)%nat) (g_edges g).

(** boost::connected_components (third party): a depth first search over out-edges from every
    vertex in descriptor order; start_vertex increments the component counter and
    discover_vertex stores it. The state is the list of (vertex, component) discovered so
    far. [None] is exhausted fuel (excluded by the theorems). *)
Definition labelled (v : nat) (st : list (nat * nat)) : bool := nmem v (map fst st).
Fixpoint dfs (fuel : nat) (g : digraph) (c : nat) (v : nat) (st : list (nat * nat))
  : option (list (nat * nat)) :=
  match fuel with
  | O => None
  | S f =>
      if labelled v st then Some st
      else fold_left (fun o w => match o with
                                 | Some s => if labelled w s then Some s else dfs f g c w s
                                 | None => None
                                 end) (out_adj g v) (Some ((v, c) :: st))
  end.
Definition cc_step (g : digraph) (o : option (list (nat * nat) * nat)) (v : nat)
  : option (list (nat * nat) * nat) :=
  match o with
  | None => None
  | Some (st, num) =>
      if labelled v st then Some (st, num)
      else match dfs (S (verticesSize g)) g num v st with
           | Some st' => Some (st', S num)
           | None => None
           end
  end.
(** component labels and number of components *)
Definition connected_components (g : digraph) : option (list (nat * nat) * nat) :=
  fold_left (cc_step g) (seq 0 (verticesSize g)) (Some ([], 0%nat)).
(** component[v] *)
Definition comp_of (st : list (nat * nat)) (v : nat) : option nat :=
  match find (fun p => (fst p =? v)%nat) st with Some p => Some (snd p) | None => None end.
Definition comp_is (st : list (nat * nat)) (v c : nat) : bool :=
  match comp_of st v with Some c' => (c' =? c)%nat | None => false end.

(** DirectedGraph.cpp:60-87 split. [Undef]: vertexMap_.find(id)->second on a missing id. *)
Definition split_part (g : digraph) (st : list (nat * nat)) (c : nat) : outcome digraph :=
  foldM (fun r e =>
           let id1 := vid g (fst e) in
           let id2 := vid g (snd e) in
           match mget id1 (g_map g), mget id2 (g_map g) with
           | Some v1, Some v2 =>
               if comp_is st v1 c && comp_is st v2 c then addEdge r id1 id2 else Ok r
           | _, _ => Undef IndexOutOfBounds
           end) (g_edges g) empty_graph.
Definition split (g : digraph) : outcome (list digraph) :=
  if (verticesSize g =? 0)%nat then Ok []
  else match connected_components g with
       | None => Undef IndexOutOfBounds
       | Some (st, num) =>
           if (num =? 1)%nat then Ok [g]
           else mapM (split_part g st) (seq 0 num)
       end.

(** DirectedGraph.cpp:89-101 getBoundaryGraph *)
Definition getBoundaryGraph (g : digraph) : outcome digraph :=
  foldM (fun r e => if has_edge g (snd e) (fst e) then Ok r
                    else addEdge r (vid g (fst e)) (vid g (snd e)))
        (g_edges g) empty_graph.

(** boost::tiernan_all_cycles (third party): from every vertex in descriptor order, all the
    elementary paths through vertices with larger descriptors; a path that cannot be extended
    any more (its extensions having been closed) is reported if an edge leads back to its
    first vertex and it has at least 2 vertices. Parallel edges give one extension. *)
Fixpoint dedup (l : list nat) : list nat :=
  match l with
  | [] => []
  | x :: r => x :: filter (fun y => negb (y =? x)%nat) (dedup r)
  end.
Definition extensions (g : digraph) (front : nat) (path : list nat) (u : nat) : list nat :=
  dedup (filter (fun w => (front <? w)%nat && negb (nmem w path)) (out_adj g u)).
Fixpoint cycles_from (fuel : nat) (g : digraph) (front : nat) (path : list nat) (u : nat)
  : list (list nat) :=
  match fuel with
  | O => []
  | S f =>
      flat_map (fun w => cycles_from f g front (path ++ [w]) w) (extensions g front path u)
      ++ (if (2 <=? List.length path)%nat && has_edge g u front then [path] else [])
  end.
Definition all_cycles (g : digraph) : list (list nat) :=
  flat_map (fun v => cycles_from (verticesSize g) g v [v] v) (seq 0 (verticesSize g)).
(** DirectedGraph.cpp:103-122 findCycles (and cycle_recorder) *)
Definition findCycles (g : digraph) : list (list Z) := map (map (vid g)) (all_cycles g).

(** DirectedGraph.cpp:125-141 getEdgesAsPairs *)
Definition getEdgesAsPairs (g : digraph) : list (Z * Z) :=
  map (fun e => (vid g (fst e), vid g (snd e))) (g_edges g).
