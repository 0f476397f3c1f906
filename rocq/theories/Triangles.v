(** The finite element spaces of FES.h/FES.cpp and their integrators for order 1 on a mesh of
    straight triangles: H1 (one degree of freedom per vertex), Nedelec and Raviart-Thomas (one per
    edge), as tables of the values of the basis functions at quadrature points. FES.cpp:6-48 passes
    [order] to H1_FECollection and ND_FECollection and [order - 1] to RT_FECollection.

    Third party (MFEM): the quadrature rules are parameters (reference coordinates and weights);
    edges are numbered in the order in which they appear (the numbers cannot be observed). *)
From Verif Require Import Prelude ModelM Matrix Solver Fem.
Open Scope list_scope.

Section Triangles.
  Context {T : Type} `{Num T}.
  Open Scope num_scope.
  (** Rules on the reference segment (position, weight) and on the reference triangle
      (coordinates, weight): [rule0] for DiffusionIntegrator, [rule2] for VectorFEMassIntegrator
      and DomainLFIntegrator. *)
  Variable rule1 : list (T * T).
  Variable rule0 rule2 : list (T * T * T).
  (** distance of two points *)
  Variable len : T * T -> T * T -> T.
  Variable ms : mesh T.

  Definition verts (e : element T) : list nat := map Z.to_nat (e_verts e).
  (** mesh.GetNV() *)
  Definition nverts : nat := fold_left (fun n v => Nat.max n (S v)) (flat_map verts (m_elems ms)) 0%nat.
  Definition pos (v : nat) : T * T := m_coord ms (Z.of_nat v).
  (** The sides of an element, in the order of its vertices *)
  Definition sides (e : element T) : list (nat * nat) :=
    match verts e with [a; b; c] => [(a, b); (b, c); (c, a)] | _ => [] end.
  (** An edge is known by its vertices, the smaller one first. *)
  Definition edge (s : nat * nat) : nat * nat := if (fst s <? snd s)%nat then s else (snd s, fst s).
  Definition edge_eqb (x y : nat * nat) : bool := ((fst x =? fst y) && (snd x =? snd y))%nat.
  Fixpoint distinct_edges (l seen : list (nat * nat)) : list (nat * nat) :=
    match l with
    | [] => rev seen
    | x :: r => distinct_edges r (if existsb (edge_eqb x) seen then seen else x :: seen)
    end.
  Definition edges : list (nat * nat) := distinct_edges (map edge (flat_map sides (m_elems ms))) [].
  Fixpoint index_of (x : nat * nat) (l : list (nat * nat)) : nat :=
    match l with [] => 0%nat | y :: r => if edge_eqb x y then 0%nat else S (index_of x r) end.
  Definition edge_dof (s : nat * nat) : nat := index_of (edge s) edges.
  (** +1 when the side runs along its edge *)
  Definition sign (s : nat * nat) : T := if (fst s <? snd s)%nat then n1 else nopp n1.
  (** The vector with the values [xs] at the places [ks] *)
  Fixpoint scatter (ks : list nat) (xs : list T) (k : nat) : T :=
    match ks, xs with
    | i :: ks', x :: xs' => if (i =? k)%nat then x else scatter ks' xs' k
    | _, _ => n0
    end.
  Definition spread (n : nat) (ks : list nat) (xs : list T) : list T := map (scatter ks xs) (seq 0 n).

  (** ** Elements *)
  (** Determinant of the Jacobian: twice the area *)
  Definition det (a b c : T * T) : T := (fst b - fst a) * (snd c - snd a) - (fst c - fst a) * (snd b - snd a).
  Definition jacobian (e : element T) : T :=
    match map pos (verts e) with [a; b; c] => det a b c | _ => n0 end.
  (** Gradients of the three barycentric coordinates *)
  Definition grads_x (e : element T) : list T :=
    match map pos (verts e) with
    | [a; b; c] => [(snd b - snd c) / det a b c; (snd c - snd a) / det a b c; (snd a - snd b) / det a b c]
    | _ => [] end.
  Definition grads_y (e : element T) : list T :=
    match map pos (verts e) with
    | [a; b; c] => [(fst c - fst b) / det a b c; (fst a - fst c) / det a b c; (fst b - fst a) / det a b c]
    | _ => [] end.
  (** Barycentric coordinates of a point of the reference triangle *)
  Definition bary (p : T * T) : list T := [n1 - fst p - snd p; fst p; snd p].
  (** Nedelec functions of the three sides: l_i grad l_j - l_j grad l_i, along the edges *)
  Definition whitney (e : element T) (l g : list T) : list T :=
    match sides e, l, g with
    | [s0; s1; s2], [la; lb; lc], [ga; gb; gc] =>
        [sign s0 * (la * gb - lb * ga); sign s1 * (lb * gc - lc * gb); sign s2 * (lc * ga - la * gc)]
    | _, _, _ => [] end.
  Definition edge_dofs (e : element T) : list nat := map edge_dof (sides e).

  Definition grad_points (e : element T) : list (grad_point T) :=
    map (fun pw => {| g_attr := e_attr e; g_weight := snd pw * jacobian e;
                      g_x := spread nverts (verts e) (grads_x e); g_y := spread nverts (verts e) (grads_y e) |}) rule0.
  Definition nd_x (e : element T) (p : T * T) : list T := spread (List.length edges) (edge_dofs e) (whitney e (bary p) (grads_x e)).
  Definition nd_y (e : element T) (p : T * T) : list T := spread (List.length edges) (edge_dofs e) (whitney e (bary p) (grads_y e)).
  (** Raviart-Thomas functions: those of Nedelec turned by a right angle, (x, y) to (y, -x), so that
      the flux goes through the edge from left to right. *)
  Definition rt_x (e : element T) (p : T * T) : list T := nd_y e p.
  Definition rt_y (e : element T) (p : T * T) : list T := map nopp (nd_x e p).
  Definition rt_points (e : element T) : list (rt_point T) :=
    map (fun pw => {| r_weight := snd pw * jacobian e; r_x := rt_x e (fst pw); r_y := rt_y e (fst pw) |}) rule2.
  Definition mix_points (e : element T) : list (mix_point T) :=
    map (fun pw => {| x_attr := e_attr e; x_weight := snd pw * jacobian e; x_ndx := nd_x e (fst pw); x_ndy := nd_y e (fst pw);
                      x_rtx := rt_x e (fst pw); x_rty := rt_y e (fst pw) |}) rule2.
  Definition energy_points (e : element T) : list (energy_point T) :=
    map (fun pw => {| y_attr := e_attr e; y_weight := snd pw * jacobian e; y_x := nd_x e (fst pw); y_y := nd_y e (fst pw) |}) rule2.
  (** integrals of the basis functions over an element *)
  Definition dom_weights (e : element T) : list T :=
    spread nverts (verts e)
      (map (fun i => fold_left (fun s pw => s + snd pw * jacobian e * nth i (bary (fst pw)) n0) rule2 n0) [0; 1; 2]%nat).

  (** ** Boundary elements *)
  Definition ends (b : element T) : nat * nat := match verts b with [v; w] => (v, w) | _ => (0, 0)%nat end.
  Definition along (p q : T * T) (s : T) : T * T := ((n1 - s) * fst p + s * fst q, (n1 - s) * snd p + s * snd q).
  Definition bdr_len (b : element T) : T := len (pos (fst (ends b))) (pos (snd (ends b))).
  Definition surf_points (b : element T) : list (surf_point T) :=
    map (fun sw => {| b_attr := e_attr b; b_pos := along (pos (fst (ends b))) (pos (snd (ends b))) (fst sw);
                      b_weight := snd sw * bdr_len b;
                      b_shape := spread nverts (verts b) [n1 - fst sw; fst sw] |}) rule1.
  (** The normal points to the right of the boundary element (outwards: the mesh reader makes
      boundary elements follow the sides of the elements). *)
  Definition flux_points (b : element T) : list (flux_point T) :=
    map (fun sw => {| q_attr := e_attr b; q_pos := along (pos (fst (ends b))) (pos (snd (ends b))) (fst sw);
                      q_w := spread (List.length edges) [edge_dof (ends b)] [snd sw * sign (ends b)] |}) rule1.
  Definition bdr_weights (b : element T) : list T :=
    spread nverts (verts b)
      [fold_left (fun s sw => s + snd sw * bdr_len b * (n1 - fst sw)) rule1 n0;
       fold_left (fun s sw => s + snd sw * bdr_len b * fst sw) rule1 n0].

  Definition first_order : discretization T :=
    {| di_nH1 := nverts; di_nND := List.length edges; di_nRT := List.length edges;
       di_bdrMax := zmax_list 0 (map e_attr (m_bdr ms)); di_domMax := zmax_list 0 (map e_attr (m_elems ms));
       di_bdrDofs := map (fun b => (e_attr b, verts b)) (m_bdr ms);
       di_grad := flat_map grad_points (m_elems ms);
       di_abc := flat_map surf_points (m_bdr ms);
       di_surf := flat_map surf_points (m_bdr ms);
       di_rt := flat_map rt_points (m_elems ms);
       di_mix := flat_map mix_points (m_elems ms);
       di_gradient := map (fun e => spread nverts [fst e; snd e] [nopp n1; n1]) edges;
       di_flux := flat_map flux_points (m_bdr ms);
       di_bdrPhi := map (fun b => (e_attr b, bdr_weights b)) (m_bdr ms);
       di_domPhi := map (fun e => (e_attr e, dom_weights e)) (m_elems ms);
       di_energy := flat_map energy_points (m_elems ms) |}.
End Triangles.
