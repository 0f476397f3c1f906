(** The finite element spaces of FES.h/FES.cpp of any order on a mesh of straight triangles, built from a
    reference element. FES.cpp:6-48 passes [order] to H1_FECollection and ND_FECollection and
    [order - 1] to RT_FECollection; ElectrostaticSolver.cpp:87-90 creates the spaces.

    Third party (MFEM): the basis functions of the reference triangle and the quadrature rules are
    parameters; degrees of freedom belong to vertices, sides and elements and are numbered in this
    order (FiniteElementSpace). Those of a side are listed along its edge, from the smaller vertex to
    the larger one; an element on the other side reads them backwards, and with the other sign when
    they are circulations or fluxes. *)
From Verif Require Import Prelude ModelM Matrix Solver Fem Triangles.
Open Scope list_scope.

(** A reference triangle (0,0), (1,0), (0,1). Functions are listed in the order: vertices, first,
    second and third side, interior. *)
Record reference (T : Type) := {
  re_rule1 : list (T * T); re_rule0 : list (T * T * T); re_rule2 : list (T * T * T);  (* as in Triangles.v *)
  re_side : nat; re_inner : nat;               (* H1 functions of a side (besides its ends) and of the interior *)
  re_side_nd : nat; re_inner_nd : nat;         (* Nedelec functions of a side and of the interior *)
  re_h1 : T * T -> list T;                     (* H1 functions at a point *)
  re_h1x : T * T -> list T; re_h1y : T * T -> list T;   (* their derivatives *)
  re_ndx : T * T -> list T; re_ndy : T * T -> list T;   (* components of the Nedelec functions *)
  re_seg : T -> list T;                        (* H1 functions of a segment: first end, second end, interior *)
  re_flux : T -> list T;                       (* Nedelec functions of a side: circulation density along it *)
  re_side_grad : list (list T);                (* gradient: rows of a side, columns as re_seg *)
  re_inner_grad : list (list T) }.             (* gradient: rows of the interior, columns as re_h1 *)
Arguments re_rule1 {T}. Arguments re_rule0 {T}. Arguments re_rule2 {T}. Arguments re_side {T}. Arguments re_inner {T}.
Arguments re_side_nd {T}. Arguments re_inner_nd {T}. Arguments re_h1 {T}. Arguments re_h1x {T}. Arguments re_h1y {T}.
Arguments re_ndx {T}. Arguments re_ndy {T}. Arguments re_seg {T}. Arguments re_flux {T}. Arguments re_side_grad {T}. Arguments re_inner_grad {T}.

Section Elements.
  Context {T : Type} `{Num T}.
  Open Scope num_scope.
  Variable ref : reference T.
  Variable len : T * T -> T * T -> T.
  Variable ms : mesh T.

  Definition nedges : nat := List.length (edges ms).
  Definition nelems : nat := List.length (m_elems ms).
  Definition numbered : list (nat * element T) := combine (seq 0 nelems) (m_elems ms).
  (** GetVSize() of the spaces *)
  Definition n_h1 : nat := (nverts ms + nedges * re_side ref + nelems * re_inner ref)%nat.
  Definition n_nd : nat := (nedges * re_side_nd ref + nelems * re_inner_nd ref)%nat.
  (** The degrees of freedom of an edge, read along the side [s] *)
  Definition oriented (s : nat * nat) (l : list nat) : list nat := if (fst s <? snd s)%nat then l else rev l.
  Definition side_nodes (s : nat * nat) : list nat :=
    oriented s (seq (nverts ms + edge_dof ms s * re_side ref) (re_side ref)).
  Definition side_fields (s : nat * nat) : list nat := oriented s (seq (edge_dof ms s * re_side_nd ref) (re_side_nd ref)).
  Definition inner_nodes (i : nat) : list nat := seq (nverts ms + nedges * re_side ref + i * re_inner ref) (re_inner ref).
  Definition inner_fields (i : nat) : list nat := seq (nedges * re_side_nd ref + i * re_inner_nd ref) (re_inner_nd ref).
  (** GetElementVDofs, with the signs of the Nedelec and Raviart-Thomas functions *)
  Definition h1_dofs (x : nat * element T) : list nat := verts (snd x) ++ flat_map side_nodes (sides (snd x)) ++ inner_nodes (fst x).
  Definition nd_dofs (x : nat * element T) : list nat := flat_map side_fields (sides (snd x)) ++ inner_fields (fst x).
  Definition nd_signs (e : element T) : list T := flat_map (fun s => repeat (sign s) (re_side_nd ref)) (sides e) ++ repeat n1 (re_inner_nd ref).

  Definition map2 (f : T -> T -> T) (l l' : list T) : list T := map (fun u => f (fst u) (snd u)) (combine l l').
  (** Gradients (and Nedelec functions) of an element from those of the reference triangle: the
      inverse transpose of the Jacobian (b - a, c - a) *)
  Definition to_x (e : element T) (l l' : list T) : list T :=
    match map (pos ms) (verts e) with
    | [a; b; c] => map2 (fun u v => (u * (snd c - snd a) - v * (snd b - snd a)) / det a b c) l l'
    | _ => [] end.
  Definition to_y (e : element T) (l l' : list T) : list T :=
    match map (pos ms) (verts e) with
    | [a; b; c] => map2 (fun u v => (v * (fst b - fst a) - u * (fst c - fst a)) / det a b c) l l'
    | _ => [] end.
  Definition h1_x (x : nat * element T) (p : T * T) : list T := spread n_h1 (h1_dofs x) (to_x (snd x) (re_h1x ref p) (re_h1y ref p)).
  Definition h1_y (x : nat * element T) (p : T * T) : list T := spread n_h1 (h1_dofs x) (to_y (snd x) (re_h1x ref p) (re_h1y ref p)).
  Definition ned_x (x : nat * element T) (p : T * T) : list T :=
    spread n_nd (nd_dofs x) (map2 nmul (nd_signs (snd x)) (to_x (snd x) (re_ndx ref p) (re_ndy ref p))).
  Definition ned_y (x : nat * element T) (p : T * T) : list T :=
    spread n_nd (nd_dofs x) (map2 nmul (nd_signs (snd x)) (to_y (snd x) (re_ndx ref p) (re_ndy ref p))).
  (** Raviart-Thomas functions: those of Nedelec turned, (x, y) to (y, -x), as in Triangles.v *)
  Definition rav_x (x : nat * element T) (p : T * T) : list T := ned_y x p.
  Definition rav_y (x : nat * element T) (p : T * T) : list T := map nopp (ned_x x p).

  Definition el_grad_points (x : nat * element T) : list (grad_point T) :=
    map (fun pw => {| g_attr := e_attr (snd x); g_weight := snd pw * jacobian ms (snd x); g_x := h1_x x (fst pw); g_y := h1_y x (fst pw) |}) (re_rule0 ref).
  Definition el_rt_points (x : nat * element T) : list (rt_point T) :=
    map (fun pw => {| r_weight := snd pw * jacobian ms (snd x); r_x := rav_x x (fst pw); r_y := rav_y x (fst pw) |}) (re_rule2 ref).
  Definition el_mix_points (x : nat * element T) : list (mix_point T) :=
    map (fun pw => {| x_attr := e_attr (snd x); x_weight := snd pw * jacobian ms (snd x); x_ndx := ned_x x (fst pw); x_ndy := ned_y x (fst pw);
                      x_rtx := rav_x x (fst pw); x_rty := rav_y x (fst pw) |}) (re_rule2 ref).
  Definition el_energy_points (x : nat * element T) : list (energy_point T) :=
    map (fun pw => {| y_attr := e_attr (snd x); y_weight := snd pw * jacobian ms (snd x); y_x := ned_x x (fst pw); y_y := ned_y x (fst pw) |}) (re_rule2 ref).
  Definition el_dom_weights (x : nat * element T) : list T :=
    let dofs := h1_dofs x in
    spread n_h1 dofs
      (map (fun j => fold_left (fun s pw => s + snd pw * jacobian ms (snd x) * nth j (re_h1 ref (fst pw)) n0) (re_rule2 ref) n0) (seq 0 (List.length dofs))).

  (** ** Boundary elements *)
  Definition bdr_dofs (b : element T) : list nat := verts b ++ side_nodes (ends b).
  Definition el_surf_points (b : element T) : list (surf_point T) :=
    map (fun sw => {| b_attr := e_attr b; b_pos := along (pos ms (fst (ends b))) (pos ms (snd (ends b))) (fst sw);
                      b_weight := snd sw * bdr_len len ms b;
                      b_shape := spread n_h1 (bdr_dofs b) (re_seg ref (fst sw)) |}) (re_rule1 ref).
  Definition el_flux_points (b : element T) : list (flux_point T) :=
    map (fun sw => {| q_attr := e_attr b; q_pos := along (pos ms (fst (ends b))) (pos ms (snd (ends b))) (fst sw);
                      q_w := spread n_nd (side_fields (ends b)) (map (fun u => snd sw * sign (ends b) * u) (re_flux ref (fst sw))) |}) (re_rule1 ref).
  Definition el_bdr_weights (b : element T) : list T :=
    let dofs := bdr_dofs b in
    spread n_h1 dofs
      (map (fun j => fold_left (fun s sw => s + snd sw * bdr_len len ms b * nth j (re_seg ref (fst sw)) n0) (re_rule1 ref) n0) (seq 0 (List.length dofs))).

  (** DiscreteInterpolator from H1 to ND: the gradient of an H1 function, as a Nedelec function *)
  Definition side_rows (x : nat * nat) : list (list T) :=
    map (spread n_h1 (fst x :: snd x :: side_nodes x)) (re_side_grad ref).
  Definition inner_rows (x : nat * element T) : list (list T) := map (spread n_h1 (h1_dofs x)) (re_inner_grad ref).

  Definition elements : discretization T :=
    {| di_nH1 := n_h1; di_nND := n_nd; di_nRT := n_nd;
       di_bdrMax := zmax_list 0 (map e_attr (m_bdr ms)); di_domMax := zmax_list 0 (map e_attr (m_elems ms));
       di_bdrDofs := map (fun b => (e_attr b, bdr_dofs b)) (m_bdr ms);
       di_grad := flat_map el_grad_points numbered;
       di_abc := flat_map el_surf_points (m_bdr ms);
       di_surf := flat_map el_surf_points (m_bdr ms);
       di_rt := flat_map el_rt_points numbered;
       di_mix := flat_map el_mix_points numbered;
       di_gradient := flat_map side_rows (edges ms) ++ flat_map inner_rows numbered;
       di_flux := flat_map el_flux_points (m_bdr ms);
       di_bdrPhi := map (fun b => (e_attr b, el_bdr_weights b)) (m_bdr ms);
       di_domPhi := map (fun x => (e_attr (snd x), el_dom_weights x)) numbered;
       di_energy := flat_map el_energy_points numbered |}.
End Elements.
