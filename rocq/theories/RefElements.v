(** Reference elements of the orders 1, 2 and 3 (the default of SolverOptions.h:8), with Lagrange bases at
    equidistant points for H1. Third party (MFEM): H1_FECollection uses other points for order 3
    (Gauss-Lobatto), ND_FECollection other functions that span the same spaces; fields computed do not depend on the
    choice of basis. *)
From Verif Require Import Prelude ModelM Matrix Solver Fem Triangles Elements.
Open Scope list_scope.

Section References.
  Context {T : Type} `{Num T}.
  Open Scope num_scope.
  Definition nq (a b : Z) : T := nofZ a / nofZ b.
  Variable rule1 : list (T * T).
  Variable rule0 rule2 : list (T * T * T).
  (** [f] applied to the barycentric coordinates of a point, [d] also to one component of their gradients *)
  Definition at_point (f : T -> T -> T -> list T) (p : T * T) : list T := f (n1 - fst p - snd p) (fst p) (snd p).
  Definition comp_x (d : T -> T -> T -> T -> T -> T -> list T) (p : T * T) : list T := d (n1 - fst p - snd p) (fst p) (snd p) (nopp n1) n1 n0.
  Definition comp_y (d : T -> T -> T -> T -> T -> T -> list T) (p : T * T) : list T := d (n1 - fst p - snd p) (fst p) (snd p) (nopp n1) n0 n1.

  (** Order 1 *)
  Definition linear : reference T :=
    {| re_rule1 := rule1; re_rule0 := rule0; re_rule2 := rule2; re_side := 0; re_inner := 0; re_side_nd := 1; re_inner_nd := 0;
       re_h1 := at_point (fun a b c => [a; b; c]);
       re_h1x := comp_x (fun _ _ _ x y z => [x; y; z]); re_h1y := comp_y (fun _ _ _ x y z => [x; y; z]);
       re_ndx := comp_x (fun a b c x y z => [a * y - b * x; b * z - c * y; c * x - a * z]);
       re_ndy := comp_y (fun a b c x y z => [a * y - b * x; b * z - c * y; c * x - a * z]);
       re_seg := fun s => [n1 - s; s]; re_flux := fun _ => [n1];
       re_side_grad := [[nopp n1; n1]]; re_inner_grad := [] |}.

  (** Order 2 *)
  Definition quad_vertex (l : T) : T := l * (nofZ 2 * l - n1).
  Definition quad_vertex' (l g : T) : T := (nofZ 4 * l - n1) * g.
  Definition quad_side (l m : T) : T := nofZ 4 * (l * m).
  Definition quad_side' (l m g h : T) : T := nofZ 4 * (g * m + l * h).
  Definition quad_nd (a b c x y z : T) : list T :=
    let u := a * y - b * x in let v := b * z - c * y in let w := c * x - a * z in
    [a * u; b * u; b * v; c * v; c * w; a * w; c * u; a * v].
  Definition quadratic : reference T :=
    {| re_rule1 := rule1; re_rule0 := rule0; re_rule2 := rule2; re_side := 1; re_inner := 0; re_side_nd := 2; re_inner_nd := 2;
       re_h1 := at_point (fun a b c => [quad_vertex a; quad_vertex b; quad_vertex c; quad_side a b; quad_side b c; quad_side c a]);
       re_h1x := comp_x (fun a b c x y z => [quad_vertex' a x; quad_vertex' b y; quad_vertex' c z; quad_side' a b x y; quad_side' b c y z; quad_side' c a z x]);
       re_h1y := comp_y (fun a b c x y z => [quad_vertex' a x; quad_vertex' b y; quad_vertex' c z; quad_side' a b x y; quad_side' b c y z; quad_side' c a z x]);
       re_ndx := comp_x quad_nd; re_ndy := comp_y quad_nd;
       re_seg := fun s => [quad_vertex (n1 - s); quad_vertex s; quad_side s (n1 - s)]; re_flux := fun s => [n1 - s; s];
       re_side_grad := [[nofZ (-3); nofZ (-1); nofZ 4]; [nofZ 1; nofZ 3; nofZ (-4)]];
       re_inner_grad := map (map nofZ) [[2; -1; -1; -4; 8; -4]; [1; 1; -2; -8; 4; 4]]%Z |}.

  (** Order 3 *)
  Definition cubic_vertex (l : T) : T := nq 1 2 * (l * ((nofZ 3 * l - n1) * (nofZ 3 * l - nofZ 2))).
  Definition cubic_vertex' (l g : T) : T := nq 1 2 * (nofZ 27 * (l * l) - nofZ 18 * l + nofZ 2) * g.
  (** the point of a side with l = 2/3 *)
  Definition cubic_side (l m : T) : T := nq 9 2 * (l * m * (nofZ 3 * l - n1)).
  Definition cubic_side' (l m g h : T) : T := nq 9 2 * ((nofZ 6 * l - n1) * m * g + l * (nofZ 3 * l - n1) * h).
  Definition cubic_inner (a b c : T) : T := nofZ 27 * (a * b * c).
  Definition cubic_inner' (a b c x y z : T) : T := nofZ 27 * (x * b * c + a * y * c + a * b * z).
  Definition cubic_nd (a b c x y z : T) : list T :=
    let u := a * y - b * x in let v := b * z - c * y in let w := c * x - a * z in
    [a * a * u; a * b * u; b * b * u; b * b * v; b * c * v; c * c * v; c * c * w; c * a * w; a * a * w;
     c * a * u; c * b * u; c * c * u; a * a * v; a * b * v; a * c * v].
  Definition cubic_grad (a b c x y z : T) : list T :=
    [cubic_vertex' a x; cubic_vertex' b y; cubic_vertex' c z; cubic_side' a b x y; cubic_side' b a y x;
     cubic_side' b c y z; cubic_side' c b z y; cubic_side' c a z x; cubic_side' a c x z; cubic_inner' a b c x y z].
  Definition halves (l : list Z) : list T := map (fun z => nq z 2) l.
  Definition cubic : reference T :=
    {| re_rule1 := rule1; re_rule0 := rule0; re_rule2 := rule2; re_side := 2; re_inner := 1; re_side_nd := 3; re_inner_nd := 6;
       re_h1 := at_point (fun a b c => [cubic_vertex a; cubic_vertex b; cubic_vertex c; cubic_side a b; cubic_side b a;
                                        cubic_side b c; cubic_side c b; cubic_side c a; cubic_side a c; cubic_inner a b c]);
       re_h1x := comp_x cubic_grad; re_h1y := comp_y cubic_grad;
       re_ndx := comp_x cubic_nd; re_ndy := comp_y cubic_nd;
       re_seg := fun s => [cubic_vertex (n1 - s); cubic_vertex s; cubic_side (n1 - s) s; cubic_side s (n1 - s)];
       re_flux := fun s => [(n1 - s) * (n1 - s); s * (n1 - s); s * s];
       re_side_grad := map halves [[-11; 2; 18; -9]; [14; -14; -54; 54]; [-2; 11; 9; -18]]%Z;
       re_inner_grad := map halves [[28; 4; 4; -54; 0; -18; -18; 0; -54; 108]; [-6; -14; 2; 18; -9; 63; -18; 9; 9; -54];
                                    [-6; 2; -14; 9; 9; -18; 63; -9; 18; -54]; [14; -2; 6; -63; 18; -9; -9; -18; 9; 54];
                                    [-2; 14; 6; 18; -63; 9; -18; -9; -9; 54]; [-4; -4; -28; 18; 18; 0; 54; 54; 0; -108]]%Z |}.
  (** by order *)
  Definition reference_of (k : Z) : reference T := if (k =? 1)%Z then linear else if (k =? 2)%Z then quadratic else cubic.
End References.
