(** Specification vocabulary for C70: the same cross section drawn elsewhere. *)
From Coq Require Import Reals Permutation.
From Verif Require Import Prelude Materials ModelM Solver Fem Results RSum SpecGraph SpecModel SpecTriangles Triangles.
Open Scope R_scope.
Open Scope list_scope.

(** Scaling by [s], turning and shifting *)
Definition similarity (s : R) (f : R * R -> R * R) : Prop :=
  0 < s /\ exists c n tx ty, c * c + n * n = 1 /\
    forall p, f p = (s * (c * fst p - n * snd p) + tx, s * (n * fst p + c * snd p) + ty).
(** The same list, begun elsewhere *)
Definition turned (l l' : list Z) : Prop := exists l1 l2, l = l1 ++ l2 /\ l' = l2 ++ l1.
(** The mesh [ms'] is the image of [ms] under [f]: the vertex [v] is called [sigma v] and is at the
    image of its place; the elements may be listed in another order and start at another vertex; the
    boundary elements may be listed in another order. *)
Record redrawn (f : R * R -> R * R) (sigma : Z -> Z) (ms ms' : mesh R) : Prop := {
  rd_elems : exists l, Permutation l (m_elems ms') /\
    Forall2 (fun e e' => e_attr e' = e_attr e /\ turned (map sigma (e_verts e)) (e_verts e')) (m_elems ms) l;
  rd_bdr : exists l, Permutation l (m_bdr ms') /\
    Forall2 (fun b b' => e_attr b' = e_attr b /\ e_verts b' = map sigma (e_verts b)) (m_bdr ms) l;
  rd_names : forall v w, vertex ms v -> vertex ms w -> sigma v = sigma w -> v = w;
  rd_coord : forall v, vertex ms v -> m_coord ms' (sigma v) = f (m_coord ms v) }.
Definition same_drawing (s : R) (f : R * R -> R * R) (sigma : Z -> Z) (m m' : model R) : Prop :=
  similarity s f /\ redrawn f sigma (mo_mesh m) (mo_mesh m') /\ mo_mats m' = mo_mats m.
(** The absorbing coefficient [abc'] of the new drawing is the one of the old drawing, in the new
    unit of length. (Holds of any coefficients when there is no open boundary.) *)
Definition absorbs_alike (s : R) (f : R * R -> R * R) (abc abc' : R * R -> R) (m : model R) : Prop :=
  forall o p, In o (openBoundaries (mo_mats m)) -> on_line (mo_mesh m) (o_attr o) p -> s * abc' (f p) = abc p.
(** No two segments of an open boundary begin at the same vertex. *)
Definition open_lines_simple (m : model R) : Prop :=
  forall o, In o (openBoundaries (mo_mats m)) -> NoDup (map fst (segments_with (mo_mesh m) (o_attr o))).
(** The rule integrates polynomials of degree 2 over the reference triangle. *)
Record exact_for_quadratics (rule : list (R * R * R)) : Prop := {
  ex_1 : Rsum rule snd = / 2;
  ex_x : Rsum rule (fun q => snd q * fst (fst q)) = / 6;
  ex_y : Rsum rule (fun q => snd q * snd (fst q)) = / 6;
  ex_xx : Rsum rule (fun q => snd q * (fst (fst q) * fst (fst q))) = / 12;
  ex_xy : Rsum rule (fun q => snd q * (fst (fst q) * snd (fst q))) = / 24;
  ex_yy : Rsum rule (fun q => snd q * (snd (fst q) * snd (fst q))) = / 12 }.

(** ** Turning about the origin *)
Definition turn (th : R) (p : R * R) : R * R := (cos th * fst p - sin th * snd p, sin th * fst p + cos th * snd p).
(** The coefficients (a_n, b_n), n = k, k+1, ..., each turned by n times the angle *)
Fixpoint turn_multipoles (th : R) (k : nat) (ab : list (R * R)) : list (R * R) :=
  match ab with [] => [] | c :: r => turn (INR k * th) c :: turn_multipoles th (S k) r end.
(** The field [fr'] is the field [fr] turned: same potentials and average, its centre turned, the
    n-th coefficients turned by n times the angle. *)
Record turned_field (th : R) (fr fr' : fieldrec R) : Prop := {
  tf_average : fr_avg fr' = fr_avg fr;
  tf_center : fr_center fr' = turn th (fr_center fr);
  tf_multipoles : fr_ab fr' = turn_multipoles th 0 (fr_ab fr);
  tf_potentials : fr_pots fr' = fr_pots fr }.
(** Regions have the same areas (as reported by the mesh). *)
Definition same_areas (ms ms' : mesh R) : Prop := forall t, total_area ms' t = total_area ms t.
