(** Specification vocabulary for averages on triangles (C55) and for the energy of open problems
    (C69). *)
From Coq Require Import Reals.
From Verif Require Import Prelude Materials ModelM RSum SpecTriangles.
Open Scope R_scope.
Open Scope list_scope.

(** The rules integrate linear functions over the reference segment and triangle. *)
Record exact_for_linear (rule1 : list (R * R)) (rule2 : list (R * R * R)) : Prop := {
  el_segment : Rsum rule1 snd = 1 /\ Rsum rule1 (fun q => snd q * fst q) = / 2;
  el_triangle : Rsum rule2 snd = / 2 /\ Rsum rule2 (fun q => snd q * fst (fst q)) = / 6 /\ Rsum rule2 (fun q => snd q * snd (fst q)) = / 6 }.

Section Mesh.
  Variable ms : mesh R.
  Definition tagged (t : Z) (l : list (element R)) : list (element R) := filter (fun e => (e_attr e =? t)%Z) l.
  (** Mean value of a linear function on a triangle or segment: that of its values at the vertices *)
  Definition mean (phi : list R) (e : element R) : R := Rsum (e_verts e) (at_vertex phi) / INR (List.length (e_verts e)).
  Definition segment_length (b : element R) : R :=
    match e_verts b with [v; w] => distance (m_coord ms v) (m_coord ms w) | _ => 0 end.
  (** The average of [phi] over the elements [l] of the sizes [size] is [a] (and they have a size). *)
  Definition average (size : element R -> R) (phi : list R) (l : list (element R)) (a : R) : Prop :=
    0 < Rsum l size /\ a = Rsum l (fun e => size e * mean phi e) / Rsum l size.
End Mesh.

(** 1/2 integral of abc phi^2 over the open boundaries, by a rule of the segment *)
Definition absorbed (rule1 : list (R * R)) (abc : R * R -> R) (m : model R) (phi : list R) : R :=
  Rsum (filter (fun b => zmem (e_attr b) (map o_attr (openBoundaries (mo_mats m)))) (m_bdr (mo_mesh m)))
    (fun b => match e_verts b with
              | [v; w] =>
                  let p := m_coord (mo_mesh m) v in let q := m_coord (mo_mesh m) w in
                  / 2 * distance p q * Rsum rule1 (fun r => let s := fst r in
                    let value := (1 - s) * at_vertex phi v + s * at_vertex phi w in
                    snd r * abc ((1 - s) * fst p + s * fst q, (1 - s) * snd p + s * snd q) * (value * value))
              | _ => 0
              end).
