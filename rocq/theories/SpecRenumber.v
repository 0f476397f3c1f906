(** Specification vocabulary for C67: models that differ in the numbers and names of materials. *)
From Coq Require Import Reals Permutation.
From Verif Require Import Prelude StdMap Json Materials Graph ModelM Parser Matrix Solver Domain Results Driver SpecInput SpecModel SpecSolver SpecDriver.

(** [s] is a permutation of 0 ... n-1. *)
Definition renumbering (n : nat) (s : nat -> nat) : Prop := Permutation (map s (seq 0 n)) (seq 0 n).
(** The same mesh with the same tags for conductors, open boundaries and media (names, areas and the
    order of the conductors may differ); conductor i of [m] is conductor s(i) of [m']. *)
Record renumbered (s : nat -> nat) (m m' : model R) (conds conds' : list (pec R)) : Prop := {
  rn_mesh : mo_mesh m' = mo_mesh m;
  rn_open : map o_attr (openBoundaries (mo_mats m')) = map o_attr (openBoundaries (mo_mats m));
  rn_media : map (fun d => (d_attr d, d_epsr d)) (dielectrics (mo_mats m')) = map (fun d => (d_attr d, d_epsr d)) (dielectrics (mo_mats m));
  rn_orders : in_order (mo_mats m) conds /\ in_order (mo_mats m') conds';
  rn_length : List.length conds' = List.length conds;
  rn_bijective : renumbering (List.length conds) s;
  rn_tags : forall i p, nth_error conds i = Some p -> exists p', nth_error conds' (s i) = Some p' /\ p_attr p' = p_attr p }.
(** Conductor 0 stays: the number among the other conductors, from 0. *)
Definition without_reference (s : nat -> nat) (i : nat) : nat := (s (S i) - 1)%nat.
(** Moreover the media have the same names, one of them is the inner region Vacuum_0, and the
    conductors keep their areas: what the average potentials depend on. *)
Definition same_inner_region (s : nat -> nat) (m m' : model R) (conds conds' : list (pec R)) : Prop :=
  map d_name (dielectrics (mo_mats m')) = map d_name (dielectrics (mo_mats m)) /\
  In "Vacuum_0"%string (map d_name (dielectrics (mo_mats m))) /\
  forall i p p', nth_error conds i = Some p -> nth_error conds' (s i) = Some p' -> p_area p' = p_area p.
(** The same parameters, with the potential of conductor j listed at number s(j). *)
Record same_field (s : nat -> nat) (n : nat) (fr fr' : fieldrec R) : Prop := {
  sf_average : fr_avg fr' = fr_avg fr;
  sf_center : fr_center fr' = fr_center fr;
  sf_multipoles : fr_ab fr' = fr_ab fr;
  sf_potentials : forall j v, (j < n)%nat -> In (Z.of_nat j, v) (fr_pots fr) -> In (Z.of_nat (s j), v) (fr_pots fr') }.
