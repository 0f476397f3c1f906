(** Specification vocabulary for C80. *)
From Coq Require Import Reals.
From Verif Require Import Prelude Materials.
(** A dielectric (or conductor) called Vacuum_0 is present: the inner region. *)
Definition inner_region_named (mats : materials R) : Prop :=
  In "Vacuum_0"%string (map d_name (dielectrics mats)) \/ In "Vacuum_0"%string (map p_name (pecs mats)).
