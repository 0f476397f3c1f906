(** Specification of the average over the inner region (C50). *)
From Coq Require Import Reals.
From Verif Require Import Prelude Materials ModelM Solver SpecModel.

(** [s] contains the text [sub]. *)
Definition string_in (sub s : string) : Prop := exists a b, s = (a ++ sub ++ b)%string.

(** [v]: the average of the potential over the material called [name]; [a]: its area. *)
Definition material_data (F : fem R) (s : solver R) (m : model R) (name : string) (v a : R) : Prop :=
  (exists d, In d (dielectrics (mo_mats m)) /\ d_name d = name /\
     v = getAveragePotentialInDomain F s (d_attr d) /\ a = total_area (mo_mesh m) (d_attr d)) \/
  (exists p, In p (pecs (mo_mats m)) /\ p_name p = name /\
     v = getAveragePotentialInBoundary F s (p_attr p) /\ a = p_area p).
(** [names]: the materials of the inner region, each once: Vacuum_0, the dielectrics that are
    not vacuum regions and, if asked for, the conductors. *)
Definition inner_materials {T : Type} (m : model T) (conductors : bool) (names : list string) : Prop :=
  NoDup names /\
  forall n, In n names <->
    n = "Vacuum_0"%string \/
    (In n (map d_name (dielectrics (mo_mats m))) /\ ~ string_in "Vacuum_" n) \/
    (conductors = true /\ In n (map p_name (pecs (mo_mats m)))).
