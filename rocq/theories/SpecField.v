(** Specification vocabulary for the reconstructed fields (C30). *)
From Coq Require Import Reals.
From Verif Require Import Prelude StdMap Json Materials Graph ModelM Parser Matrix Solver Domain Results Driver
  RSum SpecInput SpecModel SpecSolver SpecDriver SpecMatrix.
Open Scope R_scope.
Open Scope list_scope.

(** [x] is the combination sum_j c_j u_j of the fields [us]. *)
Definition entry (l : list R) (k : nat) : R := nth k l 0.
Definition combines (us : list (solution R)) (c : nat -> R) (x : solution R) : Prop :=
  let n := List.length us in
  forall k,
    entry (so_phi x) k = Sum n (fun j => c j * entry (nth j (map so_phi us) []) k) /\
    entry (so_e x) k = Sum n (fun j => c j * entry (nth j (map so_e us) []) k) /\
    entry (so_d x) k = Sum n (fun j => c j * entry (nth j (map so_d us) []) k).

(** [fr] describes the field [x] in which conductor j has the potential [V j]: [x] is that
    combination of the unit solutions, the stored potentials are [V], and the other quantities
    are those a solver of this problem holding [x] reports. *)
Record reconstruction (F : fem R) (dbg : bool) (moment : R * R -> nat -> nat -> R * R -> R) (m : model R)
    (order : nat) (ignore : bool) (conds : list (pec R)) (V : nat -> R) (x : solution R) (fr : fieldrec R) : Prop := {
  rc_sized : sized F x;
  rc_units : exists us, Forall2 (fun p u => unit_solution F dbg (mo_mats m) ignore (p_attr p) u) conds us /\ combines us V x;
  rc_potentials : fr_pots fr = map (fun j => (Z.of_nat j, V j)) (seq 0 (List.length conds));
  rc_values : exists s v, getSolution s = x /\ conductor_problem (mo_mats m) ignore v (s_params s) /\
    getInnerRegionAveragePotential m F s true = Ok (fr_avg fr) /\
    getCenterOfCharge F moment s = Ok (fr_center fr) /\
    getMultipolarCoefficients F moment s order = Ok (fr_ab fr) }.

(** The charge on conductor j with 1 V on conductor i is the charge on conductor i with 1 V on
    conductor j. *)
Definition reciprocal (F : fem R) (dbg : bool) (m : model R) (ignore : bool) (conds : list (pec R)) : Prop :=
  forall i j p q x y a b, i <> j -> nth_error conds i = Some p -> nth_error conds j = Some q ->
    unit_solution F dbg (mo_mats m) ignore (p_attr p) x -> unit_solution F dbg (mo_mats m) ignore (p_attr q) y ->
    charge_on F x (p_attr q) a -> charge_on F y (p_attr p) b -> a = b.
(** [q j k] is the charge on conductor k in the field with 1 V on conductor j. *)
Definition unit_charges (F : fem R) (dbg : bool) (m : model R) (ignore : bool) (conds : list (pec R)) (q : nat -> nat -> R) : Prop :=
  forall j k pj pk u, nth_error conds j = Some pj -> nth_error conds k = Some pk ->
    unit_solution F dbg (mo_mats m) ignore (p_attr pj) u -> charge_on F u (p_attr pk) (q j k).
(** The fields with the dielectrics and those of the magnetic problem. *)
Definition fields_of (p : incell R) (ignore : bool) : list (Z * fieldrec R) := if ignore then ic_magnetic p else ic_electric p.
