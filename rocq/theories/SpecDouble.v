(** Specification vocabulary for C84: the real numbers that doubles stand for. *)
From Coq Require Import Reals Floats ZArith.
From Verif Require Import Prelude Matrix Materials ModelM Solver RSum SpecMatrix.
Open Scope R_scope.

(** Neither infinite nor NaN *)
Definition is_number (x : float) : Prop :=
  match Prim2SF x with S754_zero _ | S754_finite _ _ _ => True | _ => False end.
(** Its value (of infinities and NaN: 0) *)
Definition double_value (x : float) : R :=
  match Prim2SF x with S754_finite s m e => (if s then -1 else 1) * IZR (Zpos m) * powerRZ 2 e | _ => 0 end.
(** Half a unit in the last place of 1, and half the least positive double. *)
Definition roundoff : R := / 2 ^ 53.
Definition tiny : R := / 2 ^ 1075.
(** The relative error of [k] roundings in a row. *)
Definition roundings (k : nat) : R := (1 + roundoff) ^ k - 1.

(** A matrix of doubles whose entries are numbers, and the matrix of their values. *)
Definition numbers (g : matrix float) : Prop :=
  forall i j, (i < nr g)%nat -> (j < nc g)%nat -> is_number (ent g i j).
Definition values (g : matrix float) : matrix R :=
  {| nr := nr g; nc := nc g; ent := fun i j => double_value (ent g i j) |}.
(** Sum of the absolute values of the entries. *)
Definition magnitude (G : matrix R) : R := Sum (nr G) (fun i => Sum (nc G) (fun j => Rabs (ent G i j))).
(** How much larger the entries are than their total. *)
Definition cancellation (G : matrix R) : R := magnitude G / Rabs (total G).
(** The charge on conductor [i + 1] per volt on conductor [j + 1], referred to conductor 0, when the
    total charge is kept at zero: potentials of all the conductors are shifted by the same amount. *)
Definition neutral_capacitance (G : matrix R) (i j : nat) : R :=
  ent G (S i) (S j) - Sum (nc G) (fun k => ent G (S i) k) * Sum (nr G) (fun k => ent G k (S j)) / total G.
(** Safely away from overflow and underflow. *)
Definition moderate (x : R) : Prop := / 2 ^ 400 <= x <= 2 ^ 400.
(** [x] has the value [y] up to [k] roundings. *)
Definition within (k : nat) (x : float) (y : R) : Prop :=
  is_number x /\ Rabs (double_value x - y) <= roundings k * Rabs y.
(** Zero, or safely away from overflow and underflow. *)
Definition zero_or_moderate (x : R) : Prop := x = 0 \/ moderate (Rabs x).
(** [v]: the average of the potential over the material called [name]; [a]: its area; as computed. *)
Definition computed_data (F : fem float) (s : solver float) (m : model float) (name : string) (v a : float) : Prop :=
  getAreaOfMaterial m name = Ok a /\
  ((exists d, In d (dielectrics (mo_mats m)) /\ d_name d = name /\ v = getAveragePotentialInDomain F s (d_attr d)) \/
   (exists p, In p (pecs (mo_mats m)) /\ p_name p = name /\ v = getAveragePotentialInBoundary F s (p_attr p))).
