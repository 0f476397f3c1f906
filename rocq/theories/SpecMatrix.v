(** Specification vocabulary for the matrices (C24-C30, C49), over the real numbers. *)
From Verif Require Import Prelude Matrix ModelM RSum.
From Coq Require Import Reals.
Open Scope R_scope.

(** A square matrix of [n] rows. *)
Definition square (n : nat) (m : matrix R) : Prop := nr m = n /\ nc m = n.
(** The charge of conductor [i] when the potentials of all conductors are [V]. *)
Definition charge (g : matrix R) (V : nat -> R) (i : nat) : R := Sum (nc g) (fun k => ent g i k * V k).
(** Energy-like form V^T g V. *)
Definition quad (g : matrix R) (V : nat -> R) : R := Sum (nr g) (fun i => V i * charge g V i).
Definition symmetric (g : matrix R) : Prop :=
  forall i j, (i < nr g)%nat -> (j < nr g)%nat -> ent g i j = ent g j i.
Definition positive_definite (g : matrix R) : Prop :=
  forall V, (exists k, (k < nr g)%nat /\ V k <> 0) -> 0 < quad g V.
(** Positive for all potentials that are not the same on all conductors: what the energy of the
    field implies. (In closed problems equal potentials give no charge.) *)
Definition positive_for_differences (g : matrix R) : Prop :=
  forall V, (exists k, (k < nr g)%nat /\ V k <> V 0%nat) -> 0 < quad g V.
(** Sum of all the entries: the total charge with all conductors at 1 V. *)
Definition total (g : matrix R) : R := Sum (nr g) (fun i => Sum (nc g) (fun j => ent g i j)).
(** The product of two n x n matrices is c times the identity. *)
Definition product_is (n : nat) (a b : matrix R) (c : R) : Prop :=
  forall i j, (i < n)%nat -> (j < n)%nat ->
    Sum n (fun k => ent a i k * ent b k j) = if (i =? j)%nat then c else 0.
(** Potentials with 1 V on [i] for which no other conductor has charge. *)
Definition floats (C : matrix R) (i : nat) (V : nat -> R) : Prop :=
  V i = 1 /\ forall k, (k < nr C)%nat -> k <> i -> charge C V k = 0.
(** The matrix without the row and the column of conductor 0: charges for potentials referred to
    conductor 0. *)
Definition grounded (g : matrix R) : matrix R :=
  {| nr := nr g - 1; nc := nc g - 1; ent := fun i j => ent g (S i) (S j) |}.
(** Vacuum permittivity and permeability (constants.h), in F/m and H/m. *)
Definition eps0 : R := 8.8541878176 * / 10 ^ 12.
Definition mu0 : R := 4 * PI * / 10 ^ 7.
