(** Specification vocabulary for results (C42-C48). *)
From Verif Require Import Prelude StdMap Json ModelM Matrix Results SpecInput.
From Coq Require Import Reals.

Section Spec.
  Context {T : Type} `{Num T}.

  (** Every entry satisfies [P]. *)
  Definition all_entries (P : T -> Prop) (A : matrix T) : Prop :=
    forall i j, (i < nr A)%nat -> (j < nc A)%nat -> P (ent A i j).
  (** A number that is not a NaN is equal to itself; a finite one minus itself is zero. *)
  Definition not_nan (x : T) : Prop := neqb x x = true.
  Definition finite (x : T) : Prop := nfinite x = true.
  (** Some column, or no row at all: rows without entries are not written as such. *)
  Definition has_columns (A : matrix T) : Prop := (0 < nc A)%nat \/ nr A = 0%nat.

  (** [A] has the rows [v]. *)
  Definition matrix_of_rows (v : list (list T)) (A : matrix T) : Prop :=
    nr A = List.length v /\ (forall r, In r v -> List.length r = nc A) /\
    forall i j x, (exists r, nth_error v i = Some r /\ nth_error r j = Some x) -> ent A i j = x.
  Definition rectangular (v : list (list T)) : Prop := exists n, forall r, In r v -> List.length r = n.

  (** Maps numbered 0, 1, ..., n-1. *)
  Definition numbered_map {V} (m : list (Z * V)) : Prop :=
    map fst m = map Z.of_nat (seq 0 (List.length m)).
  Definition numbered_fields (m : list (Z * fieldrec T)) : Prop :=
    numbered_map m /\ forall k f, In (k, f) m -> numbered_map (fr_pots f).
  Definition numbered_incell (p : incell T) : Prop :=
    numbered_fields (ic_electric p) /\ numbered_fields (ic_magnetic p).
  (** All the numbers in a result satisfy P. *)
  Definition all_fieldrec (P : T -> Prop) (f : fieldrec T) : Prop :=
    P (fr_avg f) /\ P (fst (fr_center f)) /\ P (snd (fr_center f)) /\
    (forall a b, In (a, b) (fr_ab f) -> P a /\ P b) /\ (forall k v, In (k, v) (fr_pots f) -> P v).
  Definition all_incell (P : T -> Prop) (p : incell T) : Prop :=
    (P (fst (b_min (ic_box p))) /\ P (snd (b_min (ic_box p))) /\ P (fst (b_max (ic_box p))) /\ P (snd (b_max (ic_box p)))) /\
    forall k f, In (k, f) (ic_electric p) \/ In (k, f) (ic_magnetic p) -> all_fieldrec P f.

  (** ** Equality of results: the same structure with the numbers related by [E]. *)
  Definition same_numbers (E : T -> T -> Prop) (A B : matrix T) : Prop :=
    nr A = nr B /\ ((0 < nr A)%nat -> nc A = nc B) /\
    forall i j, (i < nr A)%nat -> (j < nc A)%nat -> E (ent A i j) (ent B i j).
  Definition same_pul (E : T -> T -> Prop) (p q : pul T) : Prop :=
    same_numbers E (pul_C p) (pul_C q) /\ same_numbers E (pul_L p) (pul_L q).
  Definition rel_pair (E : T -> T -> Prop) (a b : T * T) : Prop := E (fst a) (fst b) /\ E (snd a) (snd b).
  Definition same_fieldrec (E : T -> T -> Prop) (f g : fieldrec T) : Prop :=
    E (fr_avg f) (fr_avg g) /\ rel_pair E (fr_center f) (fr_center g) /\
    Forall2 (rel_pair E) (fr_ab f) (fr_ab g) /\
    Forall2 (fun a b => fst a = fst b /\ E (snd a) (snd b)) (fr_pots f) (fr_pots g).
  Definition same_fields (E : T -> T -> Prop) : list (Z * fieldrec T) -> list (Z * fieldrec T) -> Prop :=
    Forall2 (fun a b => fst a = fst b /\ same_fieldrec E (snd a) (snd b)).
  Definition same_incell (E : T -> T -> Prop) (p q : incell T) : Prop :=
    rel_pair E (b_min (ic_box p)) (b_min (ic_box q)) /\ rel_pair E (b_max (ic_box p)) (b_max (ic_box q)) /\
    same_fields E (ic_electric p) (ic_electric q) /\ same_fields E (ic_magnetic p) (ic_magnetic q).
  (** std::map keeps its keys increasing. *)
  Definition map_keys {V} (m : list (Z * V)) : Prop := msorted m.
  Definition maps_ok (p : incell T) : Prop :=
    forall k f, In (k, f) (ic_electric p) \/ In (k, f) (ic_magnetic p) -> map_keys (fr_pots f).
End Spec.

(** The JSON value is an array of arrays of numbers (with or without a point): the rows of [v]. *)
Definition written_rows (j : json R) (v : list (list R)) : Prop :=
  exists js, j = JArr js /\ Forall2 (fun r xs => exists es, r = JArr es /\ Forall2 number es xs) js v.
(** No row at all, or a first row which is not empty. *)
Definition first_row_not_empty (v : list (list R)) : Prop := v = [] \/ exists r0 rest, v = r0 :: rest /\ r0 <> [].

(** ** What a JSON value says of in-cell potentials *)
(** [for (const auto& x : j)] visits the elements of an array, the values of an object, nothing in
    null, and any other value as such. *)
Definition visits (j : json R) (l : list (json R)) : Prop :=
  match j with
  | JArr l' => l = l'
  | JObj m => l = map snd m
  | JNull => l = []
  | _ => l = [j]
  end.
(** An array that begins with two numbers. *)
Definition two_numbers (j : json R) (xy : R * R) : Prop :=
  exists jx jy rest, j = JArr (jx :: jy :: rest) /\ number jx (fst xy) /\ number jy (snd xy).
(** The things visited, numbered 0, 1, ... *)
Definition numbered_as {V} (m : list (Z * V)) (l : list V) : Prop := numbered_map m /\ map snd m = l.
Definition written_field (j : json R) (f : fieldrec R) : Prop :=
  (exists ja, field j "innerRegionAveragePotential" ja /\ number ja (fr_avg f)) /\
  (exists jc, field j "expansionCenter" jc /\ two_numbers jc (fr_center f)) /\
  (exists jab l, field j "ab" jab /\ visits jab l /\ Forall2 two_numbers l (fr_ab f)) /\
  (exists jp l xs, field j "conductorPotentials" jp /\ visits jp l /\ Forall2 number l xs /\ numbered_as (fr_pots f) xs).
Definition written_fields (j : json R) (fs : list (Z * fieldrec R)) : Prop :=
  exists l xs, visits j l /\ Forall2 written_field l xs /\ numbered_as fs xs.
Definition written_incell (j : json R) (p : incell R) : Prop :=
  (exists jb jmin jmax, field j "innerRegionBox" jb /\ field jb "min" jmin /\ two_numbers jmin (b_min (ic_box p)) /\
     field jb "max" jmax /\ two_numbers jmax (b_max (ic_box p))) /\
  (exists je, field j "electric" je /\ written_fields je (ic_electric p)) /\
  (exists jm, field j "magnetic" jm /\ written_fields jm (ic_magnetic p)).
(** Some coefficient of some field is an array of less than two elements. *)
Definition short_coefficient (j : json R) : Prop :=
  exists kind fields l f jab cs c, In kind ["electric"; "magnetic"]%string /\ field j kind fields /\ visits fields l /\ In f l /\
    field f "ab" jab /\ visits jab cs /\ In (JArr c) cs /\ (List.length c < 2)%nat.
