(** Specification vocabulary for integration boxes (C46-C48). *)
From Coq Require Import Reals List Sorted.
From Verif Require Import Prelude ModelM.
Open Scope R_scope.
Open Scope list_scope.

(** The four faces of a box. *)
Definition left (b : box R) : R := fst (b_min b).
Definition right (b : box R) : R := fst (b_max b).
Definition bottom (b : box R) : R := snd (b_min b).
Definition top (b : box R) : R := snd (b_max b).
(** A box with positive sides; with sides that may be zero. *)
Definition proper (b : box R) : Prop := left b < right b /\ bottom b < top b.
Definition ordered (b : box R) : Prop := left b <= right b /\ bottom b <= top b.
(** The box [a] lies in the box [b]. *)
Definition contained (a b : box R) : Prop :=
  left b <= left a /\ right a <= right b /\ bottom b <= bottom a /\ top a <= top b.
(** Points of a box, with and without its boundary. *)
Definition in_box (b : box R) (p : R * R) : Prop :=
  left b <= fst p <= right b /\ bottom b <= snd p <= top b.
Definition interior (b : box R) (p : R * R) : Prop :=
  left b < fst p < right b /\ bottom b < snd p < top b.
Definition area (b : box R) : R := (right b - left b) * (top b - bottom b).
Definition middle (b : box R) : R * R := ((left b + right b) / 2, (bottom b + top b) / 2).

(** [x] follows [a] in the list. *)
Definition adjacent (l : list R) (a b : R) : Prop := exists l1 l2, l = l1 ++ a :: b :: l2.

(** [l] subdivides [lo, hi] at the points [u] and [v] and into small steps. *)
Record subdivides (l : list R) (lo hi u v : R) : Prop := {
  sd_increasing : StronglySorted Rlt l;
  sd_first : exists r, l = lo :: r;
  sd_last : exists r, l = r ++ [hi];
  sd_left : In u l;
  sd_right : In v l;
  sd_steps : forall a b, adjacent l a b -> b - a <= (hi - lo) / 100 }.
(** [x] is one of the 101 equispaced points from [a] to [b]. *)
Definition equispaced (a b x : R) : Prop := exists k, (k <= 100)%nat /\ x = a + INR k * ((b - a) / 100).
(** [a] and [b] are different points of the list without another one between them. *)
Definition neighbours (l : list R) (a b : R) : Prop :=
  In a l /\ In b l /\ a < b /\ forall x, In x l -> x <= a \/ b <= x.

(** Sum over a list. *)
Definition total (l : list (box R)) (f : box R -> R) : R := fold_right (fun c s => f c + s) 0 l.

(** [cells] tile the part of [outer] outside [inner]: they lie in [outer], do not overlap
    [inner] nor each other, and leave no point uncovered. *)
Record tiles (cells : list (box R)) (inner outer : box R) : Prop := {
  ti_proper : forall c, In c cells -> proper c;
  ti_inside : forall c, In c cells -> contained c outer;
  ti_outside : forall c p, In c cells -> interior c p -> ~ in_box inner p;
  ti_once : NoDup cells;
  ti_disjoint : forall c d p, In c cells -> In d cells -> interior c p -> interior d p -> c = d;
  ti_cover : forall p, in_box outer p -> in_box inner p \/ exists c, In c cells /\ in_box c p;
  ti_small : forall c, In c cells ->
    right c - left c <= (right outer - left outer) / 100 /\ top c - bottom c <= (top outer - bottom outer) / 100 }.
