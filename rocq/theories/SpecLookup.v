(** Specification vocabulary for C86: looking up materials. *)
From Verif Require Import Prelude Materials Lookup.

(** Names and tags of the materials of a kind, as listed *)
Definition listed {T} (k : kind) (m : materials T) : list (string * Z) :=
  match k with
  | Conductors => map (fun p => (p_name p, p_attr p)) (pecs m)
  | OpenLines => map (fun p => (o_name p, o_attr p)) (openBoundaries m)
  | Media => map (fun p => (d_name p, d_attr p)) (dielectrics m)
  end.
(** [x] is the first (last) one of [l] with [P]; [first_at]: at the position [i] *)
Definition first_at {A} (P : A -> Prop) (l : list A) (i : nat) : Prop :=
  exists l1 x l2, l = l1 ++ x :: l2 /\ List.length l1 = i /\ P x /\ forall y, In y l1 -> ~ P y.
Definition last_such {A} (P : A -> Prop) (l : list A) (x : A) : Prop :=
  exists l1 l2, l = l1 ++ x :: l2 /\ P x /\ forall y, In y l2 -> ~ P y.
Definition named (n : string) (x : string * Z) : Prop := fst x = n.
(** The number in its name (C01) is [i]. *)
Definition numbered_as (i : Z) (x : string * Z) : Prop := getMaterialIdFromName (fst x) = Ok i.
Definition has_number (x : string * Z) : Prop := exists i, numbered_as i x.
