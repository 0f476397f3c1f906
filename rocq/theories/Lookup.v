(** Model of the lookups of src/Materials.h for all kinds of materials (Materials.v has those that the
    Driver uses). *)
From Verif Require Import Prelude StdMap Materials.

(** the template argument *)
Inductive kind := Conductors | OpenLines | Media.
Section Lookup.
  Context {T : Type}.
  Notation materials := (materials T).
  (** Materials.h:27-30: the vector of that kind (name and attribute of each material) *)
  Definition vector_of (k : kind) (m : materials) : list (string * Z) :=
    match k with
    | Conductors => map (fun p => (p_name p, p_attr p)) (pecs m)
    | OpenLines => map (fun p => (o_name p, o_attr p)) (openBoundaries m)
    | Media => map (fun p => (d_name p, d_attr p)) (dielectrics m)
    end.
  (** Materials.h:32-52 buildNameToAttrMapFor<T> *)
  Definition buildNameToAttrMapFor (k : kind) (m : materials) : list (string * Z) := mset_all (vector_of k m) [].
  (** Materials.h:54-74 buildIdToAttrMapFor<T> *)
  Definition buildIdToAttrMapFor (k : kind) (m : materials) : outcome (list (Z * Z)) :=
    foldM (fun res x => let* id := getMaterialIdFromName (fst x) in Ok (mset id (snd x) res)) (vector_of k m) [].
  (** Materials.h:76-102 get<T>(name); a reference to an element of the vector is its position. *)
  Fixpoint position (test : string -> outcome bool) (l : list (string * Z)) : outcome nat :=
    match l with
    | [] => Throw (RuntimeError "Invalid material type")
    | x :: r => let* b := test (fst x) in if (b : bool) then Ok 0%nat else let* i := position test r in Ok (S i)
    end.
  Definition get_by_name (k : kind) (m : materials) (name : string) : outcome nat :=
    position (fun n => Ok (String.eqb n name)) (vector_of k m).
  (** Materials.h:104-130 get<T>(id) *)
  Definition get_by_id (k : kind) (m : materials) (id : Z) : outcome nat :=
    position (fun n => let* i := getMaterialIdFromName n in Ok (i =? id)%Z) (vector_of k m).
End Lookup.
