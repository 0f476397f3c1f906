(** Specification for models (C02, C03, C51, C52). *)
From Verif Require Import Prelude Materials ModelM SpecInput.
From Coq Require Import Permutation Reals.

(** The tag [t] is carried by some domain or boundary element of the mesh. *)
Definition in_mesh {T} (ms : mesh T) (t : Z) : Prop :=
  exists e, (In e (m_elems ms) \/ In e (m_bdr ms)) /\ e_attr e = t.

(** [ids] are the conductor numbers of the conductors of the model, one by one. *)
Definition conductor_ids {T} (mats : materials T) (ids : list Z) : Prop :=
  Forall2 (fun p i => getMaterialIdFromName (p_name p) = Ok i) (pecs mats) ids.
(** The numbers 0, 1, ..., n-1, each once. *)
Definition numbered_from_zero (ids : list Z) : Prop :=
  Permutation ids (map Z.of_nat (seq 0 (List.length ids))).

(** A point lies in a (closed) box. *)
Definition inside (b : box R) (p : R * R) : Prop :=
  (fst (b_min b) <= fst p <= fst (b_max b) /\ snd (b_min b) <= snd p <= snd (b_max b))%R.
(** A vertex of an element with tag [t]. *)
Definition vertex_of_tag {T} (ms : mesh T) (t : Z) (v : Z) : Prop :=
  exists e, In e (m_elems ms) /\ e_attr e = t /\ In v (e_verts e).
(** Sum of the areas of the elements with tag [t]. *)
Definition total_area (ms : mesh R) (t : Z) : R :=
  fold_right Rplus 0%R (map e_vol (filter (fun e => (e_attr e =? t)%Z) (m_elems ms))).
(** The tag of a material of the model, by name. *)
Definition has_tag {T} (mats : materials T) (name : string) (t : Z) : Prop :=
  (exists p, In p (pecs mats) /\ p_name p = name /\ p_attr p = t) \/
  (exists o, In o (openBoundaries mats) /\ o_name o = name /\ o_attr o = t) \/
  (exists d, In d (dielectrics mats) /\ d_name d = name /\ d_attr d = t).
