(** Specification vocabulary for undefined behaviour (C82). *)
From Verif Require Import Prelude Json Materials ModelM Solver Matrix Parser Driver SpecInput SpecName SpecModel SpecSolver.

(** The outcome of a constructor or method called in state [s]. *)
Definition outcome_of {T S A} (c : cmd T S A) (s : S) : outcome A := fst (fst (c s)).
Definition undefined {A} (x : outcome A) : Prop := exists u, x = Undef u.

(** What MFEM guarantees of a plane mesh it has read: attributes are positive, boundary elements
    are segments, and there are regions. *)
Record good_mesh {T} (ms : mesh T) : Prop := {
  gm_tags : forall e, In e (m_elems ms) \/ In e (m_bdr ms) -> (0 < e_attr e)%Z;
  gm_segments : forall e, In e (m_bdr ms) -> exists a b, e_verts e = [a; b];
  gm_regions : m_elems ms <> [] }.
(** What MFEM guarantees of the spaces on such a mesh: see [fem_ok], and attributes.Max() is the
    greatest attribute of a region. *)
Definition good_library {T} (femlib : mesh T -> Z -> fem T) : Prop :=
  forall ms order, good_mesh ms ->
    fem_ok (femlib ms order) /\
    (exists e, In e (m_elems ms) /\ e_attr e = fe_domMax (femlib ms order)) /\
    forall e, In e (m_elems ms) -> (e_attr e <= fe_domMax (femlib ms order))%Z.

(** The tag [t] is greater than those of all the regions of the mesh. *)
Definition beyond_the_regions {T} (ms : mesh T) (t : Z) : Prop :=
  forall e, In e (m_elems ms) -> (e_attr e < t)%Z.
(** There is nothing to read a number from in the name of the material: nothing but white space after
    its first underscore (or, without underscore, at all). *)
Definition no_number (name : string) : Prop := exists s, suffix_of name s /\ blank s.

(** A JSON value is not a number with fraction or exponent that an int cannot hold. *)
Definition fits_int {T} `{Num T} (j : json T) : Prop :=
  forall x, j = JFloat x -> exists z, ntrunc x = Some z /\ (- 2 ^ 31 <= z < 2 ^ 31)%Z.
(** The tags of the materials and the order in an input file. *)
Definition tags_and_order_fit {T} `{Num T} (root : json T) : Prop :=
  (forall model mats name mat tag, field root "model" model -> field model "materials" mats ->
     In (name, mat) (jitems mats) -> field mat "tag" tag -> fits_int tag) /\
  (forall analysis order, field root "analysis" analysis -> field analysis "order" order -> fits_int order).
