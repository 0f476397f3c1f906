(** Properties C03, C51, C52: models. *)
From Verif Require Import Prelude StdMap Materials ModelM SpecInput SpecModel ModelProofs.
From Coq Require Import Reals Lra Floats.
Open Scope string_scope.

(** ** C03 *)
(** [keep] is any decision procedure for "is the attribute of some element": the lists of the
    model are the sublists of the given ones (same order, same data) for which it holds. *)
Theorem C03_model_keeps_the_materials_in_the_mesh :
  forall (T : Type) (ms : mesh T) (mats : materials T) (keep : Z -> bool),
    NoDup (all_names mats) -> (forall t, keep t = true <-> in_mesh ms t) ->
    mo_mesh (mkModel ms mats) = ms /\
    pecs (mo_mats (mkModel ms mats)) = filter (fun p => keep (p_attr p)) (pecs mats) /\
    openBoundaries (mo_mats (mkModel ms mats)) = filter (fun o => keep (o_attr o)) (openBoundaries mats) /\
    dielectrics (mo_mats (mkModel ms mats)) = filter (fun d => keep (d_attr d)) (dielectrics mats).
Proof. exact @mkModel_materials. Qed.
Print Assumptions C03_model_keeps_the_materials_in_the_mesh.

Theorem C03_doing_it_again_changes_nothing :
  forall (T : Type) (ms : mesh T) (mats : materials T),
    NoDup (all_names mats) -> mkModel ms (mo_mats (mkModel ms mats)) = mkModel ms mats.
Proof. exact @mkModel_idem. Qed.
Print Assumptions C03_doing_it_again_changes_nothing.

(** A mesh with one triangle (tag 5) and one boundary segment (tag 1). *)
Definition ex_mesh : mesh R :=
  {| m_elems := [{| e_attr := 5; e_verts := [0; 1; 2]%Z; e_vol := 1%R |}];
     m_bdr := [{| e_attr := 1; e_verts := [0; 1]%Z; e_vol := 1%R |}];
     m_coord := fun v => if (v =? 0)%Z then (0, 0)%R else if (v =? 1)%Z then (2, 0)%R else (0, 1)%R |}.
Definition ex_mats : materials R :=
  {| pecs := [{| p_name := "Conductor_0"; p_attr := 1; p_area := 2%R |};
              {| p_name := "Conductor_1"; p_attr := 2; p_area := 3%R |}];
     openBoundaries := [{| o_name := "Open"; o_attr := 1 |}];
     dielectrics := [{| d_name := "Vacuum_0"; d_attr := 5; d_epsr := 1%R |}] |}.
Example C03_example :
  NoDup (all_names ex_mats) /\
  pecs (mo_mats (mkModel ex_mesh ex_mats)) = [{| p_name := "Conductor_0"; p_attr := 1; p_area := 2%R |}] /\
  List.length (dielectrics (mo_mats (mkModel ex_mesh ex_mats))) = 1%nat.
Proof.
  split; [|split; reflexivity]. unfold all_names; cbn.
  repeat constructor; cbn; intuition discriminate.
Qed.

(** ** C51 *)
Theorem C51_bounding_box :
  forall (m : model R) (name : string) (t v0 : Z),
    NoDup (all_names (mo_mats m)) -> has_tag (mo_mats m) name t -> vertex_of_tag (mo_mesh m) t v0 ->
    exists b, getBoundingBoxOfMaterial m name = Ok b /\
      (forall v, vertex_of_tag (mo_mesh m) t v -> inside b (m_coord (mo_mesh m) v)) /\
      (forall b', (forall v, vertex_of_tag (mo_mesh m) t v -> inside b' (m_coord (mo_mesh m) v)) ->
                  inside b' (b_min b) /\ inside b' (b_max b)).
Proof. exact bounding_box. Qed.
Print Assumptions C51_bounding_box.

Theorem C51_unknown_material_throws :
  forall (m : model R) (name : string),
    NoDup (all_names (mo_mats m)) -> (forall t, ~ has_tag (mo_mats m) name t) ->
    getBoundingBoxOfMaterial m name = Throw OutOfRange.
Proof. exact bounding_box_unknown. Qed.
Print Assumptions C51_unknown_material_throws.

(** No element has the tag (a conductor given by its boundary only): the empty box of the doubles,
    from (inf, inf) to (-inf, -inf). *)
Theorem C51_material_without_elements :
  forall (m : model float) (name : string) (t : Z),
    NoDup (all_names (mo_mats m)) -> has_tag (mo_mats m) name t -> (forall v, ~ vertex_of_tag (mo_mesh m) t v) ->
    getBoundingBoxOfMaterial m name = Ok {| b_min := (infinity, infinity); b_max := (neg_infinity, neg_infinity) |}.
Proof. exact bounding_box_empty. Qed.
Print Assumptions C51_material_without_elements.

Example C51_example : has_tag (mo_mats (mkModel ex_mesh ex_mats)) "Vacuum_0" 5 /\ vertex_of_tag ex_mesh 5 2.
Proof.
  split.
  - right; right. eexists; split; [left; reflexivity|split; reflexivity].
  - eexists; split; [left; reflexivity|split; [reflexivity|cbn; tauto]].
Qed.

Example C51_example_without_elements :
  let ms : mesh float := {| m_elems := [{| e_attr := 5; e_verts := [0; 1; 2]%Z; e_vol := 1%float |}];
                            m_bdr := [{| e_attr := 1; e_verts := [0; 1]%Z; e_vol := 1%float |}]; m_coord := fun _ => (0, 0)%float |} in
  let mats : materials float := {| pecs := [{| p_name := "Conductor_0"; p_attr := 1; p_area := 2%float |}]; openBoundaries := [];
                                   dielectrics := [{| d_name := "Vacuum_0"; d_attr := 5; d_epsr := 1%float |}] |} in
  NoDup (all_names (mo_mats (mkModel ms mats))) /\ has_tag (mo_mats (mkModel ms mats)) "Conductor_0" 1 /\
  forall v, ~ vertex_of_tag (mo_mesh (mkModel ms mats)) 1 v.
Proof.
  cbn zeta. split; [|split].
  - unfold all_names; cbn. repeat constructor; cbn; intuition discriminate.
  - left. eexists; split; [left; reflexivity|split; reflexivity].
  - intros v (e & [<-|[]] & E & _). discriminate E.
Qed.

(** ** C52 *)
Theorem C52_area_of_dielectric :
  forall (m : model R) (d : dielectric R),
    NoDup (all_names (mo_mats m)) -> In d (dielectrics (mo_mats m)) ->
    getAreaOfMaterial m (d_name d) = Ok (total_area (mo_mesh m) (d_attr d)).
Proof. exact area_dielectric. Qed.
Print Assumptions C52_area_of_dielectric.

Theorem C52_area_of_conductor :
  forall (m : model R) (p : pec R),
    NoDup (all_names (mo_mats m)) -> In p (pecs (mo_mats m)) ->
    getAreaOfMaterial m (p_name p) = Ok (p_area p).
Proof. exact area_conductor. Qed.
Print Assumptions C52_area_of_conductor.

Theorem C52_open_boundaries_have_no_area :
  forall (m : model R) (o : openbdr),
    NoDup (all_names (mo_mats m)) -> In o (openBoundaries (mo_mats m)) ->
    is_throw (getAreaOfMaterial m (o_name o)).
Proof. exact area_open. Qed.
Print Assumptions C52_open_boundaries_have_no_area.

Theorem C52_unknown_names_throw :
  forall (m : model R) (name : string),
    NoDup (all_names (mo_mats m)) -> ~ In name (all_names (mo_mats m)) ->
    is_throw (getAreaOfMaterial m name).
Proof. exact area_unknown. Qed.
Print Assumptions C52_unknown_names_throw.

Theorem C52_areas_of_distinct_tags_fit_in_the_mesh :
  forall (ms : mesh R) (tags : list Z),
    NoDup tags -> Forall (fun e => (0 <= e_vol e)%R) (m_elems ms) ->
    (fold_right Rplus 0 (map (total_area ms) tags) <= fold_right Rplus 0 (map e_vol (m_elems ms)))%R.
Proof. exact areas_disjoint. Qed.
Print Assumptions C52_areas_of_distinct_tags_fit_in_the_mesh.

Example C52_example :
  getAreaOfMaterial (mkModel ex_mesh ex_mats) "Vacuum_0" = Ok 1%R /\
  getAreaOfMaterial (mkModel ex_mesh ex_mats) "Conductor_0" = Ok 2%R.
Proof. split; [|reflexivity]. unfold getAreaOfMaterial; cbn. f_equal. ring. Qed.
