(** C82: no undefined behaviour. *)
From Coq Require Import QArith Reals.
From Verif Require Import Prelude StdMap Json Materials Graph ModelM Parser Matrix Solver Fem Triangles Domain Results Driver Main
  SpecInput SpecModel SpecSolver SpecDriver SpecDomain SpecFem SpecTriangles SpecSafe ListLemmas ModelProofs SolverProofs DriverProofs FemCalls Toy
  Kite SafeProofs SafeCalls SafeMain PropsMain PropsDomain PropsExtract.
Open Scope string_scope.
Open Scope list_scope.

(** Full statement: no constructor of a Driver, no call and no run of the program has undefined
    behaviour, on any mesh that MFEM accepts and for any materials. It holds up to three cases, all
    named in the theorems: a conductor whose name has no characters to read a number from, a dielectric whose tag is beyond
    those of all the regions (release builds), and the singular systems of floating conductors. *)

(** ** Construction *)
Theorem C82_construction_partial :
  forall (T : Type) (N : Num T) (dbg : bool) femlib o (ms : mesh T) mats,
    NoDup (all_names mats) -> good_mesh ms -> good_library femlib ->
    let m := mkModel ms mats in
    undefined (outcome_of (mkDriver dbg femlib m o) tt) <->
      (exists p, In p (pecs (mo_mats m)) /\ no_number (p_name p)) \/
      (dbg = false /\ (exists ids, conductor_ids (mo_mats m) ids /\ ids <> [] /\ numbered_from_zero ids) /\
       exists d, In d (dielectrics (mo_mats m)) /\ beyond_the_regions ms (d_attr d)).
Proof. intros T N dbg femlib o ms mats ND Gm Gl m. exact (construction_undefined dbg femlib o ms mats 0 ND Gm Gl). Qed.
Print Assumptions C82_construction_partial.
(** What the tag beyond the regions does: an index out of bounds, which a debug build reports. *)
Theorem C82_tags_beyond_the_regions :
  forall (T : Type) (N : Num T) (dbg : bool) femlib o (ms : mesh T) mats,
    NoDup (all_names mats) -> good_mesh ms -> good_library femlib ->
    let m := mkModel ms mats in
    (exists ids, conductor_ids (mo_mats m) ids /\ ids <> [] /\ numbered_from_zero ids) ->
    (exists d, In d (dielectrics (mo_mats m)) /\ beyond_the_regions ms (d_attr d)) ->
    outcome_of (mkDriver dbg femlib m o) tt = if dbg then Throw AssertFailed else Undef IndexOutOfBounds.
Proof.
  intros T N dbg femlib o ms mats ND Gm Gl m I B. unfold outcome_of, m.
  pose proof (construction_beyond dbg femlib o ms mats 0 ND Gm Gl I B) as E.
  change (setGround (mkModel ms mats) 0) with (mkModel ms mats) in E. now rewrite E.
Qed.
Print Assumptions C82_tags_beyond_the_regions.
(** A Driver that has been built meets what the other theorems ask of it. *)
Theorem C82_built_drivers_are_well_posed :
  forall (T : Type) (N : Num T) (dbg : bool) femlib o (ms : mesh T) mats d,
    NoDup (all_names mats) -> good_mesh ms -> good_library femlib ->
    built dbg femlib (mkModel ms mats) o d -> well_posed (femlib ms (o_order o)) (mkModel ms mats).
Proof. intros T N dbg femlib o ms mats d ND Gm Gl B. exact (built_posed dbg femlib o ms mats 0 ND Gm Gl d B). Qed.
Print Assumptions C82_built_drivers_are_well_posed.

(** ** Calls, after any others *)
Theorem C82_calls_partial :
  forall (T : Type) (N : Num T) (dbg : bool) femlib moment o (ms : mesh T) mats d ops op u,
    NoDup (all_names mats) -> good_mesh ms -> good_library femlib ->
    built dbg femlib (mkModel ms mats) o d -> op <> CallByDomains ->
    fst (reply dbg femlib moment op (after dbg femlib moment ops d)) = Undef u ->
    u = SingularSystem /\ (op = CallFloating \/ op = CallInCell \/ op = CallRun).
Proof. intros T N dbg femlib moment o ms mats d ops op u ND Gm Gl B Ne E. exact (built_call dbg femlib moment Gl ms mats o d ops op u ND Gm B Ne E). Qed.
Print Assumptions C82_calls_partial.
(** getPULMTLByDomains, on meshes of polygons with a boundary element on every outer edge, when no
    dielectric is on boundary elements. *)
Theorem C82_by_domains_partial :
  forall (T : Type) (N : Num T) (dbg : bool) femlib moment o (ms : mesh T) mats d ops,
    NoDup (all_names mats) -> good_mesh ms -> good_library femlib ->
    Forall proper_polygon (m_elems ms) ->
    (forall a b, edge_uses (m_elems ms) a b = 1%nat -> exists be, In be (m_bdr ms) /\ on_edge a b be) ->
    (forall di e, In di (dielectrics mats) -> In e (m_bdr ms) -> e_attr e <> d_attr di) ->
    built dbg femlib (mkModel ms mats) o d ->
    ~ undefined (fst (reply dbg femlib moment CallByDomains (after dbg femlib moment ops d))).
Proof.
  intros T N dbg femlib moment o ms mats d ops ND Gm Gl Po Cov Di B.
  destruct (built_fit dbg femlib Gl ms mats 0 o d ND Gm B) as (conds & O & Nm & Sg & Fi).
  change (setGround (mkModel ms mats) 0) with (mkModel ms mats) in *.
  pose proof (after_fit dbg femlib moment _ _ conds O Nm Sg ops d Fi) as (M & _).
  refine (by_domains_safe dbg femlib moment Gl ms mats ND Gm Po Cov Di _ _ M).
  intros p Ip. destruct O as (P & Nb). apply (Permutation.Permutation_in _ (Permutation.Permutation_sym P)) in Ip. apply In_nth_error in Ip as (k & Ek).
  exists (Z.of_nat k). split; [exact (Nb k p Ek)|lia].
Qed.
Print Assumptions C82_by_domains_partial.

(** ** The program *)
Theorem C82_program_partial :
  forall (T : Type) (N : Num T) (dbg : bool) femlib moment fs load_mesh args u w,
    good_library femlib ->
    (forall f, ~ undefined (load_mesh f)) -> (forall f ms, load_mesh f = Ok ms -> good_mesh ms) ->
    (forall f t, fs f = Some (Some t) -> tags_and_order_fit (jparse t)) ->
    program dbg femlib moment fs load_mesh args = (Undefined u, w) ->
    exists fn m o, loadInput fs load_mesh fn = Ok (m, o) /\
      ((exists p, In p (pecs (mo_mats m)) /\ no_number (p_name p)) \/
       (dbg = false /\ exists d, In d (dielectrics (mo_mats m)) /\ beyond_the_regions (mo_mesh m) (d_attr d)) \/
       (determineOpenness dbg m = Ok Open /\ u = SingularSystem)).
Proof.
  intros T N dbg femlib moment fs load args u w Gl Lm Lg Ft E.
  refine (program_undefined fs load dbg femlib moment Gl args u w _ Ft E).
  intros f. apply no_undef. split; [exact (Lm f)|exact (Lg f)].
Qed.
Print Assumptions C82_program_partial.

(** ** The hypotheses hold *)
(** MFEM's first order spaces on triangles, with the exact solver, meet [good_library]. *)
Theorem C82_first_order_library_is_good : forall abc, good_library (galerkin abc (kite_disc distance)).
Proof.
  intros abc ms order Gm. split; [constructor|]; cbn.
  - apply Forall_forall. intros b I. apply in_map_iff in I as (e & <- & I). cbn. split; [apply (gm_tags _ Gm); auto|].
    apply (proj2 (zmax_list_ge _ _)). now apply in_map.
  - intros. apply resolve_phi_length.
  - intros. unfold solve_e. rewrite map_length. cbn. now rewrite map_length.
  - intros. apply solve_d_length.
  - assert (G : forall e, In e (m_elems ms) -> (e_attr e <= zmax_list 0 (map e_attr (m_elems ms)))%Z).
    { intros e I. apply (proj2 (zmax_list_ge _ _)). now apply in_map. }
    split; [|exact G]. destruct (zmax_list_in (map e_attr (m_elems ms)) 0) as [E|I].
    + exfalso. destruct (m_elems ms) as [|e l] eqn:Ee; [exact (gm_regions _ Gm Ee)|].
      assert (0 < e_attr e)%Z by (apply (gm_tags _ Gm); rewrite Ee; left; now left).
      specialize (G e (or_introl eq_refl)). lia.
    + apply in_map_iff in I as (e & E & I). exists e. auto.
Qed.
Print Assumptions C82_first_order_library_is_good.

(** The toy problem, with any regions. *)
Definition toy_lib' : mesh Q -> Z -> fem Q := fun ms o =>
  let F := toy_lib ms o in
  {| fe_nH1 := fe_nH1 F; fe_nND := fe_nND F; fe_nRT := fe_nRT F; fe_bdrMax := fe_bdrMax F; fe_domMax := zmax_list 0 (map e_attr (m_elems ms));
     fe_bdrDofs := fe_bdrDofs F; fe_flux := fe_flux F; fe_bdrPhi := fe_bdrPhi F; fe_domPhi := fe_domPhi F; fe_energy := fe_energy F;
     fe_phi := fe_phi F; fe_e := fe_e F; fe_d := fe_d F |}.
Lemma toy_lib_good : good_library toy_lib'.
Proof.
  intros ms order Gm. split; [constructor; try (intros; reflexivity); cbn; repeat constructor; cbn; lia|]. cbn.
  assert (G : forall e, In e (m_elems ms) -> (e_attr e <= zmax_list 0 (map e_attr (m_elems ms)))%Z).
  { intros e I. apply (proj2 (zmax_list_ge _ _)). now apply in_map. }
  split; [|exact G]. destruct (zmax_list_in (map e_attr (m_elems ms)) 0) as [E|I].
  + exfalso. destruct (m_elems ms) as [|e l] eqn:Ee; [exact (gm_regions _ Gm Ee)|].
    assert (0 < e_attr e)%Z by (apply (gm_tags _ Gm); rewrite Ee; left; now left).
    specialize (G e (or_introl eq_refl)). lia.
  + apply in_map_iff in I as (e & E & I). exists e. auto.
Qed.
(** The mesh of the toy problem with one more region, of tag 5. *)
Definition toy_mesh' (op : openness) : mesh Q :=
  {| m_elems := m_elems (toy_mesh op) ++ [{| e_attr := 5; e_verts := [4; 5; 6]%Z; e_vol := 1%Q |}];
     m_bdr := m_bdr (toy_mesh op); m_coord := m_coord (toy_mesh op) |}.
Lemma toy_mesh_good op : good_mesh (toy_mesh' op).
Proof.
  constructor; [| |discriminate].
  - intros e [I|I]; cbn in I; [|destruct op; cbn in I]; repeat (destruct I as [<-|I]; [cbn; lia|]); destruct I.
  - intros e I. destruct op; cbn in I; repeat (destruct I as [<-|I]; [cbn; eauto|]); destruct I.
Qed.

(** The number that is missing: nothing is read from an empty stream. *)
Theorem C82_names_without_number_refuted :
  exists (ms : mesh Q) mats femlib o, NoDup (all_names mats) /\ good_mesh ms /\ good_library femlib /\
    outcome_of (mkDriver true femlib (mkModel ms mats) o) tt = Undef UninitialisedRead.
Proof.
  exists (toy_mesh' Closed), {| pecs := [{| p_name := "Conductor_"; p_attr := 1; p_area := 1%Q |}]; openBoundaries := []; dielectrics := [] |}, toy_lib', toy_options.
  split; [repeat constructor; intros []|]. split; [apply toy_mesh_good|]. split; [apply toy_lib_good|]. vm_compute. reflexivity.
Qed.
Print Assumptions C82_names_without_number_refuted.
(** A dielectric on boundary elements, with a tag beyond those of the regions. *)
Theorem C82_a_dielectric_on_the_boundary_refuted :
  exists (ms : mesh Q) mats femlib o, NoDup (all_names mats) /\ good_mesh ms /\ good_library femlib /\
    (exists ids, conductor_ids mats ids /\ ids <> [] /\ numbered_from_zero ids) /\
    outcome_of (mkDriver false femlib (mkModel ms mats) o) tt = Undef IndexOutOfBounds /\
    outcome_of (mkDriver true femlib (mkModel ms mats) o) tt = Throw AssertFailed.
Proof.
  exists (toy_mesh SemiOpen), {| pecs := rev toy_conds; openBoundaries := []; dielectrics := [{| d_name := "Coating"; d_attr := 4; d_epsr := 2%Q |}] |}, toy_lib', toy_options.
  split; [unfold all_names; cbn; repeat constructor; cbn; intuition discriminate|].
  split; [|split; [apply toy_lib_good|split; [|split; vm_compute; reflexivity]]].
  - constructor; [| |discriminate].
    + intros e [I|I]; cbn in I; repeat (destruct I as [<-|I]; [cbn; lia|]); destruct I.
    + intros e I. cbn in I; repeat (destruct I as [<-|I]; [cbn; eauto|]); destruct I.
  - exists [1; 0]%Z. split; [repeat constructor|]. split; [discriminate|]. apply Permutation.perm_swap.
Qed.
Print Assumptions C82_a_dielectric_on_the_boundary_refuted.
(** A conductor that is a region without boundary elements: getFloatingPotentials solves a singular
    system. *)
Theorem C82_singular_floating_potentials_refuted :
  exists (ms : mesh Q) mats femlib o d, NoDup (all_names mats) /\ good_mesh ms /\ good_library femlib /\
    built true femlib (mkModel ms mats) o d /\ determineOpenness true (mkModel ms mats) = Ok Open /\
    fst (reply true femlib q_moment CallFloating d) = Undef SingularSystem.
Proof.
  set (mats := {| pecs := {| p_name := "Conductor_2"; p_attr := 5; p_area := 1%Q |} :: pecs (toy_mats Open 2%Q);
                  openBoundaries := openBoundaries (toy_mats Open 2%Q); dielectrics := dielectrics (toy_mats Open 2%Q) |}).
  assert (G : match outcome_of (mkDriver true toy_lib' (mkModel (toy_mesh' Open) mats) toy_options) tt with
              | Ok d => match fst (reply true toy_lib' q_moment CallFloating d) with Undef SingularSystem => true | _ => false end
              | _ => false
              end = true) by (vm_compute; reflexivity).
  unfold outcome_of in G. destruct (mkDriver true toy_lib' (mkModel (toy_mesh' Open) mats) toy_options tt) as [[[d|e|u] []] w] eqn:E; try discriminate G.
  exists (toy_mesh' Open), mats, toy_lib', toy_options, d.
  split; [unfold all_names; cbn; repeat constructor; cbn; intuition discriminate|].
  split; [apply toy_mesh_good|]. split; [apply toy_lib_good|]. split; [exists w; exact E|]. split; [vm_compute; reflexivity|].
  cbn [fst] in G. destruct (fst (reply true toy_lib' q_moment CallFloating d)) as [v|e|[]]; try discriminate G. reflexivity.
Qed.
Print Assumptions C82_singular_floating_potentials_refuted.

(** The hypotheses of the calls, for the closed toy problem; its input file fits as well. *)
Example C82_example :
  NoDup (all_names (toy_mats Closed 2%Q)) /\ good_mesh (toy_mesh' Closed) /\ good_library toy_lib' /\
  (exists d, built false toy_lib' (mkModel (toy_mesh' Closed) (toy_mats Closed 2%Q)) toy_options d /\
     exists v w, reply false toy_lib' q_moment CallPUL d = (Ok v, w)) /\
  tags_and_order_fit (jparse (toy_text Closed "out/")).
Proof.
  split; [apply toy_names|]. split; [apply toy_mesh_good|]. split; [apply toy_lib_good|]. split.
  - assert (G : match outcome_of (mkDriver false toy_lib' (mkModel (toy_mesh' Closed) (toy_mats Closed 2%Q)) toy_options) tt with
                | Ok d => match fst (reply false toy_lib' q_moment CallPUL d) with Ok _ => true | _ => false end
                | _ => false
                end = true) by (vm_compute; reflexivity).
    unfold outcome_of in G. destruct (mkDriver false toy_lib' _ toy_options tt) as [[[d|e|u] []] w] eqn:E; try discriminate G.
    exists d. split; [exists w; exact E|]. cbn [fst] in G. destruct (reply false toy_lib' q_moment CallPUL d) as [[v|e|u] w']; try discriminate G. eauto.
  - assert (No : forall (j v : json Q) k, field j k v -> jat k j = Ok v) by (intros j v k (m & -> & E); cbn; now rewrite E).
    split.
    + intros model mats name mat tag F1 F2 I F3. apply No in F1. vm_compute in F1. injection F1 as <-. apply No in F2. vm_compute in F2. injection F2 as <-.
      cbn in I. repeat (destruct I as [I|I]; [injection I as <- <-; apply No in F3; vm_compute in F3; injection F3 as <-; intros x X; discriminate X|]). destruct I.
    + intros a ord F1 F2. apply No in F1. vm_compute in F1. injection F1 as <-. apply No in F2. vm_compute in F2. discriminate F2.
Qed.
(** The hypotheses of getPULMTLByDomains, for two nested shields. *)
Example C82_by_domains_example :
  NoDup (all_names nested_mats) /\ good_mesh nested_mesh /\ good_library toy_lib' /\
  Forall proper_polygon (m_elems nested_mesh) /\
  (forall a b, edge_uses (m_elems nested_mesh) a b = 1%nat -> exists be, In be (m_bdr nested_mesh) /\ on_edge a b be) /\
  (forall di e, In di (dielectrics nested_mats) -> In e (m_bdr nested_mesh) -> e_attr e <> d_attr di) /\
  exists d, built false toy_lib' (mkModel nested_mesh nested_mats) toy_options d.
Proof.
  split; [exact (proj1 C20_several_domains_example)|]. split.
  { constructor; [| |discriminate].
    - intros e [I|I]; cbn in I; repeat (destruct I as [<-|I]; [cbn; lia|]); destruct I.
    - intros e I. cbn in I; repeat (destruct I as [<-|I]; [cbn; eauto|]); destruct I. }
  split; [apply toy_lib_good|]. split.
  { apply Forall_forall. intros e I. destruct C15_example as (_ & _ & _ & P). exact (proj2 (P e I)). }
  split; [destruct C19_example as (_ & _ & _ & _ & _ & _ & _ & _ & _ & C); exact C|]. split; [intros di e []|].
  assert (G : match outcome_of (mkDriver false toy_lib' (mkModel nested_mesh nested_mats) toy_options) tt with Ok _ => true | _ => false end = true) by (vm_compute; reflexivity).
  unfold outcome_of in G. destruct (mkDriver false toy_lib' _ toy_options tt) as [[[d|e|u] []] w] eqn:E; try discriminate G.
  exists d, w. exact E.
Qed.
(** Without boundary elements on all the outer edges, getPULMTLByDomains indexes with -1. *)
Theorem C82_uncovered_edges_refuted :
  exists (ms : mesh Q) mats femlib o d, NoDup (all_names mats) /\ good_mesh ms /\ good_library femlib /\
    built true femlib (mkModel ms mats) o d /\ Forall proper_polygon (m_elems ms) /\
    fst (reply true femlib q_moment CallByDomains d) = Undef IndexOutOfBounds.
Proof.
  assert (G : match outcome_of (mkDriver true toy_lib' (mkModel (toy_mesh Closed) (toy_mats Closed 2%Q)) toy_options) tt with
              | Ok d => match fst (reply true toy_lib' q_moment CallByDomains d) with Undef IndexOutOfBounds => true | _ => false end
              | _ => false
              end = true) by (vm_compute; reflexivity).
  unfold outcome_of in G. destruct (mkDriver true toy_lib' (mkModel (toy_mesh Closed) (toy_mats Closed 2%Q)) toy_options tt) as [[[d|e|u] []] w] eqn:E; try discriminate G.
  exists (toy_mesh Closed), (toy_mats Closed 2%Q), toy_lib', toy_options, d.
  split; [apply toy_names|]. split.
  { constructor; [| |discriminate].
    - intros e [I|I]; cbn in I; repeat (destruct I as [<-|I]; [cbn; lia|]); destruct I.
    - intros e I. cbn in I; repeat (destruct I as [<-|I]; [cbn; eauto|]); destruct I. }
  split; [apply toy_lib_good|]. split; [exists w; exact E|]. split.
  { apply Forall_cons; [|apply Forall_nil]. split; [cbn; lia|].
    intros a I; cbn in I; repeat (destruct I as [I|I]; [injection I as <- X; discriminate|]); destruct I. }
  cbn [fst] in G. destruct (fst (reply true toy_lib' q_moment CallByDomains d)) as [v|e|[]]; try discriminate G. reflexivity.
Qed.

Print Assumptions C82_uncovered_edges_refuted.
