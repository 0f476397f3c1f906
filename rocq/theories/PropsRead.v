(** Properties C03, C04, C07, C14, end to end: the model that is read from an input file. *)
From Coq Require Import Permutation Reals Lra.
From Verif Require Import Prelude StdMap Json Materials ModelM Parser SpecInput SpecModel
  InputProofs OptionsProofs ModelProofs.
Open Scope string_scope.

(** ** Values inside a parsed text are parsed texts *)
Lemma field_parsed {T} (t : jtext T) k v : field (jparse t) k v -> exists t', v = jparse t'.
Proof.
  intros (m & E & G). destruct t as [| | | | | |l]; try discriminate E. rewrite jparse_obj in E. injection E as <-.
  rewrite parse_members_map in G.
  assert (P : forall (l : list (string * jtext T)) m, (forall k v, mget k m = Some v -> exists t', v = jparse t') ->
     forall k v, mget k (mset_all (map (fun kv => (fst kv, jparse (snd kv))) l) m) = Some v -> exists t', v = jparse t').
  { clear. induction l as [|[k' t'] l IH]; intros m Hm; [exact Hm|].
    cbn [map]. unfold mset_all in *. cbn [fold_left fst snd]. apply IH. intros k v.
    rewrite mget_mset. destruct (oequiv k k'); [intros [= <-]; eauto|apply Hm]. }
  eapply (P l []); [|exact G]. intros ? ? D. discriminate D.
Qed.
Lemma object_parsed {T} (t : jtext T) m : jparse t = JObj m -> NoDup (map fst m).
Proof.
  destruct t as [| | | | | |l]; try discriminate. intros E. destruct (jparse_sorted l) as (m' & E' & S). rewrite E in E'. injection E' as <-.
  now apply msorted_nodup.
Qed.
Lemma jat_field {T} (v : json T) k x : field v k x -> jat k v = Ok x.
Proof. intros (m & -> & E). cbn. now rewrite E. Qed.

(** ** C03, C04: a file that describes the materials [es] and names a mesh file that can be loaded
    (where the mesh file is looked for: C07) gives the model of that mesh with the described materials that are in it. *)
Theorem C03_model_of_a_file :
  forall (fs : string -> option (option (jtext R))) (load_mesh : string -> outcome (mesh R))
         (fn gmsh : string) (text : jtext R) (j : json R) mm (es : list entry)
         (ms : mesh R) (o : driver_options) (keep : Z -> bool),
    fs fn = Some (Some text) ->
    field (jparse text) "model" j -> field j "gmshFile" (JStr gmsh) -> field j "materials" (JObj mm) ->
    Forall2 describes mm es ->
    load_mesh (meshFilename fn gmsh) = Ok ms ->
    readDriverOptions (jparse text) = Ok o ->
    (forall t, keep t = true <-> in_mesh ms t) ->
    exists m, loadInput fs load_mesh fn = Ok (m, o) /\
      mo_mesh m = ms /\ mo_ground m = 0%Z /\
      pecs (mo_mats m) = filter (fun p => keep (p_attr p)) (spec_pecs es) /\
      openBoundaries (mo_mats m) = filter (fun b => keep (o_attr b)) (spec_opens es) /\
      dielectrics (mo_mats m) = filter (fun d => keep (d_attr d)) (spec_media es).
Proof.
  intros fs load fn gmsh text j mm es ms o keep Ef Fj Fg Fm D L O K.
  pose proof (readMaterials_valid (JObj mm) es D) as RM.
  assert (ND : NoDup (all_names {| pecs := spec_pecs es; openBoundaries := spec_opens es; dielectrics := spec_media es |})).
  { destruct (field_parsed _ _ _ Fj) as (tj & ->). destruct (field_parsed _ _ _ Fm) as (tm & Em).
    symmetry in Em. pose proof Em as Em'. destruct tm as [| | | | | |l]; try discriminate Em.
    rewrite <- Em in RM. now apply readMaterials_distinct in RM. }
  eexists. split.
  - unfold loadInput, readJSON. rewrite Ef. cbn [bind]. unfold readModel. rewrite (jat_field _ _ _ Fj). cbn [bind].
    rewrite (jat_field _ _ _ Fg). cbn [bind jget_string].
    rewrite L. cbn [bind].
    rewrite (jat_field _ _ _ Fm). cbn [bind]. rewrite RM. cbn [bind]. rewrite O. cbn [bind]. reflexivity.
  - destruct (mkModel_materials ms _ keep ND K) as (A & B). split; [exact A|]. split; [reflexivity|exact B].
Qed.
Print Assumptions C03_model_of_a_file.

(** ** C07: in particular, a file that describes the materials [es] and names a mesh file beside it that
    can be loaded gives the model of that mesh with the described materials that are in it. *)
Theorem C07_model_of_a_file_partial :
  forall (fs : string -> option (option (jtext R))) (load_mesh : string -> outcome (mesh R))
         (cwd : list string) (fn gmsh : string) (text : jtext R) (j : json R) mm (es : list entry)
         (ms : mesh R) (o : driver_options) (keep : Z -> bool),
    names_file fn -> absolute fn = false ->
    fs fn = Some (Some text) ->
    field (jparse text) "model" j -> field j "gmshFile" (JStr gmsh) -> field j "materials" (JObj mm) ->
    Forall2 describes mm es ->
    (forall q, resolve cwd q = (removelast (resolve cwd fn) ++ components gmsh)%list -> load_mesh q = Ok ms) ->
    readDriverOptions (jparse text) = Ok o ->
    (forall t, keep t = true <-> in_mesh ms t) ->
    exists m, loadInput fs load_mesh fn = Ok (m, o) /\
      mo_mesh m = ms /\ mo_ground m = 0%Z /\
      pecs (mo_mats m) = filter (fun p => keep (p_attr p)) (spec_pecs es) /\
      openBoundaries (mo_mats m) = filter (fun b => keep (o_attr b)) (spec_opens es) /\
      dielectrics (mo_mats m) = filter (fun d => keep (d_attr d)) (spec_media es).
Proof.
  intros fs load cwd fn gmsh text j mm es ms o keep Nf Ab Ef Fj Fg Fm D L O K.
  apply (C03_model_of_a_file fs load fn gmsh text j mm es ms o keep Ef Fj Fg Fm D); auto. apply L. now apply mesh_next_to_input.
Qed.
Print Assumptions C07_model_of_a_file_partial.

(** A file that meets these hypotheses: of its two conductors one is in the mesh. *)
Definition read_text : jtext R :=
  TObj [("model", TObj [("materials", TObj [("Conductor_1", TObj [("type", TStr "PEC"); ("tag", TInt 9)]);
                                            ("Conductor_0", TObj [("tag", TInt 1); ("area", TInt 2); ("type", TStr "PEC")]);
                                            ("Vacuum_0", TObj [("type", TStr "Vacuum"); ("tag", TInt 5)])]);
                        ("gmshFile", TStr "a.msh")]);
        ("analysis", TObj [("order", TInt 2)])].
Definition read_mesh : mesh R :=
  {| m_elems := [{| e_attr := 5; e_verts := [0; 1; 2]%Z; e_vol := 1%R |}];
     m_bdr := [{| e_attr := 1; e_verts := [0; 1]%Z; e_vol := 1%R |}];
     m_coord := fun _ => (0, 0)%R |}.
Example C03_file_example :
  exists j mm o, names_file "cases/a.json" /\ absolute "cases/a.json" = false /\
    field (jparse read_text) "model" j /\ field j "gmshFile" (JStr "a.msh") /\ field j "materials" (JObj mm) /\
    Forall2 describes mm [Conductor "Conductor_0" 1 2; Conductor "Conductor_1" 9 0; Medium "Vacuum_0" 5 1] /\
    readDriverOptions (jparse read_text) = Ok o /\ o_order o = 2%Z /\
    (forall t, (Z.eqb t 5 || Z.eqb t 1)%bool = true <-> in_mesh read_mesh t) /\
    map p_name (filter (fun p => (Z.eqb (p_attr p) 5 || Z.eqb (p_attr p) 1)%bool)
      (spec_pecs [Conductor "Conductor_0" 1 2; Conductor "Conductor_1" 9 0; Medium "Vacuum_0" 5 1])) = ["Conductor_0"].
Proof.
  assert (F : forall m k (x : json R), mget k m = Some x -> field (JObj m) k x).
  { intros m k x E. now exists m. }
  do 3 eexists. split.
  { exists "cases/", "a.json". split; [reflexivity|]. split; [right; now exists "cases"|]. split; [reflexivity|]. cbn. intuition discriminate. }
  split; [reflexivity|]. split; [apply F; reflexivity|]. split; [apply F; reflexivity|]. split; [apply F; reflexivity|]. split.
  { apply Forall2_cons; [|apply Forall2_cons; [|apply Forall2_cons; [|apply Forall2_nil]]].
    - eapply d_pec; [| | |apply F; reflexivity|apply num_int]; try (apply F; reflexivity); split; lia.
    - eapply d_pec0; try (apply F; reflexivity); [split; lia|]. eexists. split; reflexivity.
    - apply d_vacuum; try (apply F; reflexivity); split; lia. }
  split; [reflexivity|]. split; [reflexivity|]. split; [|reflexivity].
  intros t. rewrite orb_true_iff, !Z.eqb_eq. unfold in_mesh. cbn. split.
  - intros [-> | ->]; eexists; (split; [|]); [left; left; reflexivity|reflexivity|right; left; reflexivity|reflexivity].
  - intros (e & [[<-|[]]|[<-|[]]] & <-); cbn; auto.
Qed.

(** ** C14: a problem is closed when none of the open boundaries listed is in the mesh, and only
    then. *)
Theorem C14_closed_iff_no_open_boundary_in_the_mesh :
  forall (T : Type) (N : Num T) (dbg : bool) (ms : mesh T) (mats : materials T),
    NoDup (all_names mats) ->
    (determineOpenness dbg (mkModel ms mats) = Ok Closed <->
     forall b, In b (openBoundaries mats) -> ~ in_mesh ms (o_attr b)).
Proof.
  intros T N dbg ms mats ND.
  destruct (mkModel_materials ms mats (keepb ms) ND (keepb_iff ms)) as (_ & _ & E & _).
  unfold determineOpenness. rewrite E. split.
  - intros H b I M. apply keepb_iff in M.
    destruct (filter (fun o => keepb ms (o_attr o)) (openBoundaries mats)) as [|x r] eqn:F.
    + assert (In b []) as []. rewrite <- F. apply filter_In. now split.
    + unfold assert_ in H. cbn [List.length Nat.eqb] in H.
      assert (G : forall l, openness_loop (mo_mesh (mkModel ms mats)) l <> Ok Closed).
      { induction l as [|y l IH]; cbn [openness_loop]; [discriminate|].
        destruct (elementsFormOpenLoops _) as [[|]| |]; cbn [bind]; auto; discriminate. }
      destruct (dbg && negb (S (List.length r) <=? 1)%nat)%bool; cbn [bind] in H; [discriminate H|].
      now apply G in H.
  - intros H. assert (F : filter (fun o => keepb ms (o_attr o)) (openBoundaries mats) = []).
    { destruct (filter (fun o => keepb ms (o_attr o)) (openBoundaries mats)) as [|x r] eqn:F; [reflexivity|].
      assert (I : In x (x :: r)) by now left. rewrite <- F in I. apply filter_In in I. destruct I as [I K]. apply keepb_iff in K.
      now apply H in K. }
    rewrite F. unfold assert_. cbn. destruct dbg; reflexivity.
Qed.
Print Assumptions C14_closed_iff_no_open_boundary_in_the_mesh.
Example C14_mesh_example :
  determineOpenness true (mkModel read_mesh {| pecs := []; openBoundaries := [{| o_name := "Open_0"; o_attr := 7 |}]; dielectrics := [] |}) = Ok Closed /\
  determineOpenness true (mkModel read_mesh {| pecs := []; openBoundaries := [{| o_name := "Open_0"; o_attr := 1 |}]; dielectrics := [] |}) = Ok SemiOpen.
Proof. split; reflexivity. Qed.
