(** The project's own unit tests (/repo/test), run on the model: those that need no field solution,
    with the data of /repo/testData (TestData.v). They check the model, not the properties: each
    Example is one EXPECT of the test it names, computed. *)
From Coq Require Import QArith Qabs.
From Verif Require Import Prelude StdMap Json Materials Graph ModelM Parser Matrix Domain Results Driver TestData.
Open Scope list_scope.

(** ** DirectedGraphTest.cpp *)
Definition graph_of (l : list (Z * Z)) : outcome digraph := foldM (fun g e => addEdge g (fst e) (snd e)) l empty_graph.
Example DirectedGraphTest_getVertices : List.length (getVertices (addVertex (addVertex empty_graph 1) 5)) = 2%nat.
Proof. vm_compute. reflexivity. Qed.
Example DirectedGraphTest_findCycles_oriented_graph :
  bind (graph_of [(0, 1); (1, 2); (2, 0)]%Z) (fun g => Ok (map (@List.length Z) (findCycles g))) = Ok [3%nat].
Proof. vm_compute. reflexivity. Qed.
Definition ladder : list (Z * Z) := [(4, 1); (1, 2); (2, 5); (5, 6); (6, 3); (3, 0); (0, 7); (7, 4); (2, 3); (0, 1)]%Z.
Example DirectedGraphTest_findCycles :
  bind (graph_of ladder) (fun g => Ok (List.length (findCycles g))) = Ok 4%nat /\
  bind (graph_of (map (fun e => (snd e, fst e)) ladder)) (fun g => Ok (List.length (findCycles g))) = Ok 4%nat.
Proof. vm_compute. auto. Qed.
Example DirectedGraphTest_split_1 :
  bind (graph_of [(10, 11)]%Z) (fun g => bind (split (addVertex g 12)) (fun l => Ok (List.length l))) = Ok 2%nat.
Proof. vm_compute. reflexivity. Qed.
Example DirectedGraphTest_split_2 :
  bind (graph_of [(10, 11); (12, 13)]%Z) (fun g => bind (split g) (fun l => Ok (List.length l))) = Ok 2%nat.
Proof. vm_compute. reflexivity. Qed.
Example DirectedGraphTest_domainBoundaries :
  (let* g := foldM addClosedPath [[1; 2; 4]; [2; 5; 4]; [2; 9; 5]; [5; 9; 7]; [7; 9; 6]; [6; 9; 8]; [6; 8; 4]; [4; 8; 1]]%Z empty_graph in
   let* b := getBoundaryGraph g in
   let* l := split b in
   Ok (edgesSize b, verticesSize b, List.length l, map findCycles l)) =
  Ok (8%nat, 8%nat, 2%nat, [[[1; 2; 9; 8]]; [[5; 4; 6; 7]]]%Z).
Proof. vm_compute. reflexivity. Qed.

(** ** ResultsTest.cpp *)
Definition m1234 : matrix Q := {| nr := 2; nc := 2; ent := fun i j => inject_Z (1 + Z.of_nat (2 * i + j)) |}.
Example ResultsTest_PULParameters_serialization_to_JSON :
  match pulFromJSON (pulToJSON {| pul_L := m1234; pul_C := m1234 |}) with
  | Ok p => Some (pul_eqb {| pul_L := m1234; pul_C := m1234 |} p) | _ => None
  end = Some true.
Proof. vm_compute. reflexivity. Qed.

Definition field_of_test (avg : Q) (ab : list (Q * Q)) : fieldrec Q :=
  {| fr_avg := avg; fr_center := (1 # 2, 1 # 2)%Q; fr_ab := ab; fr_pots := [(0%Z, 1%Q); (1%Z, 2%Q)] |}.
Definition incell_of_test (ids : list Z) : incell Q :=
  {| ic_box := {| b_min := (0, 0)%Q; b_max := (1, 1)%Q |};
     ic_electric := map (fun i => (i, field_of_test 1 [(1, 0); (1 # 2, 1 # 2); (1 # 4, 1 # 4)]%Q)) ids;
     ic_magnetic := map (fun i => (i, field_of_test 2 [(2, 0); (1, 1); (1 # 2, 1 # 2)]%Q)) ids |}.
(** InCellPotentials_serialization_to_JSON and _2 *)
Example ResultsTest_InCellPotentials_serialization_to_JSON :
  map (fun ids => match incellFromJSON (incellToJSON (incell_of_test ids)) with
                  | Ok p => Some (incell_eqb (incell_of_test ids) p) | _ => None end) [[0]; [0; 1]]%Z = [Some true; Some true].
Proof. vm_compute. reflexivity. Qed.

(** ** ParserTest.cpp, ModelTest.cpp, DomainTest.cpp *)
Definition read (j : json Q) (ms : mesh Q) : outcome (model Q) := readModel (fun _ => Ok ms) "testData/case/case.pulmtln.in.json" j.
Example ParserTest_empty_coax :
  (let* o := readDriverOptions empty_coax_json in
   let* m := read empty_coax_json empty_coax in
   Ok (o_order o, o_exportParaView o, map (fun p => (p_name p, p_attr p)) (pecs (mo_mats m)),
       map (fun d => (d_name d, d_attr d, d_epsr d)) (dielectrics (mo_mats m)),
       List.length (sof (map e_attr (m_bdr (mo_mesh m)))))) =
  Ok (3%Z, true, [("Conductor_0"%string, 1%Z); ("Conductor_1"%string, 2%Z)], [("Vacuum_0"%string, 3%Z, 1%Q)], 2%nat).
Proof. vm_compute. reflexivity. Qed.
Example ParserTest_partially_filled_coax :
  (let* o := readDriverOptions partially_filled_coax_json in
   let* m := read partially_filled_coax_json partially_filled_coax in
   Ok (o_order o, o_exportParaView o, map (fun p => (p_name p, p_attr p)) (pecs (mo_mats m)),
       map (fun d => (d_name d, d_attr d, d_epsr d)) (dielectrics (mo_mats m)),
       List.length (sof (map e_attr (m_bdr (mo_mesh m)))))) =
  Ok (3%Z, true, [("Conductor_0"%string, 1%Z); ("Conductor_1"%string, 2%Z)], [("Dielectric_1"%string, 4%Z, 4%Q); ("Vacuum_0"%string, 3%Z, 1%Q)], 2%nat).
Proof. vm_compute. reflexivity. Qed.
Example ModelTest_openness :
  (let* m := read empty_coax_json empty_coax in determineOpenness true m) = Ok Closed /\
  (let* m := read agrawal1981_json agrawal1981_border in determineOpenness true m) = Ok SemiOpen /\
  (let* m := read three_wires_ribbon_json three_wires_ribbon_border in determineOpenness true m) = Ok Open /\
  (let* m := read agrawal1981_json agrawal1981_border in Ok (List.length (pecs (mo_mats m)))) = Ok 4%nat.
Proof. vm_compute. repeat split. Qed.
Definition domain_summary (x : Z * domain) := (fst x, dm_ground (snd x), dm_conductors (snd x), List.length (dm_elems (snd x)), List.length (dm_bdr (snd x))).
Example DomainTest_build_domains_for_empty_coax :
  (let* m := read empty_coax_json empty_coax in let* ds := buildDomains true m in Ok (map domain_summary ds)) =
  Ok [(0%Z, 0%Z, [0; 1]%Z, List.length (m_elems empty_coax), List.length (m_bdr empty_coax))].
Proof. vm_compute. reflexivity. Qed.
(** nested_coax_domains and nested_coax_build_model_for_domain. Run by the build; no proof term is kept,
    because the checker coqchk, which has no virtual machine, would need too long for it. *)
Goal
  (let* m := read nested_coax_json nested_coax in
   let* ds := buildDomains true m in
   mapM (fun x => let* gm := buildModelForDomain (mo_mesh m) (mo_mats m) (snd x) in
                  let sm := snd gm in
                  let '(i, g, c, e, b) := domain_summary x in
                  Ok (i, g, c, (e <? List.length (m_elems nested_coax))%nat, (b <? List.length (m_bdr nested_coax))%nat,
                      (List.length (m_elems (mo_mesh sm)) =? e)%nat, (List.length (m_bdr (mo_mesh sm)) =? b)%nat)) ds) =
  Ok [(0%Z, 0%Z, [0; 1]%Z, true, true, true, true); (1%Z, 1%Z, [1; 2]%Z, true, true, true, true)].
Proof. vm_compute. reflexivity. Abort.

(** ** DriverTest.cpp *)
Definition ribbon : matrix Q :=
  {| nr := 3; nc := 3;
     ent := fun i j => nth (3 * i + j) [262148 # 10000; - 180249 # 10000; - 503325 # 100000; - 180249 # 10000; 378189 # 10000; - 180249 # 10000;
                                        - 503325 # 100000; - 180249 # 10000; 262148 # 10000]%Q 0%Q |}.
Definition relError (a b : Q) : Q := Qabs.Qabs ((b - a) / a).
Example DriverTest_getCFromGeneralizedC_three_wires :
  let C := getCFromGeneralizedC ribbon Open in
  (nr C, nc C, forallb (fun ijx => let '(i, j, x) := ijx in Qle_bool (relError x (ent C i j)) (1 # 1000))
     [(0, 0, 37432 # 1000); (0, 1, - 18716 # 1000); (1, 0, - 18716 # 1000); (1, 1, 24982 # 1000)]%nat%Q) = (2%nat, 2%nat, true).
Proof. vm_compute. reflexivity. Qed.
