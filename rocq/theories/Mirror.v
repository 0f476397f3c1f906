(** A quadrilateral of two triangles with finite elements of order 3, the default: the counterexample beside C59,
    C61 and C63. The fields are computed over Q and certified over R. *)
From Coq Require Import QArith Qreals Reals Lra Lia Permutation.
From Verif Require Import Prelude StdMap Json Materials Graph ModelM Parser Matrix Solver Fem Domain Results Driver Triangles Elements RefElements RSum ListLemmas
  SpecInput SpecModel SpecSolver SpecDriver SpecCharge SpecField SpecFem SpecTriangles SpecElements
  FemProofs FemCalls FemFacts FemModel FemLaws FemDriver FemMatrix TriProofs TriModel ElemProofs ElemTables ElemModel ElemFields RefProofs Boole Toy Kite
  Transfer Certificate RationalMesh RationalModel ElemTransfer RationalElem FastCert SpecMatrix DriverProofs CallProofs DriverFacts MatrixProofs MatrixCalls MatrixFacts PropsElements.
Open Scope R_scope.
Open Scope list_scope.
Definition mirror_mesh : mesh Q :=
  {| m_elems := [{| e_attr := 3; e_verts := [0; 1; 2]%Z; e_vol := n1 |}; {| e_attr := 3; e_verts := [0; 2; 3]%Z; e_vol := n1 |}];
     m_bdr := [{| e_attr := 1; e_verts := [0; 1]%Z; e_vol := n1 |}; {| e_attr := 2; e_verts := [2; 3]%Z; e_vol := n1 |}];
     m_coord := fun v => nth (Z.to_nat v) [(0, 0); (1, 0); (3, 1); (7, 4)]%Q (0, 0)%Q |}.
Definition mirror_model : model R := {| mo_mats := toy_mats Closed 1; mo_mesh := mesh_R mirror_mesh; mo_ground := 0 |}.
Definition no_abc : R * R -> R := fun _ => 1.
Definition default_options : driver_options := kite_order 3.
Definition cubic_Q : reference Q := reference_of boole boole_rule boole_rule 3.
Notation cubic := (boole_elements 3).
Notation mirror_disc := (elements cubic distance (mesh_R mirror_mesh)).

(** ** The mesh *)
Lemma mirror_checked : mesh_check mirror_mesh 4 = true.
Proof. vm_compute. reflexivity. Qed.
Lemma mirror_at t v : (t = 1 \/ t = 2)%Z -> at_boundary (mesh_R mirror_mesh) t v -> (2 * t - 2 <= v < 2 * t)%Z.
Proof.
  intros Ht (b & I & E & J). unfold mesh_R in I. cbn [m_bdr mirror_mesh map app] in I.
  repeat (destruct I as [<- | I]; [cbn in E, J; lia|]). destruct I.
Qed.
Lemma mirror_pecs c : In c (pecs (mo_mats mirror_model)) <-> c = {| p_name := "Conductor_1"; p_attr := 2; p_area := 1 |} \/ c = {| p_name := "Conductor_0"; p_attr := 1; p_area := 1 |}.
Proof. cbn. intuition. Qed.
Lemma mirror_tag c : In c (pecs (mo_mats mirror_model)) -> (p_attr c = 1 \/ p_attr c = 2)%Z.
Proof. intros I. apply mirror_pecs in I as [-> | ->]; cbn; auto. Qed.
Lemma mirror_section : cross_section no_abc mirror_model.
Proof.
  constructor.
  - split; [exact (checked_triangulation mirror_mesh 4 mirror_checked)|exact (checked_connected mirror_mesh 4 mirror_checked)].
  - apply toy_names.
  - split; [discriminate|]. split; [cbn; repeat constructor; cbn; intuition lia|]. intros c I. apply mirror_pecs in I as [-> | ->]; cbn [p_attr mirror_model mo_mesh].
    + exists 2%Z. eexists. split; [unfold mesh_R; cbn [m_bdr mirror_mesh map]; right; left; reflexivity|]. split; [reflexivity|]. cbn. auto.
    + exists 0%Z. eexists. split; [unfold mesh_R; cbn [m_bdr mirror_mesh map]; left; reflexivity|]. split; [reflexivity|]. cbn. auto.
  - intros c c' v I I' B B'. pose proof (mirror_at _ _ (mirror_tag c I) B). pose proof (mirror_at _ _ (mirror_tag c' I') B'). pose proof (mirror_tag c I). pose proof (mirror_tag c' I'). lia.
  - cbn [mirror_model mo_mats toy_mats dielectrics mo_mesh]. intros d [<- | []]. cbn [d_epsr d_attr]. split; [cbn; lra|].
    eexists. split; [unfold mesh_R; cbn [m_elems mirror_mesh map]; left; reflexivity|reflexivity].
  - intros o [].
Qed.
Lemma mirror_closed dbg : determineOpenness dbg mirror_model = Ok Closed.
Proof. destruct dbg; reflexivity. Qed.
Lemma mirror_reference : reference_ok cubic.
Proof. exact (C85_reference_elements 3 _ _ _ (conj (le_S _ _ (le_S _ _ (le_n 1))) (le_n 3)) (boole_rules 3 (conj (le_S _ _ (le_S _ _ (le_n 1))) (le_n 3)))). Qed.
Lemma cubic_R : same_reference cubic_Q cubic.
Proof. unfold cubic_Q, boole_elements. rewrite boole_R, boole_rule_R. apply orders_R. Qed.

(** ** Unit fields *)
(** the sides on the conductors have the lengths 1 and 5 *)
Definition side_length (p q : Q * Q) : Q := if Qeq_bool (snd p) (snd q) then 1%Q else 5%Q.
Lemma mirror_lengths b : In b (m_bdr mirror_mesh) -> distance (pt (pos mirror_mesh (fst (ends b)))) (pt (pos mirror_mesh (snd (ends b)))) = Q2R (bdr_len side_length mirror_mesh b).
Proof.
  assert (S : forall x y, 0 <= y -> x = y * y -> sqrt x = y) by (intros x y P ->; now apply sqrt_square).
  intros [<- | [<- | []]].
  - match goal with |- distance (pt ?a) (pt ?b) = Q2R ?c => change a with ((0, 0)%Q); change b with ((1, 0)%Q); replace c with 1%Q by (vm_compute; reflexivity) end.
    unfold distance, pt, Q2R. cbn. apply S; lra.
  - match goal with |- distance (pt ?a) (pt ?b) = Q2R ?c => change a with ((3, 1)%Q); change b with ((7, 4)%Q); replace c with 5%Q by (vm_compute; reflexivity) end.
    unfold distance, pt, Q2R. cbn. apply S; lra.
Qed.
Definition mirror_tables : discretization Q := elements cubic_Q side_length mirror_mesh.
Definition mirror_computed : list Q * list Q := Eval vm_compute in
  let D := mirror_tables in
  let phi := solve_phi (fun _ => 1%Q) D (EpsConst 1%Q) [] (flat_map snd (di_bdrDofs D))
    (map (fun i => if nmem i (flat_map (fun b => if (fst b =? 1)%Z then snd b else []) (di_bdrDofs D)) then 1%Q else 0%Q) (seq 0 (di_nH1 D))) (repeat 0%Q (di_nH1 D)) in
  (phi, solve_d D (EpsConst 1%Q) (solve_e D phi)).
Definition mirror_left : list Q * list Q := mirror_computed.
Definition mirror_right : list Q * list Q := Eval vm_compute in (map (fun x => Qred (1 - x)) (fst mirror_computed), map Qopp (snd mirror_computed)).
Definition mirror_held (k : nat) : bool := existsb (fun b => zmem (fst b) [1; 2]%Z && nmem k (snd b))%bool (di_bdrDofs mirror_tables).
Definition mirror_fast (x : list Q * list Q) : bool := fast 8294400 4560704021383060898585204867577996 mirror_tables (fun _ => 1%Q) mirror_held (fst x) (snd x).
Lemma mirror_left_checked : mirror_fast mirror_left = true. Proof. vm_compute. reflexivity. Qed.
Lemma mirror_right_checked : mirror_fast mirror_right = true. Proof. vm_compute. reflexivity. Qed.
(** the potentials on the conductors *)
Definition mirror_potentials (a b : Q) (x : list Q * list Q) : bool :=
  forallb (fun td => forallb (fun k => Qeq_bool (nth k (fst x) 0%Q) (if (fst td =? 1)%Z then a else b)) (snd td)) (di_bdrDofs mirror_tables).
Definition mirror_charge (x : list Q * list Q) (t : Z) : Q := charge_Q mirror_tables (snd x) t.
Lemma mirror_eps ignore v p t : conductor_problem (mo_mats mirror_model) ignore v p -> eps_of (si_eps p) t = Q2R ((fun _ => 1%Q) t).
Proof.
  intros Cp. cbv beta. rewrite one_R. unfold eps_of. destruct (find _ _) as [(t' & er) |] eqn:E; [|reflexivity]. apply find_some in E as (I & _).
  apply (cp_eps _ _ _ _ Cp) in I. cbn [snd]. unfold permittivity in I. destruct I as (l1 & q & l2 & El & _ & _ & ->).
  cbn [dielectrics mo_mats mirror_model toy_mats] in El. destruct l1 as [|? [|? ?]]; cbn [app] in El; try discriminate El. apply (f_equal (hd_error (A:=_))) in El. cbn [hd_error] in El.
  assert (Eq : q = {| d_name := "Vacuum_0"; d_attr := 3; d_epsr := 1 |}) by congruence. rewrite Eq. destruct ignore; reflexivity.
Qed.
Lemma mirror_fields dbg ignore (a b : Q) (x : list Q * list Q) (v : Z -> R) p u t : mirror_fast x = true -> mirror_potentials a b x = true ->
  v 1%Z = Q2R a -> v 2%Z = Q2R b -> conductor_problem (mo_mats mirror_model) ignore v p -> computes no_abc mirror_disc dbg p u ->
  charge_on (discretize no_abc mirror_disc) u t (Q2R (mirror_charge x t)).
Proof.
  intros C Hv V1 V2 Cp Cu. apply (fast_certified _ _ _ _ _ _ _ (fun _ => 1%Q)) in C. unfold mirror_charge.
  refine (element_charge_certified cubic_Q cubic cubic_R mirror_reference mirror_mesh side_length mirror_lengths mirror_model eq_refl no_abc mirror_section dbg ignore v p u Cp Cu
    (fun _ => 1%Q) (fun t => mirror_eps ignore v p t Cp) eq_refl (fun _ => eq_refl) [1; 2]%Z _ (fst x) (snd x) C _ t).
  - intros s. split.
    + intros [<- | [<- | []]]; [exists {| p_name := "Conductor_0"; p_attr := 1; p_area := 1 |}|exists {| p_name := "Conductor_1"; p_attr := 2; p_area := 1 |}]; (split; [apply mirror_pecs; auto|reflexivity]).
    + intros (c & I & <-). apply mirror_tag in I. cbn. intuition lia.
  - intros s dofs k I J K. unfold mirror_potentials in Hv. rewrite forallb_forall in Hv. specialize (Hv _ I). cbn [fst snd] in Hv. rewrite forallb_forall in Hv.
    specialize (Hv k K). apply Qeq_bool_iff, Qeq_eqR in Hv. rewrite Hv. destruct J as [<- | [<- | []]]; symmetry; assumption.
Qed.
Lemma mirror_tables_potentials : mirror_potentials 1 0 mirror_left = true /\ mirror_potentials 0 1 mirror_right = true.
Proof. split; vm_compute; reflexivity. Qed.
(** Raw charges: on conductor k with 1 V on conductor j *)
Definition mirror_q (j k : nat) : R := Q2R (mirror_charge (if (j =? 0)%nat then mirror_left else mirror_right) (if (k =? 0)%nat then 1 else 2)%Z).
Lemma mirror_unit_charges dbg ignore : unit_charges (discretize no_abc mirror_disc) dbg mirror_model ignore toy_conds mirror_q.
Proof.
  intros j k pj pk u Ej Ek (p & s & Cp & Es & Ex).
  assert (Cu : computes no_abc mirror_disc dbg p u) by (exists s; split; [exact Es|exact Ex]).
  assert (Tk : p_attr pk = (if (k =? 0)%nat then 1 else 2)%Z).
  { destruct k as [|[|k]]; cbn in Ek; try (destruct k; discriminate Ek); assert (E : Some pk = Some pk) by reflexivity; rewrite <- Ek in E at 1; injection E as <-; reflexivity. }
  rewrite Tk. unfold mirror_q. destruct j as [|[|j]]; cbn in Ej; [..|destruct j; discriminate Ej].
  - assert (Tj : p_attr pj = 1%Z) by (injection Ej as <-; reflexivity). rewrite Tj in Cp.
    apply (mirror_fields dbg ignore 1 0 mirror_left (unit_potential 1%Z) p u _ mirror_left_checked (proj1 mirror_tables_potentials)); [symmetry; apply one_R|symmetry; apply zero_R|exact Cp|exact Cu].
  - assert (Tj : p_attr pj = 2%Z) by (injection Ej as <-; reflexivity). rewrite Tj in Cp.
    apply (mirror_fields dbg ignore 0 1 mirror_right (unit_potential 2%Z) p u _ mirror_right_checked (proj2 mirror_tables_potentials)); [symmetry; apply zero_R|symmetry; apply one_R|exact Cp|exact Cu].
Qed.
(** at 1 V the charge of conductor 1 is negative, and the two charges do not cancel *)
Lemma mirror_values : 1 < mirror_q 0 0 /\ mirror_q 1 1 < - (1 / 5) /\ 0 < mirror_q 0 1 /\ 1 / 5 < mirror_q 0 0 + (mirror_q 0 1 + mirror_q 1 0) / 2.
Proof.
  unfold mirror_q. cbn [Nat.eqb]. 
  replace (1 / 5) with (Q2R (1 # 5)) by (unfold Q2R; cbn; lra). replace 1 with (Q2R 1) by (unfold Q2R; cbn; lra). replace 0 with (Q2R 0) by (unfold Q2R; cbn; lra).
  replace (Q2R 1 / 5) with (Q2R (1 # 5)) by (unfold Q2R; cbn; lra).
  unfold Rdiv. replace (/ 2) with (Q2R (1 # 2)) by (unfold Q2R; cbn; lra). rewrite <- ?Q2R_plus, <- ?Q2R_mult, <- ?Q2R_plus, <- ?Q2R_opp.
  repeat split; apply Qlt_Rlt; vm_compute; reflexivity.
Qed.

(** ** Its Driver *)
Notation mirror_lib := (galerkin no_abc (elements_of boole_elements)).
Lemma mirror_posed : well_posed (discretize no_abc mirror_disc) mirror_model. Proof. exact (elements_posed cubic mirror_reference no_abc mirror_model mirror_section). Qed.
Lemma mirror_regular : regular_model no_abc mirror_disc mirror_model. Proof. exact (elements_regular cubic mirror_reference no_abc mirror_model mirror_section). Qed.
Lemma mirror_order : in_order (mo_mats mirror_model) toy_conds. Proof. exact (toy_order Closed 1). Qed.
Lemma mirror_driver dbg : exists d, element_driver boole_elements no_abc dbg mirror_model default_options d toy_conds.
Proof.
  destruct (mkDriver_ok dbg mirror_lib mirror_model default_options mirror_posed toy_conds mirror_order) as (d & E & _); [discriminate|].
  exists d. constructor; [exact mirror_reference|exact mirror_section|eexists; exact E|exact mirror_order].
Qed.
Lemma mirror_g dbg moment ops ignore d : element_driver boole_elements no_abc dbg mirror_model default_options d toy_conds ->
  exists g w, reply dbg mirror_lib moment (CallGeneralizedC ignore) (after dbg mirror_lib moment ops d) = (Ok (VMatrix g), w) /\ square 2 g /\
    forall j k, (j < 2)%nat -> (k < 2)%nat -> ent g j k = (mirror_q j k + mirror_q k j) / 2.
Proof.
  intros [_ _ B _].
  destruct (generalized_matrix dbg mirror_lib moment mirror_model default_options d ops toy_conds ignore Closed mirror_posed B mirror_order (mirror_closed dbg)) as (g & w & E & S1 & S2 & G); [discriminate|].
  exists g, w. split; [exact E|]. split; [split; assumption|]. intros j k Lj Lk.
  destruct (units_exist no_abc mirror_disc dbg mirror_model mirror_posed mirror_regular ignore toy_conds) as (us & Fu).
  destruct (nth_error (toy_conds (T:=R)) j) as [pj|] eqn:Ej; [|apply nth_error_None in Ej; cbn in Ej; lia].
  destruct (nth_error (toy_conds (T:=R)) k) as [pk|] eqn:Ek; [|apply nth_error_None in Ek; cbn in Ek; lia].
  destruct (Forall2_nth _ _ _ j pj Fu Ej) as (uj & Euj & Uj). destruct (Forall2_nth _ _ _ k pk Fu Ek) as (uk & Euk & Uk).
  exact (G j k pj pk uj uk _ _ Ej Ek Uj Uk (mirror_unit_charges dbg ignore j k pj pk uj Ej Ek Uj) (mirror_unit_charges dbg ignore k j pk pj uk Ek Ej Uk)).
Qed.
