(** Two bars of different size inside an open boundary, fourteen triangles: the counterexample
    beside C30. The fields are computed over Q and certified over R. *)
From Coq Require Import QArith Qreals Reals Lra Lia Permutation.
From Verif Require Import Prelude StdMap Json Materials Graph ModelM Parser Matrix Solver Fem Domain Results Driver Triangles RSum ListLemmas
  SpecInput SpecModel SpecSolver SpecDriver SpecCharge SpecField SpecFem SpecTriangles
  FemProofs FemCalls FemFacts FemModel FemLaws FemDriver FemMatrix TriProofs TriModel Toy Kite Transfer Certificate RationalMesh RationalModel
  SpecMatrix DriverProofs CallProofs DriverFacts MatrixProofs MatrixCalls MatrixFacts FieldProofs InCellOk.
Open Scope R_scope.
Open Scope list_scope.
Definition bars_mesh : mesh Q :=
  {| m_elems := map (fun l => {| e_attr := 3%Z; e_verts := l; e_vol := 1%Q |})
       [[0; 1; 9]; [0; 9; 8]; [0; 8; 5]; [0; 5; 4]; [0; 4; 7]; [0; 7; 3]; [1; 2; 10]; [1; 10; 9]; [2; 3; 11]; [2; 11; 10]; [3; 7; 6]; [3; 6; 11]; [5; 8; 6]; [6; 8; 11]]%Z;
     m_bdr := map (fun l => {| e_attr := 4%Z; e_verts := l; e_vol := 1%Q |}) [[0; 1]; [1; 2]; [2; 3]; [3; 0]]%Z
           ++ map (fun l => {| e_attr := 1%Z; e_verts := l; e_vol := 1%Q |}) [[5; 4]; [4; 7]; [7; 6]; [6; 5]]%Z
           ++ map (fun l => {| e_attr := 2%Z; e_verts := l; e_vol := 1%Q |}) [[9; 8]; [8; 11]; [11; 10]; [10; 9]]%Z;
     m_coord := fun v => nth (Z.to_nat v) [(0, 0); (9, 0); (9, 4); (0, 4); (1, 1); (2, 1); (2, 2); (1, 2); (5, 1); (8, 1); (8, 3); (5, 3)]%Q (0, 0)%Q |}.
(** ... over R *)
Definition bars_model : model R := {| mo_mats := toy_mats Open 1; mo_mesh := mesh_R bars_mesh; mo_ground := 0 |}.
Definition quarter : R * R -> R := fun _ => 1 / 4.
Notation bars_disc := (kite_disc distance (mesh_R bars_mesh) 1).

(** ** The mesh *)
Lemma bars_checked : mesh_check bars_mesh 12 = true.
Proof. vm_compute. reflexivity. Qed.
Lemma bars_at t v : (t = 1 \/ t = 2)%Z -> at_boundary (mesh_R bars_mesh) t v -> (4 * t <= v < 4 * t + 4)%Z.
Proof.
  intros Ht (b & I & E & J). unfold mesh_R in I. cbn [m_bdr bars_mesh map app] in I.
  repeat (destruct I as [<- | I]; [cbn in E, J; lia|]). destruct I.
Qed.
Lemma bars_section : cross_section quarter bars_model.
Proof.
  constructor.
  - split; [exact (checked_triangulation bars_mesh 12 bars_checked)|exact (checked_connected bars_mesh 12 bars_checked)].
  - apply toy_names.
  - split; [discriminate|]. split; [cbn; repeat constructor; cbn; intuition lia|]. cbn [pecs bars_model mo_mats toy_mats rev toy_conds app mo_mesh].
    intros c [<- | [<- | []]]; cbn [p_attr]; [exists 8%Z|exists 4%Z]; eexists; (split; [|split]).
    + unfold mesh_R. cbn [m_bdr bars_mesh map app]. do 8 right. left. reflexivity.
    + reflexivity.
    + cbn. auto.
    + unfold mesh_R. cbn [m_bdr bars_mesh map app]. do 4 right. left. reflexivity.
    + reflexivity.
    + cbn. auto.
  - cbn [pecs bars_model mo_mats toy_mats rev toy_conds app mo_mesh]. intros c c' v I I' B B'.
    assert (H : forall c, In c [{| p_name := "Conductor_1"; p_attr := 2; p_area := 1 |}; {| p_name := "Conductor_0"; p_attr := 1; p_area := 1 |}] -> (p_attr c = 1 \/ p_attr c = 2)%Z).
    { intros q [<- | [<- | []]]; cbn; auto. }
    pose proof (bars_at _ _ (H c I) B). pose proof (bars_at _ _ (H c' I') B'). lia.
  - cbn [bars_model mo_mats toy_mats dielectrics mo_mesh]. intros d [<- | []]. cbn [d_epsr d_attr]. split; [cbn; lra|].
    eexists. split; [unfold mesh_R; cbn [m_elems bars_mesh map]; left; reflexivity|reflexivity].
  - cbn [bars_model mo_mats toy_mats openBoundaries mo_mesh]. intros o [<- | []]. cbn [o_attr]. split; [|intros p _; unfold quarter; lra].
    eexists. eexists. exists 0%Z, 1%Z, 0. split; [unfold mesh_R; cbn [m_bdr bars_mesh map app]; left; reflexivity|]. split; [reflexivity|]. split; [reflexivity|]. split; [lra|reflexivity].
Qed.
Lemma bars_open dbg : determineOpenness dbg bars_model = Ok Open.
Proof. destruct dbg; vm_compute; reflexivity. Qed.

(** ** Its tables *)
Definition bars_tables : discretization Q := kite_disc manhattan bars_mesh 1.
Lemma bars_axes : on_axes bars_mesh = true.
Proof. vm_compute. reflexivity. Qed.

(** ** Unit fields *)
Definition bars_problem (v0 v1 : Q) : solver_inputs Q :=
  {| si_dirichlet := [(1%Z, v0); (2%Z, v1)]; si_neumann := []; si_open := [4%Z]; si_eps := [(3%Z, 1%Q)] |}.
Definition bars_solve (v0 v1 : Q) : list Q * list Q :=
  let F := discretize (fun _ => (1#4)%Q) bars_tables in
  match (let* s := mkSolver F true (bars_problem v0 v1) in Solve F s) with Ok s => (s_phi s, s_d s) | _ => ([], []) end.
Definition bars_left : list Q * list Q := Eval vm_compute in bars_solve 1 0.
Definition bars_right : list Q * list Q := Eval vm_compute in bars_solve 0 1.
Definition bars_held (k : nat) : bool := (4 <=? k)%nat && (k <? 12)%nat.
Definition bars_certified (x : list Q * list Q) : bool :=
  certified bars_tables (fun _ => 1%Q) (fun _ => (1#4)%Q) (Z.eqb 4) bars_held (fst x) (snd x).
Lemma left_certified : bars_certified bars_left = true. Proof. vm_compute. reflexivity. Qed.
Lemma right_certified : bars_certified bars_right = true. Proof. vm_compute. reflexivity. Qed.
Definition bars_charge (x : list Q * list Q) (t : Z) : Q := charge_Q bars_tables (snd x) t.
Definition bars_potentials (a b : Q) (x : list Q * list Q) : bool :=
  forallb (fun k => Qeq_bool (nth k (fst x) 0%Q) (if (k <? 8)%nat then a else b)) (seq 4 8).
Lemma bars_pecs c : In c (pecs (mo_mats bars_model)) <-> c = {| p_name := "Conductor_1"; p_attr := 2; p_area := 1 |} \/ c = {| p_name := "Conductor_0"; p_attr := 1; p_area := 1 |}.
Proof. cbn. intuition. Qed.
Lemma bars_tag c : In c (pecs (mo_mats bars_model)) -> (p_attr c = 1 \/ p_attr c = 2)%Z.
Proof. intros I. apply bars_pecs in I as [-> | ->]; cbn; auto. Qed.
Lemma bars_on k : bars_held k = true -> exists c, In c (pecs (mo_mats bars_model)) /\ at_boundary (mesh_R bars_mesh) (p_attr c) (Z.of_nat k).
Proof.
  intros Hk. unfold bars_held in Hk. apply andb_prop in Hk as (K1 & K2). apply Nat.leb_le in K1. apply Nat.ltb_lt in K2.
  exists (if (k <? 8)%nat then {| p_name := "Conductor_0"; p_attr := 1; p_area := 1 |} else {| p_name := "Conductor_1"; p_attr := 2; p_area := 1 |}).
  split; [apply bars_pecs; destruct (k <? 8)%nat; auto|]. unfold at_boundary, mesh_R. cbn [m_bdr bars_mesh map app].
  do 4 (destruct k as [|k]; [lia|]).
  do 8 (destruct k as [|k]; [solve [eexists; (split; [do 4 right; left; reflexivity|split; [reflexivity|cbn; auto]]) | eexists; (split; [do 6 right; left; reflexivity|split; [reflexivity|cbn; auto]]) | eexists; (split; [do 8 right; left; reflexivity|split; [reflexivity|cbn; auto]]) | eexists; (split; [do 10 right; left; reflexivity|split; [reflexivity|cbn; auto]])]|]).
  lia.
Qed.
Lemma bars_eps ignore v p t : conductor_problem (mo_mats bars_model) ignore v p -> eps_of (si_eps p) t = Q2R ((fun _ => 1%Q) t).
Proof.
  intros Cp. cbv beta. rewrite one_R. unfold eps_of. destruct (find _ _) as [(t' & er) |] eqn:E; [|reflexivity]. apply find_some in E as (I & _).
  apply (cp_eps _ _ _ _ Cp) in I. cbn [snd]. unfold permittivity in I. destruct I as (l1 & q & l2 & El & _ & _ & ->).
  cbn [dielectrics mo_mats bars_model toy_mats] in El. destruct l1 as [|? [|? ?]]; cbn [app] in El; try discriminate El. apply (f_equal (hd_error (A:=_))) in El. cbn [hd_error] in El.
  assert (Eq : q = {| d_name := "Vacuum_0"; d_attr := 3; d_epsr := 1 |}) by congruence. rewrite Eq. destruct ignore; reflexivity.
Qed.
Lemma bars_opened t : (4 =? t)%Z = true <-> exists o, In o (openBoundaries (mo_mats bars_model)) /\ o_attr o = t.
Proof.
  rewrite Z.eqb_eq. cbn [openBoundaries mo_mats bars_model toy_mats]. split.
  - intros <-. eexists. split; [left; reflexivity|reflexivity].
  - intros (o & [<- | []] & <-). reflexivity.
Qed.
Lemma bars_quarter q : quarter (pt q) = Q2R ((fun _ => (1#4)%Q) q).
Proof. unfold quarter, Q2R. cbn. lra. Qed.
Lemma bars_fields dbg ignore (a b : Q) (x : list Q * list Q) (v : Z -> R) p u t : bars_certified x = true -> bars_potentials a b x = true ->
  v 1%Z = Q2R a -> v 2%Z = Q2R b -> conductor_problem (mo_mats bars_model) ignore v p -> computes quarter bars_disc dbg p u ->
  charge_on (discretize quarter bars_disc) u t (Q2R (bars_charge x t)).
Proof.
  intros C Hv V1 V2 Cp Cu. unfold bars_charge.
  refine (certified_charge bars_mesh bars_axes bars_model eq_refl quarter bars_section dbg ignore v p u Cp Cu (fun _ => 1%Q) (fun t => bars_eps ignore v p t Cp)
    (Z.eqb 4) bars_opened (fun _ => (1#4)%Q) bars_quarter bars_held bars_on (fst x) (snd x) C _ t).
  intros c w Ic B. pose proof (bars_tag c Ic) as T. pose proof (bars_at _ _ T B) as Lw.
  unfold bars_potentials in Hv. rewrite forallb_forall in Hv. specialize (Hv (Z.to_nat w)). rewrite in_seq in Hv. specialize (Hv ltac:(lia)). apply Qeq_bool_iff, Qeq_eqR in Hv.
  rewrite Hv. destruct T as [T | T]; rewrite T in *.
  - rewrite V1. destruct (Nat.ltb_spec (Z.to_nat w) 8); [reflexivity|lia].
  - rewrite V2. destruct (Nat.ltb_spec (Z.to_nat w) 8); [lia|reflexivity].
Qed.
(** Raw charges: on conductor k with 1 V on conductor j *)
Definition bars_q (j k : nat) : R := Q2R (bars_charge (if (j =? 0)%nat then bars_left else bars_right) (if (k =? 0)%nat then 1 else 2)%Z).
Lemma bars_tables_potentials : bars_potentials 1 0 bars_left = true /\ bars_potentials 0 1 bars_right = true.
Proof. split; vm_compute; reflexivity. Qed.
Lemma bars_unit_charges dbg ignore : unit_charges (discretize quarter bars_disc) dbg bars_model ignore toy_conds bars_q.
Proof.
  intros j k pj pk u Ej Ek (p & s & Cp & Es & Ex).
  assert (Cu : computes quarter bars_disc dbg p u) by (exists s; split; [exact Es|exact Ex]).
  assert (Tk : p_attr pk = (if (k =? 0)%nat then 1 else 2)%Z).
  { destruct k as [|[|k]]; cbn in Ek; try (destruct k; discriminate Ek); assert (E : Some pk = Some pk) by reflexivity; rewrite <- Ek in E at 1; injection E as <-; reflexivity. }
  rewrite Tk. unfold bars_q. destruct j as [|[|j]]; cbn in Ej; [..|destruct j; discriminate Ej].
  - assert (Tj : p_attr pj = 1%Z) by (injection Ej as <-; reflexivity). rewrite Tj in Cp.
    apply (bars_fields dbg ignore 1 0 bars_left (unit_potential 1%Z) p u _ left_certified (proj1 bars_tables_potentials)); [symmetry; apply one_R|symmetry; apply zero_R|exact Cp|exact Cu].
  - assert (Tj : p_attr pj = 2%Z) by (injection Ej as <-; reflexivity). rewrite Tj in Cp.
    apply (bars_fields dbg ignore 0 1 bars_right (unit_potential 2%Z) p u _ right_certified (proj2 bars_tables_potentials)); [symmetry; apply zero_R|symmetry; apply one_R|exact Cp|exact Cu].
Qed.
Lemma bars_lack : 1 / 25 < bars_q 0 1 - bars_q 1 0.
Proof.
  unfold bars_q. cbn [Nat.eqb]. rewrite <- Q2R_minus.
  replace (1 / 25) with (Q2R (1 # 25)) by (unfold Q2R; cbn; lra). apply Qlt_Rlt. vm_compute. reflexivity.
Qed.

Lemma bars_definite : 0 < bars_q 0 0 /\ 0 < bars_q 1 1 /\ (bars_q 0 1 + bars_q 1 0) * (bars_q 0 1 + bars_q 1 0) < 4 * (bars_q 0 0 * bars_q 1 1).
Proof.
  unfold bars_q. cbn [Nat.eqb]. replace 4 with (Q2R 4) by (unfold Q2R; cbn; lra). rewrite <- zero_R, <- ?Q2R_plus, <- ?Q2R_mult.
  split; [|split]; apply Qlt_Rlt; vm_compute; reflexivity.
Qed.

(** ** Its Driver *)
Notation bars_lib := (galerkin quarter (kite_disc distance)).
Notation F := (discretize quarter bars_disc).
Lemma bars_posed : well_posed F bars_model. Proof. exact (cross_section_posed _ _ _ kite_rules quarter bars_model bars_section). Qed.
Lemma bars_regular : regular_model quarter bars_disc bars_model. Proof. exact (cross_section_regular _ _ _ kite_rules quarter bars_model bars_section). Qed.
Lemma bars_order : in_order (mo_mats bars_model) toy_conds. Proof. exact (toy_order Open 1). Qed.
Lemma bars_driver dbg : exists d, built dbg bars_lib bars_model kite_options d.
Proof.
  destruct (mkDriver_ok dbg bars_lib bars_model kite_options bars_posed toy_conds bars_order) as (d & E & _); [discriminate|].
  exists d. eexists. exact E.
Qed.
Lemma bars_g dbg moment ops ignore d : built dbg bars_lib bars_model kite_options d ->
  exists g w, reply dbg bars_lib moment (CallGeneralizedC ignore) (after dbg bars_lib moment ops d) = (Ok (VMatrix g), w) /\ square 2 g /\
    forall j k, (j < 2)%nat -> (k < 2)%nat -> ent g j k = (bars_q j k + bars_q k j) / 2.
Proof.
  intros B.
  destruct (generalized_matrix dbg bars_lib moment bars_model kite_options d ops toy_conds ignore Open bars_posed B bars_order (bars_open dbg)) as (g & w & E & S1 & S2 & G); [discriminate|].
  exists g, w. split; [exact E|]. split; [split; assumption|]. intros j k Lj Lk.
  destruct (units_exist quarter bars_disc dbg bars_model bars_posed bars_regular ignore toy_conds) as (us & Fu).
  destruct (nth_error (toy_conds (T:=R)) j) as [pj|] eqn:Ej; [|apply nth_error_None in Ej; cbn in Ej; lia].
  destruct (nth_error (toy_conds (T:=R)) k) as [pk|] eqn:Ek; [|apply nth_error_None in Ek; cbn in Ek; lia].
  destruct (Forall2_nth _ _ _ j pj Fu Ej) as (uj & Euj & Uj). destruct (Forall2_nth _ _ _ k pk Fu Ek) as (uk & Euk & Uk).
  exact (G j k pj pk uj uk _ _ Ej Ek Uj Uk (bars_unit_charges dbg ignore j k pj pk uj Ej Ek Uj) (bars_unit_charges dbg ignore k j pk pj uk Ek Ej Uk)).
Qed.
Lemma two_definite a b c x y : 0 < a -> 0 < c -> (2 * b) * (2 * b) < 4 * (a * c) -> x <> 0 \/ y <> 0 -> 0 < x * (x * a + y * b) + y * (x * b + y * c).
Proof.
  intros Ha Hc D N. assert (E : a * (x * (x * a + y * b) + y * (x * b + y * c)) = (a * x + b * y) * (a * x + b * y) + (a * c - b * b) * (y * y)) by ring.
  apply Rmult_lt_reg_l with a; [exact Ha|]. rewrite Rmult_0_r, E.
  assert (K : 0 < a * c - b * b) by lra. destruct (Req_dec y 0) as [-> | Ny].
  - destruct N as [Nx | Ny]; [|congruence]. assert (P : 0 < (a * x) * (a * x)) by (apply Rsqr_pos_lt, Rmult_integral_contrapositive_currified; [lra|exact Nx]). lra.
  - pose proof (Rsqr_pos_lt y Ny) as P. unfold Rsqr in P. pose proof (Rle_0_sqr (a * x + b * y)) as Q. unfold Rsqr in Q. pose proof (Rmult_lt_0_compat _ _ K P). lra.
Qed.
Lemma bars_incell dbg moment ops d : built dbg bars_lib bars_model kite_options d ->
  exists p w, reply dbg bars_lib moment CallInCell (after dbg bars_lib moment ops d) = (Ok (VInCell p), w).
Proof.
  intros B. apply (reply_incell_iff dbg bars_lib moment bars_model kite_options d ops bars_posed B).
  split; [apply bars_open|]. split; [left; cbn; auto|]. split; [reflexivity|].
  destruct (bars_g dbg moment ops false d B) as (ge & we & Ee & (S1 & S2) & Ge). destruct (bars_g dbg moment ops true d B) as (gm & wm & Em & (S3 & S4) & Gm).
  apply (floating_regular dbg bars_lib moment bars_model kite_options d ops toy_conds bars_posed B bars_order Open ge gm we wm); [cbn; lia|apply bars_open|discriminate|exact Ee|exact Em|].
  assert (G : forall g, nr g = 2%nat -> nc g = 2%nat -> (forall j k, (j < 2)%nat -> (k < 2)%nat -> ent g j k = (bars_q j k + bars_q k j) / 2) -> symmetric g /\ positive_definite g).
  { intros g R1 R2 Hg. split.
    - intros i j Li Lj. rewrite R1 in Li, Lj. rewrite !Hg by assumption. lra.
    - intros V (k & Lk & Nk). rewrite R1 in Lk. unfold quad, charge. rewrite R1, R2. unfold Sum. cbn [seq]. rewrite !Rsum_cons, !Rsum_nil.
      rewrite !Hg by lia. destruct bars_definite as (D0 & D1 & D2).
      set (a := bars_q 0 0) in *. set (c := bars_q 1 1) in *. set (b1 := bars_q 0 1) in *. set (b2 := bars_q 1 0) in *. clearbody a b1 b2 c.
      pose proof (two_definite a ((b1 + b2) / 2) c (V 0%nat) (V 1%nat) D0 D1) as T.
      assert (T' : 0 < V 0%nat * (V 0%nat * a + V 1%nat * ((b1 + b2) / 2)) + V 1%nat * (V 0%nat * ((b1 + b2) / 2) + V 1%nat * c)).
      { apply T; [|destruct k as [|[|k]]; [now left|now right|lia]]. replace (2 * ((b1 + b2) / 2)) with (b1 + b2) by field. exact D2. }
      match goal with |- 0 < ?r => replace r with (V 0%nat * (V 0%nat * a + V 1%nat * ((b1 + b2) / 2)) + V 1%nat * (V 0%nat * ((b1 + b2) / 2) + V 1%nat * c)) by field end.
      exact T'. }
  intros g [-> | ->]; [exact (G ge S1 S2 Ge)|exact (G gm S3 S4 Gm)].
Qed.
Lemma bars_floats dbg moment d : built dbg bars_lib bars_model kite_options d -> 
  forall p w fr, reply dbg bars_lib moment CallInCell d = (Ok (VInCell p), w) -> In (0%Z, fr) (ic_electric p) ->
  exists V x Q0 Q1 a0 rest, fr_pots fr = [(0%Z, V 0%nat); (1%Z, V 1%nat)] /\ V 0%nat = 1 /\ fr_ab fr = (a0, 0) :: rest /\
    model_fields quarter bars_disc dbg bars_model false (fun t => if (t =? 1)%Z then V 0%nat else V 1%nat) x /\
    charge_on F x 1 Q0 /\ charge_on F x 2 Q1 /\ 1 / 50 < Q1 /\ Q0 < a0.
Proof.
  intros B p w fr E I. change (0%Z) with (Z.of_nat 0) in I.
  destruct (incell_fields dbg bars_lib moment bars_model kite_options d [] toy_conds bars_posed B bars_order p w E) as (_ & H).
  destruct (H false) as (_ & g & wg & V & Eg & _ & Hi). destruct (Hi 0%nat fr I) as (_ & Fl & x & Rx).
  destruct (charges_of_a_field dbg bars_lib moment bars_model kite_options d [] toy_conds bars_posed B bars_order false (V 0%nat) g wg _ 0%nat _ x fr bars_q
    eq_refl Eg (bars_open dbg) Fl (bars_unit_charges dbg false) Rx) as (H1 & H2 & H3).
  destruct (H3 (rm_tags _ _ _ bars_regular)) as (rest & Eab).
  specialize (H2 1%nat ltac:(lia) ltac:(cbn; lia)). pose proof (H1 0%nat _ eq_refl) as C0. pose proof (H1 1%nat _ eq_refl) as C1.
  cbn [p_attr toy_conds] in C0, C1. pose proof (proj1 Fl) as V0.
  assert (S2 : forall f, Sum (List.length (toy_conds (T:=R))) f = f 0%nat + f 1%nat) by (intros f; unfold Sum; cbn [seq List.length toy_conds]; rewrite !Rsum_cons, Rsum_nil; lra).
  assert (L1 : 1 / 50 < Sum (List.length (toy_conds (T:=R))) (fun j => V 0%nat j * bars_q j 1)).
  { rewrite H2, S2, V0. pose proof bars_lack. lra. }
  destruct (model_fields_exist quarter bars_disc dbg bars_model bars_posed bars_regular false (fun t => if (t =? 1)%Z then V 0%nat 0%nat else V 0%nat 1%nat)) as (x' & Fx).
  assert (Ex : x = x').
  { destruct (rc_units _ _ _ _ _ _ _ _ _ _ Rx) as (us & Fu & Cx).
    assert (Cx' : combines us (V 0%nat) x').
    { apply (conductor_combination quarter bars_disc dbg bars_model bars_posed bars_regular false toy_conds us (V 0%nat) (fun t => if (t =? 1)%Z then V 0%nat 0%nat else V 0%nat 1%nat) x' bars_order Fu); [|exact Fx].
      intros [|[|j]] q Eq; cbn in Eq; [injection Eq as <-; reflexivity|injection Eq as <-; reflexivity|destruct j; discriminate]. }
    apply (combines_unique quarter bars_disc us (V 0%nat) x x' Cx Cx'); [exact (rc_sized _ _ _ _ _ _ _ _ _ _ Rx)|].
    apply (fields_sized quarter bars_disc dbg bars_model bars_posed false _ x' Fx). }
  rewrite (S2 (fun k => _)) in Eab.
  exists (V 0%nat), x. do 3 eexists. exists rest. split; [exact (rc_potentials _ _ _ _ _ _ _ _ _ _ Rx)|]. split; [exact V0|]. split; [exact Eab|].
  split; [rewrite Ex; exact Fx|]. split; [exact C0|]. split; [exact C1|]. split; [exact L1|]. cbv beta. lra.
Qed.
