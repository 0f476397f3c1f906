(** One triangle with a conductor on one side and an open boundary on another: what the solver
    computes depends on where it is drawn (C70). *)
From Coq Require Import Reals Lra Permutation Relations.
From Verif Require Import Prelude StdMap Materials Graph ModelM Parser Matrix Multipole Solver Fem Domain Results Driver RSum ListLemmas
  SpecInput SpecModel SpecSolver SpecDriver SpecMatrix SpecCharge SpecField SpecFem SpecTriangles SpecDrawing Triangles DriverProofs CallProofs DriverFacts FemProofs FemCalls FemFacts FemModel FemLaws FemDriver FemMatrix FemMore
  TriProofs TriModel TriLocal DrawLocal Toy Kite.
Open Scope list_scope.
Open Scope R_scope.

Definition sail_mesh (t : R) : mesh R :=
  {| m_elems := [{| e_attr := 3; e_verts := [0; 1; 2]%Z; e_vol := 1 |}];
     m_bdr := [{| e_attr := 1; e_verts := [0; 1]%Z; e_vol := 1 |}; {| e_attr := 4; e_verts := [1; 2]%Z; e_vol := 1 |}];
     m_coord := fun v => if (v =? 0)%Z then (t - 1 / 8, - (1 / 16)) else if (v =? 1)%Z then (t, - (1 / 16)) else (t, 1 / 16) |}.
Definition sail_conds : list (pec R) := [{| p_name := "Conductor_0"; p_attr := 1; p_area := 1 |}].
Definition sail_mats : materials R :=
  {| pecs := sail_conds; openBoundaries := [{| o_name := "Open"; o_attr := 4 |}]; dielectrics := [{| d_name := "Vacuum_0"; d_attr := 3; d_epsr := 1 |}] |}.
Definition sail_model (t : R) : model R := {| mo_mats := sail_mats; mo_mesh := sail_mesh t; mo_ground := 0 |}.

Lemma sail_vertex t v : vertex (sail_mesh t) v <-> (0 <= v <= 2)%Z.
Proof.
  split.
  - intros (e & [<- | []] & J); cbn in J; lia.
  - intros L. eexists; split; [left; reflexivity|]. cbn. lia.
Qed.
Lemma sail_triangulation t : triangulation (sail_mesh t).
Proof.
  constructor.
  - cbn. intros e [<- | []]; cbn; (split; [lia|]); do 3 eexists; (split; [reflexivity|]); repeat (split; [lia|]); cbn; lra.
  - intros v w Hw L. apply sail_vertex. apply sail_vertex in Hw. lia.
  - cbn. intros b [<- | [<- | []]]; cbn; (split; [lia|]).
    + exists 0%Z, 1%Z. eexists. split; [reflexivity|]. split; [left; reflexivity|]. exists 0%Z, 1%Z, 2%Z. cbn. auto.
    + exists 1%Z, 2%Z. eexists. split; [reflexivity|]. split; [left; reflexivity|]. exists 0%Z, 1%Z, 2%Z. cbn. auto.
Qed.
Lemma sail_connected t : connected (sail_mesh t).
Proof.
  intros v w Hv Hw. apply sail_vertex in Hv, Hw. apply rt_step. eexists. split; [left; reflexivity|]. cbn. lia.
Qed.
Lemma sail_at t a v : at_boundary (sail_mesh t) a v <-> (a = 1%Z /\ (v = 0 \/ v = 1)%Z) \/ (a = 4%Z /\ (v = 1 \/ v = 2)%Z).
Proof.
  unfold at_boundary. split.
  - intros (b & [<- | [<- | []]] & <- & J); cbn in *; lia.
  - intros [(-> & J) | (-> & J)]; [eexists; split; [left; reflexivity|]|eexists; split; [right; left; reflexivity|]]; cbn; lia.
Qed.
Lemma sail_line t p : on_line (sail_mesh t) 4 p -> fst p = t /\ - (1 / 16) <= snd p <= 1 / 16.
Proof.
  intros (b & v & w & u & [<- | [<- | []]] & E & Ev & Hu & ->); [discriminate|]. cbn in Ev. injection Ev as <- <-. cbn. lra.
Qed.
Lemma small_abc t p : 0 < t <= 1 / 2 -> on_line (sail_mesh t) 4 p -> 0 < firstOrderABC p.
Proof.
  intros Ht L. apply sail_line in L as (E & Hy). unfold firstOrderABC. set (r := norm2 p).
  assert (Hr : 0 < r < 1).
  { unfold r, norm2. rewrite E. set (y := snd p) in *. split; [apply sqrt_lt_R0; nra|]. rewrite <- sqrt_1. apply sqrt_lt_1; nra. }
  assert (Hl : ln r < 0) by (rewrite <- ln_1; apply ln_increasing; lra).
  assert (N : r * ln r < 0) by nra.
  unfold Rdiv. replace (- 1 * / (r * ln r)) with (/ (- (r * ln r))) by (field; lra). apply Rinv_0_lt_compat. lra.
Qed.
Section Model.
  Variable t : R.
  Hypothesis Ht : 0 < t <= 1 / 2.
  Notation abc := firstOrderABC.
  Notation m := (sail_model t).
  Lemma sail_section : cross_section abc m.
  Proof.
    constructor.
    - split; [apply sail_triangulation|apply sail_connected].
    - unfold all_names. cbn. repeat constructor; cbn; intuition discriminate.
    - split; [discriminate|]. split; [repeat constructor; cbn; intuition lia|]. cbn. intros c [<- | []]; cbn. exists 0%Z. apply sail_at; lia.
    - cbn. intros c c' v [<- | []] [<- | []] _ _. reflexivity.
    - cbn. intros d [<- | []]. cbn. split; [lra|]. eexists. split; [left; reflexivity|]. reflexivity.
    - cbn. intros o [<- | []]. cbn [o_attr]. split; [|intros p L; exact (small_abc t p Ht L)].
      exists (t, - (1 / 16)). eexists. exists 1%Z, 2%Z, 0. split; [right; left; reflexivity|]. split; [reflexivity|]. split; [reflexivity|].
      split; [lra|]. cbn. f_equal; lra.
  Qed.
  Notation D := (kite_disc distance (sail_mesh t) 1).
  Notation F := (discretize abc D).
  Lemma sail_posed : well_posed F m. Proof. exact (cross_section_posed _ _ _ kite_rules abc m sail_section). Qed.
  Lemma sail_regular : regular_model abc D m. Proof. exact (cross_section_regular _ _ _ kite_rules abc m sail_section). Qed.
  Lemma len3 (z : list R) : List.length z = 3%nat -> exists a b c, z = [a; b; c].
  Proof. destruct z as [|a [|b [|c [|d z]]]]; try discriminate. eauto. Qed.
  Lemma sail_corners : corners (sail_mesh t) {| e_attr := 3; e_verts := [0; 1; 2]%Z; e_vol := 1 |} 0 1 2.
  Proof. constructor; [reflexivity|reflexivity|cbn; lra|lia]. Qed.
  (** coefficient in the middle of the open boundary *)
  Definition kappa : R := firstOrderABC (t, 0).
  Lemma kappa_pos : 0 < kappa.
  Proof.
    apply (small_abc t _ Ht). eexists. exists 1%Z, 2%Z, (1 / 2). split; [right; left; reflexivity|]. split; [reflexivity|]. split; [reflexivity|].
    split; [lra|]. cbn. f_equal; lra.
  Qed.
  Lemma sail_fields dbg ignore v p x : conductor_problem sail_mats ignore v p -> computes abc D dbg p x ->
    so_phi x = [v 1%Z; v 1%Z; (16 - kappa) / (16 + kappa) * v 1%Z] /\ so_d x = map (fun a => 2 * kappa / (16 + kappa) * v 1%Z * a) [-1; 0; -1].
  Proof.
    intros Cp Cx. pose proof sail_regular as Rm. pose proof (rm_tables _ _ _ Rm) as OK. pose proof kappa_pos as Pk.
    destruct (model_problem abc D m sail_posed Rm ignore v p Cp) as (Hp & An).
    assert (Ee : si_eps p = [(3%Z, 1)]).
    { apply msorted_in_ext; [apply Cp|repeat constructor|]. intros k z. rewrite (cp_eps _ _ _ _ Cp). unfold permittivity. cbn. split.
      - intros ([|? [|? l1]] & q & l2 & El & <- & _ & ->); cbn in El; try discriminate. injection El as <- _. left. destruct ignore; reflexivity.
      - intros [[= <- <-] | []]. exists [], {| d_name := "Vacuum_0"; d_attr := 3; d_epsr := 1 |}, []. cbn. split; [reflexivity|]. split; [reflexivity|]. split; [easy|]. destruct ignore; reflexivity. }
    assert (Eo : si_open p = [4%Z]).
    { apply Permutation_length_1_inv. apply Permutation_sym. exact (cp_open _ _ _ _ Cp). }
    assert (EP : so_phi x = [v 1%Z; v 1%Z; (16 - kappa) / (16 + kappa) * v 1%Z]).
    { apply (weak_field abc D OK dbg p x _ Hp An Cx (cp_neu _ _ _ _ Cp)).
      - reflexivity.
      - intros a z k I B M. apply (cp_dir _ _ _ _ Cp) in I as ((c & [<- | []] & <-) & ->). apply (on_touches _ _ _ abc m sail_section) in B. apply sail_at in B.
        cbn [p_attr] in *. assert (k = 0%nat \/ k = 1%nat) as [-> | ->] by lia; reflexivity.
      - intros psi Lp Zp. change (List.length psi = 3%nat) in Lp. destruct (len3 psi Lp) as (a & b & c & ->).
        assert (Za : a = 0).
        { specialize (Zp 1%Z (v 1%Z) 0%nat). cbn [nth_error] in Zp. assert (Q : Some a = Some 0); [apply Zp|now injection Q].
          - apply (cp_dir _ _ _ _ Cp). cbn. split; [eexists; split; [left; reflexivity|reflexivity]|reflexivity].
          - apply (on_touches _ _ _ abc m sail_section). apply sail_at. lia. }
        assert (Zb : b = 0).
        { specialize (Zp 1%Z (v 1%Z) 1%nat). cbn [nth_error] in Zp. assert (Q : Some b = Some 0); [apply Zp|now injection Q].
          - apply (cp_dir _ _ _ _ Cp). cbn. split; [eexists; split; [left; reflexivity|reflexivity]|reflexivity].
          - apply (on_touches _ _ _ abc m sail_section). apply sail_at. lia. }
        subst a b. unfold work, open_points. rewrite Ee, Eo.
        assert (Lq : potential D [v 1%Z; v 1%Z; (16 - kappa) / (16 + kappa) * v 1%Z]) by reflexivity.
        rewrite (grad_sum _ _ _ kite_rules (sail_mesh t)). fold (open_points D p).
        change (filter _ (di_abc D)) with (open_points D {| si_open := [4%Z]; si_eps := []; si_dirichlet := []; si_neumann := [] |}).
        rewrite (open_sum _ _ _ (sail_mesh t) (sail_triangulation t) abc _ _ _ Lq Lp). cbn [m_elems m_bdr sail_mesh si_open].
        rewrite !Rsum_cons, !Rsum_nil. cbn [e_attr zmem existsb Z.eqb Pos.eqb orb].
        rewrite (work_corners _ _ _ (sail_mesh t) _ 0 1 2 _ _ (or_introl eq_refl) sail_corners Lq Lp).
        unfold abc_b, bdr_len, segment_rule. rewrite Rsum_cons, Rsum_nil.
        set (w := v 1%Z). set (k := kappa) in *. unfold kappa in k. clearbody w.
        change (ends _) with (1, 2)%nat. cbn [fst snd]. unfold pos.
        change (m_coord (sail_mesh t) (Z.of_nat 0)) with (t - 1 / 8, - (1 / 16)). change (m_coord (sail_mesh t) (Z.of_nat 1)) with (t, - (1 / 16)).
        change (m_coord (sail_mesh t) (Z.of_nat 2)) with (t, 1 / 16).
        assert (El : distance (t, - (1 / 16)) (t, 1 / 16) = 1 / 8).
        { unfold distance. cbn [fst snd]. replace (_ + _) with ((1 / 8) * (1 / 8)) by field. apply sqrt_square. lra. }
        assert (Ep : along (t, - (1 / 16)) (t, 1 / 16) (n1 / c2)%num = (t, 0)).
        { unfold along, c2. cbn [fst snd nadd nsub nmul ndiv n0 n1 RNum]. f_equal; field. }
        rewrite El, Ep. fold k. clearbody k. unfold work3, gradsx, gradsy, comb, at3, det, c2. cbn [fst snd nth nadd nsub nmul ndiv n0 n1 RNum eps_of find Z.eqb Pos.eqb].
        field. lra.
    }
    split; [exact EP|].
    symmetry. apply (d_of_e abc D OK dbg p x _ Hp Cx).
    pose proof (e_of_phi abc D OK dbg p x Hp Cx) as G. unfold is_minus_gradient in G. rewrite G, EP.
    split; [reflexivity|]. intros z Lz. change (List.length z = 3%nat) in Lz. destruct (len3 z Lz) as (z1 & z2 & z3 & ->). rewrite Ee.
    clear -Pk. set (w := v 1%Z). set (k := kappa) in *. clearbody w k. cbv -[Rplus Rmult Ropp Rinv Rminus Rdiv IZR]. field. lra.
  Qed.
  Lemma sail_charge dbg ignore v p x q : conductor_problem sail_mats ignore v p -> computes abc D dbg p x ->
    charge_on F x 1 q -> q = 2 * kappa / (16 + kappa) * v 1%Z.
  Proof.
    intros Cp Cx C1. destruct (sail_fields dbg ignore v p x Cp Cx) as (_ & E). pose proof kappa_pos as Pk.
    rewrite (charge_on_fun abc D _ _ _ _ C1 (chargeF abc D x 1)), E.
    clear -Pk. set (w := v 1%Z). set (k := kappa) in *. clearbody w k. cbv -[Rplus Rmult Ropp Rinv Rminus Rdiv IZR]. field. lra.
  Qed.
  Notation femlib := (galerkin abc (kite_disc distance)).
  Lemma sail_order : in_order (mo_mats m) sail_conds.
  Proof.
    split; [apply Permutation_refl|].
    intros [|i] p E; cbn in E; [injection E as <-; reflexivity|]. destruct i; discriminate.
  Qed.
  Lemma sail_openness dbg : determineOpenness dbg m = Ok SemiOpen.
  Proof. destruct dbg; vm_compute; reflexivity. Qed.
  Lemma sail_driver dbg : exists d, built dbg femlib m kite_options d.
  Proof.
    destruct (mkDriver_ok dbg femlib m kite_options sail_posed sail_conds) as (d & E & _).
    - apply sail_order.
    - discriminate.
    - exists d. eexists. exact E.
  Qed.
  Lemma sail_g dbg moment ignore d : built dbg femlib m kite_options d ->
    exists g w, reply dbg femlib moment (CallGeneralizedC ignore) d = (Ok (VMatrix g), w) /\ square 1 g /\ ent g 0 0 = 2 * kappa / (16 + kappa).
  Proof.
    intros B. pose proof (sail_openness dbg) as Eo.
    destruct (generalized_matrix dbg femlib moment m kite_options d [] sail_conds ignore SemiOpen sail_posed B sail_order Eo) as (g & w & E & _); [discriminate|].
    exists g, w. split; [exact E|].
    destruct (gc_entries abc (kite_disc distance) dbg moment m kite_options d [] sail_conds sail_posed B sail_order ignore g w E) as (Sq & G).
    split; [exact Sq|].
    destruct (units_exist abc D dbg m sail_posed sail_regular ignore sail_conds) as (us & Fu).
    inversion Fu as [|p0 u0 l0 us0 U0 Fu0]; subst. inversion Fu0; subst.
    pose proof U0 as V0. apply unit_fields in V0. destruct V0 as (q0 & Cp0 & Cx0).
    pose proof (chargeF abc D u0 1%Z) as C00.
    pose proof (sail_charge dbg ignore _ q0 u0 _ Cp0 Cx0 C00) as A00.
    unfold unit_potential in A00. cbn [sail_conds p_attr Z.eqb Pos.eqb n1 n0 RNum] in A00.
    pose proof (G _ 0%nat 0%nat _ _ u0 u0 _ _ Fu eq_refl eq_refl eq_refl eq_refl C00 C00) as G00.
    rewrite G00, A00. field. pose proof kappa_pos. lra.
  Qed.
End Model.


(** Where the coefficient differs, so does the matrix. *)
Lemma kappa_differs : kappa (1 / 2) <> kappa (1 / 8).
Proof.
  unfold kappa, firstOrderABC, norm2. cbn [fst snd].
  replace (1 / 2 * (1 / 2) + 0 * 0) with ((/ 2) * (/ 2)) by field. replace (1 / 8 * (1 / 8) + 0 * 0) with ((/ 8) * (/ 8)) by field.
  rewrite !sqrt_square by lra. assert (L8 : ln (/ 8) = 3 * ln (/ 2)).
  { replace (/ 8) with (/ 2 * (/ 2 * / 2)) by field. rewrite !ln_mult by lra. ring. }
  rewrite L8. rewrite ln_Rinv by lra. pose proof ln_lt_2 as H2. set (l := ln 2) in *. clearbody l. intros E.
  assert (Q : l * (-1 / (/ 2 * - l)) = l * (-1 / (/ 8 * (3 * - l)))) by (now rewrite E).
  assert (A : l * (-1 / (/ 2 * - l)) = 2) by (field; lra). assert (B : l * (-1 / (/ 8 * (3 * - l))) = 8 / 3) by (field; lra). lra.
Qed.
