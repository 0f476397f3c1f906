(** A hexagon of four triangles with conductors on three sides: the counterexample for reciprocity. *)
From Coq Require Import QArith Reals Lra Permutation Relations.
From Verif Require Import Prelude StdMap Materials Graph ModelM Parser Matrix Solver Fem Domain Results Driver RSum ListLemmas
  SpecInput SpecModel SpecSolver SpecDriver SpecMatrix SpecCharge SpecField SpecFem SpecTriangles Triangles DriverProofs CallProofs DriverFacts FemProofs FemCalls FemFacts FemModel FemLaws FemDriver FemMatrix FemMore
  TriProofs TriModel Toy Kite.
Open Scope R_scope.
Open Scope list_scope.

Definition hex_conds : list (pec R) :=
  [{| p_name := "Conductor_0"; p_attr := 1; p_area := 1 |};
   {| p_name := "Conductor_1"; p_attr := 2; p_area := 1 |};
   {| p_name := "Conductor_2"; p_attr := 3; p_area := 1 |}].
Definition hex_mats : materials R :=
  {| pecs := hex_conds; openBoundaries := []; dielectrics := [{| d_name := "Vacuum_0"; d_attr := 4; d_epsr := 1 |}] |}.
Definition hex_mesh : mesh R :=
  {| m_elems := map (fun l => {| e_attr := 4%Z; e_verts := l; e_vol := 1 |}) [[0; 1; 2]; [0; 2; 3]; [0; 3; 4]; [0; 4; 5]]%Z;
     m_bdr := [{| e_attr := 1; e_verts := [0; 1]%Z; e_vol := 1 |}; {| e_attr := 2; e_verts := [2; 3]%Z; e_vol := 1 |}; {| e_attr := 3; e_verts := [4; 5]%Z; e_vol := 1 |}];
     m_coord := fun v => if (v =? 0)%Z then (0, 0) else if (v =? 1)%Z then (4, 0) else if (v =? 2)%Z then (2, 2) else
                         if (v =? 3)%Z then (0, 4) else if (v =? 4)%Z then (-1, 1) else (-3, 1) |}.
Definition hex_model : model R := {| mo_mats := hex_mats; mo_mesh := hex_mesh; mo_ground := 0 |}.

Lemma hex_vertex v : vertex hex_mesh v <-> (0 <= v <= 5)%Z.
Proof.
  split.
  - intros (e & I & J). cbn in I. destruct I as [<-|[<-|[<-|[<-|[]]]]]; cbn in J; lia.
  - intros L. assert (v <= 2 \/ v = 3 \/ v = 4 \/ v = 5)%Z as [L'|[-> | [-> | ->]]] by lia.
    + eexists; split; [left; reflexivity|]. cbn. lia.
    + eexists; split; [right; left; reflexivity|]. cbn. auto.
    + eexists; split; [right; right; left; reflexivity|]. cbn. auto.
    + eexists; split; [right; right; right; left; reflexivity|]. cbn. auto.
Qed.
Lemma hex_triangulation : triangulation hex_mesh.
Proof.
  constructor.
  - cbn. intros e [<-|[<-|[<-|[<-|[]]]]]; cbn; (split; [lia|]); do 3 eexists; (split; [reflexivity|]); repeat (split; [lia|]); cbn; lra.
  - intros v w Hw L. apply hex_vertex. apply hex_vertex in Hw. lia.
  - cbn. intros b [<-|[<-|[<-|[]]]]; cbn; (split; [lia|]).
    + exists 0%Z, 1%Z. eexists. split; [reflexivity|]. split; [left; reflexivity|]. exists 0%Z, 1%Z, 2%Z. cbn. auto.
    + exists 2%Z, 3%Z. eexists. split; [reflexivity|]. split; [right; left; reflexivity|]. exists 0%Z, 2%Z, 3%Z. cbn. auto.
    + exists 4%Z, 5%Z. eexists. split; [reflexivity|]. split; [right; right; right; left; reflexivity|]. exists 0%Z, 4%Z, 5%Z. cbn. auto.
Qed.
Lemma hex_connected : connected hex_mesh.
Proof.
  assert (H : forall v, vertex hex_mesh v -> exists e, In e (m_elems hex_mesh) /\ In v (e_verts e) /\ In 0%Z (e_verts e)).
  { intros v (e & I & J). exists e. split; [exact I|]. split; [exact J|]. cbn in I. destruct I as [<-|[<-|[<-|[<-|[]]]]]; cbn; auto. }
  intros v w Hv Hw. destruct (H v Hv) as (e & I & J & K). destruct (H w Hw) as (e' & I' & J' & K').
  apply (rt_trans _ _ v 0%Z w); apply rt_step; eauto.
Qed.
Lemma hex_at t v : at_boundary hex_mesh t v <-> (t = 1%Z /\ (v = 0 \/ v = 1)%Z) \/ (t = 2%Z /\ (v = 2 \/ v = 3)%Z) \/ (t = 3%Z /\ (v = 4 \/ v = 5)%Z).
Proof.
  unfold at_boundary. split.
  - intros (b & [<-|[<-|[<-|[]]]] & <- & J); cbn in *; lia.
  - intros [(-> & J)|[(-> & J)|(-> & J)]]; [eexists; split; [left; reflexivity|]|eexists; split; [right; left; reflexivity|]|eexists; split; [right; right; left; reflexivity|]]; cbn; lia.
Qed.
Section Hexagon.
  Variable abc : R * R -> R.
  Lemma hex_section : cross_section abc hex_model.
  Proof.
    constructor.
    - split; [exact hex_triangulation|exact hex_connected].
    - unfold all_names; cbn; repeat constructor; cbn; intuition discriminate.
    - split; [discriminate|]. split; [repeat constructor; cbn; intuition lia|]. cbn. intros c [<-|[<-|[<-|[]]]]; cbn; [exists 0%Z|exists 2%Z|exists 4%Z]; apply hex_at; lia.
    - cbn. intros c c' v _ _ B B'. apply hex_at in B, B'. lia.
    - cbn. intros d [<-|[]]. cbn. split; [lra|]. eexists. split; [left; reflexivity|]. reflexivity.
    - intros o [].
  Qed.
  Notation D := (kite_disc distance hex_mesh 1).
  Notation F := (discretize abc D).
  Lemma hex_posed : well_posed F hex_model. Proof. exact (cross_section_posed _ _ _ kite_rules abc hex_model hex_section). Qed.
  Lemma hex_regular : regular_model abc D hex_model. Proof. exact (cross_section_regular _ _ _ kite_rules abc hex_model hex_section). Qed.
  Lemma hex_order : in_order hex_mats hex_conds.
  Proof. split; [apply Permutation_refl|]. intros [|[|[|i]]] p E; cbn in E; try (injection E as <-; reflexivity). destruct i; discriminate. Qed.
  Lemma len6 (z : list R) : List.length z = 6%nat -> exists a b c d e f, z = [a; b; c; d; e; f].
  Proof. destruct z as [|a [|b [|c [|d [|e [|f [|g z]]]]]]]; try discriminate. eauto 8. Qed.
  Lemma len9 (z : list R) : List.length z = 9%nat -> exists a b c d e f g h i, z = [a; b; c; d; e; f; g; h; i].
  Proof. destruct z as [|a [|b [|c [|d [|e [|f [|g [|h [|i [|j z]]]]]]]]]]; try discriminate. do 9 eexists. reflexivity. Qed.
  Lemma hex_fields dbg v p x : conductor_problem hex_mats false v p -> computes abc D dbg p x ->
    so_d x = map (fun abc => / 180 * (v 1%Z * fst (fst abc) + v 2%Z * snd (fst abc) + v 3%Z * snd abc))
      [((-360, 360), 0); ((135, -135), 0); ((-90, 90), 0); ((135, -135), 0); ((-90, -174), 264); ((135, 57), -192); ((45, -53), 8); ((225, -53), -172); ((405, -53), -352)].
  Proof.
    intros Cp Cx. pose proof hex_regular as Rm. pose proof (rm_tables _ _ _ Rm) as OK.
    destruct (model_problem abc D hex_model hex_posed Rm false v p Cp) as (Hp & An).
    assert (Ee : si_eps p = [(4%Z, 1)]).
    { apply msorted_in_ext; [apply Cp|repeat constructor|]. intros k z. rewrite (cp_eps _ _ _ _ Cp). unfold permittivity. cbn. split.
      - intros ([|? [|? l1]] & q & l2 & El & <- & _ & ->); cbn in El; try discriminate. injection El as <- _. auto.
      - intros [[= <- <-]|[]]. exists [], {| d_name := "Vacuum_0"; d_attr := 4; d_epsr := 1 |}, []. cbn. auto. }
    destruct (minimal abc D OK dbg p x Hp An Cx) as (_ & _ & L & Pr & _).
    apply (prescribed_model abc D hex_model false v p _ Cp L) in Pr. apply (held_iff _ _ _ abc hex_model hex_section) in Pr as [_ Pr].
    change (List.length (so_phi x) = 6%nat) in L. destruct (len6 _ L) as (a0 & a1 & a2 & a3 & a4 & a5 & Ep). rewrite Ep in Pr.
    assert (Q : forall i w, (i < 3)%nat -> at_boundary hex_mesh (Z.of_nat i + 1) w -> at_vertex [a0; a1; a2; a3; a4; a5] w = v (Z.of_nat i + 1)%Z).
    { intros i w Li B. assert (I : exists c, In c hex_conds /\ p_attr c = (Z.of_nat i + 1)%Z).
      { exists (nth i hex_conds {| p_name := ""; p_attr := 0; p_area := 0 |}). destruct i as [|[|[|i]]]; [| | |lia]; (split; [|reflexivity]); cbn; auto. }
      destruct I as (c & I & Ec). rewrite <- Ec in *. exact (Pr c w I B). }
    assert (E0 : a0 = v 1%Z) by (apply (Q 0%nat 0%Z); [lia|apply hex_at; cbn; lia]).
    assert (E1 : a1 = v 1%Z) by (apply (Q 0%nat 1%Z); [lia|apply hex_at; cbn; lia]).
    assert (E2 : a2 = v 2%Z) by (apply (Q 1%nat 2%Z); [lia|apply hex_at; cbn; lia]).
    assert (E3 : a3 = v 2%Z) by (apply (Q 1%nat 3%Z); [lia|apply hex_at; cbn; lia]).
    assert (E4 : a4 = v 3%Z) by (apply (Q 2%nat 4%Z); [lia|apply hex_at; cbn; lia]).
    assert (E5 : a5 = v 3%Z) by (apply (Q 2%nat 5%Z); [lia|apply hex_at; cbn; lia]).
    rewrite E0, E1, E2, E3, E4, E5 in Ep.
    symmetry. apply (d_of_e abc D OK dbg p x _ Hp Cx).
    pose proof (e_of_phi abc D OK dbg p x Hp Cx) as G. unfold is_minus_gradient in G. rewrite G, Ep.
    split; [reflexivity|]. intros t Lt. change (List.length t = 9%nat) in Lt. destruct (len9 t Lt) as (t1 & t2 & t3 & t4 & t5 & t6 & t7 & t8 & t9 & ->). rewrite Ee.
    clear. set (v1 := v 1%Z). set (v2 := v 2%Z). set (v3 := v 3%Z). clearbody v1 v2 v3. cbv -[Rplus Rmult Ropp Rinv Rminus Rdiv IZR]. field.
  Qed.
  Lemma hex_charge dbg v p x q1 q2 q3 : conductor_problem hex_mats false v p -> computes abc D dbg p x ->
    charge_on F x 1 q1 -> charge_on F x 2 q2 -> charge_on F x 3 q3 ->
    q1 = 2 * (v 1%Z - v 2%Z) /\ q2 = 3 / 4 * (v 2%Z - v 1%Z) /\ q3 = - (5 / 4) * v 1%Z + 53 / 180 * v 2%Z + 43 / 45 * v 3%Z.
  Proof.
    intros Cp Cx C1 C2 C3. pose proof (hex_fields dbg v p x Cp Cx) as E.
    rewrite (charge_on_fun abc D _ _ _ _ C1 (chargeF abc D x 1)), (charge_on_fun abc D _ _ _ _ C2 (chargeF abc D x 2)), (charge_on_fun abc D _ _ _ _ C3 (chargeF abc D x 3)), E.
    clear. set (v1 := v 1%Z). set (v2 := v 2%Z). set (v3 := v 3%Z). clearbody v1 v2 v3. cbv -[Rplus Rmult Ropp Rinv Rminus Rdiv IZR]. repeat split; field.
  Qed.
  Notation femlib := (galerkin abc (kite_disc distance)).
  Lemma hex_driver dbg : exists d, built dbg femlib hex_model kite_options d.
  Proof.
    destruct (mkDriver_ok dbg femlib hex_model kite_options hex_posed hex_conds) as (d & E & _).
    - apply hex_order.
    - discriminate.
    - exists d. eexists. exact E.
  Qed.
  Lemma hex_g dbg moment d : built dbg femlib hex_model kite_options d ->
    exists g w, reply dbg femlib moment (CallGeneralizedC false) d = (Ok (VMatrix g), w) /\ square 3 g /\ ent g 1 2 = 53 / 360.
  Proof.
    intros B. assert (Eo : determineOpenness dbg hex_model = Ok Closed) by (destruct dbg; reflexivity).
    destruct (generalized_matrix dbg femlib moment hex_model kite_options d [] hex_conds false Closed hex_posed B hex_order Eo) as (g & w & E & _); [discriminate|].
    exists g, w. split; [exact E|].
    destruct (gc_entries abc (kite_disc distance) dbg moment hex_model kite_options d [] hex_conds hex_posed B hex_order false g w E) as (Sq & G).
    split; [exact Sq|].
    destruct (units_exist abc D dbg hex_model hex_posed hex_regular false hex_conds) as (us & Fu).
    inversion Fu as [|p0 u0 l0 us0 U0 Fu0]; subst. inversion Fu0 as [|p1 u1 l1 us1 U1 Fu1]; subst. inversion Fu1 as [|p2 u2 l2 us2 U2 Fu2]; subst. inversion Fu2; subst.
    pose proof U1 as V1. pose proof U2 as V2. apply unit_fields in V1, V2. destruct V1 as (q1 & Cp1 & Cx1). destruct V2 as (q2 & Cp2 & Cx2).
    assert (Ch : forall u t, exists q, charge_on F u t q) by (intros u t; eexists; exact (chargeF abc D u t)).
    destruct (Ch u1 1%Z) as (a11 & C11). destruct (Ch u1 2%Z) as (a12 & C12). destruct (Ch u1 3%Z) as (a13 & C13).
    destruct (Ch u2 1%Z) as (a21 & C21). destruct (Ch u2 2%Z) as (a22 & C22). destruct (Ch u2 3%Z) as (a23 & C23).
    destruct (hex_charge dbg _ q1 u1 _ _ _ Cp1 Cx1 C11 C12 C13) as (_ & _ & A13).
    destruct (hex_charge dbg _ q2 u2 _ _ _ Cp2 Cx2 C21 C22 C23) as (_ & A22 & _).
    unfold unit_potential in A13, A22. cbn [hex_conds p_attr Z.eqb Pos.eqb n1 n0 RNum] in A13, A22.
    pose proof (G _ 1%nat 2%nat _ _ u1 u2 _ _ Fu eq_refl eq_refl eq_refl eq_refl C13 C22) as G12.
    rewrite G12, A13, A22. field.
  Qed.
End Hexagon.
