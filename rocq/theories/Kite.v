(** A quadrilateral of two triangles with conductors on two opposite sides: the concrete case beside
    the theorems about triangles, and the counterexample for Gauss's law. *)
From Coq Require Import QArith Reals Lra Permutation Relations.
From Verif Require Import Prelude StdMap Materials Graph ModelM Parser Matrix Solver Fem Domain Results Driver RSum ListLemmas
  SpecInput SpecModel SpecSolver SpecDriver SpecMatrix SpecCharge SpecField SpecFem SpecTriangles Triangles DriverProofs CallProofs DriverFacts FemProofs FemCalls FemFacts FemModel FemLaws FemDriver FemMatrix FemMore
  TriProofs TriModel Toy.
Open Scope list_scope.

Section Kite.
  Context {T : Type} `{Num T}.
  Open Scope num_scope.
  Definition c2 : T := n1 + n1. Definition c3 : T := c2 + n1. Definition c6 : T := c2 * c3.
  Definition kite_mesh : mesh T :=
    {| m_elems := [{| e_attr := 3; e_verts := [0; 1; 2]%Z; e_vol := n1 |}; {| e_attr := 3; e_verts := [0; 2; 3]%Z; e_vol := n1 |}];
       m_bdr := [{| e_attr := 2; e_verts := [0; 1]%Z; e_vol := n1 |}; {| e_attr := 1; e_verts := [2; 3]%Z; e_vol := n1 |}];
       m_coord := fun v => if (v =? 0)%Z then (n0, n0) else if (v =? 1)%Z then (n1, n0) else if (v =? 2)%Z then (c3, n1) else (c6 + n1, c2 + c2) |}.
  Definition kite_model (er : T) : model T := {| mo_mats := toy_mats Closed er; mo_mesh := kite_mesh; mo_ground := 0 |}.
  (** rules with one point on the segment, one and three on the triangle *)
  Definition segment_rule : list (T * T) := [(n1 / c2, n1)].
  Definition one_point_rule : list (T * T * T) := [((n1 / c3, n1 / c3), n1 / c2)].
  Definition three_point_rule : list (T * T * T) :=
    [((n1 / c6, n1 / c6), n1 / c6); ((c2 / c3, n1 / c6), n1 / c6); ((n1 / c6, c2 / c3), n1 / c6)].
  Definition kite_disc (len : T * T -> T * T -> T) : mesh T -> Z -> discretization T :=
    fun ms _ => first_order segment_rule one_point_rule three_point_rule len ms.
End Kite.

Open Scope R_scope.
Lemma kite_rules : rules_ok (segment_rule (T:=R)) one_point_rule three_point_rule.
Proof.
  constructor.
  - split; [|cbn; lra]. cbn. intros q [<-|[]]. cbn. lra.
  - split; [|cbn; lra]. cbn. intros q [<-|[]]. cbn. lra.
  - split; [|split; [cbn; lra|]].
    + cbn. intros q [<-|[<-|[<-|[]]]]; cbn; lra.
    + exists ((1 / (( 1 + 1) * (1 + 1 + 1)), 1 / ((1 + 1) * (1 + 1 + 1))), 1 / ((1 + 1) * (1 + 1 + 1))), (((1 + 1) / (1 + 1 + 1), 1 / ((1 + 1) * (1 + 1 + 1))), 1 / ((1 + 1) * (1 + 1 + 1))).
      split; [now left|]. split; [right; now left|]. cbn. intros E. assert (Q : 1 / ((1 + 1) * (1 + 1 + 1)) = (1 + 1) / (1 + 1 + 1)) by congruence. lra.
Qed.
Lemma kite_vertex v : vertex kite_mesh v <-> (0 <= v <= 3)%Z.
Proof.
  split.
  - intros (e & [<-|[<-|[]]] & J); cbn in J; lia.
  - intros L. assert (v = 3 \/ v <= 2)%Z as [-> | L'] by lia; [eexists; split; [right; left; reflexivity|cbn; auto]|].
    eexists; split; [left; reflexivity|]. cbn. lia.
Qed.
Lemma kite_triangulation : triangulation kite_mesh.
Proof.
  constructor.
  - cbn. intros e [<-|[<-|[]]]; cbn; (split; [lia|]); do 3 eexists; (split; [reflexivity|]); repeat (split; [lia|]); cbn; lra.
  - intros v w Hw L. apply kite_vertex. apply kite_vertex in Hw. lia.
  - cbn. intros b [<-|[<-|[]]]; cbn; (split; [lia|]).
    + exists 0%Z, 1%Z. eexists. split; [reflexivity|]. split; [left; reflexivity|]. exists 0%Z, 1%Z, 2%Z. cbn. auto.
    + exists 2%Z, 3%Z. eexists. split; [reflexivity|]. split; [right; left; reflexivity|]. exists 0%Z, 2%Z, 3%Z. cbn. auto.
Qed.
Lemma kite_connected : connected kite_mesh.
Proof.
  assert (H : forall v, (0 <= v <= 3)%Z -> exists e, In e (m_elems (kite_mesh (T:=R))) /\ In v (e_verts e) /\ In 0%Z (e_verts e)).
  { intros v L. assert (v = 3 \/ v <= 2)%Z as [-> | L'] by lia; [eexists; split; [right; left; reflexivity|cbn; auto]|].
    eexists; split; [left; reflexivity|]. cbn. split; [lia|auto]. }
  intros v w Hv Hw. apply kite_vertex in Hv, Hw. destruct (H v Hv) as (e & I & J & K). destruct (H w Hw) as (e' & I' & J' & K').
  apply (rt_trans _ _ v 0%Z w); apply rt_step; eauto.
Qed.
Section Model.
  Variable abc : R * R -> R.
  Variable er : R.
  Hypothesis Per : 0 < er.
  Notation m := (kite_model er).
  Lemma kite_at t v : at_boundary kite_mesh t v <-> (t = 2%Z /\ (v = 0 \/ v = 1)%Z) \/ (t = 1%Z /\ (v = 2 \/ v = 3)%Z).
  Proof.
    unfold at_boundary. split.
    - intros (b & [<-|[<-|[]]] & <- & J); cbn in *; lia.
    - intros [(-> & J)|(-> & J)]; [eexists; split; [left; reflexivity|]|eexists; split; [right; left; reflexivity|]]; cbn; lia.
  Qed.
  Lemma kite_section : cross_section abc m.
  Proof.
    constructor.
    - split; [exact kite_triangulation|exact kite_connected].
    - apply toy_names.
    - split; [discriminate|]. split; [repeat constructor; cbn; intuition lia|]. cbn. intros c [<-|[<-|[]]]; cbn; [exists 0%Z|exists 2%Z]; apply kite_at; lia.
    - cbn. intros c c' v _ _ B B'. apply kite_at in B, B'. lia.
    - cbn. intros d [<-|[]]. cbn. split; [exact Per|]. eexists. split; [left; reflexivity|]. reflexivity.
    - intros o [].
  Qed.

  Notation D := (kite_disc distance kite_mesh 1).
  Notation F := (discretize abc D).
  Notation mats := (toy_mats Closed er).
  Lemma kite_posed : well_posed F m. Proof. exact (cross_section_posed _ _ _ kite_rules abc m kite_section). Qed.
  Lemma kite_regular : regular_model abc D m. Proof. exact (cross_section_regular _ _ _ kite_rules abc m kite_section). Qed.
  Lemma len4 (z : list R) : List.length z = 4%nat -> exists a b c d, z = [a; b; c; d].
  Proof. destruct z as [|a [|b [|c [|d [|e z]]]]]; try discriminate. eauto. Qed.
  Lemma len5 (z : list R) : List.length z = 5%nat -> exists a b c d e, z = [a; b; c; d; e].
  Proof. destruct z as [|a [|b [|c [|d [|e [|f z]]]]]]; try discriminate. eauto 6. Qed.
  Lemma kite_fields dbg ignore v p x : conductor_problem mats ignore v p -> computes abc D dbg p x ->
    let e := if ignore then 1 else er in
    so_phi x = [v 2%Z; v 2%Z; v 1%Z; v 1%Z] /\ so_d x = map (fun a => e * (v 1%Z - v 2%Z) / 83 * a) [-27; -104; -161; -287; -472].
  Proof.
    intros Cp Cx e. pose proof kite_regular as Rm. pose proof (rm_tables _ _ _ Rm) as OK.
    destruct (model_problem abc D m kite_posed Rm ignore v p Cp) as (Hp & An).
    assert (Ee : si_eps p = [(3%Z, e)]).
    { apply msorted_in_ext; [apply Cp|repeat constructor|]. intros k z. rewrite (cp_eps _ _ _ _ Cp). unfold permittivity. cbn. split.
      - intros ([|? [|? l1]] & q & l2 & El & <- & _ & ->); cbn in El; try discriminate. injection El as <- _. auto.
      - intros [[= <- <-]|[]]. exists [], {| d_name := "Vacuum_0"; d_attr := 3; d_epsr := er |}, []. cbn. auto. }
    destruct (minimal abc D OK dbg p x Hp An Cx) as (_ & _ & L & Pr & _).
    apply (prescribed_model abc D m ignore v p _ Cp L) in Pr. apply (held_iff _ _ _ abc m kite_section) in Pr as [_ Pr].
    change (List.length (so_phi x) = 4%nat) in L. destruct (len4 _ L) as (a0 & a1 & a2 & a3 & Ep). rewrite Ep in Pr.
    assert (E0 : a0 = v 2%Z) by (apply (Pr {| p_name := "Conductor_1"; p_attr := 2; p_area := 1 |} 0%Z); [cbn; auto|apply kite_at; cbn; lia]).
    assert (E1 : a1 = v 2%Z) by (apply (Pr {| p_name := "Conductor_1"; p_attr := 2; p_area := 1 |} 1%Z); [cbn; auto|apply kite_at; cbn; lia]).
    assert (E2 : a2 = v 1%Z) by (apply (Pr {| p_name := "Conductor_0"; p_attr := 1; p_area := 1 |} 2%Z); [cbn; auto|apply kite_at; cbn; lia]).
    assert (E3 : a3 = v 1%Z) by (apply (Pr {| p_name := "Conductor_0"; p_attr := 1; p_area := 1 |} 3%Z); [cbn; auto|apply kite_at; cbn; lia]).
    rewrite E0, E1, E2, E3 in Ep. split; [exact Ep|].
    symmetry. apply (d_of_e abc D OK dbg p x _ Hp Cx).
    pose proof (e_of_phi abc D OK dbg p x Hp Cx) as G. unfold is_minus_gradient in G. rewrite G, Ep.
    split; [reflexivity|]. intros t Lt. change (List.length t = 5%nat) in Lt. destruct (len5 t Lt) as (t1 & t2 & t3 & t4 & t5 & ->). rewrite Ee.
    clearbody e. clear. set (v1 := v 1%Z). set (v2 := v 2%Z). clearbody v1 v2. cbv -[Rplus Rmult Ropp Rinv Rminus Rdiv IZR]. field.
  Qed.

  (** Charges of the field with potentials v: 287/83 and 27/83 times v1 - v2, which is not even
      balanced. *)
  Lemma kite_charge dbg ignore v p x q1 q2 : conductor_problem mats ignore v p -> computes abc D dbg p x ->
    charge_on F x 1 q1 -> charge_on F x 2 q2 ->
    let e := if ignore then 1 else er in q1 = 287 / 83 * e * (v 1%Z - v 2%Z) /\ q2 = 27 / 83 * e * (v 1%Z - v 2%Z).
  Proof.
    intros Cp Cx C1 C2 e. destruct (kite_fields dbg ignore v p x Cp Cx) as (_ & E). fold e in E.
    rewrite (charge_on_fun abc D _ _ _ _ C1 (chargeF abc D x 1)), (charge_on_fun abc D _ _ _ _ C2 (chargeF abc D x 2)), E.
    clearbody e. clear. set (v1 := v 1%Z). set (v2 := v 2%Z). clearbody v1 v2. cbv -[Rplus Rmult Ropp Rinv Rminus Rdiv IZR]. split; field.
  Qed.
  Definition kite_options : driver_options :=
    {| o_order := 1; o_printIterations := false; o_exportParaView := false; o_exportVisIt := false; o_exportFolder := ""; o_multipolarExpansionOrder := 1 |}.
  Notation femlib := (galerkin abc (kite_disc distance)).
  Lemma kite_driver dbg : exists d, built dbg femlib m kite_options d.
  Proof.
    destruct (mkDriver_ok dbg femlib m kite_options kite_posed toy_conds) as (d & E & _).
    - apply toy_order.
    - discriminate.
    - exists d. eexists. exact E.
  Qed.
  Lemma kite_g dbg moment ignore d : built dbg femlib m kite_options d ->
    exists g w, reply dbg femlib moment (CallGeneralizedC ignore) d = (Ok (VMatrix g), w) /\ square 2 g /\
      let e := if ignore then 1 else er in
      ent g 0 0 = 287 / 83 * e /\ ent g 0 1 = - (130 / 83) * e /\ ent g 1 0 = - (130 / 83) * e /\ ent g 1 1 = - (27 / 83) * e.
  Proof.
    intros B. assert (Eo : determineOpenness dbg m = Ok Closed) by (destruct dbg; reflexivity).
    destruct (generalized_matrix dbg femlib moment m kite_options d [] toy_conds ignore Closed kite_posed B (toy_order Closed er) Eo) as (g & w & E & _); [discriminate|].
    exists g, w. split; [exact E|].
    destruct (gc_entries abc (kite_disc distance) dbg moment m kite_options d [] toy_conds kite_posed B (toy_order Closed er) ignore g w E) as (Sq & G).
    split; [exact Sq|]. intros e.
    destruct (units_exist abc D dbg m kite_posed kite_regular ignore toy_conds) as (us & Fu).
    inversion Fu as [|p0 u0 l0 us0 U0 Fu0]; subst. inversion Fu0 as [|p1 u1 l1 us1 U1 Fu1]; subst. inversion Fu1; subst.
    pose proof U0 as V0. pose proof U1 as V1. apply unit_fields in V0, V1. destruct V0 as (q0 & Cp0 & Cx0). destruct V1 as (q1 & Cp1 & Cx1).
    assert (Ch : forall u t, exists q, charge_on F u t q) by (intros u t; eexists; exact (chargeF abc D u t)).
    destruct (Ch u0 1%Z) as (a00 & C00). destruct (Ch u0 2%Z) as (a01 & C01). destruct (Ch u1 1%Z) as (a10 & C10). destruct (Ch u1 2%Z) as (a11 & C11).
    destruct (kite_charge dbg ignore _ q0 u0 _ _ Cp0 Cx0 C00 C01) as (A00 & A01).
    destruct (kite_charge dbg ignore _ q1 u1 _ _ Cp1 Cx1 C10 C11) as (A10 & A11).
    fold e in A00, A01, A10, A11. unfold unit_potential in A00, A01, A10, A11. cbn [toy_conds p_attr Z.eqb Pos.eqb n1 n0 RNum] in A00, A01, A10, A11.
    pose proof (G _ 0%nat 0%nat _ _ u0 u0 _ _ Fu eq_refl eq_refl eq_refl eq_refl C00 C00) as G00.
    pose proof (G _ 0%nat 1%nat _ _ u0 u1 _ _ Fu eq_refl eq_refl eq_refl eq_refl C01 C10) as G01.
    pose proof (G _ 1%nat 0%nat _ _ u1 u0 _ _ Fu eq_refl eq_refl eq_refl eq_refl C10 C01) as G10.
    pose proof (G _ 1%nat 1%nat _ _ u1 u1 _ _ Fu eq_refl eq_refl eq_refl eq_refl C11 C11) as G11.
    rewrite G00, G01, G10, G11, A00, A01, A10, A11. repeat split; field.
  Qed.
End Model.
