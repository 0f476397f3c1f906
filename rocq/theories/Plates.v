(** Two plates with two layers of dielectric between them, four triangles: the concrete case beside
    C72. *)
From Coq Require Import Reals Lra Permutation Relations.
From Verif Require Import Prelude StdMap Materials Graph ModelM Parser Matrix Solver Fem Domain Results Driver RSum ListLemmas
  SpecInput SpecModel SpecSolver SpecDriver SpecMatrix SpecCharge SpecField SpecFem SpecTriangles SpecFlux SpecExact Triangles DriverProofs TriProofs TriModel Toy Kite.
Open Scope R_scope.
Open Scope list_scope.

Definition plates_mesh : mesh R :=
  {| m_elems := [{| e_attr := 4; e_verts := [0; 1; 3]%Z; e_vol := 1 |}; {| e_attr := 4; e_verts := [0; 3; 2]%Z; e_vol := 1 |};
                 {| e_attr := 3; e_verts := [2; 3; 5]%Z; e_vol := 2 |}; {| e_attr := 3; e_verts := [2; 5; 4]%Z; e_vol := 2 |}];
     m_bdr := [{| e_attr := 1; e_verts := [0; 1]%Z; e_vol := 2 |}; {| e_attr := 2; e_verts := [5; 4]%Z; e_vol := 2 |}];
     m_coord := fun v => if (v =? 0)%Z then (0, 0) else if (v =? 1)%Z then (2, 0) else if (v =? 2)%Z then (0, 1) else if (v =? 3)%Z then (2, 1)
                         else if (v =? 4)%Z then (0, 3) else (2, 3) |}.
(** the layer from 0 to 1 has the permittivity 2, the one from 1 to 3 is vacuum *)
Definition plates_mats : materials R :=
  {| pecs := toy_conds; openBoundaries := [];
     dielectrics := [{| d_name := "Dielectric_1"; d_attr := 4; d_epsr := 2 |}; {| d_name := "Vacuum_0"; d_attr := 3; d_epsr := 1 |}] |}.
Definition plates_model : model R := {| mo_mats := plates_mats; mo_mesh := plates_mesh; mo_ground := 0 |}.
Definition plates_outer : list (Z * Z) := [(0, 1); (1, 3); (3, 5); (5, 4); (4, 2); (2, 0)]%Z.
Definition plates_eps (t : Z) : R := if (t =? 4)%Z then 2 else 1.
Definition plates_h (y : R) : R := if Rle_dec y 1 then y / 2 else y - / 2.

Lemma plates_vertex v : vertex plates_mesh v <-> (0 <= v <= 5)%Z.
Proof.
  split.
  - intros (e & [<-|[<-|[<-|[<-|[]]]]] & J); cbn in J; lia.
  - intros L. assert (v = 0 \/ v = 1 \/ v = 3 \/ (v = 2 \/ v = 4) \/ v = 5)%Z as C by lia.
    destruct C as [C | [C | [C | [C | C]]]].
    1-3: eexists; split; [left; reflexivity|cbn; lia].
    + eexists; split; [do 3 right; left; reflexivity|cbn; lia].
    + eexists; split; [do 3 right; left; reflexivity|cbn; lia].
Qed.
Lemma plates_triangulation : triangulation plates_mesh.
Proof.
  constructor.
  - cbn. intros e [<-|[<-|[<-|[<-|[]]]]]; cbn; (split; [lia|]); do 3 eexists; (split; [reflexivity|]); repeat (split; [lia|]); cbn; lra.
  - intros v w Hw L. apply plates_vertex. apply plates_vertex in Hw. lia.
  - cbn. intros b [<-|[<-|[]]]; cbn; (split; [lia|]).
    + exists 0%Z, 1%Z. eexists. split; [reflexivity|]. split; [left; reflexivity|]. exists 0%Z, 1%Z, 3%Z. cbn. auto.
    + exists 5%Z, 4%Z. eexists. split; [reflexivity|]. split; [do 3 right; left; reflexivity|]. exists 2%Z, 5%Z, 4%Z. cbn. auto.
Qed.
Lemma plates_connected : connected plates_mesh.
Proof.
  set (R := fun v w => exists e, In e (m_elems plates_mesh) /\ In v (e_verts e) /\ In w (e_verts e)).
  assert (A : forall v, (v = 0 \/ v = 1 \/ v = 3)%Z -> R v 3%Z /\ R 3%Z v).
  { intros v C. split; (eexists; split; [left; reflexivity|cbn; split; lia]). }
  assert (B : forall v, (v = 2 \/ v = 5)%Z -> R v 3%Z /\ R 3%Z v).
  { intros v C. split; (eexists; split; [do 2 right; left; reflexivity|cbn; split; lia]). }
  assert (C : R 4%Z 2%Z /\ R 2%Z 4%Z) by (split; (eexists; split; [do 3 right; left; reflexivity|cbn; split; lia])).
  assert (H : forall v, (0 <= v <= 5)%Z -> clos_refl_trans Z R v 3%Z /\ clos_refl_trans Z R 3%Z v).
  { intros v L. assert ((v = 0 \/ v = 1 \/ v = 3) \/ (v = 2 \/ v = 5) \/ v = 4)%Z as [K | [K | ->]] by lia.
    - destruct (A v K); split; now apply rt_step.
    - destruct (B v K); split; now apply rt_step.
    - destruct C as (C1 & C2). destruct (B 2%Z (or_introl eq_refl)) as (B1 & B2). split.
      + apply (rt_trans _ _ _ 2%Z); now apply rt_step.
      + apply (rt_trans _ _ _ 2%Z); now apply rt_step. }
  intros v w Hv Hw. apply plates_vertex in Hv, Hw. apply (rt_trans _ _ v 3%Z w); [apply (H v Hv)|apply (H w Hw)].
Qed.
Lemma plates_at t v : at_boundary plates_mesh t v <-> (t = 1%Z /\ (v = 0 \/ v = 1)%Z) \/ (t = 2%Z /\ (v = 5 \/ v = 4)%Z).
Proof.
  unfold at_boundary. split.
  - intros (b & [<-|[<-|[]]] & <- & J); cbn in *; lia.
  - intros [(-> & J)|(-> & J)]; [eexists; split; [left; reflexivity|]|eexists; split; [right; left; reflexivity|]]; cbn; lia.
Qed.
Lemma plates_section abc : cross_section abc plates_model.
Proof.
  constructor.
  - split; [exact plates_triangulation|exact plates_connected].
  - unfold all_names; cbn; repeat constructor; cbn; intuition discriminate.
  - split; [discriminate|]. split; [repeat constructor; cbn; intuition lia|]. cbn. intros c [<-|[<-|[]]]; cbn; [exists 0%Z|exists 4%Z]; apply plates_at; lia.
  - cbn. intros c c' v _ _ B B'. apply plates_at in B, B'. lia.
  - cbn. intros d [<-|[<-|[]]]; cbn; (split; [lra|]).
    + eexists. split; [left; reflexivity|]. reflexivity.
    + eexists. split; [do 2 right; left; reflexivity|]. reflexivity.
  - intros o [].
Qed.
Lemma plates_order : in_order plates_mats toy_conds.
Proof.
  split; [reflexivity|].
  intros [|[|i]] p E; cbn in E; try (injection E as <-; reflexivity). destruct i; discriminate.
Qed.
Lemma plates_driver abc dbg : exists d, triangle_driver segment_rule one_point_rule three_point_rule abc dbg plates_model kite_options d toy_conds.
Proof.
  destruct (mkDriver_ok dbg (galerkin abc (linear_elements segment_rule one_point_rule three_point_rule)) plates_model kite_options
    (cross_section_posed _ _ _ kite_rules abc plates_model (plates_section abc)) toy_conds plates_order) as (d & E & _); [discriminate|].
  exists d. constructor; [exact kite_rules|exact (plates_section abc)|reflexivity|eexists; exact E|exact plates_order].
Qed.
Lemma plates_permittivity : relative_permittivity plates_mats false plates_eps.
Proof.
  split.
  - intros t er (l1 & q & l2 & El & <- & _ & ->). destruct l1 as [|? [|? [|? l1]]]; cbn in El; try discriminate; injection El; intros; subst; reflexivity.
  - intros t N. unfold plates_eps. destruct (Z.eqb_spec t 4); [|reflexivity]. subst. cbn in N. tauto.
Qed.
Lemma plates_layers : plates plates_model plates_eps {| p_name := "Conductor_0"; p_attr := 1; p_area := 1 |}
  {| p_name := "Conductor_1"; p_attr := 2; p_area := 1 |} 0 3 plates_h plates_outer.
Proof.
  assert (h0 : plates_h 0 = 0) by (unfold plates_h; destruct (Rle_dec 0 1); lra).
  assert (h1 : plates_h 1 = / 2) by (unfold plates_h; destruct (Rle_dec 1 1); lra).
  assert (h3 : plates_h 3 = 5 / 2) by (unfold plates_h; destruct (Rle_dec 3 1); lra).
  constructor.
  - exists [(3, 0); (2, 3); (5, 2)]%Z. cbn.
    apply NoDup_Permutation; [repeat constructor; cbn; intuition congruence|repeat constructor; cbn; intuition congruence|]. intros z. cbn. tauto.
  - intros c. cbn. intuition congruence.
  - split; intros v B; apply plates_at in B; destruct B as [(E & [-> | ->]) | (E & [-> | ->])]; try reflexivity; cbn in E; lia.
  - cbn. intros s [<-|[<-|[<-|[<-|[<-|[<-|[]]]]]]]; try (right; reflexivity); left.
    + split; eexists; (split; [left; reflexivity|]); apply plates_at; cbn; lia.
    + split; eexists; (split; [right; left; reflexivity|]); apply plates_at; cbn; lia.
  - split; [exact h0|]. split; [lra|]. cbn [plates_model mo_mesh plates_mesh m_elems]. intros e v w [<-|[<-|[<-|[<-|[]]]]] Iv Iw; cbn [e_verts In] in Iv, Iw;
      destruct Iv as [<- | [<- | [<- | []]]]; destruct Iw as [<- | [<- | [<- | []]]]; cbn; rewrite ?h0, ?h1, ?h3; unfold plates_eps; cbn; lra.
Qed.
