(** A triangle with an obtuse angle on top of a square between two conductors (C73), and the
    quadrilateral of Kite.v with both triangles divided (C75). *)
From Coq Require Import Reals Lra Permutation Relations.
From Verif Require Import Prelude StdMap Materials Graph ModelM Parser Matrix Solver Fem Domain Results Driver RSum ListLemmas
  SpecInput SpecModel SpecSolver SpecDriver SpecMatrix SpecCharge SpecField SpecFem SpecTriangles SpecEnergy Triangles TriProofs TriModel Toy Kite.
Open Scope R_scope.
Open Scope list_scope.

Definition spike_mesh : mesh R :=
  {| m_elems := [{| e_attr := 3; e_verts := [0; 1; 2]%Z; e_vol := 1 |}; {| e_attr := 3; e_verts := [3; 1; 0]%Z; e_vol := 1 |};
                 {| e_attr := 3; e_verts := [3; 4; 1]%Z; e_vol := 1 |}];
     m_bdr := [{| e_attr := 1; e_verts := [0; 3]%Z; e_vol := 1 |}; {| e_attr := 2; e_verts := [4; 1]%Z; e_vol := 1 |}];
     m_coord := fun v => if (v =? 0)%Z then (0, 0) else if (v =? 1)%Z then (1, 0) else if (v =? 2)%Z then (2, 1) else if (v =? 3)%Z then (0, -1) else (1, -1) |}.
Definition spike_model : model R := {| mo_mats := toy_mats Closed 1; mo_mesh := spike_mesh; mo_ground := 0 |}.
Lemma spike_vertex v : vertex spike_mesh v <-> (0 <= v <= 4)%Z.
Proof.
  split.
  - intros (e & [<-|[<-|[<-|[]]]] & J); cbn in J; lia.
  - intros L. assert (v <= 2 \/ (v = 3 \/ v = 4))%Z as [C | C] by lia.
    + eexists; split; [left; reflexivity|cbn; lia].
    + eexists; split; [do 2 right; left; reflexivity|cbn; lia].
Qed.
Lemma spike_triangulation : triangulation spike_mesh.
Proof.
  constructor.
  - cbn. intros e [<-|[<-|[<-|[]]]]; cbn; (split; [lia|]); do 3 eexists; (split; [reflexivity|]); repeat (split; [lia|]); cbn; lra.
  - intros v w Hw L. apply spike_vertex. apply spike_vertex in Hw. lia.
  - cbn. intros b [<-|[<-|[]]]; cbn; (split; [lia|]).
    + exists 0%Z, 3%Z. eexists. split; [reflexivity|]. split; [right; left; reflexivity|]. exists 3%Z, 1%Z, 0%Z. cbn. auto.
    + exists 4%Z, 1%Z. eexists. split; [reflexivity|]. split; [do 2 right; left; reflexivity|]. exists 3%Z, 4%Z, 1%Z. cbn. auto.
Qed.
Lemma spike_connected : connected spike_mesh.
Proof.
  assert (H : forall v, (0 <= v <= 4)%Z -> exists e, In e (m_elems spike_mesh) /\ In v (e_verts e) /\ In 1%Z (e_verts e)).
  { intros v L. assert (v <= 2 \/ (v = 3 \/ v = 4))%Z as [C | C] by lia.
    - eexists; split; [left; reflexivity|cbn; split; [lia|auto]].
    - eexists; split; [do 2 right; left; reflexivity|cbn; split; [lia|auto]]. }
  intros v w Hv Hw. apply spike_vertex in Hv, Hw. destruct (H v Hv) as (e & I & J & K). destruct (H w Hw) as (e' & I' & J' & K').
  apply (rt_trans _ _ v 1%Z w); apply rt_step; eauto.
Qed.
Lemma spike_at t v : at_boundary spike_mesh t v <-> (t = 1%Z /\ (v = 0 \/ v = 3)%Z) \/ (t = 2%Z /\ (v = 4 \/ v = 1)%Z).
Proof.
  unfold at_boundary. split.
  - intros (b & [<-|[<-|[]]] & <- & J); cbn in *; lia.
  - intros [(-> & J)|(-> & J)]; [eexists; split; [left; reflexivity|]|eexists; split; [right; left; reflexivity|]]; cbn; lia.
Qed.
Lemma spike_section abc : cross_section abc spike_model.
Proof.
  constructor.
  - split; [exact spike_triangulation|exact spike_connected].
  - apply toy_names.
  - split; [discriminate|]. split; [repeat constructor; cbn; intuition lia|]. cbn. intros c [<-|[<-|[]]]; cbn; [exists 4%Z|exists 0%Z]; apply spike_at; lia.
  - cbn. intros c c' v _ _ B B'. apply spike_at in B, B'. lia.
  - cbn. intros d [<-|[]]. cbn. split; [lra|]. eexists. split; [left; reflexivity|]. reflexivity.
  - intros o [].
Qed.
(** The energy of the potentials 0, 1, x, 0, 1 at the vertices *)
Lemma spike_energy x W : field_energy spike_mesh (fun _ => 1) [0; 1; x; 0; 1] W -> W = / 2 * ((1 + (x - 2) * (x - 2)) / 2 + / 2 + / 2).
Proof.
  intros (g & S & ->). unfold Rsum. cbn [m_elems spike_mesh fold_right].
  assert (S1 := S _ (or_introl eq_refl)). assert (S2 := S _ (or_intror (or_introl eq_refl))). assert (S3 := S _ (or_intror (or_intror (or_introl eq_refl)))).
  set (g1 := g _) in *. set (g2 := g {| e_attr := 3; e_verts := [3; 1; 0]%Z; e_vol := 1 |}) in *. set (g3 := g {| e_attr := 3; e_verts := [3; 4; 1]%Z; e_vol := 1 |}) in *.
  assert (A1 : 1 - 0 = fst g1 * (1 - 0) + snd g1 * (0 - 0)) by exact (S1 0%Z 1%Z ltac:(cbn; auto) ltac:(cbn; auto)).
  assert (B1 : x - 0 = fst g1 * (2 - 0) + snd g1 * (1 - 0)) by exact (S1 0%Z 2%Z ltac:(cbn; auto) ltac:(cbn; auto)).
  assert (A2 : 1 - 0 = fst g2 * (1 - 0) + snd g2 * (0 - 0)) by exact (S2 0%Z 1%Z ltac:(cbn; auto) ltac:(cbn; auto)).
  assert (B2 : 0 - 0 = fst g2 * (0 - 0) + snd g2 * (0 - -1)) by exact (S2 3%Z 0%Z ltac:(cbn; auto) ltac:(cbn; auto)).
  assert (A3 : 1 - 0 = fst g3 * (1 - 0) + snd g3 * (-1 - -1)) by exact (S3 3%Z 4%Z ltac:(cbn; auto) ltac:(cbn; auto)).
  assert (B3 : 1 - 1 = fst g3 * (1 - 1) + snd g3 * (0 - -1)) by exact (S3 4%Z 1%Z ltac:(cbn; auto) ltac:(cbn; auto)). clear S S1 S2 S3.
  assert (X1 : fst g1 = 1) by lra. assert (Y1 : snd g1 = x - 2) by lra. assert (X2 : fst g2 = 1) by lra. assert (Y2 : snd g2 = 0) by lra. assert (X3 : fst g3 = 1) by lra. assert (Y3 : snd g3 = 0) by lra.
  rewrite X1, Y1, X2, Y2, X3, Y3. unfold area. cbn. lra.
Qed.

(** ** The divided quadrilateral *)
Definition fine_mesh : mesh R :=
  {| m_elems := [{| e_attr := 3; e_verts := [0; 1; 4]%Z; e_vol := 1 |}; {| e_attr := 3; e_verts := [4; 1; 2]%Z; e_vol := 1 |};
                 {| e_attr := 3; e_verts := [0; 4; 3]%Z; e_vol := 1 |}; {| e_attr := 3; e_verts := [4; 2; 3]%Z; e_vol := 1 |}];
     m_bdr := [{| e_attr := 2; e_verts := [0; 1]%Z; e_vol := 1 |}; {| e_attr := 1; e_verts := [2; 3]%Z; e_vol := 1 |}];
     m_coord := fun v => if (v =? 4)%Z then (3 / 2, 1 / 2) else m_coord (kite_mesh (T:=R)) v |}.
Definition fine_model (er : R) : model R := {| mo_mats := toy_mats Closed er; mo_mesh := fine_mesh; mo_ground := 0 |}.
Definition kite_parts : list (element R * list (element R)) :=
  [({| e_attr := 3; e_verts := [0; 1; 2]%Z; e_vol := 1 |}, [{| e_attr := 3; e_verts := [0; 1; 4]%Z; e_vol := 1 |}; {| e_attr := 3; e_verts := [4; 1; 2]%Z; e_vol := 1 |}]);
   ({| e_attr := 3; e_verts := [0; 2; 3]%Z; e_vol := 1 |}, [{| e_attr := 3; e_verts := [0; 4; 3]%Z; e_vol := 1 |}; {| e_attr := 3; e_verts := [4; 2; 3]%Z; e_vol := 1 |}])].
Definition kite_shares (v : Z) : list (Z * R) := if (v =? 4)%Z then [(0%Z, 1 / 2); (2%Z, 1 / 2)] else [(v, 1)].
Lemma fine_vertex v : vertex fine_mesh v <-> (0 <= v <= 4)%Z.
Proof.
  split.
  - intros (e & [<-|[<-|[<-|[<-|[]]]]] & J); cbn in J; lia.
  - intros L. assert ((v = 0 \/ v = 1 \/ v = 4) \/ (v = 2 \/ v = 3))%Z as [C | C] by lia.
    + eexists; split; [left; reflexivity|cbn; lia].
    + eexists; split; [do 3 right; left; reflexivity|cbn; lia].
Qed.
Lemma fine_triangulation : triangulation fine_mesh.
Proof.
  constructor.
  - cbn. intros e [<-|[<-|[<-|[<-|[]]]]]; cbn; (split; [lia|]); do 3 eexists; (split; [reflexivity|]); repeat (split; [lia|]); unfold c6, c3, c2; cbn; lra.
  - intros v w Hw L. apply fine_vertex. apply fine_vertex in Hw. lia.
  - cbn. intros b [<-|[<-|[]]]; cbn; (split; [lia|]).
    + exists 0%Z, 1%Z. eexists. split; [reflexivity|]. split; [left; reflexivity|]. exists 0%Z, 1%Z, 4%Z. cbn. auto.
    + exists 2%Z, 3%Z. eexists. split; [reflexivity|]. split; [do 3 right; left; reflexivity|]. exists 4%Z, 2%Z, 3%Z. cbn. auto.
Qed.
Lemma fine_connected : connected fine_mesh.
Proof.
  assert (H : forall v, (0 <= v <= 4)%Z -> exists e, In e (m_elems fine_mesh) /\ In v (e_verts e) /\ In 4%Z (e_verts e)).
  { intros v L. assert ((v = 0 \/ v = 1 \/ v = 4) \/ (v = 2 \/ v = 3))%Z as [C | C] by lia.
    - eexists; split; [left; reflexivity|cbn; split; [lia|auto]].
    - eexists; split; [do 3 right; left; reflexivity|cbn; split; [lia|auto]]. }
  intros v w Hv Hw. apply fine_vertex in Hv, Hw. destruct (H v Hv) as (e & I & J & K). destruct (H w Hw) as (e' & I' & J' & K').
  apply (rt_trans _ _ v 4%Z w); apply rt_step; eauto.
Qed.
Lemma fine_at t v : at_boundary fine_mesh t v <-> (t = 2%Z /\ (v = 0 \/ v = 1)%Z) \/ (t = 1%Z /\ (v = 2 \/ v = 3)%Z).
Proof.
  unfold at_boundary. split.
  - intros (b & [<-|[<-|[]]] & <- & J); cbn in *; lia.
  - intros [(-> & J)|(-> & J)]; [eexists; split; [left; reflexivity|]|eexists; split; [right; left; reflexivity|]]; cbn; lia.
Qed.
Lemma fine_section abc er : 0 < er -> cross_section abc (fine_model er).
Proof.
  intros P. constructor.
  - split; [exact fine_triangulation|exact fine_connected].
  - apply toy_names.
  - split; [discriminate|]. split; [repeat constructor; cbn; intuition lia|]. cbn. intros c [<-|[<-|[]]]; cbn; [exists 0%Z|exists 2%Z]; apply fine_at; lia.
  - cbn. intros c c' v _ _ B B'. apply fine_at in B, B'. lia.
  - cbn. intros d [<-|[]]. cbn. split; [exact P|]. eexists. split; [left; reflexivity|]. reflexivity.
  - intros o [].
Qed.
Lemma fine_refines : refines kite_mesh fine_mesh [1; 2]%Z kite_parts kite_shares.
Proof.
  constructor.
  - split; apply Permutation_refl.
  - intros e l [E | [E | []]]; injection E as <- <-; unfold Rsum, area; cbn; unfold c6, c3, c2; cbn; lra.
  - intros e l e' [E | [E | []]] I; injection E as <- <-; (destruct I as [<- | [<- | []]]); (split; [reflexivity|]); intros v w Iv Iw; cbn [e_verts In] in Iv;
      (destruct Iv as [<- | [<- | [<- | []]]]); cbn in Iw |- *; tauto.
  - intros v V. apply fine_vertex in V. unfold kite_shares. destruct (Z.eqb_spec v 4) as [-> | N].
    + unfold Rsum. cbn. unfold c6, c3, c2. cbn. lra.
    + unfold Rsum, fine_mesh. cbn [m_coord fold_right fst snd]. rewrite (proj2 (Z.eqb_neq v 4) N). lra.
  - intros t v _ B w Iw. apply fine_at in B. apply kite_at. unfold kite_shares in Iw. destruct (Z.eqb_spec v 4) as [-> | N]; [lia|]. cbn in Iw. lia.
Qed.
