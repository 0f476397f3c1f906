(** Rational meshes with elements of any order: the tables over Q, read as real numbers, are those over R. *)
From Coq Require Import QArith Qreals Reals Lra Lia.
From Verif Require Import Prelude StdMap ModelM Matrix Solver Fem Triangles Elements RefElements RSum Boole Transfer.
Open Scope R_scope.
Open Scope list_scope.

Definition rule_R (pw : Q * Q * Q) : R * R * R := (pt (fst pw), Q2R (snd pw)).
Record same_reference (ref : reference Q) (ref' : reference R) : Prop := {
  sr_rules : re_rule1 ref' = map pt (re_rule1 ref) /\ re_rule0 ref' = map rule_R (re_rule0 ref) /\ re_rule2 ref' = map rule_R (re_rule2 ref);
  sr_counts : re_side ref' = re_side ref /\ re_inner ref' = re_inner ref /\ re_side_nd ref' = re_side_nd ref /\ re_inner_nd ref' = re_inner_nd ref;
  sr_h1 : forall p, re_h1x ref' (pt p) = map Q2R (re_h1x ref p) /\ re_h1y ref' (pt p) = map Q2R (re_h1y ref p);
  sr_nd : forall p, re_ndx ref' (pt p) = map Q2R (re_ndx ref p) /\ re_ndy ref' (pt p) = map Q2R (re_ndy ref p);
  sr_seg : forall s, re_seg ref' (Q2R s) = map Q2R (re_seg ref s) /\ re_flux ref' (Q2R s) = map Q2R (re_flux ref s);
  sr_grad : re_side_grad ref' = map (map Q2R) (re_side_grad ref) /\ re_inner_grad ref' = map (map Q2R) (re_inner_grad ref) }.

Section Tables.
  Variable ref : reference Q.
  Variable ref' : reference R.
  Hypothesis Sr : same_reference ref ref'.
  Variable len : Q * Q -> Q * Q -> Q.
  Variable len' : R * R -> R * R -> R.
  Variable ms : mesh Q.
  Notation ms' := (mesh_R ms).
  Notation D := (elements ref len ms).
  Notation D' := (elements ref' len' ms').
  Definition num_R (x : nat * element Q) : nat * element R := (fst x, element_R (snd x)).

  Lemma nelems_R : nelems ms' = nelems ms. Proof. unfold nelems. cbn [m_elems mesh_R]. apply map_length. Qed.
  Lemma nedges_R : nedges ms' = nedges ms. Proof. unfold nedges. now rewrite edges_R. Qed.
  Lemma numbered_R : numbered ms' = map num_R (numbered ms).
  Proof.
    unfold numbered. rewrite nelems_R. cbn [m_elems mesh_R]. generalize (seq 0 (nelems ms)). intros l. generalize (m_elems ms). revert l.
    induction l as [|i l IH]; intros [|e es]; cbn [combine map]; try reflexivity. now rewrite IH.
  Qed.
  Lemma n_h1_R : n_h1 ref' ms' = n_h1 ref ms.
  Proof. destruct (sr_counts _ _ Sr) as (S1 & S2 & _). unfold n_h1. now rewrite nverts_R, nedges_R, nelems_R, S1, S2. Qed.
  Lemma n_nd_R : n_nd ref' ms' = n_nd ref ms.
  Proof. destruct (sr_counts _ _ Sr) as (_ & _ & S3 & S4). unfold n_nd. now rewrite nedges_R, nelems_R, S3, S4. Qed.
  Lemma edge_dof_R s : edge_dof ms' s = edge_dof ms s. Proof. unfold edge_dof. now rewrite edges_R. Qed.
  Lemma side_nodes_R s : side_nodes ref' ms' s = side_nodes ref ms s.
  Proof. destruct (sr_counts _ _ Sr) as (S1 & _). unfold side_nodes. now rewrite nverts_R, edge_dof_R, S1. Qed.
  Lemma side_fields_R s : side_fields ref' ms' s = side_fields ref ms s.
  Proof. destruct (sr_counts _ _ Sr) as (_ & _ & S3 & _). unfold side_fields. now rewrite edge_dof_R, S3. Qed.
  Lemma h1_dofs_R x : h1_dofs ref' ms' (num_R x) = h1_dofs ref ms x.
  Proof.
    destruct (sr_counts _ _ Sr) as (S1 & S2 & _). unfold h1_dofs, inner_nodes. cbn [num_R fst snd]. change (verts (element_R (snd x))) with (verts (snd x)).
    change (sides (element_R (snd x))) with (sides (snd x)). rewrite (flat_map_ext _ _ side_nodes_R), nverts_R, nedges_R, S1, S2. reflexivity.
  Qed.
  Lemma nd_dofs_R x : nd_dofs ref' ms' (num_R x) = nd_dofs ref ms x.
  Proof.
    destruct (sr_counts _ _ Sr) as (_ & _ & S3 & S4). unfold nd_dofs, inner_fields. cbn [num_R fst snd].
    change (sides (element_R (snd x))) with (sides (snd x)). rewrite (flat_map_ext _ _ side_fields_R), nedges_R, S3, S4. reflexivity.
  Qed.
  Lemma map_repeat_R (x : Q) n : map Q2R (repeat x n) = repeat (Q2R x) n.
  Proof. induction n as [|n IH]; [reflexivity|]. cbn [repeat map]. now rewrite IH. Qed.
  Lemma nd_signs_R e : nd_signs ref' (element_R e) = map Q2R (nd_signs ref e).
  Proof.
    destruct (sr_counts _ _ Sr) as (_ & _ & S3 & S4). unfold nd_signs. change (sides (element_R e)) with (sides e).
    rewrite map_app, map_repeat_R, S3, S4. cbn [n1 QNum]. rewrite one_R. f_equal. induction (sides e) as [|s l IH]; [reflexivity|].
    cbn [flat_map]. rewrite map_app, map_repeat_R, sign_R, IH. reflexivity.
  Qed.
  Lemma map2_R (f : Q -> Q -> Q) (f' : R -> R -> R) l l' : (forall u v, Q2R (f u v) = f' (Q2R u) (Q2R v)) -> map Q2R (map2 f l l') = map2 f' (map Q2R l) (map Q2R l').
  Proof.
    intros E. unfold map2. revert l'. induction l as [|u l IH]; intros [|v l']; cbn [combine map]; try reflexivity. rewrite IH. cbn [fst snd]. now rewrite E.
  Qed.
  Lemma to_R e l l' : map Q2R (to_x ms e l l') = to_x ms' (element_R e) (map Q2R l) (map Q2R l') /\ map Q2R (to_y ms e l l') = to_y ms' (element_R e) (map Q2R l) (map Q2R l').
  Proof.
    unfold to_x, to_y. rewrite (pos_map ms e). destruct (map (pos ms) (verts e)) as [|a [|b [|c [|? ?]]]]; cbn [map]; split; try reflexivity;
      apply map2_R; intros u v; rewrite div_R, sub_R, !mul_R, !sub_R, det_R; reflexivity.
  Qed.
  Lemma h1_R x p : map Q2R (h1_x ref ms x p) = h1_x ref' ms' (num_R x) (pt p) /\ map Q2R (h1_y ref ms x p) = h1_y ref' ms' (num_R x) (pt p).
  Proof.
    destruct (sr_h1 _ _ Sr p) as (H1 & H2). unfold h1_x, h1_y. rewrite !spread_R, h1_dofs_R, n_h1_R, H1, H2. cbn [num_R snd].
    destruct (to_R (snd x) (re_h1x ref p) (re_h1y ref p)) as (-> & ->). auto.
  Qed.
  Lemma ned_R x p : map Q2R (ned_x ref ms x p) = ned_x ref' ms' (num_R x) (pt p) /\ map Q2R (ned_y ref ms x p) = ned_y ref' ms' (num_R x) (pt p).
  Proof.
    destruct (sr_nd _ _ Sr p) as (H1 & H2). unfold ned_x, ned_y. rewrite !spread_R, nd_dofs_R, n_nd_R, H1, H2. cbn [num_R snd].
    rewrite !(map2_R nmul nmul) by (intros; apply mul_R). rewrite nd_signs_R.
    destruct (to_R (snd x) (re_ndx ref p) (re_ndy ref p)) as (-> & ->). auto.
  Qed.
  Lemma rav_R x p : map Q2R (rav_x ref ms x p) = rav_x ref' ms' (num_R x) (pt p) /\ map Q2R (rav_y ref ms x p) = rav_y ref' ms' (num_R x) (pt p).
  Proof.
    destruct (ned_R x p) as (N1 & N2). unfold rav_x, rav_y. split; [exact N2|]. rewrite <- N1, !map_map. apply map_ext. intros y. apply opp_R.
  Qed.
  Lemma el_grad_table : di_grad D' = map grad_R (di_grad D).
  Proof.
    cbn [di_grad elements]. rewrite numbered_R. apply flat_map_R. intros x _. unfold el_grad_points. rewrite (proj1 (proj2 (sr_rules _ _ Sr))), !map_map. apply map_ext. intros pw. unfold grad_R, rule_R.
    cbn [g_attr g_weight g_x g_y fst snd]. destruct (h1_R x (fst pw)) as (-> & ->). rewrite mul_R, jacobian_R. reflexivity.
  Qed.
  Lemma el_rt_table : di_rt D' = map rt_R (di_rt D).
  Proof.
    cbn [di_rt elements]. rewrite numbered_R. apply flat_map_R. intros x _. unfold el_rt_points. rewrite (proj2 (proj2 (sr_rules _ _ Sr))), !map_map. apply map_ext. intros pw. unfold rt_R, rule_R.
    cbn [r_weight r_x r_y fst snd]. destruct (rav_R x (fst pw)) as (-> & ->). rewrite mul_R, jacobian_R. reflexivity.
  Qed.
  Lemma el_mix_table : di_mix D' = map mix_R (di_mix D).
  Proof.
    cbn [di_mix elements]. rewrite numbered_R. apply flat_map_R. intros x _. unfold el_mix_points. rewrite (proj2 (proj2 (sr_rules _ _ Sr))), !map_map. apply map_ext. intros pw. unfold mix_R, rule_R.
    cbn [x_attr x_weight x_ndx x_ndy x_rtx x_rty fst snd]. destruct (rav_R x (fst pw)) as (-> & ->). destruct (ned_R x (fst pw)) as (-> & ->). rewrite mul_R, jacobian_R. reflexivity.
  Qed.
  Lemma el_flux_table : di_flux D' = map flux_R (di_flux D).
  Proof.
    cbn [di_flux elements]. apply flat_map_R. intros b _. unfold el_flux_points. rewrite (proj1 (sr_rules _ _ Sr)), !map_map. apply map_ext. intros sw. unfold flux_R.
    cbn [q_attr q_pos q_w fst snd pt]. rewrite along_R, spread_R, n_nd_R, side_fields_R, (proj2 (sr_seg _ _ Sr (fst sw))), !map_map.
    change (ends (element_R b)) with (ends b). f_equal. f_equal. apply map_ext. intros u. rewrite !mul_R, sign_R. reflexivity.
  Qed.
  Lemma el_gradient_table : di_gradient D' = map (map Q2R) (di_gradient D).
  Proof.
    cbn [di_gradient elements]. rewrite map_app, edges_R, numbered_R. f_equal.
    - transitivity (flat_map (side_rows ref' ms') (map (fun s : nat * nat => s) (edges ms))); [now rewrite map_id|]. apply flat_map_R. intros s _. unfold side_rows.
      rewrite (proj1 (sr_grad _ _ Sr)), !map_map. apply map_ext. intros r. rewrite spread_R, n_h1_R, side_nodes_R. reflexivity.
    - apply flat_map_R. intros x _. unfold inner_rows. rewrite (proj2 (sr_grad _ _ Sr)), !map_map. apply map_ext. intros r. rewrite spread_R, n_h1_R, h1_dofs_R. reflexivity.
  Qed.
  Lemma el_size_table : di_nH1 D' = di_nH1 D /\ di_nRT D' = di_nRT D.
  Proof. cbn [di_nH1 di_nRT elements]. split; [apply n_h1_R|apply n_nd_R]. Qed.
  Lemma el_surf_table : (forall b, In b (m_bdr ms) -> len' (pt (pos ms (fst (ends b)))) (pt (pos ms (snd (ends b)))) = Q2R (bdr_len len ms b)) ->
    di_abc D' = map surf_R (di_abc D).
  Proof.
    intros El. cbn [di_abc elements]. apply flat_map_R. intros b I. unfold el_surf_points. rewrite (proj1 (sr_rules _ _ Sr)), !map_map. apply map_ext. intros sw. unfold surf_R.
    cbn [b_attr b_pos b_weight b_shape fst snd pt]. rewrite mul_R, along_R, spread_R, n_h1_R, (proj1 (sr_seg _ _ Sr (fst sw))). unfold bdr_dofs.
    change (verts (element_R b)) with (verts b). change (ends (element_R b)) with (ends b). rewrite side_nodes_R.
    unfold bdr_len. rewrite !pos_R. pose proof (El b I) as E. unfold bdr_len in E. rewrite <- E. reflexivity.
  Qed.
  Lemma el_bdr_dofs_table : di_bdrDofs D' = di_bdrDofs D.
  Proof.
    cbn [di_bdrDofs elements m_bdr mesh_R]. rewrite map_map. apply map_ext. intros b. unfold bdr_dofs. change (verts (element_R b)) with (verts b).
    change (ends (element_R b)) with (ends b). rewrite side_nodes_R. reflexivity.
  Qed.
End Tables.

(** The reference elements of the orders 1 to 3 *)
Lemma ofZ_R z : Q2R (nofZ z) = nofZ z.
Proof. cbn [nofZ QNum RNum]. unfold Q2R. cbn [Qnum Qden inject_Z]. lra. Qed.
Lemma nq_R a b : Q2R (nq a b) = nq a b.
Proof. unfold nq. now rewrite div_R, !ofZ_R. Qed.
Lemma boole_R : boole (T:=R) = map pt boole.
Proof. unfold boole. cbn [map]. unfold pt. cbn [fst snd]. now rewrite !nq_R. Qed.
Lemma boole_rule_R : boole_rule (T:=R) = map rule_R boole_rule.
Proof.
  unfold boole_rule. rewrite boole_R. change (firstn 4 (map pt boole)) with (map pt (firstn 4 boole)). apply flat_map_R. intros u _.
  rewrite !map_map. apply map_ext. intros v. unfold rule_R, pt. cbn [fst snd]. rewrite !mul_R, !sub_R. cbn [n1 QNum RNum]. rewrite one_R. reflexivity.
Qed.
Ltac ref_R := repeat (rewrite ?map_map; rewrite ?add_R, ?sub_R, ?mul_R, ?div_R, ?opp_R, ?ofZ_R, ?nq_R, ?one_R, ?zero_R).
Lemma orders_R rule1 rule0 rule2 k : same_reference (reference_of rule1 rule0 rule2 k) (reference_of (map pt rule1) (map rule_R rule0) (map rule_R rule2) k).
Proof.
  assert (E1 : Q2R (n1 (T:=Q)) = n1) by exact one_R. assert (E0 : Q2R (n0 (T:=Q)) = n0) by exact zero_R.
  unfold reference_of. destruct (k =? 1)%Z; [|destruct (k =? 2)%Z]; (constructor; [split; [reflexivity|split; reflexivity]|repeat split| | | |]).
  all: cbn [linear quadratic cubic re_h1x re_h1y re_ndx re_ndy re_seg re_flux re_side_grad re_inner_grad].
  all: try (intros p; unfold comp_x, comp_y, quad_nd, cubic_nd, cubic_grad, quad_vertex', quad_side', cubic_vertex', cubic_side', cubic_inner', pt; cbn [fst snd]; cbv zeta; cbn [map];
            split; (repeat (rewrite ?add_R, ?sub_R, ?mul_R, ?div_R, ?opp_R, ?ofZ_R, ?nq_R, ?E1, ?E0); reflexivity)).
  all: try (intros s; unfold quad_vertex, quad_side, cubic_vertex, cubic_side; cbn [map];
            split; (repeat (rewrite ?add_R, ?sub_R, ?mul_R, ?div_R, ?opp_R, ?ofZ_R, ?nq_R, ?E1, ?E0); reflexivity)).
  all: unfold halves; cbn [map]; split; (repeat (rewrite ?opp_R, ?ofZ_R, ?nq_R, ?E1, ?E0)); reflexivity.
Qed.
