(** Rational meshes: the tables of the first order elements over Q, read as real numbers, are those
    over R (used for the counterexamples that need larger meshes: certificates computed over Q). *)
From Coq Require Import QArith Qreals Reals Lra Lia.
From Verif Require Import Prelude StdMap ModelM Matrix Solver Fem Triangles RSum.
Open Scope R_scope.
Open Scope list_scope.

(** ** Arithmetic *)
Lemma red_R x : Q2R (Qred x) = Q2R x. Proof. apply Qeq_eqR, Qred_correct. Qed.
Lemma add_R (x y : Q) : Q2R (nadd x y) = Q2R x + Q2R y. Proof. cbn [nadd QNum]. rewrite red_R. apply Q2R_plus. Qed.
Lemma sub_R (x y : Q) : Q2R (nsub x y) = Q2R x - Q2R y. Proof. cbn [nsub QNum]. rewrite red_R. apply Q2R_minus. Qed.
Lemma mul_R (x y : Q) : Q2R (nmul x y) = Q2R x * Q2R y. Proof. cbn [nmul QNum]. rewrite red_R. apply Q2R_mult. Qed.
Lemma zero_R : Q2R 0 = 0. Proof. unfold Q2R. cbn. lra. Qed.
Lemma one_R : Q2R 1 = 1. Proof. unfold Q2R. cbn. lra. Qed.
Lemma div_R (x y : Q) : Q2R (ndiv x y) = Q2R x / Q2R y.
Proof.
  cbn [ndiv QNum]. rewrite red_R. destruct (Qeq_dec y 0) as [E | N].
  - unfold Qdiv, Rdiv. rewrite Q2R_mult. f_equal. assert (Z : Q2R y = 0) by (rewrite <- zero_R; now apply Qeq_eqR).
    rewrite Z, Rinv_0, <- zero_R. apply Qeq_eqR. rewrite E. reflexivity.
  - apply Q2R_div, N.
Qed.
Lemma opp_R (x : Q) : Q2R (nopp x) = - Q2R x. Proof. apply Q2R_opp. Qed.
Lemma dot_R (a x : list Q) : Q2R (dot a x) = dot (map Q2R a) (map Q2R x).
Proof. revert x. induction a as [|u a IH]; intros [|v x]; cbn [dot map]; try apply zero_R. rewrite add_R, mul_R, IH. reflexivity. Qed.

(** ** Meshes and tables *)
Definition pt (p : Q * Q) : R * R := (Q2R (fst p), Q2R (snd p)).
Definition element_R (e : element Q) : element R := {| e_attr := e_attr e; e_verts := e_verts e; e_vol := Q2R (e_vol e) |}.
Definition mesh_R (ms : mesh Q) : mesh R :=
  {| m_elems := map element_R (m_elems ms); m_bdr := map element_R (m_bdr ms); m_coord := fun v => pt (m_coord ms v) |}.
Definition grad_R (q : grad_point Q) : grad_point R := {| g_attr := g_attr q; g_weight := Q2R (g_weight q); g_x := map Q2R (g_x q); g_y := map Q2R (g_y q) |}.
Definition surf_R (q : surf_point Q) : surf_point R := {| b_attr := b_attr q; b_pos := pt (b_pos q); b_weight := Q2R (b_weight q); b_shape := map Q2R (b_shape q) |}.
Definition rt_R (q : rt_point Q) : rt_point R := {| r_weight := Q2R (r_weight q); r_x := map Q2R (r_x q); r_y := map Q2R (r_y q) |}.
Definition mix_R (q : mix_point Q) : mix_point R :=
  {| x_attr := x_attr q; x_weight := Q2R (x_weight q); x_ndx := map Q2R (x_ndx q); x_ndy := map Q2R (x_ndy q); x_rtx := map Q2R (x_rtx q); x_rty := map Q2R (x_rty q) |}.
Definition flux_R (q : flux_point Q) : flux_point R := {| q_attr := q_attr q; q_pos := pt (q_pos q); q_w := map Q2R (q_w q) |}.

Section Tables.
  Variable rule1 : list (Q * Q).
  Variable rule0 rule2 : list (Q * Q * Q).
  Variable len : Q * Q -> Q * Q -> Q.
  Variable ms : mesh Q.
  Variable rule1' : list (R * R).
  Variable rule0' rule2' : list (R * R * R).
  Variable len' : R * R -> R * R -> R.
  Hypothesis E1 : rule1' = map pt rule1.
  Hypothesis E0 : rule0' = map (fun pw => (pt (fst pw), Q2R (snd pw))) rule0.
  Hypothesis E2 : rule2' = map (fun pw => (pt (fst pw), Q2R (snd pw))) rule2.
  Hypothesis El : forall b, In b (m_bdr ms) -> len' (pt (pos ms (fst (ends b)))) (pt (pos ms (snd (ends b)))) = Q2R (bdr_len len ms b).
  Notation ms' := (mesh_R ms).
  Notation D := (first_order rule1 rule0 rule2 len ms).
  Notation D' := (first_order rule1' rule0' rule2' len' ms').

  Lemma flat_map_verts l : flat_map verts (map element_R l) = flat_map verts l.
  Proof. induction l as [|e l IH]; [reflexivity|]. cbn [flat_map map]. rewrite IH. reflexivity. Qed.
  Lemma nverts_R : nverts ms' = nverts ms.
  Proof. unfold nverts, mesh_R. cbn [m_elems]. now rewrite flat_map_verts. Qed.
  Lemma edges_R : edges ms' = edges ms.
  Proof.
    unfold edges, mesh_R. cbn [m_elems]. do 2 f_equal. induction (m_elems ms) as [|e l IH]; [reflexivity|]. cbn [flat_map map]. rewrite IH. reflexivity.
  Qed.
  Lemma pos_R v : pos ms' v = pt (pos ms v). Proof. reflexivity. Qed.
  Lemma sign_R s : Q2R (sign s) = sign s.
  Proof. unfold sign. destruct (_ <? _)%nat; [exact one_R|]. rewrite opp_R. cbn [n1 QNum RNum nopp]. now rewrite one_R. Qed.
  Lemma scatter_R ks xs k : Q2R (scatter ks xs k) = scatter ks (map Q2R xs) k.
  Proof. revert xs. induction ks as [|i ks IH]; intros [|x xs]; cbn [scatter map]; try exact zero_R. destruct (i =? k)%nat; [reflexivity|apply IH]. Qed.
  Lemma spread_R n ks xs : map Q2R (spread n ks xs) = spread n ks (map Q2R xs).
  Proof. unfold spread. rewrite map_map. apply map_ext. intros k. apply scatter_R. Qed.
  Lemma det_R a b c : Q2R (det a b c) = det (pt a) (pt b) (pt c).
  Proof. unfold det. now rewrite ?sub_R, ?mul_R, ?sub_R. Qed.
  Lemma pos_map e : map (pos ms') (verts (element_R e)) = map pt (map (pos ms) (verts e)).
  Proof. rewrite map_map. reflexivity. Qed.
  Lemma jacobian_R e : Q2R (jacobian ms e) = jacobian ms' (element_R e).
  Proof.
    unfold jacobian. rewrite pos_map. destruct (map (pos ms) (verts e)) as [|a [|b [|c [|? ?]]]]; cbn [map]; try exact zero_R. apply det_R.
  Qed.
  Lemma grads_R e : map Q2R (grads_x ms e) = grads_x ms' (element_R e) /\ map Q2R (grads_y ms e) = grads_y ms' (element_R e).
  Proof.
    unfold grads_x, grads_y. rewrite pos_map. destruct (map (pos ms) (verts e)) as [|a [|b [|c [|? ?]]]]; cbn [map]; split; try reflexivity;
    rewrite !div_R, !sub_R, det_R; reflexivity.
  Qed.
  Lemma bary_R p : map Q2R (bary p) = bary (pt p).
  Proof. unfold bary. cbn [map]. rewrite !sub_R. cbn [n1 QNum]. rewrite one_R. reflexivity. Qed.
  Lemma whitney_R e l g : map Q2R (whitney e l g) = whitney (element_R e) (map Q2R l) (map Q2R g).
  Proof.
    unfold whitney. change (sides (element_R e)) with (sides e). destruct (sides e) as [|s0 [|s1 [|s2 [|? ?]]]]; cbn [map]; try reflexivity.
    destruct l as [|la [|lb [|lc [|? ?]]]]; cbn [map]; try reflexivity. destruct g as [|ga [|gb [|gc [|? ?]]]]; cbn [map]; try reflexivity.
    rewrite !mul_R, !sub_R, !mul_R, !sign_R. reflexivity.
  Qed.
  Lemma edge_dofs_R e : edge_dofs ms' (element_R e) = edge_dofs ms e.
  Proof. unfold edge_dofs. change (sides (element_R e)) with (sides e). apply map_ext. intros s. unfold edge_dof. now rewrite edges_R. Qed.
  Lemma nd_R e p : map Q2R (nd_x ms e p) = nd_x ms' (element_R e) (pt p) /\ map Q2R (nd_y ms e p) = nd_y ms' (element_R e) (pt p).
  Proof.
    destruct (grads_R e) as (G1 & G2). unfold nd_x, nd_y.
    split; rewrite spread_R, whitney_R, bary_R, ?G1, ?G2, edge_dofs_R, edges_R; reflexivity.
  Qed.
  Lemma rt_xy_R e p : map Q2R (rt_x ms e p) = rt_x ms' (element_R e) (pt p) /\ map Q2R (rt_y ms e p) = rt_y ms' (element_R e) (pt p).
  Proof.
    destruct (nd_R e p) as (N1 & N2). unfold rt_x, rt_y. split; [exact N2|]. rewrite <- N1, !map_map. apply map_ext. intros x. apply opp_R.
  Qed.
  Lemma flat_map_R {A B A' B'} (f : A -> list B) (f' : A' -> list B') (h : A -> A') (g : B -> B') l :
    (forall x, In x l -> f' (h x) = map g (f x)) -> flat_map f' (map h l) = map g (flat_map f l).
  Proof.
    induction l as [|x l IH]; intros H; [reflexivity|]. cbn [flat_map map]. rewrite map_app, (H x (or_introl eq_refl)), IH; [reflexivity|].
    intros y I. apply H. now right.
  Qed.
  Lemma grad_table : di_grad D' = map grad_R (di_grad D).
  Proof.
    apply flat_map_R. intros e _. unfold grad_points. rewrite E0, !map_map. apply map_ext. intros pw. unfold grad_R.
    cbn [g_attr g_weight g_x g_y fst snd]. destruct (grads_R e) as (G1 & G2).
    rewrite mul_R, jacobian_R, !spread_R, G1, G2, nverts_R. reflexivity.
  Qed.
  Lemma rt_table : di_rt D' = map rt_R (di_rt D).
  Proof.
    apply flat_map_R. intros e _. unfold rt_points. rewrite E2, !map_map. apply map_ext. intros pw. unfold rt_R.
    cbn [r_weight r_x r_y fst snd]. destruct (rt_xy_R e (fst pw)) as (G1 & G2). rewrite mul_R, jacobian_R, G1, G2. reflexivity.
  Qed.
  Lemma mix_table : di_mix D' = map mix_R (di_mix D).
  Proof.
    apply flat_map_R. intros e _. unfold mix_points. rewrite E2, !map_map. apply map_ext. intros pw. unfold mix_R.
    cbn [x_attr x_weight x_ndx x_ndy x_rtx x_rty fst snd]. destruct (rt_xy_R e (fst pw)) as (G1 & G2). destruct (nd_R e (fst pw)) as (G3 & G4).
    rewrite mul_R, jacobian_R, G1, G2, G3, G4. reflexivity.
  Qed.
  Lemma along_R p q s : pt (along p q s) = along (pt p) (pt q) (Q2R s).
  Proof. unfold along, pt. cbn [fst snd]. rewrite !add_R, !mul_R, !sub_R. cbn [n1 QNum]. rewrite one_R. reflexivity. Qed.
  Lemma surf_table : di_abc D' = map surf_R (di_abc D).
  Proof.
    apply flat_map_R. intros b I. unfold surf_points. rewrite E1, !map_map. apply map_ext. intros sw. unfold surf_R.
    cbn [b_attr b_pos b_weight b_shape fst snd pt]. rewrite mul_R, along_R, spread_R. cbn [map]. rewrite sub_R. cbn [n1 QNum]. rewrite one_R, nverts_R.
    unfold bdr_len. rewrite !pos_R. change (ends (element_R b)) with (ends b). pose proof (El b I) as E. unfold bdr_len in E. rewrite <- E. reflexivity.
  Qed.
  Lemma flux_table : di_flux D' = map flux_R (di_flux D).
  Proof.
    apply flat_map_R. intros b _. unfold flux_points. rewrite E1, !map_map. apply map_ext. intros sw. unfold flux_R.
    cbn [q_attr q_pos q_w fst snd pt]. rewrite along_R, spread_R. cbn [map]. rewrite mul_R, sign_R, edges_R.
    unfold edge_dof. rewrite edges_R. reflexivity.
  Qed.
  Lemma gradient_table : di_gradient D' = map (map Q2R) (di_gradient D).
  Proof.
    cbn [di_gradient first_order]. rewrite map_map, edges_R. apply map_ext. intros e. rewrite spread_R, nverts_R. cbn [map]. rewrite opp_R. cbn [n1 QNum]. rewrite one_R. reflexivity.
  Qed.
  Lemma size_table : di_nH1 D' = di_nH1 D /\ di_nRT D' = di_nRT D.
  Proof. cbn [di_nH1 di_nRT first_order]. now rewrite nverts_R, edges_R. Qed.
End Tables.
