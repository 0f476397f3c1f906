(** The forms of the first order discretization as sums over triangles and boundary elements. *)
From Coq Require Import Reals Lra Relations Permutation.
From Verif Require Import Prelude Materials ModelM Matrix Solver Fem RSum ListLemmas SpecSolver SpecField SpecFem SpecTriangles SpecDrawing Triangles SolverProofs ChargeProofs FemMore TriProofs TriModel TriLocal.
Open Scope R_scope.
Open Scope list_scope.

Section One.
  Variable rule1 : list (R * R).
  Variable rule0 rule2 : list (R * R * R).
  Hypothesis Ru : rules_ok rule1 rule0 rule2.
  Hypothesis Ex : exact_for_quadratics rule2.
  Variable ms : mesh R.
  Hypothesis Tr : triangulation ms.
  Notation D := (first_order rule1 rule0 rule2 distance ms).
  Notation P v := (m_coord ms (Z.of_nat v)).
  (** flux through a side *)
  Definition fl (d : list R) (s : nat * nat) : R := sign (T:=R) s * nth (edge_dof ms s) d 0.
  Definition at3 (z : list R) (a b c : nat) : R * R * R := (nth a z 0, nth b z 0, nth c z 0).
  Definition fl3 (d : list R) (a b c : nat) : R * R * R := (fl d (a, b), fl d (b, c), fl d (c, a)).
  Definition work_e (e : element R) (z w : list R) : R := / 2 * jacobian ms e * (gx ms e z * gx ms e w + gy ms e z * gy ms e w).
  Definition mass_e (e : element R) (d t : list R) : R :=
    Rsum rule2 (fun q => snd q * jacobian ms e * (dot (nd_x ms e (fst q)) d * dot (nd_x ms e (fst q)) t + dot (nd_y ms e (fst q)) d * dot (nd_y ms e (fst q)) t)).
  Definition mix_e (e : element R) (z t : list R) : R :=
    Rsum rule2 (fun q => snd q * jacobian ms e * (gy ms e z * dot (nd_x ms e (fst q)) t - gx ms e z * dot (nd_y ms e (fst q)) t)).
  Definition abc_b (abc : R * R -> R) (b : element R) (z w : list R) : R :=
    Rsum rule1 (fun q => snd q * bdr_len distance ms b * abc (along (P (fst (ends b))) (P (snd (ends b))) (fst q)) *
      (((1 - fst q) * nth (fst (ends b)) z 0 + fst q * nth (snd (ends b)) z 0) * ((1 - fst q) * nth (fst (ends b)) w 0 + fst q * nth (snd (ends b)) w 0))).

  Lemma jac_det e a b c : corners ms e a b c -> jacobian ms e = det (P a) (P b) (P c).
  Proof. intros C. unfold jacobian. rewrite (co_nat _ _ _ _ _ C). reflexivity. Qed.
  Lemma gx_comb e a b c z : In e (m_elems ms) -> corners ms e a b c -> potential D z -> gx ms e z = comb (at3 z a b c) (gradsx (P a) (P b) (P c)).
  Proof.
    intros I C L. rewrite (gx_eq rule1 rule0 rule2 ms e a b c z I C L). pose proof (co_det _ _ _ _ _ C) as Pd. unfold comb, at3, gradsx.
    set (dd := det (P a) (P b) (P c)) in *. clearbody dd. field. lra.
  Qed.
  Lemma gy_comb e a b c z : In e (m_elems ms) -> corners ms e a b c -> potential D z -> gy ms e z = comb (at3 z a b c) (gradsy (P a) (P b) (P c)).
  Proof.
    intros I C L. rewrite (gy_eq rule1 rule0 rule2 ms e a b c z I C L). pose proof (co_det _ _ _ _ _ C) as Pd. unfold comb, at3, gradsy.
    set (dd := det (P a) (P b) (P c)) in *. clearbody dd. field. lra.
  Qed.
  Lemma nd_lin e a b c p d : In e (m_elems ms) -> corners ms e a b c -> List.length d = di_nRT D ->
    dot (nd_x ms e p) d = lin (corner_values (fl3 d a b c) (gradsx (P a) (P b) (P c))) p /\
    dot (nd_y ms e p) d = lin (corner_values (fl3 d a b c) (gradsy (P a) (P b) (P c))) p.
  Proof.
    intros I C L. rewrite (nd_dot_x ms Tr e a b c p d I C L), (nd_dot_y ms Tr e a b c p d I C L), (grads_x_eq ms e a b c C), (grads_y_eq ms e a b c C).
    rewrite !(whitney_dot ms e a b c p _ _ _ d I C). unfold lin, corner_values, fl3, fl, gradsx, gradsy. split; ring.
  Qed.
  Lemma work_corners e a b c z w : In e (m_elems ms) -> corners ms e a b c -> potential D z -> potential D w ->
    work_e e z w = work3 (P a) (P b) (P c) (at3 z a b c) (at3 w a b c).
  Proof.
    intros I C Lz Lw. unfold work_e, work3. now rewrite (jac_det e a b c C), !(gx_comb e a b c) by assumption; rewrite !(gy_comb e a b c) by assumption.
  Qed.
  Lemma mass_corners e a b c d t : In e (m_elems ms) -> corners ms e a b c -> List.length d = di_nRT D -> List.length t = di_nRT D ->
    mass_e e d t = mass3 (P a) (P b) (P c) (fl3 d a b c) (fl3 t a b c).
  Proof.
    intros I C Ld Lt. unfold mass_e, mass3. rewrite <- !(tri_exact rule2 _ _ Ex), <- Rsum_plus, <- Rsum_scal. apply Rsum_ext. intros q _.
    destruct (nd_lin e a b c (fst q) d I C Ld) as (-> & ->). destruct (nd_lin e a b c (fst q) t I C Lt) as (-> & ->).
    rewrite (jac_det e a b c C). ring.
  Qed.
  Lemma mix_corners e a b c z t : In e (m_elems ms) -> corners ms e a b c -> potential D z -> List.length t = di_nRT D ->
    mix_e e z t = mix3 (P a) (P b) (P c) (at3 z a b c) (fl3 t a b c).
  Proof.
    intros I C Lz Lt. unfold mix_e, mix3, total3.
    transitivity (det (P a) (P b) (P c) * (gy ms e z * Rsum rule2 (fun q => snd q * lin (corner_values (fl3 t a b c) (gradsx (P a) (P b) (P c))) (fst q))
      - gx ms e z * Rsum rule2 (fun q => snd q * lin (corner_values (fl3 t a b c) (gradsy (P a) (P b) (P c))) (fst q)))).
    - unfold Rminus at 2. rewrite <- Ropp_mult_distr_l_reverse, <- !Rsum_scal, <- Rsum_plus, <- Rsum_scal. apply Rsum_ext. intros q _.
      destruct (nd_lin e a b c (fst q) t I C Lt) as (-> & ->). rewrite (jac_det e a b c C). ring.
    - rewrite !(lin_exact rule2 _ Ex), (gx_comb e a b c z I C Lz), (gy_comb e a b c z I C Lz). ring.
  Qed.
  Lemma grad_sum (cf : Z -> R) z w : Rsum (di_grad D) (fun q => g_weight q * cf (g_attr q) * grad2 q z w) = Rsum (m_elems ms) (fun e => cf (e_attr e) * work_e e z w).
  Proof.
    cbn [di_grad first_order]. rewrite Rsum_flat_map. apply Rsum_ext. intros e I. unfold grad_points. rewrite Rsum_map. cbn [g_attr g_weight].
    rewrite (Rsum_ext rule0 _ (fun pw => snd pw * (cf (e_attr e) * jacobian ms e * (gx ms e z * gx ms e w + gy ms e z * gy ms e w)))).
    - rewrite (Rsum_scal_r rule0 _ snd), (proj2 (ru_gradient _ _ _ Ru)). unfold work_e. field.
    - intros pw _. unfold grad2. cbn [g_x g_y]. unfold gx, gy. cbn [nmul RNum]. ring.
  Qed.
  Lemma rt_sum d t : Rsum (di_rt D) (fun q => r_weight q * (dot (r_x q) d * dot (r_x q) t + dot (r_y q) d * dot (r_y q) t)) = Rsum (m_elems ms) (fun e => mass_e e d t).
  Proof.
    cbn [di_rt first_order]. rewrite Rsum_flat_map. apply Rsum_ext. intros e I. unfold rt_points. rewrite Rsum_map. cbn [r_weight r_x r_y].
    apply Rsum_ext. intros q _. unfold rt_x, rt_y. rewrite !dot_opp_l. cbn [nmul RNum]. ring.
  Qed.
  Lemma mix_sum (cf : Z -> R) z t : potential D z ->
    Rsum (di_mix D) (fun q => x_weight q * cf (x_attr q) * (dot (x_ndx q) (map (fun row => - dot row z) (di_gradient D)) * dot (x_rtx q) t
      + dot (x_ndy q) (map (fun row => - dot row z) (di_gradient D)) * dot (x_rty q) t)) = Rsum (m_elems ms) (fun e => cf (e_attr e) * mix_e e z t).
  Proof.
    intros L. change (map (fun row => - dot row z) (di_gradient D)) with (minus_grad rule1 rule0 rule2 ms z).
    cbn [di_mix first_order]. rewrite Rsum_flat_map. apply Rsum_ext. intros e I. unfold mix_points. rewrite Rsum_map. cbn [x_weight x_attr x_ndx x_ndy x_rtx x_rty].
    unfold mix_e. rewrite <- Rsum_scal. apply Rsum_ext. intros q _. unfold rt_x, rt_y. rewrite !dot_opp_l.
    destruct (nd_minus_grad rule1 rule0 rule2 ms Tr e (fst q) z I L) as (E1 & E2). rewrite E1, E2.
    cbn [nmul RNum]. ring.
  Qed.
  Lemma flux_sum d t : List.length d = di_nRT D ->
    Rsum (di_flux D) (fun q => if (q_attr q =? t)%Z then dot (q_w q) d else 0) = Rsum (m_bdr ms) (fun b => if (e_attr b =? t)%Z then fl d (ends b) else 0).
  Proof.
    intros L. cbn [di_flux first_order]. rewrite Rsum_flat_map. apply Rsum_ext. intros b I. unfold flux_points. rewrite Rsum_map. cbn [q_attr q_w].
    destruct (bdr_ends ms Tr b I) as (v & w & e & Ie & Ev & En & Is & _). destruct (e_attr b =? t)%Z; [|now rewrite Rsum_zero by reflexivity].
    rewrite (Rsum_ext rule1 _ (fun sw => snd sw * fl d (ends b))).
    - rewrite (Rsum_scal_r rule1 _ snd), (proj2 (ru_segment _ _ _ Ru)). ring.
    - intros sw _. rewrite spread_dot; [|repeat constructor; easy|repeat constructor|exact L].
      + unfold values, fl. cbn [map dot]. cbn [nadd nmul n0 RNum]. ring.
      + rewrite En. exact (proj1 (side_dof ms e (v, w) Ie Is)).
  Qed.
  Lemma flux_points_sum d (g : Z -> R * R -> R) : List.length d = di_nRT D ->
    Rsum (di_flux D) (fun q => g (q_attr q) (q_pos q) * dot (q_w q) d) =
    Rsum (m_bdr ms) (fun b => Rsum rule1 (fun sw => snd sw * g (e_attr b) (along (P (fst (ends b))) (P (snd (ends b))) (fst sw))) * fl d (ends b)).
  Proof.
    intros L. cbn [di_flux first_order]. rewrite Rsum_flat_map. apply Rsum_ext. intros b I. unfold flux_points. rewrite Rsum_map. cbn [q_attr q_w q_pos].
    destruct (bdr_ends ms Tr b I) as (v & w & e & Ie & Ev & En & Is & _).
    rewrite <- (Rsum_scal_r rule1). apply Rsum_ext. intros sw _. rewrite spread_dot; [|repeat constructor; easy|repeat constructor|exact L].
    - unfold values, fl. cbn [map dot]. cbn [nadd nmul n0 RNum]. rewrite !pos_P, Rplus_0_r. ring.
    - rewrite En. exact (proj1 (side_dof ms e (v, w) Ie Is)).
  Qed.
  Lemma open_sum abc p z w : potential D z -> potential D w ->
    Rsum (open_points D p) (fun q => b_weight q * abc (b_pos q) * (dot (b_shape q) z * dot (b_shape q) w)) =
    Rsum (m_bdr ms) (fun b => if zmem (e_attr b) (si_open p) then abc_b abc b z w else 0).
  Proof.
    intros Lz Lw. unfold open_points. rewrite Rsum_filter. cbn [di_abc first_order]. rewrite Rsum_flat_map. apply Rsum_ext. intros b I.
    unfold surf_points. rewrite Rsum_map. cbn [b_attr b_weight b_pos b_shape].
    destruct (zmem (e_attr b) (si_open p)); [|now rewrite Rsum_zero by reflexivity].
    unfold abc_b. apply Rsum_ext. intros q _.
    destruct (bdr_ends ms Tr b I) as (v & u & e & Ie & Ev & En & Is & N & Lv & Lu & _).
    rewrite Ev, En. cbn [fst snd].
    rewrite !spread_dot by (try assumption; repeat constructor; cbn; try assumption; intuition congruence).
    unfold values. cbn [map dot]. cbn [nadd nsub nmul n0 n1 RNum]. rewrite !pos_P. ring.
  Qed.
End One.
