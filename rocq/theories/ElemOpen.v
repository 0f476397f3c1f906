(** Proofs for averages and for open problems with elements of any order. *)
From Coq Require Import Reals Lra Permutation.
From Verif Require Import Prelude StdMap Materials ModelM Parser Matrix Solver Fem Driver RSum ListLemmas SpecInput SpecModel SpecSolver SpecDriver SpecMatrix SpecCharge SpecField SpecFem
  SpecTriangles SpecOpen Triangles Elements SpecElements SpecAverages SolverProofs ChargeProofs FemProofs FemCalls FemFacts FemModel FemLaws FemMatrix FemMore TriProofs TriModel OpenProofs ElemProofs ElemTables ElemModel.
Open Scope R_scope.
Open Scope list_scope.

Lemma dot_by_rule {A} (rule : list (A * R)) (k : R) (f : A -> list R) n z : (forall q, List.length (f q) = n) -> List.length z = n ->
  dot (map (fun j => fold_left (fun s pw => s + snd pw * k * nth j (f (fst pw)) 0) rule 0) (seq 0 n)) z = k * Rsum rule (fun q => snd q * dot (f (fst q)) z).
Proof.
  intros Lf Lz. rewrite (dot_Sum _ z n) by (rewrite ?map_length, ?seq_length; auto).
  transitivity (Sum n (fun j => Rsum rule (fun pw => snd pw * k * nth j (f (fst pw)) 0) * nth j z 0)).
  - apply Sum_ext. intros j Lj. f_equal. rewrite (nth_indep _ 0 (fold_left (fun s pw => s + snd pw * k * nth 0%nat (f (fst pw)) 0) rule 0)) by (rewrite map_length, seq_length; lia).
    rewrite (map_nth (fun j => fold_left (fun s pw => s + snd pw * k * nth j (f (fst pw)) 0) rule 0)), seq_nth by lia. rewrite fold_left_sum. cbn [Nat.add]. ring.
  - rewrite <- Rsum_scal. clear -Lf Lz. induction rule as [|q rule IH].
    + apply Sum_zero. intros j _. rewrite Rsum_nil. ring.
    + rewrite Rsum_cons, <- IH. rewrite (dot_Sum _ z n (Lf _) Lz).
      transitivity (Sum n (fun j => snd q * k * (nth j (f (fst q)) 0 * nth j z 0)) + Sum n (fun j => Rsum rule (fun pw => snd pw * k * nth j (f (fst pw)) 0) * nth j z 0)).
      * rewrite <- Sum_plus. apply Sum_ext. intros j _. rewrite Rsum_cons. ring.
      * rewrite Sum_scal. ring.
Qed.

Section Averages.
  Variable ref : reference R.
  Hypothesis Ro : reference_ok ref.
  Variable ms : mesh R.
  Hypothesis Tr : triangulation ms.
  Notation D := (elements ref distance ms).
  Notation nh := (n_h1 ref ms).

  Lemma el_dom_mean x z : triangle ms x -> List.length z = nh ->
    dot (el_dom_weights ref ms x) z = 2 * area ms (snd x) * Rsum (re_rule2 ref) (fun q => snd q * value_in ref ms z x (fst q)).
  Proof.
    intros T L. destruct (h1_dofs_ok ref ms Tr x T) as (N & F). unfold el_dom_weights. rewrite spread_dot by assumption.
    rewrite (h1_dofs_length ref ms Tr x T). cbn [nadd nmul n0 RNum].
    rewrite (dot_by_rule (re_rule2 ref) (jacobian ms (snd x)) (re_h1 ref)); [|intros q; apply (proj1 (ro_sizes _ Ro) q)|exact (loc_length ref ms Tr z x T)].
    rewrite (proj1 (jacobian_area ms Tr _ (tri_in ms x T))). f_equal. apply Rsum_ext. intros q _. rewrite (value_loc ref ms Tr z x _ T L). reflexivity.
  Qed.
  Lemma el_bdr_mean b z : In b (m_bdr ms) -> List.length z = nh ->
    dot (el_bdr_weights ref distance ms b) z = bdr_len distance ms b * Rsum (re_rule1 ref) (fun q => snd q * dot (re_seg ref (fst q)) (values z (bdr_dofs ref ms b))).
  Proof.
    intros I L. destruct (bdr_dofs_ok ref ms Tr b I) as (N & F). unfold el_bdr_weights. rewrite spread_dot by assumption.
    pose proof (bdr_dofs_length ref ms Tr b I) as Lb. rewrite Lb. cbn [nadd nmul n0 RNum].
    apply (dot_by_rule (re_rule1 ref) (bdr_len distance ms b) (re_seg ref)); [intros q; apply (proj1 (proj2 (ro_sizes _ Ro)) q)|]. rewrite values_length. exact Lb.
  Qed.
  Lemma along_dot phi u b s : List.length phi = nh -> values_along ref ms phi u -> In b (m_bdr ms) -> 0 <= s <= 1 ->
    u b s = dot (re_seg ref s) (values phi (bdr_dofs ref ms b)).
  Proof.
    intros L V I Hs. destruct (V b s I Hs) as (v & w & x & p & E & T & S & ->). destruct (value_on_side ref Ro ms Tr phi x v w s p T L S) as (-> & _).
    f_equal. unfold bdr_dofs, ends, verts. rewrite E. reflexivity.
  Qed.
  Lemma length_bdr b : In b (m_bdr ms) -> segment_length ms b = bdr_len distance ms b /\ 0 < segment_length ms b /\
    forall s, along (pos ms (fst (ends b))) (pos ms (snd (ends b))) s = spot ms b s.
  Proof.
    intros J. destruct (bdr_ends ms Tr b J) as (v & w & f & If & Vb & Eb & _ & N & Lv & Lw & Np).
    destruct (tr_bdr ms Tr b J) as (_ & v' & w' & e' & Ev & Ie' & (x1 & x2 & x3 & Ee & S)).
    destruct (tr_elem ms Tr e' Ie') as (_ & y1 & y2 & y3 & Ee' & P1 & P2 & P3 & _). rewrite Ee in Ee'. injection Ee' as <- <- <-.
    assert (Q : v' = Z.of_nat v /\ w' = Z.of_nat w).
    { unfold verts in Vb. rewrite Ev in Vb. injection Vb as <- <-. destruct S as [S | [S | S]]; injection S as -> ->; rewrite !Z2Nat.id by assumption; auto. }
    destruct Q as (-> & ->). unfold segment_length, bdr_len, spot. rewrite Eb, Ev. split; [reflexivity|]. split; [now apply distance_pos|]. reflexivity.
  Qed.
  Lemma rule2_exists : exists q, In q (re_rule2 ref).
  Proof.
    destruct (re_rule2 ref) as [|q r] eqn:E; [|exists q; now left]. exfalso.
    set (nl := (3 + (re_side ref + (re_side ref + (re_side ref + re_inner ref))))%nat). set (z := basis nl 0).
    assert (Lz : List.length z = nl) by apply basis_length.
    assert (Z : forall d, (d = re_h1x ref \/ d = re_h1y ref) -> forall q, In q (re_rule0 ref) -> dot (d (fst q)) z = 0).
    { intros d Hd q Iq. pose proof (ro_quadrature _ Ro z z d d Lz Lz Hd Hd) as K. rewrite E, Rsum_nil in K.
      destruct (ro_rules _ Ro) as (_ & _ & Pw & _).
      destruct (Req_dec (dot (d (fst q)) z) 0) as [|Nz]; [assumption|]. exfalso.
      assert (0 < Rsum (re_rule0 ref) (fun q => snd q * (dot (d (fst q)) z * dot (d (fst q)) z))); [|lra].
      apply Rsum_pos with (x := q); [intros y Iy|exact Iq|].
      - pose proof (Pw y Iy). apply Rmult_le_pos; [lra|]. apply Rle_0_sqr.
      - apply Rmult_lt_0_compat; [now apply Pw|]. apply Rlt_0_sqr. exact Nz. }
    destruct (ro_flat _ Ro z Lz) as (c & Ec); [intros q Iq; split; apply Z; auto|].
    assert (K0 : nth 0 z 0 = 1) by (unfold z; rewrite basis_nth by (unfold nl; lia); reflexivity).
    assert (K1 : nth 1 z 0 = 0) by (unfold z; rewrite basis_nth by (unfold nl; lia); reflexivity).
    rewrite Ec in K0, K1. cbn in K0, K1. lra.
  Qed.
  Lemma value_constant c x p : triangle ms x -> value_in ref ms (repeat c nh) x p = c.
  Proof.
    intros T. rewrite (value_loc ref ms Tr _ x p T) by apply repeat_length. rewrite (loc_constant ref ms Tr c x T).
    destruct (ro_constant _ Ro p) as (K & _). set (n := (3 + (re_side ref + (re_side ref + (re_side ref + re_inner ref))))%nat) in *.
    transitivity (c * dot (re_h1 ref p) (repeat 1 n)); [|rewrite K; ring]. clearbody n. generalize (re_h1 ref p) as l. clear. intros l. revert n.
    induction l as [|y l IH]; intros [|n]; cbn [repeat dot]; cbn [nadd nmul n0 RNum]; rewrite ?IH; ring.
  Qed.
  Lemma tagged_numbered (t : Z) (f : nat * element R -> list R) (g : list R -> R) :
    Rsum (filter (fun q => (fst q =? t)%Z) (map (fun x => (e_attr (snd x), f x)) (numbered ms))) (fun q => g (snd q)) =
    Rsum (filter (fun x => (e_attr (snd x) =? t)%Z) (numbered ms)) (fun x => g (f x)).
  Proof. rewrite !Rsum_filter, Rsum_map. apply Rsum_ext. reflexivity. Qed.
  Lemma el_domain_average abc s t : List.length (s_phi s) = nh -> (exists e, In e (m_elems ms) /\ e_attr e = t) ->
    0 < integral_in ref ms t (fun _ _ => 1) /\
    getAveragePotentialInDomain (discretize abc D) s t = integral_in ref ms t (value_in ref ms (s_phi s)) / integral_in ref ms t (fun _ _ => 1).
  Proof.
    intros L (e & I & E). destruct (in_tri ms e I) as (i & T). split.
    - unfold integral_in. destruct (ro_rules _ Ro) as (_ & _ & _ & Pw). destruct rule2_exists as (q0 & Iq).
      assert (Pr : 0 < Rsum (re_rule2 ref) (fun q => snd q * 1)).
      { apply Rsum_pos with (x := q0); [intros y Iy; pose proof (Pw y Iy); lra|exact Iq|]. pose proof (Pw q0 Iq); lra. }
      assert (Pa : forall x, triangle ms x -> 0 < 2 * area ms (snd x)).
      { intros x Tx. destruct (tr_elem ms Tr _ (tri_in ms x Tx)) as (_ & _ & _ & _ & _ & _ & _ & _ & Pa). lra. }
      apply Rsum_pos with (x := (i, e)).
      + intros x Ix. apply filter_In in Ix as (Ix & _). apply numbered_in in Ix. apply Rmult_le_pos; apply Rlt_le; auto.
      + apply filter_In. split; [now apply numbered_in|]. cbn [snd]. now apply Z.eqb_eq.
      + apply Rmult_lt_0_compat; [exact (Pa (i, e) T)|exact Pr].
    - unfold getAveragePotentialInDomain. rewrite !h1_form_Rsum. cbn [fe_domPhi fe_nH1 discretize di_domPhi di_nH1 elements].
      rewrite (tagged_numbered t _ (fun w => dot w (s_phi s))), (tagged_numbered t _ (fun w => dot w (repeat n1 nh))).
      change (ndiv ?a ?b) with (a / b). unfold integral_in. apply (f_equal2 Rdiv); apply Rsum_ext; intros x J; apply filter_In in J as (J & _); apply numbered_in in J.
      + now apply el_dom_mean.
      + change (repeat n1 nh) with (repeat 1 nh). rewrite el_dom_mean; [|exact J|apply repeat_length]. f_equal. apply Rsum_ext. intros q _. now rewrite value_constant.
  Qed.
  Lemma el_boundary_average abc s t u : List.length (s_phi s) = nh -> values_along ref ms (s_phi s) u -> (exists b, In b (m_bdr ms) /\ e_attr b = t) ->
    0 < Rsum (tagged t (m_bdr ms)) (segment_length ms) /\
    getAveragePotentialInBoundary (discretize abc D) s t = integral_on ref ms t u / Rsum (tagged t (m_bdr ms)) (segment_length ms).
  Proof.
    intros L V (e & I & E). split.
    - apply Rsum_pos with (x := e).
      + intros f J. apply in_tagged in J as (J & _). apply Rlt_le. now apply length_bdr.
      + now apply in_tagged.
      + now apply length_bdr.
    - unfold getAveragePotentialInBoundary. rewrite !h1_form_Rsum. cbn [fe_bdrPhi fe_nH1 discretize di_bdrPhi di_nH1 elements].
      rewrite (tagged_sum _ t _ (fun w => dot w (s_phi s))), (tagged_sum _ t _ (fun w => dot w (repeat n1 nh))).
      change (ndiv ?a ?b) with (a / b). unfold integral_on. apply (f_equal2 Rdiv); apply Rsum_ext; intros b J; apply in_tagged in J as (J & _); destruct (length_bdr b J) as (El & _).
      + rewrite el_bdr_mean by assumption. rewrite El. f_equal. apply Rsum_ext. intros q Iq. f_equal. symmetry. apply (along_dot (s_phi s)); auto. exact (proj1 (proj1 (ro_rules _ Ro) q Iq)).
      + change (repeat n1 nh) with (repeat 1 nh). rewrite el_bdr_mean; [|exact J|apply repeat_length].
        transitivity (bdr_len distance ms b * Rsum (re_rule1 ref) snd); [|rewrite (proj1 (proj2 (ro_rules _ Ro))), El; ring]. f_equal. apply Rsum_ext. intros q _.
        assert (Ev : values (repeat 1 nh) (bdr_dofs ref ms b) = repeat 1 (2 + re_side ref)).
        { rewrite <- (bdr_dofs_length ref ms Tr b J). pose proof (proj2 (bdr_dofs_ok ref ms Tr b J)) as F. clear -F. induction (bdr_dofs ref ms b) as [|k l IH]; [reflexivity|].
          inversion_clear F as [|? ? Lk F']. unfold values in *. cbn [map List.length repeat]. f_equal; [now apply nth_repeat_lt|now apply IH]. }
        rewrite Ev, (seg_constant ref Ro). ring.
  Qed.
End Averages.

Section Open.
  Variable ref : reference R.
  Hypothesis Ro : reference_ok ref.
  Variable abc : R * R -> R.
  Variable m : model R.
  Hypothesis Cs : cross_section abc m.
  Notation ms := (mo_mesh m).
  Notation mats := (mo_mats m).
  Notation D := (elements ref distance (mo_mesh m)).
  Notation nh := (n_h1 ref ms).
  Let Tr : triangulation ms := proj1 (cs_mesh _ _ Cs).
  Lemma el_inside ignore v p f phi : conductor_problem mats ignore v p -> relative_permittivity mats ignore f ->
    / 2 * Rsum (di_grad D) (fun q => g_weight q * eps_of (si_eps p) (g_attr q) * grad2 q phi phi) = energy_by_rule ref ms f phi.
  Proof.
    intros Cp Hf. unfold energy_by_rule. cbn [di_grad elements]. rewrite Rsum_flat_map, <- Rsum_scal. apply Rsum_ext. intros x I.
    apply numbered_in in I. unfold el_grad_points. rewrite Rsum_map. cbn [g_attr g_weight fst snd]. rewrite <- !Rsum_scal. apply Rsum_ext. intros q J.
    rewrite (eps_of_relative m ignore v p f Cp Hf). unfold grad2, gradient_in. cbn [g_x g_y fst snd].
    rewrite <- (proj1 (jacobian_area ms Tr _ (tri_in ms x I))). cbn [nmul RNum]. ring.
  Qed.
  Lemma el_open_work ignore v p f phi u : conductor_problem mats ignore v p -> relative_permittivity mats ignore f -> List.length phi = nh -> values_along ref ms phi u ->
    / 2 * work abc D p phi phi = energy_by_rule ref ms f phi + absorbed_by_rule ref abc m u.
  Proof.
    intros Cp Hf L V. unfold work. rewrite Rmult_plus_distr_l. f_equal; [exact (el_inside ignore v p f phi Cp Hf)|].
    unfold open_points, absorbed_by_rule. rewrite !Rsum_filter. cbn [di_abc elements]. rewrite Rsum_flat_map, <- Rsum_scal. apply Rsum_ext. intros b I.
    unfold el_surf_points. rewrite Rsum_map. cbn [b_attr b_pos b_weight b_shape].
    assert (Ez : zmem (e_attr b) (si_open p) = zmem (e_attr b) (map o_attr (openBoundaries mats))).
    { pose proof (cp_open _ _ _ _ Cp) as Q. apply Bool.eq_true_iff_eq. rewrite !zmem_in. split; apply Permutation_in; [exact Q|now apply Permutation_sym]. }
    rewrite <- Ez. clear Ez. destruct (zmem (e_attr b) (si_open p)); [|rewrite Rsum_zero by reflexivity; ring].
    destruct (length_bdr ms Tr b I) as (El & _ & Sp). rewrite Rmult_assoc, <- (Rsum_scal (re_rule1 ref) (segment_length ms b)). f_equal. apply Rsum_ext. intros q Iq.
    rewrite (shape_dot ref ms Tr b (fst q) phi I L), Sp, <- El. rewrite (along_dot ref Ro ms Tr phi u b (fst q) L V I (proj1 (proj1 (ro_rules _ Ro) q Iq))). cbn [nmul RNum]. ring.
  Qed.
  (** The energy reported does not include what open boundaries absorb. *)
  Lemma el_reported dbg ignore v s f : conductor_problem mats ignore v (s_params s) -> relative_permittivity mats ignore f -> computes abc D dbg (s_params s) (getSolution s) ->
    getTotalEnergy (discretize abc D) s = Ok (energy_by_rule ref ms f (s_phi s)).
  Proof.
    intros Cp Hf Cx. pose proof (elements_posed ref Ro abc m Cs) as W. pose proof (elements_regular ref Ro abc m Cs) as Rm.
    destruct (model_problem abc D m W Rm ignore v _ Cp) as (Hp & An). destruct (elements_quadrature ref Ro ms Tr) as [Ty Sq]. change (energy_tags_ok (discretize abc D)) in Ty.
    rewrite (energy_formula (discretize abc D) s); auto.
    2:{ apply msorted_nodup, (cp_sorted _ _ _ _ Cp). }
    2:{ exact (io_eps _ _ (po_inputs _ _ _ Hp)). }
    f_equal. unfold energy_spec. rewrite <- (el_inside ignore v (s_params s) f (s_phi s) Cp Hf). f_equal. change (fe_energy (discretize abc D)) with (di_energy D).
    pose proof (e_of_phi abc D (rm_tables _ _ _ Rm) dbg _ _ Hp Cx) as Ee. unfold is_minus_gradient in Ee. cbn [getSolution so_e so_phi] in Ee.
    destruct (minimal abc D (rm_tables _ _ _ Rm) dbg _ _ Hp An Cx) as (_ & _ & Lp & _). cbn [getSolution so_phi] in Lp.
    rewrite Ee. refine (eq_trans _ (Sq (s_phi s) (eps_of (si_eps (s_params s))) Lp)). apply Rsum_ext. intros y _. cbn zeta. ring.
  Qed.
End Open.
