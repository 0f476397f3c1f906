(** Proofs for averages on triangles and for the energy of open problems. *)
From Coq Require Import Reals Lra Permutation.
From Verif Require Import Prelude StdMap Materials ModelM Parser Matrix Solver Fem Driver RSum ListLemmas SpecInput SpecModel SpecSolver SpecDriver SpecMatrix SpecCharge SpecField SpecFem
  SpecTriangles SpecOpen Triangles SolverProofs ChargeProofs FemProofs FemCalls FemFacts FemModel FemLaws FemMatrix FemMore TriProofs TriModel.
Open Scope R_scope.
Open Scope list_scope.

Section Averages.
  Variable rule1 : list (R * R).
  Variable rule0 rule2 : list (R * R * R).
  Hypothesis Ex : exact_for_linear rule1 rule2.
  Variable ms : mesh R.
  Hypothesis Tr : triangulation ms.
  Notation D := (first_order rule1 rule0 rule2 distance ms).
  Notation n := (nverts ms).
  Notation P v := (m_coord ms (Z.of_nat v)).

  Lemma dom_mean e z : In e (m_elems ms) -> potential D z -> dot (dom_weights rule2 ms e) z = area ms e * mean z e.
  Proof.
    intros I L. destruct (elem_corners ms Tr e I) as (a & b & c & C). destruct (corners_lt ms e a b c I C) as (La & Lb & Lc).
    pose proof (proj1 (jacobian_area ms Tr e I)) as Ja. destruct (el_triangle _ _ Ex) as (E1 & E2 & E3).
    unfold dom_weights. rewrite (co_nat _ _ _ _ _ C), spread_dot; [|exact (corners_nodup ms e a b c C)|repeat constructor; assumption|exact L].
    assert (W : forall i, (i < 3)%nat -> fold_left (fun s pw => s + snd pw * jacobian ms e * nth i (bary (fst pw)) 0) rule2 0 = area ms e / 3).
    { intros i Li. rewrite fold_left_sum, Rplus_0_l.
      transitivity (jacobian ms e * Rsum rule2 (fun pw => snd pw * nth i (bary (fst pw)) 0)); [rewrite <- Rsum_scal; apply Rsum_ext; intros; ring|].
      rewrite Ja. destruct i as [|[|[|i]]]; [| | |lia]; cbn [bary nth nsub n1 RNum].
      - transitivity (2 * area ms e * (Rsum rule2 snd - Rsum rule2 (fun q => snd q * fst (fst q)) - Rsum rule2 (fun q => snd q * snd (fst q)))).
        + rewrite <- !Rsum_minus. f_equal. apply Rsum_ext. intros; ring.
        + rewrite E1, E2, E3. field.
      - rewrite E2. field.
      - rewrite E3. field. }
    cbn [map values nadd nmul n0 RNum]. rewrite (W 0%nat), (W 1%nat), (W 2%nat) by lia. unfold mean. rewrite (co_verts _ _ _ _ _ C). unfold at_vertex. cbn [dot map Rsum fold_right List.length INR nadd nmul n0 RNum].
    rewrite !Nat2Z.id. field.
  Qed.
  Lemma bdr_mean b z : In b (m_bdr ms) -> potential D z -> dot (bdr_weights rule1 distance ms b) z = segment_length ms b * mean z b.
  Proof.
    intros I L. destruct (bdr_ends ms Tr b I) as (v & w & e & Ie & Vb & Eb & _ & N & Lv & Lw & _). destruct (el_segment _ _ Ex) as (E1 & E2).
    destruct (tr_bdr ms Tr b I) as (_ & v' & w' & e' & Ev & Ie' & Sd).
    assert (Q : v' = Z.of_nat v /\ w' = Z.of_nat w).
    { unfold verts in Vb. rewrite Ev in Vb. injection Vb as <- <-. destruct Sd as (x1 & x2 & x3 & Ee & S).
      destruct (tr_elem ms Tr e' Ie') as (_ & y1 & y2 & y3 & Ee' & P1 & P2 & P3 & _). rewrite Ee in Ee'. injection Ee' as <- <- <-.
      destruct S as [S | [S | S]]; injection S as -> ->; rewrite !Z2Nat.id by assumption; auto. }
    destruct Q as (-> & ->).
    assert (El : segment_length ms b = bdr_len distance ms b) by (unfold segment_length, bdr_len; now rewrite Eb, Ev).
    unfold bdr_weights. rewrite Vb, spread_dot; [|repeat constructor; cbn; intuition congruence|repeat constructor; assumption|exact L].
    assert (W1 : fold_left (fun s sw => s + snd sw * bdr_len distance ms b * (1 - fst sw)) rule1 0 = segment_length ms b / 2).
    { rewrite fold_left_sum, Rplus_0_l, El. transitivity (bdr_len distance ms b * (Rsum rule1 snd - Rsum rule1 (fun q => snd q * fst q))).
      - rewrite <- Rsum_minus, <- Rsum_scal. apply Rsum_ext. intros; ring.
      - rewrite E1, E2. field. }
    assert (W2 : fold_left (fun s sw => s + snd sw * bdr_len distance ms b * fst sw) rule1 0 = segment_length ms b / 2).
    { rewrite fold_left_sum, Rplus_0_l, El. transitivity (bdr_len distance ms b * Rsum rule1 (fun q => snd q * fst q)).
      - rewrite <- Rsum_scal. apply Rsum_ext. intros; ring.
      - rewrite E2. field. }
    cbn [map values nadd nsub nmul n0 n1 RNum]. rewrite W1, W2. unfold mean. rewrite Ev. unfold at_vertex. cbn [dot map Rsum fold_right List.length INR nadd nmul n0 RNum].
    rewrite !Nat2Z.id. field.
  Qed.
  Lemma mean_const c e : In e (m_elems ms) \/ In e (m_bdr ms) -> mean (repeat c n) e = c.
  Proof.
    assert (A : forall e v, In e (m_elems ms) -> In v (e_verts e) -> at_vertex (repeat c n) v = c).
    { intros f v I J. unfold at_vertex. apply nth_constant. apply (vert_lt ms f); [exact I|]. unfold verts. now apply in_map. }
    intros [I | I].
    - destruct (tr_elem ms Tr e I) as (_ & a & b & d & E & _). unfold mean. specialize (fun v => A e v I). rewrite E in *. cbn [Rsum map fold_right List.length INR].
      unfold Rsum. cbn. rewrite !A by (cbn; auto). field.
    - destruct (tr_bdr ms Tr e I) as (_ & v & w & f & E & If & (x1 & x2 & x3 & Ee & S)). unfold mean. rewrite E. unfold Rsum. cbn. specialize (fun v => A f v If). rewrite Ee in A.
      destruct S as [S | [S | S]]; injection S as -> ->; rewrite !A by (cbn; auto); field.
  Qed.
  Lemma tagged_sum {B} (l : list (element R)) (t : Z) (f : element R -> B) (g : B -> R) :
    Rsum (filter (fun q => (fst q =? t)%Z) (map (fun e => (e_attr e, f e)) l)) (fun q => g (snd q)) = Rsum (tagged t l) (fun e => g (f e)).
  Proof. unfold tagged. rewrite !Rsum_filter, Rsum_map. apply Rsum_ext. reflexivity. Qed.
  Lemma in_tagged t l e : In e (tagged t l) <-> In e l /\ e_attr e = t.
  Proof. unfold tagged. rewrite filter_In, Z.eqb_eq. tauto. Qed.
  Lemma domain_average abc s t : potential D (s_phi s) -> (exists e, In e (m_elems ms) /\ e_attr e = t) ->
    average (area ms) (s_phi s) (tagged t (m_elems ms)) (getAveragePotentialInDomain (discretize abc D) s t).
  Proof.
    intros L (e & I & E).
    assert (A : 0 < Rsum (tagged t (m_elems ms)) (area ms)).
    { apply Rsum_pos with (x := e).
      - intros f J. apply in_tagged in J as (J & _). destruct (tr_elem ms Tr f J) as (_ & _ & _ & _ & _ & _ & _ & _ & Pa). lra.
      - now apply in_tagged.
      - now destruct (tr_elem ms Tr e I) as (_ & _ & _ & _ & _ & _ & _ & _ & Pa). }
    split; [exact A|]. unfold getAveragePotentialInDomain. rewrite !h1_form_Rsum. cbn [fe_domPhi fe_nH1 discretize di_domPhi di_nH1 first_order].
    rewrite (tagged_sum _ t _ (fun w => dot w (s_phi s))), (tagged_sum _ t _ (fun w => dot w (repeat n1 n))).
    change (ndiv ?a ?b) with (a / b). apply (f_equal2 Rdiv); apply Rsum_ext; intros f J; apply in_tagged in J as (J & _).
    - now apply dom_mean.
    - change (repeat n1 n) with (repeat 1 n). rewrite (dom_mean f _ J (constant_potential rule1 rule0 rule2 ms 1)), mean_const by auto. ring.
  Qed.
  Lemma boundary_average abc s t : potential D (s_phi s) -> (exists b, In b (m_bdr ms) /\ e_attr b = t) ->
    average (segment_length ms) (s_phi s) (tagged t (m_bdr ms)) (getAveragePotentialInBoundary (discretize abc D) s t).
  Proof.
    intros L (e & I & E).
    assert (Pl : forall b, In b (m_bdr ms) -> 0 < segment_length ms b).
    { intros b J. destruct (bdr_ends ms Tr b J) as (v & w & f & If & Vb & Eb & _ & N & Lv & Lw & Np).
      destruct (tr_bdr ms Tr b J) as (_ & v' & w' & e' & Ev & Ie' & (x1 & x2 & x3 & Ee & S)).
      unfold verts in Vb. rewrite Ev in Vb. injection Vb as <- <-.
      destruct (tr_elem ms Tr e' Ie') as (_ & y1 & y2 & y3 & Ee' & P1 & P2 & P3 & _). rewrite Ee in Ee'. injection Ee' as <- <- <-.
      unfold segment_length. rewrite Ev. apply distance_pos. destruct S as [S | [S | S]]; injection S as -> ->; rewrite !Z2Nat.id in Np by assumption; exact Np. }
    assert (A : 0 < Rsum (tagged t (m_bdr ms)) (segment_length ms)).
    { apply Rsum_pos with (x := e).
      - intros f J. apply in_tagged in J as (J & _). apply Rlt_le. now apply Pl.
      - now apply in_tagged.
      - now apply Pl. }
    split; [exact A|]. unfold getAveragePotentialInBoundary. rewrite !h1_form_Rsum. cbn [fe_bdrPhi fe_nH1 discretize di_bdrPhi di_nH1 first_order].
    rewrite (tagged_sum _ t _ (fun w => dot w (s_phi s))), (tagged_sum _ t _ (fun w => dot w (repeat n1 n))).
    change (ndiv ?a ?b) with (a / b). apply (f_equal2 Rdiv); apply Rsum_ext; intros f J; apply in_tagged in J as (J & _).
    - now apply bdr_mean.
    - change (repeat n1 n) with (repeat 1 n). rewrite (bdr_mean f _ J (constant_potential rule1 rule0 rule2 ms 1)), mean_const by auto. ring.
  Qed.
End Averages.

Section Open.
  Variable rule1 : list (R * R).
  Variable rule0 rule2 : list (R * R * R).
  Hypothesis Ru : rules_ok rule1 rule0 rule2.
  Variable abc : R * R -> R.
  Variable m : model R.
  Hypothesis Cs : cross_section abc m.
  Notation ms := (mo_mesh m).
  Notation D := (first_order rule1 rule0 rule2 distance (mo_mesh m)).
  Lemma open_work ignore v p f phi : conductor_problem (mo_mats m) ignore v p -> relative_permittivity (mo_mats m) ignore f -> potential D phi ->
    exists W, field_energy ms f phi W /\ / 2 * work abc D p phi phi = W + absorbed rule1 abc m phi.
  Proof.
    intros Cp Hf L. pose proof (proj1 (cs_mesh _ _ Cs)) as Tr.
    exists (/ 2 * Rsum (di_grad D) (fun q => g_weight q * eps_of (si_eps p) (g_attr q) * grad2 q phi phi)). split.
    - exists (fun e => (gx ms e phi, gy ms e phi)). split; [intros e I; exact (slope_grad rule1 rule0 rule2 ms Tr e phi I L)|].
      cbn [di_grad first_order]. rewrite Rsum_flat_map, <- Rsum_scal. apply Rsum_ext. intros e I.
      unfold grad_points. rewrite Rsum_map. cbn [g_attr g_weight fst snd].
      transitivity (/ 2 * Rsum rule0 (fun pw => snd pw * (jacobian ms e * f (e_attr e) * (gx ms e phi * gx ms e phi + gy ms e phi * gy ms e phi)))).
      { f_equal. apply Rsum_ext. intros pw J. rewrite (eps_of_relative m ignore v p f Cp Hf). unfold grad2. cbn [g_x g_y]. fold (gx ms e phi) (gy ms e phi). cbn [nmul RNum]. ring. }
      rewrite (Rsum_scal_r rule0 _ snd), (proj2 (ru_gradient _ _ _ Ru)), (proj1 (jacobian_area ms Tr e I)). field.
    - unfold work. rewrite Rmult_plus_distr_l. f_equal. unfold open_points, absorbed. rewrite !Rsum_filter. cbn [di_abc first_order]. rewrite Rsum_flat_map, <- Rsum_scal. apply Rsum_ext. intros b I.
      unfold surf_points. rewrite Rsum_map. cbn [b_attr b_pos b_weight b_shape].
      assert (Ez : zmem (e_attr b) (si_open p) = zmem (e_attr b) (map o_attr (openBoundaries (mo_mats m)))).
      { pose proof (cp_open _ _ _ _ Cp) as Q. apply Bool.eq_true_iff_eq. rewrite !zmem_in. split; apply Permutation_in; [exact Q|now apply Permutation_sym]. }
      rewrite <- Ez. clear Ez. destruct (zmem (e_attr b) (si_open p)); [|rewrite Rsum_zero by reflexivity; ring].
      destruct (bdr_ends ms Tr b I) as (k & l & e & Ie & Vb & Eb & _ & N & Lv & Lw & _).
      destruct (tr_bdr ms Tr b I) as (_ & v' & w' & e' & Ev & Ie' & (x1 & x2 & x3 & Ee & S)).
      destruct (tr_elem ms Tr e' Ie') as (_ & y1 & y2 & y3 & Ee' & P1 & P2 & P3 & _). rewrite Ee in Ee'. injection Ee' as <- <- <-.
      assert (Q : v' = Z.of_nat k /\ w' = Z.of_nat l).
      { unfold verts in Vb. rewrite Ev in Vb. injection Vb as <- <-. destruct S as [S | [S | S]]; injection S as -> ->; rewrite !Z2Nat.id by assumption; auto. }
      destruct Q as (-> & ->). rewrite Ev. cbv zeta. rewrite Rmult_assoc, <- (Rsum_scal rule1 (distance _ _)). f_equal. apply Rsum_ext. intros r J.
      unfold bdr_len. rewrite Vb, Eb. cbn [fst snd]. rewrite spread_dot; [|repeat constructor; cbn; intuition congruence|repeat constructor; assumption|exact L].
      unfold along, pos, values, at_vertex. cbn [map dot nadd nsub nmul n0 n1 RNum]. rewrite !Nat2Z.id. ring.
  Qed.
End Open.
