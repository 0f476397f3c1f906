(** Cross-sections drawn on rational meshes whose boundary is parallel to the axes: fields computed
    over Q, once certified, are the fields over R (generic part of the counterexamples). *)
From Coq Require Import QArith Qreals Reals Lra Lia Permutation.
From Verif Require Import Prelude StdMap Json Materials Graph ModelM Parser Matrix Solver Fem Domain Results Driver Triangles RSum ListLemmas
  SpecInput SpecModel SpecSolver SpecDriver SpecCharge SpecField SpecFem SpecTriangles
  FemProofs FemCalls FemFacts FemModel FemLaws FemDriver FemMatrix TriProofs TriModel Toy Kite Transfer Certificate RationalMesh.
Open Scope R_scope.
Open Scope list_scope.
Definition manhattan (p q : Q * Q) : Q := Qred (Qabs.Qabs (fst q - fst p) + Qabs.Qabs (snd q - snd p)).
Lemma abs_R x : Q2R (Qabs.Qabs x) = Rabs (Q2R x).
Proof.
  destruct (Qlt_le_dec x 0) as [L | L].
  - rewrite Rabs_left; [|rewrite <- zero_R; now apply Qlt_Rlt]. rewrite <- Q2R_opp. apply Qeq_eqR. apply Qabs.Qabs_neg. now apply Qlt_le_weak.
  - rewrite Rabs_right; [|apply Rle_ge; rewrite <- zero_R; now apply Qle_Rle]. apply Qeq_eqR. now apply Qabs.Qabs_pos.
Qed.
Lemma axis_length p q : (Qeq_bool (fst q - fst p) 0 || Qeq_bool (snd q - snd p) 0)%bool = true -> distance (pt p) (pt q) = Q2R (manhattan p q).
Proof.
  intros H. unfold distance, manhattan, pt. cbn [fst snd]. rewrite red_R, Q2R_plus, !abs_R, <- !Q2R_minus.
  apply Bool.orb_prop in H as [H | H]; apply Qeq_bool_iff, Qeq_eqR in H; rewrite zero_R in H; rewrite H, Rabs_R0, Rmult_0_l, ?Rplus_0_l, ?Rplus_0_r; apply sqrt_Rsqr_abs.
Qed.
Lemma rules_R : segment_rule (T:=R) = map pt segment_rule /\ one_point_rule (T:=R) = map (fun pw => (pt (fst pw), Q2R (snd pw))) one_point_rule /\
  three_point_rule (T:=R) = map (fun pw => (pt (fst pw), Q2R (snd pw))) three_point_rule.
Proof.
  assert (E2 : Q2R c2 = c2) by (unfold c2; rewrite add_R; cbn [n1 QNum]; now rewrite one_R).
  assert (E3 : Q2R c3 = c3) by (unfold c3; rewrite add_R, E2; cbn [n1 QNum]; now rewrite one_R).
  assert (E6 : Q2R c6 = c6) by (unfold c6; now rewrite mul_R, E2, E3).
  unfold segment_rule, one_point_rule, three_point_rule, pt. cbn [map fst snd]. rewrite !div_R, E2, E3, E6. cbn [n1 QNum]. rewrite one_R.
  repeat split.
Qed.


Section Model.
  Variable ms : mesh Q.
  Variable n : nat.
  Hypothesis Checked : mesh_check ms n = true.
  Definition on_axes : bool := forallb (fun b => let p := pos ms (fst (ends b)) in let q := pos ms (snd (ends b)) in
    (Qeq_bool (fst q - fst p) 0 || Qeq_bool (snd q - snd p) 0)%bool) (m_bdr ms).
  Hypothesis Axes : on_axes = true.
  Notation tables := (kite_disc manhattan ms 1).
  Variable m : model R.
  Hypothesis Em : mo_mesh m = mesh_R ms.
  Variable abc : R * R -> R.
  Hypothesis Cs : cross_section abc m.
  Notation disc := (kite_disc distance (mesh_R ms) 1).
  Lemma lengths b : In b (m_bdr ms) -> distance (pt (pos ms (fst (ends b)))) (pt (pos ms (snd (ends b)))) = Q2R (bdr_len manhattan ms b).
  Proof. intros I. apply axis_length. pose proof Axes as H. unfold on_axes in H. rewrite forallb_forall in H. exact (H b I). Qed.
  Variables (dbg ignore : bool) (v : Z -> R) (p : solver_inputs R) (u : solution R).
  Hypothesis Cp : conductor_problem (mo_mats m) ignore v p.
  Hypothesis Cu : computes abc disc dbg p u.
  Variable eps : Z -> Q.
  Hypothesis He : forall t, eps_of (si_eps p) t = Q2R (eps t).
  Variable opened : Z -> bool.
  Hypothesis Ho : forall t, opened t = true <-> exists o, In o (openBoundaries (mo_mats m)) /\ o_attr o = t.
  Variable abcQ : Q * Q -> Q.
  Hypothesis Ha : forall q, abc (pt q) = Q2R (abcQ q).
  Variable held : nat -> bool.
  Hypothesis Hh : forall k, held k = true -> exists c, In c (pecs (mo_mats m)) /\ at_boundary (mesh_R ms) (p_attr c) (Z.of_nat k).
  Variables phi d : list Q.
  Hypothesis C : certified tables eps abcQ opened held phi d = true.
  Hypothesis Hv : forall c w, In c (pecs (mo_mats m)) -> at_boundary (mesh_R ms) (p_attr c) w -> Q2R (nth (Z.to_nat w) phi 0%Q) = v (p_attr c).
  Theorem certified_fields : so_phi u = map Q2R phi /\ so_d u = map Q2R d.
  Proof.
    pose proof (cross_section_regular _ _ _ kite_rules abc m Cs) as Rm. pose proof (cross_section_posed _ _ _ kite_rules abc m Cs) as W.
    rewrite Em in Rm, W.
    change (first_order segment_rule one_point_rule three_point_rule distance (mesh_R ms)) with disc in Rm, W.
    pose proof (rm_tables _ _ _ Rm) as OK. destruct (model_problem abc disc m W Rm ignore v p Cp) as (Hp & An).
    destruct rules_R as (R1 & R0 & R2).
    pose proof C as C'. unfold certified in C'. do 3 apply andb_prop in C' as (C' & _). apply andb_prop in C' as (_ & C'). apply Nat.eqb_eq in C'.
    pose proof (size_table segment_rule one_point_rule three_point_rule manhattan ms segment_rule one_point_rule three_point_rule distance) as Sz.
    change (first_order segment_rule one_point_rule three_point_rule distance (mesh_R ms)) with disc in Sz.
    assert (Ll : List.length (map Q2R phi) = di_nH1 disc) by (rewrite map_length, C'; symmetry; apply Sz).
    apply (certificate tables eps abcQ opened held phi d abc disc
      (grad_table _ _ _ manhattan ms _ _ _ distance R0) (surf_table _ _ _ manhattan ms _ _ _ distance R1 lengths)
      (rt_table _ _ _ manhattan ms _ _ _ distance R2) (mix_table _ _ _ manhattan ms _ _ _ distance R2)
      (gradient_table _ _ _ manhattan ms _ _ _ distance) Sz dbg OK p Hp An (cp_neu _ _ _ _ Cp) He); [..|exact C|exact Cu].
    - intros t. destruct (opened t) eqn:E.
      + apply zmem_in. apply Ho in E as (o & I & <-). apply (Permutation_in _ (Permutation_sym (cp_open _ _ _ _ Cp))). now apply in_map.
      + destruct (zmem t (si_open p)) eqn:Z; [|reflexivity]. apply zmem_in in Z. apply (Permutation_in _ (cp_open _ _ _ _ Cp)) in Z.
        apply in_map_iff in Z as (o & <- & I). rewrite (proj2 (Ho (o_attr o))) in E; [discriminate|eauto].
    - exact Ha.
    - intros k Hk. destruct (Hh k Hk) as (c & Ic & B). exists (p_attr c), (v (p_attr c)). split.
      + apply (cp_dir _ _ _ _ Cp). split; [eauto|reflexivity].
      + pose proof (on_touches segment_rule one_point_rule three_point_rule abc m Cs (p_attr c) k) as H. rewrite Em in H. apply H, B.
    - apply (prescribed_model abc disc m ignore v p _ Cp Ll). 
      pose proof (held_iff segment_rule one_point_rule three_point_rule abc m Cs v (map Q2R phi)) as H. rewrite Em in H. apply H. split.
      + rewrite Em. pose proof (nodal_length segment_rule one_point_rule three_point_rule abc m Cs (map Q2R phi)) as N. rewrite Em in N. apply N. exact Ll.
      + intros c w Ic B. rewrite Em in B. unfold at_vertex. rewrite <- zero_R, map_nth. apply Hv; assumption.
  Qed.
  Lemma certified_charge t : charge_on (discretize abc disc) u t (Q2R (charge_Q tables d t)).
  Proof. apply charge_R; [|apply certified_fields]. destruct rules_R as (R1 & R0 & R2). apply (flux_table _ _ _ manhattan ms _ _ _ distance R1). Qed.
End Model.
