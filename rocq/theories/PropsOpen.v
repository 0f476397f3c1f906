(** Averages on triangles (C55) and potentials of open problems (C69). *)
From Coq Require Import Reals Lra Relations Permutation.
From Verif Require Import Prelude StdMap Materials Graph ModelM Parser Matrix Multipole Solver Fem Domain Results Driver RSum ListLemmas SpecGraph SpecInput SpecModel SpecSolver SpecDriver SpecMatrix SpecCharge SpecField SpecFem
  SpecTriangles SpecOpen Triangles SolverProofs ChargeProofs FemProofs FemCalls FemFacts FemModel FemLaws FemMatrix FemMore TriProofs TriModel OpenProofs Toy Kite Hexagon Sail.
Open Scope R_scope.
Open Scope list_scope.

(** With first order elements on triangles the average potentials are the averages of the piecewise
    linear potential over the elements and boundary elements with the tag. *)
Theorem C55_averages_on_triangles :
  forall rule1 rule0 rule2 (abc : R * R -> R) (ms : mesh R) (s : solver R) (t : Z),
    exact_for_linear rule1 rule2 -> triangulation ms -> nodal ms (s_phi s) ->
    let F := discretize abc (first_order rule1 rule0 rule2 distance ms) in
    ((exists e, In e (m_elems ms) /\ e_attr e = t) ->
       average (area ms) (s_phi s) (tagged t (m_elems ms)) (getAveragePotentialInDomain F s t)) /\
    ((exists b, In b (m_bdr ms) /\ e_attr b = t) ->
       average (segment_length ms) (s_phi s) (tagged t (m_bdr ms)) (getAveragePotentialInBoundary F s t)).
Proof.
  intros rule1 rule0 rule2 abc ms s t Ex Tr Np F.
  assert (L : potential (first_order rule1 rule0 rule2 distance ms) (s_phi s)).
  { unfold potential. cbn [di_nH1 first_order].
    destruct (Nat.lt_trichotomy (List.length (s_phi s)) (nverts ms)) as [Lt | [Eq | Lt]]; [|exact Eq|]; exfalso.
    - destruct (lt_vert ms Tr _ Lt) as (e & I & J). destruct (elem_corners ms Tr e I) as (a & b & c & C).
      assert (V : vertex ms (Z.of_nat (List.length (s_phi s)))).
      { exists e. split; [exact I|]. rewrite (co_verts _ _ _ _ _ C). rewrite (co_nat _ _ _ _ _ C) in J. destruct J as [<- | [<- | [<- | []]]]; cbn; auto. }
      apply Np in V. lia.
    - assert (V : vertex ms (Z.of_nat (nverts ms))) by (apply Np; lia). destruct V as (e & I & J).
      assert (Q : In (nverts ms) (verts e)) by (unfold verts; apply in_map_iff; exists (Z.of_nat (nverts ms)); split; [apply Nat2Z.id|exact J]).
      apply (vert_lt ms e) in Q; [lia|exact I]. }
  split; intros H; [exact (domain_average rule1 rule0 rule2 Ex ms Tr abc s t L H)|exact (boundary_average rule1 rule0 rule2 Ex ms Tr abc s t L H)].
Qed.
Print Assumptions C55_averages_on_triangles.

(** Open and closed cross sections: the potential has strictly the least sum of the energy
    1/2 integral eps |grad phi|^2 and of 1/2 integral of abc phi^2 over the open boundaries. *)
Theorem C69_open_potential_of_least_energy :
  forall rule1 rule0 rule2 (abc : R * R -> R) (dbg : bool) (m : model R) (ignore : bool) (v : Z -> R) (p : solver_inputs R) (eps : Z -> R),
    rules_ok rule1 rule0 rule2 -> cross_section abc m ->
    conductor_problem (mo_mats m) ignore v p -> relative_permittivity (mo_mats m) ignore eps ->
    let F := discretize abc (first_order rule1 rule0 rule2 distance (mo_mesh m)) in
    exists s0 s W, mkSolver F dbg p = Ok s0 /\ Solve F s0 = Ok s /\
      held m v (s_phi s) /\ field_energy (mo_mesh m) eps (s_phi s) W /\
      (forall psi W', held m v psi -> psi <> s_phi s -> field_energy (mo_mesh m) eps psi W' ->
         W + absorbed rule1 abc m (s_phi s) < W' + absorbed rule1 abc m psi) /\
      (forall e g pt, In e (m_elems (mo_mesh m)) -> slope (mo_mesh m) (s_phi s) e g ->
         dot (nd_x (mo_mesh m) e pt) (s_e s) = - fst g /\ dot (nd_y (mo_mesh m) e pt) (s_e s) = - snd g).
Proof.
  intros rule1 rule0 rule2 abc dbg m ignore v p eps Ru Cs Cp He F.
  set (D := first_order rule1 rule0 rule2 distance (mo_mesh m)) in *.
  pose proof (cross_section_posed rule1 rule0 rule2 Ru abc m Cs) as W. pose proof (cross_section_regular rule1 rule0 rule2 Ru abc m Cs) as Rm. fold D in W, Rm.
  pose proof (proj1 (cs_mesh _ _ Cs)) as Tr.
  destruct (model_problem abc D m W Rm ignore v p Cp) as (Hp & An).
  destruct (computes_exists abc D (rm_tables _ _ _ Rm) dbg p Hp) as (x & Cx). pose proof Cx as (s0 & E0 & Ex).
  unfold solved_fields in Ex. apply bind_ok in Ex as (s & Es & Ex).
  assert (Exs : x = getSolution s) by (now injection Ex). subst x.
  destruct (minimal abc D (rm_tables _ _ _ Rm) dbg p _ Hp An Cx) as (sigma & Sd & L & Pr & Mi & _).
  pose proof (e_of_phi abc D (rm_tables _ _ _ Rm) dbg p _ Hp Cx) as Ee. cbn [getSolution so_phi so_e] in *.
  change (so_phi (getSolution s)) with (s_phi s) in *.
  assert (HP : forall psi, potential D psi -> (prescribed abc D p psi <-> held m v psi)).
  { intros psi Lp. rewrite (held_iff rule1 rule0 rule2 abc m Cs). fold D. unfold prescribed, has_potentials. split.
    - intros H. split; [exact Lp|]. intros c k I B Mx. apply (H (p_attr c) (v (p_attr c)) k); [apply (cp_dir _ _ _ _ Cp); eauto|exact B|].
      intros t' v' I' B'. apply (cp_dir _ _ _ _ Cp) in I' as ((c' & I' & <-) & _). exact (Mx c' I' B').
    - intros (_ & H) t x k I B Mx. apply (cp_dir _ _ _ _ Cp) in I as ((c & I & <-) & ->). apply (H c k I B).
      intros c' I' B'. apply (Mx (p_attr c') (v (p_attr c')) ); [apply (cp_dir _ _ _ _ Cp); eauto|exact B']. }
  assert (En : forall psi, energy abc D p sigma psi = / 2 * work abc D p psi psi).
  { intros psi. unfold energy. rewrite (no_source abc D p sigma psi Sd (cp_neu _ _ _ _ Cp)). ring. }
  destruct (open_work rule1 rule0 rule2 Ru abc m Cs ignore v p eps (s_phi s) Cp He L) as (W0 & F0 & Q0).
  exists s0, s, W0. split; [exact E0|]. split; [exact Es|]. split; [now apply HP|]. split; [exact F0|]. split.
  - intros psi W' Hpsi Npsi FE.
    assert (Lp : potential D psi) by (apply (nodal_length rule1 rule0 rule2 abc m Cs); exact (proj1 Hpsi)).
    destruct (open_work rule1 rule0 rule2 Ru abc m Cs ignore v p eps psi Cp He Lp) as (W1 & F1 & Q1).
    rewrite (energy_unique rule1 rule0 rule2 abc m Cs eps psi W' _ Lp FE F1). rewrite <- Q0, <- Q1. fold D. rewrite <- !En. apply Mi; [exact Lp|now apply HP|exact Npsi].
  - intros e g pt I Sl. rewrite (slope_unique rule1 rule0 rule2 (mo_mesh m) Tr e (s_phi s) g I L Sl). cbn [fst snd].
    change (s_e s) with (so_e (getSolution s)). unfold is_minus_gradient in Ee. rewrite Ee. exact (nd_minus_grad rule1 rule0 rule2 (mo_mesh m) Tr e pt (s_phi s) I L).
Qed.
Print Assumptions C69_open_potential_of_least_energy.

(** On the boundary of a conductor the average potential is that of the conductor. *)
Theorem C55_average_on_a_conductor :
  forall rule1 rule0 rule2 (abc : R * R -> R) (dbg : bool) (m : model R) (ignore : bool) (v : Z -> R) (p : solver_inputs R) (eps : Z -> R),
    rules_ok rule1 rule0 rule2 -> exact_for_linear rule1 rule2 -> cross_section abc m ->
    conductor_problem (mo_mats m) ignore v p -> relative_permittivity (mo_mats m) ignore eps ->
    let F := discretize abc (first_order rule1 rule0 rule2 distance (mo_mesh m)) in
    exists s0 s, mkSolver F dbg p = Ok s0 /\ Solve F s0 = Ok s /\
      forall c, In c (pecs (mo_mats m)) -> getAveragePotentialInBoundary F s (p_attr c) = v (p_attr c).
Proof.
  intros rule1 rule0 rule2 abc dbg m ignore v p eps Ru Ex Cs Cp He F.
  destruct (C69_open_potential_of_least_energy rule1 rule0 rule2 abc dbg m ignore v p eps Ru Cs Cp He) as (s0 & s & W & E0 & Es & (Np & Hv) & _).
  exists s0, s. split; [exact E0|]. split; [exact Es|]. intros c I. pose proof (proj1 (cs_mesh _ _ Cs)) as Tr.
  destruct (cs_conductors _ _ Cs) as (_ & _ & H). destruct (H c I) as (w & b & Ib & Eb & _).
  destruct (C55_averages_on_triangles rule1 rule0 rule2 abc (mo_mesh m) s (p_attr c) Ex Tr Np) as (_ & A).
  destruct A as (P & A); [eauto|]. fold F in A. rewrite A.
  rewrite (Rsum_ext _ _ (fun e => segment_length (mo_mesh m) e * v (p_attr c))); [rewrite Rsum_scal_r; field; lra|].
  intros e J. apply in_tagged in J as (J & Ee). f_equal. destruct (tr_bdr _ Tr e J) as (_ & x & y & f & Ev & _). unfold mean. rewrite Ev.
  assert (Q : forall k, In k [x; y] -> at_vertex (s_phi s) k = v (p_attr c)) by (intros k K; apply Hv; [exact I|]; exists e; rewrite Ev; auto).
  unfold Rsum. cbn. rewrite !Q by (cbn; auto). field.
Qed.
Print Assumptions C55_average_on_a_conductor.

Lemma kite_linear : exact_for_linear (segment_rule (T:=R)) three_point_rule.
Proof. constructor; repeat split; unfold Rsum, segment_rule, three_point_rule, c6, c3, c2; cbn [fold_right map fst snd nadd nmul ndiv n0 n1 RNum]; field. Qed.
(** On the quadrilateral of two triangles with the potentials 0, 0, 1, 1 at the vertices: the means
    1/3 and 2/3 on triangles of the areas 1/2 and 5/2; 1 on the boundary with tag 1. *)
Example C55_triangles_example : forall (abc : R * R -> R) (s : solver R), s_phi s = [0; 0; 1; 1] ->
  let F := discretize abc (first_order segment_rule one_point_rule three_point_rule distance kite_mesh) in
  exact_for_linear (segment_rule (T:=R)) three_point_rule /\ triangulation kite_mesh /\ nodal kite_mesh (s_phi s) /\
  getAveragePotentialInDomain F s 3 = 11 / 18 /\ getAveragePotentialInBoundary F s 1 = 1.
Proof.
  intros abc s E F. split; [exact kite_linear|]. split; [exact kite_triangulation|].
  assert (N : nodal kite_mesh (s_phi s)) by (intros v; rewrite kite_vertex, E; cbn; lia). split; [exact N|].
  destruct (C55_averages_on_triangles _ one_point_rule _ abc kite_mesh s 3 kite_linear kite_triangulation N) as (A & _).
  destruct (C55_averages_on_triangles _ one_point_rule _ abc kite_mesh s 1 kite_linear kite_triangulation N) as (_ & B).
  destruct A as (_ & A); [eexists; split; [left; reflexivity|reflexivity]|]. destruct B as (P & B); [eexists; split; [right; left; reflexivity|reflexivity]|].
  split.
  - fold F in A. rewrite A, E. clear. cbv -[Rplus Rmult Ropp Rinv Rminus Rdiv IZR]. field.
  - fold F in B. rewrite B, E. revert P. unfold Rsum, mean, tagged. cbn [m_bdr kite_mesh filter e_attr Z.eqb Pos.eqb fold_right e_verts List.length INR]. unfold at_vertex.
    change (Rsum [2%Z; 3%Z] (fun v : Z => nth (Z.to_nat v) [0; 0; 1; 1] 0)) with (1 + (1 + 0)). set (l := segment_length _ _). clearbody l. intros P. field. lra.
Qed.
(** An open problem: a triangle with a conductor on one side and an open boundary on another one. *)
Example C69_open_example : forall (v : Z -> R),
  rules_ok (segment_rule (T:=R)) one_point_rule three_point_rule /\ cross_section firstOrderABC (sail_model (1 / 2)) /\
  openBoundaries (mo_mats (sail_model (1 / 2))) <> [] /\
  (exists p, conductor_problem (mo_mats (sail_model (1 / 2))) false v p) /\ relative_permittivity (mo_mats (sail_model (1 / 2))) false (fun _ => 1).
Proof.
  intros v. assert (H : 0 < 1 / 2 <= 1 / 2) by lra. split; [exact kite_rules|]. split; [exact (sail_section _ H)|]. split; [discriminate|]. split.
  - destruct (problem_exists firstOrderABC (kite_disc distance (sail_mesh (1 / 2)) 1) (sail_model (1 / 2)) (sail_posed _ H) false v) as (p & Cp). now exists p.
  - split; [|reflexivity]. intros t er (l1 & q & l2 & El & <- & _ & ->). destruct l1 as [|? [|? l1]]; cbn in El; try discriminate. now injection El as <- _.
Qed.
