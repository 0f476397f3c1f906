(** Properties C73, C74, C75: range of the potentials, permittivities and refinements, in closed
    problems with first order elements on triangles. *)
From Coq Require Import Reals Lra Relations Permutation.
From Verif Require Import Prelude StdMap Materials Graph ModelM Parser Matrix Multipole Solver Fem Domain Results Driver RSum ListLemmas SpecGraph SpecInput SpecModel SpecSolver SpecDriver SpecMatrix SpecCharge SpecField SpecFem
  SpecTriangles SpecOpen SpecEnergy SpecExact Triangles SolverProofs ChargeProofs FemProofs FemCalls FemFacts FemModel FemLaws FemMatrix FemMore TriProofs TriModel OpenProofs EnergyProofs ExactProofs Toy Kite Hexagon Plates Spike
  PropsTriangles PropsOpen.
Open Scope R_scope.
Open Scope list_scope.

(** ** C73 *)
(** The full statement: all potentials, and the average potentials in the domain, lie between those of the
    conductors. Proved for triangles without obtuse angles. *)
Definition between (lo hi : R) (ms : mesh R) (F : fem R) (s : solver R) : Prop :=
  (forall k, vertex ms k -> lo <= at_vertex (s_phi s) k <= hi) /\
  forall t, (exists e, In e (m_elems ms) /\ e_attr e = t) -> lo <= getAveragePotentialInDomain F s t <= hi.
Theorem C73_potentials_between_those_of_the_conductors_partial :
  forall rule1 rule0 rule2 (abc : R * R -> R) (dbg : bool) (m : model R) (ignore : bool) (v : Z -> R) (p : solver_inputs R) (eps : Z -> R) (lo hi : R),
    rules_ok rule1 rule0 rule2 -> exact_for_linear rule1 rule2 -> cross_section abc m -> openBoundaries (mo_mats m) = [] ->
    conductor_problem (mo_mats m) ignore v p -> relative_permittivity (mo_mats m) ignore eps ->
    no_obtuse_angles (mo_mesh m) -> (forall c, In c (pecs (mo_mats m)) -> lo <= v (p_attr c) <= hi) ->
    let F := discretize abc (first_order rule1 rule0 rule2 distance (mo_mesh m)) in
    exists s0 s, mkSolver F dbg p = Ok s0 /\ Solve F s0 = Ok s /\ between lo hi (mo_mesh m) F s.
Proof.
  intros rule1 rule0 rule2 abc dbg m ignore v p eps lo hi Ru El Cs Eo Cp He No Hv F.
  pose proof (proj1 (cs_mesh _ _ Cs)) as Tr.
  destruct (C69_piecewise_linear_potential_of_least_energy rule1 rule0 rule2 abc dbg m ignore v p eps Ru Cs Eo Cp He) as (s0 & s & W & E0 & Es & (Ns & Hs) & FE & _ & Mi & _).
  exists s0, s. split; [exact E0|]. split; [exact Es|].
  assert (H : lo <= hi).
  { destruct (cs_conductors _ _ Cs) as (Ne & _). destruct (pecs (mo_mats m)) as [|c l]; [easy|]. specialize (Hv c (or_introl eq_refl)). lra. }
  assert (V : forall k, vertex (mo_mesh m) k -> lo <= at_vertex (s_phi s) k <= hi).
  { destruct (nodal_list rule1 rule0 rule2 abc m (fun k => clamp lo hi (at_vertex (s_phi s) k)) Ru Cs) as (psi & Np & Vp).
    destruct (energy_exists (mo_mesh m) eps psi Tr Np) as (W' & FE').
    pose proof (clamped_energy (mo_mesh m) eps (s_phi s) psi W W' lo hi Tr No H (fun e _ => relative_positive abc m ignore eps Cs He (e_attr e)) Vp FE FE') as Le.
    destruct (list_eq_dec Req_EM_T psi (s_phi s)) as [E | N].
    - intros k Hk. rewrite <- E, (Vp k Hk). now apply clamp_in.
    - exfalso. assert (Hp : held m v psi).
      { split; [exact Np|]. intros c w Ic B.
        assert (Vw : vertex (mo_mesh m) w).
        { destruct B as (b & Ib & _ & Jb). destruct (tr_bdr _ Tr b Ib) as (_ & a & c' & e & Ev & Ie & (x1 & x2 & x3 & Ee & S)).
          exists e. split; [exact Ie|]. rewrite Ee. rewrite Ev in Jb. destruct S as [S | [S | S]]; injection S as -> ->; cbn in Jb |- *; tauto. }
        rewrite (Vp w Vw), (Hs c w Ic B). apply clamp_id. now apply Hv. }
      specialize (Mi psi W' Hp N FE'). lra. }
  split; [exact V|]. intros t (e & I & Et).
  destruct (C55_averages_on_triangles rule1 rule0 rule2 abc (mo_mesh m) s t El Tr Ns) as (A & _). destruct A as (Pa & A); [eauto|]. fold F in A. rewrite A.
  assert (M : forall f, In f (tagged t (m_elems (mo_mesh m))) -> 0 <= area (mo_mesh m) f /\ lo <= mean (s_phi s) f <= hi).
  { intros f J. apply in_tagged in J as (J & _). destruct (tr_elem _ Tr f J) as (_ & a & b & c & E & _ & _ & _ & Ar). split; [lra|]. unfold mean. rewrite E. unfold Rsum. cbn.
    assert (Va : vertex (mo_mesh m) a) by (exists f; split; [exact J|rewrite E; cbn; auto]).
    assert (Vb : vertex (mo_mesh m) b) by (exists f; split; [exact J|rewrite E; cbn; auto]).
    assert (Vc : vertex (mo_mesh m) c) by (exists f; split; [exact J|rewrite E; cbn; auto]).
    pose proof (V a Va). pose proof (V b Vb). pose proof (V c Vc). lra. }
  set (T := Rsum (tagged t (m_elems (mo_mesh m))) (area (mo_mesh m))) in *. set (S := Rsum _ (fun e => area (mo_mesh m) e * _)).
  assert (B : lo * T <= S <= hi * T).
  { unfold S, T. rewrite <- !Rsum_scal. split; apply Rsum_le; intros f J; destruct (M f J) as (M1 & M2); rewrite (Rmult_comm _ (area _ f)); apply Rmult_le_compat_l; lra. }
  split; apply (Rmult_le_reg_r T); try exact Pa; unfold Rdiv; rewrite Rmult_assoc, Rinv_l by lra; lra.
Qed.
Print Assumptions C73_potentials_between_those_of_the_conductors_partial.
(** With an obtuse angle it fails: conductors at 0 V and 1 V, a vertex at 2 V. *)
Theorem C73_potentials_between_those_of_the_conductors_refuted :
  exists rule1 rule0 rule2 (m : model R) (v : Z -> R), forall (abc : R * R -> R) (dbg : bool), exists (p : solver_inputs R) (eps : Z -> R),
    rules_ok rule1 rule0 rule2 /\ exact_for_linear rule1 rule2 /\ cross_section abc m /\ openBoundaries (mo_mats m) = [] /\
    conductor_problem (mo_mats m) false v p /\ relative_permittivity (mo_mats m) false eps /\
    (forall c, In c (pecs (mo_mats m)) -> 0 <= v (p_attr c) <= 1) /\
    let F := discretize abc (first_order rule1 rule0 rule2 distance (mo_mesh m)) in
    exists s0 s, mkSolver F dbg p = Ok s0 /\ Solve F s0 = Ok s /\ exists k, vertex (mo_mesh m) k /\ at_vertex (s_phi s) k = 2.
Proof.
  exists segment_rule, one_point_rule, three_point_rule, spike_model, (fun t => if (t =? 2)%Z then 1 else 0). intros abc dbg.
  pose proof (cross_section_posed _ _ _ kite_rules abc spike_model (spike_section abc)) as Wp.
  destruct (problem_exists abc (kite_disc distance spike_mesh 1) spike_model Wp false (fun t => if (t =? 2)%Z then 1 else 0)) as (p & Cp).
  exists p, (fun _ => 1). split; [exact kite_rules|]. split; [exact kite_linear|]. split; [exact (spike_section abc)|]. split; [reflexivity|]. split; [exact Cp|].
  assert (He : relative_permittivity (mo_mats spike_model) false (fun _ => 1)).
  { split; [|reflexivity]. intros t er (l1 & q & l2 & El & <- & _ & ->). destruct l1 as [|? [|? l1]]; cbn in El; try discriminate. now injection El as <- _. }
  split; [exact He|]. split; [intros c [<- | [<- | []]]; cbn; lra|]. intros F.
  destruct (C69_piecewise_linear_potential_of_least_energy _ _ _ abc dbg spike_model false _ p (fun _ => 1) kite_rules (spike_section abc) eq_refl Cp He) as (s0 & s & W & E0 & Es & (Ns & Hs) & FE & _ & Mi & _).
  exists s0, s. split; [exact E0|]. split; [exact Es|]. exists 2%Z. split; [apply spike_vertex; lia|].
  assert (L : List.length (s_phi s) = 5%nat) by (exact (nodal_nverts spike_mesh (s_phi s) spike_triangulation Ns)).
  destruct (len5 _ L) as (a & b & x & c & d & E). rewrite E in *.
  assert (B0 : at_boundary spike_mesh 1 0) by (apply spike_at; lia). assert (B3 : at_boundary spike_mesh 1 3) by (apply spike_at; lia).
  assert (B4 : at_boundary spike_mesh 2 4) by (apply spike_at; lia). assert (B1 : at_boundary spike_mesh 2 1) by (apply spike_at; lia).
  assert (Ea : a = 0) by exact (Hs {| p_name := "Conductor_0"; p_attr := 1; p_area := 1 |} 0%Z (or_intror (or_introl eq_refl)) B0).
  assert (Ec : c = 0) by exact (Hs {| p_name := "Conductor_0"; p_attr := 1; p_area := 1 |} 3%Z (or_intror (or_introl eq_refl)) B3).
  assert (Eb : b = 1) by exact (Hs {| p_name := "Conductor_1"; p_attr := 2; p_area := 1 |} 1%Z (or_introl eq_refl) B1).
  assert (Ed : d = 1) by exact (Hs {| p_name := "Conductor_1"; p_attr := 2; p_area := 1 |} 4%Z (or_introl eq_refl) B4).
  subst a b c d. change (at_vertex [0; 1; x; 0; 1] 2) with x.
  destruct (Req_dec x 2) as [-> | N]; [reflexivity|]. exfalso.
  assert (N2 : nodal spike_mesh [0; 1; 2; 0; 1]) by (intros k; rewrite spike_vertex; cbn; lia).
  destruct (energy_exists spike_mesh (fun _ => 1) _ spike_triangulation N2) as (W' & FE').
  assert (Hp : held spike_model (fun t => if (t =? 2)%Z then 1 else 0) [0; 1; 2; 0; 1]).
  { split; [exact N2|]. intros c w [<- | [<- | []]] B; apply spike_at in B; destruct B as [(Et & [-> | ->]) | (Et & [-> | ->])]; cbn in Et; try lia; reflexivity. }
  assert (Nl : [0; 1; 2; 0; 1] <> [0; 1; x; 0; 1]) by congruence.
  specialize (Mi _ W' Hp Nl FE'). rewrite (spike_energy _ _ FE), (spike_energy _ _ FE') in Mi.
  pose proof (Rle_0_sqr (x - 2)) as Sq. unfold Rsqr in Sq. lra.
Qed.
Print Assumptions C73_potentials_between_those_of_the_conductors_refuted.

(** ** C74 *)
(** Raising permittivities never lowers the energy. *)
Theorem C74_energy_grows_with_the_permittivity :
  forall rule1 rule0 rule2 (abc : R * R -> R) (dbg : bool) (m m' : model R) (ignore ignore' : bool) (v : Z -> R) (p p' : solver_inputs R) (eps eps' : Z -> R),
    rules_ok rule1 rule0 rule2 -> cross_section abc m -> cross_section abc m' ->
    openBoundaries (mo_mats m) = [] -> openBoundaries (mo_mats m') = [] ->
    conductor_problem (mo_mats m) ignore v p -> conductor_problem (mo_mats m') ignore' v p' ->
    relative_permittivity (mo_mats m) ignore eps -> relative_permittivity (mo_mats m') ignore' eps' ->
    mo_mesh m' = mo_mesh m -> (forall c, In c (pecs (mo_mats m')) <-> In c (pecs (mo_mats m))) ->
    (forall e, In e (m_elems (mo_mesh m)) -> eps (e_attr e) <= eps' (e_attr e)) ->
    let F := discretize abc (first_order rule1 rule0 rule2 distance (mo_mesh m)) in
    exists s0 s W s0' s' W',
      mkSolver F dbg p = Ok s0 /\ Solve F s0 = Ok s /\ getTotalEnergy F s = Ok W /\
      mkSolver F dbg p' = Ok s0' /\ Solve F s0' = Ok s' /\ getTotalEnergy F s' = Ok W' /\ W <= W'.
Proof.
  intros rule1 rule0 rule2 abc dbg m m' ignore ignore' v p p' eps eps' Ru Cs Cs' Eo Eo' Cp Cp' He He' Em Ec Le F.
  destruct (C69_piecewise_linear_potential_of_least_energy rule1 rule0 rule2 abc dbg m ignore v p eps Ru Cs Eo Cp He) as (s0 & s & W & E0 & Es & Hs & FE & Te & Mi & _).
  destruct (C69_piecewise_linear_potential_of_least_energy rule1 rule0 rule2 abc dbg m' ignore' v p' eps' Ru Cs' Eo' Cp' He') as (s0' & s' & W' & E0' & Es' & Hs' & FE' & Te' & _).
  rewrite Em in *. exists s0, s, W, s0', s', W'. repeat (split; [assumption|]).
  pose proof (proj1 (cs_mesh _ _ Cs)) as Tr.
  assert (Hs'' : held m v (s_phi s')).
  { destruct Hs' as (N & H). split; [now rewrite Em in N|]. intros c w Ic B. apply H; [now apply Ec|]. now rewrite Em. }
  destruct (energy_exists (mo_mesh m) eps (s_phi s') Tr (proj1 Hs'')) as (W1 & FE1).
  assert (L1 : W1 <= W').
  { destruct FE1 as (g & Sg & ->). destruct FE' as (g' & Sg' & ->). apply Rsum_le. intros e I.
    pose proof (nodal_nverts _ _ Tr (proj1 Hs'')) as L.
    rewrite (slope_unique rule1 rule0 rule2 (mo_mesh m) Tr e (s_phi s') (g e) I L (Sg e I)), (slope_unique rule1 rule0 rule2 (mo_mesh m) Tr e (s_phi s') (g' e) I L (Sg' e I)).
    destruct (tr_elem _ Tr e I) as (_ & _ & _ & _ & _ & _ & _ & _ & Ar). specialize (Le e I). apply Rmult_le_compat_r; [lra|]. apply Rmult_le_compat_r; [|lra].
    pose proof (Rle_0_sqr (fst (gx (mo_mesh m) e (s_phi s'), gy (mo_mesh m) e (s_phi s')))). pose proof (Rle_0_sqr (snd (gx (mo_mesh m) e (s_phi s'), gy (mo_mesh m) e (s_phi s')))). unfold Rsqr in *. lra. }
  destruct (list_eq_dec Req_EM_T (s_phi s') (s_phi s)) as [E | N].
  - rewrite E in FE1. rewrite (energy_unique rule1 rule0 rule2 abc m Cs eps (s_phi s) W W1); [exact L1|exact (nodal_nverts _ _ Tr (proj1 Hs))|exact FE|exact FE1].
  - specialize (Mi (s_phi s') W1 Hs'' N FE1). lra.
Qed.
Print Assumptions C74_energy_grows_with_the_permittivity.

(** ** C75 *)
(** Refining the mesh never raises the energy. *)
Theorem C75_refinements_do_not_raise_the_energy :
  forall rule1 rule0 rule2 (abc : R * R -> R) (dbg : bool) (m m' : model R) (ignore : bool) (v : Z -> R) (p : solver_inputs R) (eps : Z -> R)
         (parts : list (element R * list (element R))) (shares : Z -> list (Z * R)),
    rules_ok rule1 rule0 rule2 -> cross_section abc m -> cross_section abc m' ->
    mo_mats m' = mo_mats m -> openBoundaries (mo_mats m) = [] ->
    conductor_problem (mo_mats m) ignore v p -> relative_permittivity (mo_mats m) ignore eps ->
    refines (mo_mesh m) (mo_mesh m') (map p_attr (pecs (mo_mats m))) parts shares ->
    let F := discretize abc (first_order rule1 rule0 rule2 distance (mo_mesh m)) in
    let F' := discretize abc (first_order rule1 rule0 rule2 distance (mo_mesh m')) in
    exists s0 s W s0' s' W',
      mkSolver F dbg p = Ok s0 /\ Solve F s0 = Ok s /\ getTotalEnergy F s = Ok W /\
      mkSolver F' dbg p = Ok s0' /\ Solve F' s0' = Ok s' /\ getTotalEnergy F' s' = Ok W' /\ W' <= W.
Proof.
  intros rule1 rule0 rule2 abc dbg m m' ignore v p eps parts shares Ru Cs Cs' Em Eo Cp He Re F F'.
  destruct (C69_piecewise_linear_potential_of_least_energy rule1 rule0 rule2 abc dbg m ignore v p eps Ru Cs Eo Cp He) as (s0 & s & W & E0 & Es & Hs & FE & Te & _).
  assert (Cp' : conductor_problem (mo_mats m') ignore v p) by now rewrite Em. assert (He' : relative_permittivity (mo_mats m') ignore eps) by now rewrite Em.
  assert (Eo' : openBoundaries (mo_mats m') = []) by now rewrite Em.
  destruct (C69_piecewise_linear_potential_of_least_energy rule1 rule0 rule2 abc dbg m' ignore v p eps Ru Cs' Eo' Cp' He') as (s0' & s' & W' & E0' & Es' & Hs' & FE' & Te' & Mi & _).
  exists s0, s, W, s0', s', W'. repeat (split; [assumption|]).
  pose proof (proj1 (cs_mesh _ _ Cs)) as Tr. pose proof (proj1 (cs_mesh _ _ Cs')) as Tr'.
  destruct (nodal_list rule1 rule0 rule2 abc m' (fun k => Rsum (shares k) (fun q => snd q * at_vertex (s_phi s) (fst q))) Ru Cs') as (psi & Np & Vp).
  pose proof (refined_energy _ _ _ _ _ eps (s_phi s) psi W Re Tr Tr' Np Vp FE) as FP.
  assert (Hp : held m' v psi).
  { split; [exact Np|]. rewrite Em. intros c w Ic B.
    assert (Vw : vertex (mo_mesh m') w).
    { destruct B as (b & Ib & _ & Jb). destruct (tr_bdr _ Tr' b Ib) as (_ & a & c' & e & Ev & Ie & (x1 & x2 & x3 & Ee & S)).
      exists e. split; [exact Ie|]. rewrite Ee. rewrite Ev in Jb. destruct S as [S | [S | S]]; injection S as -> ->; cbn in Jb |- *; tauto. }
    rewrite (Vp w Vw). rewrite (Rsum_ext _ _ (fun q => snd q * v (p_attr c))).
    - rewrite Rsum_scal_r, (proj1 (re_point _ _ _ _ _ Re w Vw)). ring.
    - intros q Iq. f_equal. apply (proj2 Hs c); [exact Ic|]. apply (re_boundary _ _ _ _ _ Re (p_attr c) w); [now apply in_map|exact B|now apply in_map]. }
  destruct (list_eq_dec Req_EM_T psi (s_phi s')) as [E | N].
  - rewrite E in FP. rewrite (energy_unique rule1 rule0 rule2 abc m' Cs' eps (s_phi s') W' W); [lra|exact (nodal_nverts _ _ Tr' (proj1 Hs'))|exact FE'|exact FP].
  - specialize (Mi psi W Hp N FP). lra.
Qed.
Print Assumptions C75_refinements_do_not_raise_the_energy.

(** ** The hypotheses are met *)
(** C73: two layers between plates, right triangles. *)
Example C73_example : forall (abc : R * R -> R) (v : Z -> R),
  rules_ok (segment_rule (T:=R)) one_point_rule three_point_rule /\ exact_for_linear (segment_rule (T:=R)) three_point_rule /\
  cross_section abc plates_model /\ openBoundaries plates_mats = [] /\ (exists p, conductor_problem plates_mats false v p) /\
  relative_permittivity plates_mats false plates_eps /\ no_obtuse_angles plates_mesh.
Proof.
  intros abc v. split; [exact kite_rules|]. split; [exact kite_linear|]. split; [exact (plates_section abc)|]. split; [reflexivity|]. split.
  { pose proof (cross_section_posed _ _ _ kite_rules abc plates_model (plates_section abc)) as Wp.
    destruct (problem_exists abc (kite_disc distance plates_mesh 1) plates_model Wp false v) as (p & Cp). now exists p. }
  split; [exact plates_permittivity|]. intros e a b c I Ia Ib Ic. unfold not_obtuse.
  cbn [m_elems plates_mesh In] in I. destruct I as [<- | [<- | [<- | [<- | []]]]]; cbn [e_verts In] in Ia, Ib, Ic;
    destruct Ia as [<- | [<- | [<- | []]]]; destruct Ib as [<- | [<- | [<- | []]]]; destruct Ic as [<- | [<- | [<- | []]]]; cbn; lra.
Qed.
(** C74: the quadrilateral with permittivities 1 and 2; C75: the quadrilateral and its four parts. *)
Example C74_example : forall (abc : R * R -> R) (v : Z -> R),
  cross_section abc (kite_model 1) /\ cross_section abc (kite_model 2) /\ mo_mesh (kite_model 2) = mo_mesh (kite_model 1) /\
  (exists p, conductor_problem (mo_mats (kite_model 1)) false v p) /\ (exists p, conductor_problem (mo_mats (kite_model 2)) false v p) /\
  relative_permittivity (mo_mats (kite_model 1)) false (fun _ => 1) /\ relative_permittivity (mo_mats (kite_model 2)) false (fun t => if (t =? 3)%Z then 2 else 1) /\
  (forall c, In c (pecs (mo_mats (kite_model 2))) <-> In c (pecs (mo_mats (kite_model 1)))) /\
  forall e, In e (m_elems (T:=R) kite_mesh) -> 1 <= if (e_attr e =? 3)%Z then 2 else 1.
Proof.
  intros abc v. assert (P1 : 0 < 1) by lra. assert (P2 : 0 < 2) by lra.
  split; [exact (kite_section abc 1 P1)|]. split; [exact (kite_section abc 2 P2)|]. split; [reflexivity|].
  split; [destruct (problem_exists abc (kite_disc distance kite_mesh 1) (kite_model 1) (kite_posed abc 1 P1) false v) as (p & Cp); now exists p|].
  split; [destruct (problem_exists abc (kite_disc distance kite_mesh 1) (kite_model 2) (kite_posed abc 2 P2) false v) as (p & Cp); now exists p|].
  split. { split; [|reflexivity]. intros t er (l1 & q & l2 & El & <- & _ & ->). destruct l1 as [|? [|? l1]]; cbn in El; try discriminate. now injection El as <- _. }
  split.
  { split.
    - intros t er (l1 & q & l2 & El & <- & _ & ->). destruct l1 as [|? [|? l1]]; cbn in El; try discriminate. now injection El as <- _.
    - intros t N. destruct (Z.eqb_spec t 3) as [-> | _]; [|reflexivity]. exfalso. apply N. cbn. auto. }
  split; [intros c; apply iff_refl|]. intros e _. destruct (_ =? _)%Z; lra.
Qed.
Example C75_example : forall (abc : R * R -> R) (v : Z -> R),
  cross_section abc (kite_model 2) /\ cross_section abc (fine_model 2) /\ mo_mats (fine_model 2) = mo_mats (kite_model 2) /\
  (exists p, conductor_problem (mo_mats (kite_model 2)) false v p) /\
  refines (mo_mesh (kite_model 2)) (mo_mesh (fine_model 2)) (map p_attr (pecs (mo_mats (kite_model 2)))) kite_parts kite_shares.
Proof.
  intros abc v. assert (P2 : 0 < 2) by lra. split; [exact (kite_section abc 2 P2)|]. split; [exact (fine_section abc 2 P2)|]. split; [reflexivity|].
  split; [destruct (problem_exists abc (kite_disc distance kite_mesh 1) (kite_model 2) (kite_posed abc 2 P2) false v) as (p & Cp); now exists p|].
  destruct fine_refines as [A B C D E]. constructor; [exact A|exact B|exact C|exact D|]. intros t w I. apply E. cbn in I |- *. tauto.
Qed.
