(** C55 and C85 with elements of any order: averages of the potential, and open problems. *)
From Coq Require Import Reals Lra Permutation Relations.
From Verif Require Import Prelude StdMap Materials Graph ModelM Parser Matrix Multipole Solver Fem Domain Results Driver RSum LinAlg
  SpecInput SpecModel SpecSolver SpecDriver SpecMatrix SpecCharge SpecField SpecFem SpecTriangles SpecOpen SpecElements SpecAverages Triangles Elements RefElements ListLemmas
  FemProofs FemCalls FemFacts FemModel FemLaws FemDriver FemMatrix FemMore TriProofs TriModel OpenProofs ElemProofs ElemTables ElemModel ElemFields ElemOpen RefProofs Boole Toy Kite Hexagon Sail PropsElements PropsOpen.
Open Scope R_scope.
Open Scope list_scope.

(** The average potentials are the integrals of the potential, over the elements or along the boundary elements
    with the tag, divided by the integral of 1. *)
Theorem C55_averages_at_any_order :
  forall (ref : reference R) (abc : R * R -> R) (ms : mesh R) (s : solver R) (t : Z) (u : element R -> R -> R),
    reference_ok ref -> triangulation ms -> List.length (s_phi s) = n_h1 ref ms -> values_along ref ms (s_phi s) u ->
    let F := discretize abc (elements ref distance ms) in
    ((exists e, In e (m_elems ms) /\ e_attr e = t) ->
       0 < integral_in ref ms t (fun _ _ => 1) /\
       getAveragePotentialInDomain F s t = integral_in ref ms t (value_in ref ms (s_phi s)) / integral_in ref ms t (fun _ _ => 1)) /\
    ((exists b, In b (m_bdr ms) /\ e_attr b = t) ->
       0 < Rsum (tagged t (m_bdr ms)) (segment_length ms) /\
       getAveragePotentialInBoundary F s t = integral_on ref ms t u / Rsum (tagged t (m_bdr ms)) (segment_length ms)).
Proof.
  intros ref abc ms s t u Ro Tr L V F.
  split; intros H; [exact (el_domain_average ref Ro ms Tr abc s t L H)|exact (el_boundary_average ref Ro ms Tr abc s t u L V H)].
Qed.
(** Open and closed cross sections: the solver finds the continuous potential that has the potentials [v] in every
    point of the conductors and strictly the least sum of the energy and of 1/2 integral of abc phi^2 over the
    open boundaries; it reports the energy without the latter. *)
Theorem C85_open_potential_of_least_energy :
  forall (ref : reference R) (abc : R * R -> R) (dbg : bool) (m : model R) (ignore : bool) (v : Z -> R) (p : solver_inputs R) (eps : Z -> R),
    reference_ok ref -> cross_section abc m ->
    conductor_problem (mo_mats m) ignore v p -> relative_permittivity (mo_mats m) ignore eps ->
    let ms := mo_mesh m in let F := discretize abc (elements ref distance ms) in
    exists s0 s u, mkSolver F dbg p = Ok s0 /\ Solve F s0 = Ok s /\
      held_along ref ms (mo_mats m) v (s_phi s) /\ continuous ref ms (s_phi s) /\
      getTotalEnergy F s = Ok (energy_by_rule ref ms eps (s_phi s)) /\ values_along ref ms (s_phi s) u /\
      (forall psi u', held_along ref ms (mo_mats m) v psi -> psi <> s_phi s -> values_along ref ms psi u' ->
         energy_by_rule ref ms eps (s_phi s) + absorbed_by_rule ref abc m u < energy_by_rule ref ms eps psi + absorbed_by_rule ref abc m u').
Proof.
  intros ref abc dbg m ignore v p eps Ro Cs Cp He ms F.
  destruct (element_fields ref abc dbg m ignore v p eps Ro Cs Cp He) as (s0 & s & E0 & Es & Ep & Hp & An & Cx).
  set (D := elements ref distance ms) in *.
  pose proof (elements_regular ref Ro abc m Cs) as Rm. fold ms D in Rm. pose proof (proj1 (cs_mesh _ _ Cs)) as Tr. fold ms in Tr.
  pose proof Cx as Cx'. rewrite <- Ep in Cx' at 1. pose proof Cp as Cp'. rewrite <- Ep in Cp'.
  pose proof (el_reported ref Ro abc m Cs dbg ignore v s eps Cp' He Cx') as Er.
  destruct (minimal abc D (rm_tables _ _ _ Rm) dbg p _ Hp An Cx) as (sigma & Sd & L & Pr & Mi & _). cbn [getSolution so_phi so_e] in *.
  assert (HP : forall psi, potential D psi -> (prescribed abc D p psi <-> held_along ref ms (mo_mats m) v psi)).
  { intros psi Lp. unfold ms. rewrite (held_along_iff ref Ro abc m Cs). exact (prescribed_model abc D m ignore v p psi Cp Lp). }
  assert (En : forall psi w, potential D psi -> values_along ref ms psi w -> energy abc D p sigma psi = energy_by_rule ref ms eps psi + absorbed_by_rule ref abc m w).
  { intros psi w Lp Vw. unfold energy. rewrite (no_source abc D p sigma psi Sd (cp_neu _ _ _ _ Cp)).
    pose proof (el_open_work ref Ro abc m Cs ignore v p eps psi w Cp He Lp Vw) as K. fold ms in K. fold D in K. rewrite <- K. ring. }
  set (u := fun b r => dot (re_seg ref r) (values (s_phi s) (bdr_dofs ref ms b))).
  assert (Vu : values_along ref ms (s_phi s) u).
  { intros b r I Hr. destruct (bdr_side abc m Cs b I) as (v1 & v2 & x & Ev & T & S). destruct (S r) as (q & Sq). exists v1, v2, x, q. split; [exact Ev|]. split; [exact T|]. split; [exact Sq|].
    destruct (value_on_side ref Ro ms Tr (s_phi s) x v1 v2 r q T L Sq) as (-> & _). exact (f_equal (dot (re_seg ref r)) (bdr_values ref m b v1 v2 (s_phi s) I Ev)). }
  exists s0, s, u. split; [exact E0|]. split; [exact Es|]. split; [now apply HP|]. split; [exact (elements_continuous ref Ro ms Tr (s_phi s) L)|]. split; [exact Er|]. split; [exact Vu|].
  intros psi u' Hpsi Npsi Vu'. assert (Lp : potential D psi) by (exact (proj1 Hpsi)). rewrite <- (En _ u L Vu), <- (En psi u' Lp Vu'). apply Mi; [exact Lp|now apply HP|exact Npsi].
Qed.
(** On the boundary of a conductor the average potential is that of the conductor. *)
Theorem C55_average_on_a_conductor_at_any_order :
  forall (ref : reference R) (abc : R * R -> R) (dbg : bool) (m : model R) (ignore : bool) (v : Z -> R) (p : solver_inputs R) (eps : Z -> R),
    reference_ok ref -> cross_section abc m ->
    conductor_problem (mo_mats m) ignore v p -> relative_permittivity (mo_mats m) ignore eps ->
    let F := discretize abc (elements ref distance (mo_mesh m)) in
    exists s0 s, mkSolver F dbg p = Ok s0 /\ Solve F s0 = Ok s /\
      forall c, In c (pecs (mo_mats m)) -> getAveragePotentialInBoundary F s (p_attr c) = v (p_attr c).
Proof.
  intros ref abc dbg m ignore v p eps Ro Cs Cp He F.
  destruct (C85_open_potential_of_least_energy ref abc dbg m ignore v p eps Ro Cs Cp He) as (s0 & s & u & E0 & Es & (L & Hv) & _ & _ & Vu & _).
  exists s0, s. split; [exact E0|]. split; [exact Es|]. intros c I. pose proof (proj1 (cs_mesh _ _ Cs)) as Tr.
  destruct (cs_conductors _ _ Cs) as (_ & _ & H). destruct (H c I) as (w & b & Ib & Eb & _).
  destruct (el_boundary_average ref Ro (mo_mesh m) Tr abc s (p_attr c) u L Vu) as (P & A); [eauto|]. fold F in A. rewrite A. unfold integral_on.
  rewrite (Rsum_ext _ _ (fun e => segment_length (mo_mesh m) e * v (p_attr c))); [rewrite Rsum_scal_r; field; lra|].
  intros e J. apply in_tagged in J as (J & Ee). f_equal.
  transitivity (Rsum (re_rule1 ref) (fun q => snd q * v (p_attr c))); [|rewrite Rsum_scal_r, (proj1 (proj2 (ro_rules _ Ro))); ring].
  apply Rsum_ext. intros q Iq. f_equal. pose proof (proj1 (proj1 (ro_rules _ Ro) q Iq)) as Hq.
  destruct (Vu e (fst q) J Hq) as (v1 & v2 & x & pt & Ev & T & S & ->). exact (Hv c e x v1 v2 (fst q) pt I J Ee Ev T Hq S).
Qed.

(** An open problem at the orders 1, 2 and 3: a triangle with a conductor on one side and an open boundary on another one. *)
Example C85_open_example : forall (v : Z -> R) (k : nat), (1 <= k <= 3)%nat ->
  reference_ok (boole_elements (Z.of_nat k)) /\ cross_section firstOrderABC (sail_model (1 / 2)) /\ openBoundaries (mo_mats (sail_model (1 / 2))) <> [] /\
  (exists p, conductor_problem (mo_mats (sail_model (1 / 2))) false v p) /\ relative_permittivity (mo_mats (sail_model (1 / 2))) false (fun _ => 1).
Proof.
  intros v k L. destruct (C69_open_example v) as (_ & Cs & N & P & Re). split; [exact (C85_reference_elements k _ _ _ L (boole_rules k L))|]. auto.
Qed.
(** Every potential has values along the boundary. *)
Example C55_any_order_example : forall (abc : R * R -> R) (er : R) (k : nat) (phi : list R), 0 < er -> (1 <= k <= 3)%nat ->
  List.length phi = n_h1 (boole_elements (Z.of_nat k)) (kite_mesh (T:=R)) ->
  reference_ok (boole_elements (Z.of_nat k)) /\ triangulation (kite_mesh (T:=R)) /\ exists u, values_along (boole_elements (Z.of_nat k)) kite_mesh phi u.
Proof.
  intros abc er k phi P Lk L. pose proof (C85_reference_elements k _ _ _ Lk (boole_rules k Lk)) as Ro. split; [exact Ro|]. split; [exact kite_triangulation|].
  set (ref := boole_elements (Z.of_nat k)) in *. exists (fun b r => dot (re_seg ref r) (values phi (bdr_dofs ref kite_mesh b))).
  intros b r I Hr. destruct (bdr_side abc (kite_model er) (kite_section abc er P) b I) as (v1 & v2 & x & Ev & T & S). destruct (S r) as (q & Sq). exists v1, v2, x, q. split; [exact Ev|]. split; [exact T|]. split; [exact Sq|].
  destruct (value_on_side ref Ro kite_mesh kite_triangulation phi x v1 v2 r q T L Sq) as (-> & _). exact (f_equal (dot (re_seg ref r)) (bdr_values ref (kite_model er) b v1 v2 phi I Ev)).
Qed.
Print Assumptions C55_averages_at_any_order.
Print Assumptions C85_open_potential_of_least_energy.
Print Assumptions C55_average_on_a_conductor_at_any_order.
