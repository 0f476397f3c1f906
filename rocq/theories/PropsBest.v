(** Property C87: of all potentials of a mesh and an order, the one found is the best approximation of
    what a finer mesh or a higher order gives, and the error is the change of the energy. *)
From Coq Require Import Reals Lra Relations Permutation.
From Verif Require PcgProofs.
From Verif Require Import Prelude StdMap Materials Graph ModelM Parser Matrix Multipole Solver Fem Domain Results Driver RSum LinAlg ListLemmas SpecGraph SpecInput SpecModel SpecSolver SpecDriver SpecMatrix SpecCharge SpecField SpecFem
  SpecTriangles SpecDrawing SpecEnergy SpecRedraw SpecElements SpecExtend SpecIter SpecBest Triangles Elements RefElements SolverProofs FemProofs FemFacts FemModel FemMatrix FemMore FemLaws FemRedraw TriProofs TriModel Drawing DriverProofs CallProofs DriverFacts MatrixCalls EnergyProofs OrderProofs
  ElemProofs ElemTables ElemModel ElemFields ElemOrder RefProofs RefOrder Boole Toy Kite Hexagon Spike PropsTriangles PropsEnergy PropsOrder PropsElements PropsHigher.
Open Scope R_scope.
Open Scope list_scope.

Lemma dot_minus (r u v : list R) : List.length u = List.length v -> dot r (minus u v) = dot r u - dot r v.
Proof.
  intros L. rewrite (dot_lin r u v (-1) (List.length u) eq_refl (eq_sym L) (minus u v)); [ring|unfold minus; now rewrite map_length, seq_length|].
  intros k Lk. unfold minus. rewrite PcgProofs.nth_mapseq by exact Lk. ring.
Qed.
Lemma work_minus abc D p u v w : List.length u = List.length v -> work abc D p (minus u v) w = work abc D p u w - work abc D p v w.
Proof.
  intros L. unfold work. match goal with |- _ = ?a + ?b - (?c + ?d) => transitivity (a + - c + (b + - d)); [|ring] end. rewrite <- !Rsum_opp, <- !Rsum_plus.
  f_equal; apply Rsum_ext; intros q _; unfold grad2; rewrite ?(dot_minus _ _ _ L); ring.
Qed.
Lemma error_expand abc D p u v : List.length u = List.length v -> error_energy abc D p u v = / 2 * work abc D p u u - work abc D p u v + / 2 * work abc D p v v.
Proof.
  intros L. unfold error_energy. rewrite (work_minus _ _ _ u v _ L), (work_sym abc D p u (minus u v)), (work_sym abc D p v (minus u v)), !(work_minus _ _ _ u v _ L), (work_sym abc D p v u). field.
Qed.
(** All potentials with the values of the conductors do the same work against the one found. *)
Lemma found_work abc D dbg m ignore v p s0 s : well_posed (discretize abc D) m -> regular_model abc D m -> apart abc D m -> conductor_problem (mo_mats m) ignore v p ->
  mkSolver (discretize abc D) dbg p = Ok s0 -> Solve (discretize abc D) s0 = Ok s ->
  forall psi, has_potentials abc D m v psi -> List.length psi = List.length (s_phi s) /\ work abc D p psi (s_phi s) = work abc D p (s_phi s) (s_phi s).
Proof.
  intros Wp Rm Ap Cp E0 Es psi Hpsi. destruct (model_problem abc D m Wp Rm ignore v p Cp) as (Hp & An). pose proof (rm_tables _ _ _ Rm) as OK.
  assert (Cx : computes abc D dbg p (getSolution s)) by (exists s0; split; [exact E0|]; unfold solved_fields; rewrite Es; reflexivity).
  destruct (minimal abc D OK dbg p _ Hp An Cx) as (sigma & Sd & L & Pr & _ & Wk). cbn [getSolution so_phi] in *.
  assert (Ll : List.length psi = List.length (s_phi s)) by (rewrite L; exact (proj1 Hpsi)). split; [exact Ll|].
  apply Rminus_diag_uniq. rewrite <- (work_minus _ _ _ _ _ _ Ll), work_sym.
  rewrite (Wk (minus psi (s_phi s))); [exact (FemLaws.no_source abc D p sigma _ Sd (cp_neu _ _ _ _ Cp))| |].
  - unfold potential, minus. rewrite map_length, seq_length. exact (proj1 Hpsi).
  - apply (has_prescribed abc D m ignore v p _ Cp L) in Pr. intros t x k I B. apply (cp_dir _ _ _ _ Cp) in I as ((c & Ic & <-) & _).
    assert (Mx : forall c', In c' (pecs (mo_mats m)) -> on_boundary (discretize abc D) (p_attr c') k -> (p_attr c' <= p_attr c)%Z).
    { intros c' Ic' B'. rewrite (Ap c c' k Ic Ic' B B'). lia. }
    pose proof (proj2 Hpsi c k Ic B Mx) as E1. pose proof (proj2 Pr c k Ic B Mx) as E2.
    assert (Lk : (k < List.length psi)%nat) by (apply nth_error_Some; congruence).
    unfold minus. rewrite nth_error_map, (nth_error_nth' _ 0%nat) by (rewrite seq_length; exact Lk). rewrite seq_nth by exact Lk. cbn [option_map Nat.add].
    rewrite (nth_error_nth _ _ 0 E1), (nth_error_nth _ _ 0 E2). f_equal. ring.
Qed.

Section Richer.
  Variable abc : R * R -> R.
  Variables D D' : discretization R.
  Variable dbg : bool.
  Variables m m' : model R.
  Hypothesis Wp : well_posed (discretize abc D) m.
  Hypothesis Rm : regular_model abc D m.
  Hypothesis Wp' : well_posed (discretize abc D') m'.
  Hypothesis Rm' : regular_model abc D' m'.
  Hypothesis Em : mo_mats m' = mo_mats m.
  Hypothesis Eo : openBoundaries (mo_mats m) = [].
  Variable ignore : bool.
  Variable v : Z -> R.
  Variable p : solver_inputs R.
  Hypothesis Cp : conductor_problem (mo_mats m) ignore v p.
  Hypothesis Ap : apart abc D m.
  Hypothesis Ap' : apart abc D' m'.
  Variable P : list R -> list R.
  Hypothesis Ri : richer abc D D' (map p_attr (pecs (mo_mats m))) P.
  Lemma no_open_points (D0 : discretization R) : open_points D0 p = [].
  Proof.
    unfold open_points. assert (E : si_open p = []).
    { pose proof (cp_open _ _ _ _ Cp) as Q. rewrite Eo in Q. now apply Permutation_sym, Permutation_nil in Q. }
    rewrite E. clear. induction (di_abc D0); cbn; auto.
  Qed.
  Lemma raised_work psi : potential D psi -> work abc D' p (P psi) (P psi) = work abc D p psi psi.
  Proof. intros L. unfold work. rewrite !no_open_points, !Rsum_nil, !Rplus_0_r. exact (ri_energy _ _ _ _ _ Ri psi _ L). Qed.
  Lemma raised_potentials psi : has_potentials abc D m v psi -> has_potentials abc D' m' v (P psi).
  Proof.
    intros (L & H). split; [now apply (ri_potential _ _ _ _ _ Ri)|]. rewrite Em. intros c k Ic B _. apply (ri_boundary _ _ _ _ _ Ri psi (p_attr c)); [exact L|now apply in_map| |exact B].
    intros k0 B0. apply (H c k0 Ic B0). intros c' Ic' B'. rewrite (Ap c c' k0 Ic Ic' B0 B'). lia.
  Qed.
  Lemma raised_error s0' s' psi : mkSolver (discretize abc D') dbg p = Ok s0' -> Solve (discretize abc D') s0' = Ok s' -> has_potentials abc D m v psi ->
    error_energy abc D' p (P psi) (s_phi s') = / 2 * work abc D p psi psi - / 2 * work abc D' p (s_phi s') (s_phi s').
  Proof.
    intros E0' Es' H. assert (Cp' : conductor_problem (mo_mats m') ignore v p) by now rewrite Em.
    destruct (found_work abc D' dbg m' ignore v p s0' s' Wp' Rm' Ap' Cp' E0' Es' (P psi) (raised_potentials psi H)) as (Ll & Ew).
    rewrite (error_expand _ _ _ _ _ Ll), Ew, (raised_work psi (proj1 H)). field.
  Qed.
End Richer.

(** The error of the potential found, measured against that of a richer space, is the change of the energy,
    and no other potential of the coarser space with the values of the conductors has a smaller one. *)
Theorem C87_best_approximation :
  forall (abc : R * R -> R) (D D' : discretization R) (dbg : bool) (m m' : model R) (ignore : bool) (v : Z -> R) (p : solver_inputs R) (P : list R -> list R),
    let F := discretize abc D in let F' := discretize abc D' in
    well_posed F m -> regular_model abc D m -> well_posed F' m' -> regular_model abc D' m' -> same_quadrature D -> same_quadrature D' ->
    mo_mats m' = mo_mats m -> openBoundaries (mo_mats m) = [] -> conductor_problem (mo_mats m) ignore v p ->
    apart abc D m -> apart abc D' m' -> richer abc D D' (map p_attr (pecs (mo_mats m))) P ->
    exists s0 s W s0' s' W',
      mkSolver F dbg p = Ok s0 /\ Solve F s0 = Ok s /\ getTotalEnergy F s = Ok W /\
      mkSolver F' dbg p = Ok s0' /\ Solve F' s0' = Ok s' /\ getTotalEnergy F' s' = Ok W' /\
      best_of abc D D' m v p P (s_phi s) (s_phi s') (W - W').
Proof.
  intros abc D D' dbg m m' ignore v p P F F' Wp Rm Wp' Rm' Sq Sq' Em Eo Cp Ap Ap' Ri.
  assert (Cp' : conductor_problem (mo_mats m') ignore v p) by now rewrite Em. assert (Eo' : openBoundaries (mo_mats m') = []) by now rewrite Em.
  destruct (least_energy abc D dbg m Wp Rm ignore v p Eo Sq Cp) as (s0 & s & E0 & Es & Hs & Te & _).
  destruct (least_energy abc D' dbg m' Wp' Rm' ignore v p Eo' Sq' Cp') as (s0' & s' & E0' & Es' & Hs' & Te' & _).
  eexists s0, s, _, s0', s', _. do 6 (split; [eassumption|]).
  pose proof (raised_error abc D D' dbg m m' Wp' Rm' Em Eo ignore v p Cp Ap Ap' P Ri s0' s') as Re.
  split; [exact Hs|]. split; [exact (Re _ E0' Es' Hs)|].
  intros psi Hpsi N. rewrite (Re _ E0' Es' Hs), (Re _ E0' Es' Hpsi).
  destruct (model_problem abc D m Wp Rm ignore v p Cp) as (Hp & An). pose proof (rm_tables _ _ _ Rm) as OK.
  assert (Cx : computes abc D dbg p (getSolution s)) by (exists s0; split; [exact E0|]; unfold solved_fields; unfold F; rewrite Es; reflexivity).
  destruct (minimal abc D OK dbg p _ Hp An Cx) as (sigma & Sd & _ & _ & Mi & _). cbn [getSolution so_phi] in *.
  specialize (Mi psi (proj1 Hpsi) (proj2 (has_prescribed abc D m ignore v p _ Cp (proj1 Hpsi)) Hpsi) N). unfold energy in Mi.
  rewrite !(FemLaws.no_source abc D p sigma _ Sd (cp_neu _ _ _ _ Cp)) in Mi. lra.
Qed.
Print Assumptions C87_best_approximation.

(** With a sequence of ever richer spaces the errors against the last one never grow. *)
Theorem C87_errors_never_grow :
  forall (abc : R * R -> R) (D D' D'' : discretization R) (dbg : bool) (m m' m'' : model R) (ignore : bool) (v : Z -> R) (p : solver_inputs R) (P P' Q : list R -> list R),
    let F := discretize abc D in let F' := discretize abc D' in let F'' := discretize abc D'' in
    well_posed F m -> regular_model abc D m -> well_posed F' m' -> regular_model abc D' m' -> well_posed F'' m'' -> regular_model abc D'' m'' ->
    same_quadrature D -> same_quadrature D' -> same_quadrature D'' ->
    mo_mats m' = mo_mats m -> mo_mats m'' = mo_mats m -> openBoundaries (mo_mats m) = [] -> conductor_problem (mo_mats m) ignore v p ->
    apart abc D m -> apart abc D' m' -> apart abc D'' m'' ->
    richer abc D D' (map p_attr (pecs (mo_mats m))) P -> richer abc D' D'' (map p_attr (pecs (mo_mats m))) P' -> richer abc D D'' (map p_attr (pecs (mo_mats m))) Q ->
    exists s0 s s0' s' s0'' s'',
      mkSolver F dbg p = Ok s0 /\ Solve F s0 = Ok s /\ mkSolver F' dbg p = Ok s0' /\ Solve F' s0' = Ok s' /\ mkSolver F'' dbg p = Ok s0'' /\ Solve F'' s0'' = Ok s'' /\
      0 <= error_energy abc D'' p (P' (s_phi s')) (s_phi s'') <= error_energy abc D'' p (Q (s_phi s)) (s_phi s'').
Proof.
  intros abc D D' D'' dbg m m' m'' ignore v p P P' Q F F' F'' Wp Rm Wp' Rm' Wp'' Rm'' Sq Sq' Sq'' Em Em2 Eo Cp Ap Ap' Ap'' R1 R2 R3.
  assert (Cp' : conductor_problem (mo_mats m') ignore v p) by now rewrite Em. assert (Eo' : openBoundaries (mo_mats m') = []) by now rewrite Em.
  assert (Cp'' : conductor_problem (mo_mats m'') ignore v p) by now rewrite Em2. assert (Eo'' : openBoundaries (mo_mats m'') = []) by now rewrite Em2.
  destruct (least_energy abc D dbg m Wp Rm ignore v p Eo Sq Cp) as (s0 & s & E0 & Es & Hs & _ & _).
  destruct (least_energy abc D' dbg m' Wp' Rm' ignore v p Eo' Sq' Cp') as (s0' & s' & E0' & Es' & Hs' & _ & Mi).
  destruct (least_energy abc D'' dbg m'' Wp'' Rm'' ignore v p Eo'' Sq'' Cp'') as (s0'' & s'' & E0'' & Es'' & Hs'' & _ & Mi2).
  exists s0, s, s0', s', s0'', s''. repeat (split; [assumption|]).
  assert (Em3 : mo_mats m'' = mo_mats m') by congruence. assert (R2' : richer abc D' D'' (map p_attr (pecs (mo_mats m'))) P') by now rewrite Em.
  rewrite (raised_error abc D' D'' dbg m' m'' Wp'' Rm'' Em3 Eo' ignore v p Cp' Ap' Ap'' P' R2' s0'' s'' _ E0'' Es'' Hs').
  rewrite (raised_error abc D D'' dbg m m'' Wp'' Rm'' Em2 Eo ignore v p Cp Ap Ap'' Q R3 s0'' s'' _ E0'' Es'' Hs).
  pose proof (Mi _ (raised_potentials abc D D' m m' Em v Ap P R1 _ Hs)) as M1.
  pose proof (Mi2 _ (raised_potentials abc D' D'' m' m'' Em3 v Ap' P' R2' _ Hs')) as M2.
  rewrite (raised_work abc D D' m Eo ignore v p Cp P R1 _ (proj1 Hs)) in M1.
  rewrite (raised_work abc D' D'' m' Eo' ignore v p Cp' P' R2' _ (proj1 Hs')) in M2. lra.
Qed.
Print Assumptions C87_errors_never_grow.

(** Higher orders on the same triangles *)
Theorem C87_orders :
  forall (rule1 rule1' : list (R * R)) (rule0 rule2 rule0' rule2' : list (R * R * R)) (k k' : nat) (abc : R * R -> R) (dbg : bool) (m : model R) (ignore : bool) (v : Z -> R) (p : solver_inputs R),
    (1 <= k <= k')%nat -> (k' <= 3)%nat -> rules_of_order k rule1 rule0 rule2 -> rules_of_order k' rule1' rule0' rule2' ->
    cross_section abc m -> openBoundaries (mo_mats m) = [] -> conductor_problem (mo_mats m) ignore v p ->
    let ref := reference_of rule1 rule0 rule2 (Z.of_nat k) in let ref' := reference_of rule1' rule0' rule2' (Z.of_nat k') in
    let D := elements ref distance (mo_mesh m) in let D' := elements ref' distance (mo_mesh m) in
    let F := discretize abc D in let F' := discretize abc D' in
    exists P s0 s W s0' s' W',
      (forall phi x q, List.length phi = n_h1 ref (mo_mesh m) -> triangle (mo_mesh m) x ->
         value_in ref' (mo_mesh m) (P phi) x q = value_in ref (mo_mesh m) phi x q) /\
      mkSolver F dbg p = Ok s0 /\ Solve F s0 = Ok s /\ getTotalEnergy F s = Ok W /\
      mkSolver F' dbg p = Ok s0' /\ Solve F' s0' = Ok s' /\ getTotalEnergy F' s' = Ok W' /\
      best_of abc D D' m v p P (s_phi s) (s_phi s') (W - W').
Proof.
  intros rule1 rule1' rule0 rule2 rule0' rule2' k k' abc dbg m ignore v p (L1 & L2) L3 Rk Rk' Cs Eo Cp ref ref' D D' F F'.
  pose proof (C85_reference_elements k _ _ _ ltac:(lia) Rk) as Ro. pose proof (C85_reference_elements k' _ _ _ ltac:(lia) Rk') as Ro'.
  destruct (C75_extensions_have_richer_spaces _ _ _ _ abc m (map p_attr (pecs (mo_mats m))) Ro Ro' (orders_extend k k' _ _ _ _ _ _ L1 L2 L3 Rk Rk') Cs) as (P & Ri & Va).
  pose proof (proj1 (cs_mesh _ _ Cs)) as Tr.
  destruct (C87_best_approximation abc _ _ dbg m m ignore v p P (elements_posed _ Ro abc m Cs) (elements_regular _ Ro abc m Cs) (elements_posed _ Ro' abc m Cs) (elements_regular _ Ro' abc m Cs)
    (elements_quadrature _ Ro _ Tr) (elements_quadrature _ Ro' _ Tr) eq_refl Eo Cp (el_apart _ abc m Cs) (el_apart _ abc m Cs) Ri) as (s0 & s & W & s0' & s' & W' & H).
  exists P, s0, s, W, s0', s', W'. split; [exact Va|exact H].
Qed.
Print Assumptions C87_orders.

Lemma first_order_apart rule1 rule0 rule2 abc (m : model R) : cross_section abc m -> apart abc (first_order rule1 rule0 rule2 distance (mo_mesh m)) m.
Proof.
  intros Cs c c' k I I' B B'. pose proof (proj1 (on_touches rule1 rule0 rule2 abc m Cs (p_attr c) k) B) as T. pose proof (proj1 (on_touches rule1 rule0 rule2 abc m Cs (p_attr c') k) B') as T'.
  exact (cs_apart _ _ Cs c c' _ I I' T T').
Qed.
(** Refined meshes *)
Theorem C87_refinement :
  forall rule1 rule0 rule2 (abc : R * R -> R) (dbg : bool) (m m' : model R) (ignore : bool) (v : Z -> R) (p : solver_inputs R)
         (parts : list (element R * list (element R))) (shares : Z -> list (Z * R)),
    rules_ok rule1 rule0 rule2 -> cross_section abc m -> cross_section abc m' ->
    mo_mats m' = mo_mats m -> openBoundaries (mo_mats m) = [] -> conductor_problem (mo_mats m) ignore v p ->
    refines (mo_mesh m) (mo_mesh m') (map p_attr (pecs (mo_mats m))) parts shares ->
    let D := first_order rule1 rule0 rule2 distance (mo_mesh m) in let D' := first_order rule1 rule0 rule2 distance (mo_mesh m') in
    let F := discretize abc D in let F' := discretize abc D' in
    exists P s0 s W s0' s' W',
      mkSolver F dbg p = Ok s0 /\ Solve F s0 = Ok s /\ getTotalEnergy F s = Ok W /\
      mkSolver F' dbg p = Ok s0' /\ Solve F' s0' = Ok s' /\ getTotalEnergy F' s' = Ok W' /\
      best_of abc D D' m v p P (s_phi s) (s_phi s') (W - W').
Proof.
  intros rule1 rule0 rule2 abc dbg m m' ignore v p parts shares Ru Cs Cs' Em Eo Cp Re D D' F F'.
  destruct (C75_refined_meshes_have_richer_spaces rule1 rule0 rule2 abc m m' _ parts shares Ru Cs Cs' Re) as (P & Ri). exists P.
  exact (C87_best_approximation abc D D' dbg m m' ignore v p P (cross_section_posed _ _ _ Ru abc m Cs) (cross_section_regular _ _ _ Ru abc m Cs)
    (cross_section_posed _ _ _ Ru abc m' Cs') (cross_section_regular _ _ _ Ru abc m' Cs')
    (first_order_quadrature _ _ _ Ru (mo_mesh m) (proj1 (cs_mesh _ _ Cs))) (first_order_quadrature _ _ _ Ru (mo_mesh m') (proj1 (cs_mesh _ _ Cs'))) Em Eo Cp (first_order_apart rule1 rule0 rule2 abc m Cs) (first_order_apart rule1 rule0 rule2 abc m' Cs') Ri).
Qed.
Print Assumptions C87_refinement.

(** The hypotheses are met: the quadrilateral at two orders, and drawn with four triangles instead of two. *)
Example C87_example : forall (abc : R * R -> R) (v : Z -> R) (k k' : nat), (1 <= k <= k')%nat -> (k' <= 3)%nat ->
  rules_of_order k (boole (T:=R)) boole_rule boole_rule /\ rules_of_order k' (boole (T:=R)) boole_rule boole_rule /\ rules_ok (segment_rule (T:=R)) one_point_rule three_point_rule /\ cross_section abc (kite_model 2) /\ cross_section abc (fine_model 2) /\ mo_mats (fine_model 2) = mo_mats (kite_model 2) /\ openBoundaries (mo_mats (kite_model 2)) = [] /\ (exists p, conductor_problem (mo_mats (kite_model 2)) false v p) /\ refines (mo_mesh (kite_model 2)) (mo_mesh (fine_model 2)) (map p_attr (pecs (mo_mats (kite_model 2)))) kite_parts kite_shares.
Proof.
  intros abc v k k' L1 L2. destruct (C75_orders_example abc v k k' L1 L2) as (R1 & R2 & Cs & Eo & Cp). destruct (C75_example abc v) as (_ & Cs' & Em & _ & Re).
  split; [exact R1|]. split; [exact R2|]. split; [exact kite_rules|]. auto 7.
Qed.
