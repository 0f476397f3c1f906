(** C59, C61 and C63 with finite elements of order 3, the default (SolverOptions.h:8): refuted as at first order. *)
From Coq Require Import Reals Lra Permutation Relations.
From Verif Require Import Prelude StdMap Json Materials Graph ModelM Parser Matrix Multipole Solver Fem Domain Results Driver RSum LinAlg
  SpecInput SpecModel SpecSolver SpecDriver SpecMatrix SpecCharge SpecField SpecFem SpecTriangles SpecElements Triangles Elements RefElements ListLemmas
  FemProofs FemCalls FemFacts FemModel FemLaws FemDriver FemMatrix FemMore TriProofs TriModel ElemProofs ElemTables ElemModel ElemFields RefProofs Boole Toy Kite
  DriverProofs CallProofs DriverFacts MatrixProofs MatrixCalls MatrixFacts PropsMatrix PropsFem PropsTriangles PropsElements Mirror.
Open Scope R_scope.
Open Scope list_scope.

Definition no_moment := fun (_ : R * R) (_ _ : nat) (_ : R * R) => 0.
Lemma order_three : rules_of_order 3 (boole (T:=R)) boole_rule boole_rule.
Proof. apply boole_rules. lia. Qed.
(** The charges of a closed cross section do not add up to zero: *)
Theorem C59_rows_add_up_to_zero_at_the_default_order_refuted :
  ~ (forall rule1 rule0 rule2 (abc : R * R -> R) (dbg : bool) moment (m : model R) (o : driver_options) (d : driver R)
            (conds : list (pec R)) (ignore : bool) (g : matrix R) w,
       let ref := reference_of rule1 rule0 rule2 in
       rules_of_order 3 rule1 rule0 rule2 -> o_order o = 3%Z -> element_driver ref abc dbg m o d conds -> determineOpenness dbg m = Ok Closed ->
       reply dbg (galerkin abc (elements_of ref)) moment (CallGeneralizedC ignore) d = (Ok (VMatrix g), w) ->
       forall i, (i < List.length conds)%nat -> Sum (List.length conds) (fun k => ent g i k) = 0).
Proof.
  intros H. destruct (mirror_driver true) as (d & Ed). destruct (mirror_g true no_moment [] false d Ed) as (g & w & E & _ & G).
  specialize (H boole boole_rule boole_rule no_abc true no_moment mirror_model default_options d toy_conds false g w order_three eq_refl Ed (mirror_closed true) E 0%nat ltac:(cbn; lia)).
  unfold Sum in H. cbn [List.length toy_conds seq] in H. rewrite !Rsum_cons, Rsum_nil, !G in H by lia. pose proof mirror_values. lra.
Qed.
Print Assumptions C59_rows_add_up_to_zero_at_the_default_order_refuted.

(** getPULMTL returns a negative capacitance, *)
Lemma mirror_pul dbg moment : exists d p C w w',
  element_driver boole_elements no_abc dbg mirror_model default_options d toy_conds /\
  reply dbg mirror_lib moment CallPUL d = (Ok (VPul p), w) /\ reply dbg mirror_lib moment CallC d = (Ok (VMatrix C), w') /\
  square 1 C /\ ent C 0 0 < - (1 / 5) /\ square 1 (pul_C p) /\ ent (pul_C p) 0 0 = ent C 0 0 * eps0.
Proof.
  destruct (mirror_driver dbg) as (d & Ed). pose proof (ed_built _ _ _ _ _ _ _ Ed) as B.
  destruct (mirror_g dbg moment [] false d Ed) as (ge & we & Ee & Se & Ge). destruct (mirror_g dbg moment [] true d Ed) as (gm & wm & Em & Sm & Gm). change (after dbg mirror_lib moment [] d) with d in Ee, Em.
  specialize (Ge 1%nat 1%nat ltac:(lia) ltac:(lia)). specialize (Gm 1%nat 1%nat ltac:(lia) ltac:(lia)).
  assert (Eo : determineOpenness dbg (dr_model d) = Ok Closed).
  { pose proof (D_model dbg mirror_lib moment Rmul0 mirror_model default_options d [] mirror_posed B) as E. change (after dbg mirror_lib moment [] d) with d in E. rewrite E. apply mirror_closed. }
  pose proof (reply_C _ _ _ _ _ _ _ Ee Eo) as EC. pose proof (reply_L _ _ _ _ _ _ _ Em Eo) as EL.
  pose proof mirror_values as (_ & Neg & _).
  destruct (kite_inverse gm _ Sm Gm ltac:(lra)) as (L & Ei). rewrite Ei in EL. cbn [bind] in EL.
  destruct (C28_units dbg mirror_lib moment mirror_model default_options d [] _ L we wm mirror_posed B EC EL) as (p & w & E & A1 & A2 & _ & _ & A5).
  exists d, p, (getCFromGeneralizedC ge Closed), w, we. split; [exact Ed|]. split; [exact E|]. split; [exact EC|]. destruct Se as (S1 & S2).
  split; [unfold square, getCFromGeneralizedC; cbn [nr nc]; rewrite S1, S2; auto|].
  split. { change (ent (getCFromGeneralizedC ge Closed) 0 0) with (ent ge 1 1). rewrite Ge. lra. }
  split; [unfold square; rewrite A1, A2; unfold getCFromGeneralizedC; cbn [nr nc]; rewrite S1, S2; auto|].
  rewrite (proj1 (A5 0%nat 0%nat)). apply Rmult_comm.
Qed.
Theorem C61_PUL_parameters_are_positive_definite_at_the_default_order_refuted :
  ~ (forall rule1 rule0 rule2 (abc : R * R -> R) (dbg : bool) moment (m : model R) (o : driver_options) (d : driver R)
            (conds : list (pec R)) (p : pul R) w,
       let ref := reference_of rule1 rule0 rule2 in
       rules_of_order 3 rule1 rule0 rule2 -> o_order o = 3%Z -> element_driver ref abc dbg m o d conds -> determineOpenness dbg m = Ok Closed ->
       reply dbg (galerkin abc (elements_of ref)) moment CallPUL d = (Ok (VPul p), w) ->
       positive_definite (pul_C p)).
Proof.
  intros H. destruct (mirror_pul true no_moment) as (d & p & C & w & w' & Ed & E & _ & _ & Neg & (S1 & S2) & Ep).
  specialize (H boole boole_rule boole_rule no_abc true no_moment mirror_model default_options d toy_conds p w order_three eq_refl Ed (mirror_closed true) E (fun _ => 1)).
  assert (Q : quad (pul_C p) (fun _ => 1) = ent (pul_C p) 0 0).
  { unfold quad, charge. rewrite S1, S2. unfold Sum. cbn [seq]. rewrite !Rsum_cons, !Rsum_nil. ring. }
  rewrite Q, Ep in H. pose proof eps0_pos as P. assert (K : 0 < ent C 0 0 * eps0); [apply H; exists 0%nat; rewrite S1; split; [lia|lra]|].
  pose proof (Rmult_lt_compat_r eps0 _ _ P Neg). pose proof (Rmult_lt_compat_r eps0 0 (1 / 5) P ltac:(lra)). lra.
Qed.
Print Assumptions C61_PUL_parameters_are_positive_definite_at_the_default_order_refuted.
Theorem C61_generalized_matrix_is_positive_at_the_default_order_refuted :
  ~ (forall rule1 rule0 rule2 (abc : R * R -> R) (dbg : bool) moment (m : model R) (o : driver_options) (d : driver R)
            (conds : list (pec R)) (ignore : bool) (g : matrix R) w,
       let ref := reference_of rule1 rule0 rule2 in
       rules_of_order 3 rule1 rule0 rule2 -> o_order o = 3%Z -> element_driver ref abc dbg m o d conds ->
       reply dbg (galerkin abc (elements_of ref)) moment (CallGeneralizedC ignore) d = (Ok (VMatrix g), w) ->
       positive_for_differences g).
Proof.
  intros H. destruct (mirror_driver true) as (d & Ed). destruct (mirror_g true no_moment [] false d Ed) as (g & w & E & (S1 & S2) & G).
  specialize (H boole boole_rule boole_rule no_abc true no_moment mirror_model default_options d toy_conds false g w order_three eq_refl Ed E
                (fun i => match i with 1%nat => 1 | _ => 0 end)).
  unfold quad, charge in H. rewrite S1, S2 in H. unfold Sum in H. cbn [seq] in H. rewrite !Rsum_cons, !Rsum_nil, !G in H by lia. cbv beta iota in H.
  pose proof mirror_values as (_ & Neg & _). assert (0 < mirror_q 1 1); [|lra]. eapply Rlt_le_trans; [apply H|right; field]. exists 1%nat. split; [lia|lra].
Qed.
Print Assumptions C61_generalized_matrix_is_positive_at_the_default_order_refuted.
(** ... although the energy of the field is positive, so that the energy is not that of the matrix. *)
Theorem C63_energy_of_the_fields_at_the_default_order_refuted :
  ~ (forall rule1 rule0 rule2 (abc : R * R -> R) (dbg : bool) moment (m : model R) (o : driver_options) (d : driver R)
            (conds : list (pec R)) (n : nat) (C : matrix R) w (V : nat -> R) (v : Z -> R) (p : solver_inputs R) (s0 s : solver R),
       let ref := reference_of rule1 rule0 rule2 in let F := discretize abc (elements (ref 3%Z) distance (mo_mesh m)) in
       rules_of_order 3 rule1 rule0 rule2 -> o_order o = 3%Z -> element_driver ref abc dbg m o d conds -> determineOpenness dbg m = Ok Closed -> List.length conds = S n ->
       reply dbg (galerkin abc (elements_of ref)) moment CallC d = (Ok (VMatrix C), w) ->
       potentials_by_number conds V v -> conductor_problem (mo_mats m) false v p ->
       mkSolver F dbg p = Ok s0 -> Solve F s0 = Ok s ->
       getTotalEnergy F s = Ok (/ 2 * Sum n (fun i => Sum n (fun j => (V (S i) - V 0%nat) * ent C i j * (V (S j) - V 0%nat))))).
Proof.
  assert (Ok_inj : forall a b : R, Ok a = Ok b -> a = b) by (clear; intros a b E; now injection E).
  intros H. destruct (mirror_pul true no_moment) as (d & pp & C & w & w' & Ed & _ & E & _ & Neg & _).
  set (v := fun t : Z => if (t =? 2)%Z then 1 else 0). set (V := fun i => match i with 1%nat => 1 | _ => 0 end : R).
  destruct (problem_exists no_abc _ mirror_model mirror_posed false v) as (p & Cp).
  assert (He : relative_permittivity (mo_mats mirror_model) false (fun _ => 1)).
  { split; [|reflexivity]. intros t er (l1 & q & l2 & El & _ & _ & ->). cbn in El. destruct l1 as [|? [|? l1]]; cbn in El; try discriminate. injection El as <- _. reflexivity. }
  destruct (C85_potential_of_least_energy cubic no_abc true mirror_model false v p (fun _ => 1) mirror_reference mirror_section eq_refl Cp He) as (s0 & s & E0 & Es & _ & _ & Et & _).
  specialize (H boole boole_rule boole_rule no_abc true no_moment mirror_model default_options d toy_conds 1%nat C w' V v p s0 s
                order_three eq_refl Ed (mirror_closed true) eq_refl E).
  assert (Pn : potentials_by_number toy_conds V v).
  { intros [|[|i]] q Eq; cbn in Eq; try discriminate; [injection Eq as <-; reflexivity|injection Eq as <-; reflexivity|destruct i; discriminate]. }
  specialize (H Pn Cp E0 Es). pose proof (eq_trans (eq_sym Et) H) as K. apply Ok_inj in K.
  unfold Sum in K. cbn [seq] in K. rewrite !Rsum_cons, !Rsum_nil in K. unfold V in K.
  assert (N : 0 <= energy_by_rule cubic (mo_mesh mirror_model) (fun _ => 1) (s_phi s)).
  { unfold energy_by_rule. apply Rsum_nonneg. intros x I. apply numbered_in in I.
    destruct (jacobian_area (mo_mesh mirror_model) (proj1 (cs_mesh _ _ mirror_section)) _ (tri_in (mo_mesh mirror_model) x I)) as (Ej & Pj).
    apply Rmult_le_pos; [lra|]. apply Rsum_nonneg. intros q J. apply Rmult_le_pos; [left; exact (proj1 (proj2 (proj2 (ro_rules _ mirror_reference))) q J)|].
    match goal with |- 0 <= ?a * ?a + ?b * ?b => pose proof (Rle_0_sqr a); pose proof (Rle_0_sqr b); unfold Rsqr in *; lra end. }
  lra.
Qed.
Print Assumptions C63_energy_of_the_fields_at_the_default_order_refuted.

(** The hypotheses of C62_closed_problems_of_elements and C70_PUL_parameters_of_elements hold for it. *)
Example C62_elements_example : forall dbg moment, exists d p w,
  element_driver boole_elements no_abc dbg mirror_model default_options d toy_conds /\ determineOpenness dbg mirror_model = Ok Closed /\
  List.length toy_conds = 2%nat /\ reply dbg mirror_lib moment CallPUL (after dbg mirror_lib moment [] d) = (Ok (VPul p), w).
Proof.
  intros dbg moment. destruct (mirror_pul dbg moment) as (d & p & C & w & w' & Ed & E & _). exists d, p, w. split; [exact Ed|]. split; [apply mirror_closed|]. split; [reflexivity|exact E].
Qed.
