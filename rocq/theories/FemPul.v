(** Positive definite parameters, shifts of the potential and charges (C59, C61, C63, C64). *)
From Coq Require Import Reals Lra Permutation.
From Verif Require Import Prelude StdMap Materials Graph ModelM Parser Matrix Solver Fem Domain Results Driver RSum LinAlg ListLemmas
  SpecSolver SpecCharge SpecModel SpecDriver SpecMatrix SpecField SpecFem DriverProofs CallProofs DriverFacts MatrixProofs MatrixCalls MatrixFacts
  SolverProofs ChargeProofs FieldProofs FemProofs FemCalls FemFacts FemModel FemLaws FemDriver FemMatrix FemMore PropsMatrix.
Open Scope R_scope.
Open Scope list_scope.

Lemma quad_ext (g g' : matrix R) V n : square n g -> square n g' -> (forall i j, (i < n)%nat -> (j < n)%nat -> ent g i j = ent g' i j) ->
  quad g V = quad g' V.
Proof.
  intros (A & B) (A' & B') E. unfold quad, charge. rewrite A, B, A', B'. apply Sum_ext. intros i Li. f_equal. apply Sum_ext. intros j Lj. now rewrite E.
Qed.
Lemma all_or_diff (V : nat -> R) n : (exists k, (k < n)%nat /\ V k <> V 0%nat) \/ forall k, (k < n)%nat -> V k = V 0%nat.
Proof.
  induction n as [|n IH]; [right; intros; lia|].
  destruct IH as [(k & L & N)|A]; [left; exists k; split; [lia|exact N]|].
  destruct (Req_dec (V n) (V 0%nat)) as [E|N]; [right|left; exists n; split; [lia|exact N]].
  intros k L. destruct (Nat.eq_dec k n) as [->|]; [exact E|apply A; lia].
Qed.
Lemma definite_of_differences (g : matrix R) : nr g = nc g -> positive_for_differences g -> 0 < total g -> positive_definite g.
Proof.
  intros Sq P T V (k & L & N). destruct (all_or_diff V (nr g)) as [D|A]; [exact (P V D)|].
  assert (E : quad g V = V k * V k * total g).
  { unfold quad, charge, total. rewrite <- Sum_scal. apply Sum_ext. intros i Li. rewrite (A i Li), <- (A k L).
    rewrite <- !Sum_scal. apply Sum_ext. intros j Lj. rewrite <- Sq in Lj. rewrite (A j Lj), <- (A k L). ring. }
  rewrite E. apply Rmult_lt_0_compat; [|exact T]. apply Rsqr_pos_lt in N. exact N.
Qed.
Lemma scaled_quad c (g : matrix R) V : quad (mscale c g) V = c * quad g V.
Proof.
  unfold quad, charge. cbn [mscale nr nc ent]. rewrite <- Sum_scal. apply Sum_ext. intros i _. rewrite <- !Sum_scal.
  apply Sum_ext. intros; cbn; ring.
Qed.

Section Shift.
  Variable abc : R * R -> R.
  Variable D : discretization R.
  Variable dbg : bool.
  Variable m : model R.
  Notation F := (discretize abc D).
  Hypothesis W : well_posed F m.
  Hypothesis Rm : regular_model abc D m.
  Lemma shifted_fields ignore c v x y : constants_ok D -> openBoundaries (mo_mats m) = [] ->
    model_fields abc D dbg m ignore v x -> model_fields abc D dbg m ignore (fun t => v t + c) y ->
    so_phi y = map (fun a => a + c) (so_phi x) /\ so_e y = so_e x /\ so_d y = so_d x.
  Proof.
    intros Co Eo Hx Hy. destruct (model_fields_exist abc D dbg m W Rm ignore (fun _ => c)) as (z & Hz).
    destruct (constant_fields abc D dbg m W Rm ignore c _ z Eo Co (fun _ _ => eq_refl) Hz) as (P1 & P2 & P3).
    pose proof (fields_combination abc D dbg m W Rm ignore [v; fun _ => c] [x; z] (fun _ => 1) (fun t => v t + c) y
      (Forall2_cons _ _ Hx (Forall2_cons _ _ Hz (Forall2_nil _))) Hy) as C.
    assert (C' : combines [x; z] (fun _ => 1) y).
    { apply C. intros q _. cbn. unfold Sum, Rsum. cbn. lra. }
    clear C. pose proof (fields_sized abc D dbg m W _ _ _ Hx) as (X1 & X2 & X3). pose proof (fields_sized abc D dbg m W _ _ _ Hy) as (Y1 & Y2 & Y3).
    assert (G : forall k, nth k (so_phi y) 0 = nth k (so_phi x) 0 + nth k (so_phi z) 0 /\ nth k (so_e y) 0 = nth k (so_e x) 0 + nth k (so_e z) 0 /\
                          nth k (so_d y) 0 = nth k (so_d x) 0 + nth k (so_d z) 0).
    { intros k. destruct (C' k) as (A & B & E). unfold entry, Sum, Rsum in A, B, E. cbn in A, B, E. rewrite A, B, E. repeat split; ring. }
    assert (Z : forall k n, nth k (repeat 0 n) 0 = 0) by (intros k n; apply nth_repeat).
    split; [|split].
    - apply (nth_ext _ _ 0 (0 + c)); [rewrite map_length; congruence|]. intros k L. rewrite (map_nth (fun a => a + c)), (proj1 (G k)), P1.
      f_equal. rewrite Y1 in L. apply nth_error_nth. apply nth_const. exact L.
    - apply (nth_ext _ _ 0 0); [congruence|]. intros k L. rewrite (proj1 (proj2 (G k))), P2, Z. ring.
    - apply (nth_ext _ _ 0 0); [congruence|]. intros k L. rewrite (proj2 (proj2 (G k))), P3, Z. ring.
  Qed.
End Shift.

Section Driver.
  Variable abc : R * R -> R.
  Variable disc : mesh R -> Z -> discretization R.
  Variable dbg : bool.
  Variable moment : R * R -> nat -> nat -> R * R -> R.
  Notation femlib := (fun ms k => discretize abc (disc ms k)).
  Variable m : model R.
  Variable o : driver_options.
  Variable d0 : driver R.
  Variable ops : list dop.
  Variable conds : list (pec R).
  Notation D := (disc (mo_mesh m) (o_order o)).
  Notation F := (discretize abc D).
  Notation mats := (mo_mats m).
  Notation N := (List.length conds).
  Notation Dr := (after dbg femlib moment ops d0).
  Notation Reply op := (reply dbg femlib moment op Dr).
  Hypothesis W : well_posed F m.
  Hypothesis Rm : regular_model abc D m.
  Hypothesis B : built dbg femlib m o d0.
  Hypothesis O : in_order mats conds.
  Hypothesis Cm : connected_mesh abc D m.
  Hypothesis Co : constants_ok D.

  Lemma g_definite ignore g w : gauss abc D dbg m ignore -> Reply (CallGeneralizedC ignore) = (Ok (VMatrix g), w) ->
    openBoundaries mats <> [] -> positive_definite g.
  Proof.
    intros G E Ho. destruct (g_positive abc disc dbg moment m o d0 ops conds W Rm B O ignore g w G Cm Co E) as (P & Q).
    destruct (gc_entries abc disc dbg moment m o d0 ops conds W B O ignore g w E) as ((S1 & S2) & _).
    apply definite_of_differences; auto. congruence.
  Qed.
  Hypothesis Ge : gauss abc D dbg m false.
  Hypothesis Gm : gauss abc D dbg m true.
  Variable op : openness.
  Hypothesis Eo : determineOpenness dbg m = Ok op.
  Lemma dr_op : determineOpenness dbg (dr_model Dr) = Ok op.
  Proof. rewrite (D_model dbg femlib moment Rmul0 m o d0 ops W B). exact Eo. Qed.
  Lemma some_g ignore : (N = 1%nat -> op <> Closed) -> exists g w, Reply (CallGeneralizedC ignore) = (Ok (VMatrix g), w) /\ square N g.
  Proof.
    intros N1. destruct (generalized_matrix dbg femlib moment m o d0 ops conds ignore op W B O Eo N1) as (g & w & E & S1 & S2 & _).
    exists g, w. split; [exact E|split; assumption].
  Qed.
  Lemma all_gauss ignore : gauss abc D dbg m ignore.
  Proof. destruct ignore; [exact Gm|exact Ge]. Qed.
  Lemma pul_positive n : N = S n -> (n = 0%nat -> op <> Closed) ->
    exists p w, Reply CallPUL = (Ok (VPul p), w) /\
      square n (pul_C p) /\ symmetric (pul_C p) /\ positive_definite (pul_C p) /\
      square n (pul_L p) /\ symmetric (pul_L p) /\ positive_definite (pul_L p).
  Proof.
    intros L N0. assert (N1 : N = 1%nat -> op <> Closed) by (intros E; apply N0; lia).
    assert (G : forall ignore g w, Reply (CallGeneralizedC ignore) = (Ok (VMatrix g), w) ->
      positive_for_differences g /\ (op <> Closed -> 0 < total g)).
    { intros ignore g w E.
      destruct (g_positive abc disc dbg moment m o d0 ops conds W Rm B O ignore g w (all_gauss ignore) Cm Co E) as (P & Q).
      split; [exact P|]. intros Ne. apply Q. exact (open_model dbg m op Eo Ne). }
    destruct (some_g false N1) as (ge & we & Ee & Se). destruct (some_g true N1) as (gm & wm & Em & Sm).
    destruct (G _ _ _ Ee) as (Pe & Te). destruct (G _ _ _ Em) as (Pm & Tm).
    destruct (C27_C_is_symmetric_positive_definite dbg femlib moment Dr ge we op n Ee dr_op) as (C & EC & SC & YC & PC); auto.
    { rewrite (proj1 Se). exact L. }
    destruct (C27_L_exists_and_is_symmetric_positive_definite dbg femlib moment Dr gm wm op n Em dr_op) as (Lm & EL & SL & YL & PL & _); auto.
    { rewrite (proj1 Sm). exact L. }
    destruct (C28_units dbg femlib moment m o d0 ops C Lm we wm W B EC EL) as (p & w & E & A1 & A2 & A3 & A4 & A5).
    exists p, w. split; [exact E|]. destruct SC as (C1 & C2), SL as (L1 & L2).
    assert (Pos : 0 < eps0 /\ 0 < mu0).
    { unfold eps0, mu0. pose proof PI_RGT_0. pose proof (pow_lt 10 12 ltac:(lra)). pose proof (pow_lt 10 7 ltac:(lra)).
      split; apply Rmult_lt_0_compat; try (now apply Rinv_0_lt_compat); lra. }
    assert (Q : forall a b c k, square k a -> square k b -> (forall i j, ent a i j = c * ent b i j) -> forall V, quad a V = c * quad b V).
    { intros a b c k (Sa & Sb) (Sa' & Sb') Eab V. unfold quad, charge. rewrite Sa, Sb, Sa', Sb'. rewrite <- Sum_scal.
      apply Sum_ext. intros i _. rewrite <- !Sum_scal. apply Sum_ext. intros j _. rewrite Eab. ring. }
    assert (SC' : square n (pul_C p)) by (split; congruence). assert (SL' : square n (pul_L p)) by (split; congruence).
    split; [exact SC'|]. split; [|split; [|split; [exact SL'|split]]].
    - intros i j Li Lj. rewrite !(proj1 (A5 _ _)). rewrite YC; auto; rewrite C1; rewrite <- (proj1 SC'); assumption.
    - intros V (k & Lk & Nk). rewrite (Q (pul_C p) C eps0 n SC'); [|split; auto|intros; apply A5].
      apply Rmult_lt_0_compat; [apply Pos|]. apply PC. exists k. split; [|exact Nk]. rewrite C1, <- (proj1 SC'). exact Lk.
    - intros i j Li Lj. rewrite !(proj2 (A5 _ _)). rewrite YL; auto; rewrite L1; rewrite <- (proj1 SL'); assumption.
    - intros V (k & Lk & Nk). rewrite (Q (pul_L p) Lm mu0 n SL'); [|split; auto|intros; apply A5].
      apply Rmult_lt_0_compat; [apply Pos|]. apply PL. exists k. split; [|exact Nk]. rewrite L1, <- (proj1 SL'). exact Lk.
  Qed.
  Lemma floating_exist : op <> SemiOpen -> exists e f w, Reply CallFloating = (Ok (VMatrices e f), w).
  Proof.
    intros Ns. destruct (Nat.eq_dec N 1) as [E1|N1].
    { destruct (C29_single_conductor dbg femlib moment Dr) as (e & f & E & _).
      - rewrite (D_model dbg femlib moment Rmul0 m o d0 ops W B). rewrite <- E1. symmetry. apply Permutation_length, (proj1 O).
      - eauto. }
    assert (N2 : (2 <= N)%nat).
    { pose proof (rm_conductors _ _ _ Rm) as Nc. destruct conds as [|a [|b l]] eqn:Ec; cbn in *; try lia. exfalso. apply Nc, Permutation_nil, (proj1 O). }
    destruct (some_g false) as (ge & we & Ee & Se); [lia|]. destruct (some_g true) as (gm & wm & Em & Sm); [lia|].
    apply (C29_positive_definite_matrices_are_regular dbg femlib moment m o d0 ops conds op ge gm we wm); auto.
    assert (G : forall ignore g w, Reply (CallGeneralizedC ignore) = (Ok (VMatrix g), w) -> square N g ->
      symmetric g /\ positive_definite (match op with Closed => grounded g | _ => g end)).
    { intros ignore g w E Sg. assert (Sy : symmetric g) by (intros i j _ _; eapply gc_symmetric; exact E). split; [exact Sy|].
      destruct op; try (apply (g_definite ignore g w (all_gauss ignore) E); apply (open_model dbg m _ Eo); discriminate).
      destruct (g_positive abc disc dbg moment m o d0 ops conds W Rm B O ignore g w (all_gauss ignore) Cm Co E) as (P & _).
      destruct N as [|n] eqn:En; [lia|]. pose proof (reduced_pd g n Sg Closed Sy P ltac:(congruence)) as Pd.
      pose proof (reduced_size g n Sg Closed) as Sr.
      assert (Sq : square n (grounded g)) by (unfold grounded, square; cbn; rewrite (proj1 Sg), (proj2 Sg); lia).
      intros V HV. rewrite (quad_ext (grounded g) (getCFromGeneralizedC g Closed) V n Sq Sr).
      - apply Pd. destruct HV as (k & Lk & Nk). exists k. split; [|exact Nk]. rewrite (proj1 Sr), <- (proj1 Sq). exact Lk.
      - intros i j _ _. symmetry. apply reduced_closed. }
    intros g [-> | ->]; [exact (G _ _ _ Ee Se)|exact (G _ _ _ Em Sm)].
  Qed.
End Driver.

Section Charges.
  Variable abc : R * R -> R.
  Variable disc : mesh R -> Z -> discretization R.
  Variable dbg : bool.
  Variable moment : R * R -> nat -> nat -> R * R -> R.
  Notation femlib := (fun ms k => discretize abc (disc ms k)).
  Variable m : model R.
  Variable o : driver_options.
  Variable d0 : driver R.
  Variable ops : list dop.
  Variable conds : list (pec R).
  Notation D := (disc (mo_mesh m) (o_order o)).
  Notation F := (discretize abc D).
  Notation mats := (mo_mats m).
  Notation N := (List.length conds).
  Notation Dr := (after dbg femlib moment ops d0).
  Notation Reply op := (reply dbg femlib moment op Dr).
  Hypothesis W : well_posed F m.
  Hypothesis Rm : regular_model abc D m.
  Hypothesis B : built dbg femlib m o d0.
  Hypothesis O : in_order mats conds.
  Hypothesis Co : constants_ok D.
  Variable n : nat.
  Hypothesis Ln : N = S n.
  (** the matrix of getCMatrix and the generalized one *)
  Lemma c_reduces op C w : determineOpenness dbg m = Ok op -> Reply CallC = (Ok (VMatrix C), w) ->
    exists g w', Reply (CallGeneralizedC false) = (Ok (VMatrix g), w') /\ square (S n) g /\ C = getCFromGeneralizedC g op.
  Proof.
    intros Eo E. destruct (C_inv _ _ _ _ _ _ E) as (g & op' & Eg & Eo' & ->).
    rewrite (D_model dbg femlib moment Rmul0 m o d0 ops W B), Eo in Eo'. injection Eo' as <-.
    exists g, w. split; [exact Eg|]. split; [|reflexivity]. rewrite <- Ln. apply (gc_entries abc disc dbg moment m o d0 ops conds W B O _ _ _ Eg).
  Qed.


  Lemma closed_C_charges C w V v x i p : reciprocal F dbg m false conds -> determineOpenness dbg m = Ok Closed ->
    Reply CallC = (Ok (VMatrix C), w) -> potentials_by_number conds V v -> model_fields abc D dbg m false v x ->
    (i < n)%nat -> nth_error conds (S i) = Some p ->
    charge_on F x (p_attr p) (Sum n (fun j => ent C i j * (V (S j) - V 0%nat))).
  Proof.
    intros Rc Cl E Hv Hx Li Ep. destruct (c_reduces _ _ _ Cl E) as (g & w' & Eg & Sg & ->).
    destruct (C24_closed_reduction g n Sg) as (_ & R).
    { intros k Lk. rewrite <- Ln. apply (closed_rows abc disc dbg moment m o d0 ops conds W Rm B O false g w' Rc Cl Co Eg). lia. }
    rewrite <- (R V i Li). apply (g_charges abc disc dbg moment m o d0 ops conds W Rm B O false g w' V v x (S i) p Rc Eg Hv Hx Ep).
  Qed.
  Lemma open_C_charges op C w V v x Q i : gauss abc D dbg m false -> connected_mesh abc D m -> determineOpenness dbg m = Ok op -> op <> Closed ->
    Reply CallC = (Ok (VMatrix C), w) -> potentials_by_number conds V v -> model_fields abc D dbg m false v x ->
    (forall j q, nth_error conds j = Some q -> charge_on F x (p_attr q) (Q j)) -> Sum (S n) Q = 0 -> (i < n)%nat ->
    Q (S i) = Sum n (fun j => ent C i j * (V (S j) - V 0%nat)).
  Proof.
    intros Gs Cm Eo No E Hv Hx HQ Z Li. destruct (c_reduces _ _ _ Eo E) as (g & w' & Eg & Sg & ->).
    pose proof (gauss_reciprocal abc D dbg m W Rm false conds Gs O) as Rc.
    destruct (g_positive abc disc dbg moment m o d0 ops conds W Rm B O false g w' Gs Cm Co Eg) as (_ & T).
    specialize (T (open_model dbg m op Eo No)).
    assert (EQ : forall j, (j < S n)%nat -> Q j = charge g V j).
    { intros j Lj. destruct (nth_error conds j) as [q|] eqn:Eq; [|apply nth_error_None in Eq; lia].
      apply (charge_on_fun abc D x (p_attr q)); [exact (HQ j q Eq)|].
      apply (g_charges abc disc dbg moment m o d0 ops conds W Rm B O false g w' V v x j q Rc Eg Hv Hx Eq). }
    destruct (C25_charge_neutral_reduction g n op Sg No) as (_ & R & _); [lra|].
    rewrite (EQ (S i)) by lia. apply R; auto. refine (eq_trans _ Z). apply Sum_ext. intros j Lj. symmetry. now apply EQ.
  Qed.
  Lemma closed_energy C w V v s : gauss abc D dbg m false -> same_quadrature D -> determineOpenness dbg m = Ok Closed ->
    Reply CallC = (Ok (VMatrix C), w) -> potentials_by_number conds V v ->
    conductor_problem mats false v (s_params s) -> computes abc D dbg (s_params s) (getSolution s) ->
    getTotalEnergy F s = Ok (/ 2 * Sum n (fun i => Sum n (fun j => (V (S i) - V 0%nat) * ent C i j * (V (S j) - V 0%nat)))).
  Proof.
    intros Gs Sq Cl E Hv Cp Cx. rewrite (energy_work abc D dbg m W Rm false v s (closed_model dbg m Cl) Sq Cp Cx).
    destruct (c_reduces _ _ _ Cl E) as (g & w' & Eg & Sg & ->).
    pose proof (gauss_reciprocal abc D dbg m W Rm false conds Gs O) as Rc.
    pose proof (g_quad abc disc dbg moment m o d0 ops conds W Rm B O false g w' V v _ _ Gs Eg Hv Cp Cx) as Qd. cbn [getSolution so_phi] in Qd.
    rewrite <- Qd. do 2 f_equal.
    pose proof (closed_rows abc disc dbg moment m o d0 ops conds W Rm B O false g w' Rc Cl Co Eg) as Rows. rewrite Ln in Rows.
    assert (Sy : forall i j, ent g i j = ent g j i) by (intros; eapply gc_symmetric; exact Eg).
    destruct (C24_closed_reduction g n Sg) as (_ & R).
    { intros k Lk. apply Rows. lia. }
    assert (Tot : Sum (S n) (charge g V) = 0).
    { unfold charge. rewrite (proj2 Sg), Sum_exchange. apply Sum_zero. intros k Lk. rewrite Sum_scal_r.
      rewrite (Sum_ext (S n) _ (fun i => ent g k i)) by (intros; apply Sy). rewrite (Rows k Lk). ring. }
    assert (Q : quad g V = Sum (S n) (fun i => (V i - V 0%nat) * charge g V i)).
    { unfold quad. rewrite (proj1 Sg). transitivity (Sum (S n) (fun i => V i * charge g V i) - V 0%nat * Sum (S n) (charge g V)); [rewrite Tot; ring|].
      rewrite <- Sum_scal, <- Sum_minus. apply Sum_ext. intros; ring. }
    rewrite Q, Sum_shift. replace ((V 0%nat - V 0%nat) * charge g V 0) with 0 by ring. rewrite Rplus_0_l.
    apply Sum_ext. intros i Li. rewrite (R V i Li), <- Sum_scal. apply Sum_ext. intros; ring.
  Qed.
End Charges.
