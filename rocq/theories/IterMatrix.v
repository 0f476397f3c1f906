(** Capacitance matrices computed with PCG (C79). *)
From Coq Require Import Reals Lra Lia.
From Verif Require Import Prelude StdMap Materials Graph ModelM Parser Matrix Solver Fem Iterative Domain Results Driver RSum LinAlg ListLemmas
  SpecSolver SpecDriver SpecMatrix SpecCharge SpecField SpecFem SpecIter
  SolverProofs ChargeProofs DriverProofs CallProofs DriverFacts FieldProofs FemProofs FemCalls FemFacts FemLaws FemModel FemDriver FemMatrix PcgProofs IterProofs IterCalls IterFlux IterEnergy MatrixProofs MatrixCalls MatrixFacts.
Open Scope R_scope.
Open Scope list_scope.
Local Opaque pcg iterated_phi reiterated_phi iterated_d.

Section Charge.
  Variable abc : R * R -> R.
  Variable D : discretization R.
  Hypothesis OK : tables_ok D.
  Notation F := (discretize abc D).
  Notation n := (di_nH1 D).
  Notation nd := (di_nRT D).
  Variable dbg : bool.
  Variable p : solver_inputs R.
  Hypothesis Hp : problem_ok abc D p.
  Hypothesis An : anchored abc D p.
  Hypothesis Neutral : si_neumann p = [].

  (** gradients and projections of differences *)
  Lemma field_minus (u v : list R) k : potential D u -> potential D v -> (k < List.length (di_gradient D))%nat ->
    nth k (field_of D (minus u v)) 0 = nth k (field_of D u) 0 - nth k (field_of D v) 0.
  Proof.
    intros Lu Lv L. unfold field_of. rewrite (nth_indep _ 0 (- dot [] (minus u v))) by (now rewrite map_length).
    rewrite (nth_indep (map (fun row => - dot row u) (di_gradient D)) 0 (- dot [] u)) by (now rewrite map_length). rewrite (nth_indep (map (fun row => - dot row v) (di_gradient D)) 0 (- dot [] v)) by (now rewrite map_length).
    rewrite (map_nth (fun row => - dot row (minus u v))), (map_nth (fun row => - dot row u)), (map_nth (fun row => - dot row v)).
    rewrite (dot_lin (nth k (di_gradient D) []) u v (-1) n Lu Lv (minus u v)); [ring|rewrite minus_length; exact Lu|].
    intros j Lj. rewrite minus_nth by (rewrite Lu; exact Lj). ring.
  Qed.
  Lemma projects_minus u v d1 d2 : potential D u -> potential D v -> projects D p (field_of D u) d1 -> projects D p (field_of D v) d2 ->
    projects D p (field_of D (minus u v)) (minus d1 d2).
  Proof.
    intros Lu Lv P1 P2. refine (projects_diff D p _ _ _ _ _ _ _ _ P1 P2); unfold field_of; rewrite ?map_length; try reflexivity.
    intros k L. exact (field_minus u v k Lu Lv L).
  Qed.
  Lemma work_pos u : 0 <= work abc D p u u.
  Proof.
    destruct (iterates_exists abc D OK dbg p Hp) as (y & Iy). destruct (iterates_inv abc D OK dbg p Hp y Iy) as (s & ess & phi0 & Es & So & _).
    rewrite <- (wk_work abc D OK dbg p Hp s ess phi0 So). apply (workc_nonneg abc D OK _ _ (one_pos abc D OK dbg p Hp s ess phi0 So) (one_abc abc D OK dbg p Hp s ess phi0 So)).
  Qed.
  Lemma work_sum (a b t : list R) : potential D a -> potential D b -> potential D t -> (forall k, (k < n)%nat -> nth k t 0 = nth k a 0 - nth k b 0) ->
    work abc D p t t <= 2 * work abc D p a a + 2 * work abc D p b b.
  Proof.
    intros La Lb Lt E.
    destruct (iterates_exists abc D OK dbg p Hp) as (y & Iy). destruct (iterates_inv abc D OK dbg p Hp y Iy) as (s & ess & phi0 & Es & So & _).
    rewrite <- !(wk_work abc D OK dbg p Hp s ess phi0 So).
    assert (E' : forall k, (k < n)%nat -> nth k t 0 = nth k a 0 + -1 * nth k b 0) by (intros k L; rewrite (E k L); ring).
    pose (u := axpy n a 1 b). assert (Lu : List.length u = n) by apply axpy_length.
    assert (E2 : forall k, (k < n)%nat -> nth k u 0 = nth k a 0 + 1 * nth k b 0) by (intros k L; unfold u; rewrite axpy_nth by exact L; reflexivity).
    pose proof (workc_nonneg abc D OK _ _ (one_pos abc D OK dbg p Hp s ess phi0 So) (one_abc abc D OK dbg p Hp s ess phi0 So) u) as P.
    rewrite (workc_lin abc D _ _ a b t t (-1) La Lb Lt E'), (workc_sym abc D _ _ a t), (workc_sym abc D _ _ b t),
      (workc_lin abc D _ _ a b a t (-1) La Lb Lt E'), (workc_lin abc D _ _ a b b t (-1) La Lb Lt E').
    rewrite (workc_lin abc D _ _ a b u u 1 La Lb Lu E2), (workc_sym abc D _ _ a u), (workc_sym abc D _ _ b u),
      (workc_lin abc D _ _ a b a u 1 La Lb Lu E2), (workc_lin abc D _ _ a b b u 1 La Lb Lu E2) in P.
    rewrite (workc_sym abc D _ _ b a) in *. lra.
  Qed.

  (** The charge in terms of the potential the iteration starts from *)
  Lemma charges_from_start x y z dz t q q' c w c' w' m g :
    computes abc D dbg p x -> iterates abc D dbg p y -> zero_extension abc D p z -> projects D p (field_of D z) dz ->
    conditioned n (work abc D p) (vanishing abc D p) c w -> conditioned nd (flux2 D) (fun d => List.length d = nd) c' w' ->
    flux_bound abc D p m -> charge_bound abc D t g -> charge_on F x t q -> charge_on (discretize_pcg abc D) y t q' ->
    (q - q') ^ 2 <= 2 * g * (m * reduction c w * work abc D p z z +
                             Rmax (reduction c' w' * (2 * flux2 D dz dz + 8 * m * work abc D p z z)) (kappa c' w' / 10 ^ 24)).
  Proof.
    intros Cx Iy Zz Pz Cd Cd' Fb Cb Q Q'.
    destruct (iterates_inv abc D OK dbg p Hp y Iy) as (s & ess & phi0 & Es & So & Ep & Ee & _).
    set (d := solve_d D (s_eps s) (so_e y)).
    assert (Pd : projects D p (so_e y) d) by (apply (projects_solve abc D OK dbg p Hp s _ _ (sf_eps _ _ _ _ _ _ _ So)); reflexivity).
    pose proof (iterated_charges abc D OK dbg p Hp An x y z d t q q' c w c' w' m g Cx Iy Zz Pd Cd Cd' Fb Cb Q Q') as B.
    pose proof (computes_xs abc D OK dbg p Hp An s ess phi0 So x Cx) as Ex.
    pose proof (zero_extension_start abc D OK dbg p Hp s ess phi0 So z Zz) as Ez.
    destruct (difference_of_potentials abc D OK dbg p Hp An x y Cx Iy) as (Lx & Ly & Vd & _).
    destruct (y_facts abc D OK dbg p Hp An s ess phi0 So) as (_ & Ey & By). rewrite <- Ex, <- Ep, <- Ez in By. rewrite <- !(minus_diff D) in By by exact Lx.
    assert (Lz : potential D z) by apply Zz.
    (* energy of the start *)
    assert (Wz : work abc D p (minus (so_phi x) z) (minus (so_phi x) z) <= work abc D p z z).
    { pose proof (energy_gap abc D OK dbg p Hp An s ess phi0 So z Lz) as Gap. rewrite <- Ex, <- (minus_diff D) in Gap by exact Lx.
      unfold energy in Gap. rewrite !(no_source abc D p Neutral _ _ (sf_sigma _ _ _ _ _ _ _ So)) in Gap.
      pose proof (work_pos (so_phi x)) as P. assert (G' : / 2 * work abc D p z z - 0 = / 2 * work abc D p (so_phi x) (so_phi x) - 0 + / 2 * work abc D p (minus (so_phi x) z) (minus (so_phi x) z)); [|lra].
      apply Gap. intros k L I. rewrite Ez, start_nth by exact L. apply nmem_in in I. now rewrite I. }
    (* energy of y - z *)
    assert (Lyz : potential D (minus (so_phi y) z)) by (unfold potential; rewrite minus_length; exact Ly).
    assert (Wy : work abc D p (minus (so_phi y) z) (minus (so_phi y) z) <= 4 * work abc D p z z).
    { assert (W2 : work abc D p (minus (so_phi y) z) (minus (so_phi y) z) <= 2 * work abc D p (minus (so_phi x) z) (minus (so_phi x) z) + 2 * work abc D p (minus (so_phi x) (so_phi y)) (minus (so_phi x) (so_phi y))).
      { apply work_sum; auto; try (unfold potential; rewrite minus_length; exact Lx).
        intros k L. rewrite (minus_nth (so_phi y)) by (rewrite Ly; exact L). rewrite !(minus_nth (so_phi x)) by (rewrite Lx; exact L). ring. }
      lra. }
    assert (Vyz : vanishing abc D p (minus (so_phi y) z)).
    { split; [exact Lyz|]. intros k H. pose proof (held_lt abc D OK p k H) as L.
      rewrite nth_error_nth0 by (rewrite Lyz; exact L). f_equal. rewrite minus_nth by (rewrite Ly; exact L).
      apply (held_ess abc D dbg p s ess phi0 So) in H. rewrite Ep, (Ey k L H), Ez, start_nth by exact L. apply nmem_in in H. rewrite H. change (at_ phi0 k) with (nth k phi0 0). ring. }
    pose proof (y_gradient abc D OK dbg p Hp y Iy) as Gy. change (so_e y = field_of D (so_phi y)) in Gy.
    pose proof Pd as Pd'. rewrite Gy in Pd'.
    pose proof (projects_minus _ _ _ _ Ly Lz Pd' Pz) as Pm. destruct Fb as (M0 & Fb'). pose proof (Fb' _ _ Vyz Pm) as Bm.
    assert (Ld : List.length d = nd) by apply Pd. assert (Ldz : List.length dz = nd) by apply Pz.
    assert (Bd : flux2 D d d <= 2 * flux2 D dz dz + 8 * m * work abc D p z z).
    { assert (B2 : flux2 D d d <= 2 * flux2 D dz dz + 2 * flux2 D (minus d dz) (minus d dz)).
      { apply (flux2_sum D OK); rewrite ?minus_length; auto. intros k L. rewrite minus_nth by (rewrite Ld; exact L). ring. }
      assert (m * work abc D p (minus (so_phi y) z) (minus (so_phi y) z) <= m * (4 * work abc D p z z)) by (apply Rmult_le_compat_l; assumption). lra. }
    apply (Rle_trans _ _ _ B). destruct Cb as (G0 & _).
    assert (K1 : 1 <= kappa c w) by (apply (kappa_pos c w), Cd). assert (K2 : 1 <= kappa c' w') by (apply (kappa_pos c' w'), Cd').
    assert (R1 : 0 <= reduction c w).
    { unfold reduction. apply (Rle_trans _ (kappa c w / 10 ^ 12)); [|apply Rmax_l]. apply Rmult_le_pos; [lra|]. left. apply Rinv_0_lt_compat, pow_lt. lra. }
    assert (R2 : 0 <= reduction c' w').
    { unfold reduction. apply (Rle_trans _ (kappa c' w' / 10 ^ 12)); [|apply Rmax_l]. apply Rmult_le_pos; [lra|]. left. apply Rinv_0_lt_compat, pow_lt. lra. }
    apply Rmult_le_compat_l; [lra|]. apply Rplus_le_compat.
    - apply Rmult_le_compat_l; [|exact Wz]. apply Rmult_le_pos; assumption.
    - apply Rle_max_compat_r. apply Rmult_le_compat_l; assumption.
  Qed.
End Charge.

Lemma sqr_bound a b : 0 <= b -> a ^ 2 <= b -> Rabs a <= sqrt b.
Proof.
  intros P H. rewrite <- (sqrt_pow2 (Rabs a) (Rabs_pos a)). apply sqrt_le_1; [apply pow2_ge_0|exact P|]. rewrite pow2_abs. exact H.
Qed.
(** ** The charge-neutral reduction *)
Lemma Sum_close n (f h : nat -> R) t : (forall k, (k < n)%nat -> Rabs (f k - h k) <= t) -> Rabs (Sum n f - Sum n h) <= INR n * t.
Proof.
  induction n as [|n IH]; intros H; [unfold Sum, Rsum; cbn; rewrite Rminus_0_r, Rabs_R0; lra|].
  rewrite !Sum_S, S_INR. pose proof (IH ltac:(intros k L; apply H; lia)) as A. pose proof (H n ltac:(lia)) as A'.
  replace (Sum n f + f n - (Sum n h + h n)) with ((Sum n f - Sum n h) + (f n - h n)) by ring.
  apply (Rle_trans _ _ _ (Rabs_triang _ _)). lra.
Qed.
Lemma quotient_close (r c T r' c' T' a e f : R) : Rabs r <= a -> Rabs c <= a -> Rabs (r - r') <= e -> Rabs (c - c') <= e -> Rabs (T - T') <= f -> f < Rabs T ->
  Rabs (r * c / T - r' * c' / T') <= e * (2 * a + e) / (Rabs T - f) + a ^ 2 * f / (Rabs T * (Rabs T - f)).
Proof.
  intros Hr Hc He Hf HT Lt.
  assert (F0 : 0 <= f) by (apply (Rle_trans _ _ _ (Rabs_pos _) HT)). assert (E0 : 0 <= e) by (apply (Rle_trans _ _ _ (Rabs_pos _) He)).
  assert (A0 : 0 <= a) by (apply (Rle_trans _ _ _ (Rabs_pos _) Hr)).
  assert (PT : 0 < Rabs T) by lra. assert (NT : T <> 0) by (intros ->; rewrite Rabs_R0 in PT; lra).
  assert (LT : Rabs T - f <= Rabs T').
  { pose proof (Rabs_triang (T - T') T') as Q. replace (T - T' + T') with T in Q by ring. lra. }
  assert (NT' : T' <> 0) by (intros ->; rewrite Rabs_R0 in LT; lra).
  replace (r * c / T - r' * c' / T') with ((r * c - r' * c') / T' + r * c * (T' - T) / (T * T')) by (field; auto).
  apply (Rle_trans _ _ _ (Rabs_triang _ _)). unfold Rdiv. apply Rplus_le_compat.
  - rewrite Rabs_mult, (Rabs_inv T'). apply Rmult_le_compat; [apply Rabs_pos|left; apply Rinv_0_lt_compat; lra| |apply Rinv_le_contravar; lra].
    replace (r * c - r' * c') with (r * (c - c') + (r - r') * c - (r - r') * (c - c')) by ring.
    apply (Rle_trans _ _ _ (Rabs_triang _ _)). rewrite Rabs_Ropp. pose proof (Rabs_triang (r * (c - c')) ((r - r') * c)) as Q. rewrite !Rabs_mult in *.
    assert (Rabs r * Rabs (c - c') <= a * e) by (apply Rmult_le_compat; auto using Rabs_pos). assert (Rabs (r - r') * Rabs c <= e * a) by (apply Rmult_le_compat; auto using Rabs_pos).
    assert (Rabs (r - r') * Rabs (c - c') <= e * e) by (apply Rmult_le_compat; auto using Rabs_pos). lra.
  - rewrite Rabs_mult, (Rabs_inv (T * T')). rewrite (Rabs_minus_sym T T') in HT.
    assert (P : 0 < Rabs T * (Rabs T - f)) by (apply Rmult_lt_0_compat; lra).
    apply Rmult_le_compat; [apply Rabs_pos|left; apply Rinv_0_lt_compat; rewrite Rabs_mult; apply Rmult_lt_0_compat; lra| |].
    + rewrite !Rabs_mult. replace (a ^ 2 * f) with (a * a * f) by ring. repeat apply Rmult_le_compat; auto using Rabs_pos. apply Rmult_le_pos; apply Rabs_pos.
    + apply Rinv_le_contravar; [exact P|]. rewrite Rabs_mult. apply Rmult_le_compat_l; lra.
Qed.
Lemma neutral_close n (g g' : matrix R) op a t : square (S n) g -> square (S n) g' -> op <> Closed ->
  (forall i j, (i < S n)%nat -> (j < S n)%nat -> Rabs (ent g i j - ent g' i j) <= t) -> sums_bounded (S n) g a -> INR (S n) ^ 2 * t < Rabs (total g) ->
  forall i j, (i < n)%nat -> (j < n)%nat ->
    Rabs (ent (getCFromGeneralizedC g op) i j - ent (getCFromGeneralizedC g' op) i j) <= neutral_tolerance (S n) a (Rabs (total g)) t.
Proof.
  intros Sg Sg' Ne H Ba Lt i j Li Lj. rewrite (reduced_open g n Sg op i j Ne), (reduced_open g' n Sg' op i j Ne).
  assert (HT : Rabs (total g - total g') <= INR (S n) ^ 2 * t).
  { unfold total. destruct Sg as (-> & ->), Sg' as (-> & ->). replace (INR (S n) ^ 2 * t) with (INR (S n) * (INR (S n) * t)) by ring.
    apply Sum_close. intros k Lk. apply Sum_close. intros l Ll. apply H; assumption. }
  assert (Hr : Rabs (rowsum g n i - rowsum g' n i) <= INR (S n) * t) by (apply Sum_close; intros k Lk; apply H; [lia|exact Lk]).
  assert (Hc : Rabs (colsum g n j - colsum g' n j) <= INR (S n) * t) by (apply Sum_close; intros k Lk; apply H; [exact Lk|lia]).
  pose proof (quotient_close _ _ _ _ _ _ a _ _ (proj1 (Ba (S i) ltac:(lia))) (proj2 (Ba (S j) ltac:(lia))) Hr Hc HT Lt) as Q.
  replace (ent g (S i) (S j) - rowsum g n i * colsum g n j / total g - (ent g' (S i) (S j) - rowsum g' n i * colsum g' n j / total g'))
    with (ent g (S i) (S j) - ent g' (S i) (S j) + - (rowsum g n i * colsum g n j / total g - rowsum g' n i * colsum g' n j / total g')) by ring.
  apply (Rle_trans _ _ _ (Rabs_triang _ _)). rewrite Rabs_Ropp. unfold neutral_tolerance. rewrite Rplus_assoc. apply Rplus_le_compat; [apply H; lia|exact Q].
Qed.

Section Matrices.
  Variable abc : R * R -> R.
  Variable disc : mesh R -> Z -> discretization R.
  Variable dbg : bool.
  Variable moment : R * R -> nat -> nat -> R * R -> R.
  Variable m : model R.
  Variable o : driver_options.
  Variable conds : list (pec R).
  Notation D := (disc (mo_mesh m) (o_order o)).
  Notation F := (discretize abc D).
  Notation G := (discretize_pcg abc D).
  Notation mats := (mo_mats m).
  Notation N := (List.length conds).
  Hypothesis W : well_posed F m.
  Hypothesis Rm : regular_model abc D m.
  Hypothesis O : in_order mats conds.
  Let OK : tables_ok D := rm_tables _ _ _ Rm.
  Lemma posed_pcg : well_posed G m.
  Proof. destruct W as [W1 W2 W3 W4 W5]. constructor; auto. exact (iterated_ok abc D OK). Qed.

  Lemma tolerance_bound c w c' w' mu g WW Phi q : 
    0 <= 2 * g * (mu * reduction c w * WW + Rmax (reduction c' w' * (2 * Phi + 8 * mu * WW)) (kappa c' w' / 10 ^ 24)) ->
    q ^ 2 <= 2 * g * (mu * reduction c w * WW + Rmax (reduction c' w' * (2 * Phi + 8 * mu * WW)) (kappa c' w' / 10 ^ 24)) ->
    Rabs q <= tolerance c w c' w' mu g WW Phi.
  Proof. intros P H. exact (sqr_bound q _ P H). Qed.

  Lemma unit_charge_error ignore pr c w c' w' mu g WW Phi : solver_constants abc D m ignore conds pr c w c' w' mu g WW Phi ->
    forall i pi, nth_error conds i = Some pi ->
    exists x y, unit_solution F dbg mats ignore (p_attr pi) x /\ unit_solution G dbg mats ignore (p_attr pi) y /\
      forall pj q q', In pj conds -> charge_on F x (p_attr pj) q -> charge_on G y (p_attr pj) q' ->
        Rabs (q - q') <= tolerance c w c' w' mu g WW Phi.
  Proof.
    intros Sc i pi Ei. assert (Li : (i < N)%nat) by (apply nth_error_Some; congruence).
    pose proof (sc_problem _ _ _ _ _ _ _ _ _ _ _ _ _ _ Sc i pi Ei) as Cp.
    destruct (model_problem abc D m W Rm ignore _ _ Cp) as (Hp & An).
    destruct (computes_exists abc D OK dbg (pr i) Hp) as (x & Cx). destruct (iterates_exists abc D OK dbg (pr i) Hp) as (y & Iy).
    exists x, y. split; [destruct Cx as (s & E1 & E2); exists (pr i), s; auto|]. split; [destruct Iy as (s & E1 & E2); exists (pr i), s; auto|].
    intros pj q q' Ij Q Q'.
    destruct (iterates_inv abc D OK dbg (pr i) Hp y Iy) as (s & ess & phi0 & Es & So & _).
    pose proof (start_extension abc D OK dbg (pr i) Hp s ess phi0 So) as Zz. set (z := start D ess phi0) in *.
    set (dz := solve_d D (s_eps s) (field_of D z)).
    assert (Pz : projects D (pr i) (field_of D z) dz) by (apply (projects_solve abc D OK dbg (pr i) Hp s _ _ (sf_eps _ _ _ _ _ _ _ So)); reflexivity).
    pose proof (charges_from_start abc D OK dbg (pr i) Hp An (cp_neu _ _ _ _ Cp) x y z dz (p_attr pj) q q' c w c' w' mu g Cx Iy Zz Pz
      (sc_work _ _ _ _ _ _ _ _ _ _ _ _ _ _ Sc i Li) (sc_flux _ _ _ _ _ _ _ _ _ _ _ _ _ _ Sc) (sc_project _ _ _ _ _ _ _ _ _ _ _ _ _ _ Sc i Li)
      (sc_charge _ _ _ _ _ _ _ _ _ _ _ _ _ _ Sc pj Ij) Q Q') as B.
    destruct (sc_start _ _ _ _ _ _ _ _ _ _ _ _ _ _ Sc i z dz Li Zz Pz) as (B1 & B2).
    destruct (sc_work _ _ _ _ _ _ _ _ _ _ _ _ _ _ Sc i Li) as (C0 & _). destruct (sc_flux _ _ _ _ _ _ _ _ _ _ _ _ _ _ Sc) as (C0' & _).
    destruct (sc_project _ _ _ _ _ _ _ _ _ _ _ _ _ _ Sc i Li) as (M0 & _). destruct (sc_charge _ _ _ _ _ _ _ _ _ _ _ _ _ _ Sc pj Ij) as (G0 & _).
    assert (K1 : 1 <= kappa c w) by (apply (kappa_pos c w), C0). assert (K2 : 1 <= kappa c' w') by (apply (kappa_pos c' w'), C0').
    assert (R1 : 0 <= reduction c w).
    { unfold reduction. apply (Rle_trans _ (kappa c w / 10 ^ 12)); [|apply Rmax_l]. apply Rmult_le_pos; [lra|]. left. apply Rinv_0_lt_compat, pow_lt. lra. }
    assert (R2 : 0 <= reduction c' w').
    { unfold reduction. apply (Rle_trans _ (kappa c' w' / 10 ^ 12)); [|apply Rmax_l]. apply Rmult_le_pos; [lra|]. left. apply Rinv_0_lt_compat, pow_lt. lra. }
    assert (B' : (q - q') ^ 2 <= 2 * g * (mu * reduction c w * WW + Rmax (reduction c' w' * (2 * Phi + 8 * mu * WW)) (kappa c' w' / 10 ^ 24))).
    { apply (Rle_trans _ _ _ B). apply Rmult_le_compat_l; [lra|]. apply Rplus_le_compat.
      - apply Rmult_le_compat_l; [|exact B1]. apply Rmult_le_pos; assumption.
      - apply Rle_max_compat_r. apply Rmult_le_compat_l; [exact R2|]. assert (mu * work abc D (pr i) z z <= mu * WW) by (apply Rmult_le_compat_l; assumption). lra. }
    apply tolerance_bound; [|exact B']. apply (Rle_trans _ ((q - q') ^ 2)); [apply pow2_ge_0|exact B'].
  Qed.

  Lemma generalized_close ops ops' ignore d d' g w g' w' pr c wd c' wd' mu ga WW Phi :
    built dbg (galerkin abc disc) m o d -> built dbg (iterative abc disc) m o d' ->
    reply dbg (galerkin abc disc) moment (CallGeneralizedC ignore) (after dbg (galerkin abc disc) moment ops d) = (Ok (VMatrix g), w) ->
    reply dbg (iterative abc disc) moment (CallGeneralizedC ignore) (after dbg (iterative abc disc) moment ops' d') = (Ok (VMatrix g'), w') ->
    solver_constants abc D m ignore conds pr c wd c' wd' mu ga WW Phi ->
    square N g /\ square N g' /\ forall i j, (i < N)%nat -> (j < N)%nat -> Rabs (ent g i j - ent g' i j) <= tolerance c wd c' wd' mu ga WW Phi.
  Proof.
    intros B B' E E' Sc. destruct (gc_openness abc disc dbg moment m o d ops conds W B O ignore g w E) as (op & Eo & N1).
    destruct (generalized_matrix dbg (galerkin abc disc) moment m o d ops conds ignore op W B O Eo N1) as (g0 & w0 & E0 & S1 & S2 & V).
    destruct (generalized_matrix dbg (iterative abc disc) moment m o d' ops' conds ignore op posed_pcg B' O Eo N1) as (g0' & w0' & E0' & S1' & S2' & V').
    pose proof (eq_trans (eq_sym E0) E) as Q. pose proof (eq_trans (eq_sym E0') E') as Q'. clear E0 E E0' E'. injection Q as -> _. injection Q' as -> _.
    split; [split; assumption|]. split; [split; assumption|]. intros i j Li Lj.
    destruct (nth_error conds i) as [pi|] eqn:Ei; [|apply nth_error_None in Ei; lia].
    destruct (nth_error conds j) as [pj|] eqn:Ej; [|apply nth_error_None in Ej; lia].
    destruct (unit_charge_error ignore pr c wd c' wd' mu ga WW Phi Sc i pi Ei) as (xi & yi & Uxi & Uyi & Hi).
    destruct (unit_charge_error ignore pr c wd c' wd' mu ga WW Phi Sc j pj Ej) as (xj & yj & Uxj & Uyj & Hj).
    pose proof (chargeF abc D xi (p_attr pj)) as Qa. pose proof (chargeF abc D xj (p_attr pi)) as Qb.
    pose proof (chargeF abc D yi (p_attr pj)) as Qa'. pose proof (chargeF abc D yj (p_attr pi)) as Qb'.
    pose proof (V i j pi pj xi xj _ _ Ei Ej Uxi Uxj Qa Qb) as Eg. pose proof (V' i j pi pj yi yj _ _ Ei Ej Uyi Uyj Qa' Qb') as Eg'.
    rewrite Eg, Eg'. clear Eg Eg' V V'.
    pose proof (Hi pj _ _ (nth_error_In _ _ Ej) Qa Qa') as T1. pose proof (Hj pi _ _ (nth_error_In _ _ Ei) Qb Qb') as T2.
    revert T1 T2. generalize (tolerance c wd c' wd' mu ga WW Phi). intros tl. clear. unfold Rabs.
    repeat destruct Rcase_abs; lra.
  Qed.

  (** ** The constants exist *)
  Lemma uniform n (P : nat -> R -> Prop) : (forall i a b, (i < n)%nat -> P i a -> a <= b -> P i b) -> (forall i, (i < n)%nat -> exists a, P i a) ->
    exists a, forall i, (i < n)%nat -> P i a.
  Proof.
    induction n as [|n IH]; intros M E; [exists 0; lia|].
    destruct IH as (a & Ha); [intros i b c L; apply M; lia|intros i L; apply E; lia|]. destruct (E n) as (b & Hb); [lia|].
    exists (Rmax a b). intros i L. destruct (Nat.eq_dec i n) as [-> | Ne].
    - apply (M n b); [lia|exact Hb|apply Rmax_r].
    - apply (M i a); [lia|apply Ha; lia|apply Rmax_l].
  Qed.
  Lemma uniform_nat n (P : nat -> nat -> Prop) : (forall i a b, (i < n)%nat -> P i a -> (a <= b)%nat -> P i b) -> (forall i, (i < n)%nat -> exists a, P i a) ->
    exists a, forall i, (i < n)%nat -> P i a.
  Proof.
    induction n as [|n IH]; intros M E; [exists 0%nat; lia|].
    destruct IH as (a & Ha); [intros i b c L; apply M; lia|intros i L; apply E; lia|]. destruct (E n) as (b & Hb); [lia|].
    exists (Nat.max a b). intros i L. destruct (Nat.eq_dec i n) as [-> | Ne].
    - apply (M n b); [lia|exact Hb|apply Nat.le_max_r].
    - apply (M i a); [lia|apply Ha; lia|apply Nat.le_max_l].
  Qed.
  Lemma flux2_pos d : 0 <= flux2 D d d.
  Proof.
    unfold flux2. apply Rsum_nonneg. intros q I. destruct (to_rt D OK q I) as (_ & _ & P).
    apply Rmult_le_pos; [lra|]. pose proof (Rle_0_sqr (dot (r_x q) d)). pose proof (Rle_0_sqr (dot (r_y q) d)). unfold Rsqr in *. lra.
  Qed.
  Lemma problems ignore (l : list (pec R)) : exists ps, Forall2 (fun q p => conductor_problem mats ignore (unit_potential (p_attr q)) p) l ps.
  Proof.
    induction l as [|q l (ps & IH)]; [exists []; constructor|].
    destruct (problem_exists abc D m W ignore (unit_potential (p_attr q))) as (p & Cp). exists (p :: ps). apply Forall2_cons; assumption.
  Qed.
  Lemma constants_exist ignore : exists pr c w c' w' mu g WW Phi, solver_constants abc D m ignore conds pr c w c' w' mu g WW Phi.
  Proof.
    destruct (problems ignore conds) as (ps & Fp). pose (pr := fun i => nth i ps {| si_dirichlet := []; si_neumann := []; si_open := []; si_eps := [] |}).
    assert (Hc : forall i pi, nth_error conds i = Some pi -> conductor_problem mats ignore (unit_potential (p_attr pi)) (pr i)).
    { intros i pi Ei. unfold pr. clear -Fp Ei. revert i Ei. induction Fp as [|q p l l' H Fp IH]; intros [|i] Ei; cbn in Ei; try discriminate.
      - injection Ei as <-. exact H.
      - exact (IH i Ei). }
    assert (Hr : forall i, (i < N)%nat -> problem_ok abc D (pr i) /\ anchored abc D (pr i)).
    { intros i L. destruct (nth_error conds i) as [pi|] eqn:Ei; [|apply nth_error_None in Ei; lia]. exact (model_problem abc D m W Rm ignore _ _ (Hc i pi Ei)). }
    assert (Hw : forall i u, (i < N)%nat -> 0 <= work abc D (pr i) u u) by (intros i u L; exact (work_pos abc D OK dbg (pr i) (proj1 (Hr i L)) u)).
    destruct (uniform_nat N (fun i w => exists c, conditioned (di_nH1 D) (work abc D (pr i)) (vanishing abc D (pr i)) c w)) as (w & Hcw).
    { intros i a b L (c & C1 & C2 & C3) Le. exists c. split; [exact C1|]. split; [exact C2|]. intros k Lk. destruct (C3 k Lk) as (l & Ll & H). exists l. split; [lia|exact H]. }
    { intros i L. destruct (work_conditioned abc D OK dbg (pr i) (proj1 (Hr i L)) (proj2 (Hr i L))) as (c & w & H). eauto. }
    destruct (uniform N (fun i c => conditioned (di_nH1 D) (work abc D (pr i)) (vanishing abc D (pr i)) c w)) as (c & Hcc).
    { intros i a b L (C1 & C2 & C3) Le. split; [lra|]. split; [|exact C3]. intros u Vu. apply (Rle_trans _ _ _ (C2 u Vu)). apply Rmult_le_compat_r; [exact (Hw i u L)|exact Le]. }
    { exact Hcw. }
    destruct (flux_conditioned D OK) as (c' & w' & Hf).
    destruct (uniform N (fun i a => flux_bound abc D (pr i) a)) as (mu & Hmu).
    { intros i a b L (C1 & C2) Le. split; [lra|]. intros u d Vu Pd. apply (Rle_trans _ _ _ (C2 u d Vu Pd)). apply Rmult_le_compat_r; [exact (Hw i u L)|exact Le]. }
    { intros i L. exact (flux_bound_exists abc D OK dbg (pr i) (proj1 (Hr i L)) (proj2 (Hr i L))). }
    destruct (uniform N (fun i a => forall p, nth_error conds i = Some p -> charge_bound abc D (p_attr p) a)) as (g & Hg).
    { intros i a b L Ha Le p Ep. destruct (Ha p Ep) as (C1 & C2). split; [lra|]. intros d Ld. apply (Rle_trans _ _ _ (C2 d Ld)). apply Rmult_le_compat_r; [apply flux2_pos|exact Le]. }
    { intros i L. destruct (nth_error conds i) as [pi|] eqn:Ei; [|apply nth_error_None in Ei; lia].
      destruct (charge_bound_exists abc D OK (p_attr pi)) as (a & Ha). exists a. intros p [= <-]. exact Ha. }
    assert (Hz : forall i, (i < N)%nat -> exists z d, forall z' d', zero_extension abc D (pr i) z' -> projects D (pr i) (field_of D z') d' -> z' = z /\ d' = d).
    { intros i L. destruct (Hr i L) as (Hp & An). destruct (iterates_exists abc D OK dbg (pr i) Hp) as (y & Iy).
      destruct (iterates_inv abc D OK dbg (pr i) Hp y Iy) as (s & ess & phi0 & Es & So & _).
      exists (start D ess phi0), (solve_d D (s_eps s) (field_of D (start D ess phi0))). intros z' d' Zz Pd.
      pose proof (zero_extension_start abc D OK dbg (pr i) Hp s ess phi0 So z' Zz) as ->. split; [reflexivity|].
      exact (proj1 (projects_solve abc D OK dbg (pr i) Hp s _ _ (sf_eps _ _ _ _ _ _ _ So)) Pd). }
    destruct (uniform N (fun i a => forall z d, zero_extension abc D (pr i) z -> projects D (pr i) (field_of D z) d -> work abc D (pr i) z z <= a)) as (WW & HW).
    { intros i a b L Ha Le z d Zz Pd. apply (Rle_trans _ a); [exact (Ha z d Zz Pd)|exact Le]. }
    { intros i L. destruct (Hz i L) as (z & d & H). exists (work abc D (pr i) z z). intros z' d' Zz Pd. destruct (H z' d' Zz Pd) as (-> & _). lra. }
    destruct (uniform N (fun i a => forall z d, zero_extension abc D (pr i) z -> projects D (pr i) (field_of D z) d -> flux2 D d d <= a)) as (Phi & HP).
    { intros i a b L Ha Le z d Zz Pd. apply (Rle_trans _ a); [exact (Ha z d Zz Pd)|exact Le]. }
    { intros i L. destruct (Hz i L) as (z & d & H). exists (flux2 D d d). intros z' d' Zz Pd. destruct (H z' d' Zz Pd) as (_ & ->). lra. }
    exists pr, c, w, c', w', mu, g, WW, Phi. constructor; auto.
    - intros p I. apply In_nth_error in I as (i & Ei). apply (Hg i); [apply nth_error_Some; congruence|exact Ei].
    - intros i z d L Zz Pd. split; [exact (HW i L z d Zz Pd)|exact (HP i L z d Zz Pd)].
  Qed.

  (** ** Parameters per unit length of closed problems *)
  Lemma generalized_exists ops' ignore op d' : built dbg (iterative abc disc) m o d' ->
    determineOpenness dbg m = Ok op -> (N = 1%nat -> op <> Closed) ->
    exists g' w', reply dbg (iterative abc disc) moment (CallGeneralizedC ignore) (after dbg (iterative abc disc) moment ops' d') = (Ok (VMatrix g'), w').
  Proof.
    intros B' Eo N1. destruct (generalized_matrix dbg (iterative abc disc) moment m o d' ops' conds ignore op posed_pcg B' O Eo N1) as (g & w & E & _). eauto.
  Qed.
  Lemma abs_triple n (a b : nat -> R) (d : nat -> nat -> R) (t : R) : (forall k l, (k < n)%nat -> (l < n)%nat -> Rabs (d k l) <= t) ->
    Rabs (Sum n (fun k => a k * Sum n (fun l => d k l * b l))) <= t * Sum n (fun k => Rabs (a k)) * Sum n (fun l => Rabs (b l)).
  Proof.
    intros Hd. assert (Ab : forall N (f : nat -> R), Rabs (Sum N f) <= Sum N (fun k => Rabs (f k))).
    { clear. intros N f. induction N as [|N IH]; [unfold Sum, Rsum; cbn; rewrite Rabs_R0; lra|]. rewrite !Sum_S.
      apply (Rle_trans _ _ _ (Rabs_triang _ _)). lra. }
    apply (Rle_trans _ _ _ (Ab _ _)). rewrite Rmult_assoc, (Rmult_comm t), Rmult_assoc, <- Sum_scal_r. apply Sum_le. intros k Lk.
    rewrite Rabs_mult. apply Rmult_le_compat_l; [apply Rabs_pos|]. apply (Rle_trans _ _ _ (Ab _ _)). rewrite Rmult_comm, <- Sum_scal. apply Sum_le. intros l Ll.
    rewrite Rabs_mult. apply Rmult_le_compat_r; [apply Rabs_pos|exact (Hd k l Lk Ll)].
  Qed.
  Lemma inverses_close n (A B L M : matrix R) t : square n A -> square n B -> product_is n L A 1 -> product_is n A L 1 -> product_is n M B 1 ->
    (forall i j, (i < n)%nat -> (j < n)%nat -> Rabs (ent A i j - ent B i j) <= t) ->
    forall i j, (i < n)%nat -> (j < n)%nat -> Rabs (ent L i j - ent M i j) <= t * Sum n (fun k => Rabs (ent M i k)) * Sum n (fun l => Rabs (ent L l j)).
  Proof.
    intros SA SB P1 P2 P3 Hd i j Li Lj.
    assert (E : ent L i j - ent M i j = - Sum n (fun k => ent M i k * Sum n (fun l => (ent A k l - ent B k l) * ent L l j))).
    { transitivity (- (Sum n (fun k => ent M i k * Sum n (fun l => ent A k l * ent L l j)) - Sum n (fun k => ent M i k * Sum n (fun l => ent B k l * ent L l j)))).
      - rewrite (product_vec B n M 1 P3 (fun l => ent L l j) i Li).
        rewrite (Sum_ext n (fun k => ent M i k * Sum n (fun l => ent A k l * ent L l j)) (fun k => if (k =? j)%nat then ent M i k else 0)).
        + rewrite (Sum_single n j (fun k => ent M i k) Lj). ring.
        + intros k Lk. rewrite (P2 k j Lk Lj). destruct (k =? j)%nat; ring.
      - rewrite <- Sum_minus. f_equal. apply Sum_ext. intros k _. rewrite <- Rmult_minus_distr_l, <- Sum_minus. f_equal. apply Sum_ext. intros l _. ring. }
    rewrite E, Rabs_Ropp. exact (abs_triple n (fun k => ent M i k) (fun l => ent L l j) (fun k l => ent A k l - ent B k l) t Hd).
  Qed.

  Lemma pul_close_gen ops ops' d d' p w p' w' n op tc tl : built dbg (galerkin abc disc) m o d -> built dbg (iterative abc disc) m o d' ->
    determineOpenness dbg m = Ok op -> N = S n ->
    reply dbg (galerkin abc disc) moment CallPUL (after dbg (galerkin abc disc) moment ops d) = (Ok (VPul p), w) ->
    reply dbg (iterative abc disc) moment CallPUL (after dbg (iterative abc disc) moment ops' d') = (Ok (VPul p'), w') ->
    (forall (ignore : bool) g w g' w',
      reply dbg (galerkin abc disc) moment (CallGeneralizedC ignore) (after dbg (galerkin abc disc) moment ops d) = (Ok (VMatrix g), w) ->
      reply dbg (iterative abc disc) moment (CallGeneralizedC ignore) (after dbg (iterative abc disc) moment ops' d') = (Ok (VMatrix g'), w') ->
      square (S n) g /\ square (S n) g' /\
      forall i j, (i < n)%nat -> (j < n)%nat -> Rabs (ent (getCFromGeneralizedC g op) i j - ent (getCFromGeneralizedC g' op) i j) <= if ignore then tl else tc) ->
    square n (pul_C p) /\ square n (pul_C p') /\ square n (pul_L p) /\ square n (pul_L p') /\
    forall i j, (i < n)%nat -> (j < n)%nat ->
      Rabs (ent (pul_C p) i j - ent (pul_C p') i j) <= eps0 * tc /\
      Rabs (ent (pul_L p) i j - ent (pul_L p') i j) <= tl / mu0 * Sum n (fun k => Rabs (ent (pul_L p') i k)) * Sum n (fun l => Rabs (ent (pul_L p) l j)).
  Proof.
    intros B B' Eo Ln E E' K.
    destruct (PUL_inv dbg (galerkin abc disc) moment Rmul0 m o d ops W B p w E) as (C & L & w1 & w2 & EC & EL & ->).
    destruct (PUL_inv dbg (iterative abc disc) moment Rmul0 m o d' ops' posed_pcg B' p' w' E') as (C' & L' & w1' & w2' & EC' & EL' & ->).
    destruct (C_inv _ _ _ _ _ _ EC) as (ge & op1 & Eg & Eop & ->). destruct (C_inv _ _ _ _ _ _ EC') as (ge' & op' & Eg' & Eop' & ->).
    destruct (L_inv _ _ _ _ _ _ EL) as (gm & op0 & Em & Eop0 & IL). destruct (L_inv _ _ _ _ _ _ EL') as (gm' & op0' & Em' & Eop0' & IL').
    rewrite (D_model dbg (galerkin abc disc) moment Rmul0 m o d ops W B) in Eop, Eop0. rewrite (D_model dbg (iterative abc disc) moment Rmul0 m o d' ops' posed_pcg B') in Eop', Eop0'.
    assert (op1 = op) by congruence. assert (op' = op) by congruence. assert (op0 = op) by congruence. assert (op0' = op) by congruence. subst op1 op' op0 op0'.
    destruct (K false _ _ _ _ Eg Eg') as (S1 & S2 & H). destruct (K true _ _ _ _ Em Em') as (S3 & S4 & H0). clear K.
    pose proof (reduced_size ge n S1 op) as Q1. pose proof (reduced_size ge' n S2 op) as Q2.
    pose proof (reduced_size gm n S3 op) as R1. pose proof (reduced_size gm' n S4 op) as R2.
    destruct (invert_product _ n R1 L IL) as (SL & P1 & P2). destruct (invert_product _ n R2 L' IL') as (SL' & P1' & P2').
    split; [exact Q1|]. split; [exact Q2|]. split; [exact SL|]. split; [exact SL'|]. intros i j Li Lj.
    cbn [pul_C pul_L]. rewrite eps0_value, mu0_value.
    assert (P10 : forall k, 0 < / 10 ^ k) by (intros k; apply Rinv_0_lt_compat, pow_lt; lra).
    assert (Pe : 0 < eps0) by (apply Rmult_lt_0_compat; [lra|apply P10]).
    assert (Pm : 0 < mu0) by (apply Rmult_lt_0_compat; [pose proof PI_RGT_0; lra|apply P10]).
    assert (Sc1 : forall c (a : matrix R) k l, ent (mscale c a) k l = c * ent a k l) by (intros cc a k l; unfold mscale; cbn [ent]; apply Rmult_comm).
    split.
    - rewrite !Sc1, <- Rmult_minus_distr_l, Rabs_mult, (Rabs_pos_eq eps0) by lra. apply Rmult_le_compat_l; [lra|]. exact (H i j Li Lj).
    - assert (K := inverses_close n _ _ L L' tl R1 R2 P2 P1 P2' H0 i j Li Lj).
      rewrite !Sc1, <- Rmult_minus_distr_l, Rabs_mult, (Rabs_pos_eq mu0) by lra.
      rewrite (Sum_ext n (fun k => Rabs (ent (mscale mu0 L') i k)) (fun k => mu0 * Rabs (ent L' i k))) by (intros k _; rewrite Sc1, Rabs_mult, (Rabs_pos_eq mu0) by lra; reflexivity).
      rewrite (Sum_ext n (fun k => Rabs (ent (mscale mu0 L) k j)) (fun k => mu0 * Rabs (ent L k j))) by (intros k _; rewrite Sc1, Rabs_mult, (Rabs_pos_eq mu0) by lra; reflexivity).
      rewrite !Sum_scal. apply (Rmult_le_compat_l mu0) in K; [|lra]. refine (Rle_trans _ _ _ K _). apply Req_le. field. lra.
  Qed.
  Lemma near_injective n (A B L : matrix R) t : square n A -> square n B -> product_is n L A 1 ->
    (forall i j, (i < n)%nat -> (j < n)%nat -> Rabs (ent A i j - ent B i j) <= t) ->
    t * Sum n (fun i => Sum n (fun k => Rabs (ent L i k))) < 1 -> injective B.
  Proof.
    intros SA SB P H Lt z Hz k Lk. destruct SB as (Sr & Sc). rewrite Sr in Lk.
    assert (Bz : forall k, (k < n)%nat -> Sum n (fun l => ent B k l * z l) = 0).
    { intros k' L'. rewrite <- (Hz k' ltac:(lia)). unfold apply_row. rewrite Sr. reflexivity. }
    set (S1 := Sum n (fun l => Rabs (z l))).
    assert (Z : forall i, (i < n)%nat -> Rabs (z i) <= t * Sum n (fun k => Rabs (ent L i k)) * S1).
    { intros i Li. replace (z i) with (Sum n (fun k => ent L i k * Sum n (fun l => (ent A k l - ent B k l) * z l))).
      - exact (abs_triple n (fun k => ent L i k) z (fun k l => ent A k l - ent B k l) t H).
      - transitivity (Sum n (fun k => ent L i k * Sum n (fun l => ent A k l * z l))).
        + apply Sum_ext. intros k' L'. f_equal. rewrite <- (Rminus_0_r (Sum n (fun l => ent A k' l * z l))), <- (Bz k' L'), <- Sum_minus. apply Sum_ext. intros; ring.
        + rewrite (product_vec A n L 1 P z i Li). ring. }
    assert (S0 : S1 = 0).
    { assert (P1 : 0 <= S1) by (apply Sum_nonneg; intros; apply Rabs_pos).
      assert (Q : S1 <= t * Sum n (fun i => Sum n (fun k => Rabs (ent L i k))) * S1).
      { unfold S1 at 1. rewrite (Rmult_comm _ S1), <- Rmult_assoc, <- Sum_scal. apply Sum_le. intros i Li. pose proof (Z i Li). lra. }
      destruct (Rle_lt_or_eq_dec 0 S1 P1) as [P2|P2]; [|lra]. exfalso.
      assert (t * Sum n (fun i => Sum n (fun k => Rabs (ent L i k))) * S1 < 1 * S1) by (apply Rmult_lt_compat_r; assumption). lra. }
    pose proof (Z k Lk) as Q. rewrite S0, Rmult_0_r in Q. pose proof (Rabs_pos (z k)).
    destruct (Req_dec (z k) 0) as [E|E]; [exact E|]. apply Rabs_pos_lt in E. lra.
  Qed.
  Lemma pul_exists_gen ops ops' d d' p w n op tl : built dbg (galerkin abc disc) m o d -> built dbg (iterative abc disc) m o d' ->
    determineOpenness dbg m = Ok op -> N = S n ->
    reply dbg (galerkin abc disc) moment CallPUL (after dbg (galerkin abc disc) moment ops d) = (Ok (VPul p), w) ->
    (forall g w g' w',
      reply dbg (galerkin abc disc) moment (CallGeneralizedC true) (after dbg (galerkin abc disc) moment ops d) = (Ok (VMatrix g), w) ->
      reply dbg (iterative abc disc) moment (CallGeneralizedC true) (after dbg (iterative abc disc) moment ops' d') = (Ok (VMatrix g'), w') ->
      square (S n) g /\ square (S n) g' /\
      forall i j, (i < n)%nat -> (j < n)%nat -> Rabs (ent (getCFromGeneralizedC g op) i j - ent (getCFromGeneralizedC g' op) i j) <= tl) ->
    tl / mu0 * Sum n (fun i => Sum n (fun k => Rabs (ent (pul_L p) i k))) < 1 ->
    exists p' w', reply dbg (iterative abc disc) moment CallPUL (after dbg (iterative abc disc) moment ops' d') = (Ok (VPul p'), w').
  Proof.
    intros B B' Eo Ln E K Lt.
    destruct (PUL_inv dbg (galerkin abc disc) moment Rmul0 m o d ops W B p w E) as (C & L & w1 & w2 & EC & EL & ->).
    destruct (L_inv _ _ _ _ _ _ EL) as (gm & op0 & Em & Eop0 & IL).
    destruct (gc_openness abc disc dbg moment m o d ops conds W B O true gm w2 Em) as (op1 & Eo1 & N1).
    rewrite (D_model dbg (galerkin abc disc) moment Rmul0 m o d ops W B) in Eop0. assert (op0 = op) by congruence. assert (op1 = op) by congruence. subst op0 op1.
    destruct (generalized_exists ops' false op d' B' Eo N1) as (ge' & we' & Ee'). destruct (generalized_exists ops' true op d' B' Eo N1) as (gm' & wm' & Em').
    destruct (K _ _ _ _ Em Em') as (S3 & S4 & H0).
    pose proof (reduced_size gm n S3 op) as R1. pose proof (reduced_size gm' n S4 op) as R2.
    destruct (invert_product _ n R1 L IL) as (SL & P1 & P2).
    assert (P10 : forall k, 0 < / 10 ^ k) by (intros k; apply Rinv_0_lt_compat, pow_lt; lra).
    assert (Pm : 0 < mu0) by (apply Rmult_lt_0_compat; [pose proof PI_RGT_0; lra|apply P10]).
    assert (I : injective (getCFromGeneralizedC gm' op)).
    { apply (near_injective n _ _ L tl R1 R2 P2 H0). cbn [pul_L] in Lt. rewrite mu0_value in Lt.
      rewrite (Sum_ext n (fun i => Sum n (fun k => Rabs (ent (mscale mu0 L) i k))) (fun i => mu0 * Sum n (fun k => Rabs (ent L i k)))) in Lt.
      - rewrite Sum_scal in Lt. refine (Rle_lt_trans _ _ _ _ Lt). apply Req_le. field. lra.
      - intros i _. rewrite <- Sum_scal. apply Sum_ext. intros k _. unfold mscale. cbn [ent]. change (nmul (ent L i k) mu0) with (ent L i k * mu0).
        rewrite Rmult_comm, Rabs_mult, (Rabs_pos_eq mu0) by lra. reflexivity. }
    destruct (injective_invert (getCFromGeneralizedC gm' op)) as (L' & EL'); [destruct R2; congruence|exact I|].
    pose proof (D_model dbg (iterative abc disc) moment Rmul0 m o d' ops' posed_pcg B') as Dm.
    pose proof (MatrixCalls.reply_C _ _ _ _ _ _ op Ee' ltac:(rewrite Dm; exact Eo)) as XC.
    pose proof (MatrixCalls.reply_L _ _ _ _ _ _ op Em' ltac:(rewrite Dm; exact Eo)) as XL. rewrite EL' in XL. cbn [bind] in XL.
    pose proof (MatrixCalls.reply_PUL dbg (iterative abc disc) moment Rmul0 m o d' ops' posed_pcg B' _ _ _ _ XC XL) as X. eexists. eexists. exact X.
  Qed.
  Lemma pul_close ops ops' d d' p w p' w' n t t0 : built dbg (galerkin abc disc) m o d -> built dbg (iterative abc disc) m o d' ->
    determineOpenness dbg m = Ok Closed -> N = S n ->
    reply dbg (galerkin abc disc) moment CallPUL (after dbg (galerkin abc disc) moment ops d) = (Ok (VPul p), w) ->
    reply dbg (iterative abc disc) moment CallPUL (after dbg (iterative abc disc) moment ops' d') = (Ok (VPul p'), w') ->
    (exists pr c w c' w' mu g WW Phi, solver_constants abc D m false conds pr c w c' w' mu g WW Phi /\ t = tolerance c w c' w' mu g WW Phi) ->
    (exists pr c w c' w' mu g WW Phi, solver_constants abc D m true conds pr c w c' w' mu g WW Phi /\ t0 = tolerance c w c' w' mu g WW Phi) ->
    square n (pul_C p) /\ square n (pul_C p') /\ square n (pul_L p) /\ square n (pul_L p') /\
    forall i j, (i < n)%nat -> (j < n)%nat ->
      Rabs (ent (pul_C p) i j - ent (pul_C p') i j) <= eps0 * t /\
      Rabs (ent (pul_L p) i j - ent (pul_L p') i j) <= t0 / mu0 * Sum n (fun k => Rabs (ent (pul_L p') i k)) * Sum n (fun l => Rabs (ent (pul_L p) l j)).
  Proof.
    intros B B' Eo Ln E E' (pr & c & wd & c' & wd' & mu & g & WW & Phi & Sc & ->) (pr0 & c0 & wd0 & c0' & wd0' & mu0' & g0 & WW0 & Phi0 & Sc0 & ->).
    apply (pul_close_gen ops ops' d d' p w p' w' n Closed _ _ B B' Eo Ln E E'). intros ignore ge w1 ge' w1' Eg Eg'. destruct ignore.
    - destruct (generalized_close ops ops' true d d' ge w1 ge' w1' pr0 c0 wd0 c0' wd0' mu0' g0 WW0 Phi0 B B' Eg Eg' Sc0) as (S1 & S2 & H). rewrite Ln in *.
      split; [exact S1|]. split; [exact S2|]. intros i j Li Lj. rewrite !reduced_closed. apply H; lia.
    - destruct (generalized_close ops ops' false d d' ge w1 ge' w1' pr c wd c' wd' mu g WW Phi B B' Eg Eg' Sc) as (S1 & S2 & H). rewrite Ln in *.
      split; [exact S1|]. split; [exact S2|]. intros i j Li Lj. rewrite !reduced_closed. apply H; lia.
  Qed.

  (** ** Parameters per unit length of open problems *)
  Lemma pul_close_open ops ops' d d' p w p' w' n op t t0 g wg a g0 wg0 a0 : built dbg (galerkin abc disc) m o d -> built dbg (iterative abc disc) m o d' ->
    determineOpenness dbg m = Ok op -> op <> Closed -> N = S n ->
    reply dbg (galerkin abc disc) moment CallPUL (after dbg (galerkin abc disc) moment ops d) = (Ok (VPul p), w) ->
    reply dbg (iterative abc disc) moment CallPUL (after dbg (iterative abc disc) moment ops' d') = (Ok (VPul p'), w') ->
    reply dbg (galerkin abc disc) moment (CallGeneralizedC false) (after dbg (galerkin abc disc) moment ops d) = (Ok (VMatrix g), wg) ->
    reply dbg (galerkin abc disc) moment (CallGeneralizedC true) (after dbg (galerkin abc disc) moment ops d) = (Ok (VMatrix g0), wg0) ->
    (exists pr c w c' w' mu ga WW Phi, solver_constants abc D m false conds pr c w c' w' mu ga WW Phi /\ t = tolerance c w c' w' mu ga WW Phi) ->
    (exists pr c w c' w' mu ga WW Phi, solver_constants abc D m true conds pr c w c' w' mu ga WW Phi /\ t0 = tolerance c w c' w' mu ga WW Phi) ->
    sums_bounded (S n) g a -> INR (S n) ^ 2 * t < Rabs (total g) ->
    sums_bounded (S n) g0 a0 -> INR (S n) ^ 2 * t0 < Rabs (total g0) ->
    square n (pul_C p) /\ square n (pul_C p') /\ square n (pul_L p) /\ square n (pul_L p') /\
    forall i j, (i < n)%nat -> (j < n)%nat ->
      Rabs (ent (pul_C p) i j - ent (pul_C p') i j) <= eps0 * neutral_tolerance (S n) a (Rabs (total g)) t /\
      Rabs (ent (pul_L p) i j - ent (pul_L p') i j) <=
        neutral_tolerance (S n) a0 (Rabs (total g0)) t0 / mu0 * Sum n (fun k => Rabs (ent (pul_L p') i k)) * Sum n (fun l => Rabs (ent (pul_L p) l j)).
  Proof.
    intros B B' Eo Ne Ln E E' Eg Eg0 (pr & c & wd & c' & wd' & mu & ga & WW & Phi & Sc & ->) (pr0 & c0 & wd0 & c0' & wd0' & mu0' & ga0 & WW0 & Phi0 & Sc0 & ->) Ba Lt Ba0 Lt0.
    apply (pul_close_gen ops ops' d d' p w p' w' n op _ _ B B' Eo Ln E E'). intros ignore ge w1 ge' w1' Ee Ee'. destruct ignore.
    - pose proof (eq_trans (eq_sym Eg0) Ee) as Q. injection Q as <- _.
      destruct (generalized_close ops ops' true d d' g0 w1 ge' w1' pr0 c0 wd0 c0' wd0' mu0' ga0 WW0 Phi0 B B' Ee Ee' Sc0) as (S1 & S2 & H). rewrite Ln in *.
      split; [exact S1|]. split; [exact S2|]. exact (neutral_close n g0 ge' op a0 _ S1 S2 Ne H Ba0 Lt0).
    - pose proof (eq_trans (eq_sym Eg) Ee) as Q. injection Q as <- _.
      destruct (generalized_close ops ops' false d d' g w1 ge' w1' pr c wd c' wd' mu ga WW Phi B B' Ee Ee' Sc) as (S1 & S2 & H). rewrite Ln in *.
      split; [exact S1|]. split; [exact S2|]. exact (neutral_close n g ge' op a _ S1 S2 Ne H Ba Lt).
  Qed.
  Lemma pul_exists ops ops' d d' p w n t0 : built dbg (galerkin abc disc) m o d -> built dbg (iterative abc disc) m o d' ->
    determineOpenness dbg m = Ok Closed -> N = S n ->
    reply dbg (galerkin abc disc) moment CallPUL (after dbg (galerkin abc disc) moment ops d) = (Ok (VPul p), w) ->
    (exists pr c w c' w' mu g WW Phi, solver_constants abc D m true conds pr c w c' w' mu g WW Phi /\ t0 = tolerance c w c' w' mu g WW Phi) ->
    t0 / mu0 * Sum n (fun i => Sum n (fun k => Rabs (ent (pul_L p) i k))) < 1 ->
    exists p' w', reply dbg (iterative abc disc) moment CallPUL (after dbg (iterative abc disc) moment ops' d') = (Ok (VPul p'), w').
  Proof.
    intros B B' Eo Ln E (pr0 & c0 & wd0 & c0' & wd0' & mu0' & g0 & WW0 & Phi0 & Sc0 & ->).
    apply (pul_exists_gen ops ops' d d' p w n Closed _ B B' Eo Ln E). intros ge w1 ge' w1' Eg Eg'.
    destruct (generalized_close ops ops' true d d' ge w1 ge' w1' pr0 c0 wd0 c0' wd0' mu0' g0 WW0 Phi0 B B' Eg Eg' Sc0) as (S1 & S2 & H). rewrite Ln in *.
    split; [exact S1|]. split; [exact S2|]. intros i j Li Lj. rewrite !reduced_closed. apply H; lia.
  Qed.
  Lemma pul_exists_open ops ops' d d' p w n op t0 g0 wg0 a0 : built dbg (galerkin abc disc) m o d -> built dbg (iterative abc disc) m o d' ->
    determineOpenness dbg m = Ok op -> op <> Closed -> N = S n ->
    reply dbg (galerkin abc disc) moment CallPUL (after dbg (galerkin abc disc) moment ops d) = (Ok (VPul p), w) ->
    reply dbg (galerkin abc disc) moment (CallGeneralizedC true) (after dbg (galerkin abc disc) moment ops d) = (Ok (VMatrix g0), wg0) ->
    (exists pr c w c' w' mu ga WW Phi, solver_constants abc D m true conds pr c w c' w' mu ga WW Phi /\ t0 = tolerance c w c' w' mu ga WW Phi) ->
    sums_bounded (S n) g0 a0 -> INR (S n) ^ 2 * t0 < Rabs (total g0) ->
    neutral_tolerance (S n) a0 (Rabs (total g0)) t0 / mu0 * Sum n (fun i => Sum n (fun k => Rabs (ent (pul_L p) i k))) < 1 ->
    exists p' w', reply dbg (iterative abc disc) moment CallPUL (after dbg (iterative abc disc) moment ops' d') = (Ok (VPul p'), w').
  Proof.
    intros B B' Eo Ne Ln E Eg0 (pr0 & c0 & wd0 & c0' & wd0' & mu0' & ga0 & WW0 & Phi0 & Sc0 & ->) Ba0 Lt0.
    apply (pul_exists_gen ops ops' d d' p w n op _ B B' Eo Ln E). intros ge w1 ge' w1' Ee Ee'.
    pose proof (eq_trans (eq_sym Eg0) Ee) as Q. injection Q as <- _.
    destruct (generalized_close ops ops' true d d' g0 w1 ge' w1' pr0 c0 wd0 c0' wd0' mu0' ga0 WW0 Phi0 B B' Ee Ee' Sc0) as (S1 & S2 & H). rewrite Ln in *.
    split; [exact S1|]. split; [exact S2|]. exact (neutral_close n g0 ge' op a0 _ S1 S2 Ne H Ba0 Lt0).
  Qed.
End Matrices.
