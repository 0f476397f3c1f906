(** The truncation error of the multipolar expansion (C40), and the open boundary (C41). *)
From Coq Require Import Reals Lra.
From Verif Require Import Prelude StdMap Matrix Multipole Solver SpecMultipole RSum ListLemmas MultipoleProofs SpecCharge ChargeProofs.
Open Scope R_scope.
Open Scope list_scope.

(** ** Complex moduli *)
Lemma cabs_nonneg z : 0 <= cabs z. Proof. apply sqrt_pos. Qed.
Lemma cabs_mul z w : cabs (cmul z w) = cabs z * cabs w.
Proof.
  unfold cabs. rewrite <- sqrt_mult by apply cabs2_nonneg. f_equal. destruct z, w. unfold cabs2, cmul; cbn. ring.
Qed.
Lemma cabs_one : cabs cone = 1.
Proof. unfold cabs, cabs2, cone; cbn. replace (1 * 1 + 0 * 0) with 1 by ring. apply sqrt_1. Qed.
Lemma cabs_pow z n : cabs (cpow z n) = cabs z ^ n.
Proof. induction n as [|n IH]; cbn [cpow pow]; [apply cabs_one|]. now rewrite cabs_mul, IH. Qed.
Lemma re_le_cabs z : Rabs (fst z) <= cabs z.
Proof.
  unfold cabs. rewrite <- sqrt_Rsqr_abs. apply sqrt_le_1_alt. destruct z; unfold cabs2, Rsqr; cbn. nra.
Qed.
Lemma cabs_inv z : z <> (0, 0) -> cabs (cinv z) = / cabs z.
Proof.
  intros N. pose proof (cabs2_pos' z N) as P. unfold cabs. rewrite <- sqrt_inv by lra. f_equal.
  destruct z as [x y]. unfold cinv, cabs2 in *; cbn in *. field. lra.
Qed.
Lemma cmul_inv z : z <> (0, 0) -> cmul z (cinv z) = cone.
Proof.
  intros N. pose proof (cabs2_pos' z N) as P. destruct z as [x y]. unfold cmul, cinv, cabs2, cone in *; cbn in *.
  f_equal; field; lra.
Qed.
Lemma cmul_assoc a b c : cmul a (cmul b c) = cmul (cmul a b) c.
Proof. destruct a, b, c. unfold cmul; cbn. f_equal; ring. Qed.
Lemma cmul_comm a b : cmul a b = cmul b a.
Proof. destruct a, b. unfold cmul; cbn. f_equal; ring. Qed.
Lemma cpow_mul z w n : cpow (cmul z w) n = cmul (cpow z n) (cpow w n).
Proof.
  induction n as [|n IH]; cbn [cpow]; [unfold cmul, cone; cbn; f_equal; ring|]. rewrite IH.
  destruct z, w, (cpow (r, r0) n), (cpow (r1, r2) n). unfold cmul; cbn. f_equal; ring.
Qed.

(** ** - ln |1 - w| and its Taylor polynomial *)
Definition one_minus (w : C) : C := (1 - fst w, - snd w).
Lemma one_minus_bound w : 1 - cabs w <= cabs (one_minus w).
Proof.
  (* |1 - w| >= 1 - Re w >= 1 - |w| *)
  pose proof (re_le_cabs (one_minus w)) as A. pose proof (re_le_cabs w) as B.
  unfold one_minus in *; cbn in *. pose proof (Rle_abs (1 - fst w)). pose proof (Rle_abs (fst w)). lra.
Qed.
Fixpoint taylor (N : nat) (w : C) : R :=
  match N with O => 0 | S n => taylor n w + fst (cpow w (S n)) / INR (S n) end.
Fixpoint geo (N : nat) (t : R) (w : C) : R :=
  match N with O => 0 | S n => geo n t w + t ^ n * fst (cpow w (S n)) end.
Lemma cpow_scale t w n : cpow (cscale t w) n = cscale (t ^ n) (cpow w n).
Proof.
  induction n as [|n IH]; cbn [cpow pow]; [unfold cscale, cone; cbn; f_equal; ring|].
  rewrite IH. destruct w, (cpow (r, r0) n). unfold cmul, cscale; cbn. f_equal; ring.
Qed.
Lemma taylor_deriv N w t : derivable_pt_lim (fun t => taylor N (cscale t w)) t (geo N t w).
Proof.
  induction N as [|n IH]; cbn [taylor geo]; [apply derivable_pt_lim_const|].
  apply (derivable_pt_lim_plus (fun t => taylor n (cscale t w)) (fun t => fst (cpow (cscale t w) (S n)) / INR (S n))); [exact IH|].
  assert (Hn : INR (S n) <> 0) by (apply not_0_INR; lia).
  apply (deriv_local (fun t => (fst (cpow w (S n)) / INR (S n)) * t ^ S n) _ t _ 1); [lra| |].
  - intros u _. rewrite cpow_scale. cbn [cscale fst]. field. exact Hn.
  - eapply dl_eq; [apply (derivable_pt_lim_scal (fun u => u ^ S n)), derivable_pt_lim_pow|].
    replace (Init.Nat.pred (S n)) with n by reflexivity. field. exact Hn.
Qed.
(** Re (w / (1 - t w)) = geometric sum + remainder *)
Lemma geo_remainder N t w : one_minus (cscale t w) <> (0, 0) ->
  fst (cmul w (cinv (one_minus (cscale t w)))) - geo N t w =
  t ^ N * fst (cmul (cpow w (S N)) (cinv (one_minus (cscale t w)))).
Proof.
  intros Nz. induction N as [|n IH]; cbn [geo].
  - cbn [cpow pow]. destruct w, (cinv (one_minus (cscale t (r, r0)))). unfold cmul, cone; cbn. ring.
  - assert (E : fst (cmul (cpow w (S n)) (cinv (one_minus (cscale t w)))) =
                fst (cpow w (S n)) + t * fst (cmul (cpow w (S (S n))) (cinv (one_minus (cscale t w))))).
    { change (cpow w (S (S n))) with (cmul w (cpow w (S n))).
      pose proof (cmul_inv _ Nz) as I. destruct (cinv (one_minus (cscale t w))) as [u v], (cpow w (S n)) as [p q], w as [a b].
      unfold one_minus, cscale, cmul, cone in *; cbn in *. injection I as I1 I2.
      replace (p * u - q * v) with
        (p * ((1 - t * a) * u - - (t * b) * v) - q * ((1 - t * a) * v + - (t * b) * u) +
         t * ((a * p - b * q) * u - (a * q + b * p) * v)) by ring.
      rewrite I1, I2. ring. }
    cbn [pow]. replace (fst (cmul w (cinv (one_minus (cscale t w)))) - (geo n t w + t ^ n * fst (cpow w (S n))))
      with (t ^ n * fst (cmul (cpow w (S n)) (cinv (one_minus (cscale t w)))) - t ^ n * fst (cpow w (S n))) by (rewrite <- IH; ring).
    rewrite E. ring.
Qed.
Lemma log_deriv w t : one_minus (cscale t w) <> (0, 0) ->
  derivable_pt_lim (fun t => - ln (cabs (one_minus (cscale t w)))) t (fst (cmul w (cinv (one_minus (cscale t w))))).
Proof.
  intros Nz. pose proof (cabs2_pos' _ Nz) as P. destruct w as [a b].
  eapply dl_eq; [apply (derivable_pt_lim_opp (fun t => ln (sqrt ((1 - t * a) * (1 - t * a) + (- (t * b)) * (- (t * b)))))),
    (ln_sqrt_deriv (fun t => (1 - t * a) * (1 - t * a) + (- (t * b)) * (- (t * b))) t
      ((- a) * (1 - t * a) + (1 - t * a) * (- a) + ((- b) * (- (t * b)) + (- (t * b)) * (- b)))); [exact P|]|].
  - assert (D1 : derivable_pt_lim (fun t => 1 - t * a) t (- a)).
    { eapply dl_eq; [apply (derivable_pt_lim_minus (fun _ => 1) (fun t => t * a)); [apply derivable_pt_lim_const|
        apply (derivable_pt_lim_mult (fun t => t) (fun _ => a)); [apply derivable_pt_lim_id|apply derivable_pt_lim_const]]|ring]. }
    assert (D2 : derivable_pt_lim (fun t => - (t * b)) t (- b)).
    { eapply dl_eq; [apply (derivable_pt_lim_opp (fun t => t * b)),
        (derivable_pt_lim_mult (fun t => t) (fun _ => b)); [apply derivable_pt_lim_id|apply derivable_pt_lim_const]|ring]. }
    apply (derivable_pt_lim_plus (fun t => (1 - t * a) * (1 - t * a)) (fun t => - (t * b) * - (t * b)));
      [apply (derivable_pt_lim_mult (fun t => 1 - t * a) (fun t => 1 - t * a)); exact D1
      |apply (derivable_pt_lim_mult (fun t => - (t * b)) (fun t => - (t * b))); exact D2].
  - unfold one_minus, cscale, cmul, cinv, cabs2 in *; cbn in *. field. lra.
Qed.

Lemma remainder_bound N w : cabs w < 1 ->
  Rabs (- ln (cabs (one_minus w)) - taylor N w) <= cabs w ^ S N / (INR (S N) * (1 - cabs w)).
Proof.
  intros Hw. pose proof (cabs_nonneg w) as Pw.
  set (B := cabs w ^ S N / (1 - cabs w)).
  assert (Hn : 0 < INR (S N)) by (apply lt_0_INR; lia).
  set (g := fun t => - ln (cabs (one_minus (cscale t w))) - taylor N (cscale t w)).
  set (h := fun t => B / INR (S N) * t ^ S N).
  assert (Sc : forall t, 0 <= t -> cabs (cscale t w) = t * cabs w).
  { intros t Ht. unfold cabs. rewrite <- (sqrt_Rsqr t) at 2 by exact Ht. rewrite <- sqrt_mult by (try apply cabs2_nonneg; unfold Rsqr; nra).
    f_equal. unfold cabs2, cscale, Rsqr; cbn. ring. }
  assert (Ps : forall t, 0 <= t <= 1 -> 1 - cabs w <= cabs (one_minus (cscale t w))).
  { intros t Ht. pose proof (one_minus_bound (cscale t w)) as L. rewrite Sc in L by lra. nra. }
  assert (Nz : forall t, 0 <= t <= 1 -> one_minus (cscale t w) <> (0, 0)).
  { intros t Ht E. specialize (Ps t Ht). rewrite E in Ps. unfold cabs, cabs2 in Ps; cbn in Ps.
    replace (0 * 0 + 0 * 0) with 0 in Ps by ring. rewrite sqrt_0 in Ps. unfold cabs, cabs2 in Hw. cbn in *. lra. }
  assert (Dg : forall t, 0 <= t <= 1 -> derivable_pt_lim g t (t ^ N * fst (cmul (cpow w (S N)) (cinv (one_minus (cscale t w)))))).
  { intros t Ht. eapply dl_eq; [apply (derivable_pt_lim_minus (fun t => - ln (cabs (one_minus (cscale t w)))) (fun t => taylor N (cscale t w)));
      [apply log_deriv, Nz, Ht|apply taylor_deriv]|]. apply geo_remainder, Nz, Ht. }
  assert (Dh : forall t, derivable_pt_lim h t (B * t ^ N)).
  { intros t. eapply dl_eq; [apply (derivable_pt_lim_scal (fun u => u ^ S N)), derivable_pt_lim_pow|].
    replace (Init.Nat.pred (S N)) with N by reflexivity. field. lra. }
  assert (Bd : forall t, 0 <= t <= 1 -> Rabs (t ^ N * fst (cmul (cpow w (S N)) (cinv (one_minus (cscale t w))))) <= B * t ^ N).
  { intros t Ht. rewrite Rabs_mult, Rabs_pos_eq by (apply pow_le; lra). rewrite Rmult_comm.
    apply Rmult_le_compat_r; [apply pow_le; lra|]. eapply Rle_trans; [apply re_le_cabs|].
    rewrite cabs_mul, cabs_pow, cabs_inv by (apply Nz, Ht). unfold B, Rdiv. apply Rmult_le_compat_l; [now apply pow_le|].
    apply Rinv_le_contravar; [lra|now apply Ps]. }
  assert (G0 : g 0 = 0).
  { unfold g, one_minus, cscale. cbn [fst snd]. rewrite !Rmult_0_l, Ropp_0, Rminus_0_r.
    assert (E1 : cabs (1, 0) = 1) by apply cabs_one. rewrite E1, ln_1.
    assert (T0 : forall n, taylor n (0, 0) = 0).
    { induction n as [|n IH]; cbn [taylor]; [reflexivity|]. rewrite IH. cbn [cpow]. unfold cmul; cbn [fst snd]. unfold Rdiv. ring. }
    rewrite T0. ring. }
  assert (H0 : h 0 = 0) by (unfold h; cbn [pow]; ring).
  assert (G1 : g 1 = - ln (cabs (one_minus w)) - taylor N w).
  { unfold g. replace (cscale 1 w) with w by (destruct w; unfold cscale; cbn; f_equal; ring). reflexivity. }
  assert (H1 : h 1 = cabs w ^ S N / (INR (S N) * (1 - cabs w))).
  { unfold h, B. rewrite pow1. field. split; lra. }
  rewrite <- G1, <- H1. apply Rabs_le. split.
  - destruct (MVT_cor2 (fun t => h t + g t) (fun t => B * t ^ N + t ^ N * fst (cmul (cpow w (S N)) (cinv (one_minus (cscale t w))))) 0 1) as (c & E & Hc); [lra| |].
    + intros c Hc. apply (derivable_pt_lim_plus h g); [apply Dh|apply Dg, Hc].
    + assert (Hc' : 0 <= c <= 1) by lra. specialize (Bd c Hc'). apply Rabs_le_between in Bd || apply Rabs_def2 in Bd || idtac.
      rewrite H0, G0 in E. pose proof (Rle_abs (- (c ^ N * fst (cmul (cpow w (S N)) (cinv (one_minus (cscale c w))))))) as A.
      rewrite ?Rabs_Ropp in A. cbv beta in E. lra.
  - destruct (MVT_cor2 (fun t => h t - g t) (fun t => B * t ^ N - t ^ N * fst (cmul (cpow w (S N)) (cinv (one_minus (cscale t w))))) 0 1) as (c & E & Hc); [lra| |].
    + intros c Hc. apply (derivable_pt_lim_minus h g); [apply Dh|apply Dg, Hc].
    + assert (Hc' : 0 <= c <= 1) by lra. specialize (Bd c Hc').
      rewrite H0, G0 in E. pose proof (Rle_abs (c ^ N * fst (cmul (cpow w (S N)) (cinv (one_minus (cscale c w)))))) as A.
      cbv beta in E. lra.
Qed.

(** ** The expansion of the potential of line charges *)
(** series of the moments = sum over the charges of - ln|z| + taylor (p/z) *)
Fixpoint series_upto (N : nat) (f : nat -> C) (z : C) : R :=
  match N with O => 0 | S n => series_upto n f z + fst (cmul (f (S n)) (cpow (cinv z) (S n))) end.
Lemma series_app n l1 l2 z : series n (l1 ++ l2) z = series n l1 z + series (n + List.length l1) l2 z.
Proof.
  revert n; induction l1 as [|c l1 IH]; intros n; cbn [app series List.length]; [rewrite Nat.add_0_r; lra|].
  rewrite IH. replace (S n + List.length l1)%nat with (n + S (List.length l1))%nat by lia. lra.
Qed.
Lemma series_map (f : nat -> C) N z : series 0 (map f (seq 0 (S N))) z = - (fst (f 0%nat) * ln (cabs z)) + series_upto N f z.
Proof.
  induction N as [|n IH]; [cbn; lra|]. rewrite seq_S, map_app, series_app, IH.
  rewrite map_length, seq_length. cbn [map series series_upto Nat.add]. lra.
Qed.
Definition coef (qs : list (R * C)) (c : C) (n : nat) : C :=
  match n with
  | O => (fold_right (fun qp s => fst qp + s) 0 qs, 0)
  | S _ => (fold_right (fun qp s => fst qp * momentComponent (snd qp) n 0%nat c + s) 0 qs,
            fold_right (fun qp s => fst qp * momentComponent (snd qp) n 1%nat c + s) 0 qs)
  end.
Lemma moments_coef N qs c : moments momentComponent N qs c = map (coef qs c) (seq 0 (S N)).
Proof. reflexivity. Qed.
Lemma series_charges N qs c z :
  series 0 (moments momentComponent N qs c) z =
  Rsum qs (fun qp => fst qp * (- ln (cabs z) + taylor N (cmul (csub (snd qp) c) (cinv z)))).
Proof.
  rewrite moments_coef, series_map.
  assert (U : forall n, series_upto n (coef qs c) z = Rsum qs (fun qp => fst qp * taylor n (cmul (csub (snd qp) c) (cinv z)))).
  { induction n as [|n IH]; cbn [series_upto taylor]; [symmetry; apply Rsum_zero; intros; ring|].
    rewrite IH.
    assert (E : fst (cmul (coef qs c (S n)) (cpow (cinv z) (S n))) =
                Rsum qs (fun qp => fst qp * (fst (cpow (cmul (csub (snd qp) c) (cinv z)) (S n)) / INR (S n)))).
    { clear IH. unfold coef. unfold cmul at 1; cbn [fst snd]. induction qs as [|[q p] qs IHq]; [cbn; ring|].
      rewrite Rsum_cons, <- IHq.
      cbn [fold_right fst snd].
      destruct (moment_pow p (S n) c) as [-> ->]; [lia|]. rewrite cpow_mul.
      destruct (cpow (csub p c) (S n)) as [u v], (cpow (cinv z) (S n)) as [s t]. unfold cmul; cbn [fst snd].
      field. apply not_0_INR. lia. }
    rewrite E, <- Rsum_plus. apply Rsum_ext. intros; ring. }
  rewrite U. cbn [coef fst].
  assert (Q : - (fold_right (fun qp s => fst qp + s) 0 qs * ln (cabs z)) = Rsum qs (fun qp => fst qp * - ln (cabs z))).
  { clear U. induction qs as [|[q p] qs IHq]; [cbn; ring|]. rewrite Rsum_cons, <- IHq. cbn [fold_right fst]. ring. }
  rewrite Q, <- Rsum_plus. apply Rsum_ext. intros; ring.
Qed.
Lemma line_charges_Rsum qs z : line_charges_potential qs z = Rsum qs (fun qp => fst qp * - ln (cabs (csub z (snd qp)))).
Proof. induction qs as [|[q p] qs IH]; [reflexivity|]. rewrite Rsum_cons, <- IH. cbn [line_charges_potential fold_right fst snd]. unfold line_charges_potential. ring. Qed.
Lemma total_abs_Rsum qs : total_abs_charge qs = Rsum qs (fun qp => Rabs (fst qp)).
Proof. induction qs as [|[q p] qs IH]; [reflexivity|]. now rewrite Rsum_cons, <- IH. Qed.
Lemma Rsum_abs {A} (l : list A) f : Rabs (Rsum l f) <= Rsum l (fun x => Rabs (f x)).
Proof.
  induction l as [|x l IH]; [rewrite !Rsum_nil, Rabs_R0; lra|]. rewrite !Rsum_cons.
  eapply Rle_trans; [apply Rabs_triang|]. lra.
Qed.

Lemma expansion_error N qs c z rho : 0 <= rho -> rho < cabs (csub z c) ->
  (forall qp, In qp qs -> cabs (csub (snd qp) c) <= rho) ->
  Rabs (multipolarExpansion z (moments momentComponent N qs c) c - line_charges_potential qs z / (2 * PI)) <=
  total_abs_charge qs / (2 * PI) * (rho / cabs (csub z c)) ^ S N / (INR (S N) * (1 - rho / cabs (csub z c))).
Proof.
  intros Hr Hz Hq. set (r := cabs (csub z c)) in *.
  assert (Pr : 0 < r) by lra.
  assert (Nz : csub z c <> (0, 0)).
  { intros E. unfold r in Pr. rewrite E in Pr. unfold cabs, cabs2 in Pr; cbn in Pr.
    replace (0 * 0 + 0 * 0) with 0 in Pr by ring. rewrite sqrt_0 in Pr. lra. }
  assert (Nc : z <> c).
  { intros ->. apply Nz. destruct c. unfold csub; cbn. f_equal; ring. }
  rewrite expansion_series by exact Nc. rewrite series_charges, line_charges_Rsum.
  assert (PP : 0 < 2 * PI) by (pose proof PI_RGT_0; lra).
  unfold Rdiv at 1 2. rewrite <- Rmult_minus_distr_r, <- Rsum_minus, Rabs_mult, (Rabs_pos_eq (/ (2 * PI))) by (left; now apply Rinv_0_lt_compat).
  set (x := rho / r). assert (Hx : 0 <= x < 1).
  { unfold x. split; [apply Rmult_le_pos; [lra|left; now apply Rinv_0_lt_compat]|].
    apply (Rmult_lt_reg_r r); [exact Pr|]. unfold Rdiv. rewrite Rmult_assoc, Rinv_l, Rmult_1_r by lra. lra. }
  assert (Hn : 0 < INR (S N)) by (apply lt_0_INR; lia).
  assert (Bd : forall qp, In qp qs ->
    Rabs (fst qp * (- ln (cabs (csub z c)) + taylor N (cmul (csub (snd qp) c) (cinv (csub z c)))) -
          fst qp * - ln (cabs (csub z (snd qp)))) <= Rabs (fst qp) * (x ^ S N / (INR (S N) * (1 - x)))).
  { intros [q p] I. cbn [fst snd]. specialize (Hq _ I). cbn [snd] in Hq.
    set (w := cmul (csub p c) (cinv (csub z c))).
    assert (Aw : cabs w <= x).
    { unfold w. rewrite cabs_mul, cabs_inv by exact Nz. unfold x, Rdiv. apply Rmult_le_compat_r; [left; now apply Rinv_0_lt_compat|exact Hq]. }
    assert (Fac : csub z p = cmul (csub z c) (one_minus w)).
    { pose proof (cmul_inv _ Nz) as Iv. unfold w. destruct z as [z1 z2], c as [c1 c2], p as [p1 p2].
      unfold csub in *; cbn [fst snd] in *. destruct (cinv (z1 - c1, z2 - c2)) as [u v].
      unfold cmul, one_minus, cone in *; cbn [fst snd] in *. injection Iv as I1 I2.
      f_equal.
      - replace ((z1 - c1) * (1 - ((p1 - c1) * u - (p2 - c2) * v)) - (z2 - c2) * - ((p1 - c1) * v + (p2 - c2) * u))
          with ((z1 - c1) - (p1 - c1) * ((z1 - c1) * u - (z2 - c2) * v) + (p2 - c2) * ((z1 - c1) * v + (z2 - c2) * u)) by ring.
        rewrite I1, I2. ring.
      - replace ((z1 - c1) * - ((p1 - c1) * v + (p2 - c2) * u) + (z2 - c2) * (1 - ((p1 - c1) * u - (p2 - c2) * v)))
          with ((z2 - c2) - (p1 - c1) * ((z1 - c1) * v + (z2 - c2) * u) - (p2 - c2) * ((z1 - c1) * u - (z2 - c2) * v)) by ring.
        rewrite I1, I2. ring. }
    assert (Om : 0 < cabs (one_minus w)) by (pose proof (one_minus_bound w); lra).
    assert (Lg : ln (cabs (csub z p)) = ln (cabs (csub z c)) + ln (cabs (one_minus w))).
    { rewrite Fac, cabs_mul. apply ln_mult; [exact Pr|exact Om]. }
    rewrite Lg.
    replace (q * (- ln (cabs (csub z c)) + taylor N w) - q * - (ln (cabs (csub z c)) + ln (cabs (one_minus w))))
      with (- q * (- ln (cabs (one_minus w)) - taylor N w)) by ring.
    rewrite Rabs_mult, Rabs_Ropp. apply Rmult_le_compat_l; [apply Rabs_pos|].
    eapply Rle_trans; [apply remainder_bound; lra|].
    pose proof (cabs_nonneg w) as Pw. unfold Rdiv. apply Rmult_le_compat.
    - now apply pow_le.
    - left. apply Rinv_0_lt_compat. apply Rmult_lt_0_compat; lra.
    - apply pow_incr. lra.
    - apply Rinv_le_contravar; [apply Rmult_lt_0_compat; lra|]. apply Rmult_le_compat_l; lra. }
  eapply Rle_trans; [apply Rmult_le_compat_r; [left; now apply Rinv_0_lt_compat|]; eapply Rle_trans; [apply Rsum_abs|apply Rsum_le, Bd]|].
  rewrite Rsum_scal_r, <- total_abs_Rsum. unfold Rdiv. right. ring.
Qed.

(** The coefficients of a solver are the moments of the charges at the quadrature points of
    the charged boundaries. *)
Lemma coefficients_are_moments F s N ab : NoDup (chargedBoundaries s) ->
  getMultipolarCoefficients F momentComponent s N = Ok ab ->
  exists c, getCenterOfCharge F momentComponent s = Ok c /\ ab = moments momentComponent N (boundary_charges F s) c.
Proof.
  intros ND E. unfold getMultipolarCoefficients in E. apply bind_ok in E as (c & Ec & E).
  exists c. split; [exact Ec|]. rewrite moments_coef. remember (seq 0 (S N)) as sq eqn:Esq.
  injection E as <-. apply map_ext_in. intros n I.
  assert (Fs : forall g, fold_right (fun (qp : R * C) s => fst qp * g (snd qp) + s) 0 (boundary_charges F s) =
    Rsum (filter (fun q => zmem (q_attr q) (chargedBoundaries s)) (fe_flux F)) (fun q => - flux_at (s_d s) q * g (q_pos q))).
  { intros g. unfold boundary_charges. induction (filter _ (fe_flux F)) as [|q l IH]; [reflexivity|].
    cbn [map fold_right fst snd]. rewrite Rsum_cons, <- IH. reflexivity. }
  destruct n as [|n].
  - clear Fs. rewrite monopole_flux by exact ND. unfold coef. cbn [getChargeMomentComponent]. f_equal.
    unfold flux_out. rewrite <- Rsum_opp. unfold boundary_charges. induction (filter _ (fe_flux F)) as [|q l IH]; [reflexivity|].
    cbn [map fold_right fst]. rewrite Rsum_cons, <- IH. reflexivity.
  - unfold coef. rewrite (Fs (fun p => momentComponent p (S n) 0%nat c)), (Fs (fun p => momentComponent p (S n) 1%nat c)).
    cbn [getChargeMomentComponent]. rewrite !flux_form_Rsum, !Rsum_filter.
    f_equal; apply Rsum_ext; intros q _; destruct (zmem (q_attr q) (chargedBoundaries s)); cbn [nopp nmul n1 n0 RNum]; ring.
Qed.

(** ** C41 *)
Lemma abc_monopole k r : 0 < r -> r <> 1 -> forall x y, norm2 (x, y) = r ->
  derivable_pt_lim (fun r => - (k * ln r)) r (- (k / r)) /\ - (k / r) + firstOrderABC (x, y) * (- (k * ln r)) = 0.
Proof.
  intros Pr Nr x y E. split.
  - eapply dl_eq; [apply (derivable_pt_lim_opp (fun r => k * ln r)), (derivable_pt_lim_scal ln), derivable_pt_lim_ln, Pr|].
    unfold Rdiv. ring.
  - unfold firstOrderABC. rewrite E.
    assert (L : ln r <> 0).
    { intros C. apply Nr. apply ln_inv; [exact Pr|lra|]. now rewrite C, ln_1. }
    field. split; [exact L|lra].
Qed.
Lemma abc_sign p : (0 < norm2 p < 1 -> 0 < firstOrderABC p) /\ (1 < norm2 p -> firstOrderABC p < 0).
Proof.
  unfold firstOrderABC. split; intros Hp.
  - assert (L : ln (norm2 p) < 0) by (rewrite <- ln_1; apply ln_increasing; lra).
    assert (D : norm2 p * ln (norm2 p) < 0) by nra.
    unfold Rdiv. pose proof (Rinv_lt_0_compat _ D). lra.
  - assert (L : 0 < ln (norm2 p)) by (rewrite <- ln_1; apply ln_increasing; lra).
    assert (D : 0 < norm2 p * ln (norm2 p)) by nra.
    unfold Rdiv. pose proof (Rinv_0_lt_compat _ D). lra.
Qed.
