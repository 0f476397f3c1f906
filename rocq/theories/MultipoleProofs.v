(** Proofs about multipolarExpansion, momentComponent and firstOrderABC (C39-C41). *)
From Coq Require Import Reals Lra Permutation.
From Verif Require Import Prelude Multipole SpecMultipole RSum ListLemmas.
Open Scope R_scope.

(** ** Polar coordinates *)
Lemma norm2_cabs p : norm2 p = cabs p. Proof. reflexivity. Qed.
Lemma cabs2_nonneg z : 0 <= cabs2 z. Proof. unfold cabs2. nra. Qed.
Lemma cabs2_pos x y : (x, y) <> (0, 0) -> 0 < cabs2 (x, y).
Proof.
  intros N. unfold cabs2; cbn. destruct (Req_dec x 0) as [->|Hx]; [|nra].
  destruct (Req_dec y 0) as [->|Hy]; [congruence|nra].
Qed.
Lemma cabs_pos x y : (x, y) <> (0, 0) -> 0 < cabs (x, y).
Proof. intros N. apply sqrt_lt_R0. now apply cabs2_pos. Qed.

Lemma sqrt_ratio x y : x <> 0 -> sqrt (1 + (y / x)²) = cabs (x, y) / Rabs x.
Proof.
  intros Hx. unfold cabs, cabs2; cbn. rewrite <- sqrt_Rsqr_abs. rewrite <- sqrt_div_alt.
  - f_equal. unfold Rsqr. field. exact Hx.
  - unfold Rsqr. nra.
Qed.
Lemma polar p : norm2 p * cos (atan2 (snd p) (fst p)) = fst p /\ norm2 p * sin (atan2 (snd p) (fst p)) = snd p.
Proof.
  destruct p as [x y]. cbn [fst snd]. rewrite norm2_cabs.
  unfold atan2. destruct (Rlt_dec 0 x) as [Hx|Hx].
  - assert (P : 0 < cabs (x, y)) by (apply cabs_pos; intros [= -> _]; lra).
    rewrite cos_atan, sin_atan, sqrt_ratio, Rabs_pos_eq by lra. split; field; lra.
  - destruct (Rlt_dec x 0) as [Hx'|Hx'].
    + assert (P : 0 < cabs (x, y)) by (apply cabs_pos; intros [= -> _]; lra).
      assert (E : cabs (x, y) * - cos (atan (y / x)) = x /\ cabs (x, y) * - sin (atan (y / x)) = y).
      { rewrite cos_atan, sin_atan, sqrt_ratio, Rabs_left by lra. split; field; lra. }
      destruct (Rle_dec 0 y).
      * rewrite neg_cos, neg_sin. exact E.
      * replace (atan (y / x) - PI) with (- (PI - atan (y / x))) by ring.
        rewrite cos_neg, sin_neg, Rtrigo_facts.cos_pi_minus, Rtrigo_facts.sin_pi_minus. exact E.
    + assert (x = 0) by lra. subst x. unfold cabs, cabs2; cbn.
      replace (0 * 0 + y * y) with (y²) by (unfold Rsqr; ring). rewrite sqrt_Rsqr_abs.
      destruct (Rlt_dec 0 y).
      * rewrite cos_PI2, sin_PI2, Rabs_pos_eq by lra. lra.
      * destruct (Rlt_dec y 0).
        -- replace (- PI / 2) with (- (PI / 2)) by lra. rewrite cos_neg, sin_neg, cos_PI2, sin_PI2, Rabs_left by lra. lra.
        -- assert (y = 0) by lra. subst y. rewrite Rabs_R0. lra.
Qed.
(** De Moivre *)
Lemma cpow_polar r t n : cpow (r * cos t, r * sin t) n = (r ^ n * cos (INR n * t), r ^ n * sin (INR n * t)).
Proof.
  induction n as [|n IH].
  - cbn. rewrite Rmult_0_l, cos_0, sin_0. unfold cone. f_equal; ring.
  - cbn [cpow]. rewrite IH. unfold cmul; cbn [fst snd]. rewrite S_INR.
    replace ((INR n + 1) * t) with (t + INR n * t) by ring. rewrite cos_plus, sin_plus. cbn [pow]. f_equal; ring.
Qed.
Lemma polar_pow p n :
  norm2 p ^ n * cos (INR n * atan2 (snd p) (fst p)) = fst (cpow p n) /\
  norm2 p ^ n * sin (INR n * atan2 (snd p) (fst p)) = snd (cpow p n).
Proof.
  destruct (polar p) as [Hx Hy].
  pose proof (cpow_polar (norm2 p) (atan2 (snd p) (fst p)) n) as E. rewrite Hx, Hy in E.
  destruct p as [x y]. cbn [fst snd] in *. rewrite E. auto.
Qed.

(** ** Moments: momentComponent = Re, Im of (p - t)^n / n *)
Lemma moment_pow p n c : (0 < n)%nat ->
  momentComponent p n 0 c = fst (cpow (csub p c) n) / INR n /\
  momentComponent p n 1 c = snd (cpow (csub p c) n) / INR n.
Proof.
  intros Hn. destruct n as [|n]; [lia|]. unfold momentComponent.
  destruct (polar_pow (psub p c) (S n)) as [E1 E2]. rewrite E1, E2. auto.
Qed.

(** ** C39: the expansion as a series *)
Lemma cabs2_sqr z : cabs z * cabs z = cabs2 z.
Proof. apply sqrt_sqrt, cabs2_nonneg. Qed.
Lemma cabs_pos' z : z <> (0, 0) -> 0 < cabs z.
Proof. destruct z as [x y]. apply cabs_pos. Qed.
Lemma cabs2_pos' z : z <> (0, 0) -> 0 < cabs2 z.
Proof. destruct z as [x y]. apply cabs2_pos. Qed.
Lemma cinv_pow z n : z <> (0, 0) ->
  fst (cpow (cinv z) n) = cos (INR n * atan2 (snd z) (fst z)) / norm2 z ^ n /\
  snd (cpow (cinv z) n) = - (sin (INR n * atan2 (snd z) (fst z)) / norm2 z ^ n).
Proof.
  intros Hz. pose proof (cabs_pos' z Hz) as P. destruct (polar z) as [Hx Hy]. rewrite norm2_cabs in *.
  set (t := atan2 (snd z) (fst z)) in *.
  assert (E : cinv z = (/ cabs z * cos (- t), / cabs z * sin (- t))).
  { unfold cinv. rewrite <- cabs2_sqr, cos_neg, sin_neg. f_equal; field_simplify_eq; nra. }
  rewrite E, cpow_polar. cbn [fst snd].
  replace (INR n * - t) with (- (INR n * t)) by ring. rewrite cos_neg, sin_neg, pow_inv.
  unfold Rdiv. split; ring.
Qed.
Lemma term_series z n c : z <> (0, 0) ->
  expansion_term (norm2 z) (atan2 (snd z) (fst z)) n c =
  match n with O => - (fst c * ln (cabs z)) | S _ => fst (cmul c (cpow (cinv z) n)) end.
Proof.
  intros Hz. destruct n as [|n]; [reflexivity|]. unfold expansion_term.
  destruct (cinv_pow z (S n) Hz) as [E1 E2]. unfold cmul. cbn [fst]. rewrite E1, E2. unfold Rdiv. ring.
Qed.
Lemma expansion_fold z k ab s : z <> (0, 0) ->
  fold_left (fun res nab => res + expansion_term (norm2 z) (atan2 (snd z) (fst z)) (fst nab) (snd nab))
            (enum_from k ab) s = s + series k ab z.
Proof.
  intros Hz; revert k s; induction ab as [|c ab IH]; intros k s; cbn [enum_from fold_left series]; [lra|].
  rewrite IH. cbn [fst snd]. rewrite term_series by exact Hz. destruct k; lra.
Qed.
Lemma csub_neq p c : p <> c -> csub p c <> (0, 0).
Proof.
  intros N E. apply N. destruct p as [px py], c as [cx cy]. unfold csub in E; cbn in E. injection E as E1 E2. f_equal; lra.
Qed.
Lemma expansion_series p ab c : p <> c -> multipolarExpansion p ab c = series 0 ab (csub p c) / (2 * PI).
Proof.
  intros N. unfold multipolarExpansion. change (psub p c) with (csub p c).
  unfold enum. rewrite expansion_fold by now apply csub_neq. f_equal. ring.
Qed.

Lemma series_linear a b z k x y : List.length x = List.length y ->
  series k (combine_coefficients a b x y) z = a * series k x z + b * series k y z.
Proof.
  revert k y; induction x as [|c x IH]; intros k [|d y] L; try discriminate; cbn; [lra|].
  injection L as L. unfold combine_coefficients in IH. rewrite (IH (S k) y L). destruct k as [|k]; [lra|].
  unfold cmul; cbn [fst snd]. lra.
Qed.
Lemma expansion_linear p c a b x y : p <> c -> List.length x = List.length y ->
  multipolarExpansion p (combine_coefficients a b x y) c =
  a * multipolarExpansion p x c + b * multipolarExpansion p y c.
Proof.
  intros N L. rewrite !expansion_series by exact N. rewrite series_linear by exact L. unfold Rdiv. ring.
Qed.
Lemma expansion_translate p ab c t : multipolarExpansion (cplus p t) ab (cplus c t) = multipolarExpansion p ab c.
Proof.
  unfold multipolarExpansion. replace (psub (cplus p t) (cplus c t)) with (psub p c); [reflexivity|].
  destruct p, c, t. unfold psub, cplus; cbn. f_equal; ring.
Qed.

(** ** Harmonicity *)
Lemma dl_eq f x l l' : derivable_pt_lim f x l -> l = l' -> derivable_pt_lim f x l'.
Proof. now intros H <-. Qed.
Definition cscale (a : R) (z : C) : C := (a * fst z, a * snd z).

(** d/dx (1/z) = - 1/z^2, d/dy (1/z) = - i / z^2 *)
Lemma cinv_dx x y : (x, y) <> (0, 0) ->
  derivable_pt_lim (fun t => fst (cinv (t, y))) x (- fst (cpow (cinv (x, y)) 2)) /\
  derivable_pt_lim (fun t => snd (cinv (t, y))) x (- snd (cpow (cinv (x, y)) 2)).
Proof.
  intros N. pose proof (cabs2_pos _ _ N) as P. unfold cabs2 in P; cbn in P.
  assert (D : derivable_pt_lim (fun t => t * t + y * y) x (1 * x + x * 1 + 0)).
  { apply (derivable_pt_lim_plus (fun t => t * t) (fun _ => y * y)); [|apply derivable_pt_lim_const].
    apply (derivable_pt_lim_mult (fun t => t) (fun t => t)); apply derivable_pt_lim_id. }
  split.
  - eapply dl_eq; [apply (derivable_pt_lim_div (fun t => t) (fun t => t * t + y * y) x);
      [apply derivable_pt_lim_id|exact D|cbn; lra]|]. cbn. unfold cinv, cabs2, Rsqr; cbn. field. lra.
  - eapply dl_eq; [apply (derivable_pt_lim_div (fun t => - y) (fun t => t * t + y * y) x);
      [apply derivable_pt_lim_const|exact D|cbn; lra]|]. cbn. unfold cinv, cabs2, Rsqr; cbn. field. lra.
Qed.
Lemma cinv_dy x y : (x, y) <> (0, 0) ->
  derivable_pt_lim (fun t => fst (cinv (x, t))) y (snd (cpow (cinv (x, y)) 2)) /\
  derivable_pt_lim (fun t => snd (cinv (x, t))) y (- fst (cpow (cinv (x, y)) 2)).
Proof.
  intros N. pose proof (cabs2_pos _ _ N) as P. unfold cabs2 in P; cbn in P.
  assert (D : derivable_pt_lim (fun t => x * x + t * t) y (0 + (1 * y + y * 1))).
  { apply (derivable_pt_lim_plus (fun _ => x * x) (fun t => t * t)); [apply derivable_pt_lim_const|].
    apply (derivable_pt_lim_mult (fun t => t) (fun t => t)); apply derivable_pt_lim_id. }
  split.
  - eapply dl_eq; [apply (derivable_pt_lim_div (fun t => x) (fun t => x * x + t * t) y);
      [apply derivable_pt_lim_const|exact D|cbn; lra]|]. cbn. unfold cinv, cabs2, Rsqr; cbn. field. lra.
  - eapply dl_eq; [apply (derivable_pt_lim_div (fun t => - t) (fun t => x * x + t * t) y);
      [apply (derivable_pt_lim_opp (fun t => t)), derivable_pt_lim_id|exact D|cbn; lra]|]. cbn. unfold cinv, cabs2, Rsqr; cbn. field. lra.
Qed.
(** d w^n = n w^(n-1) dw, along any line, for dw = k w^2 *)
Lemma cpow_deriv (w : R -> C) x (k : C) n :
  derivable_pt_lim (fun t => fst (w t)) x (fst (cmul k (cpow (w x) 2))) ->
  derivable_pt_lim (fun t => snd (w t)) x (snd (cmul k (cpow (w x) 2))) ->
  derivable_pt_lim (fun t => fst (cpow (w t) n)) x (INR n * fst (cmul k (cpow (w x) (S n)))) /\
  derivable_pt_lim (fun t => snd (cpow (w t) n)) x (INR n * snd (cmul k (cpow (w x) (S n)))).
Proof.
  intros D1 D2. induction n as [|n [IH1 IH2]].
  - cbn [cpow]. split; (eapply dl_eq; [apply derivable_pt_lim_const|]); cbn; ring.
  - split.
    + eapply dl_eq; [apply (derivable_pt_lim_minus (fun t => fst (w t) * fst (cpow (w t) n)) (fun t => snd (w t) * snd (cpow (w t) n)));
        [apply (derivable_pt_lim_mult (fun t => fst (w t)) (fun t => fst (cpow (w t) n))); [exact D1|exact IH1]
        |apply (derivable_pt_lim_mult (fun t => snd (w t)) (fun t => snd (cpow (w t) n))); [exact D2|exact IH2]]|].
      rewrite S_INR. cbn [cpow]. destruct (cpow (w x) n) as [p q], (w x) as [u v], k as [k1 k2]. unfold cmul, cone; cbn. ring.
    + eapply dl_eq; [apply (derivable_pt_lim_plus (fun t => fst (w t) * snd (cpow (w t) n)) (fun t => snd (w t) * fst (cpow (w t) n)));
        [apply (derivable_pt_lim_mult (fun t => fst (w t)) (fun t => snd (cpow (w t) n))); [exact D1|exact IH2]
        |apply (derivable_pt_lim_mult (fun t => snd (w t)) (fun t => fst (cpow (w t) n))); [exact D2|exact IH1]]|].
      rewrite S_INR. cbn [cpow]. destruct (cpow (w x) n) as [p q], (w x) as [u v], k as [k1 k2]. unfold cmul, cone; cbn. ring.
Qed.
Lemma re_cpow_deriv (w : R -> C) x (k c : C) n :
  derivable_pt_lim (fun t => fst (w t)) x (fst (cmul k (cpow (w x) 2))) ->
  derivable_pt_lim (fun t => snd (w t)) x (snd (cmul k (cpow (w x) 2))) ->
  derivable_pt_lim (fun t => fst (cmul c (cpow (w t) n))) x (INR n * fst (cmul (cmul c k) (cpow (w x) (S n)))).
Proof.
  intros D1 D2. destruct (cpow_deriv w x k n D1 D2) as [E1 E2].
  eapply dl_eq; [apply (derivable_pt_lim_minus (fun t => fst c * fst (cpow (w t) n)) (fun t => snd c * snd (cpow (w t) n)));
    [apply (derivable_pt_lim_scal (fun t => fst (cpow (w t) n))); exact E1
    |apply (derivable_pt_lim_scal (fun t => snd (cpow (w t) n))); exact E2]|].
  destruct (cpow (w x) (S n)) as [p q], k as [k1 k2], c as [c1 c2]. unfold cmul; cbn. ring.
Qed.
Definition mone : C := (-1, 0).
Definition mi : C := (0, -1).
Lemma re_dx x y c n : (x, y) <> (0, 0) ->
  derivable_pt_lim (fun t => fst (cmul c (cpow (cinv (t, y)) n))) x
    (INR n * fst (cmul (cmul c mone) (cpow (cinv (x, y)) (S n)))).
Proof.
  intros N. destruct (cinv_dx x y N) as [D1 D2]. apply (re_cpow_deriv (fun t => cinv (t, y)) x mone c n).
  - eapply dl_eq; [exact D1|]. unfold cmul, mone; cbn. ring.
  - eapply dl_eq; [exact D2|]. unfold cmul, mone; cbn. ring.
Qed.
Lemma re_dy x y c n : (x, y) <> (0, 0) ->
  derivable_pt_lim (fun t => fst (cmul c (cpow (cinv (x, t)) n))) y
    (INR n * fst (cmul (cmul c mi) (cpow (cinv (x, y)) (S n)))).
Proof.
  intros N. destruct (cinv_dy x y N) as [D1 D2]. apply (re_cpow_deriv (fun t => cinv (x, t)) y mi c n).
  - eapply dl_eq; [exact D1|]. unfold cmul, mi; cbn. ring.
  - eapply dl_eq; [exact D2|]. unfold cmul, mi; cbn. ring.
Qed.
Lemma ln_cabs z : z <> (0, 0) -> ln (cabs z) = / 2 * ln (cabs2 z).
Proof.
  intros N. pose proof (cabs_pos' z N) as P. rewrite <- cabs2_sqr, ln_mult by exact P. lra.
Qed.
Lemma ln_sqrt_deriv g x l : 0 < g x -> derivable_pt_lim g x l ->
  derivable_pt_lim (fun t => ln (sqrt (g t))) x (l / (2 * g x)).
Proof.
  intros P D. eapply dl_eq; [apply (derivable_pt_lim_comp (fun t => sqrt (g t)) ln);
    [apply (derivable_pt_lim_comp g sqrt); [exact D|apply derivable_pt_lim_sqrt, P]|apply derivable_pt_lim_ln, sqrt_lt_R0, P]|].
  assert (E : sqrt (g x) * sqrt (g x) = g x) by (apply sqrt_sqrt; lra).
  assert (Q : 0 < sqrt (g x)) by now apply sqrt_lt_R0. rewrite <- E at 3. field. lra.
Qed.
Lemma ln_dx x y : (x, y) <> (0, 0) -> derivable_pt_lim (fun t => ln (cabs (t, y))) x (fst (cinv (x, y))).
Proof.
  intros N. pose proof (cabs2_pos _ _ N) as P. unfold cabs2 in P; cbn in P.
  eapply dl_eq; [apply (ln_sqrt_deriv (fun t => t * t + y * y) x (1 * x + x * 1 + 0)); [exact P|]|].
  - apply (derivable_pt_lim_plus (fun t => t * t) (fun _ => y * y)); [|apply derivable_pt_lim_const].
    apply (derivable_pt_lim_mult (fun t => t) (fun t => t)); apply derivable_pt_lim_id.
  - unfold cinv, cabs2; cbn. field. lra.
Qed.
Lemma ln_dy x y : (x, y) <> (0, 0) -> derivable_pt_lim (fun t => ln (cabs (x, t))) y (- snd (cinv (x, y))).
Proof.
  intros N. pose proof (cabs2_pos _ _ N) as P. unfold cabs2 in P; cbn in P.
  eapply dl_eq; [apply (ln_sqrt_deriv (fun t => x * x + t * t) y (0 + (1 * y + y * 1))); [exact P|]|].
  - apply (derivable_pt_lim_plus (fun _ => x * x) (fun t => t * t)); [apply derivable_pt_lim_const|].
    apply (derivable_pt_lim_mult (fun t => t) (fun t => t)); apply derivable_pt_lim_id.
  - unfold cinv, cabs2; cbn. field. lra.
Qed.
(** derivatives of the series *)
Definition dcoef (n : nat) (c : C) : C := match n with O => (fst c, 0) | S _ => cscale (INR n) c end.
Fixpoint series_x (n : nat) (ab : list C) (z : C) : R :=
  match ab with [] => 0 | c :: r => fst (cmul (cmul (dcoef n c) mone) (cpow (cinv z) (S n))) + series_x (S n) r z end.
Fixpoint series_y (n : nat) (ab : list C) (z : C) : R :=
  match ab with [] => 0 | c :: r => fst (cmul (cmul (dcoef n c) mi) (cpow (cinv z) (S n))) + series_y (S n) r z end.
Fixpoint series_xx (n : nat) (ab : list C) (z : C) : R :=
  match ab with [] => 0 | c :: r => INR (S n) * fst (cmul (dcoef n c) (cpow (cinv z) (S (S n)))) + series_xx (S n) r z end.
Lemma series_dx x y n ab : (x, y) <> (0, 0) ->
  derivable_pt_lim (fun t => series n ab (t, y)) x (series_x n ab (x, y)).
Proof.
  intros N; revert n; induction ab as [|c ab IH]; intros n; cbn [series series_x]; [apply derivable_pt_lim_const|].
  apply (derivable_pt_lim_plus (fun t => match n with O => - (fst c * ln (cabs (t, y))) | S _ => fst (cmul c (cpow (cinv (t, y)) n)) end)
    (fun t => series (S n) ab (t, y))); [|apply IH].
  destruct n as [|n].
  - eapply dl_eq; [apply (derivable_pt_lim_opp (fun t => fst c * ln (cabs (t, y)))), (derivable_pt_lim_scal (fun t => ln (cabs (t, y)))), ln_dx, N|].
    unfold cmul, mone; cbn. ring.
  - eapply dl_eq; [apply re_dx, N|].
    destruct (cpow (cinv (x, y)) (S (S n))) as [p q], c as [c1 c2]. unfold dcoef, cscale, cmul, mone; cbn [fst snd]. ring.
Qed.
Lemma series_dy x y n ab : (x, y) <> (0, 0) ->
  derivable_pt_lim (fun t => series n ab (x, t)) y (series_y n ab (x, y)).
Proof.
  intros N; revert n; induction ab as [|c ab IH]; intros n; cbn [series series_y]; [apply derivable_pt_lim_const|].
  apply (derivable_pt_lim_plus (fun t => match n with O => - (fst c * ln (cabs (x, t))) | S _ => fst (cmul c (cpow (cinv (x, t)) n)) end)
    (fun t => series (S n) ab (x, t))); [|apply IH].
  destruct n as [|n].
  - eapply dl_eq; [apply (derivable_pt_lim_opp (fun t => fst c * ln (cabs (x, t)))), (derivable_pt_lim_scal (fun t => ln (cabs (x, t)))), ln_dy, N|].
    unfold cmul, mi; cbn. ring.
  - eapply dl_eq; [apply re_dy, N|].
    destruct (cpow (cinv (x, y)) (S (S n))) as [p q], c as [c1 c2]. unfold dcoef, cscale, cmul, mi; cbn [fst snd]. ring.
Qed.
Lemma series_dxx x y n ab : (x, y) <> (0, 0) ->
  derivable_pt_lim (fun t => series_x n ab (t, y)) x (series_xx n ab (x, y)).
Proof.
  intros N; revert n; induction ab as [|c ab IH]; intros n; cbn [series_x series_xx]; [apply derivable_pt_lim_const|].
  apply (derivable_pt_lim_plus (fun t => fst (cmul (cmul (dcoef n c) mone) (cpow (cinv (t, y)) (S n))))
    (fun t => series_x (S n) ab (t, y))); [|apply IH].
  eapply dl_eq; [apply re_dx, N|]. f_equal.
  destruct (cpow (cinv (x, y)) (S (S n))) as [p q], (dcoef n c) as [c1 c2]. unfold cmul, mone; cbn [fst snd]. ring.
Qed.
Lemma series_dyy x y n ab : (x, y) <> (0, 0) ->
  derivable_pt_lim (fun t => series_y n ab (x, t)) y (- series_xx n ab (x, y)).
Proof.
  intros N; revert n; induction ab as [|c ab IH]; intros n; cbn [series_y series_xx].
  { eapply dl_eq; [apply derivable_pt_lim_const|ring]. }
  eapply dl_eq; [apply (derivable_pt_lim_plus (fun t => fst (cmul (cmul (dcoef n c) mi) (cpow (cinv (x, t)) (S n))))
    (fun t => series_y (S n) ab (x, t))); [apply re_dy, N|apply IH]|].
  destruct (cpow (cinv (x, y)) (S (S n))) as [p q], (dcoef n c) as [c1 c2]. unfold cmul, mi; cbn [fst snd]. ring.
Qed.
(** composition with a translation *)
Lemma deriv_shift f a x l : derivable_pt_lim f (x - a) l -> derivable_pt_lim (fun t => f (t - a)) x l.
Proof.
  intros D. eapply dl_eq; [apply (derivable_pt_lim_comp (fun t => t - a) f);
    [apply (derivable_pt_lim_minus (fun t => t) (fun _ => a)); [apply derivable_pt_lim_id|apply derivable_pt_lim_const]|exact D]|]. ring.
Qed.
(** functions equal near the point have the same derivative *)
Lemma deriv_local f g x l d : 0 < d -> (forall t, Rabs (t - x) < d -> f t = g t) ->
  derivable_pt_lim f x l -> derivable_pt_lim g x l.
Proof.
  intros Hd E D eps He. destruct (D eps He) as [del Hdel].
  assert (P : 0 < Rmin del d) by (apply Rmin_pos; [apply cond_pos|exact Hd]).
  exists (mkposreal _ P). intros h Hh L. cbn in L.
  rewrite <- !E.
  - apply Hdel; [exact Hh|]. eapply Rlt_le_trans; [exact L|apply Rmin_l].
  - rewrite Rminus_diag_eq, Rabs_R0 by reflexivity. exact Hd.
  - replace (x + h - x) with h by ring. eapply Rlt_le_trans; [exact L|apply Rmin_r].
Qed.
Lemma expansion_harmonic ab c : harmonic_on (fun p => p <> c) (fun p => multipolarExpansion p ab c).
Proof.
  exists (fun p => series_x 0 ab (csub p c) / (2 * PI)), (fun p => series_y 0 ab (csub p c) / (2 * PI)),
    (fun p => series_xx 0 ab (csub p c) / (2 * PI)), (fun p => - series_xx 0 ab (csub p c) / (2 * PI)).
  intros x y N. destruct c as [cx cy]. pose proof (csub_neq _ _ N) as N'. unfold csub in *. cbn [fst snd] in *.
  assert (Dv : forall f z l, derivable_pt_lim f z l -> derivable_pt_lim (fun t => f t / (2 * PI)) z (l / (2 * PI))).
  { intros f z l D. unfold Rdiv. eapply dl_eq; [apply (derivable_pt_lim_mult f (fun _ => / (2 * PI))); [exact D|apply derivable_pt_lim_const]|ring]. }
  (* a neighbourhood along each axis where the point is not the center *)
  assert (Nx : exists d, 0 < d /\ forall t, Rabs (t - x) < d -> (t, y) <> (cx, cy)).
  { destruct (Req_dec y cy) as [->|Ny].
    - exists (Rabs (x - cx)). split; [apply Rabs_pos_lt; intros E; apply N; f_equal; lra|].
      intros t L [= ->]. rewrite Rabs_minus_sym in L. lra.
    - exists 1. split; [lra|]. intros t _ [= _ E]. now apply Ny. }
  assert (Ny : exists d, 0 < d /\ forall t, Rabs (t - y) < d -> (x, t) <> (cx, cy)).
  { destruct (Req_dec x cx) as [->|Nx'].
    - exists (Rabs (y - cy)). split; [apply Rabs_pos_lt; intros E; apply N; f_equal; lra|].
      intros t L [= ->]. rewrite Rabs_minus_sym in L. lra.
    - exists 1. split; [lra|]. intros t _ [= E _]. now apply Nx'. }
  destruct Nx as (dx & Px & Nx), Ny as (dy & Py & Ny).
  split; [|split; [|split; [|split]]].
  - apply (deriv_local (fun t => series 0 ab (t - cx, y - cy) / (2 * PI)) _ x _ dx Px).
    + intros t L. symmetry. now apply expansion_series, Nx.
    + apply Dv. apply (deriv_shift (fun t => series 0 ab (t, y - cy))). now apply series_dx.
  - apply (deriv_local (fun t => series 0 ab (x - cx, t - cy) / (2 * PI)) _ y _ dy Py).
    + intros t L. symmetry. now apply expansion_series, Ny.
    + apply Dv. apply (deriv_shift (fun t => series 0 ab (x - cx, t))). now apply series_dy.
  - apply Dv. apply (deriv_shift (fun t => series_x 0 ab (t, y - cy))). now apply series_dxx.
  - unfold Rdiv. rewrite Ropp_mult_distr_l_reverse. rewrite Ropp_mult_distr_l. apply Dv. apply (deriv_shift (fun t => series_y 0 ab (x - cx, t))). now apply series_dyy.
  - lra.
Qed.
