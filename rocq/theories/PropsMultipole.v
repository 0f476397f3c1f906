(** Properties C39, C40, C41: the multipolar expansion. *)
From Coq Require Import Reals Lra.
From Verif Require Import Prelude StdMap Matrix Multipole Solver SpecMultipole SpecCharge MultipoleProofs RemainderProofs.
Open Scope R_scope.
Open Scope list_scope.

(** ** C39 *)
(** [series 0 ab z] is - a_0 ln |z| + sum_{n>=1} Re ((a_n + i b_n) / z^n) (SpecMultipole.v). *)
Theorem C39_expansion_formula :
  forall (p : R * R) (ab : list (R * R)) (c : R * R), p <> c ->
    multipolarExpansion p ab c = series 0 ab (csub p c) / (2 * PI).
Proof. exact expansion_series. Qed.
Print Assumptions C39_expansion_formula.

Theorem C39_harmonic :
  forall (ab : list (R * R)) (c : R * R), harmonic_on (fun p => p <> c) (fun p => multipolarExpansion p ab c).
Proof. exact expansion_harmonic. Qed.
Print Assumptions C39_harmonic.

Theorem C39_linear_in_the_coefficients :
  forall (p c : R * R) (a b : R) (x y : list (R * R)), p <> c -> List.length x = List.length y ->
    multipolarExpansion p (combine_coefficients a b x y) c =
    a * multipolarExpansion p x c + b * multipolarExpansion p y c.
Proof. exact expansion_linear. Qed.
Print Assumptions C39_linear_in_the_coefficients.

Theorem C39_translation_invariant :
  forall (p : R * R) (ab : list (R * R)) (c t : R * R),
    multipolarExpansion (cplus p t) ab (cplus c t) = multipolarExpansion p ab c.
Proof. exact expansion_translate. Qed.
Print Assumptions C39_translation_invariant.

(** The call itself: release builds always return the expansion, debug builds stop when the first coefficient
    has a second number other than zero. *)
Theorem C39_first_coefficient_is_checked_in_debug_builds :
  forall (p : R * R) (ab : list (R * R)) (c : R * R),
    multipolarExpansionCall false p ab c = Ok (multipolarExpansion p ab c) /\
    (multipolarExpansionCall true p ab c = Ok (multipolarExpansion p ab c) <-> forall a0 b0, nth_error ab 0 = Some (a0, b0) -> b0 = 0) /\
    ((exists a0 b0, nth_error ab 0 = Some (a0, b0) /\ b0 <> 0) -> exists e, multipolarExpansionCall true p ab c = Throw e).
Proof.
  intros p ab c. unfold multipolarExpansionCall, expansion_assert, assert_. destruct ab as [|(a0, b0) ab]; cbn [nth_error snd andb negb bind].
  - split; [reflexivity|]. split; [split; [intros _ ? ? [=]|reflexivity]|intros (? & ? & [=] & _)].
  - split; [reflexivity|]. unfold Reqb. destruct (Req_EM_T b0 0) as [E | N]; cbn [andb negb bind].
    + split; [split; [intros _ ? ? [= <- <-]; exact E|reflexivity]|]. intros (? & ? & [= <- <-] & N). contradiction.
    + split; [split; [discriminate|intros H; now specialize (H _ _ eq_refl)]|]. intros _. eauto.
Qed.
Print Assumptions C39_first_coefficient_is_checked_in_debug_builds.

(** A dipole seen on the axis: 1/(2 pi) * a / x. *)
Example C39_example : multipolarExpansion (2, 0) [(0, 0); (3, 1)] (0, 0) = 3 / 2 / (2 * PI).
Proof.
  rewrite expansion_series by (intros [= E]; lra). f_equal. cbn. unfold csub, cmul, cinv, cabs2, cone; cbn. lra.
Qed.

(** ** C40 *)
(** V_N: expansion of order N of the charges qs (all within rho of c) with the moments of the
    code; exact: -1/(2 pi) sum q ln |z - p|. With x = rho / |z - c| < 1,
      | V_N - exact | <= (sum |q|) / (2 pi) * x^(N+1) / ((N+1) (1 - x)).  *)
Theorem C40_truncation_error :
  forall (N : nat) (qs : list (R * (R * R))) (c z : R * R) (rho : R),
    0 <= rho -> rho < cabs (csub z c) ->
    (forall qp, In qp qs -> cabs (csub (snd qp) c) <= rho) ->
    Rabs (multipolarExpansion z (moments momentComponent N qs c) c - line_charges_potential qs z / (2 * PI)) <=
    total_abs_charge qs / (2 * PI) * (rho / cabs (csub z c)) ^ S N / (INR (S N) * (1 - rho / cabs (csub z c))).
Proof. exact expansion_error. Qed.
Print Assumptions C40_truncation_error.

(** The coefficients that a solver returns are those moments, for the charges at the
    quadrature points of its charged boundaries. *)
Theorem C40_solver_coefficients_are_moments :
  forall (F : fem R) (s : solver R) (N : nat) (ab : list (R * R)),
    NoDup (chargedBoundaries s) ->
    getMultipolarCoefficients F momentComponent s N = Ok ab ->
    exists c, getCenterOfCharge F momentComponent s = Ok c /\
      ab = moments momentComponent N (boundary_charges F s) c.
Proof. exact coefficients_are_moments. Qed.
Print Assumptions C40_solver_coefficients_are_moments.

(** Two unit charges at (+-1, 0) seen from (2, 0). *)
Example C40_example :
  0 <= 1 /\ 1 < cabs (csub (2, 0) (0, 0)) /\
  (forall qp, In qp [(1, (1, 0)); (1, (-1, 0))] -> cabs (csub (snd qp) (0, 0)) <= 1) /\
  total_abs_charge [(1, (1, 0)); (1, (-1, 0))] = 2.
Proof.
  assert (S4 : sqrt 4 = 2) by (replace 4 with (2 * 2) by ring; apply sqrt_square; lra).
  split; [lra|]. split.
  - unfold cabs, csub, cabs2; cbn. replace ((2 - 0) * (2 - 0) + (0 - 0) * (0 - 0)) with 4 by ring. lra.
  - split.
    + intros qp [<-|[<-|[]]]; unfold cabs, csub, cabs2; cbn; (match goal with |- sqrt ?x <= _ => replace x with 1 by ring end); rewrite sqrt_1; lra.
    + unfold total_abs_charge; cbn. rewrite Rabs_R1. lra.
Qed.

(** ** C41 *)
(** The potential - k ln r of a line charge at the origin has radial derivative - k / r, which
    the coefficient cancels. *)
Theorem C41_absorbs_a_monopole :
  forall k r : R, 0 < r -> r <> 1 -> forall x y, norm2 (x, y) = r ->
    derivable_pt_lim (fun r => - (k * ln r)) r (- (k / r)) /\
    - (k / r) + firstOrderABC (x, y) * (- (k * ln r)) = 0.
Proof. exact abc_monopole. Qed.
Print Assumptions C41_absorbs_a_monopole.
(** The boundary term is positive only inside the unit circle. *)
Theorem C41_positive_inside_the_unit_circle_partial :
  forall p : R * R, 0 < norm2 p < 1 -> 0 < firstOrderABC p.
Proof. intros p. apply (proj1 (abc_sign p)). Qed.
Print Assumptions C41_positive_inside_the_unit_circle_partial.
Theorem C41_negative_outside_refuted :
  forall p : R * R, 1 < norm2 p -> firstOrderABC p < 0.
Proof. intros p. apply (proj2 (abc_sign p)). Qed.
Print Assumptions C41_negative_outside_refuted.
Example C41_example : 1 < norm2 (2, 0) /\ 0 < norm2 (/ 2, 0) < 1.
Proof.
  assert (E : forall a, 0 <= a -> norm2 (a, 0) = a).
  { intros a Ha. unfold norm2; cbn. replace (a * a + 0 * 0) with (a * a) by ring. now apply sqrt_square. }
  rewrite !E by lra. lra.
Qed.
