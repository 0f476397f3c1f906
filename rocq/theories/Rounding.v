(** C84: rounding errors of the reduction and of the scaling. *)
From Flocq Require Core.
From Coq Require Import Reals Lra Lia List Floats Machin Ratan.
From Verif Require Import Prelude SpecDouble RSum ListLemmas DoubleFacts Matrix ModelM Results Driver SpecMatrix.
Open Scope R_scope.
Open Scope list_scope.

Lemma Rsum_abs {A} (l : list A) f : Rabs (Rsum l f) <= Rsum l (fun x => Rabs (f x)).
Proof. induction l as [|x l IH]; [rewrite !Rsum_nil, Rabs_R0; lra|]. rewrite !Rsum_cons. eapply Rle_trans; [apply Rabs_triang|]. lra. Qed.
Lemma Rsum_member {A} (l : list A) f x : In x l -> (forall y, In y l -> 0 <= f y) -> f x <= Rsum l f.
Proof.
  induction l as [|y l IH]; [intros []|]. intros [-> | I] P; rewrite Rsum_cons.
  - pose proof (Rsum_nonneg l f ltac:(intros z Iz; apply P; now right)). lra.
  - pose proof (IH I ltac:(intros z Iz; apply P; now right)). pose proof (P y ltac:(now left)). lra.
Qed.
Lemma fold_pairs {A B} (h : A -> B -> float) l2 l1 : forall a,
  fold_left (fun d i => fold_left (fun d j => (d + h i j)%float) l2 d) l1 a =
  fold_left (fun d p => (d + h (fst p) (snd p))%float) (list_prod l1 l2) a.
Proof.
  induction l1 as [|x l1 IH]; intros a; [reflexivity|]. cbn [fold_left list_prod]. rewrite fold_left_app, IH. f_equal.
  clear. revert a. induction l2 as [|y l2 IH]; intros a; [reflexivity|]. cbn [map fold_left]. apply IH.
Qed.
Lemma Rsum_pairs {A B} (h : A -> B -> R) l2 l1 : Rsum (list_prod l1 l2) (fun p => h (fst p) (snd p)) = Rsum l1 (fun i => Rsum l2 (fun j => h i j)).
Proof.
  induction l1 as [|x l1 IH]; [reflexivity|]. cbn [list_prod]. rewrite Rsum_app, Rsum_cons, IH, Rsum_map. reflexivity.
Qed.

(** The estimate, in real numbers. *)
Section Estimate.
  Variables (u A T n r c g r' c' t' p q z : R).
  Hypotheses (U : 0 < u) (HA : 0 < A) (HT : T <> 0) (Hn : 2 <= n).
  Variable K : R.
  Hypothesis EK : A = K * Rabs T.
  Hypotheses (HK : 1 <= K) (Small : 4 * (n * n) * K * u <= 1).
  Hypotheses (Br : Rabs r <= A) (Bc : Rabs c <= A) (Bg : Rabs g <= A).
  Hypotheses (Er : Rabs (r' - r) <= 2 * n * u * A) (Ec : Rabs (c' - c) <= 2 * n * u * A) (Et : Rabs (t' - T) <= 2 * (n * n) * u * A).
  Lemma est_nu : 8 * (n * u) <= 1.
  Proof.
    assert (0 < n * u) by nra. assert (n * u * 2 <= n * u * n) by nra.
    assert (n * n * u * 1 <= n * n * u * K) by (apply Rmult_le_compat_l; nra). lra.
  Qed.
  Lemma est_t' : Rabs T / 2 <= Rabs t'.
  Proof.
    assert (P : 0 < Rabs T) by now apply Rabs_pos_lt.
    assert (2 * (n * n) * u * A <= Rabs T / 2). { rewrite EK. replace (2 * (n * n) * u * (K * Rabs T)) with ((4 * (n * n) * K * u) * (Rabs T / 2)) by field. assert (4 * (n * n) * K * u * (Rabs T / 2) <= 1 * (Rabs T / 2)) by (apply Rmult_le_compat_r; lra). lra. }
    pose proof (Rabs_triang t' (- (t' - T))) as H1. rewrite Rabs_Ropp in H1. replace (t' + - (t' - T)) with T in H1 by ring. lra.
  Qed.
  Lemma est_t'0 : t' <> 0.
  Proof. pose proof est_t'. assert (0 < Rabs T) by now apply Rabs_pos_lt. intros ->. rewrite Rabs_R0 in *. lra. Qed.
  Lemma est_r' x x' : Rabs x <= A -> Rabs (x' - x) <= 2 * n * u * A -> Rabs x' <= 5 / 4 * A.
  Proof.
    intros Bx Ex. replace x' with ((x' - x) + x) by ring. eapply Rle_trans; [apply Rabs_triang|]. pose proof est_nu. assert (2 * n * u * A <= 1 / 4 * A) by nra. lra.
  Qed.
  Lemma est_rc' : Rabs (r' * c') <= 25 / 16 * (A * A).
  Proof.
    rewrite Rabs_mult. pose proof (est_r' _ _ Br Er). pose proof (est_r' _ _ Bc Ec). pose proof (Rabs_pos r'). pose proof (Rabs_pos c').
    replace (25 / 16 * (A * A)) with (5 / 4 * A * (5 / 4 * A)) by field. now apply Rmult_le_compat.
  Qed.
  Lemma est_prod : Rabs (r' * c' - r * c) <= 9 / 2 * (n * u) * (A * A).
  Proof.
    replace (r' * c' - r * c) with ((r' - r) * c' + r * (c' - c)) by ring.
    eapply Rle_trans; [apply Rabs_triang|]. rewrite !Rabs_mult. pose proof (est_r' _ _ Bc Ec).
    assert (Rabs (r' - r) * Rabs c' <= 2 * n * u * A * (5 / 4 * A)) by (apply Rmult_le_compat; try apply Rabs_pos; assumption).
    assert (Rabs r * Rabs (c' - c) <= A * (2 * n * u * A)) by (apply Rmult_le_compat; try apply Rabs_pos; assumption).
    lra.
  Qed.
  Hypothesis Ep : Rabs (p - r' * c') <= u * Rabs (r' * c') + u * (A * A).
  Lemma est_p : Rabs (p - r * c) <= 6 * (n * u) * (A * A).
  Proof.
    replace (p - r * c) with ((p - r' * c') + (r' * c' - r * c)) by ring. eapply Rle_trans; [apply Rabs_triang|].
    pose proof est_rc'. pose proof est_prod. assert (0 < A * A) by nra. assert (u * Rabs (r' * c') <= u * (25 / 16 * (A * A))) by (apply Rmult_le_compat_l; lra).
    assert (u * (A * A) * 2 <= n * u * (A * A)) by (replace (n * u * (A * A)) with (u * (A * A) * n) by ring; apply Rmult_le_compat_l; [apply Rmult_le_pos; lra|lra]).
    replace (6 * (n * u) * (A * A)) with (6 * (n * u * (A * A))) by ring. replace (9 / 2 * (n * u) * (A * A)) with (9 / 2 * (n * u * (A * A))) in H0 by ring. replace (u * (25 / 16 * (A * A))) with (25 / 16 * (u * (A * A))) in H2 by ring.
    set (w := n * u * (A * A)) in *. set (v := u * (A * A)) in *. clear EK.
    assert (0 <= v) by (apply Rmult_le_pos; lra). lra.
  Qed.
  Lemma est_p' : Rabs p <= 7 / 4 * (A * A).
  Proof.
    replace p with ((p - r * c) + r * c) by ring. eapply Rle_trans; [apply Rabs_triang|]. pose proof est_p. pose proof est_nu.
    assert (Rabs (r * c) <= A * A) by (rewrite Rabs_mult; apply Rmult_le_compat; try apply Rabs_pos; assumption).
    assert (0 < A * A) by nra. nra.
  Qed.
  Lemma inv_t' : / Rabs t' <= 2 / Rabs T.
  Proof.
    pose proof est_t'. assert (0 < Rabs T) by now apply Rabs_pos_lt. replace (2 / Rabs T) with (/ (Rabs T / 2)) by (field; lra).
    apply Rinv_le_contravar; lra.
  Qed.
  Lemma est_pt : Rabs (p / t') <= 7 / 2 * K * A.
  Proof.
    unfold Rdiv at 1. rewrite Rabs_mult, Rabs_inv. pose proof est_p'. pose proof inv_t'. pose proof est_t'0.
    assert (0 < Rabs t') by now apply Rabs_pos_lt. assert (0 < / Rabs t') by now apply Rinv_0_lt_compat. assert (0 < Rabs T) by now apply Rabs_pos_lt.
    replace (7 / 2 * K * A) with (7 / 4 * (A * A) * (2 / Rabs T)) by (rewrite EK; field; lra).
    apply Rmult_le_compat; try lra. apply Rabs_pos.
  Qed.
  Lemma est_quot : Rabs (p / t' - r * c / T) <= 10 * (n * n) * (K * K) * u * A.
  Proof.
    pose proof est_t'0 as N0. pose proof inv_t' as I. assert (PT : 0 < Rabs T) by now apply Rabs_pos_lt. assert (P' : 0 < / Rabs t') by (apply Rinv_0_lt_compat, Rabs_pos_lt, N0).
    replace (p / t' - r * c / T) with ((p - r * c) * / t' + (r * c) * (- (t' - T)) * / T * / t') by (field; auto).
    eapply Rle_trans; [apply Rabs_triang|]. rewrite !Rabs_mult, Rabs_Ropp, !Rabs_inv. pose proof est_p as B1.
    assert (X1 : Rabs (p - r * c) * / Rabs t' <= 6 * (n * u) * (A * A) * (2 / Rabs T)) by (apply Rmult_le_compat; try lra; apply Rabs_pos).
    assert (X2 : Rabs r * Rabs c <= A * A) by (apply Rmult_le_compat; try apply Rabs_pos; assumption).
    assert (X3 : Rabs r * Rabs c * Rabs (t' - T) <= A * A * (2 * (n * n) * u * A)).
    { apply Rmult_le_compat; try apply Rabs_pos; try assumption. apply Rmult_le_pos; apply Rabs_pos. }
    assert (PI : 0 < / Rabs T) by now apply Rinv_0_lt_compat.
    assert (X4 : Rabs r * Rabs c * Rabs (t' - T) * / Rabs T * / Rabs t' <= A * A * (2 * (n * n) * u * A) * / Rabs T * (2 / Rabs T)).
    { apply Rmult_le_compat; try lra.
      - apply Rmult_le_pos; [|lra]. repeat apply Rmult_le_pos; apply Rabs_pos.
      - apply Rmult_le_compat_r; lra. }
    replace (6 * (n * u) * (A * A) * (2 / Rabs T)) with (12 * n * u * K * A) in X1 by (rewrite EK; field; lra).
    replace (A * A * (2 * (n * n) * u * A) * / Rabs T * (2 / Rabs T)) with (4 * (n * n) * u * (K * K) * A) in X4 by (rewrite EK; field; lra).
    assert (PuA : 0 < u * A) by nra.
    assert (PK : 0 < K * (u * A)) by nra.
    assert (Y1 : 12 * n <= 6 * (n * n)) by (clear - Hn; nra).
    assert (Y2 : 12 * n * (K * (u * A)) <= 6 * (n * n) * (K * (u * A))) by (apply Rmult_le_compat_r; lra).
    assert (Pn : 0 < 6 * (n * n) * (K * (u * A))) by (apply Rmult_lt_0_compat; [clear - Hn; nra|exact PK]).
    assert (Y3 : 6 * (n * n) * (K * (u * A)) * 1 <= 6 * (n * n) * (K * (u * A)) * K) by (apply Rmult_le_compat_l; lra).
    clear EK. lra.
  Qed.
  Hypothesis Eq : Rabs (q - p / t') <= u * Rabs (p / t') + u * A.
  Hypothesis Ez : Rabs (z - (g - q)) <= u * Rabs (g - q).
  Lemma nnkk : 4 * K <= n * n * (K * K).
  Proof. assert (4 <= n * n) by (clear - Hn; nra). assert (1 * K <= K * K) by (apply Rmult_le_compat_r; lra). replace (4 * K) with (4 * (1 * K)) by ring. apply Rmult_le_compat; lra. Qed.
  Lemma est_q' : Rabs (q - p / t') <= 9 / 2 * (K * (u * A)).
  Proof. pose proof est_pt. assert (0 < u * A) by nra. assert (u * Rabs (p / t') <= u * (7 / 2 * K * A)) by (apply Rmult_le_compat_l; lra). nra. Qed.
  Lemma est_q : Rabs q <= 5 * K * A.
  Proof.
    replace q with ((q - p / t') + p / t') by ring. eapply Rle_trans; [apply Rabs_triang|]. pose proof est_q'. pose proof est_pt. pose proof est_nu.
    assert (u <= 1 / 8) by nra. assert (0 < K * A) by nra. assert (K * (u * A) <= 1 / 8 * (K * A)) by nra. lra.
  Qed.
  Lemma estimate : Rabs (z - (g - r * c / T)) <= 16 * (n * n) * (K * K) * u * A.
  Proof.
    replace (z - (g - r * c / T)) with ((z - (g - q)) + ((p / t' - q) + (r * c / T - p / t'))) by ring.
    eapply Rle_trans; [apply Rabs_triang|]. pose proof (Rabs_triang (p / t' - q) (r * c / T - p / t')) as H1.
    rewrite (Rabs_minus_sym (p / t') q), (Rabs_minus_sym (r * c / T) (p / t')) in H1.
    pose proof est_q'. pose proof est_quot. pose proof est_q.
    assert (Bz : Rabs (g - q) <= 6 * K * A).
    { unfold Rminus. eapply Rle_trans; [apply Rabs_triang|]. rewrite Rabs_Ropp. nra. }
    assert (u * Rabs (g - q) <= u * (6 * K * A)) by (apply Rmult_le_compat_l; lra).
    pose proof nnkk. assert (0 < u * A) by nra. assert (4 * K * (u * A) <= n * n * (K * K) * (u * A)) by (apply Rmult_le_compat_r; lra). assert (0 < K * (u * A)) by (apply Rmult_lt_0_compat; lra). clear EK. lra.
  Qed.
End Estimate.

(** ** The reduction *)
Lemma pow_Z k : 2 ^ k = Core.Raux.bpow Core.Zaux.radix2 (Z.of_nat k).
Proof. rewrite Core.Raux.bpow_powerRZ. change (IZR (Core.Zaux.radix_val Core.Zaux.radix2)) with 2. apply pow_powerRZ. Qed.
Lemma moderate_pos x : moderate x -> 0 < x.
Proof. intros (H & _). pose proof (pow_lt 2 400 ltac:(lra)). assert (0 < / 2 ^ 400) by now apply Rinv_0_lt_compat. lra. Qed.
Lemma moderate_tiny x : moderate x -> tiny <= roundoff * (x * x) /\ tiny <= roundoff * x.
Proof.
  intros M. pose proof (moderate_pos _ M) as P. destruct M as (H & _). pose proof roundoff_pos as U. set (a := / 2 ^ 400) in *.
  assert (Pa : 0 < a) by (apply Rinv_0_lt_compat, pow_lt; lra).
  assert (E : tiny <= roundoff * (a * a)).
  { unfold tiny, roundoff, a. rewrite <- !Rinv_mult, <- !pow_add. apply Rinv_le_contravar; [apply pow_lt; lra|]. apply Rle_pow; [lra|]. lia. }
  assert (La : a <= 1). { unfold a. rewrite <- Rinv_1. apply Rinv_le_contravar; [lra|]. apply pow_R1_Rle. lra. }
  assert (a * a <= x * x) by (apply Rmult_le_compat; lra). assert (a * a <= x) by nra.
  split; eapply Rle_trans; [exact E| |exact E|]; apply Rmult_le_compat_l; lra.
Qed.
Lemma huge_eq : huge = 2 ^ 1000. Proof. unfold huge. rewrite pow_Z. f_equal. Qed.
Lemma huge_bound x y c : 0 <= x <= 2 ^ 400 -> 0 <= y <= 2 ^ 400 -> c <= 1024 -> 0 <= c -> c * (x * y) <= huge.
Proof.
  intros Hx Hy Hc Pc. rewrite huge_eq.
  assert (x * y <= 2 ^ 400 * 2 ^ 400) by (apply Rmult_le_compat; lra). rewrite <- pow_add in H. assert (0 <= x * y) by (apply Rmult_le_pos; lra).
  apply Rle_trans with (2 ^ 10 * 2 ^ (400 + 400)).
  - apply Rmult_le_compat; lra.
  - rewrite <- pow_add. apply Rle_pow; [lra|lia].
Qed.
Section Reduction.
  Variable g : matrix float.
  Let N := nr g.
  Let G := values g.
  Let A := magnitude G.
  Let T := total G.
  Let n := INR N.
  Hypotheses (Sq : nc g = nr g) (Nu : numbers g) (HT : T <> 0) (Md : moderate A) (Sm : 4 * (n * n) * cancellation G * roundoff <= 1).
  Variables (i j : nat).
  Hypotheses (Li : (S i < N)%nat) (Lj : (S j < N)%nat).
  Let K := cancellation G.
  Lemma red_A : 0 < A. Proof. now apply moderate_pos. Qed.
  Lemma red_T : 0 < Rabs T. Proof. now apply Rabs_pos_lt. Qed.
  Lemma red_EK : A = K * Rabs T.
  Proof. unfold K, cancellation. fold A T. pose proof red_T. field. lra. Qed.
  Lemma red_TA : Rabs T <= A.
  Proof.
    unfold T, A, total, magnitude. eapply Rle_trans; [apply Rsum_abs|]. apply Rsum_le. intros x _. apply Rsum_abs.
  Qed.
  Lemma red_K : 1 <= K.
  Proof. pose proof red_EK. pose proof red_TA. pose proof red_T. apply Rmult_le_reg_r with (Rabs T); lra. Qed.
  Lemma red_n : 2 <= n.
  Proof. unfold n. replace 2 with (INR 2) by reflexivity. apply le_INR. lia. Qed.
  Lemma rowle a : (a < N)%nat -> Sum N (fun k => Rabs (ent G a k)) <= A.
  Proof.
    intros La. unfold A, magnitude. change (nr G) with N. replace (nc G) with N by (symmetry; exact Sq).
    apply (Rsum_member (seq 0 N) (fun i0 => Sum N (fun j0 => Rabs (ent G i0 j0)))); [apply in_seq; lia|]. intros. apply Sum_nonneg. intros. apply Rabs_pos.
  Qed.
  Lemma colle a : (a < N)%nat -> Sum N (fun k => Rabs (ent G k a)) <= A.
  Proof.
    intros La. unfold A, magnitude. change (nr G) with N. replace (nc G) with N by (symmetry; exact Sq). rewrite Sum_exchange.
    apply (Rsum_member (seq 0 N) (fun j0 => Sum N (fun i0 => Rabs (ent G i0 j0)))); [apply in_seq; lia|]. intros. apply Sum_nonneg. intros. apply Rabs_pos.
  Qed.
  Lemma red_nu2 : 4 * (n * n) * roundoff <= 1.
  Proof.
    pose proof red_K. pose proof red_n. pose proof roundoff_pos. fold K in Sm. assert (0 < 4 * (n * n) * roundoff) by (apply Rmult_lt_0_compat; [nra|lra]).
    assert (4 * (n * n) * roundoff * 1 <= 4 * (n * n) * roundoff * K) by (apply Rmult_le_compat_l; lra). lra.
  Qed.
  Lemma red_nu : n * roundoff <= 1 / 8.
  Proof.
    pose proof red_nu2. pose proof red_n. pose proof roundoff_pos. assert (0 < n * roundoff) by nra. assert (n * roundoff * 2 <= n * roundoff * n) by (apply Rmult_le_compat_l; lra). lra.
  Qed.
  (** a sum of N entries *)
  Lemma line (f : nat -> float) : (forall k, (k < N)%nat -> is_number (f k)) -> Sum N (fun k => Rabs (double_value (f k))) <= A ->
    is_number (sum_upto N f) /\ Rabs (double_value (sum_upto N f) - Sum N (fun k => double_value (f k))) <= 2 * n * roundoff * A.
  Proof.
    intros Hf Hs. assert (Hr : roundings N <= 2 * n * roundoff) by (apply roundings_le; fold n; pose proof red_nu; lra).
    assert (Nn : is_number (sum_upto N f)).
    { unfold sum_upto. apply (fsum_number f (seq 0 N) 0%float); [apply zero_number|intros k Ik; apply in_seq in Ik; apply Hf; lia| |].
      - rewrite seq_length. pose proof red_nu. lra.
      - rewrite (proj2 zero_number), Rabs_R0. fold (Sum N (fun k => Rabs (double_value (f k)))). pose proof red_A.
        apply Rle_trans with (2 * (A * 1)); [lra|]. pose proof (pow_R1_Rle 2 400 ltac:(lra)). apply huge_bound; destruct Md; lra. }
    split; [exact Nn|]. unfold sum_upto in *. cbn [nadd FNum n0] in *. destruct (fsum_value f (seq 0 N) 0%float Nn) as (_ & _ & E).
    rewrite (proj2 zero_number), Rabs_R0, seq_length, !Rplus_0_l in E. eapply Rle_trans; [exact E|]. apply Rmult_le_compat; [apply roundings_pos|apply Rsum_nonneg; intros; apply Rabs_pos|exact Hr|exact Hs].
  Qed.
  Let den := fold_left (fun d i => fold_left (fun d j => (d + ent g i j)%float) (seq 0 (nc g)) d) (seq 0 (nr g)) 0%float.
  Lemma den_ok : is_number den /\ Rabs (double_value den - T) <= 2 * (n * n) * roundoff * A.
  Proof.
    unfold den. rewrite fold_pairs. set (l := list_prod (seq 0 (nr g)) (seq 0 (nc g))).
    assert (Ll : List.length l = (N * N)%nat) by (unfold l; rewrite prod_length, !seq_length, Sq; reflexivity).
    assert (Hn : INR (N * N) * roundoff <= 1 / 4). { rewrite mult_INR. fold n. pose proof red_nu2. lra. }
    assert (Hr : roundings (N * N) <= 2 * (n * n) * roundoff). { replace (n * n) with (INR (N * N)) by (rewrite mult_INR; reflexivity). apply roundings_le. lra. }
    assert (EA : Rsum l (fun p => Rabs (double_value (ent g (fst p) (snd p)))) = A) by (unfold l; rewrite (Rsum_pairs (fun a b => Rabs (double_value (ent g a b)))); reflexivity).
    assert (ET : Rsum l (fun p => double_value (ent g (fst p) (snd p))) = T) by (unfold l; rewrite (Rsum_pairs (fun a b => double_value (ent g a b))); reflexivity).
    assert (Nn : is_number (fold_left (fun d p => (d + ent g (fst p) (snd p))%float) l 0%float)).
    { apply (fsum_number (fun p => ent g (fst p) (snd p)) l 0%float); [apply zero_number| | |].
      - intros (a, b) I. unfold l in I. apply in_prod_iff in I as (I1 & I2). apply in_seq in I1, I2. apply Nu; cbn [fst snd]; lia.
      - rewrite Ll. rewrite mult_INR in Hn. fold n in Hn. lra.
      - rewrite (proj2 zero_number), Rabs_R0, EA. pose proof red_A.
        apply Rle_trans with (2 * (A * 1)); [lra|]. pose proof (pow_R1_Rle 2 400 ltac:(lra)). apply huge_bound; destruct Md; lra. }
    split; [exact Nn|]. destruct (fsum_value (fun p => ent g (fst p) (snd p)) l 0%float Nn) as (_ & _ & E).
    rewrite (proj2 zero_number), Rabs_R0, !Rplus_0_l, Ll, EA, ET in E. eapply Rle_trans; [exact E|]. apply Rmult_le_compat_r; [pose proof red_A; lra|exact Hr].
  Qed.
  Lemma red_KA : K * A <= 2 ^ 400 * 2 ^ 400.
  Proof.
    pose proof red_nu2. pose proof red_n. pose proof red_A. pose proof red_K. pose proof roundoff_pos as U. apply Rmult_le_compat; try lra; [|destruct Md; lra].
    fold K in Sm. assert (1 * (K * roundoff) <= 4 * (n * n) * (K * roundoff)). { apply Rmult_le_compat_r; [apply Rmult_le_pos; lra|]. nra. }
    assert (E : K * roundoff <= 1) by lra.
    apply Rmult_le_reg_r with roundoff; [exact U|]. eapply Rle_trans; [exact E|]. unfold roundoff. replace (2 ^ 400) with (2 ^ 53 * 2 ^ 347) by (rewrite <- pow_add; reflexivity).
    pose proof (pow_lt 2 53 ltac:(lra)). pose proof (pow_R1_Rle 2 347 ltac:(lra)). replace (2 ^ 53 * 2 ^ 347 * / 2 ^ 53) with (2 ^ 347) by (field; lra). exact H5.
  Qed.
  Let z := (ent g (S i) (S j) - sum_upto (nc g) (fun k => ent g (S i) k) * sum_upto (nr g) (fun k => ent g k (S j)) / den)%float.
  Lemma reduction_entry : is_number z /\ Rabs (double_value z - neutral_capacitance G i j) <= 16 * (n * n) * (K * K) * roundoff * A.
  Proof.
    destruct (line (fun k => ent g (S i) k)) as (Nr & Er); [intros k Lk; apply Nu; lia|apply (rowle (S i)); lia|].
    destruct (line (fun k => ent g k (S j))) as (Nc & Ec); [intros k Lk; apply Nu; lia|apply (colle (S j)); lia|].
    destruct den_ok as (Nd & Ed). pose proof roundoff_pos as U. pose proof red_A as PA. pose proof red_n as Pn. pose proof red_K as PK.
    assert (Br : Rabs (Sum N (fun k => double_value (ent g (S i) k))) <= A) by (eapply Rle_trans; [apply Rsum_abs|]; apply (rowle (S i)); lia).
    assert (Bc : Rabs (Sum N (fun k => double_value (ent g k (S j)))) <= A) by (eapply Rle_trans; [apply Rsum_abs|]; apply (colle (S j)); lia).
    assert (Bg : Rabs (double_value (ent g (S i) (S j))) <= A).
    { eapply Rle_trans; [|apply (rowle (S i)); lia]. apply (Rsum_member (seq 0 N) (fun k => Rabs (ent G (S i) k)) (S j)); [apply in_seq; lia|intros; apply Rabs_pos]. }
    pose proof red_EK as EK. destruct (moderate_tiny A Md) as (T2 & T1).
    unfold z, neutral_capacitance. change (nr G) with N. replace (nc G) with N by (symmetry; exact Sq). rewrite Sq. fold N T. change (ent G (S i)) with (fun k => double_value (ent g (S i) k)).
    cbn beta. change (Sum N (fun k => ent G k (S j))) with (Sum N (fun k => double_value (ent g k (S j)))).
    set (r := Sum N (fun k => double_value (ent g (S i) k))) in *. set (c := Sum N (fun k => double_value (ent g k (S j)))) in *.
    set (fr := sum_upto N (fun k => ent g (S i) k)) in *. set (fc := sum_upto N (fun k => ent g k (S j))) in *.
    pose proof (est_rc' roundoff A n r c (double_value fr) (double_value fc) U PA Pn K PK Sm Br Bc Er Ec) as Brc.
    assert (Np : is_number (fr * fc)%float).
    { apply mul_number; [exact Nr|exact Nc|]. eapply Rle_trans; [exact Brc|]. apply huge_bound; destruct Md; lra. }
    destruct (mul_value _ _ Np) as (_ & _ & d & e & Hd & He & Ep).
    assert (Ep' : Rabs (double_value (fr * fc)%float - double_value fr * double_value fc) <= roundoff * Rabs (double_value fr * double_value fc) + roundoff * (A * A)).
    { rewrite Ep. replace (double_value fr * double_value fc * (1 + d) + e - double_value fr * double_value fc) with (d * (double_value fr * double_value fc) + e) by ring.
      eapply Rle_trans; [apply Rabs_triang|]. rewrite (Rabs_mult d). apply Rplus_le_compat; [|lra]. apply Rmult_le_compat_r; [apply Rabs_pos|exact Hd]. }
    pose proof (est_t'0 roundoff A T n (double_value den) HT K EK Sm Ed) as D0.
    assert (Bq : Rabs (double_value (fr * fc)%float / double_value den) <= 7 / 2 * K * A).
    { eapply est_pt with (u := roundoff) (T := T) (n := n) (r := r) (c := c); eassumption. }
    assert (Nq : is_number (fr * fc / den)%float).
    { apply div_number; [exact Np|exact D0|]. eapply Rle_trans; [exact Bq|]. rewrite huge_eq. pose proof red_KA as B.
      apply Rle_trans with (2 ^ 2 * (2 ^ 400 * 2 ^ 400)); [cbn [pow] in *; nra|]. rewrite <- !pow_add. apply Rle_pow; [lra|lia]. }
    destruct (div_value _ _ Nq Nd) as (_ & _ & d2 & e2 & Hd2 & He2 & Eq).
    assert (Eq' : Rabs (double_value (fr * fc / den)%float - double_value (fr * fc)%float / double_value den) <= roundoff * Rabs (double_value (fr * fc)%float / double_value den) + roundoff * A).
    { rewrite Eq. set (x := double_value (fr * fc)%float / double_value den). replace (x * (1 + d2) + e2 - x) with (d2 * x + e2) by ring.
      eapply Rle_trans; [apply Rabs_triang|]. rewrite (Rabs_mult d2). apply Rplus_le_compat; [|lra]. apply Rmult_le_compat_r; [apply Rabs_pos|exact Hd2]. }
    assert (Bqq : Rabs (double_value (fr * fc / den)%float) <= 5 * K * A).
    { eapply est_q with (u := roundoff) (T := T) (n := n) (r := r) (c := c); eassumption. }
    assert (Nz : is_number (ent g (S i) (S j) - fr * fc / den)%float).
    { apply sub_number; [apply Nu; lia|exact Nq|]. unfold Rminus. eapply Rle_trans; [apply Rabs_triang|]. rewrite Rabs_Ropp. rewrite huge_eq. pose proof red_KA as B.
      apply Rle_trans with (2 ^ 3 * (2 ^ 400 * 2 ^ 400)); [|rewrite <- !pow_add; apply Rle_pow; [lra|lia]].
      assert (A <= K * A) by nra. set (h := 2 ^ 400) in *. cbn [pow]. lra. }
    destruct (sub_value _ _ Nz) as (_ & _ & d3 & Hd3 & Ez).
    split; [exact Nz|].
    eapply estimate with (T := T) (r' := double_value fr) (c' := double_value fc) (t' := double_value den) (p := double_value (fr * fc)%float) (q := double_value (fr * fc / den)%float); try eassumption.
    rewrite Ez. match goal with |- Rabs (?y * _ - _) <= _ => set (x := y) end. replace (x * (1 + d3) - x) with (d3 * x) by ring. rewrite Rabs_mult. apply Rmult_le_compat_r; [apply Rabs_pos|exact Hd3].
  Qed.
End Reduction.

(** ** Constants *)
Lemma pi_bounds : 28296951008113761 / 36028797018963968 <= PI / 4 <= 28296951008113762 / 36028797018963968.
Proof.
  destruct (PI_2_3_7_ineq 8) as (A & B). revert A B. unfold tg_alt, PI_2_3_7_tg, Ratan_seq.
  replace (S (2 * 8)) with 17%nat by reflexivity. replace (2 * 8)%nat with 16%nat by reflexivity.
  cbn [sum_f_R0 Nat.mul Nat.add]. rewrite !INR_IZR_INZ. cbn [Z.of_nat Pos.of_succ_nat Pos.succ].
  intros A B; split; lra.
Qed.
Definition constant (s : bool) (m : positive) (e : positive) : R := (if s then -1 else 1) * IZR (Zpos m) / IZR (Zpower_pos 2 e).
Lemma constant_value x s m e : Prim2SF x = S754_finite s m (Zneg e) -> is_number x /\ double_value x = constant s m e.
Proof.
  intros E. unfold is_number, double_value, constant. rewrite E. split; [exact I|]. cbn [powerRZ]. unfold Rdiv. f_equal. f_equal.
  change (2 ^ Pos.to_nat e) with (powerRZ (IZR 2) (Zpos e)). now rewrite <- Zpower_pos_powerRZ.
Qed.
Lemma within_1 x y : is_number x -> Rabs (double_value x - y) <= roundoff * Rabs y -> within 1 x y.
Proof. intros N H. split; [exact N|]. now rewrite roundings_1. Qed.
Lemma roundoff_eq : roundoff = 1 / 9007199254740992. Proof. unfold roundoff. cbn [pow]. lra. Qed.
Lemma abs_between x b : - b <= x <= b -> Rabs x <= b. Proof. intros. now apply Rabs_le. Qed.
Lemma eps0_double : within 1 (EPSILON0_SI (T := float)) eps0.
Proof.
  pose proof (constant_value (EPSILON0_SI (T := float))) as H.
  destruct (Prim2SF (EPSILON0_SI (T := float))) as [| | |s m [|e|e]] eqn:E; vm_compute in E; try discriminate. injection E as <- <- <-.
  destruct (H _ _ _ eq_refl) as (N & V). apply within_1; [exact N|]. rewrite V, roundoff_eq. unfold constant, eps0. 
  rewrite (Rabs_right (8.8541878176 * / 10 ^ 12)) by lra. apply abs_between. cbn [Zpower_pos]. cbv [Zpower_pos Pos.iter Z.mul Pos.mul]. split; lra.
Qed.
Lemma mu0_double : within 1 (MU0_SI (T := float)) mu0.
Proof.
  pose proof (constant_value (MU0_SI (T := float))) as H.
  destruct (Prim2SF (MU0_SI (T := float))) as [| | |s m [|e|e]] eqn:E; vm_compute in E; try discriminate. injection E as <- <- <-.
  destruct (H _ _ _ eq_refl) as (N & V). apply within_1; [exact N|]. rewrite V, roundoff_eq. unfold constant, mu0. pose proof pi_bounds as B.
  rewrite (Rabs_right (4 * PI * / 10 ^ 7)) by lra. apply abs_between. cbv [Zpower_pos Pos.iter Z.mul Pos.mul]. split; lra.
Qed.

(** ** Scaling and in-cell parameters *)
Lemma safe_range x a b : 0 < a -> a <= Rabs x <= b -> / 2 ^ 1000 <= a -> b <= 2 ^ 1000 -> safe x.
Proof.
  intros P (L & H) La Hb. right. rewrite huge_eq. split; [|lra]. rewrite Core.Raux.bpow_opp. change (Core.Raux.bpow Core.Zaux.radix2 1000) with huge. rewrite huge_eq. lra.
Qed.
Lemma pow2_split a b : 2 ^ (a + b) = 2 ^ a * 2 ^ b. Proof. apply pow_add. Qed.
Lemma eps0_range : / 2 ^ 100 <= eps0 <= 1.
Proof. unfold eps0. split; [|lra]. apply Rle_trans with (/ 2 ^ 40); [apply Rinv_le_contravar; [lra|]; apply Rle_pow; [lra|lia]|lra]. Qed.
Lemma mu0_range : / 2 ^ 100 <= mu0 <= 1.
Proof. unfold mu0. pose proof pi_bounds. split; [|lra]. apply Rle_trans with (/ 2 ^ 40); [apply Rinv_le_contravar; [lra|]; apply Rle_pow; [lra|lia]|lra]. Qed.
Lemma d_small d : Rabs d <= roundoff -> 1 / 2 <= Rabs (1 + d) <= 2.
Proof. intros H. pose proof roundoff_small. destruct (Core.Raux.Rabs_le_inv _ _ H). rewrite Rabs_right; lra. Qed.
(** x within k of y (not too far from 1), times a constant within 1 of c *)
Lemma times_constant (w : float) (c : R) (x : float) y k : within 1 w c -> / 2 ^ 100 <= c <= 1 -> within k x y -> roundings k <= 1 / 2 ->
  y = 0 \/ / 2 ^ 850 <= Rabs y <= 2 ^ 850 -> within (k + 2) (x * w)%float (c * y).
Proof.
  intros Ww Rc Wx Hk Hy. apply within_iff in Ww as (Nw & d & Hd & Ew). apply within_iff in Wx as (Nx & e & He & Ex). rewrite roundings_1 in Hd.
  assert (Pc : 0 < c). { pose proof (pow_lt 2 100 ltac:(lra)). assert (0 < / 2 ^ 100) by now apply Rinv_0_lt_compat. lra. }
  assert (Sf : safe (double_value x * double_value w)).
  { rewrite Ew, Ex. destruct Hy as [-> | Hy]; [left; ring|].
    assert (A1 : 1 / 2 <= Rabs (1 + e) <= 2). { destruct (Core.Raux.Rabs_le_inv _ _ He). rewrite Rabs_right; lra. }
    pose proof (d_small _ Hd) as A2.
    set (h := / 2 ^ 850) in *. assert (Ph : 0 < h) by (apply Rinv_0_lt_compat, pow_lt; lra). set (h' := / 2 ^ 100) in *. assert (Ph' : 0 < h') by (apply Rinv_0_lt_compat, pow_lt; lra).
    apply safe_range with (h * (1 / 2) * (h' * (1 / 2))) (2 ^ 850 * 2 * (1 * 2)).
    - repeat apply Rmult_lt_0_compat; lra.
    - rewrite !Rabs_mult, (Rabs_right c) by lra. split.
      + apply Rmult_le_compat; try (apply Rmult_le_compat; lra); apply Rmult_le_pos; lra.
      + apply Rmult_le_compat; try (apply Rmult_le_compat; try lra; apply Rabs_pos); apply Rmult_le_pos; try lra; apply Rabs_pos.
    - unfold h, h'. replace (/ 2 ^ 850 * (1 / 2) * (/ 2 ^ 100 * (1 / 2))) with (/ 2 ^ (850 + 100 + 2)).
      + apply Rinv_le_contravar; [apply pow_lt; lra|]. apply Rle_pow; [lra|lia].
      + rewrite !pow2_split. pose proof (pow_lt 2 850 ltac:(lra)). pose proof (pow_lt 2 100 ltac:(lra)). set (a := 2 ^ 850) in *. set (b := 2 ^ 100) in *. cbn [pow]. field. lra.
    - replace (2 ^ 850 * 2 * (1 * 2)) with (2 ^ (850 + 2)) by (rewrite pow2_split; set (a := 2 ^ 850); cbn [pow]; ring). apply Rle_pow; [lra|lia]. }
  destruct (mul_relative _ _ Nx Nw Sf) as (N & f & Hf & Ef). apply within_iff. split; [exact N|]. rewrite <- roundings_1 in Hd, Hf.
  destruct (compose _ _ _ _ He Hd) as (p & Hp & Ep). destruct (compose _ _ _ _ Hp Hf) as (q & Hq & Eq).
  exists q. replace (k + 2)%nat with (k + 1 + 1)%nat by lia. split; [exact Hq|]. rewrite Ef, Ew, Ex, <- Eq, <- Ep. ring.
Qed.
Lemma roundings_small k : (k <= 8)%nat -> roundings k <= 1 / 2.
Proof.
  intros L. pose proof roundoff_small. pose proof roundoff_pos. assert (INR k <= 8) by (replace 8 with (INR 8) by (cbn; lra); now apply le_INR). pose proof (pos_INR k).
  assert (INR k * roundoff <= 8 * roundoff) by (apply Rmult_le_compat_r; lra).
  pose proof (roundings_le k ltac:(lra)). lra.
Qed.
Lemma within_refl x : is_number x -> within 0 x (double_value x).
Proof. intros N. split; [exact N|]. replace (double_value x - double_value x) with 0 by ring. rewrite Rabs_R0. apply Rmult_le_pos; [apply roundings_pos|apply Rabs_pos]. Qed.
Lemma moderate_wide x : zero_or_moderate x -> x = 0 \/ / 2 ^ 850 <= Rabs x <= 2 ^ 850.
Proof.
  intros [-> | (L & H)]; [now left|]. right. split.
  - eapply Rle_trans; [|exact L]. apply Rinv_le_contravar; [apply pow_lt; lra|]. apply Rle_pow; [lra|lia].
  - eapply Rle_trans; [exact H|]. apply Rle_pow; [lra|lia].
Qed.
Lemma scaled_entry (w : float) c (x : float) : within 1 w c -> / 2 ^ 100 <= c <= 1 -> is_number x -> zero_or_moderate (double_value x) -> within 2 (x * w)%float (c * double_value x).
Proof. intros W R N M. apply (times_constant w c x _ 0 W R (within_refl x N)); [apply roundings_small; lia|now apply moderate_wide]. Qed.
(** a quotient of moderate numbers, one of them rounded once *)
Lemma safe_quotient a b d e : zero_or_moderate a -> moderate (Rabs b) -> Rabs d <= roundoff -> Rabs e <= roundings 2 -> safe (a * (1 + d) / b * (1 + e)) /\ (a / b = 0 \/ / 2 ^ 850 <= Rabs (a / b) <= 2 ^ 850).
Proof.
  intros Ha (Lb & Hb) Hd He. pose proof (roundings_small 2 ltac:(lia)) as R2.
  assert (A1 : 1 / 2 <= Rabs (1 + e) <= 2). { destruct (Core.Raux.Rabs_le_inv _ _ He). rewrite Rabs_right; lra. }
  pose proof (d_small _ Hd) as A2. pose proof (pow_lt 2 400 ltac:(lra)) as P4. set (h := 2 ^ 400) in *. assert (Ph : 0 < / h) by now apply Rinv_0_lt_compat.
  assert (Pb : 0 < Rabs b) by lra. assert (Nb : b <> 0) by (intros ->; rewrite Rabs_R0 in Pb; lra).
  assert (B1 : / h <= / Rabs b <= h).
  { split; [apply Rinv_le_contravar; lra|]. rewrite <- (Rinv_inv h). apply Rinv_le_contravar; lra. }
  destruct Ha as [-> | (La & Ha)]; [split; [left|left]; field; exact Nb|]. fold h in La, Ha.
  assert (Q : / h * / h <= Rabs (a / b) <= h * h). { unfold Rdiv. rewrite Rabs_mult, Rabs_inv. split; apply Rmult_le_compat; lra. }
  assert (Hh : h * h = 2 ^ 800) by (unfold h; rewrite <- pow_add; reflexivity).
  assert (Hi : / h * / h = / 2 ^ 800) by (rewrite <- Hh; field; lra). rewrite Hh, Hi in Q. pose proof (pow_lt 2 800 ltac:(lra)) as P8. clearbody h. split.
  - replace (a * (1 + d) / b * (1 + e)) with (a / b * (1 + d) * (1 + e)) by (field; exact Nb). set (g := / 2 ^ 800) in *. assert (Pg : 0 < g) by now apply Rinv_0_lt_compat.
    apply safe_range with (g * (1 / 2) * (1 / 2)) (2 ^ 800 * 2 * 2).
    + repeat apply Rmult_lt_0_compat; lra.
    + rewrite !Rabs_mult. split.
      * repeat apply Rmult_le_compat; try apply Rmult_le_pos; lra.
      * repeat apply Rmult_le_compat; try apply Rmult_le_pos; try apply Rabs_pos; lra.
    + unfold g. replace (/ 2 ^ 800 * (1 / 2) * (1 / 2)) with (/ 2 ^ (800 + 2)).
      * apply Rinv_le_contravar; [apply pow_lt; lra|]. apply Rle_pow; [lra|lia].
      * rewrite pow2_split. set (b8 := 2 ^ 800) in *. cbn [pow]. field. lra.
    + replace (2 ^ 800 * 2 * 2) with (2 ^ (800 + 2)) by (rewrite pow2_split; set (b8 := 2 ^ 800); cbn [pow]; ring). apply Rle_pow; [lra|lia].
  - right. split; [eapply Rle_trans; [|apply Q]; apply Rinv_le_contravar; [exact P8|]; apply Rle_pow; [lra|lia]|eapply Rle_trans; [apply Q|]; apply Rle_pow; [lra|lia]].
Qed.
Lemma moderate_huge x : moderate (Rabs x) -> Rabs x <= huge.
Proof. intros (_ & H). rewrite huge_eq. eapply Rle_trans; [exact H|]. apply Rle_pow; [lra|lia]. Qed.
Lemma difference (v a : float) : is_number v -> is_number a -> moderate (Rabs (double_value v - double_value a)) ->
  is_number (- a + v)%float /\ exists d, Rabs d <= roundoff /\ double_value (- a + v)%float = (double_value v - double_value a) * (1 + d).
Proof.
  intros Nv Na M. destruct (opp_value a Na) as (No & Eo). assert (E : double_value (- a)%float + double_value v = double_value v - double_value a) by (rewrite Eo; ring).
  assert (N : is_number (- a + v)%float) by (apply add_number; try assumption; rewrite E; now apply moderate_huge).
  split; [exact N|]. destruct (add_value _ _ N) as (_ & _ & d & Hd & Ed). exists d. split; [exact Hd|]. now rewrite Ed, E.
Qed.
Lemma in_cell_C (Q v a : float) : is_number Q -> is_number v -> is_number a -> zero_or_moderate (double_value Q) -> moderate (Rabs (double_value v - double_value a)) ->
  within 5 (Q / (- a + v) * EPSILON0_SI)%float (eps0 * (double_value Q / (double_value v - double_value a))).
Proof.
  intros NQ Nv Na MQ MD. destruct (difference v a Nv Na MD) as (Ns & d & Hd & Ed). set (s := (- a + v)%float) in *. set (D := double_value v - double_value a) in *.
  destruct (inverse_of d Hd) as (e & He & Ee & Nd). assert (ND : D <> 0). { intros Z. rewrite Z, Rabs_R0 in MD. pose proof (moderate_pos _ MD). lra. }
  destruct (safe_quotient (double_value Q) D 0 e MQ MD ltac:(rewrite Rabs_R0; pose proof roundoff_pos; lra) He) as (Sf & Wd).
  replace (double_value Q * (1 + 0) / D * (1 + e)) with (double_value Q / double_value s) in Sf by (rewrite Ed, <- Ee; field; auto).
  destruct (div_relative Q s NQ ltac:(rewrite Ed; now apply Rmult_integral_contrapositive_currified) Sf) as (Nq & f & Hf & Ef).
  apply (times_constant _ _ _ _ 3 eps0_double eps0_range); [|apply roundings_small; lia|exact Wd].
  apply within_iff. split; [exact Nq|]. rewrite <- roundings_1 in Hf. destruct (compose _ _ _ _ He Hf) as (p & Hp & Ep). exists p. split; [exact Hp|].
  rewrite Ef, Ed, <- Ep, <- Ee. field. auto.
Qed.
Lemma in_cell_L (I v a : float) : is_number I -> is_number v -> is_number a -> moderate (Rabs (double_value I)) -> moderate (Rabs (double_value v - double_value a)) ->
  within 4 ((- a + v) / I * MU0_SI)%float (mu0 * ((double_value v - double_value a) / double_value I)).
Proof.
  intros NQ Nv Na MQ MD. destruct (difference v a Nv Na MD) as (Ns & d & Hd & Ed). set (s := (- a + v)%float) in *. set (D := double_value v - double_value a) in *.
  assert (ND : double_value I <> 0). { intros Z. rewrite Z, Rabs_R0 in MQ. pose proof (moderate_pos _ MQ). lra. }
  destruct (safe_quotient D (double_value I) d 0 (or_intror MD) MQ Hd ltac:(rewrite Rabs_R0; apply roundings_pos)) as (Sf & Wd).
  replace (D * (1 + d) / double_value I * (1 + 0)) with (double_value s / double_value I) in Sf by (rewrite Ed; ring).
  destruct (div_relative s I Ns ND Sf) as (Nq & f & Hf & Ef).
  apply (times_constant _ _ _ _ 2 mu0_double mu0_range); [|apply roundings_small; lia|exact Wd].
  apply within_iff. split; [exact Nq|]. rewrite <- roundings_1 in Hf, Hd. destruct (compose _ _ _ _ Hd Hf) as (p & Hp & Ep). exists p. split; [exact Hp|].
  rewrite Ef, Ed, <- Ep. field. auto.
Qed.
Lemma unit_minus_zero : (1 - 0)%float = 1%float.
Proof. reflexivity. Qed.
Lemma inverse_times_mu0 (a : float) : is_number a -> moderate (Rabs (double_value a)) ->
  within 3 (1 / a * MU0_SI)%float (mu0 / double_value a).
Proof.
  intros Na Ma. assert (NZ : double_value a <> 0). { intros Z. rewrite Z, Rabs_R0 in Ma. pose proof (moderate_pos _ Ma). lra. }
  assert (V1 : double_value 1%float = 1).
  { rewrite (proj2 (constant_value 1%float false 4503599627370496 52 eq_refl)). unfold constant. cbv [Zpower_pos Pos.iter Z.mul Pos.mul]. lra. }
  assert (M1 : moderate (Rabs 1)). { rewrite Rabs_R1. pose proof (pow_R1_Rle 2 400 ltac:(lra)). split; [rewrite <- Rinv_1; apply Rinv_le_contravar; lra|lra]. }
  destruct (safe_quotient 1 (double_value a) 0 0 (or_intror M1) Ma ltac:(rewrite Rabs_R0; pose proof roundoff_pos; lra) ltac:(rewrite Rabs_R0; apply roundings_pos)) as (Sf & Wd).
  replace (1 * (1 + 0) / double_value a * (1 + 0)) with (double_value 1%float / double_value a) in Sf by (rewrite V1; field; auto).
  destruct (div_relative 1%float a I NZ Sf) as (Nq & f & Hf & Ef).
  replace (mu0 / double_value a) with (mu0 * (1 / double_value a)) by (field; auto).
  apply (times_constant _ _ _ _ 1 mu0_double mu0_range); [|apply roundings_small; lia|exact Wd].
  apply within_iff. split; [exact Nq|]. exists f. rewrite roundings_1. split; [exact Hf|]. now rewrite Ef, V1.
Qed.
