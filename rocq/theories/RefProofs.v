(** The reference elements of the orders 1, 2 and 3 satisfy what is required of reference elements. *)
From Coq Require Import Reals Lra Ranalysis1.
From Verif Require Import Prelude ModelM Matrix Solver Fem RSum ListLemmas SpecFem SpecTriangles SpecElements Triangles Elements RefElements.
Open Scope R_scope.
Open Scope list_scope.

(** ** Rules *)
Lemma poly_times rule n a (g : R * R -> R) :
  Rsum rule (fun q : R * R * R => snd q * (poly n a (fst q) * g (fst q))) =
  Sum (S n) (fun i => Sum (S (n - i)) (fun j => a i j * Rsum rule (fun q => snd q * (fst (fst q) ^ i * snd (fst q) ^ j * g (fst q))))).
Proof.
  transitivity (Rsum rule (fun q : R * R * R => Sum (S n) (fun i => Sum (S (n - i)) (fun j => a i j * (snd q * (fst (fst q) ^ i * snd (fst q) ^ j * g (fst q))))))).
  - apply Rsum_ext. intros q _. unfold poly. set (w := snd q). set (h := g (fst q)).
    rewrite (Rmult_comm _ h), <- Rmult_assoc, <- (Sum_scal (S n) (w * h)). apply Sum_ext. intros i _. rewrite <- (Sum_scal _ (w * h)). apply Sum_ext. intros j _. ring.
  - unfold Sum. rewrite Rsum_exchange. apply Rsum_ext. intros i _. rewrite Rsum_exchange. apply Rsum_ext. intros j _. now rewrite <- Rsum_scal.
Qed.
Lemma same_products n rule rule' a b : exact_to (2 * n) rule -> exact_to (2 * n) rule' ->
  Rsum rule (fun q => snd q * (poly n a (fst q) * poly n b (fst q))) = Rsum rule' (fun q => snd q * (poly n a (fst q) * poly n b (fst q))).
Proof.
  intros E E'. rewrite !poly_times. apply Sum_ext. intros i Li. apply Sum_ext. intros j Lj. f_equal.
  assert (K : forall r, Rsum r (fun q : R * R * R => snd q * (fst (fst q) ^ i * snd (fst q) ^ j * poly n b (fst q))) =
    Sum (S n) (fun i' => Sum (S (n - i')) (fun j' => b i' j' * Rsum r (fun q => snd q * (fst (fst q) ^ (i' + i) * snd (fst q) ^ (j' + j)))))).
  { intros r. transitivity (Rsum r (fun q : R * R * R => snd q * (poly n b (fst q) * (fst (fst q) ^ i * snd (fst q) ^ j)))); [apply Rsum_ext; intros; ring|].
    rewrite (poly_times r n b (fun p => fst p ^ i * snd p ^ j)). apply Sum_ext. intros i' _. apply Sum_ext. intros j' _. f_equal. apply Rsum_ext. intros q _. rewrite !pow_add. ring. }
  rewrite !K. apply Sum_ext. intros i' Li'. apply Sum_ext. intros j' Lj'. f_equal. rewrite E, E' by lia. reflexivity.
Qed.

(** ** Derivatives *)
Lemma D_eq f d d' : derivable_pt_lim f 0 d -> d = d' -> derivable_pt_lim f 0 d'.
Proof. now intros ? <-. Qed.
Lemma D_dot fs ds z : Forall2 (fun f d => derivable_pt_lim f 0 d) fs ds -> derivable_pt_lim (fun t => dot (map (fun f => f t) fs) z) 0 (dot ds z).
Proof.
  intros F. revert z; induction F as [|f d fs ds H F IH]; intros z; [exact (derivable_pt_lim_const 0 0)|].
  destruct z as [|y z]; [exact (derivable_pt_lim_const 0 0)|]. cbn [map dot].
  eapply D_eq; [apply derivable_pt_lim_plus; [apply derivable_pt_lim_mult; [exact H|exact (derivable_pt_lim_const y 0)]|apply IH]|]. unfold fct_cte. cbn [nadd nmul RNum]. ring.
Qed.
Ltac dd :=
  lazymatch goal with
  | |- derivable_pt_lim (fun t => t) 0 _ => exact (derivable_pt_lim_id 0)
  | |- derivable_pt_lim (fun t => @?f t + @?g t) 0 _ => refine (derivable_pt_lim_plus f g 0 _ _ _ _); cbv beta; dd
  | |- derivable_pt_lim (fun t => @?f t - @?g t) 0 _ => refine (derivable_pt_lim_minus f g 0 _ _ _ _); cbv beta; dd
  | |- derivable_pt_lim (fun t => @?f t * @?g t) 0 _ => refine (derivable_pt_lim_mult f g 0 _ _ _ _); cbv beta; dd
  | |- derivable_pt_lim (fun t => - @?f t) 0 _ => refine (derivable_pt_lim_opp f 0 _ _); cbv beta; dd
  | |- derivable_pt_lim (fun _ => ?c) 0 _ => exact (derivable_pt_lim_const c 0)
  end.

(** ** Coefficients of the derivatives and fields (generated) *)
Definition hx1 (z0 z1 z2 : R) (i j : nat) : R :=
  match i, j with
  | 0%nat, 0%nat => (-1) * z0 + (1) * z1
  | _, _ => 0
  end.

Definition hy1 (z0 z1 z2 : R) (i j : nat) : R :=
  match i, j with
  | 0%nat, 0%nat => (-1) * z0 + (1) * z2
  | _, _ => 0
  end.

Definition nx1 (d0 d1 d2 : R) (i j : nat) : R :=
  match i, j with
  | 0%nat, 0%nat => (1) * d0
  | 0%nat, 1%nat => (-1) * d0 + (-1) * d1 + (-1) * d2
  | 1%nat, 0%nat => 0
  | _, _ => 0
  end.

Definition ny1 (d0 d1 d2 : R) (i j : nat) : R :=
  match i, j with
  | 0%nat, 0%nat => (-1) * d2
  | 0%nat, 1%nat => 0
  | 1%nat, 0%nat => (1) * d0 + (1) * d1 + (1) * d2
  | _, _ => 0
  end.

Definition hx2 (z0 z1 z2 z3 z4 z5 : R) (i j : nat) : R :=
  match i, j with
  | 0%nat, 0%nat => (-3) * z0 + (-1) * z1 + (4) * z3
  | 0%nat, 1%nat => (4) * z0 + (-4) * z3 + (4) * z4 + (-4) * z5
  | 1%nat, 0%nat => (4) * z0 + (4) * z1 + (-8) * z3
  | _, _ => 0
  end.

Definition hy2 (z0 z1 z2 z3 z4 z5 : R) (i j : nat) : R :=
  match i, j with
  | 0%nat, 0%nat => (-3) * z0 + (-1) * z2 + (4) * z5
  | 0%nat, 1%nat => (4) * z0 + (4) * z2 + (-8) * z5
  | 1%nat, 0%nat => (4) * z0 + (-4) * z3 + (4) * z4 + (-4) * z5
  | _, _ => 0
  end.

Definition nx2 (d0 d1 d2 d3 d4 d5 d6 d7 : R) (i j : nat) : R :=
  match i, j with
  | 0%nat, 0%nat => (1) * d0
  | 0%nat, 1%nat => (-2) * d0 + (-1) * d5 + (1) * d6 + (-1) * d7
  | 0%nat, 2%nat => (1) * d0 + (-1) * d3 + (-1) * d4 + (1) * d5 + (-1) * d6 + (1) * d7
  | 1%nat, 0%nat => (-1) * d0 + (1) * d1
  | 1%nat, 1%nat => (1) * d0 + (-1) * d1 + (-1) * d2 + (1) * d5 + (1) * d7
  | 2%nat, 0%nat => 0
  | _, _ => 0
  end.

Definition ny2 (d0 d1 d2 d3 d4 d5 d6 d7 : R) (i j : nat) : R :=
  match i, j with
  | 0%nat, 0%nat => (-1) * d5
  | 0%nat, 1%nat => (-1) * d4 + (1) * d5
  | 0%nat, 2%nat => 0
  | 1%nat, 0%nat => (1) * d0 + (2) * d5 + (1) * d7
  | 1%nat, 1%nat => (-1) * d0 + (1) * d3 + (1) * d4 + (-1) * d5 + (1) * d6 + (-1) * d7
  | 2%nat, 0%nat => (-1) * d0 + (1) * d1 + (1) * d2 + (-1) * d5 + (-1) * d7
  | _, _ => 0
  end.

Definition hx3 (z0 z1 z2 z3 z4 z5 z6 z7 z8 z9 : R) (i j : nat) : R :=
  match i, j with
  | 0%nat, 0%nat => (-11 / 2) * z0 + (1) * z1 + (9) * z3 + (-9 / 2) * z4
  | 0%nat, 1%nat => (18) * z0 + (-45 / 2) * z3 + (9 / 2) * z4 + (-9 / 2) * z5 + (-9 / 2) * z6 + (9 / 2) * z7 + (-45 / 2) * z8 + (27) * z9
  | 0%nat, 2%nat => (-27 / 2) * z0 + (27 / 2) * z3 + (27 / 2) * z6 + (-27 / 2) * z7 + (27) * z8 + (-27) * z9
  | 1%nat, 0%nat => (18) * z0 + (-9) * z1 + (-45) * z3 + (36) * z4
  | 1%nat, 1%nat => (-27) * z0 + (54) * z3 + (-27) * z4 + (27) * z5 + (27) * z8 + (-54) * z9
  | 2%nat, 0%nat => (-27 / 2) * z0 + (27 / 2) * z1 + (81 / 2) * z3 + (-81 / 2) * z4
  | _, _ => 0
  end.

Definition hy3 (z0 z1 z2 z3 z4 z5 z6 z7 z8 z9 : R) (i j : nat) : R :=
  match i, j with
  | 0%nat, 0%nat => (-11 / 2) * z0 + (1) * z2 + (-9 / 2) * z7 + (9) * z8
  | 0%nat, 1%nat => (18) * z0 + (-9) * z2 + (36) * z7 + (-45) * z8
  | 0%nat, 2%nat => (-27 / 2) * z0 + (27 / 2) * z2 + (-81 / 2) * z7 + (81 / 2) * z8
  | 1%nat, 0%nat => (18) * z0 + (-45 / 2) * z3 + (9 / 2) * z4 + (-9 / 2) * z5 + (-9 / 2) * z6 + (9 / 2) * z7 + (-45 / 2) * z8 + (27) * z9
  | 1%nat, 1%nat => (-27) * z0 + (27) * z3 + (27) * z6 + (-27) * z7 + (54) * z8 + (-54) * z9
  | 2%nat, 0%nat => (-27 / 2) * z0 + (27) * z3 + (-27 / 2) * z4 + (27 / 2) * z5 + (27 / 2) * z8 + (-27) * z9
  | _, _ => 0
  end.

Definition nx3 (d0 d1 d2 d3 d4 d5 d6 d7 d8 d9 d10 d11 d12 d13 d14 : R) (i j : nat) : R :=
  match i, j with
  | 0%nat, 0%nat => (1) * d0
  | 0%nat, 1%nat => (-3) * d0 + (-1) * d8 + (1) * d9 + (-1) * d12
  | 0%nat, 2%nat => (3) * d0 + (-1) * d7 + (2) * d8 + (-2) * d9 + (1) * d11 + (2) * d12 + (-1) * d14
  | 0%nat, 3%nat => (-1) * d0 + (-1) * d5 + (-1) * d6 + (1) * d7 + (-1) * d8 + (1) * d9 + (-1) * d11 + (-1) * d12 + (1) * d14
  | 1%nat, 0%nat => (-2) * d0 + (1) * d1
  | 1%nat, 1%nat => (4) * d0 + (-2) * d1 + (2) * d8 + (-1) * d9 + (1) * d10 + (2) * d12 + (-1) * d13
  | 1%nat, 2%nat => (-2) * d0 + (1) * d1 + (-1) * d4 + (1) * d7 + (-2) * d8 + (1) * d9 + (-1) * d10 + (-2) * d12 + (1) * d13 + (1) * d14
  | 2%nat, 0%nat => (1) * d0 + (-1) * d1 + (1) * d2
  | 2%nat, 1%nat => (-1) * d0 + (1) * d1 + (-1) * d2 + (-1) * d3 + (-1) * d8 + (-1) * d12 + (1) * d13
  | 3%nat, 0%nat => 0
  | _, _ => 0
  end.

Definition ny3 (d0 d1 d2 d3 d4 d5 d6 d7 d8 d9 d10 d11 d12 d13 d14 : R) (i j : nat) : R :=
  match i, j with
  | 0%nat, 0%nat => (-1) * d8
  | 0%nat, 1%nat => (-1) * d7 + (2) * d8
  | 0%nat, 2%nat => (-1) * d6 + (1) * d7 + (-1) * d8
  | 0%nat, 3%nat => 0
  | 1%nat, 0%nat => (1) * d0 + (3) * d8 + (1) * d12
  | 1%nat, 1%nat => (-2) * d0 + (2) * d7 + (-4) * d8 + (1) * d9 + (-2) * d12 + (1) * d14
  | 1%nat, 2%nat => (1) * d0 + (1) * d5 + (1) * d6 + (-1) * d7 + (1) * d8 + (-1) * d9 + (1) * d11 + (1) * d12 + (-1) * d14
  | 2%nat, 0%nat => (-2) * d0 + (1) * d1 + (-3) * d8 + (-2) * d12 + (1) * d13
  | 2%nat, 1%nat => (2) * d0 + (-1) * d1 + (1) * d4 + (-1) * d7 + (2) * d8 + (-1) * d9 + (1) * d10 + (2) * d12 + (-1) * d13 + (-1) * d14
  | 3%nat, 0%nat => (1) * d0 + (-1) * d1 + (1) * d2 + (1) * d3 + (1) * d8 + (1) * d12 + (-1) * d13
  | _, _ => 0
  end.


(** ** Computation *)
Ltac unf := unfold local, applied in *; cbn [re_rule1 re_rule0 re_rule2 re_side re_inner re_side_nd re_inner_nd re_h1 re_h1x re_h1y re_ndx re_ndy re_seg re_flux re_side_grad re_inner_grad linear quadratic cubic] in *;
  unfold cubic_grad, halves, at_point, comp_x, comp_y, quad_vertex, quad_vertex', quad_side, quad_side', quad_nd, cubic_vertex, cubic_vertex', cubic_side, cubic_side', cubic_inner, cubic_inner', cubic_nd, cubic_grad, nq in *;
  cbn [map dot app rev List.length fst snd repeat Nat.add] in *;
  cbn [nadd nsub nmul ndiv nopp n0 n1 nofZ RNum] in *.
Ltac take l n := lazymatch n with O => destruct l as [|? l]; [|discriminate] | S ?m => destruct l as [|? l]; [discriminate|]; take l m end.

Section Rules.
  Variable rule1 : list (R * R).
  Variable rule0 rule2 : list (R * R * R).
  Lemma hx1_poly p z0 z1 z2 : dot (re_h1x (linear rule1 rule0 rule2) p) [z0; z1; z2] = poly 0 (hx1 z0 z1 z2) p.
  Proof. unf. unfold poly, Sum, Rsum, hx1. cbn. ring. Qed.
  Lemma hy1_poly p z0 z1 z2 : dot (re_h1y (linear rule1 rule0 rule2) p) [z0; z1; z2] = poly 0 (hy1 z0 z1 z2) p.
  Proof. unf. unfold poly, Sum, Rsum, hy1. cbn. ring. Qed.
  Lemma nx1_poly p d0 d1 d2 : dot (re_ndx (linear rule1 rule0 rule2) p) [d0; d1; d2] = poly 1 (nx1 d0 d1 d2) p.
  Proof. unf. unfold poly, Sum, Rsum, nx1. cbn. ring. Qed.
  Lemma ny1_poly p d0 d1 d2 : dot (re_ndy (linear rule1 rule0 rule2) p) [d0; d1; d2] = poly 1 (ny1 d0 d1 d2) p.
  Proof. unf. unfold poly, Sum, Rsum, ny1. cbn. ring. Qed.
  Lemma hx2_poly p z0 z1 z2 z3 z4 z5 : dot (re_h1x (quadratic rule1 rule0 rule2) p) [z0; z1; z2; z3; z4; z5] = poly 1 (hx2 z0 z1 z2 z3 z4 z5) p.
  Proof. unf. unfold poly, Sum, Rsum, hx2. cbn. ring. Qed.
  Lemma hy2_poly p z0 z1 z2 z3 z4 z5 : dot (re_h1y (quadratic rule1 rule0 rule2) p) [z0; z1; z2; z3; z4; z5] = poly 1 (hy2 z0 z1 z2 z3 z4 z5) p.
  Proof. unf. unfold poly, Sum, Rsum, hy2. cbn. ring. Qed.
  Lemma nx2_poly p d0 d1 d2 d3 d4 d5 d6 d7 : dot (re_ndx (quadratic rule1 rule0 rule2) p) [d0; d1; d2; d3; d4; d5; d6; d7] = poly 2 (nx2 d0 d1 d2 d3 d4 d5 d6 d7) p.
  Proof. unf. unfold poly, Sum, Rsum, nx2. cbn. ring. Qed.
  Lemma ny2_poly p d0 d1 d2 d3 d4 d5 d6 d7 : dot (re_ndy (quadratic rule1 rule0 rule2) p) [d0; d1; d2; d3; d4; d5; d6; d7] = poly 2 (ny2 d0 d1 d2 d3 d4 d5 d6 d7) p.
  Proof. unf. unfold poly, Sum, Rsum, ny2. cbn. ring. Qed.
  Lemma hx3_poly p z0 z1 z2 z3 z4 z5 z6 z7 z8 z9 :
    dot (re_h1x (cubic rule1 rule0 rule2) p) [z0; z1; z2; z3; z4; z5; z6; z7; z8; z9] = poly 2 (hx3 z0 z1 z2 z3 z4 z5 z6 z7 z8 z9) p.
  Proof. unf. unfold poly, Sum, Rsum, hx3. cbn. field. Qed.
  Lemma hy3_poly p z0 z1 z2 z3 z4 z5 z6 z7 z8 z9 :
    dot (re_h1y (cubic rule1 rule0 rule2) p) [z0; z1; z2; z3; z4; z5; z6; z7; z8; z9] = poly 2 (hy3 z0 z1 z2 z3 z4 z5 z6 z7 z8 z9) p.
  Proof. unf. unfold poly, Sum, Rsum, hy3. cbn. field. Qed.
  Lemma nx3_poly p d0 d1 d2 d3 d4 d5 d6 d7 d8 d9 d10 d11 d12 d13 d14 :
    dot (re_ndx (cubic rule1 rule0 rule2) p) [d0; d1; d2; d3; d4; d5; d6; d7; d8; d9; d10; d11; d12; d13; d14] = poly 3 (nx3 d0 d1 d2 d3 d4 d5 d6 d7 d8 d9 d10 d11 d12 d13 d14) p.
  Proof. unf. unfold poly, Sum, Rsum, nx3. cbn. ring. Qed.
  Lemma ny3_poly p d0 d1 d2 d3 d4 d5 d6 d7 d8 d9 d10 d11 d12 d13 d14 :
    dot (re_ndy (cubic rule1 rule0 rule2) p) [d0; d1; d2; d3; d4; d5; d6; d7; d8; d9; d10; d11; d12; d13; d14] = poly 3 (ny3 d0 d1 d2 d3 d4 d5 d6 d7 d8 d9 d10 d11 d12 d13 d14) p.
  Proof. unf. unfold poly, Sum, Rsum, ny3. cbn. ring. Qed.
End Rules.

Theorem linear_reference rule1 rule0 rule2 : rules_of_order 1 rule1 rule0 rule2 -> reference_ok (linear rule1 rule0 rule2).
Proof.
  intros [(R1 & R1s) (P0 & E0 & U0) (P2 & E2 & U2)]. change (2 * (1 - 1))%nat with 0%nat in *. change (1 - 1)%nat with 0%nat in *. constructor.
  - split; [intros p; repeat split|]. split; [intros s; split; reflexivity|split; reflexivity].
  - split; [exact R1|]. split; [exact R1s|]. split; [exact P0|exact P2].
  - intros z w d d' Lz Lw Hd Hd'. cbn in Lz, Lw. destruct z as [|z0 z]; [discriminate|]. destruct z as [|z1 z]; [discriminate|]. destruct z as [|z2 z]; [discriminate|]. destruct z; [|discriminate]. destruct w as [|w0 w]; [discriminate|]. destruct w as [|w1 w]; [discriminate|]. destruct w as [|w2 w]; [discriminate|]. destruct w; [|discriminate]. cbn [re_rule0 re_rule2 linear].
    assert (K : forall d, d = re_h1x (linear rule1 rule0 rule2) \/ d = re_h1y (linear rule1 rule0 rule2) -> forall z0 z1 z2 : R, exists a, forall p, dot (d p) [z0; z1; z2] = poly 0 a p).
    { intros g [-> | ->] ? ? ?; eexists; intros p; [apply hx1_poly|apply hy1_poly]. }
    destruct (K d Hd z0 z1 z2) as (a & Ha). destruct (K d' Hd' w0 w1 w2) as (b & Hb).
    rewrite (Rsum_ext rule0 _ (fun q => snd q * (poly 0 a (fst q) * poly 0 b (fst q)))) by (intros q _; now rewrite Ha, Hb).
    rewrite (Rsum_ext rule2 _ (fun q => snd q * (poly 0 a (fst q) * poly 0 b (fst q)))) by (intros q _; now rewrite Ha, Hb).
    exact (same_products 0 rule0 rule2 a b E0 E2).
  - intros z p u Lz. cbn in Lz. destruct z as [|z0 z]; [discriminate|]. destruct z as [|z1 z]; [discriminate|]. destruct z as [|z2 z]; [discriminate|]. destruct z; [|discriminate]. eapply D_eq; [unf; dd|unf; field].
  - intros p. unf. repeat split; field.
  - intros z Lz Z. cbn in Lz. destruct z as [|z0 z]; [discriminate|]. destruct z as [|z1 z]; [discriminate|]. destruct z as [|z2 z]; [discriminate|]. destruct z; [|discriminate].
    assert (A := U0 (hx1 z0 z1 z2)). assert (B := U0 (hy1 z0 z1 z2)).
    assert (A' : forall i j, (i + j <= 0)%nat -> hx1 z0 z1 z2 i j = 0) by (apply A; intros q J; rewrite <- (hx1_poly rule1 rule0 rule2); exact (proj1 (Z q J))).
    assert (B' : forall i j, (i + j <= 0)%nat -> hy1 z0 z1 z2 i j = 0) by (apply B; intros q J; rewrite <- (hy1_poly rule1 rule0 rule2); exact (proj2 (Z q J))).
    clear A B Z. pose proof (A' 0 0 ltac:(lia))%nat as A00. pose proof (B' 0 0 ltac:(lia))%nat as B00.
    unfold hx1 in *. unfold hy1 in *. exists z0. cbn [repeat Nat.add re_side re_inner linear]. clear A' B' R1 R1s P0 E0 U0 P2 E2 U2.
    assert (z1 = z0) as -> by lra. assert (z2 = z0) as -> by lra. reflexivity.
  - intros d Ld Z. cbn in Ld. destruct d as [|d0 d]; [discriminate|]. destruct d as [|d1 d]; [discriminate|]. destruct d as [|d2 d]; [discriminate|]. destruct d; [|discriminate].
    assert (A := U2 (nx1 d0 d1 d2)). assert (B := U2 (ny1 d0 d1 d2)).
    assert (A' : forall i j, (i + j <= 1)%nat -> nx1 d0 d1 d2 i j = 0) by (apply A; intros q J; rewrite <- (nx1_poly rule1 rule0 rule2); exact (proj1 (Z q J))).
    assert (B' : forall i j, (i + j <= 1)%nat -> ny1 d0 d1 d2 i j = 0) by (apply B; intros q J; rewrite <- (ny1_poly rule1 rule0 rule2); exact (proj2 (Z q J))).
    clear A B Z. pose proof (A' 0 0 ltac:(lia))%nat as A00. pose proof (B' 0 0 ltac:(lia))%nat as B00. pose proof (A' 0 1 ltac:(lia))%nat as A01. pose proof (B' 0 1 ltac:(lia))%nat as B01. pose proof (A' 1 0 ltac:(lia))%nat as A10. pose proof (B' 1 0 ltac:(lia))%nat as B10.
    unfold nx1 in *. unfold ny1 in *. cbn [repeat Nat.add re_side_nd re_inner_nd linear]. clear A' B' R1 R1s P0 E0 U0 P2 E2 U2.
    assert (d0 = 0) as -> by lra. assert (d1 = 0) as -> by lra. assert (d2 = 0) as -> by lra. reflexivity.
  - intros s a b c l0 l1 l2 l (L0 & L1 & L2 & L). cbn in L0, L1, L2, L. destruct l0; [|discriminate]. destruct l1; [|discriminate]. destruct l2; [|discriminate]. destruct l; [|discriminate].  unf. repeat split; field.
  - intros s a b l L. cbn in L. destruct l; [|discriminate].  unf. field.
  - intros z Lz Z. cbn in Lz. destruct z as [|z0 z]; [discriminate|]. destruct z as [|z1 z]; [discriminate|]. destruct z; [|discriminate]. pose proof (Z 0 ltac:(lra)) as Q0. pose proof (Z 1 ltac:(lra)) as Q1. clear Z R1 R1s P0 E0 U0 P2 E2 U2. unf. cbn [repeat Nat.add].
    assert (z0 = 0) as -> by lra. assert (z1 = 0) as -> by lra. reflexivity.
  - intros s l0 l1 l2 l (L0 & L1 & L2 & L). cbn in L0, L1, L2, L. destruct l0 as [|l0_0 l0]; [discriminate|]. destruct l0; [|discriminate]. destruct l1 as [|l1_0 l1]; [discriminate|]. destruct l1; [|discriminate]. destruct l2 as [|l2_0 l2]; [discriminate|]. destruct l2; [|discriminate]. destruct l; [|discriminate].  unf. repeat split; ring.
  - intros s l L. cbn in L. destruct l as [|l_0 l]; [discriminate|]. destruct l; [|discriminate].  unf. ring.
  - intros p a b c l0 l1 l2 l (L0 & L1 & L2 & L). cbn in L0, L1, L2, L. destruct l0; [|discriminate]. destruct l1; [|discriminate]. destruct l2; [|discriminate]. destruct l; [|discriminate].  unf. split; field.
  - intros a b l L. cbn in L. destruct l; [|discriminate].  unf. repeat (apply f_equal2; [field|]). reflexivity.
Qed.


Theorem quadratic_reference rule1 rule0 rule2 : rules_of_order 2 rule1 rule0 rule2 -> reference_ok (quadratic rule1 rule0 rule2).
Proof.
  intros [(R1 & R1s) (P0 & E0 & U0) (P2 & E2 & U2)]. change (2 * (2 - 1))%nat with 2%nat in *. change (2 - 1)%nat with 1%nat in *. constructor.
  - split; [intros p; repeat split|]. split; [intros s; split; reflexivity|split; reflexivity].
  - split; [exact R1|]. split; [exact R1s|]. split; [exact P0|exact P2].
  - intros z w d d' Lz Lw Hd Hd'. cbn in Lz, Lw. destruct z as [|z0 z]; [discriminate|]. destruct z as [|z1 z]; [discriminate|]. destruct z as [|z2 z]; [discriminate|]. destruct z as [|z3 z]; [discriminate|]. destruct z as [|z4 z]; [discriminate|]. destruct z as [|z5 z]; [discriminate|]. destruct z; [|discriminate]. destruct w as [|w0 w]; [discriminate|]. destruct w as [|w1 w]; [discriminate|]. destruct w as [|w2 w]; [discriminate|]. destruct w as [|w3 w]; [discriminate|]. destruct w as [|w4 w]; [discriminate|]. destruct w as [|w5 w]; [discriminate|]. destruct w; [|discriminate]. cbn [re_rule0 re_rule2 quadratic].
    assert (K : forall d, d = re_h1x (quadratic rule1 rule0 rule2) \/ d = re_h1y (quadratic rule1 rule0 rule2) -> forall z0 z1 z2 z3 z4 z5 : R, exists a, forall p, dot (d p) [z0; z1; z2; z3; z4; z5] = poly 1 a p).
    { intros g [-> | ->] ? ? ? ? ? ?; eexists; intros p; [apply hx2_poly|apply hy2_poly]. }
    destruct (K d Hd z0 z1 z2 z3 z4 z5) as (a & Ha). destruct (K d' Hd' w0 w1 w2 w3 w4 w5) as (b & Hb).
    rewrite (Rsum_ext rule0 _ (fun q => snd q * (poly 1 a (fst q) * poly 1 b (fst q)))) by (intros q _; now rewrite Ha, Hb).
    rewrite (Rsum_ext rule2 _ (fun q => snd q * (poly 1 a (fst q) * poly 1 b (fst q)))) by (intros q _; now rewrite Ha, Hb).
    exact (same_products 1 rule0 rule2 a b E0 E2).
  - intros z p u Lz. cbn in Lz. destruct z as [|z0 z]; [discriminate|]. destruct z as [|z1 z]; [discriminate|]. destruct z as [|z2 z]; [discriminate|]. destruct z as [|z3 z]; [discriminate|]. destruct z as [|z4 z]; [discriminate|]. destruct z as [|z5 z]; [discriminate|]. destruct z; [|discriminate]. eapply D_eq; [unf; dd|unf; field].
  - intros p. unf. repeat split; field.
  - intros z Lz Z. cbn in Lz. destruct z as [|z0 z]; [discriminate|]. destruct z as [|z1 z]; [discriminate|]. destruct z as [|z2 z]; [discriminate|]. destruct z as [|z3 z]; [discriminate|]. destruct z as [|z4 z]; [discriminate|]. destruct z as [|z5 z]; [discriminate|]. destruct z; [|discriminate].
    assert (A := U0 (hx2 z0 z1 z2 z3 z4 z5)). assert (B := U0 (hy2 z0 z1 z2 z3 z4 z5)).
    assert (A' : forall i j, (i + j <= 1)%nat -> hx2 z0 z1 z2 z3 z4 z5 i j = 0) by (apply A; intros q J; rewrite <- (hx2_poly rule1 rule0 rule2); exact (proj1 (Z q J))).
    assert (B' : forall i j, (i + j <= 1)%nat -> hy2 z0 z1 z2 z3 z4 z5 i j = 0) by (apply B; intros q J; rewrite <- (hy2_poly rule1 rule0 rule2); exact (proj2 (Z q J))).
    clear A B Z. pose proof (A' 0 0 ltac:(lia))%nat as A00. pose proof (B' 0 0 ltac:(lia))%nat as B00. pose proof (A' 0 1 ltac:(lia))%nat as A01. pose proof (B' 0 1 ltac:(lia))%nat as B01. pose proof (A' 1 0 ltac:(lia))%nat as A10. pose proof (B' 1 0 ltac:(lia))%nat as B10.
    unfold hx2 in *. unfold hy2 in *. exists z0. cbn [repeat Nat.add re_side re_inner quadratic]. clear A' B' R1 R1s P0 E0 U0 P2 E2 U2.
    assert (z1 = z0) as -> by lra. assert (z2 = z0) as -> by lra. assert (z3 = z0) as -> by lra. assert (z4 = z0) as -> by lra. assert (z5 = z0) as -> by lra. reflexivity.
  - intros d Ld Z. cbn in Ld. destruct d as [|d0 d]; [discriminate|]. destruct d as [|d1 d]; [discriminate|]. destruct d as [|d2 d]; [discriminate|]. destruct d as [|d3 d]; [discriminate|]. destruct d as [|d4 d]; [discriminate|]. destruct d as [|d5 d]; [discriminate|]. destruct d as [|d6 d]; [discriminate|]. destruct d as [|d7 d]; [discriminate|]. destruct d; [|discriminate].
    assert (A := U2 (nx2 d0 d1 d2 d3 d4 d5 d6 d7)). assert (B := U2 (ny2 d0 d1 d2 d3 d4 d5 d6 d7)).
    assert (A' : forall i j, (i + j <= 2)%nat -> nx2 d0 d1 d2 d3 d4 d5 d6 d7 i j = 0) by (apply A; intros q J; rewrite <- (nx2_poly rule1 rule0 rule2); exact (proj1 (Z q J))).
    assert (B' : forall i j, (i + j <= 2)%nat -> ny2 d0 d1 d2 d3 d4 d5 d6 d7 i j = 0) by (apply B; intros q J; rewrite <- (ny2_poly rule1 rule0 rule2); exact (proj2 (Z q J))).
    clear A B Z. pose proof (A' 0 0 ltac:(lia))%nat as A00. pose proof (B' 0 0 ltac:(lia))%nat as B00. pose proof (A' 0 1 ltac:(lia))%nat as A01. pose proof (B' 0 1 ltac:(lia))%nat as B01. pose proof (A' 0 2 ltac:(lia))%nat as A02. pose proof (B' 0 2 ltac:(lia))%nat as B02. pose proof (A' 1 0 ltac:(lia))%nat as A10. pose proof (B' 1 0 ltac:(lia))%nat as B10. pose proof (A' 1 1 ltac:(lia))%nat as A11. pose proof (B' 1 1 ltac:(lia))%nat as B11. pose proof (A' 2 0 ltac:(lia))%nat as A20. pose proof (B' 2 0 ltac:(lia))%nat as B20.
    unfold nx2 in *. unfold ny2 in *. cbn [repeat Nat.add re_side_nd re_inner_nd quadratic]. clear A' B' R1 R1s P0 E0 U0 P2 E2 U2.
    assert (d0 = 0) as -> by lra. assert (d1 = 0) as -> by lra. assert (d2 = 0) as -> by lra. assert (d3 = 0) as -> by lra. assert (d4 = 0) as -> by lra. assert (d5 = 0) as -> by lra. assert (d6 = 0) as -> by lra. assert (d7 = 0) as -> by lra. reflexivity.
  - intros s a b c l0 l1 l2 l (L0 & L1 & L2 & L). cbn in L0, L1, L2, L. destruct l0 as [|l0_0 l0]; [discriminate|]. destruct l0; [|discriminate]. destruct l1 as [|l1_0 l1]; [discriminate|]. destruct l1; [|discriminate]. destruct l2 as [|l2_0 l2]; [discriminate|]. destruct l2; [|discriminate]. destruct l; [|discriminate].  unf. repeat split; field.
  - intros s a b l L. cbn in L. destruct l as [|l_0 l]; [discriminate|]. destruct l; [|discriminate].  unf. field.
  - intros z Lz Z. cbn in Lz. destruct z as [|z0 z]; [discriminate|]. destruct z as [|z1 z]; [discriminate|]. destruct z as [|z2 z]; [discriminate|]. destruct z; [|discriminate]. pose proof (Z 0 ltac:(lra)) as Q0. pose proof (Z 1 ltac:(lra)) as Q1. pose proof (Z (1/2) ltac:(lra)) as Q2. clear Z R1 R1s P0 E0 U0 P2 E2 U2. unf. cbn [repeat Nat.add].
    assert (z0 = 0) as -> by lra. assert (z1 = 0) as -> by lra. assert (z2 = 0) as -> by lra. reflexivity.
  - intros s l0 l1 l2 l (L0 & L1 & L2 & L). cbn in L0, L1, L2, L. destruct l0 as [|l0_0 l0]; [discriminate|]. destruct l0 as [|l0_1 l0]; [discriminate|]. destruct l0; [|discriminate]. destruct l1 as [|l1_0 l1]; [discriminate|]. destruct l1 as [|l1_1 l1]; [discriminate|]. destruct l1; [|discriminate]. destruct l2 as [|l2_0 l2]; [discriminate|]. destruct l2 as [|l2_1 l2]; [discriminate|]. destruct l2; [|discriminate]. destruct l as [|l_0 l]; [discriminate|]. destruct l as [|l_1 l]; [discriminate|]. destruct l; [|discriminate].  unf. repeat split; ring.
  - intros s l L. cbn in L. destruct l as [|l_0 l]; [discriminate|]. destruct l as [|l_1 l]; [discriminate|]. destruct l; [|discriminate].  unf. ring.
  - intros p a b c l0 l1 l2 l (L0 & L1 & L2 & L). cbn in L0, L1, L2, L. destruct l0 as [|l0_0 l0]; [discriminate|]. destruct l0; [|discriminate]. destruct l1 as [|l1_0 l1]; [discriminate|]. destruct l1; [|discriminate]. destruct l2 as [|l2_0 l2]; [discriminate|]. destruct l2; [|discriminate]. destruct l; [|discriminate].  unf. split; field.
  - intros a b l L. cbn in L. destruct l as [|l_0 l]; [discriminate|]. destruct l; [|discriminate].  unf. repeat (apply f_equal2; [field|]). reflexivity.
Qed.


Theorem cubic_reference rule1 rule0 rule2 : rules_of_order 3 rule1 rule0 rule2 -> reference_ok (cubic rule1 rule0 rule2).
Proof.
  intros [(R1 & R1s) (P0 & E0 & U0) (P2 & E2 & U2)]. change (2 * (3 - 1))%nat with 4%nat in *. change (3 - 1)%nat with 2%nat in *. constructor.
  - split; [intros p; repeat split|]. split; [intros s; split; reflexivity|split; reflexivity].
  - split; [exact R1|]. split; [exact R1s|]. split; [exact P0|exact P2].
  - intros z w d d' Lz Lw Hd Hd'. cbn in Lz, Lw. destruct z as [|z0 z]; [discriminate|]. destruct z as [|z1 z]; [discriminate|]. destruct z as [|z2 z]; [discriminate|]. destruct z as [|z3 z]; [discriminate|]. destruct z as [|z4 z]; [discriminate|]. destruct z as [|z5 z]; [discriminate|]. destruct z as [|z6 z]; [discriminate|]. destruct z as [|z7 z]; [discriminate|]. destruct z as [|z8 z]; [discriminate|]. destruct z as [|z9 z]; [discriminate|]. destruct z; [|discriminate]. destruct w as [|w0 w]; [discriminate|]. destruct w as [|w1 w]; [discriminate|]. destruct w as [|w2 w]; [discriminate|]. destruct w as [|w3 w]; [discriminate|]. destruct w as [|w4 w]; [discriminate|]. destruct w as [|w5 w]; [discriminate|]. destruct w as [|w6 w]; [discriminate|]. destruct w as [|w7 w]; [discriminate|]. destruct w as [|w8 w]; [discriminate|]. destruct w as [|w9 w]; [discriminate|]. destruct w; [|discriminate]. cbn [re_rule0 re_rule2 cubic].
    assert (K : forall d, d = re_h1x (cubic rule1 rule0 rule2) \/ d = re_h1y (cubic rule1 rule0 rule2) -> forall z0 z1 z2 z3 z4 z5 z6 z7 z8 z9 : R, exists a, forall p, dot (d p) [z0; z1; z2; z3; z4; z5; z6; z7; z8; z9] = poly 2 a p).
    { intros g [-> | ->] ? ? ? ? ? ? ? ? ? ?; eexists; intros p; [apply hx3_poly|apply hy3_poly]. }
    destruct (K d Hd z0 z1 z2 z3 z4 z5 z6 z7 z8 z9) as (a & Ha). destruct (K d' Hd' w0 w1 w2 w3 w4 w5 w6 w7 w8 w9) as (b & Hb).
    rewrite (Rsum_ext rule0 _ (fun q => snd q * (poly 2 a (fst q) * poly 2 b (fst q)))) by (intros q _; now rewrite Ha, Hb).
    rewrite (Rsum_ext rule2 _ (fun q => snd q * (poly 2 a (fst q) * poly 2 b (fst q)))) by (intros q _; now rewrite Ha, Hb).
    exact (same_products 2 rule0 rule2 a b E0 E2).
  - intros z p u Lz. cbn in Lz. destruct z as [|z0 z]; [discriminate|]. destruct z as [|z1 z]; [discriminate|]. destruct z as [|z2 z]; [discriminate|]. destruct z as [|z3 z]; [discriminate|]. destruct z as [|z4 z]; [discriminate|]. destruct z as [|z5 z]; [discriminate|]. destruct z as [|z6 z]; [discriminate|]. destruct z as [|z7 z]; [discriminate|]. destruct z as [|z8 z]; [discriminate|]. destruct z as [|z9 z]; [discriminate|]. destruct z; [|discriminate]. eapply D_eq; [unf; dd|unf; field].
  - intros p. unf. repeat split; field.
  - intros z Lz Z. cbn in Lz. destruct z as [|z0 z]; [discriminate|]. destruct z as [|z1 z]; [discriminate|]. destruct z as [|z2 z]; [discriminate|]. destruct z as [|z3 z]; [discriminate|]. destruct z as [|z4 z]; [discriminate|]. destruct z as [|z5 z]; [discriminate|]. destruct z as [|z6 z]; [discriminate|]. destruct z as [|z7 z]; [discriminate|]. destruct z as [|z8 z]; [discriminate|]. destruct z as [|z9 z]; [discriminate|]. destruct z; [|discriminate].
    assert (A := U0 (hx3 z0 z1 z2 z3 z4 z5 z6 z7 z8 z9)). assert (B := U0 (hy3 z0 z1 z2 z3 z4 z5 z6 z7 z8 z9)).
    assert (A' : forall i j, (i + j <= 2)%nat -> hx3 z0 z1 z2 z3 z4 z5 z6 z7 z8 z9 i j = 0) by (apply A; intros q J; rewrite <- (hx3_poly rule1 rule0 rule2); exact (proj1 (Z q J))).
    assert (B' : forall i j, (i + j <= 2)%nat -> hy3 z0 z1 z2 z3 z4 z5 z6 z7 z8 z9 i j = 0) by (apply B; intros q J; rewrite <- (hy3_poly rule1 rule0 rule2); exact (proj2 (Z q J))).
    clear A B Z. pose proof (A' 0 0 ltac:(lia))%nat as A00. pose proof (B' 0 0 ltac:(lia))%nat as B00. pose proof (A' 0 1 ltac:(lia))%nat as A01. pose proof (B' 0 1 ltac:(lia))%nat as B01. pose proof (A' 0 2 ltac:(lia))%nat as A02. pose proof (B' 0 2 ltac:(lia))%nat as B02. pose proof (A' 1 0 ltac:(lia))%nat as A10. pose proof (B' 1 0 ltac:(lia))%nat as B10. pose proof (A' 1 1 ltac:(lia))%nat as A11. pose proof (B' 1 1 ltac:(lia))%nat as B11. pose proof (A' 2 0 ltac:(lia))%nat as A20. pose proof (B' 2 0 ltac:(lia))%nat as B20.
    unfold hx3 in *. unfold hy3 in *. exists z0. cbn [repeat Nat.add re_side re_inner cubic]. clear A' B' R1 R1s P0 E0 U0 P2 E2 U2.
    assert (z1 = z0) as -> by lra. assert (z2 = z0) as -> by lra. assert (z3 = z0) as -> by lra. assert (z4 = z0) as -> by lra. assert (z5 = z0) as -> by lra. assert (z6 = z0) as -> by lra. assert (z7 = z0) as -> by lra. assert (z8 = z0) as -> by lra. assert (z9 = z0) as -> by lra. reflexivity.
  - intros d Ld Z. cbn in Ld. destruct d as [|d0 d]; [discriminate|]. destruct d as [|d1 d]; [discriminate|]. destruct d as [|d2 d]; [discriminate|]. destruct d as [|d3 d]; [discriminate|]. destruct d as [|d4 d]; [discriminate|]. destruct d as [|d5 d]; [discriminate|]. destruct d as [|d6 d]; [discriminate|]. destruct d as [|d7 d]; [discriminate|]. destruct d as [|d8 d]; [discriminate|]. destruct d as [|d9 d]; [discriminate|]. destruct d as [|d10 d]; [discriminate|]. destruct d as [|d11 d]; [discriminate|]. destruct d as [|d12 d]; [discriminate|]. destruct d as [|d13 d]; [discriminate|]. destruct d as [|d14 d]; [discriminate|]. destruct d; [|discriminate].
    assert (A := U2 (nx3 d0 d1 d2 d3 d4 d5 d6 d7 d8 d9 d10 d11 d12 d13 d14)). assert (B := U2 (ny3 d0 d1 d2 d3 d4 d5 d6 d7 d8 d9 d10 d11 d12 d13 d14)).
    assert (A' : forall i j, (i + j <= 3)%nat -> nx3 d0 d1 d2 d3 d4 d5 d6 d7 d8 d9 d10 d11 d12 d13 d14 i j = 0) by (apply A; intros q J; rewrite <- (nx3_poly rule1 rule0 rule2); exact (proj1 (Z q J))).
    assert (B' : forall i j, (i + j <= 3)%nat -> ny3 d0 d1 d2 d3 d4 d5 d6 d7 d8 d9 d10 d11 d12 d13 d14 i j = 0) by (apply B; intros q J; rewrite <- (ny3_poly rule1 rule0 rule2); exact (proj2 (Z q J))).
    clear A B Z. pose proof (A' 0 0 ltac:(lia))%nat as A00. pose proof (B' 0 0 ltac:(lia))%nat as B00. pose proof (A' 0 1 ltac:(lia))%nat as A01. pose proof (B' 0 1 ltac:(lia))%nat as B01. pose proof (A' 0 2 ltac:(lia))%nat as A02. pose proof (B' 0 2 ltac:(lia))%nat as B02. pose proof (A' 0 3 ltac:(lia))%nat as A03. pose proof (B' 0 3 ltac:(lia))%nat as B03. pose proof (A' 1 0 ltac:(lia))%nat as A10. pose proof (B' 1 0 ltac:(lia))%nat as B10. pose proof (A' 1 1 ltac:(lia))%nat as A11. pose proof (B' 1 1 ltac:(lia))%nat as B11. pose proof (A' 1 2 ltac:(lia))%nat as A12. pose proof (B' 1 2 ltac:(lia))%nat as B12. pose proof (A' 2 0 ltac:(lia))%nat as A20. pose proof (B' 2 0 ltac:(lia))%nat as B20. pose proof (A' 2 1 ltac:(lia))%nat as A21. pose proof (B' 2 1 ltac:(lia))%nat as B21. pose proof (A' 3 0 ltac:(lia))%nat as A30. pose proof (B' 3 0 ltac:(lia))%nat as B30.
    unfold nx3 in *. unfold ny3 in *. cbn [repeat Nat.add re_side_nd re_inner_nd cubic]. clear A' B' R1 R1s P0 E0 U0 P2 E2 U2.
    assert (d0 = 0) as -> by lra. assert (d1 = 0) as -> by lra. assert (d2 = 0) as -> by lra. assert (d3 = 0) as -> by lra. assert (d4 = 0) as -> by lra. assert (d5 = 0) as -> by lra. assert (d6 = 0) as -> by lra. assert (d7 = 0) as -> by lra. assert (d8 = 0) as -> by lra. assert (d9 = 0) as -> by lra. assert (d10 = 0) as -> by lra. assert (d11 = 0) as -> by lra. assert (d12 = 0) as -> by lra. assert (d13 = 0) as -> by lra. assert (d14 = 0) as -> by lra. reflexivity.
  - intros s a b c l0 l1 l2 l (L0 & L1 & L2 & L). cbn in L0, L1, L2, L. destruct l0 as [|l0_0 l0]; [discriminate|]. destruct l0 as [|l0_1 l0]; [discriminate|]. destruct l0; [|discriminate]. destruct l1 as [|l1_0 l1]; [discriminate|]. destruct l1 as [|l1_1 l1]; [discriminate|]. destruct l1; [|discriminate]. destruct l2 as [|l2_0 l2]; [discriminate|]. destruct l2 as [|l2_1 l2]; [discriminate|]. destruct l2; [|discriminate]. destruct l as [|l_0 l]; [discriminate|]. destruct l; [|discriminate].  unf. repeat split; field.
  - intros s a b l L. cbn in L. destruct l as [|l_0 l]; [discriminate|]. destruct l as [|l_1 l]; [discriminate|]. destruct l; [|discriminate].  unf. field.
  - intros z Lz Z. cbn in Lz. destruct z as [|z0 z]; [discriminate|]. destruct z as [|z1 z]; [discriminate|]. destruct z as [|z2 z]; [discriminate|]. destruct z as [|z3 z]; [discriminate|]. destruct z; [|discriminate]. pose proof (Z 0 ltac:(lra)) as Q0. pose proof (Z 1 ltac:(lra)) as Q1. pose proof (Z (1/3) ltac:(lra)) as Q2. pose proof (Z (2/3) ltac:(lra)) as Q3. clear Z R1 R1s P0 E0 U0 P2 E2 U2. unf. cbn [repeat Nat.add].
    assert (z0 = 0) as -> by lra. assert (z1 = 0) as -> by lra. assert (z2 = 0) as -> by lra. assert (z3 = 0) as -> by lra. reflexivity.
  - intros s l0 l1 l2 l (L0 & L1 & L2 & L). cbn in L0, L1, L2, L. destruct l0 as [|l0_0 l0]; [discriminate|]. destruct l0 as [|l0_1 l0]; [discriminate|]. destruct l0 as [|l0_2 l0]; [discriminate|]. destruct l0; [|discriminate]. destruct l1 as [|l1_0 l1]; [discriminate|]. destruct l1 as [|l1_1 l1]; [discriminate|]. destruct l1 as [|l1_2 l1]; [discriminate|]. destruct l1; [|discriminate]. destruct l2 as [|l2_0 l2]; [discriminate|]. destruct l2 as [|l2_1 l2]; [discriminate|]. destruct l2 as [|l2_2 l2]; [discriminate|]. destruct l2; [|discriminate]. destruct l as [|l_0 l]; [discriminate|]. destruct l as [|l_1 l]; [discriminate|]. destruct l as [|l_2 l]; [discriminate|]. destruct l as [|l_3 l]; [discriminate|]. destruct l as [|l_4 l]; [discriminate|]. destruct l as [|l_5 l]; [discriminate|]. destruct l; [|discriminate].  unf. repeat split; ring.
  - intros s l L. cbn in L. destruct l as [|l_0 l]; [discriminate|]. destruct l as [|l_1 l]; [discriminate|]. destruct l as [|l_2 l]; [discriminate|]. destruct l; [|discriminate].  unf. ring.
  - intros p a b c l0 l1 l2 l (L0 & L1 & L2 & L). cbn in L0, L1, L2, L. destruct l0 as [|l0_0 l0]; [discriminate|]. destruct l0 as [|l0_1 l0]; [discriminate|]. destruct l0; [|discriminate]. destruct l1 as [|l1_0 l1]; [discriminate|]. destruct l1 as [|l1_1 l1]; [discriminate|]. destruct l1; [|discriminate]. destruct l2 as [|l2_0 l2]; [discriminate|]. destruct l2 as [|l2_1 l2]; [discriminate|]. destruct l2; [|discriminate]. destruct l as [|l_0 l]; [discriminate|]. destruct l; [|discriminate].  unf. split; field.
  - intros a b l L. cbn in L. destruct l as [|l_0 l]; [discriminate|]. destruct l as [|l_1 l]; [discriminate|]. destruct l; [|discriminate].  unf. repeat (apply f_equal2; [field|]). reflexivity.
Qed.

