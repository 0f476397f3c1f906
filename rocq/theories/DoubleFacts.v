(** IEEE doubles: the errors of the operations (C84). *)
From Flocq Require Import Core Relative Plus_error.
From Flocq Require IEEE754.BinarySingleNaN IEEE754.PrimFloat.
From Coq Require Import Reals Lra Lia Floats.
From Verif Require Import Prelude SpecDouble RSum ListLemmas.
Open Scope R_scope.
Open Scope list_scope.

#[local] Existing Instance Flocq.IEEE754.PrimFloat.Hprec.
#[local] Existing Instance Flocq.IEEE754.PrimFloat.Hmax.
Import Flocq.IEEE754.BinarySingleNaN.
Notation Pb := Flocq.IEEE754.PrimFloat.Prim2B.
Notation rnd := (round radix2 (SpecFloat.fexp prec emax) (round_mode mode_NE)).

Lemma value_B2R x : double_value x = B2R (Pb x).
Proof.
  unfold double_value. rewrite <- Flocq.IEEE754.PrimFloat.B2SF_Prim2B. destruct (Pb x) as [s|s| |s m e B]; try reflexivity.
  cbn [B2SF B2R]. unfold F2R. cbn [Fnum Fexp]. rewrite bpow_powerRZ. change (IZR radix2) with 2.
  destruct s; cbn [cond_Zopp]; [rewrite opp_IZR|]; ring.
Qed.
Lemma number_finite x : is_number x <-> is_finite (Pb x) = true.
Proof.
  unfold is_number. rewrite <- Flocq.IEEE754.PrimFloat.B2SF_Prim2B. destruct (Pb x) as [s|s| |s m e B]; cbn; intuition discriminate.
Qed.
Lemma roundoff_pos : 0 < roundoff. Proof. unfold roundoff. apply Rinv_0_lt_compat, pow_lt; lra. Qed.
Lemma roundoff_small : roundoff <= / 1024.
Proof. unfold roundoff. apply Rinv_le_contravar; [lra|]. change 53%nat with (10 + 43)%nat. rewrite pow_add. pose proof (pow_R1_Rle 2 43 ltac:(lra)). cbn [pow]. lra. Qed.
Lemma tiny_pos : 0 < tiny. Proof. unfold tiny. apply Rinv_0_lt_compat, pow_lt; lra. Qed.
Lemma ro_value : / 2 * bpow radix2 (- prec + 1) = roundoff.
Proof.
  unfold roundoff. change (- prec + 1)%Z with (Z.opp 52). rewrite bpow_opp. rewrite bpow_powerRZ. change (IZR radix2) with 2.
  change (powerRZ 2 52) with (2 ^ 52). change (2 ^ 53) with (2 * 2 ^ 52). symmetry. apply Rinv_mult.
Qed.
Lemma uro_le : u_ro radix2 prec / (1 + u_ro radix2 prec) <= roundoff.
Proof.
  unfold u_ro. rewrite ro_value. pose proof roundoff_pos. apply Rmult_le_reg_r with (1 + roundoff); [lra|]. unfold Rdiv. rewrite Rmult_assoc, Rinv_l by lra. nra.
Qed.
Lemma round_error x : exists d e, Rabs d <= roundoff /\ Rabs e <= tiny /\ rnd x = x * (1 + d) + e.
Proof.
  destruct (error_N_FLT radix2 (3 - emax - prec) prec ltac:(reflexivity) (fun z => negb (Z.even z)) x) as (d & e & Hd & He & _ & E).
  exists d, e. split; [rewrite <- ro_value; exact Hd|]. split; [|exact E].
  replace tiny with (/ 2 * bpow radix2 (3 - emax - prec)); [exact He|].
  unfold tiny. change (3 - emax - prec)%Z with (Z.opp 1074). rewrite bpow_opp, bpow_powerRZ. change (IZR radix2) with 2.
  change (powerRZ 2 1074) with (2 ^ Pos.to_nat 1074). replace 1075%nat with (S (Pos.to_nat 1074)) by (vm_compute; reflexivity).
  generalize (Pos.to_nat 1074) as k. intros k. rewrite <- tech_pow_Rmult. symmetry. apply Rinv_mult.
Qed.
Lemma not_finite_overflow s (b : binary_float prec emax) : B2SF b = binary_overflow prec emax mode_NE s -> is_finite b = false.
Proof. destruct b; cbn; try reflexivity; destruct s; discriminate. Qed.

Lemma add_value x y : is_number (x + y)%float -> is_number x /\ is_number y /\
  exists d, Rabs d <= roundoff /\ double_value (x + y)%float = (double_value x + double_value y) * (1 + d).
Proof.
  rewrite !number_finite, !value_B2R, Flocq.IEEE754.PrimFloat.add_equiv. intros Fi.
  assert (Fx : is_finite (Pb x) = true /\ is_finite (Pb y) = true).
  { destruct (Pb x) as [s|s| |s m e B], (Pb y) as [s'|s'| |s' m' e' B']; cbn in Fi |- *; auto; try discriminate.
    destruct (Bool.eqb s s'); discriminate. }
  destruct Fx as (Fx & Fy). split; [exact Fx|]. split; [exact Fy|].
  pose proof (Bplus_correct prec emax _ _ mode_NE _ _ Fx Fy) as H. revert H.
  destruct (Rlt_bool _ _).
  - intros (H & _ & _). rewrite H.
    destruct (FLT_plus_error_N_ex radix2 (3 - emax - prec) prec (fun z => negb (Z.even z)) (B2R (Pb x)) (B2R (Pb y))) as (d & Hd & E);
      [apply (generic_format_B2R prec emax)|apply (generic_format_B2R prec emax)|].
    exists d. split; [eapply Rle_trans; [exact Hd|exact uro_le]|exact E].
  - intros (H & _). apply not_finite_overflow in H. congruence.
Qed.
Lemma sub_value x y : is_number (x - y)%float -> is_number x /\ is_number y /\
  exists d, Rabs d <= roundoff /\ double_value (x - y)%float = (double_value x - double_value y) * (1 + d).
Proof.
  rewrite !number_finite, !value_B2R, Flocq.IEEE754.PrimFloat.sub_equiv. intros Fi.
  assert (Fx : is_finite (Pb x) = true /\ is_finite (Pb y) = true).
  { destruct (Pb x) as [s|s| |s m e B], (Pb y) as [s'|s'| |s' m' e' B']; cbn in Fi |- *; auto; try discriminate.
    destruct (Bool.eqb s _); discriminate. }
  destruct Fx as (Fx & Fy). split; [exact Fx|]. split; [exact Fy|].
  pose proof (Bminus_correct prec emax _ _ mode_NE _ _ Fx Fy) as H. revert H.
  destruct (Rlt_bool _ _).
  - intros (H & _ & _). rewrite H.
    destruct (FLT_plus_error_N_ex radix2 (3 - emax - prec) prec (fun z => negb (Z.even z)) (B2R (Pb x)) (- B2R (Pb y))) as (d & Hd & E);
      [apply (generic_format_B2R prec emax)|apply generic_format_opp, (generic_format_B2R prec emax)|].
    exists d. split; [eapply Rle_trans; [exact Hd|exact uro_le]|exact E].
  - intros (H & _). apply not_finite_overflow in H. congruence.
Qed.
Lemma mul_value x y : is_number (x * y)%float -> is_number x /\ is_number y /\
  exists d e, Rabs d <= roundoff /\ Rabs e <= tiny /\ double_value (x * y)%float = double_value x * double_value y * (1 + d) + e.
Proof.
  rewrite !number_finite, !value_B2R, Flocq.IEEE754.PrimFloat.mul_equiv. intros Fi.
  pose proof (Bmult_correct prec emax _ _ mode_NE (Pb x) (Pb y)) as H. revert H.
  destruct (Rlt_bool _ _).
  - intros (H & Hf & _). rewrite Fi in Hf. symmetry in Hf. apply andb_prop in Hf as (Fx & Fy). split; [exact Fx|]. split; [exact Fy|].
    rewrite H. apply round_error.
  - intros H. apply not_finite_overflow in H. congruence.
Qed.
Lemma div_value x y : is_number (x / y)%float -> is_number y -> is_number x /\ double_value y <> 0 /\
  exists d e, Rabs d <= roundoff /\ Rabs e <= tiny /\ double_value (x / y)%float = double_value x / double_value y * (1 + d) + e.
Proof.
  rewrite !number_finite, !value_B2R, Flocq.IEEE754.PrimFloat.div_equiv. intros Fi Fy.
  assert (Ny : B2R (Pb y) <> 0).
  { intros Z. destruct (Pb y) as [s|s| |s m e B]; try discriminate.
    - destruct (Pb x); discriminate.
    - cbn in Z. apply eq_0_F2R in Z. cbn in Z. destruct s; discriminate. }
  pose proof (Bdiv_correct prec emax _ _ mode_NE (Pb x) (Pb y) Ny) as H. revert H.
  destruct (Rlt_bool _ _).
  - intros (H & Hf & _). rewrite Fi in Hf. symmetry in Hf. split; [exact Hf|]. split; [exact Ny|]. rewrite H. apply round_error.
  - intros H. apply not_finite_overflow in H. congruence.
Qed.

(** ** Results that are numbers *)
Lemma below_overflow z k : (k < emax)%Z -> (3 - emax - prec <= k)%Z -> Rabs z <= bpow radix2 k -> Rlt_bool (Rabs (rnd z)) (bpow radix2 emax) = true.
Proof.
  intros Lk Gk Hz. apply Rlt_bool_true. apply Rle_lt_trans with (bpow radix2 k); [|now apply bpow_lt].
  apply abs_round_le_generic; [now apply (fexp_correct prec emax); reflexivity|apply valid_rnd_round_mode|apply (generic_format_FLT_bpow radix2 (3 - emax - prec) prec); [exact Gk]|exact Hz].
Qed.
Lemma b1000 : bpow radix2 1000 = 2 ^ Pos.to_nat 1000. Proof. rewrite bpow_powerRZ. reflexivity. Qed.
Definition huge : R := bpow radix2 1000.
Lemma add_number x y : is_number x -> is_number y -> Rabs (double_value x + double_value y) <= huge -> is_number (x + y)%float.
Proof.
  rewrite !number_finite, !value_B2R, Flocq.IEEE754.PrimFloat.add_equiv. intros Fx Fy Hb.
  pose proof (Bplus_correct prec emax _ _ mode_NE _ _ Fx Fy) as H.
  rewrite (below_overflow _ 1000 ltac:(reflexivity) ltac:(discriminate) Hb) in H. apply H.
Qed.
Lemma sub_number x y : is_number x -> is_number y -> Rabs (double_value x - double_value y) <= huge -> is_number (x - y)%float.
Proof.
  rewrite !number_finite, !value_B2R, Flocq.IEEE754.PrimFloat.sub_equiv. intros Fx Fy Hb.
  pose proof (Bminus_correct prec emax _ _ mode_NE _ _ Fx Fy) as H.
  rewrite (below_overflow _ 1000 ltac:(reflexivity) ltac:(discriminate) Hb) in H. apply H.
Qed.
Lemma mul_number x y : is_number x -> is_number y -> Rabs (double_value x * double_value y) <= huge -> is_number (x * y)%float.
Proof.
  rewrite !number_finite, !value_B2R, Flocq.IEEE754.PrimFloat.mul_equiv. intros Fx Fy Hb.
  pose proof (Bmult_correct prec emax _ _ mode_NE (Pb x) (Pb y)) as H.
  rewrite (below_overflow _ 1000 ltac:(reflexivity) ltac:(discriminate) Hb) in H. rewrite Fx, Fy in H. apply H.
Qed.
Lemma div_number x y : is_number x -> double_value y <> 0 -> Rabs (double_value x / double_value y) <= huge -> is_number (x / y)%float.
Proof.
  rewrite !number_finite, !value_B2R, Flocq.IEEE754.PrimFloat.div_equiv. intros Fx Ny Hb.
  pose proof (Bdiv_correct prec emax _ _ mode_NE (Pb x) (Pb y) Ny) as H.
  rewrite (below_overflow _ 1000 ltac:(reflexivity) ltac:(discriminate) Hb) in H. rewrite Fx in H. apply H.
Qed.
Lemma zero_number : is_number 0%float /\ double_value 0%float = 0.
Proof. split; [exact I|reflexivity]. Qed.

(** ** Sums *)
Lemma roundings_S k : roundings (S k) = roundings k * (1 + roundoff) + roundoff.
Proof. unfold roundings. cbn [pow]. ring. Qed.
Lemma roundings_pos k : 0 <= roundings k.
Proof. unfold roundings. pose proof (pow_R1_Rle (1 + roundoff) k). pose proof roundoff_pos. lra. Qed.
Lemma roundings_mono k : roundings k <= roundings (S k).
Proof. rewrite roundings_S. pose proof (roundings_pos k). pose proof roundoff_pos. nra. Qed.
Lemma roundings_le k : INR k * roundoff <= 1 / 2 -> roundings k <= 2 * INR k * roundoff.
Proof.
  intros H. pose proof roundoff_pos as U.
  assert (G : forall j, (j <= k)%nat -> roundings j * (1 - INR j * roundoff) <= INR j * roundoff).
  { induction j as [|j IH]; intros Lj; [unfold roundings; cbn; lra|]. specialize (IH ltac:(lia)).
    rewrite roundings_S, S_INR in *. pose proof (roundings_pos j). pose proof (pos_INR j).
    assert (INR (S j) <= INR k) by (apply le_INR; lia). rewrite S_INR in *.
    assert (0 <= INR j * roundoff) by nra. assert (INR j * roundoff <= 1 / 2) by nra. set (a := INR j * roundoff) in *. set (g := roundings j) in *. set (u := roundoff) in *.
    replace ((INR j + 1) * u) with (a + u) by (unfold a; ring). nra. }
  specialize (G k (le_n _)). pose proof (roundings_pos k). pose proof (pos_INR k). nra.
Qed.
Lemma fsum_value {A} (f : A -> float) l : forall a, is_number (fold_left (fun s k => (s + f k)%float) l a) ->
  is_number a /\ (forall k, In k l -> is_number (f k)) /\
  Rabs (double_value (fold_left (fun s k => (s + f k)%float) l a) - (double_value a + Rsum l (fun k => double_value (f k)))) <=
    roundings (List.length l) * (Rabs (double_value a) + Rsum l (fun k => Rabs (double_value (f k)))).
Proof.
  induction l as [|x l IH]; intros a Hn.
  - cbn [fold_left] in *. split; [exact Hn|]. split; [intros k []|]. rewrite !Rsum_nil. unfold roundings. cbn [List.length pow].
    replace (double_value a - (double_value a + 0)) with 0 by ring. rewrite Rabs_R0. lra.
  - cbn [fold_left] in *. destruct (IH _ Hn) as (Na & Nl & E). destruct (add_value a (f x) Na) as (N1 & N2 & d & Hd & Ed).
    split; [exact N1|]. split; [intros k [<- | I]; auto|]. rewrite !Rsum_cons. cbn [List.length]. rewrite roundings_S.
    set (res := double_value (fold_left _ l _)) in *. set (S := Rsum l (fun k => double_value (f k))) in *.
    set (B := Rsum l (fun k => Rabs (double_value (f k)))) in *. rewrite Ed in E. set (va := double_value a) in *. set (vx := double_value (f x)) in *.
    pose proof (roundings_pos (List.length l)) as Gp. pose proof roundoff_pos as U. set (g := roundings (List.length l)) in *. set (u := roundoff) in *.
    assert (HB : 0 <= B) by (apply Rsum_nonneg; intros; apply Rabs_pos).
    assert (H1 : Rabs (va + vx) <= Rabs va + Rabs vx) by apply Rabs_triang.
    assert (H2 : Rabs ((va + vx) * (1 + d)) <= (Rabs va + Rabs vx) * (1 + u)).
    { rewrite Rabs_mult. apply Rmult_le_compat; try apply Rabs_pos; [exact H1|]. eapply Rle_trans; [apply Rabs_triang|]. rewrite Rabs_R1. lra. }
    assert (H3 : Rabs ((va + vx) * d) <= (Rabs va + Rabs vx) * u).
    { rewrite Rabs_mult. apply Rmult_le_compat; try apply Rabs_pos; [exact H1|exact Hd]. }
    replace (res - (va + (vx + S))) with ((res - ((va + vx) * (1 + d) + S)) + (va + vx) * d) by ring.
    eapply Rle_trans; [apply Rabs_triang|].
    assert (g * (Rabs ((va + vx) * (1 + d)) + B) <= g * ((Rabs va + Rabs vx) * (1 + u) + B)) by (apply Rmult_le_compat_l; lra).
    pose proof (Rabs_pos va). pose proof (Rabs_pos vx). assert (0 <= g * B * u) by (apply Rmult_le_pos; [apply Rmult_le_pos|]; lra).
    assert (0 <= u * B) by nra. nra.
Qed.
Lemma fsum_number {A} (f : A -> float) l : forall a, is_number a -> (forall k, In k l -> is_number (f k)) ->
  roundings (List.length l) <= 1 -> 2 * (Rabs (double_value a) + Rsum l (fun k => Rabs (double_value (f k)))) <= huge ->
  is_number (fold_left (fun s k => (s + f k)%float) l a).
Proof.
  induction l as [|x l IH] using rev_ind; intros a Na Nl Hr Hb; [exact Na|].
  rewrite fold_left_app. cbn [fold_left]. rewrite app_length, Nat.add_comm in Hr. cbn [List.length Nat.add] in Hr.
  rewrite Rsum_app, Rsum_cons, Rsum_nil in Hb. pose proof (Rabs_pos (double_value (f x))) as P.
  pose proof (roundings_mono (List.length l)) as M. pose proof (roundings_pos (List.length l)) as Gp.
  assert (Ni : is_number (fold_left (fun s k => (s + f k)%float) l a)).
  { apply IH; [exact Na|intros k I; apply Nl, in_or_app; now left|lra|lra]. }
  apply add_number; [exact Ni|apply Nl, in_or_app; right; now left|].
  destruct (fsum_value f l a Ni) as (_ & _ & E).
  set (res := double_value (fold_left _ l a)) in *. set (S := Rsum l (fun k => double_value (f k))) in *. set (B := Rsum l (fun k => Rabs (double_value (f k)))) in *.
  assert (HS : Rabs S <= B).
  { unfold S, B. clear. induction l as [|y l IH]; [rewrite !Rsum_nil, Rabs_R0; lra|]. rewrite !Rsum_cons. eapply Rle_trans; [apply Rabs_triang|]. lra. }
  assert (HB : 0 <= B) by (apply Rsum_nonneg; intros; apply Rabs_pos). pose proof (Rabs_pos (double_value a)).
  assert (Hres : Rabs res <= 2 * (Rabs (double_value a) + B)).
  { replace res with ((res - (double_value a + S)) + (double_value a + S)) by ring. eapply Rle_trans; [apply Rabs_triang|].
    pose proof (Rabs_triang (double_value a) S). nra. }
  eapply Rle_trans; [apply Rabs_triang|]. lra.
Qed.

(** ** Relative errors *)
Definition safe (x : R) : Prop := x = 0 \/ bpow radix2 (- (1000)) <= Rabs x <= huge.
Lemma round_relative x : safe x -> exists d, Rabs d <= roundoff /\ rnd x = x * (1 + d).
Proof.
  intros [-> | (L & _)].
  - exists 0. rewrite Rabs_R0, round_0 by apply valid_rnd_round_mode. pose proof roundoff_pos. split; [lra|ring].
  - destruct (relative_error_N_FLT_ex radix2 (3 - emax - prec) prec ltac:(reflexivity) (fun z => negb (Z.even z)) x) as (d & Hd & E).
    + eapply Rle_trans; [|exact L]. apply bpow_le. discriminate.
    + exists d. split; [rewrite <- ro_value; exact Hd|exact E].
Qed.
Lemma safe_huge x : safe x -> Rabs x <= huge.
Proof. intros [-> | (_ & H)]; [|exact H]. rewrite Rabs_R0. apply bpow_ge_0. Qed.
Lemma mul_relative x y : is_number x -> is_number y -> safe (double_value x * double_value y) ->
  is_number (x * y)%float /\ exists d, Rabs d <= roundoff /\ double_value (x * y)%float = double_value x * double_value y * (1 + d).
Proof.
  intros Nx Ny S. split; [now apply mul_number; [| |apply safe_huge]|]. revert Nx Ny S. rewrite !number_finite, !value_B2R, Flocq.IEEE754.PrimFloat.mul_equiv. intros Fx Fy S.
  pose proof (Bmult_correct prec emax _ _ mode_NE (Pb x) (Pb y)) as H.
  rewrite (below_overflow _ 1000 ltac:(reflexivity) ltac:(discriminate) (safe_huge _ S)) in H. destruct H as (H & _). rewrite H. now apply round_relative.
Qed.
Lemma div_relative x y : is_number x -> double_value y <> 0 -> safe (double_value x / double_value y) ->
  is_number (x / y)%float /\ exists d, Rabs d <= roundoff /\ double_value (x / y)%float = double_value x / double_value y * (1 + d).
Proof.
  intros Nx Ny S. split; [now apply div_number; [| |apply safe_huge]|]. revert Nx Ny S. rewrite !number_finite, !value_B2R, Flocq.IEEE754.PrimFloat.div_equiv. intros Fx Fy S.
  pose proof (Bdiv_correct prec emax _ _ mode_NE (Pb x) (Pb y) Fy) as H.
  rewrite (below_overflow _ 1000 ltac:(reflexivity) ltac:(discriminate) (safe_huge _ S)) in H. destruct H as (H & _). rewrite H. now apply round_relative.
Qed.
Lemma opp_value x : is_number x -> is_number (- x)%float /\ double_value (- x)%float = - double_value x.
Proof.
  rewrite !number_finite, !value_B2R, Flocq.IEEE754.PrimFloat.opp_equiv. intros F. rewrite B2R_Bopp, is_finite_Bopp. auto.
Qed.
(** [x = y (1 + d)] with [1 + d] a product of [k] roundings *)
Lemma within_iff k x y : within k x y <-> is_number x /\ exists d, Rabs d <= roundings k /\ double_value x = y * (1 + d).
Proof.
  unfold within. split; intros (N & H); (split; [exact N|]).
  - destruct (Req_dec y 0) as [-> |Ny].
    + exists 0. rewrite !Rabs_R0, Rmult_0_r in *. pose proof (roundings_pos k). split; [lra|].
      destruct (Req_dec (double_value x) 0) as [-> |Nx]; [ring|]. pose proof (Rabs_pos_lt _ Nx). rewrite Rminus_0_r in H. lra.
    + exists ((double_value x - y) / y). split; [|field; exact Ny]. unfold Rdiv. rewrite Rabs_mult, Rabs_inv. pose proof (Rabs_pos_lt _ Ny) as P.
      apply Rmult_le_reg_r with (Rabs y); [exact P|]. rewrite Rmult_assoc, Rinv_l by lra. lra.
  - destruct H as (d & Hd & ->). replace (y * (1 + d) - y) with (d * y) by ring. rewrite Rabs_mult. apply Rmult_le_compat_r; [apply Rabs_pos|exact Hd].
Qed.
Lemma roundings_add a b : (1 + roundings a) * (1 + roundings b) = 1 + roundings (a + b).
Proof. unfold roundings. rewrite pow_add. ring. Qed.
Lemma compose a b d e : Rabs d <= roundings a -> Rabs e <= roundings b -> exists f, Rabs f <= roundings (a + b) /\ (1 + d) * (1 + e) = 1 + f.
Proof.
  intros Hd He. exists (d + e + d * e). split; [|ring]. pose proof (roundings_add a b). pose proof (Rabs_triang (d + e) (d * e)). pose proof (Rabs_triang d e). rewrite Rabs_mult in *.
  assert (Rabs d * Rabs e <= roundings a * roundings b) by (apply Rmult_le_compat; try apply Rabs_pos; assumption). lra.
Qed.
Lemma roundings_1 : roundings 1 = roundoff. Proof. unfold roundings. cbn [pow]. ring. Qed.
Lemma inverse_of d : Rabs d <= roundoff -> exists e, Rabs e <= roundings 2 /\ / (1 + d) = 1 + e /\ 1 + d <> 0.
Proof.
  intros Hd. pose proof roundoff_small as S. pose proof roundoff_pos as U. assert (P : 0 < 1 + d) by (destruct (Rabs_le_inv _ _ Hd); lra).
  exists (- d / (1 + d)). split; [|split; [field; lra|lra]]. unfold Rdiv. rewrite Rabs_mult, Rabs_Ropp, Rabs_inv, (Rabs_right (1 + d)) by lra.
  unfold roundings. cbn [pow]. apply Rmult_le_reg_r with (1 + d); [exact P|]. rewrite Rmult_assoc, Rinv_l by lra. destruct (Rabs_le_inv _ _ Hd). nra.
Qed.
