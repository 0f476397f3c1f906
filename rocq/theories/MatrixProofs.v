(** Proofs about the capacitance matrices (C24-C29). *)
From Coq Require Import Reals Lra.
From Verif Require Import Prelude StdMap Json Materials Graph ModelM Parser Matrix Solver Domain Results Driver
  SpecMatrix RSum ListLemmas LinAlg.
Open Scope R_scope.
Open Scope list_scope.

Lemma nested_sum (n m : nat) (f : nat -> nat -> R) (d0 : R) :
  fold_left (fun d i => fold_left (fun d j => d + f i j) (seq 0 m) d) (seq 0 n) d0 =
  d0 + Sum n (fun i => Sum m (fun j => f i j)).
Proof.
  unfold Sum. generalize (seq 0 n) as l. intros l; revert d0; induction l as [|i l IH]; intros d0; [cbn [fold_left]; rewrite Rsum_nil; lra|].
  cbn [fold_left]. rewrite IH, fold_left_sum, Rsum_cons.
  rewrite Rplus_assoc. reflexivity.
Qed.

Lemma classic_exists n (y : nat -> R) : (exists j, (j < n)%nat /\ y j <> 0) \/ (forall j, (j < n)%nat -> y j = 0).
Proof.
  induction n as [|n [(j & L & N)|IH]]; [right; intros; lia|left; exists j; split; auto|].
  destruct (Req_dec (y n) 0) as [E|N]; [right|left; exists n; auto].
  intros j L. destruct (Nat.eq_dec j n) as [->|]; auto. apply IH. lia.
Qed.

Section Reduce.
  Variable g : matrix R.
  Variable n : nat.
  Hypothesis Sq : square (S n) g.
  Let Er : nr g = S n := proj1 Sq.
  Let Ec : nc g = S n := proj2 Sq.

  Lemma reduced_size o : square n (getCFromGeneralizedC g o).
  Proof. unfold getCFromGeneralizedC, square. destruct o; cbn; rewrite Er, Ec; split; lia. Qed.

  Definition rowsum i := Sum (S n) (fun k => ent g (S i) k).
  Definition colsum j := Sum (S n) (fun k => ent g k (S j)).
  Lemma reduced_open o i j : o <> Closed -> ent (getCFromGeneralizedC g o) i j = ent g (S i) (S j) - rowsum i * colsum j / total g.
  Proof.
    intros N. unfold getCFromGeneralizedC. destruct o; try congruence; cbn [ent nadd nsub nmul ndiv RNum n0];
    rewrite nested_sum, Rplus_0_l, !sum_upto_Sum; unfold total; rewrite ?Er, ?Ec; reflexivity.
  Qed.
  Lemma reduced_closed i j : ent (getCFromGeneralizedC g Closed) i j = ent g (S i) (S j).
  Proof. reflexivity. Qed.

  Lemma charge_shift (V : nat -> R) i : charge g V i =
    Sum n (fun j => ent g i (S j) * (V (S j) - V 0%nat)) + V 0%nat * Sum (S n) (fun k => ent g i k).
  Proof.
    assert (E : Sum n (fun j => ent g i (S j) * (V (S j) - V 0%nat)) =
                Sum n (fun j => ent g i (S j) * V (S j)) - Sum n (fun j => ent g i (S j)) * V 0%nat).
    { rewrite <- Sum_scal_r, <- Sum_minus. apply Sum_ext. intros; ring. }
    rewrite E. unfold charge. rewrite Ec, (Sum_shift n (fun k => ent g i k)), Sum_shift. ring.
  Qed.

  (** C24 *)
  Lemma closed_charges V i : (i < n)%nat -> Sum (nc g) (fun k => ent g (S i) k) = 0 ->
    charge g V (S i) = Sum n (fun j => ent (getCFromGeneralizedC g Closed) i j * (V (S j) - V 0%nat)).
  Proof. intros L Z. rewrite Ec in Z. rewrite charge_shift, Z. cbn. lra. Qed.

  Lemma closed_unique (c : nat -> nat -> R) :
    (forall V i, (i < n)%nat -> V 0%nat = 0 -> charge g V (S i) = Sum n (fun j => c i j * (V (S j) - V 0%nat))) ->
    forall i j, (i < n)%nat -> (j < n)%nat -> c i j = ent (getCFromGeneralizedC g Closed) i j.
  Proof.
    intros Hc i j Li Lj. set (V := fun k => if (k =? S j)%nat then 1 else 0).
    assert (Pick : forall f : nat -> R, Sum n (fun k => f k * (V (S k) - V 0%nat)) = f j).
    { intros f. rewrite (Sum_ext n _ (fun k => if (k =? j)%nat then f k else 0)); [now apply Sum_single|].
      intros k _. unfold V. cbn [Nat.eqb]. destruct (k =? j)%nat; ring. }
    pose proof (Hc V i Li eq_refl) as H1. rewrite (Pick (c i)) in H1. rewrite <- H1, reduced_closed, charge_shift.
    rewrite (Pick (fun k => ent g (S i) (S k))). unfold V; cbn [Nat.eqb]. ring.
  Qed.

  (** C25 *)
  Lemma total_charge V : Sum (nr g) (charge g V) =
    Sum n (fun j => colsum j * (V (S j) - V 0%nat)) + V 0%nat * total g.
  Proof.
    rewrite Er. rewrite (Sum_ext (S n) _ (fun i => Sum n (fun j => ent g i (S j) * (V (S j) - V 0%nat)) + V 0%nat * Sum (S n) (fun k => ent g i k)))
      by (intros; apply charge_shift).
    rewrite Sum_plus, Sum_scal, Sum_exchange. unfold total. rewrite Er, Ec. f_equal.
    apply Sum_ext. intros j _. unfold colsum. now rewrite Sum_scal_r.
  Qed.
  Lemma open_charges o V i : o <> Closed -> total g <> 0 -> (i < n)%nat -> Sum (nr g) (charge g V) = 0 ->
    charge g V (S i) = Sum n (fun j => ent (getCFromGeneralizedC g o) i j * (V (S j) - V 0%nat)).
  Proof.
    intros N D L Q. rewrite total_charge in Q. rewrite charge_shift. fold (rowsum i).
    rewrite (Sum_ext n (fun j => ent (getCFromGeneralizedC g o) i j * (V (S j) - V 0%nat))
              (fun j => ent g (S i) (S j) * (V (S j) - V 0%nat) - rowsum i / total g * (colsum j * (V (S j) - V 0%nat)))).
    - rewrite Sum_minus, Sum_scal. assert (E : V 0%nat = - Sum n (fun j => colsum j * (V (S j) - V 0%nat)) / total g).
      { apply (Rmult_eq_reg_r (total g)); [|exact D]. field_simplify; [|exact D]. lra. }
      rewrite E at 1. field. exact D.
    - intros j _. rewrite reduced_open by exact N. field. exact D.
  Qed.
  (** neutral potentials with given differences *)
  Definition neutral (W : nat -> R) (k : nat) : R :=
    match k with
    | O => - Sum n (fun j => colsum j * W j) / total g
    | S j => W j - Sum n (fun j => colsum j * W j) / total g
    end.
  Lemma neutral_diff W j : neutral W (S j) - neutral W 0%nat = W j.
  Proof. cbn. unfold Rdiv. ring. Qed.
  Lemma neutral_total W : total g <> 0 -> Sum (nr g) (charge g (neutral W)) = 0.
  Proof.
    intros D. rewrite total_charge. rewrite (Sum_ext n _ (fun j => colsum j * W j)) by (intros; now rewrite neutral_diff).
    cbn. field. exact D.
  Qed.
  Lemma open_unique o (c : nat -> nat -> R) : o <> Closed -> total g <> 0 ->
    (forall V i, (i < n)%nat -> Sum (nr g) (charge g V) = 0 ->
       charge g V (S i) = Sum n (fun j => c i j * (V (S j) - V 0%nat))) ->
    forall i j, (i < n)%nat -> (j < n)%nat -> c i j = ent (getCFromGeneralizedC g o) i j.
  Proof.
    intros N D H i j Li Lj. set (W := fun k => if (k =? j)%nat then 1 else 0).
    assert (Pick : forall f : nat -> R, Sum n (fun k => f k * (neutral W (S k) - neutral W 0%nat)) = f j).
    { intros f. rewrite (Sum_ext n _ (fun k => if (k =? j)%nat then f k else 0)); [now apply Sum_single|].
      intros k _. rewrite neutral_diff. unfold W. destruct (k =? j)%nat; ring. }
    pose proof (H (neutral W) i Li (neutral_total W D)) as H1. rewrite (Pick (c i)) in H1.
    pose proof (open_charges o (neutral W) i N D Li (neutral_total W D)) as H2.
    rewrite (Pick (fun k => ent (getCFromGeneralizedC g o) i k)) in H2. congruence.
  Qed.

  (** C27 *)
  Lemma reduced_symmetric o : symmetric g -> symmetric (getCFromGeneralizedC g o).
  Proof.
    intros S0 i j Li Lj. destruct (reduced_size o) as [R1 _]. rewrite R1 in *.
    assert (E : forall a b, (a < n)%nat -> (b < n)%nat -> ent g (S a) (S b) = ent g (S b) (S a)).
    { intros. apply S0; rewrite Er; lia. }
    assert (RC : forall a, (a < n)%nat -> rowsum a = colsum a).
    { intros a La. apply Sum_ext. intros k Lk. apply S0; rewrite Er; lia. }
    destruct o.
    - rewrite !reduced_open by discriminate. rewrite E, !RC by auto. unfold Rdiv. ring.
    - rewrite !reduced_open by discriminate. rewrite E, !RC by auto. unfold Rdiv. ring.
    - rewrite !reduced_closed. now apply E.
  Qed.
  Definition lift0 (W : nat -> R) (k : nat) : R := match k with O => 0 | S j => W j end.
  Lemma quad_closed W : quad (getCFromGeneralizedC g Closed) W = quad g (lift0 W).
  Proof.
    unfold quad, charge. destruct (reduced_size Closed) as [R1 R2]. rewrite R1, R2, Er, Ec.
    rewrite Sum_shift. cbn [lift0]. rewrite Rmult_0_l, Rplus_0_l. apply Sum_ext. intros i Li. f_equal.
    rewrite Sum_shift. cbn [lift0]. rewrite Rmult_0_r, Rplus_0_l. reflexivity.
  Qed.
  Lemma quad_open o W : o <> Closed -> symmetric g -> total g <> 0 ->
    quad (getCFromGeneralizedC g o) W = quad g (neutral W).
  Proof.
    intros N S0 D. unfold quad at 2. destruct (reduced_size o) as [R1 R2].
    pose proof (neutral_total W D) as Z.
    (* sum V_i q_i = sum (V_i - V_0) q_i, the total charge being zero *)
    assert (E : Sum (nr g) (fun i => neutral W i * charge g (neutral W) i) =
                Sum n (fun i => W i * charge g (neutral W) (S i))).
    { transitivity (Sum (nr g) (fun i => (neutral W i - neutral W 0%nat) * charge g (neutral W) i)).
      - transitivity (Sum (nr g) (fun i => neutral W i * charge g (neutral W) i) - neutral W 0%nat * Sum (nr g) (charge g (neutral W))).
        + rewrite Z. ring.
        + rewrite <- Sum_scal, <- Sum_minus. apply Sum_ext. intros; ring.
      - rewrite Er, Sum_shift. rewrite Rminus_diag_eq by reflexivity. rewrite Rmult_0_l, Rplus_0_l.
        apply Sum_ext. intros i _. now rewrite neutral_diff. }
    rewrite E. unfold quad. rewrite R1. apply Sum_ext. intros i Li. f_equal.
    unfold charge at 1. rewrite R2. rewrite (open_charges o (neutral W) i N D Li Z).
    apply Sum_ext. intros j _. now rewrite neutral_diff.
  Qed.
  Lemma reduced_pd o : symmetric g -> positive_for_differences g -> (o <> Closed -> 0 < total g) ->
    positive_definite (getCFromGeneralizedC g o).
  Proof.
    intros S0 P D W (k & Lk & Nk). destruct (reduced_size o) as [R1 R2]. rewrite R1 in Lk.
    assert (Cases : o = Closed \/ o <> Closed) by (destruct o; auto; right; discriminate).
    destruct Cases as [->|N].
    - rewrite quad_closed. apply P. exists (S k). rewrite Er. split; [lia|exact Nk].
    - rewrite quad_open by (auto; specialize (D N); lra). apply P. exists (S k). rewrite Er. split; [lia|].
      intros E. apply Nk. rewrite <- (neutral_diff W k). lra.
  Qed.
End Reduce.

Section Inverse.
  Variable a : matrix R.
  Variable n : nat.
  Hypothesis Sq : square n a.
  Let Er : nr a = n := proj1 Sq.
  Let Ec : nc a = n := proj2 Sq.
  Lemma pd_injective : positive_definite a -> injective a.
  Proof.
    intros P z Hz k Lk. destruct (Req_dec (z k) 0) as [E|N]; [exact E|]. exfalso.
    assert (Q : 0 < quad a z) by (apply P; eauto). unfold quad in Q.
    rewrite (Sum_zero (nr a)) in Q; [lra|]. intros i Li. specialize (Hz i Li).
    unfold apply_row in Hz. unfold charge. rewrite Ec, <- Er. rewrite Hz. ring.
  Qed.
  Lemma invert_product l : invert a = Ok l -> square n l /\ product_is n a l 1 /\ product_is n l a 1.
  Proof.
    intros E. destruct (invert_some a l) as (R1 & R2 & A & B); [congruence|exact E|].
    rewrite Er in *. split; [split; auto|]. split; intros i j Li Lj; [apply (A i j Li Lj)|apply (B i j Li Lj)].
  Qed.
  Lemma product_vec b c (H : product_is n b a c) (x : nat -> R) i : (i < n)%nat ->
    Sum n (fun k => ent b i k * Sum n (fun j => ent a k j * x j)) = c * x i.
  Proof.
    intros Li. rewrite (Sum_ext n _ (fun k => Sum n (fun j => ent b i k * ent a k j * x j))).
    2:{ intros k _. rewrite <- Sum_scal. apply Sum_ext. intros; ring. }
    rewrite Sum_exchange. rewrite (Sum_ext n _ (fun j => if (j =? i)%nat then c * x j else 0)).
    - now apply (Sum_single n i (fun j => c * x j)).
    - intros j Lj. rewrite Sum_scal_r, (H i j Li Lj), Nat.eqb_sym. destruct (j =? i)%nat; ring.
  Qed.
  Lemma inverse_sym l : symmetric a -> square n l -> product_is n a l 1 -> product_is n l a 1 -> symmetric l.
  Proof.
    intros Sa [L1 L2] A B i j Li Lj. rewrite L1 in *.
    (* l_ij = sum_kp l_ik a_kp l'_pj with l' = l^T, as a is symmetric *)
    assert (E1 : Sum n (fun k => ent l i k * Sum n (fun p => ent a k p * ent l j p)) = ent l j i).
    { rewrite (product_vec l 1 B (fun p => ent l j p) i Li). ring. }
    assert (E2 : forall k, (k < n)%nat -> Sum n (fun p => ent a k p * ent l j p) = if (j =? k)%nat then 1 else 0).
    { intros k Lk. rewrite <- (B j k Lj Lk). apply Sum_ext. intros p Lp. rewrite (Sa k p) by (rewrite Er; auto). ring. }
    rewrite <- E1. rewrite (Sum_ext n _ (fun k => if (k =? j)%nat then ent l i k else 0)).
    - symmetry. now apply Sum_single.
    - intros k Lk. rewrite E2 by auto. rewrite Nat.eqb_sym. destruct (k =? j)%nat; ring.
  Qed.
  Lemma inverse_pd l : positive_definite a -> square n l -> product_is n a l 1 -> positive_definite l.
  Proof.
    intros P [L1 L2] A x (k & Lk & Nk). rewrite L1 in *.
    set (y := charge l x).
    assert (Ay : forall i, (i < n)%nat -> Sum n (fun j => ent a i j * y j) = x i).
    { intros i Li. unfold y, charge. rewrite L2.
      rewrite (Sum_ext n _ (fun j => Sum n (fun m => ent a i j * ent l j m * x m))).
      2:{ intros j _. rewrite <- Sum_scal. apply Sum_ext; intros; ring. }
      rewrite Sum_exchange. rewrite (Sum_ext n _ (fun m => if (m =? i)%nat then x m else 0)).
      - now apply Sum_single.
      - intros m Lm. rewrite Sum_scal_r, (A i m Li Lm), Nat.eqb_sym. destruct (m =? i)%nat; ring. }
    assert (Q : quad l x = quad a y).
    { unfold quad. rewrite L1, Er. apply Sum_ext. intros i Li. unfold charge at 2. rewrite Ec, Ay by auto.
      fold y. ring. }
    rewrite Q. apply P. 
    destruct (classic_exists n y) as [Ex|No].
    - destruct Ex as (j & Lj & Nj). exists j. rewrite Er. auto.
    - exfalso. apply Nk. rewrite <- (Ay k Lk). apply Sum_zero. intros j Lj. rewrite (No j Lj). ring.
  Qed.
End Inverse.

(** ** C29 *)
Section Floating.
  Variable C : matrix R.
  Variable n : nat.
  Hypothesis Sq : square n C.
  Let Er : nr C = n := proj1 Sq.
  Let Ec : nc C = n := proj2 Sq.

  Definition fsys (i : nat) : matrix R := set_col C i (fun k => if (k =? i)%nat then nopp n1 else n0).
  (** the system has the charge of [i] in place of its potential *)
  Lemma fsys_row i (x : nat -> R) k : (i < n)%nat -> (k < n)%nat ->
    apply_row (fsys i) x k = ent C k i * - (1) <->
    charge C (fun j => if (j =? i)%nat then 1 else x j) k = if (k =? i)%nat then x i else 0.
  Proof.
    intros Li Lk. unfold apply_row, charge. cbn [nr fsys set_col]. rewrite Er, Ec.
    rewrite (Sum_split n i (fun j => ent (fsys i) k j * x j) Li).
    rewrite (Sum_split n i (fun j => ent C k j * (if (j =? i)%nat then 1 else x j)) Li).
    unfold fsys, set_col; cbn [ent]. rewrite Nat.eqb_refl.
    rewrite (Sum_ext n (fun j => if (j =? i)%nat then 0 else (if (j =? i)%nat then if (k =? i)%nat then nopp n1 else n0 else ent C k j) * x j)
       (fun j => if (j =? i)%nat then 0 else ent C k j * (if (j =? i)%nat then 1 else x j))).
    2:{ intros j _. destruct (j =? i)%nat; reflexivity. }
    set (s := Sum n _). cbn [nopp n1 n0 RNum]. destruct (k =? i)%nat; split; lra.
  Qed.
  Lemma floating_matrix_ok fp : floating_matrix C = Ok fp ->
    square n fp /\ forall i, (i < n)%nat ->
      floats C i (ent fp i) /\ forall V, floats C i V -> forall j, (j < n)%nat -> V j = ent fp i j.
  Proof.
    intros E. unfold floating_matrix in E. rewrite Er in E. apply bind_ok in E as (rows & Em & E). injection E as <-.
    split; [split; reflexivity|]. intros i Li. apply mapM_ok in Em.
    destruct (Forall2_nth _ _ _ i i Em) as (x & Ex & Hx).
    { rewrite nth_error_nth' with (d := 0%nat) by now rewrite seq_length. now rewrite seq_nth. }
    unfold floating_row, inverse_mult in Hx. fold (fsys i) in Hx. cbn zeta in Hx. cbn [nopp n1 nmul RNum] in Hx.
    destruct (solve_system (fsys i) (fun k => ent C k i * - (1))) as [y|] eqn:Es; [|discriminate]. injection Hx as ->.
    assert (Sf : nr (fsys i) = nc (fsys i)) by (cbn; congruence).
    destruct (solve_some _ _ _ Sf Es) as [Lx Hs]. cbn [nr fsys set_col] in Lx, Hs. rewrite Er in *.
    assert (Sx : forall k, (k < n)%nat -> apply_row (fsys i) (vec x) k = ent C k i * - (1)) by (now apply Hs).
    assert (Ev : forall j, ent {| nr := n; nc := n; ent := fun i0 j0 => if (i0 =? j0)%nat then 1 else nth j0 (nth i0 rows []) 0 |} i j
                 = if (j =? i)%nat then 1 else vec x j).
    { intros j. cbn [ent]. rewrite Nat.eqb_sym. rewrite (nth_error_nth rows i [] Ex). reflexivity. }
    split.
    - split; [rewrite Ev, Nat.eqb_refl; reflexivity|]. intros k Lk Nk. rewrite Er in Lk.
      pose proof (proj1 (fsys_row i (vec x) k Li Lk) (Sx k Lk)) as Q.
      replace (k =? i)%nat with false in Q by (symmetry; now apply Nat.eqb_neq). etransitivity; [|exact Q].
      unfold charge. apply Sum_ext. intros j _. now rewrite Ev.
    - intros V [Vi Vk] j Lj. rewrite Er in Vk. rewrite Ev. destruct (Nat.eqb_spec j i) as [->|Nj]; [exact Vi|].
      set (z := fun k => if (k =? i)%nat then charge C V i else V k).
      assert (Ez : to_list n z = x).
      { apply Hs; [apply to_list_length|]. intros k Lk.
        rewrite (apply_row_ext (fsys i) _ z) by (intros m Lm; apply vec_to_list; cbn in Lm; congruence).
        apply fsys_row; auto.
        transitivity (charge C V k).
        - unfold charge. apply Sum_ext. intros m _. unfold z. destruct (Nat.eqb_spec m i) as [->|]; [now rewrite Vi|reflexivity].
        - destruct (Nat.eqb_spec k i) as [->|Nk]; [unfold z; now rewrite Nat.eqb_refl|now apply Vk]. }
      rewrite <- Ez. rewrite vec_to_list by auto. unfold z. now rewrite (proj2 (Nat.eqb_neq _ _) Nj).
  Qed.
  (** regular systems: e.g. positive definite matrices *)
  Lemma floating_matrix_pd : symmetric C -> positive_definite C -> is_ok (floating_matrix C).
  Proof.
    intros S0 P. unfold floating_matrix. rewrite Er.
    destruct (mapM_total (floating_row C) (seq 0 n)) as [rows E]; [|rewrite E; eexists; reflexivity].
    intros i I. apply in_seq in I. assert (Li : (i < n)%nat) by lia. unfold floating_row, inverse_mult. fold (fsys i).
    destruct (injective_solves (fsys i) (fun k => nmul (ent C k i) (nopp n1))) as [x Ex].
    - cbn. congruence.
    - intros z Hz k Lk. cbn [nr fsys set_col] in *. rewrite Er in *.
      (* w = z without its component i: w^T C w = 0 *)
      set (w := fun j => if (j =? i)%nat then 0 else z j).
      assert (Q : forall k, (k < n)%nat -> charge C w k = if (k =? i)%nat then z i else 0).
      { intros m Lm. specialize (Hz m Lm). unfold apply_row in Hz. cbn [nr fsys set_col] in Hz. rewrite Er in Hz.
        rewrite (Sum_split n i _ Li) in Hz. unfold fsys, set_col in Hz; cbn [ent] in Hz. rewrite Nat.eqb_refl in Hz.
        unfold charge. rewrite Ec, (Sum_split n i _ Li). unfold w. rewrite Nat.eqb_refl.
        rewrite (Sum_ext n _ (fun j => if (j =? i)%nat then 0 else (if (j =? i)%nat then if (m =? i)%nat then nopp n1 else n0 else ent C m j) * z j)).
        - cbn [nopp n1 n0 RNum] in *. destruct (m =? i)%nat; lra.
        - intros j _. destruct (j =? i)%nat; lra. }
      assert (Zw : quad C w = 0).
      { unfold quad. rewrite Er. apply Sum_zero. intros m Lm. rewrite Q by auto. unfold w. destruct (m =? i)%nat; ring. }
      destruct (classic_exists n w) as [(j & Lj & Nj)|No].
      + exfalso. assert (0 < quad C w) by (apply P; exists j; rewrite Er; auto). lra.
      + destruct (Nat.eq_dec k i) as [->|Nk].
        * specialize (Q i Li). rewrite Nat.eqb_refl in Q. rewrite <- Q. unfold charge. apply Sum_zero.
          intros m Lm. rewrite Ec in Lm. rewrite (No m Lm). ring.
        * specialize (No k Lk). unfold w in No. now rewrite (proj2 (Nat.eqb_neq _ _) Nk) in No.
    - rewrite Ex. eexists; reflexivity.
  Qed.
End Floating.
