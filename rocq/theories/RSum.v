(** Finite sums over lists of real numbers. *)
From Verif Require Import Prelude Matrix.
From Coq Require Import Reals Lra Permutation.
Open Scope R_scope.

Definition Rsum {A} (l : list A) (f : A -> R) : R := fold_right (fun x s => f x + s) 0 l.

Lemma Rsum_cons {A} x (l : list A) f : Rsum (x :: l) f = f x + Rsum l f. Proof. reflexivity. Qed.
Lemma Rsum_nil {A} f : Rsum (@nil A) f = 0. Proof. reflexivity. Qed.
Lemma Rsum_app {A} (l1 l2 : list A) f : Rsum (l1 ++ l2)%list f = Rsum l1 f + Rsum l2 f.
Proof. induction l1 as [|x l1 IH]; cbn; [unfold Rsum; lra|]. unfold Rsum in *. lra. Qed.
Lemma Rsum_ext {A} (l : list A) f g : (forall x, In x l -> f x = g x) -> Rsum l f = Rsum l g.
Proof.
  induction l as [|x l IH]; intros E; [reflexivity|]. rewrite !Rsum_cons.
  rewrite (E x) by now left. rewrite IH; [reflexivity|]. intros; apply E; now right.
Qed.
Lemma Rsum_plus {A} (l : list A) f g : Rsum l (fun x => f x + g x) = Rsum l f + Rsum l g.
Proof. induction l as [|x l IH]; [unfold Rsum; cbn; lra|]. rewrite !Rsum_cons, IH. lra. Qed.
Lemma Rsum_minus {A} (l : list A) f g : Rsum l (fun x => f x - g x) = Rsum l f - Rsum l g.
Proof. induction l as [|x l IH]; [unfold Rsum; cbn; lra|]. rewrite !Rsum_cons, IH. lra. Qed.
Lemma Rsum_scal {A} (l : list A) c f : Rsum l (fun x => c * f x) = c * Rsum l f.
Proof. induction l as [|x l IH]; [unfold Rsum; cbn; lra|]. rewrite !Rsum_cons, IH. lra. Qed.
Lemma Rsum_scal_r {A} (l : list A) c f : Rsum l (fun x => f x * c) = Rsum l f * c.
Proof. induction l as [|x l IH]; [unfold Rsum; cbn; lra|]. rewrite !Rsum_cons, IH. lra. Qed.
Lemma Rsum_opp {A} (l : list A) f : Rsum l (fun x => - f x) = - Rsum l f.
Proof. induction l as [|x l IH]; [unfold Rsum; cbn; lra|]. rewrite !Rsum_cons, IH. lra. Qed.
Lemma Rsum_zero {A} (l : list A) f : (forall x, In x l -> f x = 0) -> Rsum l f = 0.
Proof.
  induction l as [|x l IH]; intros E; [reflexivity|]. rewrite Rsum_cons, (E x) by now left.
  rewrite IH; [lra|]. intros; apply E; now right.
Qed.
Lemma Rsum_exchange {A B} (l1 : list A) (l2 : list B) f :
  Rsum l1 (fun x => Rsum l2 (fun y => f x y)) = Rsum l2 (fun y => Rsum l1 (fun x => f x y)).
Proof.
  induction l1 as [|x l1 IH].
  - cbn. symmetry. now apply Rsum_zero.
  - rewrite Rsum_cons, IH. rewrite <- Rsum_plus. reflexivity.
Qed.
Lemma Rsum_map {A B} (g : A -> B) l f : Rsum (map g l) f = Rsum l (fun x => f (g x)).
Proof. induction l as [|x l IH]; [reflexivity|]. cbn [map]. now rewrite !Rsum_cons, IH. Qed.
Lemma Rsum_perm {A} (l1 l2 : list A) f : Permutation l1 l2 -> Rsum l1 f = Rsum l2 f.
Proof. induction 1; rewrite ?Rsum_cons in *; try lra. Qed.
Lemma Rsum_le {A} (l : list A) f g : (forall x, In x l -> f x <= g x) -> Rsum l f <= Rsum l g.
Proof.
  induction l as [|x l IH]; intros E; [cbn; lra|]. rewrite !Rsum_cons.
  pose proof (E x (or_introl eq_refl)). assert (Rsum l f <= Rsum l g) by (apply IH; intros; apply E; now right). lra.
Qed.
Lemma Rsum_nonneg {A} (l : list A) f : (forall x, In x l -> 0 <= f x) -> 0 <= Rsum l f.
Proof. intros E. rewrite <- (Rsum_zero l (fun _ => 0)) by auto. now apply Rsum_le. Qed.
Lemma Rsum_single {A} (dec : A -> A -> bool) (l : list A) x v :
  (forall a b, dec a b = true <-> a = b) -> NoDup l -> In x l ->
  Rsum l (fun y => if dec y x then v y else 0) = v x.
Proof.
  intros D ND I. induction ND as [|y l N ND IH]; [destruct I|]. rewrite Rsum_cons.
  destruct (dec y x) eqn:E.
  - apply D in E. subst y. rewrite Rsum_zero; [lra|]. intros z J. destruct (dec z x) eqn:E2; [|reflexivity].
    apply D in E2. subst. contradiction.
  - destruct I as [->|I]; [assert (Hx : dec x x = true) by (now apply D); congruence|]. rewrite (IH I). lra.
Qed.
Lemma fold_left_sum {A} (l : list A) (f : A -> R) a : fold_left (fun s x => s + f x) l a = a + Rsum l f.
Proof. revert a; induction l as [|x l IH]; intros a; cbn; [unfold Rsum; cbn; lra|]. rewrite IH. unfold Rsum; cbn. lra. Qed.
Lemma sum_upto_Rsum n (f : nat -> R) : sum_upto n f = Rsum (seq 0 n) f.
Proof. unfold sum_upto. cbn [nadd n0 RNum]. rewrite fold_left_sum. lra. Qed.

(** Sums over 0..n-1. *)
Definition Sum (n : nat) (f : nat -> R) : R := Rsum (seq 0 n) f.
Lemma Sum_S n f : Sum (S n) f = Sum n f + f n.
Proof. unfold Sum. rewrite seq_S, Rsum_app. cbn. lra. Qed.
Lemma Sum_shift n f : Sum (S n) f = f 0%nat + Sum n (fun k => f (S k)).
Proof. unfold Sum. cbn [seq]. rewrite Rsum_cons, <- seq_shift, Rsum_map. reflexivity. Qed.
Lemma Sum_ext n f g : (forall k, (k < n)%nat -> f k = g k) -> Sum n f = Sum n g.
Proof. intros E. apply Rsum_ext. intros k I. apply in_seq in I. apply E. lia. Qed.
Lemma Sum_zero n f : (forall k, (k < n)%nat -> f k = 0) -> Sum n f = 0.
Proof. intros E. apply Rsum_zero. intros k I. apply in_seq in I. apply E. lia. Qed.
Lemma Sum_plus n f g : Sum n (fun x => f x + g x) = Sum n f + Sum n g. Proof. apply Rsum_plus. Qed.
Lemma Sum_minus n f g : Sum n (fun x => f x - g x) = Sum n f - Sum n g. Proof. apply Rsum_minus. Qed.
Lemma Sum_scal n c f : Sum n (fun x => c * f x) = c * Sum n f. Proof. apply Rsum_scal. Qed.
Lemma Sum_scal_r n c f : Sum n (fun x => f x * c) = Sum n f * c. Proof. apply Rsum_scal_r. Qed.
Lemma Sum_opp n f : Sum n (fun x => - f x) = - Sum n f. Proof. apply Rsum_opp. Qed.
Lemma Sum_exchange n m f : Sum n (fun i => Sum m (fun j => f i j)) = Sum m (fun j => Sum n (fun i => f i j)).
Proof. apply Rsum_exchange. Qed.
Lemma Sum_single n k f : (k < n)%nat -> Sum n (fun j => if (j =? k)%nat then f j else 0) = f k.
Proof.
  intros L. unfold Sum. apply (Rsum_single Nat.eqb).
  - intros; apply Nat.eqb_eq.
  - apply seq_NoDup.
  - apply in_seq; lia.
Qed.
Lemma Sum_le n f g : (forall k, (k < n)%nat -> f k <= g k) -> Sum n f <= Sum n g.
Proof. intros E. apply Rsum_le. intros k I. apply in_seq in I. apply E; lia. Qed.
Lemma Sum_nonneg n f : (forall k, (k < n)%nat -> 0 <= f k) -> 0 <= Sum n f.
Proof. intros E. apply Rsum_nonneg. intros k I. apply in_seq in I. apply E; lia. Qed.
Lemma Sum_split n k f : (k < n)%nat -> Sum n f = f k + Sum n (fun j => if (j =? k)%nat then 0 else f j).
Proof.
  intros L. rewrite <- (Sum_single n k f L), <- Sum_plus. apply Sum_ext. intros j _. destruct (j =? k)%nat; lra.
Qed.
Lemma sum_upto_Sum n (f : nat -> R) : sum_upto n f = Sum n f. Proof. apply sum_upto_Rsum. Qed.

(** Dot products. *)
Lemma dot_Sum (a x : list R) n : List.length a = n -> List.length x = n ->
  dot a x = Sum n (fun i => nth i a 0 * nth i x 0).
Proof.
  revert x n; induction a as [|u a IH]; intros x n La Lx; cbn in La.
  - subst n. reflexivity.
  - destruct x as [|v x]; cbn in Lx; subst n; [discriminate|]. injection Lx as Lx.
    cbn [dot]. rewrite (IH x (List.length a)) by congruence. rewrite Sum_shift. reflexivity.
Qed.
Lemma lit_half : lit (T:=R) 5 1 = / 2.
Proof. unfold lit. cbn. lra. Qed.
