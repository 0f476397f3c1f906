(** A quadrature rule for elements of the orders 1 to 3: Boole's rule in both directions of the
    triangle. The concrete case beside the theorems about elements of any order. *)
From Coq Require Import QArith Reals Lra Factorial.
From Verif Require Import Prelude ModelM Matrix Solver Fem RSum SpecFem SpecTriangles SpecElements Triangles Elements RefElements.
Open Scope list_scope.

Section Boole.
  Context {T : Type} `{Num T}.
  Open Scope num_scope.
  Definition boole : list (T * T) := [(nq 0 4, nq 7 90); (nq 1 4, nq 32 90); (nq 2 4, nq 12 90); (nq 3 4, nq 32 90); (nq 4 4, nq 7 90)].
  Definition boole_rule : list (T * T * T) :=
    flat_map (fun u => map (fun v => ((fst u, fst v * (n1 - fst u)), (n1 - fst u) * (snd u * snd v))) boole) (firstn 4 boole).
End Boole.

Open Scope R_scope.
Lemma boole_positive q : In q (boole_rule (T:=R)) -> 0 < snd q.
Proof. cbn. intros H. repeat destruct H as [<-|H]; try destruct H; cbn; unfold nq; cbn; lra. Qed.
Lemma boole_segment : (forall q : R * R, In q boole -> 0 <= fst q <= 1 /\ 0 < snd q) /\ Rsum (boole (T:=R)) snd = 1.
Proof.
  split; [|cbn; unfold nq; cbn; lra]. cbn. intros q H. repeat destruct H as [<-|H]; try destruct H; cbn; unfold nq; cbn; lra.
Qed.
Lemma boole_exact : exact_to 4 (boole_rule (T:=R)).
Proof.
  intros i j L. destruct i as [|[|[|[|[|i]]]]]; try lia; destruct j as [|[|[|[|[|j]]]]]; try lia;
    (unfold Rsum, boole_rule, boole, nq; cbn [map flat_map firstn fst snd app fold_right pow fact Nat.add Nat.mul INR]; cbn [nadd nmul nsub ndiv n0 n1 nofZ RNum]; lra).
Qed.
Lemma exact_weaken n n' rule : (n' <= n)%nat -> exact_to n rule -> exact_to n' rule.
Proof. intros L E i j Lij. apply E. lia. Qed.
Lemma boole_unisolvent : unisolvent 3 (boole_rule (T:=R)).
Proof.
  intros a H.
  assert (K : forall u v w, In (u, v, w) boole_rule -> poly 3 a (u, v) = 0) by (intros u v w I; exact (H _ I)).
  assert (P : forall i j, (i < 4)%nat -> (j < 5)%nat -> poly 3 a (IZR (Z.of_nat i) / 4, IZR (Z.of_nat j) / 4 * (1 - IZR (Z.of_nat i) / 4)) = 0).
  { intros i j Li Lj. destruct i as [|[|[|[|i]]]]; try lia; destruct j as [|[|[|[|[|j]]]]]; try lia; eapply K; unfold boole_rule, boole, nq; cbn; tauto. }
  pose proof (P 0 0 ltac:(lia) ltac:(lia))%nat as P00. pose proof (P 0 1 ltac:(lia) ltac:(lia))%nat as P01. pose proof (P 0 2 ltac:(lia) ltac:(lia))%nat as P02. pose proof (P 0 4 ltac:(lia) ltac:(lia))%nat as P03.
  pose proof (P 1 0 ltac:(lia) ltac:(lia))%nat as P10. pose proof (P 1 2 ltac:(lia) ltac:(lia))%nat as P11. pose proof (P 1 4 ltac:(lia) ltac:(lia))%nat as P12.
  pose proof (P 2 0 ltac:(lia) ltac:(lia))%nat as P20. pose proof (P 2 4 ltac:(lia) ltac:(lia))%nat as P21. pose proof (P 3 0 ltac:(lia) ltac:(lia))%nat as P30.
  clear H K P. unfold poly, Sum, Rsum in *. cbn in *. 
  intros i j L. destruct i as [|[|[|[|i]]]]; try lia; destruct j as [|[|[|[|j]]]]; try lia; lra.
Qed.
Lemma unisolvent_weaken n rule : unisolvent (S n) rule -> unisolvent n rule.
Proof.
  intros U a H i j L. rewrite <- (U (fun i j => if (i + j <=? n)%nat then a i j else 0)) with (i := i) (j := j).
  - destruct (Nat.leb_spec (i + j) n); [reflexivity|lia].
  - intros q I. transitivity (poly n a (fst q)); [|exact (H q I)]. unfold poly.
    assert (Sl : forall (m : nat) (f : nat -> R), Sum (S m) f = Sum m f + f m).
    { intros m f. unfold Sum. rewrite seq_S, Rsum_app. unfold Rsum at 2. cbn. rewrite Rplus_0_r. reflexivity. }
    set (g := fun i : nat => Sum (S (S n - i)) (fun j => (if (i + j <=? n)%nat then a i j else 0) * (fst (fst q) ^ i * snd (fst q) ^ j))).
    change (Sum (S (S n)) g = Sum (S n) (fun i => Sum (S (n - i)) (fun j => a i j * (fst (fst q) ^ i * snd (fst q) ^ j)))).
    rewrite (Sl (S n)). assert (Z : g (S n) = 0).
    { unfold g. replace (S n - S n)%nat with 0%nat by lia. unfold Sum, Rsum. cbn [seq map fold_right]. replace (S n + 0 <=? n)%nat with false by (symmetry; apply Nat.leb_gt; lia). ring. }
    rewrite Z, Rplus_0_r. unfold g.
    apply Sum_ext. intros k Lk. replace (S n - k)%nat with (S (n - k))%nat by lia. rewrite (Sl (S (n - k))).
    destruct (Nat.leb_spec (k + S (n - k)) n); [lia|]. rewrite Rmult_0_l, Rplus_0_r. apply Sum_ext. intros l Ll. destruct (Nat.leb_spec (k + l) n); [reflexivity|lia].
  - lia.
Qed.
Theorem boole_rules k : (1 <= k <= 3)%nat -> rules_of_order k (boole (T:=R)) boole_rule boole_rule.
Proof.
  intros L. pose proof boole_unisolvent as U3. pose proof (unisolvent_weaken _ _ U3) as U2. pose proof (unisolvent_weaken _ _ U2) as U1. pose proof (unisolvent_weaken _ _ U1) as U0.
  constructor.
  - exact boole_segment.
  - split; [exact boole_positive|]. split; [exact (exact_weaken 4 (2 * (k - 1)) _ ltac:(lia) boole_exact)|]. assert (k = 1 \/ k = 2 \/ k = 3)%nat as [-> |[-> | ->]] by lia; assumption.
  - split; [exact boole_positive|]. split; [exact (exact_weaken 4 (2 * (k - 1)) _ ltac:(lia) boole_exact)|]. assert (k = 1 \/ k = 2 \/ k = 3)%nat as [-> |[-> | ->]] by lia; assumption.
Qed.
