(** Reference elements of the orders 1, 2 and 3 contain those of lower orders. *)
From Coq Require Import Reals Lra Ranalysis1.
From Verif Require Import Prelude ModelM Matrix Solver Fem RSum ListLemmas SpecFem SpecTriangles SpecElements SpecExtend Triangles Elements RefElements RefProofs.
Open Scope R_scope.
Open Scope list_scope.

Lemma products_agree k rule1 rule0 rule2 rule0' z w d d' : (1 <= k <= 3)%nat ->
  let ref := reference_of rule1 rule0 rule2 (Z.of_nat k) in
  exact_to (2 * (k - 1)) rule0 -> exact_to (2 * (k - 1)) rule0' ->
  List.length z = List.length (re_h1 ref (0, 0)) -> List.length w = List.length (re_h1 ref (0, 0)) ->
  (d = re_h1x ref \/ d = re_h1y ref) -> (d' = re_h1x ref \/ d' = re_h1y ref) ->
  Rsum rule0' (fun q => snd q * (dot (d (fst q)) z * dot (d' (fst q)) w)) = Rsum rule0 (fun q => snd q * (dot (d (fst q)) z * dot (d' (fst q)) w)).
Proof.
  intros L ref E E' Lz Lw Hd Hd'.
  assert (K : forall d z, d = re_h1x ref \/ d = re_h1y ref -> List.length z = List.length (re_h1 ref (0, 0)) -> exists a, forall p, dot (d p) z = poly (k - 1) a p).
  { clear z w d d' Lz Lw Hd Hd'. intros d z Hd Lz. assert (k = 1 \/ k = 2 \/ k = 3)%nat as [-> |[-> | ->]] by lia; cbn in Lz.
    - take z 3%nat. destruct Hd as [-> | ->]; eexists; intros p; [apply hx1_poly|apply hy1_poly].
    - take z 6%nat. destruct Hd as [-> | ->]; eexists; intros p; [apply hx2_poly|apply hy2_poly].
    - take z 10%nat. destruct Hd as [-> | ->]; eexists; intros p; [apply hx3_poly|apply hy3_poly]. }
  destruct (K d z Hd Lz) as (a & Ha). destruct (K d' w Hd' Lw) as (b & Hb).
  rewrite (Rsum_ext rule0' _ (fun q => snd q * (poly (k - 1) a (fst q) * poly (k - 1) b (fst q)))) by (intros q _; now rewrite Ha, Hb).
  rewrite (Rsum_ext rule0 _ (fun q => snd q * (poly (k - 1) a (fst q) * poly (k - 1) b (fst q)))) by (intros q _; now rewrite Ha, Hb).
  exact (same_products (k - 1) rule0' rule0 a b E' E).
Qed.
Lemma exact_less n n' rule : (n <= n')%nat -> exact_to n' rule -> exact_to n rule.
Proof. intros L E i j H. apply E. lia. Qed.

(** Coefficients of the higher order *)
Definition side_table (k k' : nat) : list (list R) :=
  match k, k' with
  | 1%nat, 2%nat => [[1/2; 1/2]]
  | 1%nat, 3%nat => [[2/3; 1/3]; [1/3; 2/3]]
  | 2%nat, 2%nat => [[0; 0; 1]]
  | 2%nat, 3%nat => [[2/9; -1/9; 8/9]; [-1/9; 2/9; 8/9]]
  | 3%nat, 3%nat => [[0; 0; 1; 0]; [0; 0; 0; 1]]
  | _, _ => []
  end.
Definition inner_table (k k' : nat) : list (list R) :=
  match k, k' with
  | 1%nat, 3%nat => [[1/3; 1/3; 1/3]]
  | 2%nat, 3%nat => [[-1/9; -1/9; -1/9; 4/9; 4/9; 4/9]]
  | 3%nat, 3%nat => [[0; 0; 0; 0; 0; 0; 0; 0; 0; 1]]
  | _, _ => []
  end.
Ltac tab := unfold side_table, inner_table in *; cbn [re_side re_inner linear quadratic cubic] in *.
Theorem orders_extend k k' rule1 rule0 rule2 rule1' rule0' rule2' : (1 <= k)%nat -> (k <= k')%nat -> (k' <= 3)%nat ->
  rules_of_order k rule1 rule0 rule2 -> rules_of_order k' rule1' rule0' rule2' ->
  extends (reference_of rule1 rule0 rule2 (Z.of_nat k)) (reference_of rule1' rule0' rule2' (Z.of_nat k')) (side_table k k') (inner_table k k').
Proof.
  intros L1 L2 L3 [_ (_ & E0 & _) _] [_ (_ & E0' & _) _].
  assert (Q : forall z w d d', let ref := reference_of rule1 rule0 rule2 (Z.of_nat k) in List.length z = List.length (re_h1 ref (0, 0)) -> List.length w = List.length (re_h1 ref (0, 0)) ->
    (d = re_h1x ref \/ d = re_h1y ref) -> (d' = re_h1x ref \/ d' = re_h1y ref) ->
    Rsum rule0' (fun q => snd q * (dot (d (fst q)) z * dot (d' (fst q)) w)) = Rsum rule0 (fun q => snd q * (dot (d (fst q)) z * dot (d' (fst q)) w))).
  { intros z w d d' ref. apply products_agree; [lia|exact E0|]. apply (exact_less _ (2 * (k' - 1))); [lia|exact E0']. }
  assert (Er : re_rule0 (reference_of rule1' rule0' rule2' (Z.of_nat k')) = rule0' /\ re_rule0 (reference_of rule1 rule0 rule2 (Z.of_nat k)) = rule0).
  { unfold reference_of. split; [destruct (Z.of_nat k' =? 1)%Z; [reflexivity|]; destruct (Z.of_nat k' =? 2)%Z; reflexivity|destruct (Z.of_nat k =? 1)%Z; [reflexivity|]; destruct (Z.of_nat k =? 2)%Z; reflexivity]. }
  assert ((k = 1 /\ k' = 1) \/ (k = 1 /\ k' = 2) \/ (k = 1 /\ k' = 3) \/ (k = 2 /\ k' = 2) \/ (k = 2 /\ k' = 3) \/ (k = 3 /\ k' = 3))%nat
    as [(-> & ->) |[(-> & ->) |[(-> & ->) |[(-> & ->) |[(-> & ->) |(-> & ->)]]]]] by lia;
  (constructor; [split; reflexivity| | |rewrite (proj1 Er), (proj2 Er); exact Q]); clear Q Er E0 E0'.
  all: change (reference_of ?x ?y ?z (Z.of_nat 1)) with (linear x y z); change (reference_of ?x ?y ?z (Z.of_nat 2)) with (quadratic x y z); change (reference_of ?x ?y ?z (Z.of_nat 3)) with (cubic x y z); tab.
  - intros p a b c l0 l1 l2 l (A0 & A1 & A2 & A3). take l0 0%nat. take l1 0%nat. take l2 0%nat. take l 0%nat. unf. field.
  - intros a b l A. take l 0%nat. reflexivity.
  - intros p a b c l0 l1 l2 l (A0 & A1 & A2 & A3). take l0 0%nat. take l1 0%nat. take l2 0%nat. take l 0%nat. unf. field.
  - intros a b l A. take l 0%nat. unf. f_equal; field.
  - intros p a b c l0 l1 l2 l (A0 & A1 & A2 & A3). take l0 0%nat. take l1 0%nat. take l2 0%nat. take l 0%nat. unf. field.
  - intros a b l A. take l 0%nat. unf. f_equal; [field|f_equal; field].
  - intros p a b c l0 l1 l2 l (A0 & A1 & A2 & A3). take l0 1%nat. take l1 1%nat. take l2 1%nat. take l 0%nat. unf. field.
  - intros a b l A. take l 1%nat. unf. f_equal; field.
  - intros p a b c l0 l1 l2 l (A0 & A1 & A2 & A3). take l0 1%nat. take l1 1%nat. take l2 1%nat. take l 0%nat. unf. field.
  - intros a b l A. take l 1%nat. unf. f_equal; [field|f_equal; field].
  - intros p a b c l0 l1 l2 l (A0 & A1 & A2 & A3). take l0 2%nat. take l1 2%nat. take l2 2%nat. take l 1%nat. unf. field.
  - intros a b l A. take l 2%nat. unf. f_equal; [field|f_equal; field].
Qed.
