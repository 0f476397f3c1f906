(** Conjugate gradients with symmetric Gauss-Seidel, over the real numbers. *)
From Coq Require Import Reals Lra Lia Psatz.
From Verif Require Import Prelude Matrix Solver Fem Iterative RSum LinAlg ListLemmas.
Open Scope R_scope.
Open Scope list_scope.

Lemma nth_mapseq (f : nat -> R) n i : (i < n)%nat -> nth i (map f (seq 0 n)) 0 = f i.
Proof.
  intros L. rewrite (nth_indep _ 0 (f 0%nat)) by now rewrite map_length, seq_length. rewrite map_nth. now rewrite seq_nth.
Qed.
Lemma length_mapseq (f : nat -> R) n : List.length (map f (seq 0 n)) = n. Proof. now rewrite map_length, seq_length. Qed.
Lemma inner_Sum n (x y : list R) : inner n x y = Sum n (fun i => nth i x 0 * nth i y 0).
Proof. unfold inner. now rewrite sum_upto_Sum. Qed.
Lemma axpy_nth n (x : list R) c y i : (i < n)%nat -> nth i (axpy n x c y) 0 = nth i x 0 + c * nth i y 0.
Proof. intros L. unfold axpy. now rewrite nth_mapseq. Qed.
Lemma inner_axpy n (x : list R) c y v : inner n (axpy n x c y) v = inner n x v + c * inner n y v.
Proof.
  rewrite !inner_Sum, <- Sum_scal, <- Sum_plus. apply Sum_ext. intros i L. rewrite axpy_nth by exact L. ring.
Qed.
Lemma inner_comm n (x y : list R) : inner n x y = inner n y x.
Proof. rewrite !inner_Sum. apply Sum_ext. intros. ring. Qed.
Lemma inner_axpy_r n (x : list R) c y v : inner n v (axpy n x c y) = inner n v x + c * inner n v y.
Proof. rewrite inner_comm, inner_axpy, (inner_comm n x), (inner_comm n y). reflexivity. Qed.
Lemma mult_nth (A : matrix R) x i : (i < nr A)%nat -> nth i (mult A x) 0 = Sum (nr A) (fun j => ent A i j * nth j x 0).
Proof. intros L. unfold mult. rewrite nth_mapseq by exact L. now rewrite sum_upto_Sum. Qed.

(** ** Vectors that are orthogonal in a sense are not more than the coordinates *)
Lemma dependent : forall (cs : list nat) (vs : list (nat -> R)), (List.length cs < List.length vs)%nat ->
  exists a : nat -> R, (exists k, (k < List.length vs)%nat /\ a k <> 0) /\
    forall c, In c cs -> Sum (List.length vs) (fun k => a k * nth k vs (fun _ => 0) c) = 0.
Proof.
  induction cs as [|c cs IH]; intros vs L.
  - exists (fun _ => 1). split; [exists 0%nat; cbn in L; split; [lia|lra]|]. intros c [].
  - cbn [List.length] in L.
    destruct (Forall_Exists_dec (fun v : nat -> R => v c = 0) (fun v => Req_EM_T (v c) 0) vs) as [Z | Ex].
    + destruct (IH vs ltac:(lia)) as (a & Na & Ha). exists a. split; [exact Na|]. intros c' [<- | I]; [|now apply Ha].
      apply Sum_zero. intros k Lk. rewrite Forall_forall in Z. rewrite (Z (nth k vs (fun _ => 0))) by (now apply nth_In). ring.
    + apply Exists_exists in Ex as (p & Ip & Np). apply in_split in Ip as (l1 & l2 & ->).
      set (q := List.length l1). set (red := fun v : nat -> R => fun c' => v c' - v c / p c * p c').
      destruct (IH (map red (l1 ++ l2))) as (a & (k0 & Lk0 & Nk0) & Ha).
      { rewrite map_length, app_length. rewrite app_length in L. cbn in L. lia. }
      rewrite map_length in Lk0, Ha.
      set (n := List.length (l1 ++ l2)) in *.
      assert (Ln : List.length (l1 ++ p :: l2) = S n) by (unfold n; rewrite !app_length; cbn; lia). rewrite Ln.
      (* the place in the whole list of the k-th of the others *)
      set (b := fun k => if (k <? q)%nat then a k else if (k =? q)%nat then - Sum n (fun j => a j * (nth j (l1 ++ l2) (fun _ => 0) c / p c)) else a (k - 1)%nat).
      assert (Sb : forall f : (nat -> R) -> R, Sum (S n) (fun k => b k * f (nth k (l1 ++ p :: l2) (fun _ => 0))) = b q * f p + Sum n (fun k => a k * f (nth k (l1 ++ l2) (fun _ => 0)))).
      { intros f. assert (E : n = (q + List.length l2)%nat) by (unfold n, q; now rewrite app_length).
        assert (Split : forall N g, (q <= N)%nat -> Sum N g = Sum q g + Sum (N - q) (fun k => g (q + k)%nat)).
        { intros N g. induction N as [|N IHN]; intros Lq; [replace q with 0%nat by lia; unfold Sum; cbn; lra|].
          destruct (Nat.eq_dec q (S N)) as [-> | N1]; [rewrite Nat.sub_diag; unfold Sum at 3; cbn; lra|].
          replace (S N - q)%nat with (S (N - q))%nat by lia. rewrite !Sum_S, IHN by lia. replace (q + (N - q))%nat with N by lia. lra. }
        rewrite (Split (S n)) by lia. rewrite (Split n) by lia. replace (S n - q)%nat with (S (n - q))%nat by lia. rewrite Sum_shift.
        replace (q + 0)%nat with q by lia. rewrite (app_nth2 l1 (p :: l2)) by (unfold q; lia). replace (q - List.length l1)%nat with 0%nat by (unfold q; lia). cbn [nth].
        rewrite (Sum_ext q _ (fun k => a k * f (nth k (l1 ++ l2) (fun _ => 0)))).
        2:{ intros k Lk. unfold b. rewrite (proj2 (Nat.ltb_lt k q)) by exact Lk. rewrite !app_nth1 by (unfold q in Lk; lia). reflexivity. }
        rewrite (Sum_ext (n - q) (fun k => b (q + S k)%nat * _) (fun k => a (q + k)%nat * f (nth (q + k) (l1 ++ l2) (fun _ => 0)))).
        2:{ intros k Lk. unfold b. rewrite (proj2 (Nat.ltb_ge (q + S k) q)) by lia. rewrite (proj2 (Nat.eqb_neq (q + S k) q)) by lia.
            replace (q + S k - 1)%nat with (q + k)%nat by lia. rewrite !app_nth2 by (unfold q; lia). replace (q + S k - List.length l1)%nat with (S k) by (unfold q; lia).
            replace (q + k - List.length l1)%nat with k by (unfold q; lia). reflexivity. }
        lra. }
      assert (Bq : b q = - Sum n (fun j => a j * (nth j (l1 ++ l2) (fun _ => 0) c / p c))) by (unfold b; now rewrite Nat.ltb_irrefl, Nat.eqb_refl).
      exists b. split.
      { destruct (le_lt_dec q k0) as [Lq | Lq].
        - exists (S k0). split; [lia|]. unfold b. rewrite (proj2 (Nat.ltb_ge (S k0) q)) by lia. rewrite (proj2 (Nat.eqb_neq (S k0) q)) by lia. now replace (S k0 - 1)%nat with k0 by lia.
        - exists k0. split; [lia|]. unfold b. now rewrite (proj2 (Nat.ltb_lt k0 q)). }
      intros c' I. rewrite (Sb (fun v => v c')), Bq. destruct I as [<- | I].
      * rewrite (Sum_ext n (fun k => a k * (nth k (l1 ++ l2) (fun _ => 0) c / p c)) (fun k => / p c * (a k * nth k (l1 ++ l2) (fun _ => 0) c))) by (intros; unfold Rdiv; ring).
        rewrite Sum_scal. field. exact Np.
      * specialize (Ha c' I). assert (E0 : red (fun _ => 0) c' = 0) by (unfold red, Rdiv; ring).
        rewrite (Sum_ext n _ (fun k => a k * nth k (l1 ++ l2) (fun _ => 0) c' - p c' * (a k * (nth k (l1 ++ l2) (fun _ => 0) c / p c)))) in Ha.
        -- rewrite Sum_minus, Sum_scal in Ha. lra.
        -- intros k Lk. rewrite (nth_indep _ (fun _ => 0) (red (fun _ => 0))) by (rewrite map_length; exact Lk). rewrite map_nth. unfold red. ring.
Qed.

Lemma orthogonal_count n (pre : list R -> list R) (cs : list nat) : forall vs : list (list R),
  ForallOrdPairs (fun u v => inner n u (pre v) = 0 /\ inner n v (pre u) = 0) vs ->
  Forall (fun u => 0 < inner n u (pre u)) vs ->
  Forall (fun u => forall i, (i < n)%nat -> ~ In i cs -> nth i u 0 = 0) vs ->
  (List.length vs <= List.length cs)%nat.
Proof.
  intros vs Or Po Su. destruct (le_lt_dec (List.length vs) (List.length cs)) as [L | L]; [exact L|exfalso].
  set (coords := fun (u : list R) c => nth c u 0).
  destruct (dependent cs (map coords vs)) as (a & (k & Lk & Nk) & Ha); [now rewrite map_length|].
  rewrite map_length in Lk, Ha.
  assert (Hv : forall i, (i < n)%nat -> Sum (List.length vs) (fun j => a j * nth i (nth j vs []) 0) = 0).
  { intros i Li. destruct (in_dec Nat.eq_dec i cs) as [I | I].
    - refine (eq_trans _ (Ha i I)). apply Sum_ext. intros j Lj. f_equal. 
      rewrite (nth_indep _ (fun _ => 0) (coords [])) by (rewrite map_length; exact Lj). rewrite map_nth. unfold coords. reflexivity.
    - apply Sum_zero. intros j Lj. rewrite Forall_forall in Su. rewrite (Su (nth j vs [])); auto; [ring|now apply nth_In]. }
  assert (Hn : forall j, (j < List.length vs)%nat -> j <> k -> inner n (nth j vs []) (pre (nth k vs [])) = 0).
  { clear -Or Lk. revert k Lk. induction Or as [|u l H Or IH]; intros k Lk j Lj N; cbn in Lk, Lj; [lia|]. rewrite Forall_forall in H.
    destruct j as [|j], k as [|k]; cbn [nth]; [lia| | |].
    - apply H, nth_In. lia.
    - apply H, nth_In. lia.
    - apply IH; lia. }
  assert (Z : Sum (List.length vs) (fun j => a j * inner n (nth j vs []) (pre (nth k vs []))) = 0).
  { rewrite (Sum_ext _ _ (fun j => Sum n (fun i => (a j * nth i (nth j vs []) 0) * nth i (pre (nth k vs [])) 0))).
    - rewrite Sum_exchange. apply Sum_zero. intros i Li. rewrite Sum_scal_r, Hv by exact Li. ring.
    - intros j _. rewrite inner_Sum, <- Sum_scal. apply Sum_ext. intros. ring. }
  rewrite (Sum_ext _ _ (fun j => if (j =? k)%nat then a j * inner n (nth j vs []) (pre (nth k vs [])) else 0)) in Z.
  - rewrite (Sum_single _ k (fun j => a j * inner n (nth j vs []) (pre (nth k vs []))) Lk) in Z.
    rewrite Forall_forall in Po. pose proof (Po (nth k vs []) (nth_In _ _ Lk)) as P. apply Rmult_integral in Z as [Z | Z]; [contradiction|lra].
  - intros j Lj. destruct (Nat.eqb_spec j k) as [-> | N]; [reflexivity|]. rewrite Hn by auto. ring.
Qed.

(** ** Symmetric Gauss-Seidel *)
Section Smoother.
  Variable A : matrix R.
  Notation n := (nr A).
  Hypothesis Sym : forall i j, (i < n)%nat -> (j < n)%nat -> ent A i j = ent A j i.
  Hypothesis Diag : forall i, (i < n)%nat -> 0 < ent A i i.

  (** the parts of A x below and above the diagonal *)
  Definition low (x : list R) (i : nat) : R := Sum n (fun j => if (j <? i)%nat then ent A i j * nth j x 0 else 0).
  Definition upp (x : list R) (i : nat) : R := Sum n (fun j => if (i <? j)%nat then ent A i j * nth j x 0 else 0).
  Lemma mult_parts x i : (i < n)%nat -> nth i (mult A x) 0 = low x i + ent A i i * nth i x 0 + upp x i.
  Proof.
    intros L. rewrite mult_nth by exact L. unfold low, upp. rewrite <- (Sum_single n i (fun j => ent A i j * nth j x 0) L), <- !Sum_plus.
    apply Sum_ext. intros j Lj. destruct (Nat.ltb_spec j i), (Nat.eqb_spec j i), (Nat.ltb_spec i j); try lia; lra.
  Qed.
  Lemma others x i : Sum n (fun j => if (j =? i)%nat then 0 else ent A i j * nth j x 0) = low x i + upp x i.
  Proof.
    unfold low, upp. rewrite <- Sum_plus. apply Sum_ext. intros j Lj. destruct (Nat.ltb_spec j i), (Nat.eqb_spec j i), (Nat.ltb_spec i j); try lia; lra.
  Qed.
  Lemma gs_row_nth b y i k : (k < n)%nat -> nth k (gs_row A b y i) 0 = if (k =? i)%nat then (nth i b 0 - (low y i + upp y i)) / ent A i i else nth k y 0.
  Proof. intros L. unfold gs_row. rewrite nth_mapseq by exact L. destruct (k =? i)%nat; [|reflexivity]. rewrite sum_upto_Sum. rewrite <- others. reflexivity. Qed.
  Lemma low_ext x y i : (forall j, (j < i)%nat -> (j < n)%nat -> nth j x 0 = nth j y 0) -> low x i = low y i.
  Proof. intros E. apply Sum_ext. intros j Lj. destruct (Nat.ltb_spec j i); [rewrite E by lia|]; reflexivity. Qed.
  Lemma upp_ext x y i : (forall j, (i < j)%nat -> (j < n)%nat -> nth j x 0 = nth j y 0) -> upp x i = upp y i.
  Proof. intros E. apply Sum_ext. intros j Lj. destruct (Nat.ltb_spec i j); [rewrite E by lia|]; reflexivity. Qed.
  Lemma upp_zero x i : (forall j, (i < j)%nat -> (j < n)%nat -> nth j x 0 = 0) -> upp x i = 0.
  Proof. intros E. apply Sum_zero. intros j Lj. destruct (Nat.ltb_spec i j); [rewrite E by lia; ring|reflexivity]. Qed.
  Lemma forw_spec b k : (k <= n)%nat ->
    let y := fold_left (gs_row A b) (seq 0 k) (repeat 0 n) in
    (forall i, (i < k)%nat -> low y i + ent A i i * nth i y 0 = nth i b 0) /\ (forall i, (k <= i)%nat -> (i < n)%nat -> nth i y 0 = 0).
  Proof.
    induction k as [|k IH]; intros L y.
    - split; [lia|]. intros i _ Li. apply nth_repeat.
    - unfold y. rewrite seq_S, fold_left_app. cbn [fold_left Nat.add]. destruct (IH ltac:(lia)) as (H1 & H2). set (y0 := fold_left _ _ _) in *. split.
      + intros i Li.
        assert (E : low (gs_row A b y0 k) i = low y0 i).
        { apply low_ext. intros j Lj Ljn. rewrite gs_row_nth by exact Ljn. rewrite (proj2 (Nat.eqb_neq j k)) by lia. reflexivity. }
        rewrite E, gs_row_nth by lia. destruct (Nat.eqb_spec i k) as [-> | N].
        * rewrite upp_zero; [|intros j Lj Ljn; apply H2; lia]. pose proof (Diag k ltac:(lia)). field. lra.
        * apply H1. lia.
      + intros i Li Lin. rewrite gs_row_nth by exact Lin. rewrite (proj2 (Nat.eqb_neq i k)) by lia. apply H2; lia.
  Qed.
  Lemma back_spec b y k : (k <= n)%nat -> (forall i, (i < n)%nat -> low y i + ent A i i * nth i y 0 = nth i b 0) ->
    let z := fold_left (gs_row A b) (rev (seq (n - k) k)) y in
    (forall i, (n - k <= i)%nat -> (i < n)%nat -> ent A i i * nth i z 0 + upp z i = ent A i i * nth i y 0) /\
    (forall i, (i < n - k)%nat -> nth i z 0 = nth i y 0).
  Proof.
    intros L Hy. induction k as [|k IH]; intros z.
    - split; [intros; lia|]. reflexivity.
    - unfold z. replace (n - k)%nat with (S (n - S k)) in IH by lia. cbn [seq rev]. rewrite fold_left_app. cbn [fold_left].
      destruct (IH ltac:(lia)) as (H1 & H2). set (z0 := fold_left _ _ y) in *. set (q := (n - S k)%nat) in *.
      assert (Lq : (q < n)%nat) by (unfold q; lia).
      assert (Eu : forall i, (q <= i)%nat -> upp (gs_row A b z0 q) i = upp z0 i).
      { intros i Li. apply upp_ext. intros j Lj Ljn. rewrite gs_row_nth by exact Ljn. rewrite (proj2 (Nat.eqb_neq j q)) by lia. reflexivity. }
      split.
      + intros i Li Lin. rewrite Eu by exact Li. rewrite gs_row_nth by exact Lin. destruct (Nat.eqb_spec i q) as [-> | N].
        * rewrite <- (Hy q Lq). rewrite (low_ext z0 y q) by (intros j Lj _; apply H2; lia). pose proof (Diag q Lq). field. lra.
        * apply H1; lia.
      + intros i Li. rewrite gs_row_nth by lia. rewrite (proj2 (Nat.eqb_neq i q)) by lia. apply H2. lia.
  Qed.
  (** (D + L) y = b, (D + U) z = D y *)
  Lemma smooth_spec b : exists y, List.length y = n /\
    (forall i, (i < n)%nat -> low y i + ent A i i * nth i y 0 = nth i b 0) /\
    (forall i, (i < n)%nat -> ent A i i * nth i (smooth A b) 0 + upp (smooth A b) i = ent A i i * nth i y 0).
  Proof.
    exists (gs_forw A b (repeat 0 n)). split.
    { unfold gs_forw. generalize (repeat_length 0 n). generalize (repeat 0 n). generalize (seq 0 n) at 1. induction l as [|i l IH]; intros y L; [exact L|].
      cbn [fold_left]. apply IH. unfold gs_row. apply length_mapseq. }
    destruct (forw_spec b n (le_n _)) as (H1 & _). split; [exact H1|].
    destruct (back_spec b (gs_forw A b (repeat 0 n)) n (le_n _) H1) as (H2 & _). rewrite Nat.sub_diag in H2. intros i L. apply H2; lia.
  Qed.
  Lemma smooth_length b : List.length (smooth A b) = n.
  Proof.
    unfold smooth, gs_back. destruct (Nat.eq_dec n 0) as [E | N]; [rewrite E; unfold gs_forw; rewrite E; reflexivity|].
    assert (H : forall l y, l <> [] -> List.length (fold_left (gs_row A b) l y) = n).
    { intros l. destruct l as [|i l] using rev_ind; [easy|]. intros y _. rewrite fold_left_app. apply length_mapseq. }
    apply H. intros E. apply (f_equal (@List.length nat)) in E. rewrite rev_length, seq_length in E. contradiction.
  Qed.
  Lemma low_upp x y : Sum n (fun i => nth i x 0 * low y i) = Sum n (fun i => upp x i * nth i y 0).
  Proof.
    unfold low, upp.
    rewrite (Sum_ext n _ (fun i => Sum n (fun j => if (j <? i)%nat then nth i x 0 * (ent A i j * nth j y 0) else 0))).
    2:{ intros i _. rewrite <- Sum_scal. apply Sum_ext. intros j _. destruct (j <? i)%nat; ring. }
    rewrite Sum_exchange. apply Sum_ext. intros j Lj. rewrite <- Sum_scal_r. apply Sum_ext. intros i Li.
    destruct (j <? i)%nat; [rewrite (Sym i j Li Lj)|]; ring.
  Qed.
  (** the inner product of the preconditioner *)
  Lemma smooth_inner b b' y y' :
    (forall i, (i < n)%nat -> low y i + ent A i i * nth i y 0 = nth i b 0) ->
    (forall i, (i < n)%nat -> ent A i i * nth i (smooth A b) 0 + upp (smooth A b) i = ent A i i * nth i y 0) ->
    (forall i, (i < n)%nat -> low y' i + ent A i i * nth i y' 0 = nth i b' 0) ->
    inner n b' (smooth A b) = Sum n (fun i => ent A i i * nth i y 0 * nth i y' 0).
  Proof.
    intros Hb Hz Hb'. rewrite inner_comm, inner_Sum.
    rewrite (Sum_ext n _ (fun i => nth i (smooth A b) 0 * low y' i + nth i (smooth A b) 0 * (ent A i i * nth i y' 0))).
    2:{ intros i L. rewrite <- Hb' by exact L. ring. }
    rewrite Sum_plus, low_upp, <- Sum_plus. apply Sum_ext. intros i L. rewrite <- Hz by exact L. ring.
  Qed.
  Lemma smooth_sym b b' : inner n b' (smooth A b) = inner n b (smooth A b').
  Proof.
    destruct (smooth_spec b) as (y & _ & Hb & Hz). destruct (smooth_spec b') as (y' & _ & Hb' & Hz').
    rewrite (smooth_inner b b' y y' Hb Hz Hb'), (smooth_inner b' b y' y Hb' Hz' Hb). apply Sum_ext. intros. ring.
  Qed.
  Lemma smooth_pos b : 0 <= inner n b (smooth A b) /\ (inner n b (smooth A b) = 0 -> forall i, (i < n)%nat -> nth i b 0 = 0).
  Proof.
    destruct (smooth_spec b) as (y & _ & Hb & Hz). rewrite (smooth_inner b b y y Hb Hz Hb).
    assert (P : forall i, In i (seq 0 n) -> 0 <= ent A i i * nth i y 0 * nth i y 0).
    { intros i I. apply in_seq in I. pose proof (Diag i ltac:(lia)). rewrite Rmult_assoc. apply Rmult_le_pos; [lra|apply Rle_0_sqr]. }
    split; [now apply Rsum_nonneg|]. intros Z.
    assert (Y : forall i, (i < n)%nat -> nth i y 0 = 0).
    { intros i L. assert (I : In i (seq 0 n)) by (apply in_seq; lia).
      assert (Zi : ent A i i * nth i y 0 * nth i y 0 = 0).
      { clear -P Z I. unfold Sum in Z. induction (seq 0 n) as [|k l IH]; [destruct I|]. rewrite Rsum_cons in Z.
        assert (0 <= Rsum l (fun i => ent A i i * nth i y 0 * nth i y 0)) by (apply Rsum_nonneg; intros; apply P; now right).
        pose proof (P k (or_introl eq_refl)). destruct I as [-> | I]; [lra|]. apply IH; [intros; apply P; now right|lra|exact I]. }
      pose proof (Diag i L). rewrite Rmult_assoc in Zi. apply Rmult_integral in Zi as [Zi | Zi]; [lra|]. now apply Rsqr_0_uniq. }
    intros i L. rewrite <- (Hb i L), (Y i L). assert (E : low y i = 0); [|lra]. apply Sum_zero. intros j Lj. destruct (j <? i)%nat; [rewrite Y by exact Lj|]; ring.
  Qed.
End Smoother.

(** ** Conjugate gradients *)
Section Cg.
  Variable A : matrix R.
  Notation n := (nr A).
  Hypothesis Sym : forall i j, (i < n)%nat -> (j < n)%nat -> ent A i j = ent A j i.
  Hypothesis Pos : forall x, (exists i, (i < n)%nat /\ nth i x 0 <> 0) -> 0 < inner n x (mult A x).
  Notation ip := (inner n).
  Notation pre := (smooth A).
  Lemma pos_diag i : (i < n)%nat -> 0 < ent A i i.
  Proof.
    intros L. set (x := map (fun k => if (k =? i)%nat then 1 else 0) (seq 0 n)).
    assert (X : forall k, (k < n)%nat -> nth k x 0 = if (k =? i)%nat then 1 else 0) by (intros k Lk; exact (nth_mapseq _ _ _ Lk)).
    assert (P : 0 < ip x (mult A x)) by (apply Pos; exists i; split; [exact L|]; rewrite X, Nat.eqb_refl by exact L; lra).
    rewrite inner_Sum in P. rewrite (Sum_ext n _ (fun k => if (k =? i)%nat then nth k (mult A x) 0 else 0)) in P.
    - rewrite (Sum_single n i (fun k => nth k (mult A x) 0) L), mult_nth in P by exact L.
      rewrite (Sum_ext n _ (fun j => if (j =? i)%nat then ent A i j else 0)) in P; [now rewrite (Sum_single n i (fun j => ent A i j) L) in P|].
      intros j Lj. rewrite X by exact Lj. destruct (j =? i)%nat; ring.
    - intros k Lk. rewrite X by exact Lk. destruct (k =? i)%nat; ring.
  Qed.
  Lemma mult_sym x y : ip (mult A x) y = ip x (mult A y).
  Proof.
    rewrite !inner_Sum.
    rewrite (Sum_ext n _ (fun i => Sum n (fun j => ent A i j * nth j x 0 * nth i y 0))) by (intros i L; rewrite mult_nth by exact L; now rewrite <- Sum_scal_r).
    rewrite Sum_exchange. apply Sum_ext. intros j Lj. rewrite mult_nth by exact Lj. rewrite <- Sum_scal. apply Sum_ext. intros i Li. rewrite (Sym i j Li Lj). ring.
  Qed.
  Lemma mult_axpy x c y i : (i < n)%nat -> nth i (mult A (axpy n x c y)) 0 = nth i (mult A x) 0 + c * nth i (mult A y) 0.
  Proof.
    intros L. rewrite !mult_nth by exact L. rewrite <- Sum_scal, <- Sum_plus. apply Sum_ext. intros j Lj. rewrite axpy_nth by exact Lj. ring.
  Qed.
  Lemma inner_ext x y v : (forall i, (i < n)%nat -> nth i x 0 = nth i y 0) -> ip x v = ip y v.
  Proof. intros E. rewrite !inner_Sum. apply Sum_ext. intros i L. now rewrite E. Qed.
  Lemma ip_mult_axpy x c y v : ip (mult A (axpy n x c y)) v = ip (mult A x) v + c * ip (mult A y) v.
  Proof. rewrite <- inner_axpy. apply inner_ext. intros i L. now rewrite mult_axpy, axpy_nth. Qed.
  Lemma pre_sym u v : ip u (pre v) = ip v (pre u).
  Proof. apply smooth_sym; [exact Sym|exact pos_diag]. Qed.
  Lemma inner_nonzero u v : ip u v <> 0 -> exists i, (i < n)%nat /\ nth i u 0 <> 0.
  Proof.
    intros N. destruct (existsb (fun i => negb (Reqb (nth i u 0) 0)) (seq 0 n)) eqn:E.
    - apply existsb_exists in E as (i & I & H). apply in_seq in I. exists i. split; [lia|]. unfold Reqb in H. destruct (Req_EM_T (nth i u 0) 0); [discriminate|auto].
    - exfalso. apply N. rewrite inner_Sum. apply Sum_zero. intros i L. destruct (Req_EM_T (nth i u 0) 0) as [-> | Ni]; [ring|]. exfalso.
      assert (H : existsb (fun i => negb (Reqb (nth i u 0) 0)) (seq 0 n) = true); [|congruence]. apply existsb_exists. exists i. split; [apply in_seq; lia|].
      unfold Reqb. destruct (Req_EM_T (nth i u 0) 0); [contradiction|reflexivity].
  Qed.

  (** the form of the preconditioner *)
  Definition half (x : list R) (i : nat) : R := ent A i i * nth i x 0 + upp A x i.
  Definition mform (x : list R) : R := Sum n (fun i => half x i * half x i / ent A i i).
  Lemma mform_form x : mform x = ip x (mult A x) + Sum n (fun i => upp A x i * upp A x i / ent A i i).
  Proof.
    rewrite inner_Sum, <- Sum_plus.
    rewrite (Sum_ext n (fun i => nth i x 0 * nth i (mult A x) 0 + _) (fun i => nth i x 0 * low A x i + (ent A i i * nth i x 0 * nth i x 0 + nth i x 0 * upp A x i + upp A x i * upp A x i / ent A i i))).
    2:{ intros i L. rewrite (mult_parts A x i L). ring. }
    rewrite Sum_plus, (low_upp A Sym), <- Sum_plus. apply Sum_ext. intros i L. unfold half. pose proof (pos_diag i L). field. lra.
  Qed.
  Lemma mform_above x : ip x (mult A x) <= mform x.
  Proof.
    rewrite mform_form. assert (0 <= Sum n (fun i => upp A x i * upp A x i / ent A i i)); [|lra]. apply Sum_nonneg. intros i L. pose proof (pos_diag i L).
    apply Rmult_le_pos; [apply Rle_0_sqr|left; now apply Rinv_0_lt_compat].
  Qed.
  Lemma pre_form r : ip (pre r) (mult A (pre r)) <= ip r (pre r).
  Proof.
    set (w := pre r). destruct (smooth_spec A pos_diag r) as (y & _ & H1 & H2). pose proof (mform_above w) as H.
    assert (E' : mform w = ip r w).
    { unfold w. rewrite (smooth_inner A Sym r r y y H1 H2 H1). unfold mform. apply Sum_ext. intros i L. unfold half. rewrite H2 by exact L.
      pose proof (pos_diag i L). field. lra. }
    lra.
  Qed.

  (** coordinates decoupled from the others, fixed by the iteration *)
  Variable fixed : nat -> Prop.
  Hypothesis Decoupled : forall i j, fixed i -> (i < n)%nat -> (j < n)%nat -> j <> i -> ent A i j = 0.
  Definition null (u : list R) : Prop := forall i, fixed i -> (i < n)%nat -> nth i u 0 = 0.
  Lemma null_mult u : null u -> null (mult A u).
  Proof.
    intros H i Fi L. rewrite mult_nth by exact L. apply Sum_zero. intros j Lj. destruct (Nat.eq_dec j i) as [-> | N]; [rewrite H by auto; ring|].
    rewrite Decoupled by auto. ring.
  Qed.
  Lemma null_axpy u c v : null u -> null v -> null (axpy n u c v).
  Proof. intros H H' i Fi L. rewrite axpy_nth, H, H' by auto. ring. Qed.
  Lemma null_pre u : null u -> null (pre u).
  Proof.
    intros H i Fi L. destruct (smooth_spec A pos_diag u) as (y & _ & H1 & H2). pose proof (pos_diag i L) as P.
    assert (Yi : nth i y 0 = 0).
    { specialize (H1 i L). rewrite (H i Fi L) in H1. assert (E : low A y i = 0).
      { apply Sum_zero. intros j Lj. destruct (Nat.ltb_spec j i); [rewrite Decoupled by (auto; lia); ring|reflexivity]. }
      rewrite E in H1. apply Rmult_eq_reg_l with (r := ent A i i); lra. }
    specialize (H2 i L). rewrite Yi in H2. assert (E : upp A (pre u) i = 0).
    { apply Sum_zero. intros j Lj. destruct (Nat.ltb_spec i j); [rewrite Decoupled by (auto; lia); ring|reflexivity]. }
    rewrite E in H2. apply Rmult_eq_reg_l with (r := ent A i i); lra.
  Qed.

  Variable b : list R.
  (** the functional minimised *)
  Definition phi (x : list R) : R := / 2 * ip x (mult A x) - ip b x.
  Definition residual (x r : list R) : Prop := forall i, (i < n)%nat -> nth i r 0 = nth i b 0 - nth i (mult A x) 0.
  Lemma residual_inner x r v : residual x r -> ip r v = ip b v - ip (mult A x) v.
  Proof. intros H. rewrite !inner_Sum, <- Sum_minus. apply Sum_ext. intros i L. rewrite H by exact L. ring. Qed.
  Lemma phi_step x r c d : residual x r -> phi (axpy n x c d) = phi x - c * ip d r + c * c / 2 * ip d (mult A d).
  Proof.
    intros H. unfold phi. rewrite inner_axpy_r, inner_axpy.
    rewrite (inner_comm n x (mult A (axpy n x c d))), (inner_comm n d (mult A (axpy n x c d))), !ip_mult_axpy.
    rewrite (inner_comm n d r), (residual_inner x r d H), (inner_comm n x (mult A x)), (inner_comm n d (mult A d)), (mult_sym d x), (inner_comm n d (mult A x)). field.
  Qed.
  Lemma residual_step x r c d z : residual x r -> (forall i, (i < n)%nat -> nth i z 0 = nth i (mult A d) 0) -> residual (axpy n x c d) (axpy n r (- c) z).
  Proof. intros H Z i L. rewrite axpy_nth, mult_axpy, H, Z by exact L. ring. Qed.

  Definition orth (rs : list (list R)) : Prop :=
    ForallOrdPairs (fun u v => ip u (pre v) = 0 /\ ip v (pre u) = 0) rs /\ Forall (fun u => 0 < ip u (pre u)) rs /\ Forall null rs.
  Record inv (x r d : list R) (nom den : R) (dirs ress : list (list R)) : Prop := {
    i_res : residual x r;
    i_nom : ip d r = nom /\ nom = ip r (pre r) /\ 0 < nom;
    i_den : den = ip d (mult A d) /\ 0 < den <= nom;
    i_null : null r /\ null d;
    i_dirs : forall d', In d' dirs -> ip d' r = 0 /\ ip (mult A d') d = 0;
    i_ress : orth (r :: ress);
    i_e : forall v, (forall d', In d' (d :: dirs) -> ip d' v = 0) -> forall r', In r' (r :: ress) -> ip (pre r') v = 0;
    i_f : forall v, (forall r', In r' (r :: ress) -> ip r' v = 0) -> forall d', In d' dirs -> ip (mult A d') v = 0 }.

  (** what a residual says about the distance to the minimum [low] *)
  Definition reduces (low q : R) : Prop := 0 <= q <= 1 /\ forall x r, residual x r -> null r -> q * (phi x - low) <= / 2 * ip r (pre r).
  (** where the iteration ends *)
  Record ended (x : list R) (stop : R) (N M : nat) (y : list R) : Prop := {
    e_len : List.length y = n;
    e_fixed : forall i, fixed i -> (i < n)%nat -> nth i y 0 = nth i x 0;
    e_phi : phi y < phi x;
    e_stop : exists r', residual y r' /\ null r' /\ (ip r' (pre r') <= stop \/
      (exists rs, List.length rs = S N /\ orth rs) /\ forall low q, reduces low q -> phi y - low <= (1 - q) ^ M * (phi x - low)) }.
  Lemma cg_loop_ok stop : 0 <= stop -> forall rest x r d nom den dirs ress, inv x r d nom den dirs ress ->
    ended x stop (S rest + List.length ress) (S rest) (cg_loop A stop rest x r d (mult A d) nom den).
  Proof.
    intros St. induction rest as [|rest IH]; intros x r d nom den dirs ress I.
    all: pose proof I as [Ir (In1 & In2 & In3) (Id1 & Id2 & Id3) (Nr & Nd) Idirs Iress Ie If].
    all: set (x1 := axpy n x (nom / den) d); set (r1 := axpy n r (- (nom / den)) (mult A d)).
    all: assert (R1 : residual x1 r1) by (apply residual_step; [exact Ir|reflexivity]).
    all: assert (Nr1 : null r1) by (apply null_axpy; [exact Nr|now apply null_mult]).
    all: assert (P0 : phi x1 <= phi x - / 2 * nom) by
      (unfold x1; rewrite (phi_step x r (nom / den) d Ir), In1, <- Id1;
       assert (nom <= nom * nom / den) by (apply (Rmult_le_reg_r den); [lra|]; unfold Rdiv; rewrite Rmult_assoc, Rinv_l by lra; nra);
       replace (nom / den * nom) with (nom * nom / den) by (field; lra); replace (nom / den * (nom / den) / 2 * den) with (nom * nom / den / 2) by (field; lra); lra).
    all: assert (P1 : phi x1 < phi x) by lra.
    all: assert (P2 : forall low q, reduces low q -> phi x1 - low <= (1 - q) * (phi x - low)) by
      (intros low q (_ & Hq); specialize (Hq x r Ir Nr); rewrite <- In2 in Hq; lra).
    all: assert (F1 : forall i, fixed i -> (i < n)%nat -> nth i x1 0 = nth i x 0) by (intros i Fi L; unfold x1; rewrite axpy_nth, (Nd i Fi L) by exact L; ring).
    all: destruct (smooth_pos A Sym pos_diag r1) as (B1 & B2).
    all: assert (Or1 : forall d', In d' (d :: dirs) -> ip d' r1 = 0).
    1,3: intros d' [<- | Jd]; unfold r1; rewrite inner_axpy_r;
        [rewrite In1, <- Id1; field; lra|destruct (Idirs d' Jd) as (A1 & A2); rewrite A1, <- (mult_sym d' d), A2; ring].
    all: assert (Or2 : forall r', In r' (r :: ress) -> ip (pre r') r1 = 0) by (apply Ie; exact Or1).
    all: assert (Or3 : 0 < ip r1 (pre r1) -> orth (r1 :: r :: ress)) by
      (intros Q; destruct Iress as (O1 & O2 & O3); split; [|split];
         [constructor; [apply Forall_forall; intros r' J; pose proof (Or2 r' J) as E; rewrite inner_comm in E; split; [exact E|now rewrite pre_sym]|exact O1]
         |now constructor|now constructor]).
    all: cbn [cg_loop]; fold x1 r1; change (nopp (ndiv nom den)) with (- (nom / den)); change (ndiv nom den) with (nom / den); fold x1 r1;
         cbn [nltb nleb n0 RNum]; unfold Rltb, Rleb; destruct (Rlt_dec (ip r1 (pre r1)) 0) as [Q | _]; [lra|];
         destruct (Rle_dec (ip r1 (pre r1)) stop) as [Q | Q].
    1,3: split; [apply length_mapseq|exact F1|exact P1|exists r1; split; [exact R1|split; [exact Nr1|now left]]].
    - split; [apply length_mapseq|exact F1|exact P1|]. exists r1. split; [exact R1|]. split; [exact Nr1|]. right. split; [exists (r1 :: r :: ress); split; [reflexivity|]; apply Or3; lra|]. intros lo q Hq. rewrite pow_1. now apply P2.
    - set (bn := ip r1 (pre r1)) in *. set (d1 := axpy n (pre r1) (bn / nom) d).
      assert (Bp : 0 < bn) by lra.
      change (ndiv bn nom) with (bn / nom). fold d1. cbn [neqb RNum]. unfold Reqb.
      assert (D1 : ip d1 r1 = bn).
      { unfold d1. rewrite inner_axpy, (Or1 d (or_introl eq_refl)), (inner_comm n (pre r1) r1). fold bn. ring. }
      assert (Dp : 0 < ip d1 (mult A d1)) by (apply Pos, (inner_nonzero d1 r1); lra).
      destruct (Req_EM_T (ip d1 (mult A d1)) 0) as [Q0 | _]; [lra|].
      assert (Conj : ip (mult A d) d1 = 0).
      { unfold d1. rewrite inner_axpy_r.
        assert (E : nom / den * ip (mult A d) (pre r1) = ip r (pre r1) - bn).
        { assert (E0 : forall v, ip r1 v = ip r v - nom / den * ip (mult A d) v) by (intros v; unfold r1; rewrite inner_axpy; ring). unfold bn. rewrite (E0 (pre r1)). ring. }
        rewrite (pre_sym r r1), (inner_comm n r1 (pre r)), (Or2 r (or_introl eq_refl)) in E. rewrite (mult_sym d d), <- Id1.
        apply Rmult_eq_reg_l with (r := nom / den); [|apply Rgt_not_eq, Rdiv_lt_0_compat; lra]. rewrite Rmult_plus_distr_l, E. field. lra. }
      assert (Dn : ip d1 (mult A d1) <= bn).
      { apply (Rle_trans _ (ip (pre r1) (mult A (pre r1)))); [|apply pre_form].
        assert (E1 : ip d1 (mult A d1) = ip (mult A (pre r1)) d1).
        { rewrite <- mult_sym. unfold d1 at 1. rewrite ip_mult_axpy, Conj. ring. }
        rewrite E1. unfold d1. rewrite inner_axpy_r, (inner_comm n (mult A (pre r1)) (pre r1)), mult_sym, (inner_comm n (pre r1) (mult A d)).
        assert (E2 : ip (mult A d) (pre r1) = - (bn / nom) * den).
        { unfold d1 in Conj. rewrite inner_axpy_r, (mult_sym d d), <- Id1 in Conj. lra. }
        rewrite E2. pose proof (Rle_0_sqr (bn / nom)) as S. unfold Rsqr in S. assert (0 <= bn / nom * (bn / nom) * den) by (apply Rmult_le_pos; lra). lra. }
      assert (I1 : inv x1 r1 d1 bn (ip d1 (mult A d1)) (d :: dirs) (r :: ress)).
      { split.
        - exact R1.
        - split; [exact D1|]. split; [reflexivity|exact Bp].
        - split; [reflexivity|]. split; [exact Dp|exact Dn].
        - split; [exact Nr1|]. apply null_axpy; [now apply null_pre|exact Nd].
        - intros d' J. split; [now apply Or1|]. destruct J as [<- | J].
          + exact Conj.
          + unfold d1. rewrite inner_axpy_r. rewrite (proj2 (Idirs d' J)). rewrite (If (pre r1)); [ring| |exact J]. intros r' Jr. rewrite pre_sym, inner_comm. now apply Or2.
        - now apply Or3.
        - intros v Hv r' [<- | J].
          + assert (E : ip d1 v = 0) by (apply Hv; now left). unfold d1 in E. rewrite inner_axpy, (Hv d) in E by (right; now left). lra.
          + apply Ie; [|exact J]. intros d' Jd. apply Hv. now right.
        - intros v Hv d' [<- | J].
          + assert (E : nom / den * ip (mult A d) v = ip r v - ip r1 v) by (unfold r1; rewrite inner_axpy; ring).
            rewrite (Hv r), (Hv r1) in E by (cbn; auto). apply Rmult_eq_reg_l with (r := nom / den); [|apply Rgt_not_eq, Rdiv_lt_0_compat; lra]. lra.
          + apply If; [|exact J]. intros r' Jr. apply Hv. now right. }
      destruct (IH x1 r1 d1 bn (ip d1 (mult A d1)) (d :: dirs) (r :: ress) I1) as [E1 E2 E3 E4].
      split; [exact E1|intros i Fi L; rewrite E2 by auto; now apply F1|lra|].
      cbn [List.length] in E4. replace (S (S rest) + List.length ress)%nat with (S rest + S (List.length ress))%nat by lia.
      destruct E4 as (r' & Rr & Nn & [E4 | (E4 & E5)]); exists r'; split; [exact Rr| |exact Rr|]; (split; [exact Nn|]); [now left|right]. split; [exact E4|].
      intros lo q Hq. apply (Rle_trans _ _ _ (E5 lo q Hq)). rewrite <- (tech_pow_Rmult (1 - q) (S rest)), (Rmult_comm (1 - q)), Rmult_assoc.
      apply Rmult_le_compat_l; [apply pow_le; destruct Hq; lra|now apply P2].
  Qed.
End Cg.

Lemma discriminant a b c : (forall t, 0 <= a + 2 * b * t + c * (t * t)) -> b * b <= a * c.
Proof.
  intros H. destruct (Req_dec c 0) as [-> | N].
  - destruct (Req_dec b 0) as [-> | Nb]; [lra|]. exfalso. specialize (H (- (a + 1) / (2 * b))). assert (E : 2 * b * (- (a + 1) / (2 * b)) = - (a + 1)) by (field; lra). lra.
  - assert (0 < c).
    { destruct (Rtotal_order c 0) as [L | [L | L]]; [|lra|exact L]. exfalso.
      assert (H1 : c * (b * b) + 0 <= 0) by (pose proof (Rle_0_sqr b); unfold Rsqr in *; nra).
      (* large t *)
      set (s := (1 + Rabs a + 2 * Rabs b) / - c + 1). pose proof (Rabs_pos a) as Pa. pose proof (Rabs_pos b) as Pb.
      assert (S1 : 1 <= s) by (unfold s; assert (0 <= (1 + Rabs a + 2 * Rabs b) / - c) by (apply Rmult_le_pos; [lra|left; apply Rinv_0_lt_compat; lra]); lra).
      assert (S2 : - c * s = 1 + Rabs a + 2 * Rabs b - c) by (unfold s; field; lra).
      specialize (H s). pose proof (Rle_abs a) as Ha. pose proof (Rle_abs b) as Hb.
      assert (E : c * (s * s) = - (1 + Rabs a + 2 * Rabs b - c) * s) by (rewrite <- S2; ring).
      rewrite E in H. nra. }
    specialize (H (- b / c)). assert (E : a + 2 * b * (- b / c) + c * (- b / c * (- b / c)) = a - b * b / c) by (field; lra). rewrite E in H.
    apply (Rmult_le_compat_r c) in H; [|lra]. replace ((a - b * b / c) * c) with (a * c - b * b) in H by (field; lra). lra.
Qed.

Section Bounds.
  Variable A : matrix R.
  Notation n := (nr A).
  Hypothesis Sym : forall i j, (i < n)%nat -> (j < n)%nat -> ent A i j = ent A j i.
  Hypothesis Pos : forall x, (exists i, (i < n)%nat /\ nth i x 0 <> 0) -> 0 < inner n x (mult A x).
  Notation ip := (inner n).
  Notation pre := (smooth A).
  Lemma form_nonneg x : 0 <= ip x (mult A x).
  Proof.
    destruct (Req_dec (ip x (mult A x)) 0) as [E | N]; [lra|]. left. apply Pos, (inner_nonzero A x (mult A x) N).
  Qed.
  Lemma form_schwarz x y : ip x (mult A y) * ip x (mult A y) <= ip x (mult A x) * ip y (mult A y).
  Proof.
    apply discriminant. intros t. pose proof (form_nonneg (axpy n x t y)) as H.
    rewrite inner_axpy, (inner_comm n x), (inner_comm n y), !(ip_mult_axpy A) in H.
    rewrite (mult_sym A Sym y x), (inner_comm n y (mult A x)), (mult_sym A Sym x y), (inner_comm n (mult A x) x), (inner_comm n (mult A y) y) in H. lra.
  Qed.
  Lemma pre_dual e r : ip e r * ip e r <= mform A e * ip r (pre r).
  Proof.
    destruct (smooth_spec A (pos_diag A Pos) r) as (y & _ & H1 & H2).
    rewrite (smooth_inner A Sym r r y y H1 H2 H1).
    assert (E : ip e r = Sum n (fun i => half A e i * nth i y 0)).
    { rewrite inner_Sum. rewrite (Sum_ext n _ (fun i => nth i e 0 * low A y i + nth i e 0 * (ent A i i * nth i y 0))) by (intros i L; rewrite <- H1 by exact L; ring).
      rewrite Sum_plus, (low_upp A Sym), <- Sum_plus. apply Sum_ext. intros i L. unfold half. ring. }
    rewrite E. apply discriminant. intros t.
    replace (mform A e + 2 * Sum n (fun i => half A e i * nth i y 0) * t + Sum n (fun i => ent A i i * nth i y 0 * nth i y 0) * (t * t))
      with (Sum n (fun i => ent A i i * ((half A e i / ent A i i + nth i y 0 * t) * (half A e i / ent A i i + nth i y 0 * t)))).
    - apply Sum_nonneg. intros i L. pose proof (pos_diag A Pos i L). apply Rmult_le_pos; [lra|apply Rle_0_sqr].
    - unfold mform. rewrite <- !Sum_scal_r, <- Sum_scal, <- Sum_scal_r, <- !Sum_plus. apply Sum_ext. intros i L. pose proof (pos_diag A Pos i L). field. lra.
  Qed.
  Lemma residual_below e r : (forall i, (i < n)%nat -> nth i r 0 = nth i (mult A e) 0) -> ip r (pre r) <= ip e (mult A e).
  Proof.
    intros Er. set (w := pre r).
    assert (E : ip r w = ip e (mult A w)) by (rewrite (inner_ext A r (mult A e) w Er); apply (mult_sym A Sym)).
    assert (Mw : ip w (mult A w) <= ip r w) by apply (pre_form A Sym Pos).
    pose proof (form_schwarz e w) as C. rewrite <- E in C. pose proof (form_nonneg e) as P0. pose proof (form_nonneg w) as P1.
    destruct (Rle_lt_dec (ip r w) 0) as [Z | Z]; [lra|]. apply (Rmult_le_reg_r (ip r w)); [exact Z|]. nra.
  Qed.
  Lemma phi_gap b xs x : (forall i, (i < n)%nat -> nth i b 0 = nth i (mult A xs) 0) ->
    let e := axpy n xs (-1) x in phi A b x = phi A b xs + / 2 * ip e (mult A e).
  Proof.
    intros Ex e. assert (R0 : residual A b xs (repeat 0 n)) by (intros i L; rewrite nth_repeat, (Ex i L); ring).
    pose proof (phi_step A Sym b xs (repeat 0 n) (-1) e R0) as S.
    assert (E1 : phi A b (axpy n xs (-1) e) = phi A b x).
    { assert (G : forall i, (i < n)%nat -> nth i (axpy n xs (-1) e) 0 = nth i x 0) by (intros i L; unfold e; rewrite !axpy_nth by exact L; ring).
      assert (M : forall i, (i < n)%nat -> nth i (mult A (axpy n xs (-1) e)) 0 = nth i (mult A x) 0).
      { intros i L. rewrite !mult_nth by exact L. apply Sum_ext. intros j Lj. now rewrite G. }
      unfold phi. rewrite (inner_ext A _ x _ G), (inner_comm n x), (inner_ext A _ (mult A x) _ M), (inner_comm n b), (inner_ext A _ x _ G), (inner_comm n x b), (inner_comm n (mult A x) x). reflexivity. }
    rewrite E1 in S. assert (Z : ip e (repeat 0 n) = 0) by (rewrite inner_Sum; apply Sum_zero; intros i _; rewrite nth_repeat; ring). rewrite Z in S. lra.
  Qed.
  Variable fixed : nat -> Prop.
  Variable c : R.
  Hypothesis Cond : forall u, null A fixed u -> Sum n (fun i => ent A i i * (nth i u 0 * nth i u 0)) <= c * ip u (mult A u).
  Lemma entry_bound i j : (i < n)%nat -> (j < n)%nat -> ent A i j * ent A i j <= ent A i i * ent A j j.
  Proof.
    intros Li Lj. set (u := fun k => map (fun l => if (l =? k)%nat then 1 else 0) (seq 0 n)).
    assert (U : forall k l, (l < n)%nat -> nth l (u k) 0 = if (l =? k)%nat then 1 else 0) by (intros k l Ll; exact (nth_mapseq _ _ _ Ll)).
    assert (E : forall k l, (k < n)%nat -> (l < n)%nat -> ip (u k) (mult A (u l)) = ent A k l).
    { intros k l Lk Ll. rewrite inner_Sum. rewrite (Sum_ext n _ (fun q => if (q =? k)%nat then nth q (mult A (u l)) 0 else 0)).
      - rewrite (Sum_single n k (fun q => nth q (mult A (u l)) 0) Lk), mult_nth by exact Lk.
        rewrite (Sum_ext n _ (fun q => if (q =? l)%nat then ent A k q else 0)); [now apply (Sum_single n l (fun q => ent A k q))|].
        intros q Lq. rewrite U by exact Lq. destruct (q =? l)%nat; ring.
      - intros q Lq. rewrite U by exact Lq. destruct (q =? k)%nat; ring. }
    pose proof (form_schwarz (u i) (u j)) as C. now rewrite !E in C.
  Qed.
  (** [w]: bound for the number of couplings of an unknown *)
  Variable w : nat.
  Hypothesis Near : forall i, (i < n)%nat -> exists l, (List.length l <= w)%nat /\ forall j, (j < n)%nat -> j <> i -> ent A i j <> 0 -> In j l.
  Definition coupled (i j : nat) : R := if (i <? j)%nat then (if Req_EM_T (ent A i j) 0 then 0 else 1) else 0.
  Lemma coupled_sq i j : coupled i j * coupled i j = coupled i j.
  Proof. unfold coupled. destruct (i <? j)%nat; [destruct (Req_EM_T _ _)|]; ring. Qed.
  Lemma coupled_pos i j : 0 <= coupled i j. Proof. unfold coupled. destruct (i <? j)%nat; [destruct (Req_EM_T _ _)|]; lra. Qed.
  Lemma count_below (f : nat -> R) l : (forall j, (j < n)%nat -> f j = 0 \/ f j = 1 /\ In j l) -> Sum n f <= INR (List.length l).
  Proof.
    intros H. apply (Rle_trans _ (Sum n (fun j => Rsum l (fun k => if (j =? k)%nat then 1 else 0)))).
    - apply Sum_le. intros j L. assert (P : forall l', 0 <= Rsum l' (fun k => if (j =? k)%nat then 1 else 0)) by (intros l'; apply Rsum_nonneg; intros k _; destruct (j =? k)%nat; lra).
      destruct (H j L) as [-> | (-> & I)]; [apply P|].
      apply in_split in I as (l1 & l2 & ->). rewrite Rsum_app, Rsum_cons, Nat.eqb_refl. pose proof (P l1). pose proof (P l2). lra.
    - unfold Sum. rewrite Rsum_exchange.
      assert (One : INR (List.length l) = Rsum l (fun _ => 1)) by (clear; induction l as [|k l IH]; [reflexivity|cbn [List.length]; rewrite S_INR, Rsum_cons, IH; ring]).
      rewrite One. apply Rsum_le. intros k _.
      destruct (Nat.lt_ge_cases k n) as [L | L].
      + change (Rsum (seq 0 n)) with (Sum n). rewrite (Sum_single n k (fun _ => 1) L). lra.
      + change (Rsum (seq 0 n)) with (Sum n). rewrite Sum_zero; [lra|]. intros j Lj. destruct (Nat.eqb_spec j k); [lia|reflexivity].
  Qed.
  Lemma row_count i : (i < n)%nat -> Sum n (fun j => coupled i j) <= INR w /\ Sum n (fun j => coupled j i) <= INR w.
  Proof.
    intros L. destruct (Near i L) as (l & Ll & Hl). apply le_INR in Ll.
    assert (C : forall j, (j < n)%nat -> (coupled i j = 0 \/ coupled i j = 1 /\ In j l) /\ (coupled j i = 0 \/ coupled j i = 1 /\ In j l)).
    { intros j Lj. unfold coupled. split.
      - destruct (Nat.ltb_spec i j); [|auto]. destruct (Req_EM_T (ent A i j) 0) as [E | E]; [auto|]. right. split; [reflexivity|]. apply Hl; auto. lia.
      - destruct (Nat.ltb_spec j i); [|auto]. destruct (Req_EM_T (ent A j i) 0) as [E | E]; [auto|]. right. split; [reflexivity|]. apply Hl; auto; [lia|]. now rewrite Sym. }
    split; [apply (Rle_trans _ _ _ (count_below _ l (fun j Lj => proj1 (C j Lj))))|apply (Rle_trans _ _ _ (count_below _ l (fun j Lj => proj2 (C j Lj))))]; exact Ll.
  Qed.
  Lemma mform_below e : null A fixed e -> mform A e <= (1 + INR w * INR w * c) * ip e (mult A e).
  Proof.
    intros Ne. rewrite (mform_form A Sym Pos). pose proof (Cond e Ne) as Ce. set (q := Sum n (fun i => ent A i i * (nth i e 0 * nth i e 0))) in *.
    pose proof (pos_INR w) as W0.
    assert (Dp : forall j, (j < n)%nat -> 0 <= ent A j j * (nth j e 0 * nth j e 0)) by (intros j L; pose proof (pos_diag A Pos j L); apply Rmult_le_pos; [lra|apply Rle_0_sqr]).
    assert (Up : forall i, (i < n)%nat -> upp A e i * upp A e i / ent A i i <= INR w * Sum n (fun j => coupled i j * (ent A j j * (nth j e 0 * nth j e 0)))).
    { intros i Li. pose proof (pos_diag A Pos i Li) as Pi.
      assert (Eu : upp A e i = Sum n (fun j => coupled i j * (coupled i j * (ent A i j * nth j e 0)))).
      { apply Sum_ext. intros j _. unfold coupled. destruct (i <? j)%nat; [destruct (Req_EM_T _ _) as [-> | _]|]; ring. }
      assert (C : upp A e i * upp A e i <= Sum n (fun j => coupled i j) * Sum n (fun j => coupled i j * (ent A i j * nth j e 0 * (ent A i j * nth j e 0)))).
      { rewrite Eu. apply discriminant. intros t.
        replace (Sum n (fun j => coupled i j) + 2 * Sum n (fun j => coupled i j * (coupled i j * (ent A i j * nth j e 0))) * t + Sum n (fun j => coupled i j * (ent A i j * nth j e 0 * (ent A i j * nth j e 0))) * (t * t))
          with (Sum n (fun j => coupled i j * ((1 + ent A i j * nth j e 0 * t) * (1 + ent A i j * nth j e 0 * t)))).
        - apply Sum_nonneg. intros j L. apply Rmult_le_pos; [apply coupled_pos|apply Rle_0_sqr].
        - rewrite <- Sum_scal, <- !Sum_scal_r, <- !Sum_plus. apply Sum_ext. intros j L. rewrite <- (Rmult_assoc (coupled i j) (coupled i j)), coupled_sq. ring. }
      apply (Rmult_le_reg_r (ent A i i)); [exact Pi|]. unfold Rdiv. rewrite Rmult_assoc, Rinv_l, Rmult_1_r by lra. apply (Rle_trans _ _ _ C).
      assert (S2 : Sum n (fun j => coupled i j * (ent A i j * nth j e 0 * (ent A i j * nth j e 0))) <= Sum n (fun j => coupled i j * (ent A j j * (nth j e 0 * nth j e 0))) * ent A i i).
      { rewrite <- Sum_scal_r. apply Sum_le. intros j L. rewrite (Rmult_assoc (coupled i j) _ (ent A i i)). apply Rmult_le_compat_l; [apply coupled_pos|].
        pose proof (entry_bound i j Li L) as Eb. pose proof (Rle_0_sqr (nth j e 0)) as Q. unfold Rsqr in Q. nra. }
      assert (S0 : 0 <= Sum n (fun j => coupled i j * (ent A i j * nth j e 0 * (ent A i j * nth j e 0)))) by (apply Sum_nonneg; intros j L; apply Rmult_le_pos; [apply coupled_pos|apply Rle_0_sqr]).
      rewrite Rmult_assoc. apply (Rle_trans _ (INR w * Sum n (fun j => coupled i j * (ent A i j * nth j e 0 * (ent A i j * nth j e 0))))).
      - apply Rmult_le_compat_r; [exact S0|apply row_count; exact Li].
      - apply Rmult_le_compat_l; [exact W0|exact S2]. }
    assert (T : Sum n (fun i => upp A e i * upp A e i / ent A i i) <= INR w * (INR w * q)).
    { apply (Rle_trans _ _ _ (Sum_le n _ _ Up)). rewrite Sum_scal. apply Rmult_le_compat_l; [exact W0|].
      rewrite Sum_exchange. unfold q. rewrite <- Sum_scal. apply Sum_le. intros j L. rewrite Sum_scal_r. apply Rmult_le_compat_r; [now apply Dp|now apply row_count]. }
    assert (INR w * (INR w * q) <= INR w * (INR w * (c * ip e (mult A e)))) by (apply Rmult_le_compat_l; [lra|]; apply Rmult_le_compat_l; lra). lra.
  Qed.
  Lemma residual_above e r : 0 <= c -> null A fixed e -> (forall i, (i < n)%nat -> nth i r 0 = nth i (mult A e) 0) ->
    ip e (mult A e) <= (1 + INR w * INR w * c) * ip r (pre r).
  Proof.
    intros C0 Ne Er. pose proof (pre_dual e r) as Pd. assert (E : ip e r = ip e (mult A e)) by (rewrite (inner_comm n e r), (inner_comm n e (mult A e)); exact (inner_ext A r (mult A e) e Er)).
    rewrite E in Pd. pose proof (mform_below e Ne) as Mb. pose proof (form_nonneg e) as P0.
    assert (K : 0 <= 1 + INR w * INR w * c) by (pose proof (pos_INR w); assert (0 <= INR w * INR w * c) by (apply Rmult_le_pos; [apply Rmult_le_pos; lra|lra]); lra).
    destruct (smooth_pos A Sym (pos_diag A Pos) r) as (P1 & _).
    destruct (Rle_lt_dec (ip e (mult A e)) 0) as [Z | Z].
    { apply (Rle_trans _ 0); [exact Z|]. now apply Rmult_le_pos. }
    apply (Rmult_le_reg_r (ip e (mult A e))); [exact Z|]. apply (Rle_trans _ _ _ Pd).
    apply (Rle_trans _ ((1 + INR w * INR w * c) * ip e (mult A e) * ip r (pre r))); [now apply Rmult_le_compat_r|lra].
  Qed.
  (** each step of the iteration reduces the distance to the minimum *)
  Lemma steps_reduce b xs : 0 <= c -> (forall i, fixed i -> (i < n)%nat -> forall j, (j < n)%nat -> j <> i -> ent A i j = 0) ->
    (forall i, (i < n)%nat -> nth i b 0 = nth i (mult A xs) 0) -> reduces A fixed b (phi A b xs) (/ (1 + INR w * INR w * c)).
  Proof.
    intros C0 Dec Ex. pose proof (pos_INR w) as W0.
    assert (K1 : 1 <= 1 + INR w * INR w * c) by (assert (0 <= INR w * INR w * c) by (apply Rmult_le_pos; [apply Rmult_le_pos; lra|lra]); lra).
    split; [split; [left; apply Rinv_0_lt_compat; lra|rewrite <- Rinv_1; apply Rinv_le_contravar; lra]|].
    intros x r Hr Nr. set (e := axpy n xs (-1) x).
    assert (Er : forall i, (i < n)%nat -> nth i r 0 = nth i (mult A e) 0).
    { intros i L. unfold e. rewrite (mult_axpy A), (Hr i L), (Ex i L) by exact L. ring. }
    assert (Ne : null A fixed e).
    { intros i Fi L. assert (Z : nth i (mult A e) 0 = 0) by (rewrite <- Er by exact L; now apply Nr). rewrite mult_nth in Z by exact L.
      rewrite (Sum_ext n _ (fun j => if (j =? i)%nat then ent A i i * nth j e 0 else 0)) in Z.
      - rewrite (Sum_single n i (fun j => ent A i i * nth j e 0) L) in Z. pose proof (pos_diag A Pos i L). apply Rmult_integral in Z as [Z | Z]; lra.
      - intros j Lj. destruct (Nat.eqb_spec j i) as [-> | N]; [reflexivity|]. rewrite (Dec i Fi L j Lj N). ring. }
    assert (P : phi A b x = phi A b xs + / 2 * ip e (mult A e)) by (now apply phi_gap).
    rewrite P. pose proof (residual_above e r C0 Ne Er) as B.
    apply (Rmult_le_reg_l (1 + INR w * INR w * c)); [lra|]. rewrite <- Rmult_assoc, Rinv_r, Rmult_1_l by lra. lra.
  Qed.
End Bounds.

(** There is such a constant for every positive definite matrix. *)
Lemma condition_exists (A : matrix R) : nr A = nc A -> (forall i j, (i < nr A)%nat -> (j < nr A)%nat -> ent A i j = ent A j i) ->
  (forall x, (exists i, (i < nr A)%nat /\ nth i x 0 <> 0) -> 0 < inner (nr A) x (mult A x)) ->
  exists c, 0 <= c /\ forall u, Sum (nr A) (fun i => ent A i i * (nth i u 0 * nth i u 0)) <= c * inner (nr A) u (mult A u).
Proof.
  intros Sq Sym Pos. set (n := nr A) in *.
  assert (I : injective A).
  { intros z Hz k Lk. fold n in Hz, Lk. destruct (Req_EM_T (z k) 0) as [E | N]; [exact E|exfalso]. pose (x := to_list n z).
    assert (X : forall j, (j < n)%nat -> nth j x 0 = z j) by (intros j Lj; exact (vec_to_list n z j Lj)).
    assert (P : 0 < inner n x (mult A x)) by (apply Pos; exists k; split; [exact Lk|now rewrite X]).
    rewrite inner_Sum, Sum_zero in P; [lra|]. intros i Li. rewrite (mult_nth A) by exact Li. fold n.
    rewrite (Sum_ext n _ (fun j => ent A i j * z j)) by (intros j Lj; now rewrite X). pose proof (Hz i Li) as H. unfold apply_row in H. fold n in H. rewrite H. ring. }
  assert (G : forall i, exists g, forall j, (j < n)%nat -> nth j (mult A g) 0 = if (j =? i)%nat then 1 else 0).
  { intros i. destruct (injective_solves A (fun j => if (j =? i)%nat then 1 else 0) Sq I) as (g & E). destruct (solve_some A _ g Sq E) as (Lg & H).
    exists g. intros j Lj. rewrite (mult_nth A) by exact Lj. exact (proj2 (H g Lg) eq_refl j Lj). }
  assert (B : forall m, (m <= n)%nat -> exists c, 0 <= c /\ forall u, Sum m (fun i => ent A i i * (nth i u 0 * nth i u 0)) <= c * inner n u (mult A u)).
  { induction m as [|m IH]; intros Lm.
    - exists 0. split; [lra|]. intros u. unfold Sum. cbn. lra.
    - destruct IH as (c & C0 & Hc); [lia|]. destruct (G m) as (g & Hg). pose proof (pos_diag A Pos m Lm) as Pm. pose proof (form_nonneg A Pos g) as Pg. fold n in Pg.
      exists (c + ent A m m * inner n g (mult A g)). split; [assert (0 <= ent A m m * inner n g (mult A g)) by (apply Rmult_le_pos; lra); lra|].
      intros u. rewrite Sum_S, Rmult_plus_distr_r. apply Rplus_le_compat; [apply Hc|]. rewrite Rmult_assoc. apply Rmult_le_compat_l; [lra|].
      pose proof (form_schwarz A Sym Pos u g) as C. fold n in C. rewrite (Rmult_comm (inner n g (mult A g))).
      assert (E : inner n u (mult A g) = nth m u 0).
      { rewrite inner_Sum, (Sum_ext n _ (fun j => if (j =? m)%nat then nth j u 0 else 0)); [now apply (Sum_single n m (fun j => nth j u 0))|].
        intros j Lj. rewrite (Hg j Lj). destruct (j =? m)%nat; ring. }
      rewrite E in C. exact C. }
  exact (B n (le_n n)).
Qed.

(** ** The whole of PCG *)
Section Pcg.
  Variable A : matrix R.
  Notation n := (nr A).
  Hypothesis Sym : forall i j, (i < n)%nat -> (j < n)%nat -> ent A i j = ent A j i.
  Hypothesis Pos : forall x, (exists i, (i < n)%nat /\ nth i x 0 <> 0) -> 0 < inner n x (mult A x).
  Notation ip := (inner n).
  Notation pre := (smooth A).
  Variable fixed : nat -> Prop.
  Hypothesis Decoupled : forall i j, fixed i -> (i < n)%nat -> (j < n)%nat -> j <> i -> ent A i j = 0.
  Variables (b x : list R) (left : nat) (rtol atol : R).
  Hypothesis Lx : List.length x = n.
  Hypothesis Start : forall i, fixed i -> (i < n)%nat -> nth i b 0 = nth i (mult A x) 0.
  Hypothesis Tol : 0 <= rtol /\ 0 <= atol.
  Let y := pcg A b x (S left) rtol atol.
  Lemma pcg_ok : List.length y = n /\ (forall i, fixed i -> (i < n)%nat -> nth i y 0 = nth i x 0) /\ phi A b y <= phi A b x /\
    exists r0 r, residual A b x r0 /\ residual A b y r /\ null A fixed r /\
      (ip r (pre r) <= Rmax (ip r0 (pre r0) * rtol) atol \/
       (exists rs, List.length rs = S (S left) /\ orth A fixed rs) /\ forall low q, reduces A fixed b low q -> phi A b y - low <= (1 - q) ^ S left * (phi A b x - low)).
  Proof.
    unfold y, pcg. set (r0 := axpy n b (- (1)) (mult A x)). change (axpy n b (nopp n1) (mult A x)) with r0.
    assert (R0 : residual A b x r0) by (intros i L; unfold r0; rewrite axpy_nth by exact L; ring).
    assert (N0 : null A fixed r0) by (intros i Fi L; rewrite (R0 i L), (Start i Fi L); ring).
    destruct (smooth_pos A Sym (pos_diag A Pos) r0) as (P0 & _).
    assert (Ec : ip (pre r0) r0 = ip r0 (pre r0)) by apply inner_comm.
    cbn [nltb nleb neqb nmul n0 RNum]. unfold Rltb, Rleb, Reqb. destruct (Rlt_dec (ip (pre r0) r0) 0) as [Q | _]; [lra|].
    set (stop := if (if Rlt_dec (ip (pre r0) r0 * rtol) atol then true else false) then atol else ip (pre r0) r0 * rtol).
    assert (Es : stop = Rmax (ip r0 (pre r0) * rtol) atol).
    { unfold stop. rewrite Ec. destruct (Rlt_dec (ip r0 (pre r0) * rtol) atol) as [Q | Q]; [rewrite Rmax_right; lra|rewrite Rmax_left; lra]. }
    assert (S0 : 0 <= stop) by (rewrite Es; apply (Rle_trans _ atol); [apply Tol|apply Rmax_r]).
    assert (Same : List.length x = n /\ (forall i, fixed i -> (i < n)%nat -> nth i x 0 = nth i x 0) /\ phi A b x <= phi A b x) by (split; [exact Lx|split; [reflexivity|lra]]).
    destruct (Rle_dec (ip (pre r0) r0) stop) as [Q | Q].
    { destruct Same as (S1 & S2 & S3). split; [exact S1|]. split; [exact S2|]. split; [exact S3|]. exists r0, r0. split; [exact R0|]. split; [exact R0|]. split; [exact N0|]. left. rewrite <- Es. lra. }
    assert (Dp : 0 < ip (pre r0) (mult A (pre r0))) by (apply Pos, (inner_nonzero A (pre r0) r0); lra).
    rewrite (inner_comm n (mult A (pre r0)) (pre r0)).
    destruct (Req_EM_T (ip (pre r0) (mult A (pre r0))) 0) as [Q0 | _]; [lra|].
    assert (I : inv A fixed b x r0 (pre r0) (ip (pre r0) r0) (ip (pre r0) (mult A (pre r0))) [] []).
    { split.
      - exact R0.
      - split; [reflexivity|]. split; [exact Ec|lra].
      - split; [reflexivity|]. split; [exact Dp|]. rewrite Ec. apply (pre_form A Sym Pos).
      - split; [exact N0|]. now apply (null_pre A Pos fixed Decoupled).
      - intros d' [].
      - split; [constructor; constructor|]. split; constructor; auto. lra.
      - intros v Hv r' [<- | []]. apply Hv. now left.
      - intros v _ d' []. }
    destruct (cg_loop_ok A Sym Pos fixed Decoupled b stop S0 left x r0 (pre r0) _ _ [] [] I) as [E1 E2 E3 (r & Rr & Nr & E4)].
    split; [exact E1|]. split; [exact E2|]. split; [lra|]. exists r0, r. split; [exact R0|]. split; [exact Rr|]. split; [exact Nr|].
    rewrite <- Es. destruct E4 as [E4 | ((rs & L & Ors) & E5)]; [now left|right]. split; [exists rs; split; [|exact Ors]; rewrite L; cbn; lia|exact E5].
  Qed.
  (** With as many iterations as unknowns the tolerance is met. *)
  Lemma pcg_converges (free : list nat) : (forall i, (i < n)%nat -> ~ In i free -> fixed i) -> (List.length free <= S left)%nat ->
    exists r0 r, residual A b x r0 /\ residual A b y r /\ null A fixed r /\ ip r (pre r) <= Rmax (ip r0 (pre r0) * rtol) atol.
  Proof.
    intros Fr Le. destruct pcg_ok as (_ & _ & _ & r0 & r & R0 & R1 & N1 & [H | ((rs & L & O1 & O2 & O3) & _)]); [eauto 8|exfalso].
    pose proof (orthogonal_count n pre free rs O1 O2) as C. rewrite L in C. assert (S (S left) <= List.length free)%nat; [|lia]. apply C.
    apply Forall_forall. intros u I i Li Ni. rewrite Forall_forall in O3. apply (O3 u I); auto.
  Qed.
  (** The error *)
  Variable xs : list R.
  Hypothesis Exact : forall i, (i < n)%nat -> nth i b 0 = nth i (mult A xs) 0.
  Notation err := (fun u => ip (axpy n xs (-1) u) (mult A (axpy n xs (-1) u))).
  Lemma residual_error u r : residual A b u r -> forall i, (i < n)%nat -> nth i r 0 = nth i (mult A (axpy n xs (-1) u)) 0.
  Proof. intros Hr i L. rewrite (mult_axpy A), (Hr i L), (Exact i L) by exact L. ring. Qed.
  Lemma pcg_not_worse : err y <= err x.
  Proof.
    destruct pcg_ok as (_ & _ & P & _). pose proof (phi_gap A Sym b xs y Exact) as Gy. pose proof (phi_gap A Sym b xs x Exact) as Gx. cbv zeta in *. lra.
  Qed.
  Variables (c : R) (w : nat).
  Hypothesis C0 : 0 <= c.
  Hypothesis Cond : forall u, null A fixed u -> Sum n (fun i => ent A i i * (nth i u 0 * nth i u 0)) <= c * ip u (mult A u).
  Hypothesis Near : forall i, (i < n)%nat -> exists l, (List.length l <= w)%nat /\ forall j, (j < n)%nat -> j <> i -> ent A i j <> 0 -> In j l.
  Hypothesis Same : forall i, fixed i -> (i < n)%nat -> nth i xs 0 = nth i x 0.
  Notation kappa := (1 + INR w * INR w * c).
  Lemma kappa_one : 1 <= kappa.
  Proof. pose proof (pos_INR w). assert (0 <= INR w * INR w * c) by (apply Rmult_le_pos; [apply Rmult_le_pos; lra|lra]). lra. Qed.
  Lemma stopped_error r0 r : residual A b x r0 -> residual A b y r -> ip r (pre r) <= Rmax (ip r0 (pre r0) * rtol) atol ->
    err y <= kappa * Rmax (rtol * err x) atol.
  Proof.
    intros R0 R1 H. pose proof kappa_one as K1. destruct pcg_ok as (_ & Fy & _).
    assert (Ne : null A fixed (axpy n xs (-1) y)) by (intros i Fi L; rewrite axpy_nth, (Fy i Fi L), (Same i Fi L) by exact L; ring).
    pose proof (residual_above A Sym Pos fixed c Cond w Near _ r C0 Ne (residual_error y r R1)) as B.
    pose proof (residual_below A Sym Pos _ r0 (residual_error x r0 R0)) as B0.
    apply (Rle_trans _ _ _ B). apply Rmult_le_compat_l; [lra|]. apply (Rle_trans _ _ _ H). apply Rmax_lub; [|apply Rmax_r].
    apply (Rle_trans _ (rtol * err x)); [|apply Rmax_l]. rewrite Rmult_comm. apply Rmult_le_compat_l; [apply Tol|exact B0].
  Qed.
  Lemma pcg_error : err y <= Rmax (kappa * Rmax (rtol * err x) atol) ((1 - / kappa) ^ S left * err x).
  Proof.
    destruct pcg_ok as (_ & _ & _ & r0 & r & R0 & R1 & _ & [H | (_ & H)]).
    - apply (Rle_trans _ _ _ (stopped_error r0 r R0 R1 H)), Rmax_l.
    - assert (Dec : forall i, fixed i -> (i < n)%nat -> forall j, (j < n)%nat -> j <> i -> ent A i j = 0) by (intros; now apply Decoupled).
      specialize (H _ _ (steps_reduce A Sym Pos fixed c Cond w Near b xs C0 Dec Exact)).
      pose proof (phi_gap A Sym b xs y Exact) as Gy. pose proof (phi_gap A Sym b xs x Exact) as Gx. cbv zeta in *.
      apply (Rle_trans _ ((1 - / kappa) ^ S left * err x)); [|apply Rmax_r]. rewrite Gy, Gx in H. lra.
  Qed.
  Lemma pcg_error_small (free : list nat) : (forall i, (i < n)%nat -> ~ In i free -> fixed i) -> (List.length free <= S left)%nat ->
    err y <= kappa * Rmax (rtol * err x) atol.
  Proof. intros Fr Le. destruct (pcg_converges free Fr Le) as (r0 & r & R0 & R1 & _ & H). exact (stopped_error r0 r R0 R1 H). Qed.
End Pcg.
