(** Proofs about the field computation (C57-C62): the system solved is the weak form. *)
From Coq Require Import Reals Lra.
From Verif Require Import Prelude StdMap Matrix Solver Fem RSum LinAlg ListLemmas SpecSolver SpecCharge SpecFem
  SolverProofs ChargeProofs FieldProofs.
Open Scope R_scope.
Open Scope list_scope.

Lemma quadrature_Rsum {A} (l : list A) (f : A -> R) : quadrature l f = Rsum l f.
Proof. unfold quadrature. cbn [nadd n0 RNum]. rewrite fold_left_sum. lra. Qed.
Lemma at_nth (l : list R) i : at_ l i = nth i l 0. Proof. reflexivity. Qed.
Lemma dot_sum (a x : list R) n : List.length x = n -> dot a x = Sum n (fun i => nth i a 0 * nth i x 0).
Proof. intros <-. apply dot_len. Qed.
Lemma Sum_Rsum {A} n (l : list A) f : Sum n (fun i => Rsum l (fun q => f i q)) = Rsum l (fun q => Sum n (fun i => f i q)).
Proof. apply Rsum_exchange. Qed.
Lemma list_ext (x y : list R) : List.length x = List.length y -> (forall k, (k < List.length x)%nat -> nth k x 0 = nth k y 0) -> x = y.
Proof. intros L E. now apply (nth_ext x y 0 0). Qed.
Lemma Rsum_pos_zero {A} (l : list A) f : (forall q, In q l -> 0 <= f q) -> Rsum l f = 0 -> forall q, In q l -> f q = 0.
Proof.
  induction l as [|x l IH]; intros N E q I; [destruct I|]. rewrite Rsum_cons in E.
  assert (0 <= f x) by (apply N; now left). assert (0 <= Rsum l f) by (apply Rsum_nonneg; intros; apply N; now right).
  destruct I as [<-|I]; [lra|]. apply IH; auto; [|lra]. intros; apply N; now right.
Qed.
Lemma dot_lin (a x y : list R) c n : List.length x = n -> List.length y = n ->
  forall z, List.length z = n -> (forall k, (k < n)%nat -> nth k z 0 = nth k x 0 + c * nth k y 0) -> dot a z = dot a x + c * dot a y.
Proof.
  intros Lx Ly z Lz E. rewrite !(dot_sum a _ n) by assumption. rewrite <- Sum_scal, <- Sum_plus. apply Sum_ext.
  intros k L. rewrite E by exact L. ring.
Qed.
Lemma nth_error_nth0 (l : list R) k : (k < List.length l)%nat -> nth_error l k = Some (nth k l 0).
Proof. apply nth_error_nth'. Qed.

Section Weak.
  Variable abc : R * R -> R.
  Variable D : discretization R.
  Hypothesis OK : tables_ok D.
  Notation n := (di_nH1 D).
  Variable cf : eps_coef R.
  Variable mk : list bool.
  Notation K := (divEpsGrad abc D cf mk).
  Hypothesis Pos : forall q, In q (di_grad D) -> 0 < coef_at cf (g_attr q).
  Hypothesis Abc : forall q, In q (di_abc D) -> marked mk (b_attr q) = true -> 0 < abc (b_pos q).

  Definition workc (phi psi : list R) : R :=
    Rsum (di_grad D) (fun q => g_weight q * coef_at cf (g_attr q) * grad2 q phi psi) +
    Rsum (filter (fun q => marked mk (b_attr q)) (di_abc D))
         (fun q => b_weight q * abc (b_pos q) * (dot (b_shape q) phi * dot (b_shape q) psi)).

  Lemma K_row (x : list R) i : List.length x = n ->
    Sum n (fun j => ent K i j * nth j x 0) =
    Rsum (di_grad D) (fun q => g_weight q * coef_at cf (g_attr q) * (nth i (g_x q) 0 * dot (g_x q) x + nth i (g_y q) 0 * dot (g_y q) x)) +
    Rsum (filter (fun q => marked mk (b_attr q)) (di_abc D))
         (fun q => b_weight q * abc (b_pos q) * (nth i (b_shape q) 0 * dot (b_shape q) x)).
  Proof.
    intros L. unfold divEpsGrad. cbn [ent nadd RNum]. 
    transitivity (Sum n (fun j =>
      Rsum (di_grad D) (fun q => g_weight q * coef_at cf (g_attr q) *
         (nth i (g_x q) 0 * (nth j (g_x q) 0 * nth j x 0) + nth i (g_y q) 0 * (nth j (g_y q) 0 * nth j x 0))) +
      Rsum (filter (fun q => marked mk (b_attr q)) (di_abc D))
         (fun q => b_weight q * abc (b_pos q) * (nth i (b_shape q) 0 * (nth j (b_shape q) 0 * nth j x 0))))).
    - apply Sum_ext. intros j _. rewrite !quadrature_Rsum. rewrite Rmult_plus_distr_r. rewrite <- !Rsum_scal_r.
      f_equal; apply Rsum_ext; intros q _; unfold at_; cbn [nmul nadd n0 RNum]; ring.
    - rewrite Sum_plus, !Sum_Rsum. f_equal; apply Rsum_ext; intros q _.
      + rewrite Sum_scal, Sum_plus, !Sum_scal, !(dot_sum _ x n L). reflexivity.
      + rewrite !Sum_scal, !(dot_sum _ x n L). reflexivity.
  Qed.
  Lemma K_work (x y : list R) : List.length x = n -> List.length y = n ->
    Sum n (fun i => nth i y 0 * Sum n (fun j => ent K i j * nth j x 0)) = workc x y.
  Proof.
    intros Lx Ly. rewrite (Sum_ext n _ (fun i =>
      Rsum (di_grad D) (fun q => g_weight q * coef_at cf (g_attr q) *
         (dot (g_x q) x * (nth i (g_x q) 0 * nth i y 0) + dot (g_y q) x * (nth i (g_y q) 0 * nth i y 0))) +
      Rsum (filter (fun q => marked mk (b_attr q)) (di_abc D))
         (fun q => b_weight q * abc (b_pos q) * (dot (b_shape q) x * (nth i (b_shape q) 0 * nth i y 0))))).
    - rewrite Sum_plus, !Sum_Rsum. unfold workc. f_equal; apply Rsum_ext; intros q _.
      + rewrite Sum_scal, Sum_plus, !Sum_scal, <- !(dot_sum _ y n Ly). unfold grad2. ring.
      + rewrite !Sum_scal, <- !(dot_sum _ y n Ly). ring.
    - intros i _. rewrite (K_row x i Lx), Rmult_plus_distr_l, <- !Rsum_scal. f_equal; apply Rsum_ext; intros; ring.
  Qed.
  Lemma workc_sym x y : workc x y = workc y x.
  Proof. unfold workc, grad2. f_equal; apply Rsum_ext; intros; ring. Qed.
  Lemma workc_lin x y w z c : List.length x = n -> List.length y = n -> List.length z = n ->
    (forall k, (k < n)%nat -> nth k z 0 = nth k x 0 + c * nth k y 0) -> workc z w = workc x w + c * workc y w.
  Proof.
    intros Lx Ly Lz E. unfold workc.
    assert (A : forall a, dot a z = dot a x + c * dot a y) by (intros a; now apply (dot_lin a x y c n)).
    rewrite (Rsum_ext _ _ (fun q => g_weight q * coef_at cf (g_attr q) * grad2 q x w + c * (g_weight q * coef_at cf (g_attr q) * grad2 q y w))).
    - rewrite Rsum_plus, Rsum_scal.
      rewrite (Rsum_ext (filter _ _) _ (fun q => b_weight q * abc (b_pos q) * (dot (b_shape q) x * dot (b_shape q) w) +
                        c * (b_weight q * abc (b_pos q) * (dot (b_shape q) y * dot (b_shape q) w)))).
      + rewrite Rsum_plus, Rsum_scal. ring.
      + intros q _. rewrite A. ring.
    - intros q _. unfold grad2. rewrite !A. ring.
  Qed.
  Lemma parts_nonneg z :
    0 <= Rsum (di_grad D) (fun q => g_weight q * coef_at cf (g_attr q) * grad2 q z z) /\
    0 <= Rsum (filter (fun q => marked mk (b_attr q)) (di_abc D))
         (fun q => b_weight q * abc (b_pos q) * (dot (b_shape q) z * dot (b_shape q) z)).
  Proof.
    split; apply Rsum_nonneg; intros q I.
    - destruct (to_grad D OK q I) as (_ & _ & W & _). pose proof (Pos q I). unfold grad2.
      apply Rmult_le_pos; [apply Rmult_le_pos; lra|]. pose proof (Rle_0_sqr (dot (g_x q) z)). pose proof (Rle_0_sqr (dot (g_y q) z)).
      unfold Rsqr in *. lra.
    - apply filter_In in I as [I M]. destruct (to_abc D OK q I) as (_ & W & _). pose proof (Abc q I M).
      apply Rmult_le_pos; [apply Rmult_le_pos; lra|]. apply Rle_0_sqr.
  Qed.
  Lemma workc_nonneg z : 0 <= workc z z.
  Proof. unfold workc. pose proof (parts_nonneg z). lra. Qed.
  Lemma workc_zero z : workc z z = 0 ->
    (forall q, In q (di_grad D) -> dot (g_x q) z = 0 /\ dot (g_y q) z = 0) /\
    (forall q, In q (di_abc D) -> marked mk (b_attr q) = true -> dot (b_shape q) z = 0).
  Proof.
    unfold workc. intros E. pose proof (parts_nonneg z) as [P1 P2]. split.
    - intros q I. assert (Z : Rsum (di_grad D) (fun q => g_weight q * coef_at cf (g_attr q) * grad2 q z z) = 0) by lra.
      assert (Zq : g_weight q * coef_at cf (g_attr q) * grad2 q z z = 0).
      { revert q I. apply Rsum_pos_zero; auto. intros q I. destruct (to_grad D OK q I) as (_ & _ & W & _). pose proof (Pos q I). unfold grad2.
        apply Rmult_le_pos; [apply Rmult_le_pos; lra|]. pose proof (Rle_0_sqr (dot (g_x q) z)). pose proof (Rle_0_sqr (dot (g_y q) z)).
        unfold Rsqr in *. lra. }
      destruct (to_grad D OK q I) as (_ & _ & W & _). pose proof (Pos q I) as P.
      apply Rmult_integral in Zq as [Zq|Zq]; [apply Rmult_integral in Zq; lra|]. unfold grad2 in Zq.
      pose proof (Rle_0_sqr (dot (g_x q) z)) as S1. pose proof (Rle_0_sqr (dot (g_y q) z)) as S2. unfold Rsqr in *.
      split; apply Rsqr_0_uniq; unfold Rsqr; lra.
    - intros q I M. 
      assert (Zq : b_weight q * abc (b_pos q) * (dot (b_shape q) z * dot (b_shape q) z) = 0).
      { apply (Rsum_pos_zero (filter (fun q => marked mk (b_attr q)) (di_abc D))
          (fun q => b_weight q * abc (b_pos q) * (dot (b_shape q) z * dot (b_shape q) z))); [|lra|now apply filter_In].
        intros q' I'. apply filter_In in I' as [I' M']. destruct (to_abc D OK q' I') as (_ & W & _). pose proof (Abc q' I' M').
        apply Rmult_le_pos; [apply Rmult_le_pos; lra|]. apply Rle_0_sqr. }
      destruct (to_abc D OK q I) as (_ & W & _). pose proof (Abc q I M).
      apply Rmult_integral in Zq as [Zq|Zq]; [apply Rmult_integral in Zq; lra|]. apply Rsqr_0_uniq. exact Zq.
  Qed.

  (** The systems are regular. *)
  Variable ess : list nat.
  Hypothesis Anchored : forall z, List.length z = n -> (forall k, (k < n)%nat -> In k ess -> nth k z 0 = 0) ->
    (forall q, In q (di_grad D) -> dot (g_x q) z = 0 /\ dot (g_y q) z = 0) ->
    (forall q, In q (di_abc D) -> marked mk (b_attr q) = true -> dot (b_shape q) z = 0) -> z = repeat 0 n.

  Definition basis (k : nat) : list R := to_list n (fun i => if (i =? k)%nat then 1 else 0).
  Lemma basis_length k : List.length (basis k) = n. Proof. apply to_list_length. Qed.
  Lemma basis_nth k i : (i < n)%nat -> nth i (basis k) 0 = if (i =? k)%nat then 1 else 0.
  Proof. apply (vec_to_list n). Qed.
  Lemma basis_dot a k : (k < n)%nat -> dot a (basis k) = nth k a 0.
  Proof.
    intros L. rewrite (dot_sum a _ n (basis_length k)).
    rewrite (Sum_ext n _ (fun i => if (i =? k)%nat then nth i a 0 else 0)).
    - now apply (Sum_single n k (fun i => nth i a 0)).
    - intros i Li. rewrite basis_nth by exact Li. destruct (i =? k)%nat; lra.
  Qed.
  Lemma K_diag k : (k < n)%nat -> ent K k k <> 0.
  Proof.
    intros L. assert (E : ent K k k = workc (basis k) (basis k)).
    { rewrite <- (K_work _ _ (basis_length k) (basis_length k)). symmetry.
      rewrite (Sum_ext n _ (fun i => if (i =? k)%nat then ent K i k else 0)); [now apply (Sum_single n k (fun i => ent K i k))|].
      intros i Li. rewrite (Sum_ext n _ (fun j => if (j =? k)%nat then ent K i j else 0)).
      - rewrite (Sum_single n k (fun j => ent K i j) L). rewrite basis_nth by exact Li. destruct (i =? k)%nat; lra.
      - intros j Lj. rewrite basis_nth by exact Lj. destruct (j =? k)%nat; lra. }
    rewrite E. intros Z. destruct (workc_zero _ Z) as [G _]. destruct (to_basis D OK k L) as (q & I & N).
    destruct (G q I) as [G1 G2]. rewrite basis_dot in G1, G2 by exact L. lra.
  Qed.
  Lemma nmem_in k l : nmem k l = true <-> In k l.
  Proof. apply ListLemmas.nmem_in. Qed.

  Lemma form_row (x : list R) i : (i < n)%nat -> List.length x = n ->
    apply_row (form_matrix K ess) (vec x) i =
    if nmem i ess then ent K i i * nth i x 0 else Sum n (fun j => if nmem j ess then 0 else ent K i j * nth j x 0).
  Proof.
    intros Li Lx. unfold apply_row, form_matrix, vec. cbn [nr ent divEpsGrad].
    destruct (nmem i ess) eqn:M.
    - rewrite (Sum_ext n _ (fun j => if (j =? i)%nat then ent K i i * nth j x 0 else 0)).
      + apply (Sum_single n i (fun j => ent K i i * nth j x 0) Li).
      + intros j Lj. cbn [orb]. rewrite Nat.eqb_sym. destruct (j =? i)%nat; [reflexivity|]. cbn [n0 RNum]. lra.
    - apply Sum_ext. intros j Lj. cbn [orb]. destruct (nmem j ess) eqn:Mj; [|reflexivity].
      destruct (Nat.eqb_spec i j) as [->|_]; [congruence|]. cbn [n0 RNum]. lra.
  Qed.
  Lemma form_injective : injective (form_matrix K ess).
  Proof.
    intros z Hz. change (nr (form_matrix K ess)) with n in *. pose (x := to_list n z).
    assert (Lx : List.length x = n) by apply to_list_length.
    assert (Hx : forall i, (i < n)%nat -> apply_row (form_matrix K ess) (vec x) i = 0).
    { intros i Li. rewrite <- (Hz i Li). apply apply_row_ext. intros k Lk. now apply vec_to_list. }
    assert (Ze : forall k, (k < n)%nat -> In k ess -> nth k x 0 = 0).
    { intros k Lk I. specialize (Hx k Lk). rewrite form_row in Hx by auto. apply nmem_in in I. rewrite I in Hx.
      apply Rmult_integral in Hx as [Hx|Hx]; [|exact Hx]. now apply K_diag in Hx. }
    assert (W : workc x x = 0).
    { rewrite <- (K_work x x Lx Lx). apply Sum_zero. intros i Li. destruct (nmem i ess) eqn:M.
      - apply nmem_in in M. rewrite Ze by auto. lra.
      - specialize (Hx i Li). rewrite form_row, M in Hx by auto. rewrite (Sum_ext n _ (fun j => if nmem j ess then 0 else ent K i j * nth j x 0)); [rewrite Hx; lra|].
        intros j Lj. destruct (nmem j ess) eqn:Mj; [|reflexivity]. apply nmem_in in Mj. rewrite Ze by auto. lra. }
    destruct (workc_zero x W) as [G1 G2]. pose proof (Anchored x Lx Ze G1 G2) as E.
    intros k Lk. rewrite <- (vec_to_list n z k Lk). fold x. rewrite E. unfold vec. apply nth_repeat.
  Qed.

  (** [x] solves the problem with the values [phi0] at the essential dofs. *)
  Definition weak (sigma phi0 x : list R) : Prop :=
    List.length x = n /\ (forall k, (k < n)%nat -> In k ess -> nth k x 0 = nth k phi0 0) /\
    forall psi, List.length psi = n -> (forall k, (k < n)%nat -> In k ess -> nth k psi 0 = 0) -> workc x psi = source D sigma psi.
  Lemma source_sum sigma psi : List.length psi = n ->
    source D sigma psi = Sum n (fun i => nth i psi 0 * surface_source D sigma i).
  Proof.
    intros L. unfold source, surface_source.
    rewrite (Sum_ext n _ (fun i => Rsum (di_surf D) (fun q => b_weight q * dot (b_shape q) sigma * (nth i (b_shape q) 0 * nth i psi 0)))).
    - rewrite Sum_Rsum. apply Rsum_ext. intros q _. rewrite Sum_scal, <- (dot_sum _ psi n L). reflexivity.
    - intros i _. rewrite quadrature_Rsum, <- Rsum_scal. apply Rsum_ext. intros q _. unfold at_. cbn [nmul n0 RNum]. ring.
  Qed.
  Lemma solve_weak sigma phi0 : weak sigma phi0 (solve_phi abc D cf mk ess phi0 sigma).
  Proof.
    unfold solve_phi.
    destruct (injective_solves (form_matrix K ess) (form_rhs K ess phi0 (surface_source D sigma)) eq_refl form_injective) as [x E].
    rewrite E. destruct (solve_some (form_matrix K ess) _ x eq_refl E) as [Lx Hx].
    change (nr (form_matrix K ess)) with n in *.
    assert (S : forall i, (i < n)%nat -> apply_row (form_matrix K ess) (vec x) i = form_rhs K ess phi0 (surface_source D sigma) i) by (now apply Hx).
    clear Hx.
    assert (Ze : forall k, (k < n)%nat -> In k ess -> nth k x 0 = nth k phi0 0).
    { intros k Lk I. specialize (S k Lk). rewrite form_row in S by auto. unfold form_rhs in S. apply nmem_in in I. rewrite I in S.
      cbn [nmul RNum] in S. unfold at_ in S. cbn [n0 RNum] in S. apply Rmult_eq_reg_l with (r := ent K k k); [exact S|]. now apply K_diag. }
    split; [exact Lx|]. split; [exact Ze|].
    intros psi Lp Zp. rewrite <- (K_work x psi Lx Lp), (source_sum sigma psi Lp). apply Sum_ext. intros i Li.
    destruct (nmem i ess) eqn:M.
    - apply nmem_in in M. rewrite Zp by auto. lra.
    - f_equal. specialize (S i Li). rewrite form_row in S by auto. unfold form_rhs in S. rewrite M in S.
      change (nr K) with n in S. rewrite sum_upto_Sum in S. cbn [nsub nmul n0 RNum] in S.
      rewrite (Sum_ext n (fun j => ent K i j * nth j x 0)
        (fun j => (if nmem j ess then 0 else ent K i j * nth j x 0) + (if nmem j ess then ent K i j * at_ phi0 j else 0))).
      + rewrite Sum_plus, S. lra.
      + intros j Lj. destruct (nmem j ess) eqn:Mj; [|lra]. apply nmem_in in Mj. rewrite Ze by auto. unfold at_. cbn [n0 RNum]. lra.
  Qed.
  Lemma vsub_exists (x y : list R) c : List.length x = n -> List.length y = n ->
    exists z, List.length z = n /\ forall k, (k < n)%nat -> nth k z 0 = nth k x 0 + c * nth k y 0.
  Proof.
    intros Lx Ly. exists (to_list n (fun k => nth k x 0 + c * nth k y 0)). split; [apply to_list_length|]. intros k Lk.
    now apply (vec_to_list n).
  Qed.
  Lemma weak_unique sigma phi0 x y : weak sigma phi0 x -> weak sigma phi0 y -> x = y.
  Proof.
    intros (Lx & Ex & Wx) (Ly & Ey & Wy). destruct (vsub_exists x y (-1) Lx Ly) as (z & Lz & Ez).
    assert (Zz : forall k, (k < n)%nat -> In k ess -> nth k z 0 = 0).
    { intros k Lk I. rewrite Ez, Ex, Ey by auto. lra. }
    assert (W : workc z z = 0).
    { rewrite (workc_lin x y z z (-1) Lx Ly Lz Ez), (Wx z Lz Zz), (Wy z Lz Zz). lra. }
    destruct (workc_zero z W) as [G1 G2]. pose proof (Anchored z Lz Zz G1 G2) as E.
    apply list_ext; [congruence|]. intros k Lk. rewrite Lx in Lk. pose proof (Ez k Lk) as Hk. rewrite E, nth_repeat in Hk. lra.
  Qed.
  (** It minimises the energy. *)
  Definition energyc (sigma psi : list R) : R := / 2 * workc psi psi - source D sigma psi.
  Lemma source_lin sigma x y z c : List.length x = n -> List.length y = n -> List.length z = n ->
    (forall k, (k < n)%nat -> nth k z 0 = nth k x 0 + c * nth k y 0) -> source D sigma z = source D sigma x + c * source D sigma y.
  Proof.
    intros Lx Ly Lz E. unfold source. rewrite <- Rsum_scal, <- Rsum_plus. apply Rsum_ext. intros q _.
    rewrite (dot_lin (b_shape q) x y c n Lx Ly z Lz E). ring.
  Qed.
  Lemma weak_minimises sigma phi0 x psi : weak sigma phi0 x -> List.length psi = n ->
    (forall k, (k < n)%nat -> In k ess -> nth k psi 0 = nth k phi0 0) -> psi <> x -> energyc sigma x < energyc sigma psi.
  Proof.
    intros (Lx & Ex & Wx) Lp Ep N. destruct (vsub_exists psi x (-1) Lp Lx) as (z & Lz & Ez).
    assert (Zz : forall k, (k < n)%nat -> In k ess -> nth k z 0 = 0) by (intros k Lk I; rewrite Ez, Ex, Ep by auto; lra).
    assert (E1 : forall k, (k < n)%nat -> nth k psi 0 = nth k x 0 + 1 * nth k z 0) by (intros k Lk; rewrite Ez by auto; lra).
    assert (P : 0 < workc z z).
    { destruct (Rle_lt_or_eq_dec _ _ (workc_nonneg z)) as [P|P]; [exact P|]. exfalso. apply N.
      destruct (workc_zero z (eq_sym P)) as [G1 G2]. pose proof (Anchored z Lz Zz G1 G2) as E.
      apply list_ext; [congruence|]. intros k Lk. rewrite Lp in Lk. rewrite (E1 k Lk), E, nth_repeat. lra. }
    unfold energyc. rewrite (workc_lin x z psi psi 1 Lx Lz Lp E1), (workc_sym x psi), (workc_sym z psi).
    rewrite (workc_lin x z x psi 1 Lx Lz Lp E1), (workc_lin x z z psi 1 Lx Lz Lp E1).
    rewrite (source_lin sigma x z psi 1 Lx Lz Lp E1), (workc_sym z x), (Wx z Lz Zz). lra.
  Qed.
End Weak.

(** ** The displacement field *)
Section Rt.
  Variable D : discretization R.
  Hypothesis OK : tables_ok D.
  Notation n := (di_nRT D).
  Lemma mass_row (x : list R) i : List.length x = n ->
    Sum n (fun j => ent (hDivMass D) i j * nth j x 0) =
    Rsum (di_rt D) (fun q => r_weight q * (nth i (r_x q) 0 * dot (r_x q) x + nth i (r_y q) 0 * dot (r_y q) x)).
  Proof.
    intros L. unfold hDivMass. cbn [ent].
    transitivity (Sum n (fun j => Rsum (di_rt D) (fun q => r_weight q *
         (nth i (r_x q) 0 * (nth j (r_x q) 0 * nth j x 0) + nth i (r_y q) 0 * (nth j (r_y q) 0 * nth j x 0))))).
    - apply Sum_ext. intros j _. rewrite quadrature_Rsum, <- Rsum_scal_r.
      apply Rsum_ext; intros q _; unfold at_; cbn [nmul nadd n0 RNum]; ring.
    - rewrite Sum_Rsum. apply Rsum_ext; intros q _. rewrite Sum_scal, Sum_plus, !Sum_scal, !(dot_sum _ x n L). reflexivity.
  Qed.
  Lemma mass_injective : injective (hDivMass D).
  Proof.
    intros z Hz. change (nr (hDivMass D)) with n in *. pose (x := to_list n z).
    assert (Lx : List.length x = n) by apply to_list_length.
    assert (Hx : forall i, (i < n)%nat -> Sum n (fun j => ent (hDivMass D) i j * nth j x 0) = 0).
    { intros i Li. refine (eq_trans _ (Hz i Li)). unfold apply_row. apply Sum_ext. intros k Lk. f_equal. now apply (vec_to_list n). }
    assert (W : Rsum (di_rt D) (fun q => r_weight q * (dot (r_x q) x * dot (r_x q) x + dot (r_y q) x * dot (r_y q) x)) = 0).
    { transitivity (Sum n (fun i => nth i x 0 * Sum n (fun j => ent (hDivMass D) i j * nth j x 0))).
      - rewrite (Sum_ext n _ (fun i => Rsum (di_rt D) (fun q => r_weight q *
           (dot (r_x q) x * (nth i (r_x q) 0 * nth i x 0) + dot (r_y q) x * (nth i (r_y q) 0 * nth i x 0))))).
        + rewrite Sum_Rsum. apply Rsum_ext. intros q _. rewrite Sum_scal, Sum_plus, !Sum_scal, <- !(dot_sum _ x n Lx). reflexivity.
        + intros i _. rewrite (mass_row x i Lx), <- Rsum_scal. apply Rsum_ext. intros; ring.
      - apply Sum_zero. intros i Li. rewrite Hx by exact Li. lra. }
    assert (E : x = repeat 0 n).
    { apply (to_rt_basis D OK x Lx). intros q I. destruct (to_rt D OK q I) as (_ & _ & Wq).
      assert (Zq : r_weight q * (dot (r_x q) x * dot (r_x q) x + dot (r_y q) x * dot (r_y q) x) = 0).
      { revert q I Wq. intros q I _. revert q I.
        apply Rsum_pos_zero; [|exact W]. intros q I. destruct (to_rt D OK q I) as (_ & _ & Wq). apply Rmult_le_pos; [lra|].
        pose proof (Rle_0_sqr (dot (r_x q) x)). pose proof (Rle_0_sqr (dot (r_y q) x)). unfold Rsqr in *. lra. }
      apply Rmult_integral in Zq as [Zq|Zq]; [lra|].
      pose proof (Rle_0_sqr (dot (r_x q) x)) as S1. pose proof (Rle_0_sqr (dot (r_y q) x)) as S2. unfold Rsqr in *.
      split; apply Rsqr_0_uniq; unfold Rsqr; lra. }
    intros k Lk. rewrite <- (vec_to_list n z k Lk). fold x. rewrite E. apply nth_repeat.
  Qed.
  Definition mass_solution cf e d : Prop := List.length d = n /\
    forall i, (i < n)%nat -> Sum n (fun j => ent (hDivMass D) i j * nth j d 0) = hCurlHDivEps D cf e i.
  Lemma solve_d_spec cf e d : mass_solution cf e d <-> d = solve_d D cf e.
  Proof.
    unfold solve_d. destruct (injective_solves (hDivMass D) (hCurlHDivEps D cf e) eq_refl mass_injective) as [x E].
    rewrite E. destruct (solve_some (hDivMass D) _ x eq_refl E) as [Lx Hx]. change (nr (hDivMass D)) with n in *.
    unfold mass_solution. split.
    - intros (Ld & H). apply Hx; auto.
    - intros ->. split; [exact Lx|]. apply (proj2 (Hx x Lx)); reflexivity.
  Qed.
  Lemma mixed_combination cf N c (es : nat -> list R) e i m : List.length e = m ->
    (forall j, (j < N)%nat -> List.length (es j) = m) -> (forall k, nth k e 0 = Sum N (fun j => c j * nth k (es j) 0)) ->
    hCurlHDivEps D cf e i = Sum N (fun j => c j * hCurlHDivEps D cf (es j) i).
  Proof.
    intros Le Ls E. unfold hCurlHDivEps. rewrite quadrature_Rsum.
    rewrite (Sum_ext N _ (fun j => Rsum (di_mix D) (fun q => c j * (x_weight q * coef_at cf (x_attr q) *
      (nth i (x_rtx q) 0 * dot (x_ndx q) (es j) + nth i (x_rty q) 0 * dot (x_ndy q) (es j)))))).
    - rewrite Sum_Rsum. apply Rsum_ext. intros q _.
      rewrite !(fun a => dot_combination a e m N c es Le Ls E). unfold at_. cbn [nmul nadd n0 RNum].
      rewrite (Sum_ext N (fun j => c j * (x_weight q * coef_at cf (x_attr q) * _))
        (fun j => x_weight q * coef_at cf (x_attr q) * (nth i (x_rtx q) 0 * (c j * dot (x_ndx q) (es j)) + nth i (x_rty q) 0 * (c j * dot (x_ndy q) (es j))))) by (intros; ring).
      rewrite Sum_scal, Sum_plus, !Sum_scal. reflexivity.
    - intros j _. rewrite quadrature_Rsum, Rsum_scal. reflexivity.
  Qed.
  Lemma solve_d_combination cf N c (es ds : nat -> list R) e d m : List.length e = m ->
    (forall j, (j < N)%nat -> List.length (es j) = m /\ ds j = solve_d D cf (es j)) ->
    (forall k, nth k e 0 = Sum N (fun j => c j * nth k (es j) 0)) -> d = solve_d D cf e ->
    forall k, nth k d 0 = Sum N (fun j => c j * nth k (ds j) 0).
  Proof.
    intros Le Hs E Hd. assert (Ms : forall j, (j < N)%nat -> mass_solution cf (es j) (ds j)).
    { intros j Lj. apply solve_d_spec. apply Hs; auto. }
    pose (y := to_list n (fun k => Sum N (fun j => c j * nth k (ds j) 0))).
    assert (Ey : y = d).
    { rewrite Hd. apply solve_d_spec. split; [apply to_list_length|]. intros i Li.
      rewrite (mixed_combination cf N c es e i m Le) by (intros; try apply Hs; auto).
      rewrite (Sum_ext n _ (fun k => Sum N (fun j => c j * (ent (hDivMass D) i k * nth k (ds j) 0)))).
      - rewrite Sum_exchange. apply Sum_ext. intros j Lj. rewrite Sum_scal. f_equal. now apply (proj2 (Ms j Lj)).
      - intros k Lk. unfold y. change (nth k (to_list n ?f) 0) with (vec (to_list n f) k). rewrite vec_to_list by exact Lk.
        rewrite <- Sum_scal. apply Sum_ext. intros; ring. }
    intros k. destruct (Nat.lt_ge_cases k n) as [L|L].
    - rewrite <- Ey. unfold y. now apply (vec_to_list n).
    - rewrite nth_overflow by (rewrite <- Ey; unfold y; rewrite to_list_length; exact L). symmetry. apply Sum_zero.
      intros j Lj. rewrite (nth_overflow (ds j)); [lra|]. rewrite (proj1 (Ms j Lj)). exact L.
  Qed.
End Rt.
