(** The two systems of Solve under the iterative solver (C77, C78). *)
From Coq Require Import Reals Lra Lia.
From Verif Require Import Prelude StdMap Matrix Solver Fem Iterative RSum LinAlg ListLemmas SpecSolver SpecCharge SpecField SpecFem SpecIter
  SolverProofs ChargeProofs FieldProofs FemProofs FemCalls FemFacts PcgProofs.
Open Scope R_scope.
Open Scope list_scope.

Lemma axpy_length n (x : list R) c y : List.length (axpy n x c y) = n. Proof. apply length_mapseq. Qed.
Lemma cg_loop_length (A : matrix R) stop rest : forall x r d z nom den, List.length (cg_loop A stop rest x r d z nom den) = nr A.
Proof.
  induction rest as [|rest IH]; intros; cbn [cg_loop]; destruct (nltb _ _); try apply axpy_length; destruct (nleb _ _); try apply axpy_length.
  destruct (neqb _ _); [apply axpy_length|apply IH].
Qed.
Lemma pcg_length (A : matrix R) b x m rtol atol : List.length x = nr A -> List.length (pcg A b x m rtol atol) = nr A.
Proof.
  intros L. unfold pcg. destruct (nltb _ _); [exact L|]. destruct (nleb _ _); [exact L|]. destruct (neqb _ _); [exact L|].
  destruct m; [exact L|apply cg_loop_length].
Qed.
Lemma iterated_ok abc (D : discretization R) : tables_ok D -> fem_ok (discretize_pcg abc D).
Proof.
  intros OK. constructor; cbn -[pcg].
  - apply Forall_forall. intros b I. apply (to_bdr D OK b I).
  - intros. unfold reiterated_phi. apply (pcg_length (form_matrix (divEpsGrad abc D _ _) _)). apply length_mapseq.
  - intros. unfold solve_e. rewrite map_length. apply (to_gradient D OK).
  - intros. unfold iterated_d. apply (pcg_length (hDivMass D)). apply repeat_length.
Qed.

(** ** The potential *)
Section Potential.
  Variable abc : R * R -> R.
  Variable D : discretization R.
  Hypothesis OK : tables_ok D.
  Notation n := (di_nH1 D).
  Variable cf : eps_coef R.
  Variable mk : list bool.
  Notation K := (divEpsGrad abc D cf mk).
  Hypothesis Pos : forall q, In q (di_grad D) -> 0 < coef_at cf (g_attr q).
  Hypothesis Abc : forall q, In q (di_abc D) -> marked mk (b_attr q) = true -> 0 < abc (b_pos q).
  Variable ess : list nat.
  Hypothesis Anchored : forall z, List.length z = n -> (forall k, (k < n)%nat -> In k ess -> nth k z 0 = 0) ->
    (forall q, In q (di_grad D) -> dot (g_x q) z = 0 /\ dot (g_y q) z = 0) ->
    (forall q, In q (di_abc D) -> marked mk (b_attr q) = true -> dot (b_shape q) z = 0) -> z = repeat 0 n.
  Notation A := (form_matrix K ess).
  Notation wk := (workc abc D cf mk).

  Lemma K_sym i j : ent K i j = ent K j i.
  Proof.
    cbn [ent divEpsGrad nadd RNum]. rewrite !quadrature_Rsum. f_equal; apply Rsum_ext; intros q _; cbn [nmul nadd RNum]; ring.
  Qed.
  Lemma A_sym i j : (i < n)%nat -> (j < n)%nat -> ent A i j = ent A j i.
  Proof.
    intros _ _. cbn [ent form_matrix]. rewrite (orb_comm (nmem j ess)), (Nat.eqb_sym j i), (K_sym j i).
    destruct (nmem i ess || nmem j ess)%bool; [|reflexivity]. destruct (Nat.eqb_spec i j) as [-> | _]; reflexivity.
  Qed.
  Lemma K_ent k l : (k < n)%nat -> (l < n)%nat -> ent K k l = wk (basis D k) (basis D l).
  Proof.
    intros Lk Ll. rewrite (workc_sym abc D cf mk). rewrite <- (K_work abc D cf mk _ _ (basis_length D l) (basis_length D k)). symmetry.
    rewrite (Sum_ext n _ (fun i => if (i =? k)%nat then ent K i l else 0)); [now apply (Sum_single n k (fun i => ent K i l))|].
    intros i Li. rewrite (Sum_ext n _ (fun j => if (j =? l)%nat then ent K i j else 0)).
    - rewrite (Sum_single n l (fun j => ent K i j) Ll), (basis_nth D) by exact Li. destruct (i =? k)%nat; lra.
    - intros j Lj. rewrite (basis_nth D) by exact Lj. destruct (j =? l)%nat; lra.
  Qed.
  Lemma K_pos k : (k < n)%nat -> 0 < ent K k k.
  Proof.
    intros L. pose proof (K_diag abc D OK cf mk Pos Abc k L) as N. rewrite (K_ent k k L L) in *. pose proof (workc_nonneg abc D OK cf mk Pos Abc (basis D k)). lra.
  Qed.
  (** the free part of a vector *)
  Definition freed (x : list R) : list R := to_list n (fun i => if nmem i ess then 0 else nth i x 0).
  Lemma freed_length x : List.length (freed x) = n. Proof. apply to_list_length. Qed.
  Lemma freed_nth x i : (i < n)%nat -> nth i (freed x) 0 = if nmem i ess then 0 else nth i x 0.
  Proof. apply (vec_to_list n). Qed.
  Lemma A_nth (x : list R) i : (i < n)%nat ->
    nth i (mult A x) 0 = if nmem i ess then ent K i i * nth i x 0 else Sum n (fun j => ent K i j * nth j (freed x) 0).
  Proof.
    intros Li. pose (x' := to_list n (fun i => nth i x 0)).
    assert (X : forall j, (j < n)%nat -> nth j x' 0 = nth j x 0) by apply (vec_to_list n).
    rewrite (mult_nth A) by exact Li. change (nr A) with n.
    pose proof (form_row abc D cf mk ess x' i Li (to_list_length _ _)) as Fr. unfold apply_row, vec in Fr. change (nr A) with n in Fr. change (nc A) with n in Fr.
    rewrite (Sum_ext n _ (fun j => ent A i j * nth j x' 0)) by (intros j Lj; now rewrite X). rewrite Fr, X by exact Li.
    destruct (nmem i ess); [reflexivity|]. apply Sum_ext. intros j Lj. rewrite freed_nth, X by exact Lj. destruct (nmem j ess); ring.
  Qed.
  Lemma A_form (x y : list R) : inner n y (mult A x) = Sum n (fun i => if nmem i ess then ent K i i * (nth i x 0 * nth i y 0) else 0) + wk (freed x) (freed y).
  Proof.
    rewrite inner_Sum, <- (K_work abc D cf mk _ _ (freed_length x) (freed_length y)), <- Sum_plus. apply Sum_ext. intros i Li.
    rewrite A_nth, (freed_nth y i Li) by exact Li. destruct (nmem i ess); ring.
  Qed.
  Lemma A_pos x : (exists i, (i < n)%nat /\ nth i x 0 <> 0) -> 0 < inner n x (mult A x).
  Proof.
    intros (i & Li & Ni). rewrite A_form.
    assert (P0 : forall k, (k < n)%nat -> 0 <= (if nmem k ess then ent K k k * (nth k x 0 * nth k x 0) else 0)).
    { intros k L. destruct (nmem k ess); [|lra]. pose proof (K_pos k L). apply Rmult_le_pos; [lra|apply Rle_0_sqr]. }
    assert (P1 := Sum_nonneg n _ P0). pose proof (workc_nonneg abc D OK cf mk Pos Abc (freed x)) as P2.
    destruct (Req_dec (wk (freed x) (freed x)) 0) as [Z | Z]; [|lra].
    destruct (workc_zero abc D OK cf mk Pos Abc (freed x) Z) as [G1 G2].
    assert (E : freed x = repeat 0 n).
    { apply Anchored; auto; [apply freed_length|]. intros k Lk I. rewrite freed_nth by exact Lk. apply nmem_in in I. now rewrite I. }
    pose proof (freed_nth x i Li) as Ei. rewrite E, nth_repeat in Ei. destruct (nmem i ess) eqn:M; [|congruence].
    assert (Q : 0 < ent K i i * (nth i x 0 * nth i x 0)).
    { apply Rmult_lt_0_compat; [now apply K_pos|]. pose proof (Rsqr_pos_lt _ Ni). exact H. }
    apply Rplus_lt_le_0_compat; [|exact P2]. apply (Rlt_le_trans _ _ _ Q).
    rewrite <- (Sum_single n i (fun k => ent K k k * (nth k x 0 * nth k x 0)) Li). apply Sum_le. intros k Lk.
    destruct (Nat.eqb_spec k i) as [-> | _]; [rewrite M; lra|now apply P0].
  Qed.
  Lemma A_decoupled i j : In i ess -> (i < n)%nat -> (j < n)%nat -> j <> i -> ent A i j = 0.
  Proof. intros I _ _ N. cbn [ent form_matrix]. apply nmem_in in I. rewrite I. cbn [orb]. destruct (Nat.eqb_spec i j); [congruence|reflexivity]. Qed.

  Lemma condition : exists c, 0 <= c /\ forall u, List.length u = n -> (forall k, (k < n)%nat -> In k ess -> nth k u 0 = 0) ->
    Sum n (fun i => wk (basis D i) (basis D i) * (nth i u 0 * nth i u 0)) <= c * wk u u.
  Proof.
    destruct (condition_exists A eq_refl A_sym A_pos) as (c & C0 & H). exists c. split; [exact C0|]. intros u L Z. specialize (H u). change (nr A) with n in H.
    rewrite A_form in H. rewrite (Sum_zero n (fun i => if nmem i ess then ent K i i * (nth i u 0 * nth i u 0) else 0)) in H
      by (intros i Li; destruct (nmem i ess) eqn:M; [apply nmem_in in M; rewrite (Z i Li M); ring|reflexivity]).
    assert (E : freed u = u).
    { apply list_ext; [now rewrite freed_length|]. rewrite freed_length. intros k Lk. rewrite freed_nth by exact Lk. destruct (nmem k ess) eqn:M; [|reflexivity].
      apply nmem_in in M. symmetry. now apply Z. }
    rewrite E, Rplus_0_l in H. refine (Rle_trans _ _ _ _ H). right. apply Sum_ext. intros i Li. rewrite <- (K_ent i i Li Li). f_equal.
    cbn [ent form_matrix]. rewrite Nat.eqb_refl. destruct (nmem i ess || nmem i ess)%bool; reflexivity.
  Qed.

  Variables (phi0 sigma : list R).
  Notation b := (map (form_rhs K ess phi0 (surface_source D sigma)) (seq 0 n)).
  Definition start : list R := map (fun i => if nmem i ess then at_ phi0 i else n0) (seq 0 n).
  Lemma start_nth i : (i < n)%nat -> nth i start 0 = if nmem i ess then nth i phi0 0 else 0.
  Proof. intros L. unfold start. rewrite nth_mapseq by exact L. reflexivity. Qed.
  Lemma start_length : List.length start = n. Proof. apply length_mapseq. Qed.
  Lemma start_fixed i : In i ess -> (i < n)%nat -> nth i b 0 = nth i (mult A start) 0.
  Proof.
    intros I L. rewrite nth_mapseq, A_nth, start_nth by exact L. unfold form_rhs. apply nmem_in in I. rewrite I. reflexivity.
  Qed.
  Notation xs := (solve_phi abc D cf mk ess phi0 sigma).
  Notation y := (iterated_phi abc D cf mk ess phi0 sigma).
  Lemma exact_system i : (i < n)%nat -> nth i b 0 = nth i (mult A xs) 0.
  Proof.
    intros L. destruct (solve_weak abc D OK cf mk Pos Abc ess Anchored sigma phi0) as (Lx & Ex & Wx). set (x := xs) in *.
    rewrite nth_mapseq, A_nth by exact L. unfold form_rhs. destruct (nmem i ess) eqn:M.
    - apply nmem_in in M. rewrite (Ex i L M). reflexivity.
    - assert (Bz : forall k, (k < n)%nat -> In k ess -> nth k (basis D i) 0 = 0).
      { intros k Lk I. rewrite (basis_nth D) by exact Lk. destruct (Nat.eqb_spec k i) as [-> | _]; [|reflexivity]. apply nmem_in in I. congruence. }
      pose proof (Wx (basis D i) (basis_length D i) Bz) as H. rewrite <- (K_work abc D cf mk x _ Lx (basis_length D i)), (source_sum D sigma _ (basis_length D i)) in H.
      assert (S : forall f, Sum n (fun k => nth k (basis D i) 0 * f k) = f i).
      { intros f. rewrite (Sum_ext n _ (fun k => if (k =? i)%nat then f k else 0)); [now apply (Sum_single n i f)|].
        intros k Lk. rewrite (basis_nth D) by exact Lk. destruct (k =? i)%nat; ring. }
      rewrite !S in H. cbn [nsub nmul n0 RNum]. rewrite <- H, sum_upto_Sum. change (nr K) with n. rewrite <- Sum_minus. apply Sum_ext.
      intros j Lj. rewrite (freed_nth x j Lj). destruct (nmem j ess) eqn:Mj; [|ring]. apply nmem_in in Mj. rewrite (Ex j Lj Mj). unfold at_. cbn [n0 RNum]. ring.
  Qed.
  Definition diff (x x' : list R) : list R := axpy n x (-1) x'.
  Lemma err_work x x' : (forall k, (k < n)%nat -> In k ess -> nth k x 0 = nth k x' 0) ->
    inner n (diff x x') (mult A (diff x x')) = wk (diff x x') (diff x x').
  Proof.
    intros E. assert (Z : forall k, (k < n)%nat -> nmem k ess = true -> nth k (diff x x') 0 = 0).
    { intros k L M. apply nmem_in in M. unfold diff. rewrite axpy_nth, (E k L M) by exact L. ring. }
    rewrite A_form. rewrite Sum_zero by (intros i L; destruct (nmem i ess) eqn:M; [rewrite (Z i L M); ring|reflexivity]).
    assert (Ef : freed (diff x x') = diff x x').
    { apply list_ext; [rewrite freed_length; symmetry; apply axpy_length|]. rewrite freed_length. intros k L. rewrite freed_nth by exact L.
      destruct (nmem k ess) eqn:M; [symmetry; now apply Z|reflexivity]. }
    rewrite Ef. ring.
  Qed.
  Lemma lit_pos k : (0 <= k)%Z -> 0 < @lit R _ 1 k.
  Proof. intros P. unfold lit. cbn [ndiv nofZ RNum]. apply Rdiv_lt_0_compat; apply IZR_lt; lia. Qed.
  Lemma y_pcg : y = pcg A b start (S 499) (@lit R _ 1 12) 0. Proof. reflexivity. Qed.
  Lemma tols : 0 <= @lit R _ 1 12 /\ 0 <= 0. Proof. split; [|lra]. left. apply lit_pos. lia. Qed.
  Lemma iterated_spec : List.length y = n /\ (forall k, (k < n)%nat -> In k ess -> nth k y 0 = nth k phi0 0) /\
    wk (diff xs y) (diff xs y) <= wk (diff xs start) (diff xs start).
  Proof.
    destruct (pcg_ok A A_sym A_pos (fun i => In i ess) A_decoupled b start 499 (@lit R _ 1 12) 0 start_length start_fixed tols) as (P1 & P2 & _).
    rewrite <- y_pcg in P1, P2.
    assert (Ey : forall k, (k < n)%nat -> In k ess -> nth k y 0 = nth k phi0 0).
    { intros k L I. rewrite (P2 k I L), start_nth by exact L. apply nmem_in in I. now rewrite I. }
    split; [exact P1|]. split; [exact Ey|].
    destruct (solve_weak abc D OK cf mk Pos Abc ess Anchored sigma phi0) as (Lx & Ex & Wx).
    pose proof (pcg_not_worse A A_sym A_pos (fun i => In i ess) A_decoupled b start 499 (@lit R _ 1 12) 0 start_length start_fixed tols xs exact_system) as N.
    rewrite <- y_pcg in N. change (nr A) with n in N. fold (diff xs y) (diff xs start) in N. rewrite !err_work in N; [exact N| |].
    - intros k L I. rewrite (Ex k L I), start_nth by exact L. apply nmem_in in I. now rewrite I.
    - intros k L I. now rewrite (Ex k L I), (Ey k L I).
  Qed.
  Variables (c : R) (w : nat).
  Hypothesis C0 : 0 <= c.
  Hypothesis Cond : forall u, List.length u = n -> (forall k, (k < n)%nat -> In k ess -> nth k u 0 = 0) ->
    Sum n (fun i => wk (basis D i) (basis D i) * (nth i u 0 * nth i u 0)) <= c * wk u u.
  Hypothesis Near : forall i, (i < n)%nat -> exists l, (List.length l <= w)%nat /\ forall j, (j < n)%nat -> j <> i -> wk (basis D i) (basis D j) <> 0 -> In j l.
  Lemma A_cond u : null A (fun i => In i ess) u -> Sum n (fun i => ent A i i * (nth i u 0 * nth i u 0)) <= c * inner n u (mult A u).
  Proof.
    intros N. pose (u' := freed u).
    assert (E : forall k, (k < n)%nat -> nth k u' 0 = nth k u 0).
    { intros k L. unfold u'. rewrite freed_nth by exact L. destruct (nmem k ess) eqn:M; [|reflexivity]. apply nmem_in in M. symmetry. now apply N. }
    pose proof (Cond u' (freed_length u)) as H. specialize (H ltac:(intros k L I; rewrite (E k L); now apply N)).
    rewrite A_form. rewrite (Sum_zero n (fun i => if nmem i ess then ent K i i * (nth i u 0 * nth i u 0) else 0)) by (intros i L; destruct (nmem i ess) eqn:M; [apply nmem_in in M; rewrite (N i M L); ring|reflexivity]).
    fold u'. rewrite Rplus_0_l. refine (Rle_trans _ _ _ _ H). right. apply Sum_ext. intros i L. rewrite (E i L), <- (K_ent i i L L). f_equal.
    cbn [ent form_matrix]. rewrite Nat.eqb_refl. destruct (nmem i ess || nmem i ess)%bool; reflexivity.
  Qed.
  Lemma A_near i : (i < n)%nat -> exists l, (List.length l <= w)%nat /\ forall j, (j < n)%nat -> j <> i -> ent A i j <> 0 -> In j l.
  Proof.
    intros L. destruct (Near i L) as (l & Ll & H). exists l. split; [exact Ll|]. intros j Lj N E. apply H; auto. rewrite <- (K_ent i j L Lj).
    cbn [ent form_matrix] in E. destruct (nmem i ess || nmem j ess)%bool; [|exact E]. destruct (Nat.eqb_spec i j); [congruence|]. now cbn in E.
  Qed.
  Notation err u := (wk (diff xs u) (diff xs u)).
  Lemma errs : inner n (diff xs y) (mult A (diff xs y)) = err y /\ inner n (diff xs start) (mult A (diff xs start)) = err start /\
    (forall i, In i ess -> (i < n)%nat -> nth i xs 0 = nth i start 0) /\ 0 <= err start.
  Proof.
    destruct (solve_weak abc D OK cf mk Pos Abc ess Anchored sigma phi0) as (Lx & Ex & Wx). destruct iterated_spec as (_ & Ey & _).
    assert (Es : forall k, (k < n)%nat -> In k ess -> nth k xs 0 = nth k start 0) by (intros k L I; rewrite (Ex k L I), start_nth by exact L; apply nmem_in in I; now rewrite I).
    split; [apply err_work; intros k L I; now rewrite (Ex k L I), (Ey k L I)|]. split; [now apply err_work|]. split; [auto|]. apply (workc_nonneg abc D OK cf mk Pos Abc).
  Qed.
  Lemma iterated_error : err y <= Rmax (kappa c w * @lit R _ 1 12) ((1 - / kappa c w) ^ 500) * err start.
  Proof.
    destruct errs as (E1 & E2 & Es & P).
    pose proof (pcg_error A A_sym A_pos (fun i => In i ess) A_decoupled b start 499 (@lit R _ 1 12) 0 start_length start_fixed tols xs exact_system c w C0 A_cond A_near Es) as B.
    rewrite <- y_pcg in B. change (nr A) with n in B. fold (diff xs y) (diff xs start) in B. rewrite E1, E2 in B. apply (Rle_trans _ _ _ B). unfold kappa.
    assert (T : 0 < @lit R _ 1 12) by (apply lit_pos; lia). rewrite (Rmax_left (@lit R _ 1 12 * err start) 0) by (apply Rmult_le_pos; lra).
    rewrite <- Rmult_assoc. rewrite (Rmult_comm (Rmax _ _) (err start)), <- RmaxRmult by exact P. rewrite !(Rmult_comm (err start)). lra.
  Qed.
  Lemma iterated_error_small (free : list nat) : (forall i, (i < n)%nat -> ~ In i free -> In i ess) -> (List.length free <= 500)%nat ->
    err y <= kappa c w * @lit R _ 1 12 * err start.
  Proof.
    intros Fr Le. destruct errs as (E1 & E2 & Es & P).
    pose proof (pcg_error_small A A_sym A_pos (fun i => In i ess) A_decoupled b start 499 (@lit R _ 1 12) 0 start_length start_fixed tols xs exact_system c w C0 A_cond A_near Es free Fr Le) as B.
    rewrite <- y_pcg in B. change (nr A) with n in B. fold (diff xs y) (diff xs start) in B. rewrite E1, E2 in B. apply (Rle_trans _ _ _ B). unfold kappa.
    assert (T : 0 < @lit R _ 1 12) by (apply lit_pos; lia). rewrite (Rmax_left (@lit R _ 1 12 * err start) 0) by (apply Rmult_le_pos; lra). lra.
  Qed.
End Potential.

(** ** The displacement field *)
Section Flux.
  Variable D : discretization R.
  Hypothesis OK : tables_ok D.
  Notation n := (di_nRT D).
  Notation A := (hDivMass D).
  Lemma M_sym i j : (i < n)%nat -> (j < n)%nat -> ent A i j = ent A j i.
  Proof. intros _ _. cbn [ent hDivMass]. rewrite !quadrature_Rsum. apply Rsum_ext; intros q _; cbn [nmul nadd RNum]; ring. Qed.
  Definition cut (x : list R) : list R := to_list n (fun i => nth i x 0).
  Lemma cut_nth x i : (i < n)%nat -> nth i (cut x) 0 = nth i x 0. Proof. apply (vec_to_list n). Qed.
  Lemma cut_length x : List.length (cut x) = n. Proof. apply to_list_length. Qed.
  Lemma M_nth x i : (i < n)%nat -> nth i (mult A x) 0 = Sum n (fun j => ent A i j * nth j (cut x) 0).
  Proof. intros L. rewrite (mult_nth A) by exact L. apply Sum_ext. intros j Lj. now rewrite cut_nth. Qed.
  Lemma M_form x y : inner n y (mult A x) = flux2 D (cut x) (cut y).
  Proof.
    rewrite inner_Sum. unfold flux2. rewrite (Sum_ext n _ (fun i => Rsum (di_rt D) (fun q => r_weight q *
           (dot (r_x q) (cut x) * (nth i (r_x q) 0 * nth i (cut y) 0) + dot (r_y q) (cut x) * (nth i (r_y q) 0 * nth i (cut y) 0))))).
    - rewrite Sum_Rsum. apply Rsum_ext. intros q _. rewrite Sum_scal, Sum_plus, !Sum_scal, <- !(dot_sum _ (cut y) n (cut_length y)). reflexivity.
    - intros i L. rewrite (M_nth x i L), (mass_row D (cut x) i (cut_length x)), <- (cut_nth y i L), <- Rsum_scal. apply Rsum_ext. intros; ring.
  Qed.
  Lemma flux2_pos x : 0 <= flux2 D x x.
  Proof.
    apply Rsum_nonneg. intros q I. destruct (to_rt D OK q I) as (_ & _ & W). apply Rmult_le_pos; [lra|].
    pose proof (Rle_0_sqr (dot (r_x q) x)). pose proof (Rle_0_sqr (dot (r_y q) x)). unfold Rsqr in *. lra.
  Qed.
  Lemma flux2_zero x : List.length x = n -> flux2 D x x = 0 -> x = repeat 0 n.
  Proof.
    intros L W. apply (to_rt_basis D OK x L). intros q I. destruct (to_rt D OK q I) as (_ & _ & Wq).
    assert (Zq : r_weight q * (dot (r_x q) x * dot (r_x q) x + dot (r_y q) x * dot (r_y q) x) = 0).
    { revert q I Wq. intros q I _. revert q I. apply Rsum_pos_zero; [|exact W]. intros q I. destruct (to_rt D OK q I) as (_ & _ & Wq). apply Rmult_le_pos; [lra|].
      pose proof (Rle_0_sqr (dot (r_x q) x)). pose proof (Rle_0_sqr (dot (r_y q) x)). unfold Rsqr in *. lra. }
    apply Rmult_integral in Zq as [Zq|Zq]; [lra|].
    pose proof (Rle_0_sqr (dot (r_x q) x)) as S1. pose proof (Rle_0_sqr (dot (r_y q) x)) as S2. unfold Rsqr in *.
    split; apply Rsqr_0_uniq; unfold Rsqr; lra.
  Qed.
  Lemma M_pos x : (exists i, (i < n)%nat /\ nth i x 0 <> 0) -> 0 < inner n x (mult A x).
  Proof.
    intros (i & Li & Ni). rewrite M_form. destruct (Rle_lt_or_eq_dec _ _ (flux2_pos (cut x))) as [P | Z]; [exact P|]. exfalso. apply Ni.
    rewrite <- cut_nth, (flux2_zero (cut x) (cut_length x) (eq_sym Z)) by exact Li. apply nth_repeat.
  Qed.
  Lemma M_ent i j : (i < n)%nat -> (j < n)%nat -> ent A i j = flux2 D (hat n i) (hat n j).
  Proof.
    intros Li Lj. cbn [ent hDivMass]. rewrite quadrature_Rsum. unfold flux2. apply Rsum_ext. intros q _. cbn [nmul nadd RNum].
    assert (H : forall (a : list R) k, (k < n)%nat -> dot a (hat n k) = nth k a 0).
    { intros a k L. rewrite (dot_sum a _ n) by apply length_mapseq. rewrite (Sum_ext n _ (fun i => if (i =? k)%nat then nth i a 0 else 0)).
      - now apply (Sum_single n k (fun i => nth i a 0)).
      - intros l Ll. unfold hat. rewrite nth_mapseq by exact Ll. destruct (l =? k)%nat; ring. }
    rewrite !H by assumption. unfold at_. cbn [n0 RNum]. ring.
  Qed.
  Lemma d_condition : exists c, 0 <= c /\ forall u, List.length u = n -> Sum n (fun i => ent A i i * (nth i u 0 * nth i u 0)) <= c * flux2 D u u.
  Proof.
    destruct (condition_exists A eq_refl M_sym M_pos) as (c & C0 & H). exists c. split; [exact C0|]. intros u L. specialize (H u). change (nr A) with n in H.
    rewrite M_form in H. assert (E : cut u = u) by (apply list_ext; [now rewrite cut_length|]; rewrite cut_length; apply cut_nth). now rewrite E in H.
  Qed.
  Variables (cf : eps_coef R) (e : list R).
  Notation b := (map (hCurlHDivEps D cf e) (seq 0 n)).
  Notation ds := (solve_d D cf e).
  Notation d := (iterated_d D cf e).
  Lemma d_pcg : d = pcg A b (repeat 0 n) (S 499) (@lit R _ 1 12) (@lit R _ 1 24). Proof. reflexivity. Qed.
  Lemma tols2 : 0 <= @lit R _ 1 12 /\ 0 <= @lit R _ 1 24. Proof. split; left; apply lit_pos; lia. Qed.
  Lemma exact_d i : (i < n)%nat -> nth i b 0 = nth i (mult A ds) 0.
  Proof.
    intros L. destruct (proj2 (solve_d_spec D OK cf e ds) eq_refl) as (Ld & H). rewrite nth_mapseq, (mult_nth A) by exact L. symmetry. now apply H.
  Qed.
  Definition dif (x x' : list R) : list R := axpy n x (-1) x'.
  Lemma dif_err x x' : inner n (dif x x') (mult A (dif x x')) = flux2 D (dif x x') (dif x x').
  Proof.
    rewrite M_form. assert (E : cut (dif x x') = dif x x'); [|now rewrite E].
    apply list_ext; [rewrite cut_length; symmetry; apply axpy_length|]. rewrite cut_length. apply cut_nth.
  Qed.
  Lemma none_fixed i j : False -> (i < n)%nat -> (j < n)%nat -> j <> i -> ent A i j = 0. Proof. intros []. Qed.
  Lemma none_start i : False -> (i < n)%nat -> nth i b 0 = nth i (mult A (repeat 0 n)) 0. Proof. intros []. Qed.
  Lemma none_same i : False -> (i < n)%nat -> nth i ds 0 = nth i (repeat 0 n) 0. Proof. intros []. Qed.
  Notation err u := (flux2 D (dif ds u) (dif ds u)).
  Lemma iterated_d_spec : List.length d = n /\ err d <= flux2 D ds ds.
  Proof.
    destruct (pcg_ok A M_sym M_pos (fun _ => False) none_fixed b (repeat 0 n) 499 (@lit R _ 1 12) (@lit R _ 1 24) (repeat_length 0 n) none_start tols2) as (P1 & _).
    split; [exact P1|].
    pose proof (pcg_not_worse A M_sym M_pos (fun _ => False) none_fixed b (repeat 0 n) 499 (@lit R _ 1 12) (@lit R _ 1 24) (repeat_length 0 n) none_start tols2 ds exact_d) as N.
    rewrite <- d_pcg in N. change (nr A) with n in N. fold (dif ds d) (dif ds (repeat 0 n)) in N. rewrite !dif_err in N.
    assert (E : dif ds (repeat 0 n) = ds); [|now rewrite E in N].
    destruct (proj2 (solve_d_spec D OK cf e ds) eq_refl) as (Ld & _). apply list_ext; [rewrite Ld; apply axpy_length|]. unfold dif. rewrite axpy_length.
    intros k L. rewrite axpy_nth, nth_repeat by exact L. ring.
  Qed.
  Variables (c : R) (w : nat).
  Hypothesis C0 : 0 <= c.
  Hypothesis Cond : forall u, List.length u = n -> Sum n (fun i => ent A i i * (nth i u 0 * nth i u 0)) <= c * flux2 D u u.
  Hypothesis Near : forall i, (i < n)%nat -> exists l, (List.length l <= w)%nat /\ forall j, (j < n)%nat -> j <> i -> ent A i j <> 0 -> In j l.
  Lemma M_cond u : null A (fun _ => False) u -> Sum n (fun i => ent A i i * (nth i u 0 * nth i u 0)) <= c * inner n u (mult A u).
  Proof.
    intros _. rewrite M_form. refine (Rle_trans _ _ _ _ (Cond (cut u) (cut_length u))). right. apply Sum_ext. intros i L. now rewrite cut_nth.
  Qed.
  Lemma from_zero : dif ds (repeat 0 n) = ds.
  Proof.
    destruct (proj2 (solve_d_spec D OK cf e ds) eq_refl) as (Ld & _). apply list_ext; [rewrite Ld; apply axpy_length|]. unfold dif. rewrite axpy_length.
    intros k L. rewrite axpy_nth, nth_repeat by exact L. ring.
  Qed.
  Lemma iterated_d_error : err d <= Rmax (kappa c w * Rmax (@lit R _ 1 12 * flux2 D ds ds) (@lit R _ 1 24)) ((1 - / kappa c w) ^ 500 * flux2 D ds ds).
  Proof.
    pose proof (pcg_error A M_sym M_pos (fun _ => False) none_fixed b (repeat 0 n) 499 (@lit R _ 1 12) (@lit R _ 1 24) (repeat_length 0 n) none_start tols2 ds exact_d c w C0 M_cond Near none_same) as B.
    rewrite <- d_pcg in B. change (nr A) with n in B. fold (dif ds d) (dif ds (repeat 0 n)) in B. rewrite !dif_err, from_zero in B. exact B.
  Qed.
  Lemma iterated_d_error_small : (n <= 500)%nat -> err d <= kappa c w * Rmax (@lit R _ 1 12 * flux2 D ds ds) (@lit R _ 1 24).
  Proof.
    intros Le.
    pose proof (pcg_error_small A M_sym M_pos (fun _ => False) none_fixed b (repeat 0 n) 499 (@lit R _ 1 12) (@lit R _ 1 24) (repeat_length 0 n) none_start tols2 ds exact_d c w C0 M_cond Near none_same (seq 0 n)) as B.
    rewrite <- d_pcg in B. change (nr A) with n in B. fold (dif ds d) (dif ds (repeat 0 n)) in B. rewrite !dif_err, from_zero in B. apply B.
    - intros i L N. apply N, in_seq. lia.
    - rewrite seq_length. exact Le.
  Qed.
End Flux.
