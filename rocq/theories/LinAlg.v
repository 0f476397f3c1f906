(** Linear algebra over the reals: correctness of the elimination and of the inverse, positive
    definite matrices. *)
From Verif Require Import Prelude Matrix RSum ListLemmas.
From Coq Require Import Reals Lra Permutation.
Open Scope R_scope. Open Scope list_scope.

(** ** Gaussian elimination *)
(** A row of n coefficients followed by the right hand side. *)
Definition sat (n : nat) (y row : list R) : Prop := dot (firstn n row) y = last row 0.
Definition hom (n : nat) (z row : list R) : Prop := dot (firstn n row) z = 0.

Lemma pick_pivot_spec (rows : list (list R)) : rows <> [] ->
  exists p others, pick_pivot rows = Some (p, others) /\ Permutation (p :: others) rows /\
    forall r, In r rows -> nabs (hd0 r) <= nabs (hd0 p).
Proof.
  induction rows as [|r rest IH]; intros N; [congruence|]. cbn.
  destruct rest as [|r2 rest].
  - cbn. exists r, []. repeat split; auto. intros r' [<-|[]]. lra.
  - destruct IH as (p & others & E & P & M); [discriminate|]. rewrite E.
    cbn [nltb RNum]. unfold Rltb. destruct (Rlt_dec (nabs (hd0 r)) (nabs (hd0 p))) as [L|L].
    + exists p, (r :: others). split; [reflexivity|]. split.
      * eapply Permutation_trans; [apply perm_swap|]. now constructor.
      * intros r' [<-|I]; [lra|now apply M].
    + exists r, (r2 :: rest). split; [reflexivity|]. split; [apply Permutation_refl|].
      intros r' [<-|I]; [lra|]. specialize (M r' I). lra.
Qed.
Lemma nabs_Rabs (x : R) : nabs x = Rabs x.
Proof.
  unfold nabs. cbn. unfold Rltb, Rabs. destruct (Rlt_dec x 0), (Rcase_abs x); lra.
Qed.

Lemma dot_nil_r (a : list R) : dot a [] = 0. Proof. destruct a; reflexivity. Qed.
Lemma row_sub_dot f : forall n (r p y : list R), List.length r = S n -> List.length p = S n -> List.length y = n ->
  dot (firstn n (row_sub f r p)) y = dot (firstn n r) y - f * dot (firstn n p) y.
Proof.
  induction n as [|n IH]; intros r p y Lr Lp Ly.
  - cbn. lra.
  - destruct r as [|u r], p as [|v p], y as [|w y]; try discriminate.
    cbn [row_sub firstn dot]. rewrite IH by (cbn in *; lia). cbn. lra.
Qed.
Lemma last_cons {A} (x : A) l d : l <> [] -> last (x :: l) d = last l d.
Proof. destruct l; [congruence|reflexivity]. Qed.
Lemma row_sub_last f : forall (r p : list R), List.length r = List.length p -> r <> [] ->
  last (row_sub f r p) 0 = last r 0 - f * last p 0.
Proof.
  induction r as [|u r IH]; intros p L N; [congruence|]. destruct p as [|v p]; [discriminate|].
  injection L as L. cbn [row_sub]. destruct r as [|u2 r].
  - destruct p; [cbn; lra|discriminate].
  - destruct p as [|v2 p]; [discriminate|].
    rewrite !last_cons by (cbn; discriminate). rewrite IH by (auto; discriminate). reflexivity.
Qed.
Lemma row_sub_length f : forall (r p : list R), List.length r = List.length p -> List.length (row_sub f r p) = List.length r.
Proof. induction r as [|u r IH]; intros [|v p] L; try discriminate; cbn; auto. Qed.

Lemma hd_split (l : list R) n : List.length l = S n -> l = hd0 l :: tl l.
Proof. destruct l; [discriminate|reflexivity]. Qed.
Lemma tl_len (l : list R) n : List.length l = S n -> List.length (tl l) = n.
Proof. destruct l; cbn; congruence. Qed.

Section Step.
  Variable n : nat.
  Variable p : list R.
  Hypothesis Lp : List.length p = S (S n).
  Hypothesis Np : hd0 p <> 0.
  Lemma eliminate_length r : List.length r = S (S n) -> List.length (eliminate p r) = S n.
  Proof. intros L. unfold eliminate. rewrite row_sub_length; [now apply tl_len|]. now rewrite !(tl_len _ (S n)). Qed.
  Lemma eliminate_dot r y : List.length r = S (S n) -> List.length y = n ->
    dot (firstn n (eliminate p r)) y = dot (firstn n (tl r)) y - hd0 r / hd0 p * dot (firstn n (tl p)) y.
  Proof. intros L Ly. unfold eliminate. apply row_sub_dot; auto; now apply tl_len. Qed.
  Lemma eliminate_last r : List.length r = S (S n) ->
    last (eliminate p r) 0 = last r 0 - hd0 r / hd0 p * last p 0.
  Proof.
    intros L. unfold eliminate. rewrite row_sub_last.
    - rewrite (hd_split r _ L) at 3. rewrite (hd_split p _ Lp) at 4. pose proof (tl_len _ _ L). pose proof (tl_len _ _ Lp).
      rewrite !last_cons; [reflexivity| |]; intros E; rewrite E in *; discriminate.
    - now rewrite !(tl_len _ (S n)).
    - pose proof (tl_len _ _ L). intros E; rewrite E in *; discriminate.
  Qed.
  Lemma dot_split r y0 y : List.length r = S (S n) ->
    dot (firstn (S n) r) (y0 :: y) = hd0 r * y0 + dot (firstn n (tl r)) y.
  Proof. intros L. rewrite (hd_split r _ L) at 1. reflexivity. Qed.
  Lemma sat_eliminate r y0 y : List.length r = S (S n) -> List.length y = n -> sat (S n) (y0 :: y) p ->
    (sat (S n) (y0 :: y) r <-> sat n y (eliminate p r)).
  Proof.
    intros L Ly Sp. unfold sat in *. rewrite eliminate_dot, eliminate_last by auto.
    rewrite !dot_split in * by auto. rewrite <- Sp.
    assert (K : hd0 r / hd0 p * (hd0 p * y0 + dot (firstn n (tl p)) y) = hd0 r * y0 + hd0 r / hd0 p * dot (firstn n (tl p)) y) by (field; auto).
    rewrite K. split; lra.
  Qed.
  Lemma sat_pivot y0 y : sat (S n) (y0 :: y) p <-> y0 = (last p 0 - dot (firstn n (tl p)) y) / hd0 p.
  Proof.
    unfold sat. rewrite dot_split by auto. split; intros E.
    - rewrite <- E. field. auto.
    - rewrite E. field. auto.
  Qed.
  Lemma hom_eliminate r z0 z : List.length r = S (S n) -> List.length z = n -> hom (S n) (z0 :: z) p ->
    hom n z (eliminate p r) -> hom (S n) (z0 :: z) r.
  Proof.
    intros L Lz Hp He. unfold hom in *. rewrite eliminate_dot in He by auto.
    rewrite !dot_split in * by auto.
    assert (K : dot (firstn n (tl p)) z = - (hd0 p * z0)) by lra. rewrite K in He.
    assert (E : hd0 r / hd0 p * - (hd0 p * z0) = - (hd0 r * z0)) by (field; auto). lra.
  Qed.
End Step.

Lemma gauss_some : forall n (rows : list (list R)) x, List.length rows = n ->
  Forall (fun r => List.length r = S n) rows -> gauss n rows = Some x ->
  List.length x = n /\ forall y, List.length y = n -> (Forall (sat n y) rows <-> y = x).
Proof.
  induction n as [|n IH]; intros rows x Ln Fr E.
  - injection E as <-. split; [reflexivity|]. intros y Ly. destruct y; [|discriminate].
    destruct rows; [|discriminate]. split; [reflexivity|constructor].
  - cbn [gauss] in E. destruct (pick_pivot_spec rows) as (p & others & Ep & P & M); [intros ->; discriminate|].
    rewrite Ep in E. cbn [neqb RNum] in E. unfold Reqb in E.
    destruct (Req_EM_T (hd0 p) n0) as [Z|Z]; [discriminate|]. cbn [n0 RNum] in Z.
    destruct (gauss n (map (eliminate p) others)) as [xs|] eqn:Eg; [|discriminate]. injection E as <-.
    assert (Fr' : Forall (fun r => List.length r = S (S n)) (p :: others)).
    { rewrite Forall_forall in *. intros r I. apply Fr. eapply Permutation_in; eauto. }
    inversion Fr' as [|? ? Lp Fo]; subst.
    assert (Lo : List.length others = n) by (apply Permutation_length in P; cbn in P; lia).
    destruct (IH (map (eliminate p) others) xs) as [Lx Hx]; auto.
    { now rewrite map_length. }
    { apply Forall_forall. intros r I. apply in_map_iff in I as (r0 & <- & I). rewrite Forall_forall in Fo.
      apply eliminate_length; auto. }
    split; [cbn; congruence|]. intros y Ly. destruct y as [|y0 y]; [discriminate|]. injection Ly as Ly.
    assert (A : Forall (sat (S n) (y0 :: y)) rows <-> sat (S n) (y0 :: y) p /\ Forall (sat (S n) (y0 :: y)) others).
    { split.
      - intros F. rewrite Forall_forall in F. split; [apply F; eapply Permutation_in; [exact P|now left]|].
        apply Forall_forall. intros r I. apply F. eapply Permutation_in; [exact P|now right].
      - intros [S F]. rewrite Forall_forall in *. intros r I.
        apply (Permutation_in _ (Permutation_sym P)) in I as [<-|I]; auto. }
    rewrite A. clear A. split.
    + intros [S F]. assert (Ey : y = xs).
      { apply Hx; auto. apply Forall_forall. intros r I. apply in_map_iff in I as (r0 & <- & I).
        rewrite Forall_forall in *. apply (sat_eliminate n p Lp Z r0 y0 y); auto. }
      subst y. apply (sat_pivot n p Lp Z) in S. now rewrite S.
    + intros [= -> ->]. assert (S : sat (S n) ((last p 0 - dot (firstn n (tl p)) xs) / hd0 p :: xs) p) by (now apply (sat_pivot n p Lp Z)).
      split; [exact S|].
      assert (F : Forall (sat n xs) (map (eliminate p) others)) by (now apply Hx).
      rewrite Forall_forall in *. intros r I. apply (sat_eliminate n p Lp Z); auto. apply F. now apply in_map.
Qed.

Lemma repeat_dot (a : list R) n : dot a (repeat 0 n) = 0.
Proof. revert n; induction a as [|u a IH]; intros [|n]; cbn; try reflexivity. rewrite IH. lra. Qed.
Lemma gauss_none : forall n (rows : list (list R)), List.length rows = n ->
  Forall (fun r => List.length r = S n) rows -> gauss n rows = None ->
  exists z, List.length z = n /\ (exists k, nth k z 0 <> 0) /\ Forall (hom n z) rows.
Proof.
  induction n as [|n IH]; intros rows Ln Fr E; [discriminate|].
  cbn [gauss] in E. destruct (pick_pivot_spec rows) as (p & others & Ep & P & M); [intros ->; discriminate|].
  rewrite Ep in E. cbn [neqb RNum] in E. unfold Reqb in E.
  destruct (Req_EM_T (hd0 p) n0) as [Z|Z]; cbn [n0 RNum] in Z.
  - exists (1 :: repeat 0 n). split; [cbn; now rewrite repeat_length|]. split; [exists 0%nat; cbn; lra|].
    apply Forall_forall. intros r I. rewrite Forall_forall in Fr.
    assert (H0 : hd0 r = 0).
    { specialize (M r I). rewrite !nabs_Rabs, Z, Rabs_R0 in M. pose proof (Rabs_pos (hd0 r)).
      destruct (Req_dec (hd0 r) 0) as [|N]; auto. apply Rabs_no_R0 in N. lra. }
    unfold hom. rewrite (dot_split n) by now apply Fr. rewrite repeat_dot, H0. lra.
  - destruct (gauss n (map (eliminate p) others)) as [xs|] eqn:Eg; [discriminate|].
    assert (Fr' : Forall (fun r => List.length r = S (S n)) (p :: others)).
    { rewrite Forall_forall in *. intros r I. apply Fr. eapply Permutation_in; eauto. }
    inversion Fr' as [|? ? Lp Fo]; subst.
    assert (Lo : List.length others = n) by (apply Permutation_length in P; cbn in P; lia).
    destruct (IH (map (eliminate p) others)) as (z & Lz & (k & Nk) & Fz); auto.
    { now rewrite map_length. }
    { apply Forall_forall. intros r I. apply in_map_iff in I as (r0 & <- & I). rewrite Forall_forall in Fo.
      apply eliminate_length; auto. }
    exists (- (dot (firstn n (tl p)) z) / hd0 p :: z). split; [cbn; congruence|]. split; [now exists (S k)|].
    assert (Hp : hom (S n) (- (dot (firstn n (tl p)) z) / hd0 p :: z) p).
    { unfold hom. rewrite (dot_split n) by auto. field. auto. }
    apply Forall_forall. intros r I. rewrite Forall_forall in *.
    apply (Permutation_in _ (Permutation_sym P)) in I as [<-|I]; auto.
    apply (hom_eliminate n p Lp Z); auto. apply Fz. now apply in_map.
Qed.

(** ** Linear systems *)
Definition apply_row (a : matrix R) (y : nat -> R) (i : nat) : R := Sum (nr a) (fun j => ent a i j * y j).
Definition vec (x : list R) (i : nat) : R := nth i x 0.

Lemma nth_map_seq {A} (f : nat -> A) n k d : (k < n)%nat -> nth k (map f (seq 0 n)) d = f k.
Proof.
  intros L. rewrite nth_indep with (d' := f 0%nat) by (rewrite map_length, seq_length; lia).
  rewrite map_nth, seq_nth by lia. reflexivity.
Qed.
Lemma row_list_length (a : matrix R) i : List.length (row_list a i) = nc a.
Proof. unfold row_list. now rewrite map_length, seq_length. Qed.
Lemma row_sat (a : matrix R) (b : nat -> R) i y : nr a = nc a -> List.length y = nr a ->
  (sat (nr a) y (row_list a i ++ [b i]) <-> apply_row a (vec y) i = b i).
Proof.
  intros Sq Ly. unfold sat, apply_row. rewrite last_last.
  rewrite firstn_app, row_list_length, <- Sq, Nat.sub_diag, firstn_O, app_nil_r.
  rewrite firstn_all2 by (rewrite row_list_length; lia).
  rewrite (dot_Sum _ _ (nr a)) by (rewrite ?row_list_length; lia).
  assert (E : Sum (nr a) (fun k => nth k (row_list a i) 0 * nth k y 0) = Sum (nr a) (fun j => ent a i j * vec y j)).
  { apply Sum_ext. intros k L. unfold row_list. rewrite nth_map_seq by lia. reflexivity. }
  now rewrite E.
Qed.
Lemma system_rows (a : matrix R) (b : nat -> R) : nr a = nc a ->
  List.length (map (fun i => row_list a i ++ [b i]) (seq 0 (nr a))) = nr a /\
  Forall (fun r => List.length r = S (nr a)) (map (fun i => row_list a i ++ [b i]) (seq 0 (nr a))).
Proof.
  intros Sq. split; [now rewrite map_length, seq_length|]. apply Forall_forall. intros r I.
  apply in_map_iff in I as (i & <- & _). rewrite app_length, row_list_length. cbn. lia.
Qed.
Lemma solve_some (a : matrix R) b x : nr a = nc a -> solve_system a b = Some x ->
  List.length x = nr a /\
  forall y, List.length y = nr a ->
    ((forall i, (i < nr a)%nat -> apply_row a (vec y) i = b i) <-> y = x).
Proof.
  intros Sq E. destruct (system_rows a b Sq) as [L1 L2].
  destruct (gauss_some (nr a) _ x L1 L2 E) as [Lx Hx]. split; [exact Lx|].
  intros y Ly. rewrite <- (Hx y Ly), Forall_forall. split.
  - intros Hy r I. apply in_map_iff in I as (i & <- & I). apply in_seq in I. apply row_sat; auto. apply Hy. lia.
  - intros Hr i Li. apply row_sat; auto. apply Hr. apply in_map_iff. exists i. split; auto. apply in_seq. lia.
Qed.
Lemma solve_none (a : matrix R) b : nr a = nc a -> solve_system a b = None ->
  exists z : nat -> R, (exists k, (k < nr a)%nat /\ z k <> 0) /\ forall i, (i < nr a)%nat -> apply_row a z i = 0.
Proof.
  intros Sq E. destruct (system_rows a b Sq) as [L1 L2].
  destruct (gauss_none (nr a) _ L1 L2 E) as (z & Lz & (k & Nk) & Fz).
  exists (vec z). split.
  - exists k. split; [|exact Nk]. destruct (Nat.lt_ge_cases k (nr a)); auto.
    exfalso. apply Nk. apply nth_overflow. lia.
  - intros i Li. rewrite Forall_forall in Fz.
    assert (I : In (row_list a i ++ [b i]) (map (fun i => row_list a i ++ [b i]) (seq 0 (nr a)))).
    { apply in_map_iff. exists i. split; auto. apply in_seq. lia. }
    specialize (Fz _ I). unfold hom in Fz.
    rewrite firstn_app, row_list_length, <- Sq, Nat.sub_diag, firstn_O, app_nil_r in Fz.
    rewrite firstn_all2 in Fz by (rewrite row_list_length; lia).
    rewrite (dot_Sum _ _ (nr a)) in Fz by (rewrite ?row_list_length; lia).
    rewrite <- Fz. unfold apply_row. apply Sum_ext. intros j L. unfold row_list. rewrite nth_map_seq by lia. reflexivity.
Qed.

(** The matrix has no kernel. *)
Definition injective (a : matrix R) : Prop :=
  forall z, (forall i, (i < nr a)%nat -> apply_row a z i = 0) -> forall k, (k < nr a)%nat -> z k = 0.
Lemma injective_solves (a : matrix R) b : nr a = nc a -> injective a -> exists x, solve_system a b = Some x.
Proof.
  intros Sq I. destruct (solve_system a b) as [x|] eqn:E; [eauto|]. exfalso.
  destruct (solve_none a b Sq E) as (z & (k & Lk & Nk) & Hz). apply Nk. now apply (I z).
Qed.
Definition to_list (n : nat) (z : nat -> R) : list R := map z (seq 0 n).
Lemma vec_to_list n z k : (k < n)%nat -> vec (to_list n z) k = z k.
Proof. intros L. unfold vec, to_list. now apply nth_map_seq. Qed.
Lemma to_list_length n z : List.length (to_list n z) = n.
Proof. unfold to_list. now rewrite map_length, seq_length. Qed.
Lemma apply_row_ext a y z i : (forall k, (k < nr a)%nat -> y k = z k) -> apply_row a y i = apply_row a z i.
Proof. intros E. apply Sum_ext. intros k L. now rewrite E. Qed.
Lemma solves_injective (a : matrix R) b x : nr a = nc a -> solve_system a b = Some x -> injective a.
Proof.
  intros Sq E z Hz k Lk. destruct (solve_some a b x Sq E) as [Lx Hx].
  assert (Sx : forall i, (i < nr a)%nat -> apply_row a (vec x) i = b i) by (now apply Hx).
  assert (Ey : to_list (nr a) (fun k => vec x k + z k) = x).
  { apply Hx; [apply to_list_length|]. intros i Li. rewrite <- (Sx i Li).
    rewrite (apply_row_ext a _ (fun k => vec x k + z k)) by (intros; now apply vec_to_list).
    unfold apply_row. rewrite <- (Rplus_0_r (Sum (nr a) (fun j => ent a i j * vec x j))).
    rewrite <- (Hz i Li). unfold apply_row. rewrite <- Sum_plus. apply Sum_ext. intros; ring. }
  pose proof (vec_to_list (nr a) (fun k => vec x k + z k) k Lk) as V. rewrite Ey in V. lra.
Qed.

(** ** Inverse *)
Definition mprod (n : nat) (a b : nat -> nat -> R) (i j : nat) : R := Sum n (fun k => a i k * b k j).
Definition delta (i j : nat) : R := if (i =? j)%nat then 1 else 0.
Lemma mprod_assoc n a b c i j : mprod n (mprod n a b) c i j = mprod n a (mprod n b c) i j.
Proof.
  unfold mprod.
  rewrite (Sum_ext n _ (fun k => Sum n (fun l => a i l * b l k * c k j))) by (intros; now rewrite <- Sum_scal_r).
  rewrite Sum_exchange. apply Sum_ext. intros l _. rewrite <- Sum_scal. apply Sum_ext. intros; ring.
Qed.
Lemma mprod_delta_r n a i j : (j < n)%nat -> mprod n a delta i j = a i j.
Proof.
  intros L. unfold mprod, delta. rewrite <- (Sum_single n j (fun k => a i k) L). apply Sum_ext.
  intros k _. destruct (k =? j)%nat; lra.
Qed.
Lemma mprod_delta_l n a i j : (i < n)%nat -> mprod n delta a i j = a i j.
Proof.
  intros L. unfold mprod, delta. rewrite <- (Sum_single n i (fun k => a k j) L). apply Sum_ext.
  intros k _. rewrite Nat.eqb_sym. destruct (k =? i)%nat; lra.
Qed.
Lemma invert_some (a l : matrix R) : nr a = nc a -> invert a = Ok l ->
  nr l = nr a /\ nc l = nr a /\
  (forall i j, (i < nr a)%nat -> (j < nr a)%nat -> mprod (nr a) (ent a) (ent l) i j = delta i j) /\
  (forall i j, (i < nr a)%nat -> (j < nr a)%nat -> mprod (nr a) (ent l) (ent a) i j = delta i j).
Proof.
  intros Sq E. unfold invert in E. apply bind_ok in E as (cols & Ec & E).
  apply mapM_ok in Ec. 
  assert (Hc : forall k, (k < nr a)%nat -> exists x, solve_system a (unit_vec k) = Some x /\ nth k cols [] = x).
  { intros k Lk. destruct (Forall2_nth _ _ _ k k Ec) as (x & Ex & Hx).
    - rewrite nth_error_nth' with (d := 0%nat) by now rewrite seq_length. now rewrite seq_nth.
    - exists x. destruct (solve_system a (unit_vec k)) as [y|] eqn:Es; [|discriminate].
      assert (y = x) by congruence. subst y. split; auto. now apply nth_error_nth. }
  assert (R1 : forall i j, (i < nr a)%nat -> (j < nr a)%nat -> mprod (nr a) (ent a) (ent l) i j = delta i j).
  { intros i j Li Lj. destruct (Hc j Lj) as (x & Ex & Enx). destruct (solve_some a _ x Sq Ex) as [Lx Hx].
    assert (Sx : forall i, (i < nr a)%nat -> apply_row a (vec x) i = unit_vec j i) by (now apply Hx).
    specialize (Sx i Li). unfold apply_row in Sx. unfold mprod.
    rewrite (Sum_ext _ _ (fun k => ent a i k * vec x k)).
    - rewrite Sx. unfold unit_vec, delta. reflexivity.
    - intros k Lk. injection E as <-. cbn. now rewrite Enx. }
  assert (Rn : nr l = nr a /\ nc l = nr a) by (injection E as <-; cbn; auto).
  split; [apply Rn|split; [apply Rn|split; [exact R1|]]].
  intros i j Li Lj.
  assert (Hinj : injective a).
  { destruct (Hc j Lj) as (x & Ex & _). eapply solves_injective; eauto. }
  assert (Hz : forall k, (k < nr a)%nat -> mprod (nr a) (ent l) (ent a) k j - delta k j = 0).
  { apply (Hinj (fun k => mprod (nr a) (ent l) (ent a) k j - delta k j)). intros k Lk. unfold apply_row.
    rewrite (Sum_ext _ _ (fun m => ent a k m * mprod (nr a) (ent l) (ent a) m j - ent a k m * delta m j)) by (intros; ring).
    rewrite Sum_minus. 
    change (Sum (nr a) (fun x => ent a k x * mprod (nr a) (ent l) (ent a) x j)) with (mprod (nr a) (ent a) (mprod (nr a) (ent l) (ent a)) k j).
    change (Sum (nr a) (fun x => ent a k x * delta x j)) with (mprod (nr a) (ent a) delta k j).
    rewrite <- mprod_assoc, mprod_delta_r by auto.
    unfold mprod at 1. rewrite (Sum_ext _ _ (fun m => delta k m * ent a m j)) by (intros; now rewrite R1).
    change (Sum (nr a) (fun m => delta k m * ent a m j)) with (mprod (nr a) delta (ent a) k j).
    rewrite mprod_delta_l by auto. lra. }
  specialize (Hz i Li). lra.
Qed.
Lemma injective_invert (a : matrix R) : nr a = nc a -> injective a -> is_ok (invert a).
Proof.
  intros Sq I. unfold invert.
  destruct (mapM_total (fun k => match solve_system a (unit_vec k) with Some x => Ok x | None => Throw MfemError end) (seq 0 (nr a))) as [c Ec].
  - intros k _. destruct (injective_solves a (unit_vec k) Sq I) as [x ->]. eexists; reflexivity.
  - rewrite Ec. eexists; reflexivity.
Qed.
Lemma invert_injective (a l : matrix R) : nr a = nc a -> (0 < nr a)%nat -> invert a = Ok l -> injective a.
Proof.
  intros Sq L0 E z Hz k Lk. destruct (invert_some a l Sq E) as (_ & _ & _ & LA).
  transitivity (Sum (nr a) (fun j => mprod (nr a) (ent l) (ent a) k j * z j)).
  - rewrite (Sum_ext _ _ (fun j => if (j =? k)%nat then z j else 0)).
    + now rewrite Sum_single.
    + intros j Lj. rewrite LA by auto. unfold delta. rewrite Nat.eqb_sym. destruct (j =? k)%nat; lra.
  - unfold mprod. rewrite (Sum_ext _ _ (fun j => Sum (nr a) (fun m => ent l k m * ent a m j * z j))) by (intros; now rewrite <- Sum_scal_r).
    rewrite Sum_exchange. apply Sum_zero. intros m Lm.
    rewrite (Sum_ext _ _ (fun j => ent l k m * (ent a m j * z j))) by (intros; ring).
    rewrite Sum_scal. specialize (Hz m Lm). unfold apply_row in Hz. rewrite Hz. lra.
Qed.
