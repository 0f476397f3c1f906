(** Proofs for C73-C75: energies of clamped and interpolated potentials. *)
From Coq Require Import Reals Lra Permutation.
From Verif Require Import Prelude StdMap Materials ModelM Parser Matrix Solver Fem Driver RSum ListLemmas SpecInput SpecModel SpecSolver SpecDriver SpecMatrix SpecCharge SpecField SpecFem
  SpecTriangles SpecEnergy Triangles SolverProofs ChargeProofs TriProofs TriModel.
Open Scope R_scope.
Open Scope list_scope.

(** A potential with given values at the vertices *)
Lemma nodal_list rule1 rule0 rule2 (abc : R * R -> R) m (f : Z -> R) : rules_ok rule1 rule0 rule2 -> cross_section abc m ->
  exists psi, nodal (mo_mesh m) psi /\ forall k, vertex (mo_mesh m) k -> at_vertex psi k = f k.
Proof.
  intros Ru Cs. set (ms := mo_mesh m). set (n := nverts ms). set (val := fun k : nat => f (Z.of_nat k)). exists (map val (seq 0 n)).
  assert (L : potential (first_order rule1 rule0 rule2 distance ms) (map val (seq 0 n))) by (unfold potential; now rewrite map_length, seq_length).
  assert (N : nodal ms (map val (seq 0 n))) by (now apply (nodal_length rule1 rule0 rule2 abc m Cs)). split; [exact N|].
  intros k Hk. pose proof (proj1 (N k) Hk) as (P0 & P1). rewrite map_length, seq_length in P1.
  unfold at_vertex. rewrite (nth_indep _ 0 (val 0%nat)) by (rewrite map_length, seq_length; lia).
  rewrite (map_nth val), seq_nth by lia. unfold val. rewrite Nat.add_0_l, Z2Nat.id by lia. reflexivity.
Qed.
Lemma nodal_nverts ms phi : triangulation ms -> nodal ms phi -> List.length phi = nverts ms.
Proof.
  intros Tr N. destruct (Nat.lt_trichotomy (List.length phi) (nverts ms)) as [Lt | [Eq | Lt]]; [|exact Eq|]; exfalso.
    - destruct (lt_vert ms Tr _ Lt) as (e & I & J). destruct (elem_corners ms Tr e I) as (a & b & c & C).
      assert (V : vertex ms (Z.of_nat (List.length phi))).
      { exists e. split; [exact I|]. rewrite (co_verts _ _ _ _ _ C). rewrite (co_nat _ _ _ _ _ C) in J. destruct J as [<- | [<- | [<- | []]]]; cbn; auto. }
      apply N in V. lia.
    - assert (V : vertex ms (Z.of_nat (nverts ms))) by (apply N; lia). destruct V as (e & I & J).
      assert (Q : In (nverts ms) (verts e)) by (unfold verts; apply in_map_iff; exists (Z.of_nat (nverts ms)); split; [apply Nat2Z.id|exact J]).
      apply (vert_lt ms e) in Q; [lia|exact I].
Qed.
Lemma energy_exists ms eps phi : triangulation ms -> nodal ms phi -> exists W, field_energy ms eps phi W.
Proof.
  intros Tr N. pose proof (nodal_nverts ms phi Tr N) as L. eexists. exists (fun e => (gx ms e phi, gy ms e phi)). split; [|reflexivity]. intros e I. exact (slope_grad [] [] [] ms Tr e phi I L).
Qed.

(** ** Clamping *)
Definition clamp (lo hi x : R) : R := Rmax lo (Rmin hi x).
Lemma clamp_cases lo hi x : lo <= hi -> clamp lo hi x = lo /\ x <= lo \/ clamp lo hi x = x /\ lo <= x <= hi \/ clamp lo hi x = hi /\ hi <= x.
Proof.
  intros H. unfold clamp. destruct (Rle_dec hi x) as [A | A].
  - rewrite Rmin_left, Rmax_right by lra. auto.
  - rewrite Rmin_right by lra. destruct (Rle_dec lo x) as [B | B]; [rewrite Rmax_right by lra; right; left; lra|rewrite Rmax_left by lra; left; lra].
Qed.
Lemma clamp_in lo hi x : lo <= hi -> lo <= clamp lo hi x <= hi.
Proof. intros H. destruct (clamp_cases lo hi x H) as [(-> & A) | [(-> & A) | (-> & A)]]; lra. Qed.
Lemma clamp_id lo hi x : lo <= x <= hi -> clamp lo hi x = x.
Proof. intros H. destruct (clamp_cases lo hi x ltac:(lra)) as [(-> & A) | [(-> & A) | (-> & A)]]; lra. Qed.
Lemma clamp_lipschitz lo hi x y : lo <= hi -> (clamp lo hi x - clamp lo hi y) * (clamp lo hi x - clamp lo hi y) <= (x - y) * (x - y).
Proof.
  intros H. apply Rsqr_le_abs_1.
  destruct (clamp_cases lo hi x H) as [(-> & A) | [(-> & A) | (-> & A)]]; destruct (clamp_cases lo hi y H) as [(-> & B) | [(-> & B) | (-> & B)]];
    unfold Rabs; repeat match goal with |- context [Rcase_abs ?t] => destruct (Rcase_abs t) end; lra.
Qed.
(** twice the area, squared gradient: cotangent formula *)
Lemma cotangents (a b c : R * R) (p q r gx gy : R) : 0 < det a b c ->
  q - p = gx * (fst b - fst a) + gy * (snd b - snd a) -> r - p = gx * (fst c - fst a) + gy * (snd c - snd a) ->
  let dot3 u v w := (fst v - fst u) * (fst w - fst u) + (snd v - snd u) * (snd w - snd u) in
  det a b c * det a b c * (gx * gx + gy * gy) =
  dot3 a b c * ((q - r) * (q - r)) + dot3 b c a * ((r - p) * (r - p)) + dot3 c a b * ((p - q) * (p - q)).
Proof.
  intros _ E1 E2 dot3. unfold dot3. rewrite E2. replace (p - q) with (- (gx * (fst b - fst a) + gy * (snd b - snd a))) by lra.
  replace (q - r) with (gx * (fst b - fst c) + gy * (snd b - snd c)) by lra. unfold det. cbn [nsub nmul RNum]. ring.
Qed.
Lemma clamped_energy ms eps phi psi W W' lo hi : triangulation ms -> no_obtuse_angles ms -> lo <= hi -> (forall e, In e (m_elems ms) -> 0 < eps (e_attr e)) ->
  (forall v, vertex ms v -> at_vertex psi v = clamp lo hi (at_vertex phi v)) -> field_energy ms eps phi W -> field_energy ms eps psi W' -> W' <= W.
Proof.
  intros Tr No H Pe Ep (g & Sg & ->) (g' & Sg' & ->). apply Rsum_le. intros e I.
  destruct (elem_corners ms Tr e I) as (a & b & c & C). pose proof (co_verts _ _ _ _ _ C) as Ev. pose proof (co_det _ _ _ _ _ C) as Pd.
  destruct (jacobian_area ms Tr e I) as (Ja & Pj).
  assert (Ar : area ms e = det (m_coord ms (Z.of_nat a)) (m_coord ms (Z.of_nat b)) (m_coord ms (Z.of_nat c)) / 2) by (unfold area; rewrite Ev; unfold det; cbn [nsub nmul RNum]; field).
  assert (Ia : In (Z.of_nat a) (e_verts e)) by (rewrite Ev; cbn; auto). assert (Ib : In (Z.of_nat b) (e_verts e)) by (rewrite Ev; cbn; auto). assert (Ic : In (Z.of_nat c) (e_verts e)) by (rewrite Ev; cbn; auto).
  set (d := det _ _ _) in *.
  pose proof (cotangents _ _ _ _ _ _ _ _ Pd (Sg e I _ _ Ia Ib) (Sg e I _ _ Ia Ic)) as K.
  pose proof (cotangents _ _ _ _ _ _ _ _ Pd (Sg' e I _ _ Ia Ib) (Sg' e I _ _ Ia Ic)) as K'. cbv zeta in K, K'. fold d in K, K'.
  assert (V : forall k, In k (e_verts e) -> at_vertex psi k = clamp lo hi (at_vertex phi k)) by (intros k Ik; apply Ep; exists e; auto).
  rewrite (V _ Ia), (V _ Ib), (V _ Ic) in K'.
  pose proof (No e _ _ _ I Ia Ib Ic) as O1. pose proof (No e _ _ _ I Ib Ic Ia) as O2. pose proof (No e _ _ _ I Ic Ia Ib) as O3. unfold not_obtuse in O1, O2, O3.
  pose proof (clamp_lipschitz lo hi (at_vertex phi (Z.of_nat b)) (at_vertex phi (Z.of_nat c)) H) as L1.
  pose proof (clamp_lipschitz lo hi (at_vertex phi (Z.of_nat c)) (at_vertex phi (Z.of_nat a)) H) as L2.
  pose proof (clamp_lipschitz lo hi (at_vertex phi (Z.of_nat a)) (at_vertex phi (Z.of_nat b)) H) as L3.
  assert (Q : d * d * (fst (g' e) * fst (g' e) + snd (g' e) * snd (g' e)) <= d * d * (fst (g e) * fst (g e) + snd (g e) * snd (g e))).
  { rewrite K, K'. apply Rplus_le_compat; [apply Rplus_le_compat|]; apply Rmult_le_compat_l; assumption. }
  apply Rmult_le_reg_l in Q; [|apply Rmult_lt_0_compat; exact Pd].
  rewrite Ar. specialize (Pe e I). apply Rmult_le_compat_r; [lra|]. apply Rmult_le_compat_l; [lra|exact Q].
Qed.

(** ** Interpolation on a refinement *)
Lemma refined_energy coarse fine ts parts shares eps phi psi W : refines coarse fine ts parts shares -> triangulation coarse -> triangulation fine -> nodal fine psi ->
  (forall v, vertex fine v -> at_vertex psi v = Rsum (shares v) (fun s => snd s * at_vertex phi (fst s))) ->
  field_energy coarse eps phi W -> field_energy fine eps psi W.
Proof.
  intros [(Pc & Pf) Wh In_ Pt _] Tr Tf N Ep (g & Sg & ->). pose proof (nodal_nverts fine psi Tf N) as L.
  assert (Af : forall e l e' v, In (e, l) parts -> In e' l -> In v (e_verts e') -> forall a, In a (e_verts e) ->
     at_vertex psi v - at_vertex phi a = fst (g e) * (fst (m_coord fine v) - fst (m_coord coarse a)) + snd (g e) * (snd (m_coord fine v) - snd (m_coord coarse a))).
  { intros e l e' v Ip Il Iv a Ia.
    assert (Ie : In e (m_elems coarse)) by (apply (Permutation_in _ Pc); apply in_map_iff; exists (e, l); auto).
    assert (Vf : vertex fine v) by (exists e'; split; [apply (Permutation_in _ Pf); apply in_flat_map; exists (e, l); auto|exact Iv]).
    destruct (Pt v Vf) as (S1 & Sx & Sy). rewrite (Ep v Vf), Sx, Sy.
    transitivity (Rsum (shares v) (fun s => snd s * (at_vertex phi (fst s) - at_vertex phi a))).
    { rewrite (Rsum_ext _ (fun s => snd s * (at_vertex phi (fst s) - at_vertex phi a)) (fun s => snd s * at_vertex phi (fst s) - snd s * at_vertex phi a)) by (intros; ring).
      rewrite Rsum_minus, Rsum_scal_r, S1. ring. }
    rewrite (Rsum_ext _ _ (fun s => fst (g e) * (snd s * fst (m_coord coarse (fst s))) - snd s * (fst (g e) * fst (m_coord coarse a))
                                    + (snd (g e) * (snd s * snd (m_coord coarse (fst s))) - snd s * (snd (g e) * snd (m_coord coarse a))))).
    - rewrite Rsum_plus, !Rsum_minus, !Rsum_scal, !Rsum_scal_r, S1. ring.
    - intros s Is. rewrite (Sg e Ie a (fst s) Ia). ring. apply (proj2 (In_ e l e' Ip Il) v (fst s) Iv). now apply in_map. }
  assert (Gr : forall e l e', In (e, l) parts -> In e' l -> g e = (gx fine e' psi, gy fine e' psi)).
  { intros e l e' Ip Il. assert (Ie : In e (m_elems coarse)) by (apply (Permutation_in _ Pc); apply in_map_iff; exists (e, l); auto).
    assert (If : In e' (m_elems fine)) by (apply (Permutation_in _ Pf); apply in_flat_map; exists (e, l); auto).
    apply (slope_unique [] [] [] fine Tf e' psi (g e) If L). intros v w Iv Iw.
    destruct (tr_elem _ Tr e Ie) as (_ & a & b & c & E & _). assert (Ia : In a (e_verts e)) by (rewrite E; cbn; auto).
    pose proof (Af e l e' v Ip Il Iv a Ia). pose proof (Af e l e' w Ip Il Iw a Ia). lra. }
  exists (fun e' => (gx fine e' psi, gy fine e' psi)). split; [intros e I; exact (slope_grad [] [] [] fine Tf e psi I L)|].
  rewrite <- (Rsum_perm _ _ _ Pc), <- (Rsum_perm _ _ _ Pf), Rsum_flat_map, Rsum_map. apply Rsum_ext. intros (e, l) Ip. cbn [fst snd].
  rewrite <- (Wh e l Ip), <- Rsum_scal. apply Rsum_ext. intros e' Il. rewrite (Gr e l e' Ip Il), (proj1 (In_ e l e' Ip Il)). reflexivity.
Qed.
