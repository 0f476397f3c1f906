(** Facts about the matrices used in PropsMatrix (C24-C29, C49). *)
From Flocq Require Import Core.
From Flocq Require IEEE754.BinarySingleNaN IEEE754.PrimFloat.
From Coq Require Import Reals Lra Floats.
From Verif Require Import Prelude StdMap Json Materials Graph ModelM Parser Matrix Solver Domain Results Driver
  SpecInput SpecModel SpecSolver SpecDriver SpecMatrix RSum ListLemmas LinAlg DriverProofs CallProofs DriverFacts
  RunProofs MatrixProofs MatrixCalls.
Open Scope list_scope.

(** ** IEEE arithmetic *)
#[local] Existing Instance Flocq.IEEE754.PrimFloat.Hprec.
#[local] Existing Instance Flocq.IEEE754.PrimFloat.Hmax.
Lemma SFmul_comm p e x y : SFmul p e x y = SFmul p e y x.
Proof.
  destruct x as [s| s| |s m1 e1], y as [s'|s'| |s' m2 e2]; cbn; try reflexivity; rewrite ?(Bool.xorb_comm s' s); try reflexivity.
  now rewrite (Pos.mul_comm m2 m1), (Z.add_comm e2 e1).
Qed.
Lemma fmul_comm (x y : float) : (x * y = y * x)%float.
Proof. apply Prim2SF_inj. rewrite !mul_spec. unfold SF64mul. apply SFmul_comm. Qed.

Lemma fdiv_self (x : float) : PrimFloat.is_finite x = true -> PrimFloat.is_zero x = false -> (x / x = 1)%float.
Proof.
  intros Fx Zx. apply Flocq.IEEE754.PrimFloat.Prim2B_inj.
  rewrite Flocq.IEEE754.PrimFloat.div_equiv.
  pose proof Flocq.IEEE754.PrimFloat.is_finite_equiv x as Fe. rewrite Fx in Fe.
  assert (Nz : Flocq.IEEE754.BinarySingleNaN.B2R (Flocq.IEEE754.PrimFloat.Prim2B x) <> 0%R).
  { rewrite Flocq.IEEE754.PrimFloat.is_zero_equiv in Zx. destruct (Flocq.IEEE754.PrimFloat.Prim2B x) as [s| | |s m e B]; try discriminate.
    cbn. intros E. apply Float_prop.eq_0_F2R in E. cbn in E. destruct s; discriminate. }
  pose proof (Flocq.IEEE754.BinarySingleNaN.Bdiv_correct prec emax Flocq.IEEE754.PrimFloat.Hprec Flocq.IEEE754.PrimFloat.Hmax Flocq.IEEE754.BinarySingleNaN.mode_NE (Flocq.IEEE754.PrimFloat.Prim2B x) (Flocq.IEEE754.PrimFloat.Prim2B x) Nz) as Hd.
  assert (E1 : (Flocq.IEEE754.BinarySingleNaN.B2R (Flocq.IEEE754.PrimFloat.Prim2B x) / Flocq.IEEE754.BinarySingleNaN.B2R (Flocq.IEEE754.PrimFloat.Prim2B x) = 1)%R) by (field; exact Nz).
  rewrite E1 in Hd.
  assert (O1 : Flocq.IEEE754.PrimFloat.Prim2B 1%float = Flocq.IEEE754.BinarySingleNaN.Bone).
  { change 1%float with PrimFloat.one. rewrite Flocq.IEEE754.PrimFloat.one_equiv. apply Flocq.IEEE754.PrimFloat.Prim2B_B2Prim. }
  assert (R1 : round radix2 (SpecFloat.fexp prec emax) (Flocq.IEEE754.BinarySingleNaN.round_mode Flocq.IEEE754.BinarySingleNaN.mode_NE) 1 = 1%R).
  { apply round_generic; [apply Flocq.IEEE754.BinarySingleNaN.valid_rnd_round_mode|].
    rewrite <- (Flocq.IEEE754.BinarySingleNaN.Bone_correct prec emax Flocq.IEEE754.PrimFloat.Hprec Flocq.IEEE754.PrimFloat.Hmax). apply Flocq.IEEE754.BinarySingleNaN.generic_format_B2R. }
  rewrite R1 in Hd. rewrite Rlt_bool_true in Hd.
  2:{ rewrite Rabs_R1. apply (bpow_lt radix2 0 emax). reflexivity. }
  destruct Hd as (Hv & Hf & Hs). rewrite O1.
  apply Flocq.IEEE754.BinarySingleNaN.B2R_Bsign_inj.
  - rewrite Hf. now rewrite <- Fe.
  - apply Flocq.IEEE754.BinarySingleNaN.is_finite_Bone.
  - rewrite Hv. symmetry. apply Flocq.IEEE754.BinarySingleNaN.Bone_correct.
  - rewrite Hs.
    + rewrite Bool.xorb_nilpotent. symmetry. apply Flocq.IEEE754.BinarySingleNaN.Bsign_Bone.
    +  destruct (Flocq.IEEE754.BinarySingleNaN.Bdiv Flocq.IEEE754.BinarySingleNaN.mode_NE (Flocq.IEEE754.PrimFloat.Prim2B x) (Flocq.IEEE754.PrimFloat.Prim2B x)); try reflexivity.
      cbn in Hf. congruence.
Qed.

(** ** C26 *)
Lemma reduced_bitwise (g : matrix float) o : nr g = nc g -> (forall i j, ent g i j = ent g j i) ->
  forall i j, ent (getCFromGeneralizedC g o) i j = ent (getCFromGeneralizedC g o) j i.
Proof.
  intros E Y i j.
  assert (X : forall a, sum_upto (nc g) (fun k => ent g (S a) k) = sum_upto (nr g) (fun k => ent g k (S a))).
  { intros a. rewrite E. unfold sum_upto. generalize (seq 0 (nc g)) as l. generalize (n0 : float) as z.
    intros z l; revert z; induction l as [|k l IH]; intros z; cbn; [reflexivity|]. now rewrite Y, IH. }
  destruct o; cbn; [| |apply Y]; rewrite !X, (Y (S i)); f_equal; f_equal; apply fmul_comm.
Qed.
Lemma C_bitwise dbg femlib moment (d : driver float) C w :
  reply dbg femlib moment CallC d = (Ok (VMatrix C), w) -> forall i j, ent C i j = ent C j i.
Proof.
  intros E. destruct (C_inv _ _ _ _ _ _ E) as (g & op & Eg & _ & ->).
  apply reduced_bitwise; [apply (gc_run _ _ _ _ _ _ _ Eg)|]. intros; eapply gc_symmetric; exact Eg.
Qed.

(** ** Over the reals *)
Open Scope R_scope.
Lemma eps0_value : EPSILON0_SI (T := R) = eps0.
Proof.
  unfold EPSILON0_SI, eps0, lit. cbn [ndiv nofZ RNum].
  replace (10 ^ 22)%Z with (10000000000 * 1000000000000)%Z by reflexivity.
  replace (10 ^ 12) with (IZR 1000000000000) by lra.
  rewrite mult_IZR. lra.
Qed.
Lemma mu0_value : MU0_SI (T := R) = mu0.
Proof.
  unfold MU0_SI, mu0, lit. cbn [ndiv nofZ RNum nmul npi].
  replace (10 ^ 7)%Z with 10000000%Z by reflexivity.
  replace (10 ^ 7) with 10000000 by lra. lra.
Qed.

Section Built.
  Variable dbg : bool.
  Variable femlib : mesh R -> Z -> fem R.
  Variable moment : R * R -> nat -> nat -> R * R -> R.
  Variables (m : model R) (o : driver_options) (d0 : driver R) (ops : list dop) (conds : list (pec R)).
  Notation F := (femlib (mo_mesh m) (o_order o)).
  Hypothesis W : well_posed F m.
  Hypothesis B : built dbg femlib m o d0.
  Hypothesis O : in_order (mo_mats m) conds.
  Notation Reply := (reply dbg femlib moment).
  Notation D := (after dbg femlib moment ops d0).

  Lemma gc_size ignore g w : Reply (CallGeneralizedC ignore) D = (Ok (VMatrix g), w) ->
    square (List.length conds) g.
  Proof.
    intros E. destruct (determineOpenness dbg m) as [op| |] eqn:Eo.
    - destruct (Nat.eq_dec (List.length conds) 1) as [L1|L1].
      + destruct op eqn:Eop.
        3:{ exfalso. destruct (built_solid _ _ _ _ _ W B) as (conds' & O' & _ & S).
            rewrite (in_order_unique _ _ _ O' O) in S.
            apply (after_solid dbg femlib moment m o conds d0 ops) in S.
            2:{ apply Forall_forall. intros; right; exact Rmul0. }
            destruct (gc_single dbg femlib m o conds O ignore _ S Eo L1) as [msg Es].
            unfold reply, call in E. rewrite (cbind_throw _ _ _ _ _ _ Es) in E. discriminate. }
        all: destruct (generalized_matrix dbg femlib moment m o d0 ops conds ignore _ W B O Eo) as (g' & w' & E' & S1 & S2 & _);
          [intros _; discriminate|]; rewrite E' in E; injection E as <- _; split; assumption.
      + destruct (generalized_matrix dbg femlib moment m o d0 ops conds ignore _ W B O Eo) as (g' & w' & E' & S1 & S2 & _);
          [intros; lia|]; rewrite E' in E; injection E as <- _; split; assumption.
    - exfalso. unfold reply, call, getGeneralizedCMatrix, cbind, cget, clift in E.
      rewrite (D_model dbg femlib moment Rmul0 m o d0 ops W B) in E. rewrite Eo in E.
      destruct (idToAttr_PEC _); discriminate.
    - exfalso. unfold reply, call, getGeneralizedCMatrix, cbind, cget, clift in E.
      rewrite (D_model dbg femlib moment Rmul0 m o d0 ops W B) in E. rewrite Eo in E.
      destruct (idToAttr_PEC _); discriminate.
  Qed.

  (** ** C28 *)
  Lemma unit_same t x : (forall q, In q (dielectrics (mo_mats m)) -> d_epsr q = 1) ->
    unit_solution F dbg (mo_mats m) true t x -> unit_solution F dbg (mo_mats m) false t x.
  Proof.
    intros H1 (p & s & [C1 C2 C3 C4 C5] & Es & Ex). exists p, s. split; [|auto]. constructor; auto.
    intros t' y. rewrite C5. unfold permittivity. cbn [n1 RNum].
    split; intros (l1 & d & l2 & Ed & A & N & ->); exists l1, d, l2; (split; [exact Ed|]); (split; [exact A|]); (split; [exact N|]).
    - symmetry. apply H1. rewrite Ed. apply in_elt.
    - apply H1. rewrite Ed. apply in_elt.
  Qed.
  Lemma charge_exists (x : solution R) t : exists q, charge_on F x t q.
  Proof.
    exists (flux_form F (fun q => if (q_attr q =? t)%Z then nopp n1 else n0) (so_d x)).
    intros s <-. reflexivity.
  Qed.
  Lemma vacuum_generalized ge gm we wm : (forall q, In q (dielectrics (mo_mats m)) -> d_epsr q = 1) ->
    Reply (CallGeneralizedC false) D = (Ok (VMatrix ge), we) -> Reply (CallGeneralizedC true) D = (Ok (VMatrix gm), wm) ->
    forall i j, (i < List.length conds)%nat -> (j < List.length conds)%nat -> ent ge i j = ent gm i j.
  Proof.
    intros H1 Ee Em i j Li Lj.
    assert (Eo : exists op, determineOpenness dbg m = Ok op /\ (List.length conds = 1%nat -> op <> Closed)).
    { destruct (determineOpenness dbg m) as [op| |] eqn:Eo.
      - exists op. split; [reflexivity|]. intros L1 ->.
        destruct (built_solid _ _ _ _ _ W B) as (conds' & O' & _ & S).
        rewrite (in_order_unique _ _ _ O' O) in S.
        apply (after_solid dbg femlib moment m o conds d0 ops) in S.
        2:{ apply Forall_forall. intros; right; exact Rmul0. }
        destruct (gc_single dbg femlib m o conds O true _ S Eo L1) as [msg Es].
        unfold reply, call in Em. rewrite (cbind_throw _ _ _ _ _ _ Es) in Em. discriminate.
      - exfalso. unfold reply, call, getGeneralizedCMatrix, cbind, cget, clift in Em.
        rewrite (D_model dbg femlib moment Rmul0 m o d0 ops W B) in Em. rewrite Eo in Em.
        destruct (idToAttr_PEC _); discriminate.
      - exfalso. unfold reply, call, getGeneralizedCMatrix, cbind, cget, clift in Em.
        rewrite (D_model dbg femlib moment Rmul0 m o d0 ops W B) in Em. rewrite Eo in Em.
        destruct (idToAttr_PEC _); discriminate. }
    destruct Eo as (op & Eo & N1).
    destruct (generalized_matrix dbg femlib moment m o d0 ops conds false op W B O Eo N1) as (g1 & w1 & E1 & _ & _ & V1).
    destruct (generalized_matrix dbg femlib moment m o d0 ops conds true op W B O Eo N1) as (g2 & w2 & E2 & _ & _ & V2).
    rewrite E1 in Ee; injection Ee as <- <-. rewrite E2 in Em; injection Em as <- <-.
    destruct (nth_error conds i) as [p|] eqn:Ep; [|apply nth_error_None in Ep; lia].
    destruct (nth_error conds j) as [q|] eqn:Eq; [|apply nth_error_None in Eq; lia].
    destruct (solution_of_conductor dbg femlib moment m o d0 [] conds true i p W B O ltac:(constructor) Ep) as (x & _ & Ux).
    destruct (solution_of_conductor dbg femlib moment m o d0 [] conds true j q W B O ltac:(constructor) Eq) as (y & _ & Uy).
    destruct (charge_exists x (p_attr q)) as [a Ha]. destruct (charge_exists y (p_attr p)) as [b Hb].
    rewrite (V1 i j p q x y a b Ep Eq (unit_same _ _ H1 Ux) (unit_same _ _ H1 Uy) Ha Hb).
    now rewrite (V2 i j p q x y a b Ep Eq Ux Uy Ha Hb).
  Qed.
  Lemma total_ext g g' n : square n g -> square n g' -> (forall i j, (i < n)%nat -> (j < n)%nat -> ent g i j = ent g' i j) ->
    total g = total g'.
  Proof.
    intros [A1 A2] [B1 B2] E. unfold total. rewrite A1, A2, B1, B2. apply Sum_ext. intros i Li. apply Sum_ext. intros; now apply E.
  Qed.
  Lemma reduced_ext g g' n op : square (S n) g -> square (S n) g' ->
    (forall i j, (i < S n)%nat -> (j < S n)%nat -> ent g i j = ent g' i j) ->
    forall i j, (i < n)%nat -> (j < n)%nat -> ent (getCFromGeneralizedC g op) i j = ent (getCFromGeneralizedC g' op) i j.
  Proof.
    intros Sg Sg' E i j Li Lj.
    assert (Cases : op = Closed \/ op <> Closed) by (destruct op; auto; right; discriminate).
    destruct Cases as [->|N].
    - rewrite !reduced_closed. apply E; lia.
    - rewrite (reduced_open g n Sg op i j N), (reduced_open g' n Sg' op i j N).
      rewrite (total_ext g g' (S n)) by auto. rewrite E by lia. unfold rowsum, colsum.
      rewrite (Sum_ext (S n) (fun k => ent g (S i) k) (fun k => ent g' (S i) k)) by (intros; apply E; lia).
      rewrite (Sum_ext (S n) (fun k => ent g k (S j)) (fun k => ent g' k (S j))) by (intros; apply E; lia). reflexivity.
  Qed.
  Lemma pul_units C L w1 w2 : Reply CallC D = (Ok (VMatrix C), w1) -> Reply CallL D = (Ok (VMatrix L), w2) ->
    exists p w, Reply CallPUL D = (Ok (VPul p), w) /\
      nr (pul_C p) = nr C /\ nc (pul_C p) = nc C /\ nr (pul_L p) = nr L /\ nc (pul_L p) = nc L /\
      forall i j, ent (pul_C p) i j = eps0 * ent C i j /\ ent (pul_L p) i j = mu0 * ent L i j.
  Proof.
    intros EC EL. pose proof (reply_PUL dbg femlib moment Rmul0 m o d0 ops W B C L w1 w2 EC EL) as E.
    eexists; eexists. split; [exact E|]. cbn [pul_C pul_L mscale nr nc ent nmul RNum]. rewrite eps0_value, mu0_value. repeat (split; [reflexivity|]).
    intros i j. split; apply Rmult_comm.
  Qed.
  Lemma invert_size a l : invert a = Ok l -> nr l = nr a /\ nc l = nc a.
  Proof. unfold invert. intros E. apply bind_ok in E as (cols & _ & E). injection E as <-. auto. Qed.
  Lemma pul_vacuum p w n : (forall q, In q (dielectrics (mo_mats m)) -> d_epsr q = 1) ->
    List.length conds = S n ->
    Reply CallPUL D = (Ok (VPul p), w) ->
    square n (pul_L p) /\ square n (pul_C p) /\
    product_is n (pul_L p) (pul_C p) (mu0 * eps0) /\ product_is n (pul_C p) (pul_L p) (mu0 * eps0).
  Proof.
    intros H1 Ln E. destruct (PUL_inv dbg femlib moment Rmul0 m o d0 ops W B p w E) as (C & L & w1 & w2 & EC & EL & ->).
    destruct (C_inv _ _ _ _ _ _ EC) as (ge & op & Ee & Eo & ->).
    destruct (L_inv _ _ _ _ _ _ EL) as (gm & op' & Em & Eo' & Inv). rewrite Eo in Eo'. injection Eo' as <-.
    pose proof (gc_size false _ _ Ee) as Se. pose proof (gc_size true _ _ Em) as Sm. rewrite Ln in *.
    pose proof (reduced_size ge n Se op) as Re. pose proof (reduced_size gm n Sm op) as Rm.
    destruct (invert_product _ n Rm L Inv) as (Sl & P1 & P2).
    pose proof (vacuum_generalized ge gm _ _ H1 Ee Em) as V. rewrite Ln in V.
    pose proof (reduced_ext ge gm n op Se Sm V) as X.
    split; [exact Sl|]. split; [exact Re|]. cbn [pul_L pul_C mscale ent]. rewrite eps0_value, mu0_value.
    split; intros i j Li Lj; cbn [ent mscale nmul RNum].
    - specialize (P2 i j Li Lj). 
      rewrite (Sum_ext n _ (fun k => mu0 * eps0 * (ent L i k * ent (getCFromGeneralizedC gm op) k j))).
      + rewrite Sum_scal, P2. destruct (i =? j)%nat; ring.
      + intros k Lk. rewrite X by auto. ring.
    - specialize (P1 i j Li Lj). 
      rewrite (Sum_ext n _ (fun k => mu0 * eps0 * (ent (getCFromGeneralizedC gm op) i k * ent L k j))).
      + rewrite Sum_scal, P1. destruct (i =? j)%nat; ring.
      + intros k Lk. rewrite X by auto. ring.
  Qed.

  (** ** C29 *)
  Lemma floating_potentials op ge gm we wm e f w : (2 <= List.length conds)%nat ->
    determineOpenness dbg m = Ok op -> op <> SemiOpen ->
    Reply (CallGeneralizedC false) D = (Ok (VMatrix ge), we) -> Reply (CallGeneralizedC true) D = (Ok (VMatrix gm), wm) ->
    Reply CallFloating D = (Ok (VMatrices e f), w) ->
    forall C fp, (C, fp) = (match op with Closed => grounded ge | _ => ge end, e) \/
                 (C, fp) = (match op with Closed => grounded gm | _ => gm end, f) ->
    square (nr C) fp /\
    forall i, (i < nr C)%nat -> floats C i (ent fp i) /\ forall V, floats C i V -> forall j, (j < nr C)%nat -> V j = ent fp i j.
  Proof.
    intros L2 Eo Ns Ee Em Ef C fp Hfp.
    pose proof (gc_size false _ _ Ee) as Se. pose proof (gc_size true _ _ Em) as Sm.
    assert (N1 : (List.length (pecs (mo_mats m)) <> 1)%nat).
    { destruct O as [P _]. rewrite <- (Permutation.Permutation_length P). lia. }
    pose proof (reply_floating dbg femlib moment Rmul0 m o d0 ops W B ge gm we wm op N1 Eo Ns Ee Em) as R.
    rewrite Ef in R. cbn [fst] in R.
    assert (G : forall g fp0, square (List.length conds) g ->
      floating_matrix (match op with Closed => getCFromGeneralizedC g Closed | _ => g end) = Ok fp0 ->
      (C, fp) = (match op with Closed => grounded g | _ => g end, fp0) ->
      square (nr C) fp /\
      forall i, (i < nr C)%nat -> floats C i (ent fp i) /\ forall V, floats C i V -> forall j, (j < nr C)%nat -> V j = ent fp i j).
    { intros g fp0 Sg E [= -> ->].
      assert (Sq : square (nr (match op with Closed => grounded g | _ => g end)) (match op with Closed => grounded g | _ => g end)).
      { destruct Sg as [A A']. destruct op; split; cbn; try reflexivity; congruence. }
      destruct (floating_matrix_ok _ _ Sq fp0) as [X Y].
      - destruct op; exact E.
      - split; [exact X|exact Y]. }
    destruct (floating_matrix (match op with Closed => getCFromGeneralizedC ge Closed | _ => ge end)) as [e'| |] eqn:E1;
      [|discriminate|discriminate]. cbn [bind] in R.
    destruct (floating_matrix (match op with Closed => getCFromGeneralizedC gm Closed | _ => gm end)) as [f'| |] eqn:E2;
      [|discriminate|discriminate]. cbn [bind] in R. injection R as <- <-.
    destruct Hfp as [Hfp|Hfp]; [exact (G ge _ Se E1 Hfp)|exact (G gm _ Sm E2 Hfp)].
  Qed.
  Lemma floating_regular op ge gm we wm : (2 <= List.length conds)%nat ->
    determineOpenness dbg m = Ok op -> op <> SemiOpen ->
    Reply (CallGeneralizedC false) D = (Ok (VMatrix ge), we) -> Reply (CallGeneralizedC true) D = (Ok (VMatrix gm), wm) ->
    (forall g, g = ge \/ g = gm -> symmetric g /\ positive_definite (match op with Closed => grounded g | _ => g end)) ->
    exists e f w, Reply CallFloating D = (Ok (VMatrices e f), w).
  Proof.
    intros L2 Eo Ns Ee Em Hp.
    pose proof (gc_size false _ _ Ee) as Se. pose proof (gc_size true _ _ Em) as Sm.
    assert (N1 : (List.length (pecs (mo_mats m)) <> 1)%nat).
    { destruct O as [P _]. rewrite <- (Permutation.Permutation_length P). lia. }
    pose proof (reply_floating dbg femlib moment Rmul0 m o d0 ops W B ge gm we wm op N1 Eo Ns Ee Em) as R.
    assert (G : forall g, (g = ge \/ g = gm) -> is_ok (floating_matrix (match op with Closed => getCFromGeneralizedC g Closed | _ => g end))).
    { intros g Hg. assert (Sg : square (List.length conds) g) by (destruct Hg as [-> | ->]; assumption).
      destruct (Hp g Hg) as [Y P]. destruct op.
      - apply (floating_matrix_pd g _ Sg Y P).
      - congruence.
      - destruct (List.length conds) as [|n] eqn:El; [lia|].
        apply (floating_matrix_pd _ n (reduced_size g n Sg Closed)); [now apply (reduced_symmetric g n Sg)|exact P]. }
    destruct (G ge (or_introl eq_refl)) as [e E1]. destruct (G gm (or_intror eq_refl)) as [f E2].
    rewrite E1 in R. cbn [bind] in R. rewrite E2 in R. cbn [bind] in R.
    destruct (Reply CallFloating D) as [r w]. cbn in R. subst r. eauto.
  Qed.
End Built.
Lemma floating_single (dbg : bool) femlib moment (d : driver R) : List.length (pecs (mo_mats (dr_model d))) = 1%nat ->
  exists e f, reply dbg femlib moment CallFloating d = (Ok (VMatrices e f), []) /\
    forall fp, fp = e \/ fp = f -> square 1 fp /\ ent fp 0 0 = 1.
Proof.
  intros L. assert (E1 : List.length (nameToAttr_PEC (mo_mats (dr_model d))) = 1%nat).
  { unfold nameToAttr_PEC. destruct (pecs (mo_mats (dr_model d))) as [|p [|? ?]]; try discriminate. reflexivity. }
  assert (E2 : forall b, getFloatingPotentialsMatrix dbg femlib b d = ((Ok {| nr := 1; nc := 1; ent := fun _ _ => n1 |}, d), [])).
  { intros b. unfold getFloatingPotentialsMatrix. rewrite cbind_get, E1. reflexivity. }
  do 2 eexists. unfold reply, call, getFloatingPotentials. 
  unfold cbind at 1. rewrite (cbind_ok _ _ _ _ _ _ (E2 false)), (cbind_ok _ _ _ _ _ _ (E2 true)). cbn.
  split; [reflexivity|]. intros fp [-> | ->]; repeat split.
Qed.

(** ** C27 *)
Lemma pd_spd g : positive_definite g -> (0 < nr g)%nat -> nr g = nc g -> positive_for_differences g /\ 0 < total g.
Proof.
  intros P L Sq. split.
  - intros V (k & Lk & N). apply P. destruct (Req_dec (V 0%nat) 0) as [E|E]; [exists k; split; auto; congruence|].
    exists 0%nat. split; auto.
  - assert (Q : 0 < quad g (fun _ => 1)) by (apply P; exists 0%nat; split; [exact L|lra]).
    unfold quad, charge in Q. unfold total.
    rewrite (Sum_ext (nr g) _ (fun i => Sum (nc g) (fun j => ent g i j))) in Q; [exact Q|].
    intros i _. rewrite Rmult_1_l. apply Sum_ext. intros; ring.
Qed.
