(** Proofs for C80: when the in-cell parameters are produced. *)
From Coq Require Import Reals Lra Lia Permutation.
From Verif Require Import Prelude StdMap Json Materials Graph ModelM Parser Matrix Solver Domain Results Driver
  RSum ListLemmas SpecInput SpecModel SpecSolver SpecDriver SpecMatrix SpecCharge SpecResults SpecField SpecInner SpecInCell
  ModelProofs SolverProofs DriverProofs CallProofs DriverFacts RunProofs ChargeProofs MatrixProofs MatrixCalls FieldProofs.
Open Scope R_scope.
Open Scope list_scope.

Lemma clift_ok {T S A B} (x : outcome A) (f : A -> cmd T S B) a s r : x = Ok a -> fst (fst (f a s)) = r -> fst (fst (cbind (clift x) f s)) = r.
Proof. intros -> E. unfold cbind, clift. destruct (f a s) as [[r' s'] w']. exact E. Qed.
Lemma cbind_ok {T S A B} (c : cmd T S A) (f : A -> cmd T S B) s a s1 w1 : c s = ((Ok a, s1), w1) -> fst (fst (cbind c f s)) = fst (fst (f a s1)).
Proof. intros E. unfold cbind. rewrite E. destruct (f a s1) as [[r s2] w2]. reflexivity. Qed.
Lemma emit_ok {T S B} w (f : unit -> cmd T S B) s : fst (fst (cbind (cemit w) f s)) = fst (fst (f tt s)).
Proof. unfold cbind, cemit. destruct (f tt s) as [[r s'] w']. reflexivity. Qed.
Lemma ok_result {T S A} (c : cmd T S A) s a : fst (fst (c s)) = Ok a -> exists s' w, c s = ((Ok a, s'), w).
Proof. destruct (c s) as [[r s'] w]. cbn. intros ->. eauto. Qed.

Section Inner.
  Variable m : model R.
  Hypothesis ND : NoDup (all_names (mo_mats m)).
  Lemma material_known F s n : In n (map d_name (dielectrics (mo_mats m))) \/ In n (map p_name (pecs (mo_mats m))) ->
    exists v a, material_data F s m n v a.
  Proof.
    intros [I | I]; apply in_map_iff in I as (x & <- & I).
    - do 2 eexists. left. exists x. repeat split; auto.
    - do 2 eexists. right. exists x. repeat split; auto.
  Qed.
  Lemma inner_runs F s l : (forall n, In n l -> In n (map d_name (dielectrics (mo_mats m))) \/ In n (map p_name (pecs (mo_mats m)))) ->
    forall acc, exists r, foldM (inner_step m F s) l acc = Ok r.
  Proof.
    induction l as [|n l IH]; intros H acc; [eexists; reflexivity|]. cbn [foldM].
    destruct (material_known F s n (H n (or_introl eq_refl))) as (v & a & D).
    rewrite (step_of_material m F s acc n v a ND D). cbn [bind]. apply IH. intros x I. apply H. now right.
  Qed.
  Lemma average_ok F s : inner_region_named (mo_mats m) -> exists v, getInnerRegionAveragePotential m F s true = Ok v.
  Proof.
    intros Hi. unfold getInnerRegionAveragePotential.
    destruct (inner_runs F s (listMaterialsInInnerRegion m true)) with (acc := (n0 (T:=R), n0 (T:=R))) as (r & E).
    - intros n I. unfold listMaterialsInInnerRegion in I. destruct I as [<- | I]; [exact Hi|]. apply in_app_or in I as [I | I].
      + apply filter_In in I as (I & _). left. now apply keys_Diel.
      + right. now apply keys_PEC.
    - rewrite E. eexists. reflexivity.
  Qed.
  Lemma average_inv F s v : getInnerRegionAveragePotential m F s true = Ok v -> inner_region_named (mo_mats m).
  Proof.
    intros E. unfold getInnerRegionAveragePotential in E. apply bind_ok in E as (r & E & _).
    unfold listMaterialsInInnerRegion in E. cbn [foldM] in E. apply bind_ok in E as (acc & E & _).
    unfold inner_step in E. apply bind_ok in E as (tag & _ & E). apply bind_ok in E as (area & E & _).
    unfold getAreaOfMaterial in E. destruct (mget _ _) as [t|]; [|discriminate].
    destruct (isDomainMaterial (mo_mats m) INNER_REGION_DEFAULT_NAME) eqn:Ed.
    - left. unfold isDomainMaterial in Ed. apply mcount_in, keys_Diel in Ed. exact Ed.
    - right. apply bind_ok in E as (p & E & _). unfold get_PEC_by_name in E.
      clear -E. revert E. generalize (pecs (mo_mats m)). induction l as [|q l IH]; [discriminate|]. cbn [find map].
      destruct (String.eqb_spec (p_name q) INNER_REGION_DEFAULT_NAME) as [Eq | Nq].
      + intros _. left. exact Eq.
      + intros E. right. exact (IH E).
  Qed.
  Lemma box_ok : inner_region_named (mo_mats m) -> exists b, getBoundingBoxOfMaterial m INNER_REGION_DEFAULT_NAME = Ok b.
  Proof.
    intros Hi. unfold getBoundingBoxOfMaterial, mat_.
    assert (Ht : exists t, has_tag (mo_mats m) "Vacuum_0" t).
    { destruct Hi as [I | I]; apply in_map_iff in I as (x & <- & I); eexists; [right; right|left]; eauto. }
    destruct Ht as (t & Ht). apply (buildNameToAttrMap_get _ _ _ ND) in Ht. unfold INNER_REGION_DEFAULT_NAME. rewrite Ht. eexists. reflexivity.
  Qed.
End Inner.

Lemma center_ok F moment (s : solver R) : (exists c, getCenterOfCharge F moment s = Ok c) <-> exists t, si_open (s_params s) = [t].
Proof.
  unfold getCenterOfCharge. split.
  - intros (c & E). destruct (si_open (s_params s)) as [|t [|? ?]]; try discriminate. eauto.
  - intros (t & ->). eexists. reflexivity.
Qed.

Section Run.
  Variable dbg : bool.
  Variable femlib : mesh R -> Z -> fem R.
  Variable moment : R * R -> nat -> nat -> R * R -> R.
  Variable m : model R.
  Variable o : driver_options.
  Notation F := (femlib (mo_mesh m) (o_order o)).
  Variable conds : list (pec R).
  Hypothesis O : in_order (mo_mats m) conds.
  Hypothesis W : well_posed F m.
  Notation n := (List.length conds).
  Notation holds := (holds dbg femlib m o conds).
  Notation solid := (solid dbg femlib m o conds).
  Let ND := wp_names _ _ W.

  Hypothesis Named : inner_region_named (mo_mats m).
  Hypothesis One : List.length (openBoundaries (mo_mats m)) = 1%nat.

  Lemma one_open ignore v p : conductor_problem (mo_mats m) ignore v p -> exists t, si_open p = [t].
  Proof.
    intros Cp. pose proof (Permutation_length (cp_open _ _ _ _ Cp)) as L. rewrite map_length, One in L.
    destruct (si_open p) as [|t [|? ?]]; try discriminate. eauto.
  Qed.
  Lemma field_runs ignore us fp d k p res : holds ignore us d -> square n fp -> nth_error conds k = Some p ->
    exists res', fst (fst (field_step femlib moment ignore fp (tagged conds) res (Z.of_nat k, p_attr p) d)) = Ok res'.
  Proof.
    intros (S & Es & Fu) Sq Ep. pose proof S as (M & Op & Fi).
    assert (Lk : (k < n)%nat) by (apply nth_error_Some; congruence).
    assert (Lu : List.length us = n) by (apply Forall2_length in Fu; auto).
    assert (Su : Forall (sized F) us).
    { clear -Fu. induction Fu as [|p u l l' [_ Hu] Fu IH]; constructor; auto. }
    destruct (Fi ignore) as (_ & Sz & v & Pv).
    destruct (superpose_ok femlib m o conds us (problem d ignore) fp k Es Lu Su Sz Sq Lk) as (s & Ex & Ss & Cs & Ps).
    destruct (average_ok m ND F s Named) as (av & Eav).
    assert (Ho : exists t, si_open (s_params s) = [t]) by (rewrite Ps; exact (one_open ignore v _ Pv)).
    destruct (proj2 (center_ok F moment s) Ho) as (cc & Ecc).
    eexists. unfold field_step. rewrite cbind_get, M, Op. cbn [fst].
    eapply clift_ok; [exact Ex|]. rewrite cbind_put. eapply clift_ok; [apply (in_order_get _ _ _ _ O Ep)|].
    rewrite emit_ok.
    eapply clift_ok; [exact Eav|]. eapply clift_ok; [exact Ecc|].
    eapply clift_ok; [unfold getMultipolarCoefficients; rewrite Ecc; reflexivity|].
    eapply clift_ok; [|reflexivity].
    exact (pots_from conds fp k Sq Lk n 0 ltac:(lia)).
  Qed.
  Lemma fields_run_from ignore us fp : square n fp -> forall r k d res, (k + r = n)%nat -> holds ignore us d ->
    exists res', fst (fst (cfold (field_step femlib moment ignore fp (tagged conds)) (skipn k (tagged conds)) res d)) = Ok res'.
  Proof.
    intros Sq. induction r as [|r IH]; intros k d res E Hd.
    - rewrite skipn_all2 by (rewrite tagged_length; lia). eexists. reflexivity.
    - destruct (nth_error conds k) as [p|] eqn:Ep; [|apply nth_error_None in Ep; lia].
      rewrite (skipn_nth _ _ _ (tagged_nth _ _ _ Ep)). cbn [cfold].
      destruct (field_runs ignore us fp d k p res Hd Sq Ep) as (res1 & E1). apply ok_result in E1 as (d1 & w1 & E1).
      destruct (field_ok dbg femlib moment m o conds ignore us fp d k p res res1 d1 w1 Hd Sq Ep E1) as (H1 & _).
      rewrite (cbind_ok _ _ _ _ _ _ E1). apply IH; [lia|exact H1].
  Qed.
  Lemma params_run ignore d fp : solid d -> determineOpenness dbg m = Ok Open -> conds <> [] ->
    fst (fst (getFloatingPotentialsMatrix dbg femlib ignore d)) = Ok fp ->
    exists l, fst (fst (getFieldParameters dbg femlib moment ignore d)) = Ok l.
  Proof.
    intros S Eo Ne E. apply ok_result in E as (d1 & w1 & E). 
    destruct (fpm_open dbg femlib m o conds O W ignore d fp d1 w1 S Eo Ne E) as (us & H1 & _ & Sq & _).
    destruct (fields_run_from ignore us fp Sq n 0 d1 [] ltac:(lia) H1) as (l & El).
    exists l. unfold getFieldParameters. rewrite (cbind_ok _ _ _ _ _ _ E), cbind_get.
    assert (M1 : dr_model d1 = m) by apply H1. rewrite M1. eapply clift_ok; [apply (in_order_conductors _ _ O)|]. exact El.
  Qed.
End Run.

Section Iff.
  Variable dbg : bool.
  Variable femlib : mesh R -> Z -> fem R.
  Variable moment : R * R -> nat -> nat -> R * R -> R.
  Variable m : model R.
  Variable o : driver_options.
  Notation F := (femlib (mo_mesh m) (o_order o)).
  Variable conds : list (pec R).
  Hypothesis O : in_order (mo_mats m) conds.
  Hypothesis W : well_posed F m.
  Hypothesis Ne : conds <> [].
  Notation solid := (solid dbg femlib m o conds).
  Notation same := (same_driver femlib).
  Notation fpm := (getFloatingPotentialsMatrix dbg femlib).
  Notation params := (getFieldParameters dbg femlib moment).

  Lemma fpm_left ignore d : same d d -> same d (snd (fst (fpm ignore d))).
  Proof. intros S. destruct (rel_fpm dbg femlib d ignore d d (conj S S)) as (_ & _ & R1 & _). exact R1. Qed.
  Lemma params_left ignore d : same d d -> same d (snd (fst (params ignore d))).
  Proof. intros S. destruct (rel_fieldparams dbg femlib moment d Rmul0 ignore d d (conj S S)) as (_ & _ & R1 & _). exact R1. Qed.
  Lemma fpm_result ignore d d' : same d d' -> fst (fst (fpm ignore d)) = fst (fst (fpm ignore d')).
  Proof. intros S. destruct (rel_fpm dbg femlib d ignore d d') as (E & _); [split; [exact (same_refl_l femlib _ _ S)|exact S]|]. exact E. Qed.
  Lemma floating_iff d : same d d ->
    ((exists ef, fst (fst (getFloatingPotentials dbg femlib d)) = Ok ef) <-> forall ignore, exists fp, fst (fst (fpm ignore d)) = Ok fp).
  Proof.
    intros S. unfold getFloatingPotentials. split.
    - intros (ef & E). apply ok_result in E as (s & w & E). apply cbind_inv in E as (e & d1 & w1 & w2 & E1 & E).
      apply cbind_inv in E as (f & d2 & w3 & w4 & E2 & _). pose proof (fpm_left false d S) as S1. rewrite E1 in S1. cbn in S1.
      intros [|]; [exists f|exists e].
      + rewrite (fpm_result true d d1 S1), E2. reflexivity.
      + rewrite E1. reflexivity.
    - intros H. destruct (H false) as (e & E1), (H true) as (f & E2). apply ok_result in E1 as (d1 & w1 & E1).
      exists (e, f). rewrite (cbind_ok _ _ _ _ _ _ E1). pose proof (fpm_left false d S) as S1. rewrite E1 in S1. cbn in S1.
      rewrite (fpm_result true d d1 S1) in E2. apply ok_result in E2 as (d2 & w2 & E2). rewrite (cbind_ok _ _ _ _ _ _ E2). reflexivity.
  Qed.
  Lemma params_fpm ignore d l : fst (fst (params ignore d)) = Ok l -> exists fp, fst (fst (fpm ignore d)) = Ok fp.
  Proof.
    intros E. apply ok_result in E as (s & w & E). unfold getFieldParameters in E. apply cbind_inv in E as (fp & d1 & w1 & w2 & E1 & _).
    exists fp. rewrite E1. reflexivity.
  Qed.
  Lemma incell_iff d : solid d -> same d d ->
    ((exists p, fst (fst (getInCellPotentials dbg femlib moment d)) = Ok p) <->
     determineOpenness dbg m = Ok Open /\ inner_region_named (mo_mats m) /\ List.length (openBoundaries (mo_mats m)) = 1%nat /\
     exists ef, fst (fst (getFloatingPotentials dbg femlib d)) = Ok ef).
  Proof.
    intros S Sd. pose proof S as (M & Op & Fi). rewrite (floating_iff d Sd). unfold getInCellPotentials. rewrite cbind_get, M. split.
    - intros (p & E). apply ok_result in E as (s & w & E).
      apply clift_inv in E as (op & w1 & Eo & E). destruct (openness_eqb op Open) eqn:Eb; cbn [negb] in E; [|discriminate].
      assert (op = Open) by (destruct op; auto; discriminate). subst op.
      apply clift_inv in E as (b & w2 & _ & E). apply cbind_inv in E as (e & d1 & w3 & w4 & Ee & E).
      apply cbind_inv in E as (g & d2 & w5 & w6 & Eg & _). split; [exact Eo|].
      destruct (fields_ok dbg femlib moment m o conds O W false d e d1 w3 S Eo Ne Ee) as (_ & _ & _ & us & fp & _ & _ & _ & Rx).
      assert (L0 : (0 < List.length conds)%nat) by (destruct conds; [congruence|cbn; lia]).
      destruct (Rx 0%nat L0) as (fr & x & _ & Rc). destruct (rc_values _ _ _ _ _ _ _ _ _ _ Rc) as (s0 & v & _ & Cp & Ea & Ecc & _).
      split; [exact (average_inv m F s0 _ Ea)|]. split.
      + destruct (proj1 (center_ok F moment s0) (ex_intro _ _ Ecc)) as (t & Et).
        pose proof (Permutation_length (cp_open _ _ _ _ Cp)) as L. rewrite Et, map_length in L. cbn in L. lia.
      + pose proof (params_left false d Sd) as S1. rewrite Ee in S1. cbn in S1.
        intros [|].
        * rewrite (fpm_result true d d1 S1). apply (params_fpm true d1 g). now rewrite Eg.
        * apply (params_fpm false d e). now rewrite Ee.
    - intros (Eo & Nm & One & Hf).
      destruct (box_ok m (wp_names _ _ W) Nm) as (b & Eb). destruct (Hf false) as (fp & Efp), (Hf true) as (fp' & Efp').
      destruct (params_run dbg femlib moment m o conds O W Nm One false d fp S Eo Ne Efp) as (e & Ee). apply ok_result in Ee as (d1 & w1 & Ee).
      pose proof (params_left false d Sd) as S1. rewrite Ee in S1. cbn in S1. rewrite (fpm_result true d d1 S1) in Efp'.
      destruct (fields_ok dbg femlib moment m o conds O W false d e d1 w1 S Eo Ne Ee) as (Sl1 & _).
      destruct (params_run dbg femlib moment m o conds O W Nm One true d1 fp' Sl1 Eo Ne Efp') as (g & Eg). apply ok_result in Eg as (d2 & w2 & Eg).
      eexists. eapply clift_ok; [exact Eo|]. cbn [openness_eqb negb]. eapply clift_ok; [exact Eb|].
      rewrite (cbind_ok _ _ _ _ _ _ Ee), (cbind_ok _ _ _ _ _ _ Eg). reflexivity.
  Qed.
End Iff.

Section Reply.
  Variable dbg : bool.
  Variable femlib : mesh R -> Z -> fem R.
  Variable moment : R * R -> nat -> nat -> R * R -> R.
  Variables (m : model R) (o : driver_options) (d0 : driver R) (ops : list dop).
  Notation F := (femlib (mo_mesh m) (o_order o)).
  Hypothesis W : well_posed F m.
  Hypothesis B : built dbg femlib m o d0.
  Notation D := (after dbg femlib moment ops d0).
  Lemma reply_ok {A} (c : cmd R (driver R) A) (f : A -> dval R) (op : dop) d : (forall s, call dbg femlib moment op s = cbind c (fun a => cret (f a)) s) ->
    ((exists a, fst (fst (c d)) = Ok a) <-> exists a w, reply dbg femlib moment op d = (Ok (f a), w)).
  Proof.
    intros Ec. unfold reply. rewrite Ec. unfold cbind, cret. destruct (c d) as [[r d'] w]. destruct r as [a| |]; cbn; split.
    - intros (x & [= ->]). eauto.
    - eauto.
    - intros (x & X). discriminate.
    - intros (x & y & X). discriminate.
    - intros (x & X). discriminate.
    - intros (x & y & X). discriminate.
  Qed.
  Lemma reply_incell_iff :
    (exists p w, reply dbg femlib moment CallInCell D = (Ok (VInCell p), w)) <->
    determineOpenness dbg m = Ok Open /\ inner_region_named (mo_mats m) /\ List.length (openBoundaries (mo_mats m)) = 1%nat /\
    exists e f w, reply dbg femlib moment CallFloating D = (Ok (VMatrices e f), w).
  Proof.
    rewrite !(history_irrelevant dbg femlib moment (fun _ => True) m o d0 ops);
      [|intros op _; right; exact Rmul0|exact W|exact B|apply Forall_forall; auto|exact I|intros op _; right; exact Rmul0|exact W|exact B|apply Forall_forall; auto|exact I].
    destruct (built_finished dbg femlib m o d0 W B) as (conds & O & Ne & M & Op & Fi & _).
    set (f0 := last_folder ops (o_exportFolder o)). clearbody f0.
    assert (S : solid dbg femlib m o conds (in_folder d0 f0)) by (split; [exact M|]; split; [cbn; now rewrite Op|exact Fi]).
    assert (Sd : same_driver femlib (in_folder d0 f0) (in_folder d0 f0)) by (apply in_folder_same; exact (finished_same dbg femlib m o conds d0 M Op Fi)).
    rewrite <- (reply_ok (getInCellPotentials dbg femlib moment) VInCell CallInCell) by reflexivity.
    rewrite (incell_iff dbg femlib moment m o conds O W Ne _ S Sd).
    rewrite (reply_ok (getFloatingPotentials dbg femlib) (fun ef => VMatrices (fst ef) (snd ef)) CallFloating) by reflexivity.
    split; intros (H1 & H2 & H3 & H4); (split; [exact H1|split; [exact H2|split; [exact H3|]]]).
    - destruct H4 as ([e f] & w & E). cbn in E. eauto.
    - destruct H4 as (e & f & w & E). exists (e, f), w. exact E.
  Qed.
End Reply.

Lemma incell_unnamed {T} `{Num T} dbg femlib moment (d : driver T) : determineOpenness dbg (dr_model d) = Ok Open ->
  NoDup (all_names (mo_mats (dr_model d))) -> ~ In "Vacuum_0"%string (all_names (mo_mats (dr_model d))) ->
  call dbg femlib moment CallInCell d = ((Throw OutOfRange, d), []).
Proof.
  intros Eo ND Nn. cbn [call]. unfold getInCellPotentials, cbind, cget, clift. rewrite Eo. cbn [openness_eqb negb].
  assert (E : getBoundingBoxOfMaterial (dr_model d) INNER_REGION_DEFAULT_NAME = Throw OutOfRange); [|rewrite E; reflexivity].
  unfold getBoundingBoxOfMaterial, mat_. destruct (mget INNER_REGION_DEFAULT_NAME _) as [t|] eqn:E; [|reflexivity]. exfalso. apply Nn.
  apply (buildNameToAttrMap_get _ _ _ ND) in E. unfold all_names. rewrite !in_app_iff.
  destruct E as [(x & I & Ex & _) | [(x & I & Ex & _) | (x & I & Ex & _)]]; apply (in_map (fun y => y)) in I; rewrite map_id in I.
  - left. change INNER_REGION_DEFAULT_NAME with "Vacuum_0"%string in Ex. rewrite <- Ex. now apply in_map.
  - right. left. change INNER_REGION_DEFAULT_NAME with "Vacuum_0"%string in Ex. rewrite <- Ex. now apply in_map.
  - right. right. change INNER_REGION_DEFAULT_NAME with "Vacuum_0"%string in Ex. rewrite <- Ex. now apply in_map.
Qed.
