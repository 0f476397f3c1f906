(** Proofs about the calls on a Driver. *)
From Verif Require Import Prelude StdMap Json Materials Graph ModelM Parser Matrix Solver Domain Results Driver
  SpecInput SpecModel SpecSolver SpecDriver ListLemmas ModelProofs SolverProofs DriverProofs.
From Coq Require Import Permutation Sorted Reals Lra.

Section Built.
  Context {T : Type} `{Num T}.
  Variable dbg : bool.
  Variable femlib : mesh T -> Z -> fem T.
  Variable moment : T * T -> nat -> nat -> T * T -> T.
  Notation Fm m o := (femlib (mo_mesh m) (o_order o)).

  Lemma accepted_order (m : model T) : NoDup (map p_name (pecs (mo_mats m))) -> checkConductors m = Ok tt ->
    exists conds, in_order (mo_mats m) conds /\ conds <> [].
  Proof.
    intros ND E. assert (E' := E). unfold checkConductors in E'. apply bind_ok in E' as (ids' & Em & _).
    destruct (ids_not_ok _ _ ND Em) as (ids & C & _).
    apply (checkConductors_ids m ids ND C) in E as [Ne N].
    destruct (in_order_exists _ _ C N) as (conds & O & L). exists conds. split; auto.
    intros ->. destruct ids; [auto|discriminate].
  Qed.
  Lemma built_finished m o d : well_posed (Fm m o) m -> built dbg femlib m o d ->
    exists conds, in_order (mo_mats m) conds /\ conds <> [] /\ dr_model d = m /\ dr_opts d = o /\
      (forall ignore, finished dbg femlib m o ignore conds (problem d ignore)) /\
      mkDriver dbg femlib m o tt = ((Ok d, tt), exports o false conds (stored (dr_el d)) ++ exports o true conds (stored (dr_mag d))).
  Proof.
    intros W (w & E). assert (E1 := E). unfold mkDriver in E1.
    destruct (checkConductors m) as [[]|e|u] eqn:Ec; [|discriminate|discriminate].
    destruct (nodup_all_names _ (wp_names _ m W)) as (N1 & _).
    destruct (accepted_order m N1 Ec) as (conds & O & Ne).
    destruct (mkDriver_ok dbg femlib m o W conds O Ne) as (d' & E' & M & Op & Fi).
    assert (d' = d) by congruence. subst d'. exists conds. split; [exact O|split; [exact Ne|split; [exact M|split; [exact Op|split; [exact Fi|exact E']]]]].
  Qed.
  Lemma finished_same m o conds d : dr_model d = m -> dr_opts d = o ->
    (forall ignore, finished dbg femlib m o ignore conds (problem d ignore)) -> same_driver femlib d d.
  Proof.
    intros M O Fi. subst m o. split; [reflexivity|split; [reflexivity|]]. intros i.
    destruct (Fi i) as ((us & Eu & Fu) & Sz & _). split; [reflexivity|split].
    - repeat split; apply Sz.
    - intros x I. rewrite Eu in I. apply in_map_iff in I as (y & [= <-] & I).
      apply In_nth_error in I as [k Ek].
      clear -Fu Ek. revert k Ek. induction Fu as [|p u l l' [_ Hu] Fu IH]; intros [|k] Ek; try discriminate.
      + injection Ek as ->. exact Hu.
      + eauto.
  Qed.

  (** ** C31 *)
  Definition no_folder (op : dop) : Prop := match op with CallSetFolder _ => False | _ => True end.
  Definition matrix_call (op : dop) : Prop :=
    match op with CallInCell | CallRun => False | _ => True end.

  Lemma call_rel d0 op : no_folder op -> (matrix_call op \/ forall x : T, nmul x n0 = n0) ->
    rel (fun d d' => same_driver femlib d0 d /\ same_driver femlib d d')
        (call dbg femlib moment op) (call dbg femlib moment op).
  Proof.
    intros Hn Hc. destruct op; cbn [call]; try contradiction.
    - apply rel_bind; [apply rel_gc|intros; apply rel_ret].
    - apply rel_bind; [apply rel_C|intros; apply rel_ret].
    - apply rel_bind; [apply rel_L|intros; apply rel_ret].
    - apply rel_bind; [apply rel_PUL|intros; apply rel_ret].
    - apply rel_bind; [apply rel_fp|intros; apply rel_ret].
    - destruct Hc as [[]|Hc]. apply rel_bind; [now apply rel_incell|intros; apply rel_ret].
    - destruct Hc as [[]|Hc]. apply rel_bind; [now apply rel_run|intros; apply rel_ret].
    - apply rel_bind; [apply rel_bydom|intros; apply rel_ret].
  Qed.
  Lemma same_refl_l d d' : same_driver femlib d d' -> same_driver femlib d d.
  Proof. intros S. eapply same_trans; [exact S|now apply same_sym]. Qed.

  Lemma left_same d0 d op : same_driver femlib d0 d -> no_folder op ->
    (matrix_call op \/ forall x : T, nmul x n0 = n0) -> same_driver femlib d0 (left_by dbg femlib moment op d).
  Proof.
    intros S Hn Hc. destruct (call_rel d0 op Hn Hc d d) as (_ & _ & R).
    - split; auto. apply same_sym in S. eapply same_refl_l; eauto.
    - unfold left_by. destruct (call dbg femlib moment op d) as [[r d1] w]. exact (proj1 R).
  Qed.
  Lemma reply_same d d' op : same_driver femlib d d' ->
    (matrix_call op \/ forall x : T, nmul x n0 = n0) -> reply dbg femlib moment op d = reply dbg femlib moment op d'.
  Proof.
    intros S Hc. assert (D : no_folder op \/ exists f, op = CallSetFolder f) by (destruct op; cbn; eauto).
    destruct D as [D|(f & ->)]; [|reflexivity]. unfold reply.
    destruct (call_rel d op D Hc d d') as (E1 & E2 & _); [split; [now apply same_refl_l in S|exact S]|].
    destruct (call dbg femlib moment op d) as [[r d1] w]. destruct (call dbg femlib moment op d') as [[r' d1'] w'].
    cbn in E1, E2. now subst.
  Qed.
  Lemma in_folder_same d d' f : same_driver femlib d d' -> same_driver femlib (in_folder d f) (in_folder d' f).
  Proof.
    intros (M & O & P). split; [exact M|split; [cbn; now rewrite O|]]. intros i. exact (P i).
  Qed.
  Lemma after_same (ok : dop -> Prop) :
    (forall op, ok op -> matrix_call op \/ forall x : T, nmul x n0 = n0) ->
    forall ops d0 f d, Forall ok ops -> same_driver femlib (in_folder d0 f) d ->
    same_driver femlib (in_folder d0 (last_folder ops f)) (after dbg femlib moment ops d).
  Proof.
    intros Hok. induction ops as [|op ops IH]; intros d0 f d Fo S; [exact S|].
    inversion Fo as [|? ? Ho Fo']; subst. cbn [last_folder after fold_left].
    apply IH; auto. destruct op as [ | | | | | | | |g]; try (apply left_same; [exact S|exact I|now apply Hok]).
    unfold left_by. cbn. apply (in_folder_same _ _ g) in S. exact S.
  Qed.
  Lemma in_folder_id (d : driver T) : in_folder d (o_exportFolder (dr_opts d)) = d.
  Proof. destruct d as [m [? ? ? ? ?] e g]. reflexivity. Qed.

  Lemma history_irrelevant (ok : dop -> Prop) m o d ops op :
    (forall op, ok op -> matrix_call op \/ forall x : T, nmul x n0 = n0) ->
    well_posed (Fm m o) m -> built dbg femlib m o d -> Forall ok ops -> ok op ->
    reply dbg femlib moment op (after dbg femlib moment ops d) =
    reply dbg femlib moment op (in_folder d (last_folder ops (o_exportFolder o))).
  Proof.
    intros Hok W B Fo Ho. destruct (built_finished m o d W B) as (conds & O & Ne & M & Op & Fi & _).
    pose proof (finished_same m o conds d M Op Fi) as S.
    symmetry. apply reply_same; [|now apply Hok]. apply (after_same ok Hok); auto.
    rewrite <- Op, in_folder_id. exact S.
  Qed.

  (** Any driver reached keeps the stored solutions. *)
  Definition solid m o conds d : Prop :=
    dr_model d = m /\ o_order (dr_opts d) = o_order o /\
    forall ignore, finished dbg femlib m o ignore conds (problem d ignore).
  Lemma after_solid m o conds d ops :
    Forall (fun op => matrix_call op \/ forall x : T, nmul x n0 = n0) ops ->
    solid m o conds d -> solid m o conds (after dbg femlib moment ops d).
  Proof.
    intros Fo (M & Op & Fi).
    assert (S : same_driver femlib d d).
    { split; [reflexivity|split; [reflexivity|]]. intros i. rewrite M, Op.
      destruct (Fi i) as ((us & Eu & Fu) & Sz & _). split; [reflexivity|split; [repeat split; apply Sz|]].
      intros x I. rewrite Eu in I. apply in_map_iff in I as (y & [= <-] & I).
      apply In_nth_error in I as [k Ek].
      clear -Fu Ek. revert k Ek. induction Fu as [|p u l l' [_ Hu] Fu IH]; intros [|k] Ek; try discriminate.
      + injection Ek as ->. exact Hu.
      + eauto. }
    pose proof (after_same _ (fun op (H : matrix_call op \/ _) => H) ops d (o_exportFolder (dr_opts d)) d Fo) as A.
    rewrite in_folder_id in A. specialize (A S). destruct A as (A1 & A2 & A3). cbn in A1, A2.
    split; [congruence|split].
    - rewrite <- A2. exact Op.
    - intros i. specialize (A3 i). cbn in A3. rewrite M, Op in A3.
      destruct A3 as (Q1 & (P1 & _ & _ & _ & _ & _ & Z1 & Z2) & _). destruct (Fi i) as (U & _ & V).
      unfold finished. change (problem (in_folder d (last_folder ops (o_exportFolder (dr_opts d)))) i) with (problem d i) in *.
      rewrite <- Q1, <- P1. auto.
  Qed.
  Lemma built_solid m o d : well_posed (Fm m o) m -> built dbg femlib m o d ->
    exists conds, in_order (mo_mats m) conds /\ conds <> [] /\ solid m o conds d.
  Proof.
    intros W B. destruct (built_finished m o d W B) as (conds & O & Ne & M & Op & Fi & _).
    exists conds. split; [exact O|split; [exact Ne|]]. split; [exact M|split; [now rewrite Op|exact Fi]].
  Qed.
End Built.

(** ** C23: the generalized capacitance matrix *)
Section GC.
  Context {T : Type} `{Num T}.
  Variable dbg : bool.
  Variable femlib : mesh T -> Z -> fem T.
  Variable m : model T.
  Variable o : driver_options.
  Notation F := (femlib (mo_mesh m) (o_order o)).
  Variable conds : list (pec T).
  Hypothesis O : in_order (mo_mats m) conds.

  Definition qval (x : solution T) (t : Z) : T :=
    flux_form F (fun q => if (q_attr q =? t)%Z then nopp n1 else n0) (so_d x).
  Definition holds (ignore : bool) (us : list (solution T)) (d : driver T) : Prop :=
    solid dbg femlib m o conds d /\ sp_solutions (problem d ignore) = map Some us /\
    Forall2 (fun p u => unit_solution F dbg (mo_mats m) ignore (p_attr p) u /\ sized F u) conds us.

  Lemma solid_holds ignore d : solid dbg femlib m o conds d -> exists us, holds ignore us d.
  Proof.
    intros S. pose proof S as (M & Op & Fi). destruct (Fi ignore) as ((us & E & Fu) & _). exists us. split; auto.
  Qed.
  Lemma tag_lookup b p : nth_error conds b = Some p -> mat_ (Z.of_nat b) (tagged conds) = Ok (p_attr p).
  Proof.
    intros E. unfold mat_. assert (I : In (Z.of_nat b, p_attr p) (tagged conds)) by (apply tagged_in; eauto).
    apply mget_in_iff in I; [|apply tagged_sorted]. now rewrite I.
  Qed.
  Lemma row_entries (v : Z -> T) k l C : (k < nr C)%nat ->
    (forall i t, In (i, t) l -> exists b p, i = Z.of_nat b /\ (b < nc C)%nat /\ nth_error conds b = Some p /\ p_attr p = t) ->
    NoDup (map fst l) ->
    exists C', foldM (fun C (cb : Z * Z) => let* a := mat_ (fst cb) (tagged conds) in
                       set_at C (Z.of_nat k) (fst cb) (v a)) l C = Ok C' /\
      nr C' = nr C /\ nc C' = nc C /\
      (forall b t, In (Z.of_nat b, t) l -> ent C' k b = v t) /\
      (forall a b, a <> k \/ ~ In (Z.of_nat b) (map fst l) -> ent C' a b = ent C a b).
  Proof.
    revert C; induction l as [|[i t] l IH]; intros C Lk Hl ND.
    - exists C. repeat split; auto. intros b t [].
    - destruct (Hl i t) as (b & p & -> & Lb & Ep & <-); [now left|]. cbn in ND. inversion ND as [|? ? N1 N2]; subst.
      cbn [foldM fst]. rewrite (tag_lookup _ _ Ep). cbn [bind].
      assert (Es : set_at C (Z.of_nat k) (Z.of_nat b) (v (p_attr p)) = Ok (set_ent C k b (v (p_attr p)))).
      { unfold set_at. rewrite !Nat2Z.id.
        destruct (Z.leb_spec 0 (Z.of_nat k)), (Z.leb_spec 0 (Z.of_nat b)), (Z.ltb_spec (Z.of_nat k) (Z.of_nat (nr C))),
          (Z.ltb_spec (Z.of_nat b) (Z.of_nat (nc C))); try lia. reflexivity. }
      rewrite Es. cbn [bind].
      destruct (IH (set_ent C k b (v (p_attr p)))) as (C' & E & R1 & R2 & R3 & R4); auto.
      { intros i t I. apply Hl. now right. }
      exists C'. split; [exact E|]. repeat split; auto.
      + intros b' t' [E'|I]; [|now apply R3]. injection E' as E1 <-. assert (b' = b) by lia. subst b'.
        rewrite R4 by now right. cbn. now rewrite !Nat.eqb_refl.
      + intros a b' Hab. rewrite R4.
        * cbn. destruct (Nat.eqb_spec a k), (Nat.eqb_spec b' b); cbn; auto. subst. exfalso.
          destruct Hab as [Hab|Hab]; [auto|]. apply Hab. now left.
        * destruct Hab as [Hab|Hab]; [now left|right]. intros I. apply Hab. now right.
  Qed.
  Lemma row_ok ignore us d k p u C : holds ignore us d -> nth_error conds k = Some p -> nth_error us k = Some u ->
    nr C = List.length conds -> nc C = List.length conds ->
    exists C' d', row_step dbg femlib ignore (tagged conds) C (Z.of_nat k, p_attr p) d =
                  ((Ok C', d'), export_fields (dr_opts d) u (p_name p) ignore) /\
      holds ignore us d' /\ dr_opts d' = dr_opts d /\ nr C' = nr C /\ nc C' = nc C /\
      (forall b q, nth_error conds b = Some q -> ent C' k b = qval u (p_attr q)) /\
      (forall a b, a <> k -> ent C' a b = ent C a b).
  Proof.
    intros (S & Es & Fu) Ep Eu Rr Rc. pose proof S as (M & Op & Fi). unfold row_step.
    rewrite cbind_get. rewrite M, Op. cbn [fst snd].
    assert (Lk : (k < List.length conds)%nat) by (apply nth_error_Some; congruence).
    assert (Ex : get_solution (problem d ignore) (Z.of_nat k) = Ok u).
    { unfold get_solution, vec_at. destruct (Z.ltb_spec (Z.of_nat k) 0); [lia|]. rewrite Nat2Z.id, Es.
      rewrite (map_nth_error Some _ _ Eu). reflexivity. }
    rewrite (cbind_lift _ _ _ _ Ex).
    destruct (Forall2_nth _ _ _ _ _ Fu Ep) as (u' & Eu' & Hu & Su). assert (u' = u) by congruence. subst u'.
    destruct (Fi ignore) as (_ & Sz & v & Pv).
    rewrite (cbind_lift _ _ _ _ (setSolution_ok F dbg _ u Sz Su)).
    rewrite cbind_put. set (s := set_fields _ _ _ _).
    destruct (row_entries (fun a => getChargeInBoundary F s a) k (tagged conds) C) as (C' & E & R1 & R2 & R3 & R4).
    { lia. }
    { intros i t I. apply tagged_in in I as (b & q & -> & Eq & <-). exists b, q. repeat split; auto.
      rewrite Rc. apply nth_error_Some. congruence. }
    { apply msorted_nodup, tagged_sorted. }
    rewrite (cbind_lift _ _ _ _ E), (cbind_lift _ _ _ _ (in_order_get _ _ _ _ O Ep)), cbind_emit.
    exists C', (set_solver d ignore s). split; [cbn; now rewrite app_nil_r|].
    split; [|split; [reflexivity|split; [exact R1|split; [exact R2|split]]]].
    - split; [|split].
      + split; [exact M|split; [exact Op|]]. intros i. destruct (Fi i) as (A & B & D).
        destruct i, ignore; cbn in *; split; auto; (split; [exact Su|eauto]).
      + destruct ignore; exact Es.
      + exact Fu.
    - intros b q Eq. rewrite (R3 b (p_attr q)); [reflexivity|]. apply tagged_in. eauto.
    - intros a b N. apply R4. now left.
  Qed.
  Lemma skipn_nth {A} (l : list A) k y : nth_error l k = Some y -> skipn k l = y :: skipn (S k) l.
  Proof.
    revert k; induction l as [|a l IH]; intros [|k] E; try discriminate.
    - injection E as ->. reflexivity.
    - cbn in *. now apply IH.
  Qed.
  Lemma rows_ok ignore us : forall n k d C, (k + n = List.length conds)%nat -> holds ignore us d ->
    nr C = List.length conds -> nc C = List.length conds ->
    (forall a b u q, (a < k)%nat -> nth_error us a = Some u -> nth_error conds b = Some q -> ent C a b = qval u (p_attr q)) ->
    exists C' d', cfold (row_step dbg femlib ignore (tagged conds)) (skipn k (tagged conds)) C d =
        ((Ok C', d'), exports (dr_opts d) ignore (skipn k conds) (skipn k us)) /\
      holds ignore us d' /\ nr C' = List.length conds /\ nc C' = List.length conds /\
      (forall a b u q, nth_error us a = Some u -> nth_error conds b = Some q -> ent C' a b = qval u (p_attr q)).
  Proof.
    induction n as [|n IH]; intros k d C L Hd Rr Rc Hc.
    - assert (Lu : List.length us = List.length conds) by (destruct Hd as (_ & _ & Fu); apply Forall2_length in Fu; auto).
      exists C, d. rewrite !skipn_all2 by (rewrite ?tagged_length; lia). split; [reflexivity|].
      repeat split; auto; try apply Hd. intros a b u q Ea. apply Hc; auto.
      assert (a < List.length us)%nat by (apply nth_error_Some; congruence). lia.
    - destruct (nth_error conds k) as [p|] eqn:Ep; [|apply nth_error_None in Ep; lia].
      rewrite (skipn_nth _ _ _ Ep), (skipn_nth _ _ _ (tagged_nth _ _ _ Ep)).
      destruct (Forall2_nth _ _ _ _ _ (proj2 (proj2 Hd)) Ep) as (u & Eu & _). rewrite (skipn_nth _ _ _ Eu).
      destruct (row_ok ignore us d k p u C Hd Ep Eu Rr Rc) as (C1 & d1 & E & H1 & Q & Q1 & Q2 & Q3 & Q4).
      destruct (IH (S k) d1 C1) as (C' & d' & E' & H' & Q1' & Q2' & Q3'); try congruence; try lia; auto.
      { intros a b u' q La Ea Eb. destruct (Nat.eq_dec a k) as [->|N].
        - assert (u' = u) by congruence. subst. now apply Q3.
        - rewrite Q4 by auto. apply Hc; auto. lia. }
      exists C', d'. split; [|auto]. cbn [cfold]. rewrite (cbind_ok _ _ _ _ _ _ E), E', Q. reflexivity.
  Qed.

  (** Entry (i,j) of the symmetrised matrix of charges. *)
  Definition sym_charge (us : list (solution T)) (i j : nat) (c : T) : Prop :=
    forall u w p q, nth_error us i = Some u -> nth_error us j = Some w ->
      nth_error conds i = Some p -> nth_error conds j = Some q ->
      c = if (i =? j)%nat then qval u (p_attr p)
          else if (j <? i)%nat then nmul (lit 5 1) (nadd (qval u (p_attr q)) (qval w (p_attr p)))
          else nmul (lit 5 1) (nadd (qval w (p_attr p)) (qval u (p_attr q))).
  Lemma gc_ok ignore d op : solid dbg femlib m o conds d -> determineOpenness dbg m = Ok op ->
    (List.length conds = 1%nat -> op <> Closed) ->
    exists us C d', getGeneralizedCMatrix dbg femlib ignore d = ((Ok C, d'), exports (dr_opts d) ignore conds us) /\
      holds ignore us d' /\ sp_solutions (problem d ignore) = map Some us /\
      nr C = List.length conds /\ nc C = List.length conds /\
      forall i j, (i < List.length conds)%nat -> (j < List.length conds)%nat -> sym_charge us i j (ent C i j).
  Proof.
    intros S Eo Hn. destruct (solid_holds ignore d S) as (us & Hu). exists us.
    assert (M : dr_model d = m) by apply S.
    unfold getGeneralizedCMatrix. rewrite cbind_get, M.
    rewrite (cbind_lift _ _ _ _ (in_order_conductors _ _ O)), (cbind_lift _ _ _ _ Eo).
    rewrite tagged_length.
    assert (Eb : ((List.length conds =? 1)%nat && openness_eqb op Closed)%bool = false).
    { destruct (Nat.eqb_spec (List.length conds) 1) as [E|E]; [|reflexivity]. specialize (Hn E). destruct op; auto. congruence. }
    rewrite Eb.
    destruct (rows_ok ignore us (List.length conds) 0 d (zero_matrix (List.length conds) (List.length conds)))
      as (C & d' & E & Hd' & R1 & R2 & R3); auto.
    { intros; lia. }
    cbn [skipn] in E. exists (symmetrize C), d'. rewrite (cbind_ok _ _ _ _ _ _ E). cbn.
    split; [now rewrite app_nil_r|]. split; [exact Hd'|split; [apply Hu|split; [exact R1|split; [exact R2|]]]].
    intros i j Li Lj u w p q Eu Ew Ep Eq.
    destruct (Nat.eqb_spec i j) as [->|N].
    - rewrite (R3 j j u p Eu Ep). reflexivity.
    - destruct (Nat.ltb_spec j i).
      + rewrite Nat.max_l, Nat.min_r by lia. now rewrite (R3 i j u q Eu Eq), (R3 j i w p Ew Ep).
      + rewrite Nat.max_r, Nat.min_l by lia. now rewrite (R3 j i w p Ew Ep), (R3 i j u q Eu Eq).
  Qed.
  Lemma gc_single ignore d : solid dbg femlib m o conds d -> determineOpenness dbg m = Ok Closed ->
    List.length conds = 1%nat ->
    exists msg, getGeneralizedCMatrix dbg femlib ignore d = ((Throw (RuntimeError msg), d), []).
  Proof.
    intros S Eo L. assert (M : dr_model d = m) by apply S.
    unfold getGeneralizedCMatrix. rewrite cbind_get, M.
    rewrite (cbind_lift _ _ _ _ (in_order_conductors _ _ O)), (cbind_lift _ _ _ _ Eo).
    rewrite tagged_length, L. cbn. eexists; reflexivity.
  Qed.
End GC.
