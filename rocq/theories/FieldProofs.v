(** Proofs about the reconstructed fields (C30). *)
From Coq Require Import Reals Lra Permutation.
From Verif Require Import Prelude StdMap Json Materials Graph ModelM Parser Matrix Solver Domain Results Driver
  RSum ListLemmas SpecInput SpecModel SpecSolver SpecDriver SpecMatrix SpecCharge SpecResults SpecField
  SolverProofs DriverProofs CallProofs DriverFacts RunProofs ChargeProofs MatrixProofs MatrixCalls.
Open Scope R_scope.
Open Scope list_scope.

Lemma cbind_inv {T S A B} (c : cmd T S A) (f : A -> cmd T S B) s b s2 w :
  cbind c f s = ((Ok b, s2), w) -> exists a s1 w1 w2, c s = ((Ok a, s1), w1) /\ f a s1 = ((Ok b, s2), w2).
Proof.
  unfold cbind. destruct (c s) as [[[a| |] s1] w1]; try discriminate.
  destruct (f a s1) as [[r s3] w2] eqn:E. intros [= -> -> _]. eauto 8.
Qed.
Lemma clift_inv {T S A B} (x : outcome A) (f : A -> cmd T S B) s b s2 w :
  cbind (clift x) f s = ((Ok b, s2), w) -> exists a w2, x = Ok a /\ f a s = ((Ok b, s2), w2).
Proof.
  intros E. apply cbind_inv in E as (a & s1 & w1 & w2 & E1 & E2). unfold clift in E1. injection E1 as -> <- _. eauto.
Qed.

Lemma gf_axpy_nth a (x y : list R) k : List.length x = List.length y ->
  nth k (gf_axpy a x y) 0 = nth k y 0 + a * nth k x 0.
Proof.
  revert y k; induction x as [|u x IH]; intros [|v y] [|k] L; cbn in L; try discriminate; cbn [gf_axpy nth]; try lra.
  - reflexivity.
  - apply IH. congruence.
Qed.
Lemma gf_add_nth a (x y : list R) k : List.length x = List.length y ->
  nth k (gf_add y a x) 0 = nth k y 0 + a * nth k x 0.
Proof.
  intros L. unfold gf_add. cbn [neqb n0 RNum]. unfold Reqb. destruct (Req_EM_T a 0) as [->|N]; [lra|]. now apply gf_axpy_nth.
Qed.
Lemma dot_len (a x : list R) : dot a x = Sum (List.length x) (fun i => nth i a 0 * nth i x 0).
Proof.
  revert a; induction x as [|v x IH]; intros a.
  - destruct a; reflexivity.
  - cbn [List.length]. rewrite Sum_shift. destruct a as [|u a]; cbn [dot nth].
    + rewrite Sum_zero; [cbn; lra|]. intros [|k] _; cbn; lra.
    + rewrite IH. reflexivity.
Qed.
Lemma dot_combination (a x : list R) N n c (us : nat -> list R) : List.length x = N ->
  (forall j, (j < n)%nat -> List.length (us j) = N) ->
  (forall k, nth k x 0 = Sum n (fun j => c j * nth k (us j) 0)) ->
  dot a x = Sum n (fun j => c j * dot a (us j)).
Proof.
  intros Lx Lu E. rewrite dot_len, Lx.
  rewrite (Sum_ext n (fun j => c j * dot a (us j)) (fun j => Sum N (fun i => c j * (nth i a 0 * nth i (us j) 0)))).
  - rewrite Sum_exchange. apply Sum_ext. intros i _. rewrite E, <- Sum_scal. apply Sum_ext. intros; ring.
  - intros j Lj. rewrite dot_len, (Lu j Lj), Sum_scal. reflexivity.
Qed.
Lemma charge_combination (F : fem R) (us : list (solution R)) c x t : sized F x -> Forall (sized F) us ->
  combines us c x ->
  flux_form F (fun q => if (q_attr q =? t)%Z then - 1 else 0) (so_d x) =
  Sum (List.length us) (fun j => c j * flux_form F (fun q => if (q_attr q =? t)%Z then - 1 else 0) (nth j (map so_d us) [])).
Proof.
  intros Sx Su Cx. rewrite flux_form_Rsum.
  rewrite (Sum_ext _ _ (fun j => Rsum (fe_flux F) (fun q => c j * ((if (q_attr q =? t)%Z then - 1 else 0) * flux_at (nth j (map so_d us) []) q)))).
  2:{ intros j _. rewrite flux_form_Rsum, Rsum_scal. reflexivity. }
  unfold Sum. rewrite Rsum_exchange. apply Rsum_ext. intros q _. unfold flux_at.
  rewrite (dot_combination (q_w q) (so_d x) (fe_nRT F) (List.length us) c (fun j => nth j (map so_d us) [])).
  - unfold Sum. rewrite <- Rsum_scal. apply Rsum_ext. intros; ring.
  - apply Sx.
  - intros j Lj. rewrite nth_indep with (d' := so_d (nth j us x)) by (now rewrite map_length).
    assert (E : nth j (map so_d us) (so_d (nth j us x)) = so_d (nth j us x)).
    { rewrite (nth_indep _ _ (so_d x)) by (now rewrite map_length). now rewrite map_nth. }
    rewrite E. rewrite Forall_forall in Su. apply Su. now apply nth_In.
  - intros k. destruct (Cx k) as (_ & _ & E). exact E.
Qed.
Lemma solved_sized (F : fem R) s x : fem_ok F -> solved_fields F s = Ok x -> sized F x.
Proof.
  intros Hf E. unfold solved_fields in E. apply bind_ok in E as (s' & E & E'). injection E' as <-.
  unfold Solve in E. apply bind_ok in E as (p & _ & E). apply bind_ok in E as (e & _ & E). injection E as <-.
  repeat split; cbn; apply Hf.
Qed.
Lemma mset_last {V} (k : Z) (v : V) r : (forall x, In x (map fst r) -> (x < k)%Z) -> mset k v r = r ++ [(k, v)].
Proof.
  induction r as [|[a b] r IH]; intros H; cbn; [reflexivity|].
  assert (a < k)%Z by (apply H; now left). destruct (Z.ltb_spec k a); [lia|]. destruct (Z.ltb_spec a k); [|lia].
  f_equal. apply IH. intros x I. apply H. now right.
Qed.

Section Field.
  Variable dbg : bool.
  Variable femlib : mesh R -> Z -> fem R.
  Variable moment : R * R -> nat -> nat -> R * R -> R.
  Variable m : model R.
  Variable o : driver_options.
  Notation F := (femlib (mo_mesh m) (o_order o)).
  Variable conds : list (pec R).
  Hypothesis O : in_order (mo_mats m) conds.
  Hypothesis W : well_posed F m.
  Notation n := (List.length conds).
  Notation holds := (holds dbg femlib m o conds).
  Notation solid := (solid dbg femlib m o conds).

  Lemma mat_atZ_ok (fp : matrix R) i j : square n fp -> (i < n)%nat -> (j < n)%nat ->
    mat_atZ fp (Z.of_nat i) (Z.of_nat j) = Ok (ent fp i j).
  Proof.
    intros [S1 S2] Li Lj. unfold mat_atZ. destruct (Z.leb_spec 0 (Z.of_nat i)), (Z.leb_spec 0 (Z.of_nat j)); try lia.
    cbn [andb]. rewrite !Nat2Z.id. unfold mat_at. rewrite S1, S2.
    destruct (Nat.ltb_spec i n), (Nat.ltb_spec j n); try lia. reflexivity.
  Qed.
  (** Superposition *)
  Definition partial (us : list (solution R)) (c : nat -> R) (x : solution R) (k : nat) : Prop :=
    forall i, nth i (so_phi x) 0 = Sum k (fun j => c j * nth i (nth j (map so_phi us) []) 0) /\
              nth i (so_e x) 0 = Sum k (fun j => c j * nth i (nth j (map so_e us) []) 0) /\
              nth i (so_d x) 0 = Sum k (fun j => c j * nth i (nth j (map so_d us) []) 0).
  Lemma superpose_from us sp fp i : sp_solutions sp = map Some us -> List.length us = n -> Forall (sized F) us ->
    square n fp -> (i < n)%nat ->
    forall r k s, (k + r = n)%nat -> sized F (getSolution s) -> partial us (ent fp i) (getSolution s) k ->
      exists s', foldM (superpose_step sp fp (Z.of_nat i)) (skipn k (tagged conds)) s = Ok s' /\
        sized F (getSolution s') /\ partial us (ent fp i) (getSolution s') n /\ s_params s' = s_params s.
  Proof.
    intros Es Lu Su Sq Li. induction r as [|r IH]; intros k s E Sz P.
    - rewrite skipn_all2 by (rewrite tagged_length; lia). exists s. replace n with k by lia. auto.
    - destruct (nth_error conds k) as [p|] eqn:Ep; [|apply nth_error_None in Ep; lia].
      rewrite (skipn_nth _ _ _ (tagged_nth _ _ _ Ep)). cbn [foldM].
      destruct (nth_error us k) as [u|] eqn:Eu; [|apply nth_error_None in Eu; lia].
      assert (Eg : get_solution sp (Z.of_nat k) = Ok u).
      { unfold get_solution, vec_at. destruct (Z.ltb_spec (Z.of_nat k) 0); [lia|]. rewrite Nat2Z.id, Es.
        rewrite (map_nth_error Some _ _ Eu). reflexivity. }
      assert (Et : superpose_step sp fp (Z.of_nat i) s (Z.of_nat k, p_attr p) =
        Ok (set_fields s (gf_add (s_phi s) (ent fp i k) (so_phi u)) (gf_add (s_e s) (ent fp i k) (so_e u))
                                     (gf_add (s_d s) (ent fp i k) (so_d u)))).
      { unfold superpose_step. cbn [fst]. rewrite mat_atZ_ok by (auto; lia). cbn [bind]. rewrite Eg. reflexivity. }
      rewrite Et. cbn [bind].
      assert (Sk : sized F u) by (rewrite Forall_forall in Su; apply Su; eapply nth_error_In; eauto).
      destruct Sz as (Z1 & Z2 & Z3), Sk as (K1 & K2 & K3). cbn in Z1, Z2, Z3.
      destruct (IH (S k) (set_fields s (gf_add (s_phi s) (ent fp i k) (so_phi u)) (gf_add (s_e s) (ent fp i k) (so_e u))
                                     (gf_add (s_d s) (ent fp i k) (so_d u)))) as (s' & E' & S' & P' & Q').
      + lia.
      + repeat split; cbn; rewrite gf_add_length; auto.
      + intros q. destruct (P q) as (P1 & P2 & P3).
        cbn [getSolution so_phi so_e so_d set_fields s_phi s_e s_d] in P1, P2, P3 |- *.
        rewrite !gf_add_nth by congruence. rewrite P1, P2, P3, !Sum_S.
        rewrite (nth_error_nth (map so_phi us) k [] (map_nth_error so_phi _ _ Eu)),
                (nth_error_nth (map so_e us) k [] (map_nth_error so_e _ _ Eu)),
                (nth_error_nth (map so_d us) k [] (map_nth_error so_d _ _ Eu)). auto.
      + exists s'. split; [exact E'|]. split; [auto|]. split; [auto|]. exact Q'.
  Qed.
  Lemma superpose_ok us sp fp i : sp_solutions sp = map Some us -> List.length us = n -> Forall (sized F) us ->
    sized F (getSolution (sp_solver sp)) -> square n fp -> (i < n)%nat ->
    exists s, superpose sp fp (Z.of_nat i) (tagged conds) = Ok s /\ sized F (getSolution s) /\
      combines us (ent fp i) (getSolution s) /\ s_params s = s_params (sp_solver sp).
  Proof.
    intros Es Lu Su (Z1 & Z2 & Z3) Sq Li. cbn in Z1, Z2, Z3. unfold superpose.
    destruct (superpose_from us sp fp i Es Lu Su Sq Li n 0
      (set_fields (sp_solver sp) (gf_scale 0 (s_phi (sp_solver sp))) (gf_scale 0 (s_e (sp_solver sp))) (gf_scale 0 (s_d (sp_solver sp)))))
      as (s & E & S & P & Q).
    - lia.
    - repeat split; cbn; unfold gf_scale; rewrite map_length; auto.
    - intros k. cbn. rewrite !(gf_scale0 (T := R) Rmul0). rewrite !nth_repeat. auto.
    - cbn [skipn] in E. exists s. split; [exact E|]. split; [auto|]. split; [|exact Q].
      intros k. rewrite Lu. apply P.
  Qed.
  (** Stored potentials *)
  Lemma pots_from fp i : square n fp -> (i < n)%nat -> forall r k, (k + r = n)%nat ->
    foldM (fun l (cb : Z * Z) => let* v := mat_atZ fp (Z.of_nat i) (fst cb) in Ok (mset (fst cb) v l)) (skipn k (tagged conds))
          (map (fun j => (Z.of_nat j, ent fp i j)) (seq 0 k)) = Ok (map (fun j => (Z.of_nat j, ent fp i j)) (seq 0 n)).
  Proof.
    intros Sq Li. induction r as [|r IH]; intros k E.
    - rewrite skipn_all2 by (rewrite tagged_length; lia). replace k with n by lia. reflexivity.
    - destruct (nth_error conds k) as [p|] eqn:Ep; [|apply nth_error_None in Ep; lia].
      rewrite (skipn_nth _ _ _ (tagged_nth _ _ _ Ep)). cbn [foldM fst]. rewrite mat_atZ_ok by (auto; lia). cbn [bind].
      rewrite mset_last.
      + rewrite <- (IH (S k)) by lia. rewrite seq_S, map_app. reflexivity.
      + intros x I. rewrite map_map in I. apply in_map_iff in I as (j & <- & I). apply in_seq in I. cbn. lia.
  Qed.
  (** One reconstructed field *)
  Lemma field_ok ignore us fp d k p res res' d' w : holds ignore us d -> square n fp -> nth_error conds k = Some p ->
    field_step femlib moment ignore fp (tagged conds) res (Z.of_nat k, p_attr p) d = ((Ok res', d'), w) ->
    holds ignore us d' /\ dr_opts d' = dr_opts d /\
    exists fr x, res' = mset (Z.of_nat k) fr res /\
      reconstruction F dbg moment m (o_multipolarExpansionOrder (dr_opts d)) ignore conds (ent fp k) x fr.
  Proof.
    intros (S & Es & Fu) Sq Ep E. pose proof S as (M & Op & Fi).
    assert (Lk : (k < n)%nat) by (apply nth_error_Some; congruence).
    unfold field_step in E. rewrite cbind_get in E. rewrite M, Op in E. cbn [fst] in E.
    assert (Lu : List.length us = n) by (apply Forall2_length in Fu; auto).
    assert (Su : Forall (sized F) us).
    { clear -Fu. induction Fu as [|p u l l' [_ Hu] Fu IH]; constructor; auto. }
    destruct (Fi ignore) as (_ & Sz & v & Pv).
    destruct (superpose_ok us (problem d ignore) fp k Es Lu Su Sz Sq Lk) as (s & Ex & Ss & Cs & Ps).
    apply clift_inv in E as (s0 & w2 & E0 & E). rewrite Ex in E0. injection E0 as <-.
    rewrite cbind_put in E. apply clift_inv in E as (p0 & w3 & E0 & E).
    apply cbind_inv in E as (u0 & d1 & w4 & w5 & E1 & E). unfold cemit in E1. injection E1 as _ <- _.
    apply clift_inv in E as (av & w6 & Eav & E). apply clift_inv in E as (cc & w7 & Ecc & E).
    apply clift_inv in E as (ab & w8 & Eab & E). apply clift_inv in E as (pots & w9 & Epots & E).
    unfold cret in E. injection E as <- <- _.
    pose proof (pots_from fp k Sq Lk n 0 ltac:(lia)) as Ep2. cbn [skipn seq map] in Ep2. rewrite Ep2 in Epots. injection Epots as <-.
    split; [|split; [reflexivity|]].
    - split; [|split].
      + split; [exact M|split; [exact Op|]]. intros i. destruct (Fi i) as (A & B & D).
        unfold finished in *. destruct i, ignore; cbn [set_solver problem dr_el dr_mag sp_solver sp_solutions] in A, B, D, Ps |- *; (split; [exact A|]); try (split; [exact B|exact D]); (split; [exact Ss|rewrite Ps; exact D]).
      + destruct ignore; exact Es.
      + exact Fu.
    - eexists _, (getSolution s). split; [reflexivity|]. split; auto.
      + exists us. split; [|exact Cs]. clear -Fu. induction Fu as [|p u l l' [Hu _] Fu IH]; constructor; auto.
      + exists s, v. rewrite Ps. cbn. auto.
  Qed.
  Lemma fields_from ignore us fp : square n fp -> forall r k d res res' d' w, (k + r = n)%nat -> holds ignore us d ->
    map fst res = map Z.of_nat (seq 0 k) ->
    cfold (field_step femlib moment ignore fp (tagged conds)) (skipn k (tagged conds)) res d = ((Ok res', d'), w) ->
    holds ignore us d' /\ dr_opts d' = dr_opts d /\ map fst res' = map Z.of_nat (seq 0 n) /\
    (forall i, (i < k)%nat -> mget (Z.of_nat i) res' = mget (Z.of_nat i) res) /\
    forall i, (k <= i < n)%nat -> exists fr x, mget (Z.of_nat i) res' = Some fr /\
      reconstruction F dbg moment m (o_multipolarExpansionOrder (dr_opts d)) ignore conds (ent fp i) x fr.
  Proof.
    intros Sq. induction r as [|r IH]; intros k d res res' d' w Ek Hd Kr E.
    - rewrite skipn_all2 in E by (rewrite tagged_length; lia). cbn in E. injection E as <- <- _.
      replace k with n in * by lia. repeat split; auto; try apply Hd. intros; lia.
    - destruct (nth_error conds k) as [p|] eqn:Ep; [|apply nth_error_None in Ep; lia].
      rewrite (skipn_nth _ _ _ (tagged_nth _ _ _ Ep)) in E. cbn [cfold] in E.
      apply cbind_inv in E as (res1 & d1 & w1 & w2 & E1 & E).
      destruct (field_ok ignore us fp d k p res res1 d1 w1 Hd Sq Ep E1) as (H1 & Q1 & fr & x & -> & Rx).
      assert (Kr1 : map fst (mset (Z.of_nat k) fr res) = map Z.of_nat (seq 0 (S k))).
      { rewrite mset_last.
        - rewrite map_app, Kr, seq_S, map_app. reflexivity.
        - intros z I. rewrite Kr in I. apply in_map_iff in I as (j & <- & I). apply in_seq in I. lia. }
      destruct (IH (S k) d1 _ res' d' w2 ltac:(lia) H1 Kr1 E) as (H2 & Q2 & K2 & G2 & R2).
      split; [exact H2|]. split; [congruence|]. split; [exact K2|]. split.
      + intros i Li. rewrite G2 by lia. apply mget_mset_other. lia.
      + intros i Li. destruct (Nat.eq_dec i k) as [->|N].
        * exists fr, x. split; [|exact Rx]. rewrite G2 by lia. apply mget_mset_same.
        * rewrite <- Q1. apply R2. lia.
  Qed.
  (** Floating potentials of open problems *)
  Definition mean_charge (us : list (solution R)) (i j : nat) (c : R) : Prop :=
    forall u u' p q, nth_error us i = Some u -> nth_error us j = Some u' -> nth_error conds i = Some p -> nth_error conds j = Some q ->
      c = (qval femlib m o u (p_attr q) + qval femlib m o u' (p_attr p)) / 2.
  Lemma sym_mean us i j c : sym_charge femlib m o conds us i j c -> mean_charge us i j c.
  Proof.
    intros S u u' p q Eu Eu' Ep Eq. rewrite (S u u' p q Eu Eu' Ep Eq). rewrite lit_half. cbn [nmul nadd RNum].
    destruct (Nat.eqb_spec i j) as [->|N].
    - assert (u = u') by congruence. assert (p = q) by congruence. subst. lra.
    - destruct (j <? i)%nat; lra.
  Qed.
  Lemma fpm_open ignore d fp d' w : solid d -> determineOpenness dbg m = Ok Open -> conds <> [] ->
    getFloatingPotentialsMatrix dbg femlib ignore d = ((Ok fp, d'), w) ->
    exists us, holds ignore us d' /\ dr_opts d' = dr_opts d /\ square n fp /\
      (n = 1%nat -> ent fp 0 0 = 1) /\
      ((2 <= n)%nat -> exists C, square n C /\ (forall i j, (i < n)%nat -> (j < n)%nat -> mean_charge us i j (ent C i j)) /\
         forall i, (i < n)%nat -> floats C i (ent fp i)).
  Proof.
    intros S Eo Ne E. assert (M : dr_model d = m) by apply S.
    unfold getFloatingPotentialsMatrix in E. rewrite cbind_get, M, pec_count in E.
    2:{ destruct (ModelProofs.nodup_all_names _ (wp_names _ _ W)) as (X & _). exact X. }
    assert (Ln : List.length (pecs (mo_mats m)) = n) by (destruct O as [P _]; symmetry; now apply Permutation_length).
    rewrite Ln in E. destruct (Nat.eqb_spec n 1) as [L1|L1].
    - unfold cret in E. injection E as <- <- _. destruct (solid_holds dbg femlib m o conds ignore d S) as (us & Hu).
      exists us. split; [auto|]. split; [auto|]. split; [rewrite L1; split; reflexivity|]. split; [reflexivity|]. lia.
    - apply clift_inv in E as (op & w1 & E1 & E). rewrite Eo in E1. injection E1 as <-.
      apply cbind_inv in E as (C & d1 & w2 & w3 & E1 & E).
      destruct (gc_ok dbg femlib m o conds O ignore d Open S Eo ltac:(discriminate)) as (us & C' & d1' & Eg & Hh & Eus & R1 & R2 & V).
      rewrite Eg in E1. injection E1 as <- <- _.
      unfold clift in E. injection E as Ef <- _. 
      assert (Sq : square n C') by (split; assumption).
      destruct (floating_matrix_ok C' n Sq fp Ef) as [Sf Ff].
      exists us. split; [auto|]. split.
      { (* options are kept *)
        destruct (k_gc dbg femlib (dr_model d) (dr_opts d) ignore d (conj eq_refl eq_refl)) as [[_ K] _].
        rewrite Eg in K. exact K. }
      split; [exact Sf|]. split; [intros; lia|]. intros L2. exists C'. split; [auto|]. split.
      + intros i j Li Lj. apply sym_mean. now apply V.
      + intros i Li. now apply Ff.
  Qed.
  Lemma fields_ok ignore d l d' w : solid d -> determineOpenness dbg m = Ok Open -> conds <> [] ->
    getFieldParameters dbg femlib moment ignore d = ((Ok l, d'), w) ->
    solid d' /\ dr_opts d' = dr_opts d /\ map fst l = map Z.of_nat (seq 0 n) /\
    exists us fp, Forall2 (fun p u => unit_solution F dbg (mo_mats m) ignore (p_attr p) u /\ sized F u) conds us /\
      (n = 1%nat -> ent fp 0 0 = 1) /\
      ((2 <= n)%nat -> exists C, square n C /\ (forall i j, (i < n)%nat -> (j < n)%nat -> mean_charge us i j (ent C i j)) /\
         forall i, (i < n)%nat -> floats C i (ent fp i)) /\
      forall i, (i < n)%nat -> exists fr x, mget (Z.of_nat i) l = Some fr /\
        reconstruction F dbg moment m (o_multipolarExpansionOrder (dr_opts d)) ignore conds (ent fp i) x fr.
  Proof.
    intros S Eo Ne E. unfold getFieldParameters in E. apply cbind_inv in E as (fp & d1 & w1 & w2 & E1 & E).
    destruct (fpm_open ignore d fp d1 w1 S Eo Ne E1) as (us & H1 & Q1 & Sq & N1 & N2).
    rewrite cbind_get in E. assert (M1 : dr_model d1 = m) by apply H1. rewrite M1 in E.
    apply clift_inv in E as (cs & w3 & Ec & E). rewrite (in_order_conductors _ _ O) in Ec. injection Ec as <-.
    destruct (fields_from ignore us fp Sq n 0 d1 [] l d' w3 ltac:(lia) H1 eq_refl E) as (H2 & Q2 & K & _ & Rx).
    split; [apply H2|]. split; [congruence|]. split; [exact K|]. exists us, fp. split; [apply H1|]. split; [exact N1|].
    split; [exact N2|]. intros i Li. rewrite <- Q1. apply Rx. lia.
  Qed.
  Lemma incell_ok d p d' w : solid d -> conds <> [] ->
    getInCellPotentials dbg femlib moment d = ((Ok p, d'), w) ->
    determineOpenness dbg m = Ok Open /\ forall ignore, map fst (fields_of p ignore) = map Z.of_nat (seq 0 n) /\
    exists us fp, Forall2 (fun p u => unit_solution F dbg (mo_mats m) ignore (p_attr p) u /\ sized F u) conds us /\
      (n = 1%nat -> ent fp 0 0 = 1) /\
      ((2 <= n)%nat -> exists C, square n C /\ (forall i j, (i < n)%nat -> (j < n)%nat -> mean_charge us i j (ent C i j)) /\
         forall i, (i < n)%nat -> floats C i (ent fp i)) /\
      forall i, (i < n)%nat -> exists fr x, mget (Z.of_nat i) (fields_of p ignore) = Some fr /\
        reconstruction F dbg moment m (o_multipolarExpansionOrder (dr_opts d)) ignore conds (ent fp i) x fr.
  Proof.
    intros S Ne E. assert (M : dr_model d = m) by apply S. unfold getInCellPotentials in E. rewrite cbind_get, M in E.
    apply clift_inv in E as (op & w1 & Eo & E). destruct (openness_eqb op Open) eqn:Eb; cbn [negb] in E; [|discriminate].
    assert (op = Open) by (destruct op; auto; discriminate). subst op. split; [exact Eo|].
    apply clift_inv in E as (b & w2 & _ & E). apply cbind_inv in E as (e & d1 & w3 & w4 & Ee & E).
    apply cbind_inv in E as (g & d2 & w5 & w6 & Eg & E). unfold cret in E. injection E as <- _ _.
    destruct (fields_ok false d e d1 w3 S Eo Ne Ee) as (S1 & Q1 & Re).
    destruct (fields_ok true d1 g d2 w5 S1 Eo Ne Eg) as (S2 & Q2 & Rg). rewrite Q1 in Rg.
    intros [|]; assumption.
  Qed.
End Field.

Section Reply.
  Variable dbg : bool.
  Variable femlib : mesh R -> Z -> fem R.
  Variable moment : R * R -> nat -> nat -> R * R -> R.
  Variables (m : model R) (o : driver_options) (d0 : driver R) (ops : list dop) (conds : list (pec R)).
  Notation F := (femlib (mo_mesh m) (o_order o)).
  Hypothesis W : well_posed F m.
  Hypothesis B : built dbg femlib m o d0.
  Hypothesis O : in_order (mo_mats m) conds.
  Notation n := (List.length conds).
  Notation D := (after dbg femlib moment ops d0).

  Lemma reply_incell_inv d p w : reply dbg femlib moment CallInCell d = (Ok (VInCell p), w) ->
    exists d' w', getInCellPotentials dbg femlib moment d = ((Ok p, d'), w').
  Proof.
    unfold reply, call, cbind. destruct (getInCellPotentials dbg femlib moment d) as [[[q| |] d'] w0]; try discriminate.
    cbn. intros [= -> _]. eauto.
  Qed.
  Lemma qval_on x t : charge_on F x t (qval femlib m o x t).
  Proof. intros s <-. reflexivity. Qed.
  Lemma unit_nth ignore (cs : list (pec R)) us k u : Forall2 (fun p u => unit_solution F dbg (mo_mats m) ignore (p_attr p) u) cs us ->
    forall p, nth_error us k = Some u -> nth_error cs k = Some p -> unit_solution F dbg (mo_mats m) ignore (p_attr p) u.
  Proof.
    intros Fu. revert k. induction Fu as [|q v l l' H Fu IH]; intros [|k] p E1 E2; try discriminate.
    - injection E1 as <-. injection E2 as <-. exact H.
    - eapply IH; eassumption.
  Qed.
  Lemma mget_nodup_in {V} (l : list (Z * V)) N k v : map fst l = map Z.of_nat (seq 0 N) -> In (k, v) l -> mget k l = Some v.
  Proof.
    intros E I. apply mget_in_iff; [|exact I]. unfold msorted. rewrite E. clear. generalize 0%nat as s.
    induction N as [|N IH]; intros s; cbn; constructor; auto.
    apply Forall_forall. intros z I. apply in_map_iff in I as (x & Ex & I). apply in_seq in I. subst. apply Z.ltb_lt. lia.
  Qed.
  Lemma incell_fields p w : reply dbg femlib moment CallInCell D = (Ok (VInCell p), w) ->
    determineOpenness dbg m = Ok Open /\ forall ignore,
    map fst (fields_of p ignore) = map Z.of_nat (seq 0 n) /\
    exists g wg V, reply dbg femlib moment (CallGeneralizedC ignore) D = (Ok (VMatrix g), wg) /\ square n g /\
      forall i fr, In (Z.of_nat i, fr) (fields_of p ignore) ->
        (i < n)%nat /\ floats g i (V i) /\ exists x, reconstruction F dbg moment m (o_multipolarExpansionOrder o) ignore conds (V i) x fr.
  Proof.
    intros E. rewrite (history_irrelevant dbg femlib moment (fun _ => True) m o d0 ops CallInCell) in E;
      [|intros op _; right; exact Rmul0|exact W|exact B|apply Forall_forall; auto|exact I].
    apply reply_incell_inv in E as (d' & w' & E).
    destruct (built_finished dbg femlib m o d0 W B) as (conds' & O' & Ne & M & Op & Fi & _).
    rewrite (in_order_unique _ _ _ O' O) in *. clear conds' O'.
    set (f := last_folder ops (o_exportFolder o)) in *. clearbody f.
    assert (S : solid dbg femlib m o conds (in_folder d0 f)).
    { split; [exact M|]. split; [cbn; now rewrite Op|exact Fi]. }
    destruct (incell_ok dbg femlib moment m o conds O W _ _ _ _ S Ne E) as (Eo & H).
    split; [exact Eo|]. intros ignore. destruct (H ignore) as (K & us & fp & Fu & N1 & N2 & Rx). split; [exact K|].
    destruct (generalized_matrix dbg femlib moment m o d0 ops conds ignore Open W B O Eo ltac:(discriminate)) as (g & wg & Eg & G1 & G2 & G3).
    exists g, wg, (ent fp). split; [exact Eg|]. split; [split; assumption|]. intros i fr I.
    assert (Li : (i < n)%nat).
    { apply (in_map fst) in I. rewrite K in I. cbn in I. apply in_map_iff in I as (j & Ej & I). apply in_seq in I. lia. }
    split; [exact Li|].
    assert (L : n = 1%nat \/ (2 <= n)%nat) by lia. split.
    - destruct L as [L|L].
      + replace i with 0%nat by lia. split; [auto|]. intros k Lk Nk. rewrite G1 in Lk. lia.
      + destruct (N2 L) as (C & [C1 C2] & Cm & Cf). destruct (Cf i Li) as [F1 F2]. split; [exact F1|].
        intros k Lk Nk. rewrite G1 in Lk. rewrite C1 in F2. specialize (F2 k Lk Nk). unfold charge in *. rewrite G2. rewrite C2 in F2.
        rewrite <- F2. apply Sum_ext. intros j Lj. f_equal.
        destruct (nth_error conds k) as [pk|] eqn:Ek; [|apply nth_error_None in Ek; lia].
        destruct (nth_error conds j) as [pj|] eqn:Ej; [|apply nth_error_None in Ej; lia].
        assert (Lu : n = List.length us) by (apply Forall2_length in Fu; lia).
        destruct (nth_error us k) as [uk|] eqn:Euk; [|apply nth_error_None in Euk; lia].
        destruct (nth_error us j) as [uj|] eqn:Euj; [|apply nth_error_None in Euj; lia].
        assert (Fu' : Forall2 (fun p u => unit_solution F dbg (mo_mats m) ignore (p_attr p) u) conds us).
        { clear -Fu. induction Fu as [|p u l l' [Hu _] Fu IH]; constructor; auto. }
        rewrite (Cm k j Lk Lj uk uj pk pj Euk Euj Ek Ej).
        apply (G3 k j pk pj uk uj); auto; try apply qval_on; eapply unit_nth; eassumption.
    - destruct (Rx i Li) as (fr' & x & Eg' & R'). exists x.
      rewrite (mget_nodup_in _ _ _ _ K I) in Eg'. injection Eg' as <-. cbn in R'. rewrite Op in R'. exact R'.
  Qed.

  (** Charges of a reconstructed field *)
  Lemma charge_of_combination x t : charge_on F x t (flux_form F (fun q => if (q_attr q =? t)%Z then - 1 else 0) (so_d x)).
  Proof. intros s <-. reflexivity. Qed.
  Lemma only_one_charge ignore V g wg order i pi x fr : nth_error conds i = Some pi ->
    reply dbg femlib moment (CallGeneralizedC ignore) D = (Ok (VMatrix g), wg) -> determineOpenness dbg m = Ok Open ->
    floats g i V -> reciprocal F dbg m ignore conds ->
    reconstruction F dbg moment m order ignore conds V x fr ->
    (forall k pk, k <> i -> nth_error conds k = Some pk -> charge_on F x (p_attr pk) 0) /\
    exists Q rest, fr_ab fr = (Q, 0) :: rest /\ charge_on F x (p_attr pi) Q.
  Proof.
    intros Ei Eg Eo Fl Rc Rx. destruct (rc_units _ _ _ _ _ _ _ _ _ _ Rx) as (us & Fu & Cx).
    destruct (generalized_matrix dbg femlib moment m o d0 ops conds ignore Open W B O Eo ltac:(discriminate)) as (g' & wg' & Eg' & G1 & G2 & G3).
    rewrite Eg in Eg'. injection Eg' as <- <-.
    assert (Su : Forall (sized F) us).
    { clear -Fu W. induction Fu as [|p u l l' Hu Fu IH]; constructor; auto.
      destruct Hu as (pp & s & _ & E1 & E2). eapply solved_sized; [apply W|exact E2]. }
    assert (Lu : n = List.length us) by (apply Forall2_length in Fu; lia).
    assert (Zk : forall k pk, k <> i -> nth_error conds k = Some pk -> charge_on F x (p_attr pk) 0).
    { intros k pk Nk Ek. assert (Lk : (k < n)%nat) by (apply nth_error_Some; congruence).
      assert (E0 : flux_form F (fun q => if (q_attr q =? p_attr pk)%Z then - 1 else 0) (so_d x) = 0).
      2:{ rewrite <- E0. apply charge_of_combination. }
      rewrite (charge_combination F us V x _ (rc_sized _ _ _ _ _ _ _ _ _ _ Rx) Su Cx).
      destruct Fl as [_ Fl]. rewrite G1 in Fl. specialize (Fl k Lk Nk). unfold charge in Fl. rewrite G2 in Fl. rewrite <- Lu. refine (eq_trans _ Fl).
      apply Sum_ext. intros j Lj. rewrite Rmult_comm. f_equal.
      destruct (nth_error conds j) as [pj|] eqn:Ej; [|apply nth_error_None in Ej; lia].
      destruct (nth_error us k) as [uk|] eqn:Euk; [|apply nth_error_None in Euk; lia].
      destruct (nth_error us j) as [uj|] eqn:Euj; [|apply nth_error_None in Euj; lia].
      pose proof (unit_nth _ _ _ _ _ Fu _ Euk Ek) as Hk. pose proof (unit_nth _ _ _ _ _ Fu _ Euj Ej) as Hj.
      rewrite (nth_error_nth (map so_d us) j [] (map_nth_error so_d _ _ Euj)).
      change (flux_form F (fun q => if (q_attr q =? p_attr pk)%Z then - 1 else 0) (so_d uj)) with (qval femlib m o uj (p_attr pk)).
      rewrite (G3 k j pk pj uk uj _ _ Ek Ej Hk Hj (qval_on _ _) (qval_on _ _)).
      destruct (Nat.eq_dec k j) as [->|Nj].
      - assert (uk = uj) by congruence. assert (pk = pj) by congruence. subst. lra.
      - rewrite (Rc k j pk pj uk uj _ _ Nj Ek Ej Hk Hj (qval_on _ _) (qval_on _ _)). lra. }
    split; [exact Zk|].
    destruct (rc_values _ _ _ _ _ _ _ _ _ _ Rx) as (s & v & Es & Cp & _ & _ & Eab).
    assert (Ec : chargedBoundaries s = map fst (si_dirichlet (s_params s))).
    { unfold chargedBoundaries. rewrite (cp_neu _ _ _ _ Cp). cbn. apply app_nil_r. }
    assert (ND : NoDup (chargedBoundaries s)) by (rewrite Ec; apply msorted_nodup, (cp_sorted _ _ _ _ Cp)).
    destruct (multipolar_first F moment s order (fr_ab fr) Eab ND) as (_ & E0 & _).
    destruct (fr_ab fr) as [|c0 rest]; [discriminate|]. injection E0 as ->.
    eexists _, rest. split; [reflexivity|]. intros s' Es'. rewrite charge_in_boundary_flux.
    f_equal. rewrite <- flux_out_tags by exact ND.
    assert (Ed : s_d s' = s_d s) by (change (so_d (getSolution s') = so_d (getSolution s)); congruence). rewrite Ed.
    assert (It : In (p_attr pi) (chargedBoundaries s)).
    { rewrite Ec. apply in_map_iff. exists (p_attr pi, v (p_attr pi)). split; [reflexivity|].
      apply (cp_dir _ _ _ _ Cp). split; [|reflexivity]. exists pi. split; [|reflexivity].
      apply (Permutation_in _ (proj1 O)). eapply nth_error_In; eassumption. }
    rewrite <- (Rsum_single Z.eqb (chargedBoundaries s) (p_attr pi) (fun a => flux_out F (s_d s) (fun t => (t =? a)%Z)) Z.eqb_eq ND It).
    apply Rsum_ext. intros a Ia. destruct (Z.eqb_spec a (p_attr pi)) as [->|Na].
    - reflexivity.
    -       rewrite Ec in Ia. apply in_map_iff in Ia as ((t & y) & <- & Ia). apply (cp_dir _ _ _ _ Cp) in Ia as ((q & Iq & Eq) & _).
      apply (Permutation_in _ (Permutation_sym (proj1 O))) in Iq. apply In_nth_error in Iq as (k & Ek).
      cbn [fst]. subst t. assert (Nk : k <> i) by (intros ->; cbn in *; congruence).
      pose proof (Zk k q Nk Ek s Es) as Q0. rewrite charge_in_boundary_flux in Q0. cbn [fst] in *. lra.
  Qed.

  (** Without reciprocity the other conductors keep half of the asymmetry of the raw charges. *)
  Lemma charges_of_a_field ignore V g wg order i pi x fr q : nth_error conds i = Some pi ->
    reply dbg femlib moment (CallGeneralizedC ignore) D = (Ok (VMatrix g), wg) -> determineOpenness dbg m = Ok Open ->
    floats g i V -> unit_charges F dbg m ignore conds q ->
    reconstruction F dbg moment m order ignore conds V x fr ->
    (forall k pk, nth_error conds k = Some pk -> charge_on F x (p_attr pk) (Sum n (fun j => V j * q j k))) /\
    (forall k, k <> i -> (k < n)%nat -> Sum n (fun j => V j * q j k) = Sum n (fun j => V j * ((q j k - q k j) / 2))) /\
    (NoDup (map p_attr (pecs (mo_mats m))) -> exists rest, fr_ab fr = (Sum n (fun k => Sum n (fun j => V j * q j k)), 0) :: rest).
  Proof.
    intros Ei Eg Eo Fl Hq Rx. destruct (rc_units _ _ _ _ _ _ _ _ _ _ Rx) as (us & Fu & Cx).
    destruct (generalized_matrix dbg femlib moment m o d0 ops conds ignore Open W B O Eo ltac:(discriminate)) as (g' & wg' & Eg' & G1 & G2 & G3).
    rewrite Eg in Eg'. injection Eg' as <- <-.
    assert (Su : Forall (sized F) us).
    { clear -Fu W. induction Fu as [|p u l l' Hu Fu IH]; constructor; auto.
      destruct Hu as (pp & s & _ & E1 & E2). eapply solved_sized; [apply W|exact E2]. }
    assert (Lu : n = List.length us) by (apply Forall2_length in Fu; lia).
    assert (Zk : forall k pk, nth_error conds k = Some pk -> charge_on F x (p_attr pk) (Sum n (fun j => V j * q j k))).
    { intros k pk Ek. assert (Lk : (k < n)%nat) by (apply nth_error_Some; congruence).
      assert (E0 : flux_form F (fun b => if (q_attr b =? p_attr pk)%Z then - 1 else 0) (so_d x) = Sum n (fun j => V j * q j k)).
      2:{ rewrite <- E0. apply charge_of_combination. }
      rewrite (charge_combination F us V x _ (rc_sized _ _ _ _ _ _ _ _ _ _ Rx) Su Cx). rewrite <- Lu.
      apply Sum_ext. intros j Lj. f_equal.
      destruct (nth_error conds j) as [pj|] eqn:Ej; [|apply nth_error_None in Ej; lia].
      destruct (nth_error us j) as [uj|] eqn:Euj; [|apply nth_error_None in Euj; lia].
      pose proof (unit_nth _ _ _ _ _ Fu _ Euj Ej) as Hj.
      rewrite (nth_error_nth (map so_d us) j [] (map_nth_error so_d _ _ Euj)).
      pose proof (Hq j k pj pk uj Ej Ek Hj) as Hc. pose proof (qval_on uj (p_attr pk)) as Hc'.
      destruct Hj as (pp & s0 & _ & E1 & E2).
      pose (sv := {| s_params := {| si_dirichlet := []; si_neumann := []; si_open := []; si_eps := [] |}; s_ess := []; s_open := [];
                  s_eps := EpsConst 1; s_sigma := []; s_elim := None; s_phi := so_phi uj; s_e := so_e uj; s_d := so_d uj |} : solver R).
      assert (Esv : getSolution sv = uj) by (destruct uj; reflexivity).
      exact (eq_trans (eq_sym (Hc' sv Esv)) (Hc sv Esv)). }
    split; [exact Zk|]. split.
    { intros k Nk Lk. destruct Fl as [_ Fl]. rewrite G1 in Fl. specialize (Fl k Lk Nk). unfold charge in Fl. rewrite G2 in Fl.
      assert (Ee : forall j, (j < n)%nat -> ent g k j = (q j k + q k j) / 2).
      { intros j Lj.
        destruct (nth_error conds j) as [pj|] eqn:Ej; [|apply nth_error_None in Ej; lia].
        destruct (nth_error conds k) as [pk|] eqn:Ek; [|apply nth_error_None in Ek; lia].
        destruct (nth_error us k) as [uk|] eqn:Euk; [|apply nth_error_None in Euk; lia].
        destruct (nth_error us j) as [uj|] eqn:Euj; [|apply nth_error_None in Euj; lia].
        pose proof (unit_nth _ _ _ _ _ Fu _ Euk Ek) as Hk. pose proof (unit_nth _ _ _ _ _ Fu _ Euj Ej) as Hj.
        rewrite (G3 k j pk pj uk uj _ _ Ek Ej Hk Hj (Hq _ _ _ _ _ Ek Ej Hk) (Hq _ _ _ _ _ Ej Ek Hj)). lra. }
      transitivity (Sum n (fun j => V j * q j k) - Sum n (fun j => ent g k j * V j)); [rewrite Fl; lra|].
      rewrite <- Sum_minus. apply Sum_ext. intros j Lj. rewrite (Ee j Lj). field. }
    intros NDa.
    destruct (rc_values _ _ _ _ _ _ _ _ _ _ Rx) as (s & v & Es & Cp & _ & _ & Eab).
    assert (Ec : chargedBoundaries s = map fst (si_dirichlet (s_params s))).
    { unfold chargedBoundaries. rewrite (cp_neu _ _ _ _ Cp). cbn. apply app_nil_r. }
    assert (ND : NoDup (chargedBoundaries s)) by (rewrite Ec; apply msorted_nodup, (cp_sorted _ _ _ _ Cp)).
    destruct (multipolar_first F moment s order (fr_ab fr) Eab ND) as (_ & E0 & _).
    destruct (fr_ab fr) as [|c0 rest]; [discriminate|]. injection E0 as ->.
    exists rest. f_equal. f_equal. rewrite <- flux_out_tags by exact ND.
    assert (Pm : Permutation (chargedBoundaries s) (map p_attr conds)).
    { apply NoDup_Permutation; [exact ND|apply (Permutation_NoDup (Permutation_sym (Permutation_map p_attr (proj1 O))) NDa)|].
      intros t. rewrite Ec. split.
      - intros I. apply in_map_iff in I as ((t' & y) & <- & I). apply (cp_dir _ _ _ _ Cp) in I as ((r & Ir & Er) & _).
        apply in_map_iff. exists r. split; [exact Er|]. apply (Permutation_in _ (Permutation_sym (proj1 O)) Ir).
      - intros I. apply in_map_iff in I as (r & <- & I). apply in_map_iff. exists (p_attr r, v (p_attr r)). split; [reflexivity|].
        apply (cp_dir _ _ _ _ Cp). split; [|reflexivity]. exists r. split; [|reflexivity]. apply (Permutation_in _ (proj1 O) I). }
    rewrite (Rsum_perm _ _ _ Pm), <- Rsum_opp, Rsum_map.
    assert (Gn : forall (l : list (pec R)) (z : nat -> R), (forall k pk, nth_error l k = Some pk -> charge_on F x (p_attr pk) (z k)) ->
      Rsum l (fun r => - flux_out F (s_d s) (fun t => (t =? p_attr r)%Z)) = Sum (List.length l) z).
    { induction l as [|r l IH]; intros z Hz; [reflexivity|]. rewrite Rsum_cons. cbn [List.length]. rewrite Sum_shift. f_equal.
      - rewrite <- (Hz 0%nat r eq_refl s Es). symmetry. apply charge_in_boundary_flux.
      - apply IH. intros k pk Ek. exact (Hz (S k) pk Ek). }
    exact (Gn conds _ Zk).
  Qed.
End Reply.
