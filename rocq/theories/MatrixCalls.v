(** The matrices returned by the calls of a Driver, in terms of the generalized matrix. *)
From Coq Require Import Reals Lra.
From Verif Require Import Prelude StdMap Json Materials Graph ModelM Parser Matrix Solver Domain Results Driver
  SpecInput SpecModel SpecSolver SpecDriver SpecMatrix RSum ListLemmas LinAlg DriverProofs CallProofs DriverFacts RunProofs MatrixProofs.
Open Scope list_scope.

Section Keeps.
  Context {T : Type} `{Num T}.
  Variable dbg : bool.
  Variable femlib : mesh T -> Z -> fem T.
  Variable moment : T * T -> nat -> nat -> T * T -> T.
  Variables (m : model T) (oo : driver_options).
  Definition J (d : driver T) : Prop := dr_model d = m /\ dr_opts d = oo.
  Definition keeps {A} (P : A -> Prop) (c : cmd T (driver T) A) : Prop :=
    forall d, J d -> J (snd (fst (c d))) /\ forall a, fst (fst (c d)) = Ok a -> P a.
  Lemma k_ret {A} (P : A -> Prop) (a : A) : P a -> keeps P (cret a).
  Proof. intros Pa d E. split; [exact E|]. cbn. intros b [= <-]. exact Pa. Qed.
  Lemma k_lift {A} (P : A -> Prop) (x : outcome A) : (forall a, x = Ok a -> P a) -> keeps P (clift x).
  Proof. intros Pa d E. split; [exact E|exact Pa]. Qed.
  Lemma k_emit w : keeps (fun _ => True) (cemit w). Proof. intros d E. split; cbn; auto. Qed.
  Lemma k_put d' : J d' -> keeps (fun _ => True) (cput d'). Proof. intros E' d E. split; cbn; auto. Qed.
  Lemma k_bind {A B} (P : A -> Prop) (Q : B -> Prop) (c : cmd T (driver T) A) (f : A -> cmd T (driver T) B) :
    keeps P c -> (forall a, P a -> keeps Q (f a)) -> keeps Q (cbind c f).
  Proof.
    intros K1 K2 d E. unfold cbind. destruct (K1 d E) as [E1 P1]. destruct (c d) as [[r d1] w]. cbn in E1, P1.
    destruct r as [a| |]; cbn; [|split; [auto|discriminate]..].
    destruct (K2 a (P1 a eq_refl) d1 E1) as [E2 P2]. destruct (f a d1) as [[r2 d2] w2]. cbn in *. auto.
  Qed.
  Lemma k_get {B} (Q : B -> Prop) (f : driver T -> cmd T (driver T) B) :
    (forall d, J d -> keeps Q (f d)) -> keeps Q (cbind cget f).
  Proof. intros K d E. rewrite cbind_get. exact (K d E d E). Qed.
  Lemma k_fold {A B} (P : B -> Prop) (f : B -> A -> cmd T (driver T) B) l b : P b ->
    (forall b x, P b -> keeps P (f b x)) -> keeps P (cfold f l b).
  Proof.
    intros Pb K; revert b Pb; induction l as [|x l IH]; intros b Pb; cbn; [now apply k_ret|].
    apply (k_bind P); auto.
  Qed.
  Definition sized_as (n : nat) (C : matrix T) : Prop := nr C = n /\ nc C = n.
  Lemma k_row n ignore cs C ca : sized_as n C -> keeps (sized_as n) (row_step dbg femlib ignore cs C ca).
  Proof.
    intros SC. unfold row_step. apply k_get. intros d E.
    apply (k_bind (fun _ => True)); [now apply k_lift|intros x _].
    apply (k_bind (fun _ => True)); [now apply k_lift|intros s _].
    apply (k_bind (fun _ => True)); [now apply k_put|intros _ _].
    apply (k_bind (sized_as n)).
    - apply k_lift. intros C'. revert C SC. generalize cs at 2 as l. intros l; induction l as [|cb l IH]; intros C SC E'; cbn in E'.
      + injection E' as <-. exact SC.
      + apply bind_ok in E' as (C1 & E1 & E'). apply bind_ok in E1 as (a & _ & E1).
        apply (IH C1); [|exact E']. unfold set_at in E1. destruct (_ && _)%bool; [|discriminate]. injection E1 as <-. exact SC.
    - intros C' SC'. apply (k_bind (fun _ => True)); [now apply k_lift|intros p _].
      apply (k_bind (fun _ => True)); [apply k_emit|intros _ _]. now apply k_ret.
  Qed.
  Lemma k_gc ignore : keeps (fun C => nr C = nc C) (getGeneralizedCMatrix dbg femlib ignore).
  Proof.
    unfold getGeneralizedCMatrix. apply k_get. intros d E.
    apply (k_bind (fun _ => True)); [now apply k_lift|intros cs _].
    apply (k_bind (fun _ => True)); [now apply k_lift|intros op _].
    destruct (_ && _)%bool; [now apply k_lift|].
    apply (k_bind (sized_as (List.length cs))).
    - apply k_fold; [split; reflexivity|]. intros; now apply k_row.
    - intros C [S1 S2]. apply k_ret. cbn. congruence.
  Qed.
End Keeps.

Section Calls.
  Context {T : Type} `{Num T}.
  Variable dbg : bool.
  Variable femlib : mesh T -> Z -> fem T.
  Variable moment : T * T -> nat -> nat -> T * T -> T.
  Notation Reply := (reply dbg femlib moment).

  Lemma gc_run ignore d g w : Reply (CallGeneralizedC ignore) d = (Ok (VMatrix g), w) ->
    nr g = nc g /\ exists d', getGeneralizedCMatrix dbg femlib ignore d = ((Ok g, d'), w) /\ dr_model d' = dr_model d /\ dr_opts d' = dr_opts d.
  Proof.
    intros E. unfold reply, call, cbind in E.
    destruct (k_gc dbg femlib (dr_model d) (dr_opts d) ignore d (conj eq_refl eq_refl)) as [K1 K2].
    destruct (getGeneralizedCMatrix dbg femlib ignore d) as [[r d'] w0] eqn:E1.
    destruct r as [g0| |]; [|discriminate|discriminate]. cbn in E. injection E as -> Ew. rewrite app_nil_r in Ew. subst w0.
    cbn in K1, K2. split; [now apply K2|]. eauto.
  Qed.
  Lemma reply_C d g w op : Reply (CallGeneralizedC false) d = (Ok (VMatrix g), w) ->
    determineOpenness dbg (dr_model d) = Ok op ->
    Reply CallC d = (Ok (VMatrix (getCFromGeneralizedC g op)), w).
  Proof.
    intros E Eo. destruct (gc_run _ _ _ _ E) as (_ & d' & E1 & M & _). unfold reply, call, getCMatrix.
    unfold cbind at 1. rewrite (cbind_ok _ _ _ _ _ _ E1), cbind_get, M, (cbind_lift _ _ _ _ Eo). cbn.
    now rewrite !app_nil_r.
  Qed.
  Lemma reply_L d g w op : Reply (CallGeneralizedC true) d = (Ok (VMatrix g), w) ->
    determineOpenness dbg (dr_model d) = Ok op ->
    Reply CallL d = (bind (invert (getCFromGeneralizedC g op)) (fun l => Ok (VMatrix l)), w).
  Proof.
    intros E Eo. destruct (gc_run _ _ _ _ E) as (_ & d' & E1 & M & _). unfold reply, call, getLMatrix.
    unfold cbind at 1. rewrite (cbind_ok _ _ _ _ _ _ E1), cbind_get, M, (cbind_lift _ _ _ _ Eo). cbn.
    destruct (invert _); cbn; now rewrite !app_nil_r.
  Qed.
  (** conversely *)
  Lemma C_inv d C w : Reply CallC d = (Ok (VMatrix C), w) ->
    exists g op, Reply (CallGeneralizedC false) d = (Ok (VMatrix g), w) /\
      determineOpenness dbg (dr_model d) = Ok op /\ C = getCFromGeneralizedC g op.
  Proof.
    intros E.
    assert (K := k_gc dbg femlib (dr_model d) (dr_opts d) false d (conj eq_refl eq_refl)).
    unfold reply, call, getCMatrix, cbind in *.
    destruct (getGeneralizedCMatrix dbg femlib false d) as [[[g| |] d1] w1] eqn:Eg; [|discriminate|discriminate].
    cbn in K. destruct K as [[K _] _]. cbn in E, K. rewrite K in E.
    destruct (determineOpenness dbg (dr_model d)) as [op| |]; [|discriminate|discriminate]. cbn in E.
    injection E as <- <-. exists g, op. cbn. rewrite !app_nil_r. auto.
  Qed.
  Lemma L_inv d L w : Reply CallL d = (Ok (VMatrix L), w) ->
    exists g op, Reply (CallGeneralizedC true) d = (Ok (VMatrix g), w) /\
      determineOpenness dbg (dr_model d) = Ok op /\ invert (getCFromGeneralizedC g op) = Ok L.
  Proof.
    intros E.
    assert (K := k_gc dbg femlib (dr_model d) (dr_opts d) true d (conj eq_refl eq_refl)).
    unfold reply, call, getLMatrix, cbind in *.
    destruct (getGeneralizedCMatrix dbg femlib true d) as [[[g| |] d1] w1] eqn:Eg; [|discriminate|discriminate].
    cbn in K. destruct K as [[K _] _]. cbn in E, K. rewrite K in E.
    destruct (determineOpenness dbg (dr_model d)) as [op| |]; [|discriminate|discriminate]. cbn in E.
    destruct (invert (getCFromGeneralizedC g op)) as [l| |] eqn:El; [|discriminate|discriminate]. cbn in E.
    injection E as <- <-. exists g, op. cbn. rewrite !app_nil_r. auto.
  Qed.
End Calls.

Section BuiltCalls.
  Context {T : Type} `{Num T}.
  Variable dbg : bool.
  Variable femlib : mesh T -> Z -> fem T.
  Variable moment : T * T -> nat -> nat -> T * T -> T.
  Hypothesis mul0 : forall x : T, nmul x n0 = n0.
  Variables (m : model T) (o : driver_options) (d0 : driver T) (ops : list dop).
  Hypothesis W : well_posed (femlib (mo_mesh m) (o_order o)) m.
  Hypothesis B : built dbg femlib m o d0.
  Notation Reply := (reply dbg femlib moment).
  Notation D := (after dbg femlib moment ops d0).

  (** a call whose result does not matter does not change the reply of the next one *)
  Lemma reply_next op1 op2 : (forall f, op1 <> CallSetFolder f) ->
    Reply op2 (left_by dbg femlib moment op1 D) = Reply op2 D.
  Proof.
    intros Nf.
    assert (E : left_by dbg femlib moment op1 D = after dbg femlib moment (ops ++ [op1]) d0).
    { unfold after. now rewrite fold_left_app. }
    rewrite E. rewrite !(history_irrelevant dbg femlib moment (fun _ => True) m o d0 _ op2); auto.
    - f_equal. f_equal. unfold last_folder. rewrite fold_left_app. cbn. destruct op1; auto. now destruct (Nf folder).
    - apply Forall_forall; auto.
    - apply Forall_forall; auto.
  Qed.
  Lemma D_model : dr_model D = m.
  Proof.
    destruct (built_solid dbg femlib m o d0 W B) as (conds & _ & _ & S).
    apply (after_solid dbg femlib moment m o conds d0 ops) in S; [apply S|]. apply Forall_forall. auto.
  Qed.
  Lemma reply_PUL C L w1 w2 : Reply CallC D = (Ok (VMatrix C), w1) -> Reply CallL D = (Ok (VMatrix L), w2) ->
    Reply CallPUL D = (Ok (VPul {| pul_L := mscale MU0_SI L; pul_C := mscale EPSILON0_SI C |}), w1 ++ w2).
  Proof.
    intros EC EL. rewrite <- (reply_next CallC) in EL by discriminate.
    unfold reply, left_by, call in *. unfold getPULMTL, buildPULParametersForModel, cbind in *.
    destruct (getCMatrix dbg femlib D) as [[[C0| |] d1] wc]; [|discriminate|discriminate]. cbn in EC, EL.
    injection EC as -> Ec. rewrite app_nil_r in Ec. subst wc.
    destruct (getLMatrix dbg femlib d1) as [[[L0| |] d2] wl]; [|discriminate|discriminate]. cbn in EL.
    injection EL as -> El. rewrite app_nil_r in El. subst wl. cbn. now rewrite !app_nil_r.
  Qed.

  Lemma PUL_inv p w : Reply CallPUL D = (Ok (VPul p), w) ->
    exists C L w1 w2, Reply CallC D = (Ok (VMatrix C), w1) /\ Reply CallL D = (Ok (VMatrix L), w2) /\
      p = {| pul_L := mscale MU0_SI L; pul_C := mscale EPSILON0_SI C |}.
  Proof.
    intros E. assert (N := reply_next CallC CallL ltac:(discriminate)).
    unfold reply, left_by, call in *. unfold getPULMTL, buildPULParametersForModel, cbind in *.
    destruct (getCMatrix dbg femlib D) as [[[C0| |] d1] wc]; [|discriminate|discriminate]. cbn in E, N.
    destruct (getLMatrix dbg femlib d1) as [[[L0| |] d2] wl]; [|discriminate|discriminate]. cbn in E, N.
    injection E as <- _. exists C0, L0. do 2 eexists. split; [reflexivity|]. split; [symmetry; exact N|reflexivity].
  Qed.

  (** Floating potentials *)
  Lemma fpm_run (ignore : bool) g w : (List.length (pecs (mo_mats m)) <> 1)%nat ->
    forall op, determineOpenness dbg m = Ok op -> op <> SemiOpen ->
    forall d, dr_model d = m -> Reply (CallGeneralizedC ignore) d = (Ok (VMatrix g), w) ->
    fst (fst (getFloatingPotentialsMatrix dbg femlib ignore d)) =
      floating_matrix (match op with Closed => getCFromGeneralizedC g Closed | _ => g end) /\
    snd (fst (getFloatingPotentialsMatrix dbg femlib ignore d)) = left_by dbg femlib moment (CallGeneralizedC ignore) d.
  Proof.
    intros N1 op Eo Ns d M E. destruct (gc_run dbg femlib moment _ _ _ _ E) as (_ & d' & E1 & M' & _).
    unfold getFloatingPotentialsMatrix. rewrite cbind_get, M, pec_count.
    2:{ destruct (ModelProofs.nodup_all_names _ (wp_names _ _ W)) as (X & _). exact X. }
    destruct (Nat.eqb_spec (List.length (pecs (mo_mats m))) 1); [lia|].
    rewrite (cbind_lift _ _ _ _ Eo). unfold left_by, call.
    rewrite (cbind_ok _ _ _ _ _ _ E1). cbn.
    destruct op; [|congruence|].
    - rewrite (cbind_ok _ _ _ _ _ _ E1). cbn. auto.
    - assert (E2 : (let! gC := getGeneralizedCMatrix dbg femlib ignore in cret (getCFromGeneralizedC gC Closed)) d =
                   ((Ok (getCFromGeneralizedC g Closed), d'), w ++ [])).
      { now rewrite (cbind_ok _ _ _ _ _ _ E1). }
      rewrite (cbind_ok _ _ _ _ _ _ E2). cbn. auto.
  Qed.
  Lemma reply_floating ge gm we wm op : (List.length (pecs (mo_mats m)) <> 1)%nat ->
    determineOpenness dbg m = Ok op -> op <> SemiOpen ->
    Reply (CallGeneralizedC false) D = (Ok (VMatrix ge), we) -> Reply (CallGeneralizedC true) D = (Ok (VMatrix gm), wm) ->
    fst (Reply CallFloating D) =
      bind (floating_matrix (match op with Closed => getCFromGeneralizedC ge Closed | _ => ge end)) (fun e =>
      bind (floating_matrix (match op with Closed => getCFromGeneralizedC gm Closed | _ => gm end)) (fun f =>
      Ok (VMatrices e f))).
  Proof.
    intros N1 Eo Ns Ee Em. pose proof D_model as M.
    destruct (fpm_run false ge we N1 op Eo Ns D M Ee) as [F1 F2].
    unfold reply, call, getFloatingPotentials. unfold cbind at 1. unfold cbind at 1.
    destruct (getFloatingPotentialsMatrix dbg femlib false D) as [[r1 d1] w1]. cbn [fst snd] in F1, F2.
    rewrite <- F1. destruct r1 as [e| |]; [|reflexivity|reflexivity]. cbn [bind].
    assert (M1 : dr_model d1 = m).
    { rewrite F2. destruct (gc_run dbg femlib moment _ _ _ _ Ee) as (_ & d' & E1 & M' & _).
      unfold left_by, call. rewrite (cbind_ok _ _ _ _ _ _ E1). cbn. congruence. }
    rewrite <- (reply_next (CallGeneralizedC false)) in Em by discriminate. rewrite <- F2 in Em.
    destruct (fpm_run true gm wm N1 op Eo Ns d1 M1 Em) as [G1 G2].
    unfold cbind. destruct (getFloatingPotentialsMatrix dbg femlib true d1) as [[r2 d2] w2]. cbn [fst snd] in G1. rewrite <- G1.
    destruct r2; reflexivity.
  Qed.
End BuiltCalls.
