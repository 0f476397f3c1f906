(** What the field exports contain (C76). *)
From Coq Require Import Reals Lra Permutation.
From Verif Require Import Prelude StdMap Json Materials Graph ModelM Parser Matrix Solver Domain Results Driver
  RSum ListLemmas SpecInput SpecModel SpecSolver SpecDriver SpecMatrix SpecCharge SpecResults SpecField
  ModelProofs SolverProofs DriverProofs CallProofs DriverFacts RunProofs ChargeProofs MatrixProofs MatrixCalls FieldProofs.
Open Scope R_scope.
Open Scope list_scope.

Section Writes.
  Variable dbg : bool.
  Variable femlib : mesh R -> Z -> fem R.
  Variable moment : R * R -> nat -> nat -> R * R -> R.
  Variable m : model R.
  Variable o : driver_options.
  Notation F := (femlib (mo_mesh m) (o_order o)).
  Variable conds : list (pec R).
  Hypothesis O : in_order (mo_mats m) conds.
  Hypothesis W : well_posed F m.
  Hypothesis Ne : conds <> [].
  Notation n := (List.length conds).
  Notation holds := (holds dbg femlib m o conds).
  Notation solid := (solid dbg femlib m o conds).
  Notation units ignore us := (Forall2 (fun p u => unit_solution F dbg (mo_mats m) ignore (p_attr p) u /\ sized F u) conds us).

  Definition floating_field (ignore : bool) (k : nat) (u : solution R) : Prop :=
    exists us V, units ignore us /\ combines us V u /\ (n = 1%nat -> V 0%nat = 1) /\
      ((2 <= n)%nat -> exists C, square n C /\ (forall i j, (i < n)%nat -> (j < n)%nat -> mean_charge femlib m o conds us i j (ent C i j)) /\
         floats C k V /\ forall V', floats C k V' -> forall j, (j < n)%nat -> V' j = V j).
  Definition good (folder : string) (e : event R) : Prop :=
    is_result e = true \/
    exists x k p u, nth_error conds k = Some p /\ x_conductor x = p_name p /\ e = saved folder x (contents u) /\ sized F u /\
      if x_floating x then determineOpenness dbg m = Ok Open /\ floating_field (x_ignore x) k u
      else unit_solution F dbg (mo_mats m) (x_ignore x) (p_attr p) u.
  Variable opts : driver_options.
  Hypothesis Oo : o_order opts = o_order o.
  Definition st (d : driver R) : Prop := solid d /\ dr_opts d = opts.
  Definition wr {A} (c : cmd R (driver R) A) (Q : A -> Prop) : Prop :=
    forall d, st d -> Forall (good (o_exportFolder opts)) (snd (c d)) /\
      match fst (fst (c d)) with Ok a => st (snd (fst (c d))) /\ Q a | _ => True end.

  Lemma wr_ret {A} (a : A) (Q : A -> Prop) : Q a -> wr (cret a) Q. Proof. intros H d S. cbn. auto. Qed.
  Lemma wr_lift {A} (x : outcome A) (Q : A -> Prop) : (forall a, x = Ok a -> Q a) -> wr (clift x) Q.
  Proof. intros H d S. cbn. split; [constructor|]. destruct x; auto. Qed.
  Lemma wr_bind {A B} (c : cmd R (driver R) A) (f : A -> cmd R (driver R) B) (Q : A -> Prop) (Q' : B -> Prop) :
    wr c Q -> (forall a, Q a -> wr (f a) Q') -> wr (cbind c f) Q'.
  Proof.
    intros Hc Hf d S. unfold cbind. destruct (Hc d S) as (W1 & H1). destruct (c d) as [[[a|e|e] d1] w1]; cbn [fst snd] in *; auto.
    destruct H1 as (S1 & Qa). destruct (Hf a Qa d1 S1) as (W2 & H2). destruct (f a d1) as [[r d2] w2]. cbn [fst snd] in *.
    split; [now apply Forall_app|exact H2].
  Qed.
  Lemma wr_get {B} (f : driver R -> cmd R (driver R) B) Q : (forall d, st d -> wr (f d) Q) -> wr (cbind cget f) Q.
  Proof. intros H d S. rewrite cbind_get. now apply H. Qed.
  Lemma wr_weaken {A} (c : cmd R (driver R) A) (Q Q' : A -> Prop) : wr c Q -> (forall a, Q a -> Q' a) -> wr c Q'.
  Proof.
    intros H I d S. destruct (H d S) as (W1 & H1). split; [exact W1|]. destruct (fst (fst (c d))); auto. destruct H1. auto.
  Qed.

  Lemma app_nil_s (s : string) : (s ++ "")%string = s. Proof. induction s; cbn; congruence. Qed.
  Lemma good_unit ignore k p u : nth_error conds k = Some p -> unit_solution F dbg (mo_mats m) ignore (p_attr p) u -> sized F u ->
    Forall (good (o_exportFolder opts)) (export_fields opts u (p_name p) ignore).
  Proof.
    intros Ep U S. unfold export_fields. apply Forall_app. split; [destruct (o_exportParaView opts)|destruct (o_exportVisIt opts)]; constructor; auto; right.
    - exists {| x_visit := false; x_conductor := p_name p; x_floating := false; x_ignore := ignore |}, k, p, u. cbn [x_floating x_ignore x_conductor].
      repeat (split; [assumption || reflexivity|]). split; [|auto]. unfold saved, export_path. cbn [x_visit x_conductor x_floating x_ignore]. now rewrite app_nil_s.
    - exists {| x_visit := true; x_conductor := p_name p; x_floating := false; x_ignore := ignore |}, k, p, u. cbn [x_floating x_ignore x_conductor].
      repeat (split; [assumption || reflexivity|]). split; [|auto]. unfold saved, export_path. cbn [x_visit x_conductor x_floating x_ignore]. now rewrite app_nil_s.
  Qed.
  Lemma good_units ignore us : units ignore us -> Forall (good (o_exportFolder opts)) (exports opts ignore conds us).
  Proof.
    intros Fu. apply Forall_forall. intros e I. unfold exports in I. apply in_flat_map in I as ((p & u) & I & J). cbn [fst snd] in J.
    apply In_nth_error in I as (k & Ek).
    assert (H : nth_error conds k = Some p /\ nth_error us k = Some u).
    { clear -Ek. revert us k Ek. induction conds as [|a l IH]; intros [|b us] [|k] E; cbn in E; try discriminate; [injection E as -> ->; auto|]. cbn [nth_error]. now apply IH. }
    destruct H as (Ep & Eu). destruct (Forall2_nth _ _ _ _ _ Fu Ep) as (u' & Eu' & U & S). assert (u' = u) by congruence. subst u'.
    pose proof (good_unit ignore k p u Ep U S) as G. rewrite Forall_forall in G. now apply G.
  Qed.

  Definition charges_of (ignore : bool) (C : matrix R) : Prop :=
    square n C /\ exists us, units ignore us /\ forall i j, (i < n)%nat -> (j < n)%nat -> mean_charge femlib m o conds us i j (ent C i j).
  Lemma wr_gc ignore : wr (getGeneralizedCMatrix dbg femlib ignore) (charges_of ignore).
  Proof.
    intros d (S & Eo). destruct (determineOpenness dbg m) as [op|e|e] eqn:Ep.
    - assert (D : (n = 1%nat /\ op = Closed) \/ (n = 1%nat -> op <> Closed)).
      { destruct (Nat.eq_dec n 1) as [L|L]; [|right; intros; contradiction]. destruct op; auto; right; intros; discriminate. }
      destruct D as [(L & ->) | L].
      + destruct (gc_single dbg femlib m o conds O ignore d S Ep L) as (msg & E). rewrite E. cbn. auto.
      + destruct (gc_ok dbg femlib m o conds O ignore d op S Ep L) as (us & C & d' & E & Hd & Es & R1 & R2 & V). rewrite E. cbn [fst snd].
        assert (Fu : units ignore us) by apply Hd.
        split; [rewrite Eo; now apply good_units|]. split.
        * split; [apply Hd|]. destruct (k_gc dbg femlib (dr_model d) (dr_opts d) ignore d (conj eq_refl eq_refl)) as [[_ K] _]. rewrite E in K. cbn in K. congruence.
        * split; [split; assumption|]. exists us. split; [exact Fu|]. intros i j Li Lj. apply sym_mean. now apply V.
    - assert (M : dr_model d = m) by apply S. unfold getGeneralizedCMatrix. rewrite cbind_get, M, (cbind_lift _ _ _ _ (in_order_conductors _ _ O)), Ep. cbn. auto.
    - assert (M : dr_model d = m) by apply S. unfold getGeneralizedCMatrix. rewrite cbind_get, M, (cbind_lift _ _ _ _ (in_order_conductors _ _ O)), Ep. cbn. auto.
  Qed.
  Definition floating_row_of (ignore : bool) (us : list (solution R)) (k : nat) (V : nat -> R) : Prop :=
    (n = 1%nat -> V 0%nat = 1) /\
      ((2 <= n)%nat -> exists C, square n C /\ (forall i j, (i < n)%nat -> (j < n)%nat -> mean_charge femlib m o conds us i j (ent C i j)) /\
         floats C k V /\ forall V', floats C k V' -> forall j, (j < n)%nat -> V' j = V j).
  Lemma wr_fpm ignore : wr (getFloatingPotentialsMatrix dbg femlib ignore)
    (fun fp => determineOpenness dbg m = Ok Open -> square n fp /\ exists us, units ignore us /\ forall k, (k < n)%nat -> floating_row_of ignore us k (ent fp k)).
  Proof.
    unfold getFloatingPotentialsMatrix. apply wr_get. intros d (S & Eo). assert (M : dr_model d = m) by apply S. rewrite M, pec_count.
    2:{ destruct (nodup_all_names _ (wp_names _ _ W)) as (X & _). exact X. }
    assert (Ln : List.length (pecs (mo_mats m)) = n) by (destruct O as [P _]; symmetry; now apply Permutation_length).
    rewrite Ln. destruct (Nat.eqb_spec n 1) as [L1|L1].
    - apply wr_ret. intros _. split; [rewrite L1; split; reflexivity|].
      destruct (solid_holds dbg femlib m o conds ignore d S) as (us & Hu). exists us. split; [apply Hu|].
      intros k Lk. split; [reflexivity|lia].
    - apply (wr_bind _ _ (fun op => determineOpenness dbg m = Ok op)); [apply wr_lift; auto|]. intros op Ep.
      apply (wr_bind _ _ (fun C => op = Open -> charges_of ignore C)).
      + destruct op.
        * eapply wr_weaken; [apply wr_gc|]. auto.
        * apply wr_lift. discriminate.
        * eapply wr_bind; [apply wr_gc|]. intros g _. apply wr_ret. discriminate.
      + intros C HC. apply wr_lift. intros fp Ef Eo'. assert (op = Open) by congruence. subst op. destruct (HC eq_refl) as (Sq & us & Fu & Me).
        destruct (floating_matrix_ok C n Sq fp Ef) as [Sf Ff]. split; [exact Sf|]. exists us. split; [exact Fu|].
        intros k Lk. split; [intros; lia|]. intros _. exists C. split; [exact Sq|]. split; [exact Me|]. exact (Ff k Lk).
  Qed.
  Lemma wr_field ignore us fp res k p : determineOpenness dbg m = Ok Open -> units ignore us -> square n fp -> nth_error conds k = Some p ->
    floating_row_of ignore us k (ent fp k) ->
    wr (field_step femlib moment ignore fp (tagged conds) res (Z.of_nat k, p_attr p)) (fun _ => True).
  Proof.
    intros Op Fu0 Sq Ep Fr d Sd. pose proof Sd as (S & Eo). pose proof S as (M & Oo' & Fi).
    destruct (solid_holds dbg femlib m o conds ignore d S) as (us' & Hd). pose proof Hd as (_ & Es & Fu).
    assert (Eus : us' = us).
    { clear -Fu Fu0 W. revert us Fu0. induction Fu as [|q u l l' (U & _) Fu IH]; intros us Fu0; inversion Fu0 as [|? u0 ? l0 (U0 & _) Fu0']; subst; [reflexivity|].
      f_equal; [exact (unit_solution_unique _ _ _ _ _ _ _ W U U0)|now apply IH]. }
    subst us'. assert (Lk : (k < n)%nat) by (apply nth_error_Some; congruence).
    assert (Lu : List.length us = n) by (apply Forall2_length in Fu; auto).
    assert (Su : Forall (sized F) us).
    { clear -Fu. induction Fu as [|q u l l' [_ Hu] Fu IH]; constructor; auto. }
    destruct (Fi ignore) as (_ & Sz & v & Pv).
    destruct (superpose_ok femlib m o conds us (problem d ignore) fp k Es Lu Su Sz Sq Lk) as (s & Ex & Ss & Cs & Ps).
    unfold field_step. rewrite cbind_get. cbn [fst]. rewrite (cbind_lift _ _ _ _ Ex), cbind_put. rewrite M.
    rewrite (cbind_lift _ _ _ _ (in_order_get _ _ _ _ O Ep)), cbind_emit.
    set (tail := cbind _ _).
    assert (Ht : snd (tail (set_solver d ignore s)) = [] /\ snd (fst (tail (set_solver d ignore s))) = set_solver d ignore s).
    { unfold tail. unfold cbind, clift.
      repeat match goal with |- context [match ?x with Ok _ => _ | Throw _ => _ | Undef _ => _ end] => destruct x; [|split; reflexivity|split; reflexivity] end.
      split; reflexivity. }
    destruct (tail (set_solver d ignore s)) as [[r d'] w']. cbn [fst snd] in Ht. destruct Ht as (-> & ->). cbn [fst snd]. rewrite app_nil_r.
    split.
    - unfold exportFieldSolutions. rewrite Eo.
      assert (G : forall b : bool, good (o_exportFolder opts) (saved (o_exportFolder opts) {| x_visit := b; x_conductor := p_name p; x_floating := true; x_ignore := ignore |} (contents (getSolution s)))).
      { intros b. right. exists {| x_visit := b; x_conductor := p_name p; x_floating := true; x_ignore := ignore |}, k, p, (getSolution s). cbn [x_floating x_ignore x_conductor].
        split; [exact Ep|]. split; [reflexivity|]. split; [reflexivity|]. split; [exact Ss|]. split; [exact Op|].
        exists us, (ent fp k). split; [exact Fu|]. split; [exact Cs|]. exact Fr. }
      apply Forall_app. split; [destruct (o_exportParaView opts)|destruct (o_exportVisIt opts)]; constructor; auto; [exact (G false)|exact (G true)].
    - destruct r; auto. split; [|exact I]. split; [|exact Eo].
      split; [exact M|split; [exact Oo'|]]. intros i. destruct (Fi i) as (A & B & D).
      unfold finished in *. destruct i, ignore; cbn [set_solver problem dr_el dr_mag sp_solver sp_solutions] in A, B, D, Ps |- *; (split; [exact A|]); try (split; [exact B|exact D]); (split; [exact Ss|rewrite Ps; exact D]).
  Qed.
  Lemma wr_fields ignore us fp : determineOpenness dbg m = Ok Open -> units ignore us -> square n fp ->
    (forall k, (k < n)%nat -> floating_row_of ignore us k (ent fp k)) ->
    forall r k res, (k + r = n)%nat -> wr (cfold (field_step femlib moment ignore fp (tagged conds)) (skipn k (tagged conds)) res) (fun _ => True).
  Proof.
    intros Op Fu Sq Fr. induction r as [|r IH]; intros k res L.
    - rewrite skipn_all2 by (rewrite tagged_length; lia). now apply wr_ret.
    - destruct (nth_error conds k) as [p|] eqn:Ep; [|apply nth_error_None in Ep; lia].
      rewrite (skipn_nth _ _ _ (tagged_nth _ _ _ Ep)). cbn [cfold].
      eapply wr_bind; [apply (wr_field ignore us fp res k p Op Fu Sq Ep), Fr; lia|]. intros res' _. apply IH. lia.
  Qed.
  Lemma wr_fieldparams ignore : determineOpenness dbg m = Ok Open -> wr (getFieldParameters dbg femlib moment ignore) (fun _ => True).
  Proof.
    intros Op. unfold getFieldParameters. eapply wr_bind; [apply wr_fpm|]. intros fp Hf. destruct (Hf Op) as (Sq & us & Fu & Fr).
    apply wr_get. intros d (S & Eo). assert (M : dr_model d = m) by apply S. rewrite M.
    eapply (wr_bind _ _ (fun cs => cs = tagged conds)); [apply wr_lift; intros cs Ec; rewrite (in_order_conductors _ _ O) in Ec; now injection Ec|].
    intros cs ->. exact (wr_fields ignore us fp Op Fu Sq Fr n 0 [] ltac:(lia)).
  Qed.
  Lemma wr_incell : wr (getInCellPotentials dbg femlib moment) (fun _ => True).
  Proof.
    unfold getInCellPotentials. apply wr_get. intros d (S & Eo). assert (M : dr_model d = m) by apply S. rewrite M.
    apply (wr_bind _ _ (fun op => determineOpenness dbg m = Ok op)); [apply wr_lift; auto|]. intros op Ep.
    destruct (openness_eqb op Open) eqn:Eb; cbn [negb]; [|apply wr_lift; discriminate].
    assert (op = Open) by (destruct op; auto; discriminate). subst op.
    eapply (wr_bind _ _ (fun _ => True)); [apply wr_lift; auto|]. intros b _.
    eapply wr_bind; [apply wr_fieldparams, Ep|]. intros e _. eapply wr_bind; [apply wr_fieldparams, Ep|]. intros g _. now apply wr_ret.
  Qed.
  Lemma wr_reduce {A} (g : matrix R -> openness -> outcome A) ignore :
    wr (let! gC := getGeneralizedCMatrix dbg femlib ignore in let! d := cget in let! op := clift (determineOpenness dbg (dr_model d)) in clift (g gC op)) (fun _ => True).
  Proof.
    eapply wr_bind; [apply wr_gc|]. intros C _. apply wr_get. intros d _. eapply (wr_bind _ _ (fun _ => True)); [apply wr_lift; auto|]. intros op _. apply wr_lift. auto.
  Qed.
  Lemma wr_pul : wr (getPULMTL dbg femlib) (fun _ => True).
  Proof.
    unfold getPULMTL, buildPULParametersForModel. eapply (wr_bind _ _ (fun _ => True)); [exact (wr_reduce (fun g op => Ok (getCFromGeneralizedC g op)) false)|]. intros C _.
    eapply (wr_bind _ _ (fun _ => True)); [exact (wr_reduce (fun g op => invert (getCFromGeneralizedC g op)) true)|]. intros L _. now apply wr_ret.
  Qed.
  Lemma wr_json path j : wr (cemit [EvJson path j]) (fun _ => True).
  Proof. intros d S. cbn. split; [constructor; [now left|constructor]|auto]. Qed.
  Lemma wr_call op : op <> CallByDomains -> (forall f, op <> CallSetFolder f) -> wr (call dbg femlib moment op) (fun _ => True).
  Proof.
    intros N1 N2. destruct op; cbn [call]; try contradiction.
    - eapply wr_bind; [apply wr_gc|]. intros. now apply wr_ret.
    - eapply (wr_bind _ _ (fun _ => True)); [exact (wr_reduce (fun g op => Ok (getCFromGeneralizedC g op)) false)|]. intros. now apply wr_ret.
    - eapply (wr_bind _ _ (fun _ => True)); [exact (wr_reduce (fun g op => invert (getCFromGeneralizedC g op)) true)|]. intros. now apply wr_ret.
    - eapply wr_bind; [apply wr_pul|]. intros. now apply wr_ret.
    - eapply (wr_bind _ _ (fun _ => True)); [|intros; now apply wr_ret]. unfold getFloatingPotentials.
      eapply wr_bind; [apply wr_fpm|]. intros. eapply wr_bind; [apply wr_fpm|]. intros. now apply wr_ret.
    - eapply wr_bind; [apply wr_incell|]. intros. now apply wr_ret.
    - eapply (wr_bind _ _ (fun _ => True)); [|intros; now apply wr_ret]. unfold run. apply wr_get. intros d (S & Eo).
      eapply (wr_bind _ _ (fun _ => True)); [apply wr_lift; auto|]. intros op _. destruct op.
      + eapply wr_bind; [apply wr_incell|]. intros. apply wr_json.
      + apply wr_lift. auto.
      + eapply (wr_bind _ _ (fun _ => True)); [apply wr_pul|]. intros. apply wr_json.
    - now destruct (N2 folder).
  Qed.
End Writes.
