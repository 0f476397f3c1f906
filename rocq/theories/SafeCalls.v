(** No call on a Driver that has been built has undefined behaviour, except for the solution of
    singular systems (C82). *)
From Verif Require Import Prelude StdMap Json Materials Graph ModelM Parser Matrix Solver Domain Results Driver
  SpecInput SpecModel SpecSolver SpecDriver SpecSafe ListLemmas ModelProofs SolverProofs DriverProofs CallProofs DriverFacts SafeProofs.
From Coq Require Import Permutation.

(** [x] is undefined only in the ways [Al], and its value satisfies [Q]. *)
Definition sound {A} (Al : ub -> Prop) (Q : A -> Prop) (x : outcome A) : Prop :=
  match x with Ok a => Q a | Throw _ => True | Undef u => Al u end.
Definition never (u : ub) : Prop := False.

Lemma sound_bind {A B} Al (Q : A -> Prop) (R : B -> Prop) x f :
  sound Al Q x -> (forall a, Q a -> sound Al R (f a)) -> sound Al R (bind x f).
Proof. destruct x; cbn; auto. Qed.
Lemma sound_weak {A} (Al Al' : ub -> Prop) (Q Q' : A -> Prop) x :
  (forall u, Al u -> Al' u) -> (forall a, Q a -> Q' a) -> sound Al Q x -> sound Al' Q' x.
Proof. destruct x; cbn; auto. Qed.
Lemma sound_foldM {A S} Al (I : S -> Prop) (f : S -> A -> outcome S) l s :
  (forall s x, In x l -> I s -> sound Al I (f s x)) -> I s -> sound Al I (foldM f l s).
Proof.
  revert s; induction l as [|x l IH]; intros s Hf Hs; [exact Hs|]. cbn [foldM].
  apply (sound_bind _ I); [apply Hf; [now left|exact Hs]|]. intros s' Hs'. apply IH; [|exact Hs'].
  intros s1 y Iy. apply Hf. now right.
Qed.
Lemma sound_mapM {A B} Al (Q : B -> Prop) (f : A -> outcome B) l :
  (forall x, In x l -> sound Al Q (f x)) -> sound Al (fun _ => True) (mapM f l).
Proof.
  induction l as [|x l IH]; intros Hf; [exact I|]. cbn [mapM]. apply (sound_bind _ Q); [apply Hf; now left|]. intros y _.
  apply (sound_bind _ (fun _ => True)); [apply IH; intros z Iz; apply Hf; now right|]. intros; exact I.
Qed.
Lemma sound_mat {K V} `{Ord K} Al (k : K) (mm : list (K * V)) : sound Al (fun _ => True) (mat_ k mm).
Proof. unfold mat_. destruct (mget k mm); exact I. Qed.
Lemma sound_any {A} Al (Q : A -> Prop) x : sound Al Q x -> sound Al (fun _ => True) x.
Proof. destruct x; cbn; auto. Qed.

Section Openness.
  Context {T : Type} `{Num T}.
  Definition segments (ms : mesh T) : Prop := forall e, In e (m_bdr ms) -> exists a b, e_verts e = [a; b].
  Lemma loops_sound (ms : mesh T) l : segments ms -> incl l (m_bdr ms) -> sound never (fun _ => True) (elementsFormOpenLoops l).
  Proof.
    intros Sg In. unfold elementsFormOpenLoops, determineClosedLoops.
    apply (sound_bind _ (fun _ => True)); [|intros; exact I].
    apply (sound_bind _ (fun _ => True)).
    - apply (sound_foldM _ (fun _ => True)); [|exact I]. intros s e Ie _. unfold loops_step.
      destruct (Sg e (In e Ie)) as (a & b & ->). change (vec_at [a; b] 0) with (Ok a). change (vec_at [a; b] 1) with (Ok b).
      cbn [bind]. apply (sound_bind _ (fun _ => True)); [|intros; exact I]. unfold addEdge. destruct (a =? b)%Z; exact I.
    - intros gv _. apply (sound_foldM _ (fun _ => True)); [|exact I]. intros r ic _ _.
      apply (sound_foldM _ (fun _ => True)); [|exact I]. intros r' v _ _.
      apply (sound_bind _ (fun _ => True)); [apply sound_mat|intros; exact I].
  Qed.
  Lemma openness_sound dbg (m : model T) : segments (mo_mesh m) -> sound never (fun _ => True) (determineOpenness dbg m).
  Proof.
    intros Sg. unfold determineOpenness. apply (sound_bind _ (fun _ => True)).
    { unfold assert_. destruct (dbg && _)%bool; exact I. }
    intros _ _. destruct (_ =? 0)%nat; [exact I|]. induction (openBoundaries (mo_mats m)) as [|b l IH]; [exact I|]. cbn [openness_loop].
    apply (sound_bind _ (fun _ => True)); [|intros [] _; [exact IH|exact I]].
    apply (loops_sound (mo_mesh m)); [exact Sg|]. intros e Ie. now apply filter_In in Ie.
  Qed.
End Openness.

Section Calls.
  Context {T : Type} `{Num T}.
  Variable dbg : bool.
  Variable femlib : mesh T -> Z -> fem T.
  Variable moment : T * T -> nat -> nat -> T * T -> T.
  Variable m : model T.
  Variable ord : Z.
  Notation F := (femlib (mo_mesh m) ord).
  Variable conds : list (pec T).
  Notation n := (List.length conds).
  Hypothesis O : in_order (mo_mats m) conds.
  Hypothesis ND : NoDup (all_names (mo_mats m)).
  Hypothesis Sg : segments (mo_mesh m).

  (** The driver works on [m], with fields of the right sizes. *)
  Definition fit (d : driver T) : Prop :=
    dr_model d = m /\ o_order (dr_opts d) = ord /\
    forall ignore, sized F (getSolution (sp_solver (problem d ignore))) /\
      exists us, sp_solutions (problem d ignore) = map Some us /\ List.length us = n /\ Forall (sized F) us.

  Definition triple {A} (Al : ub -> Prop) (Q : A -> Prop) (c : cmd T (driver T) A) : Prop :=
    forall d, fit d -> sound Al Q (fst (fst (c d))) /\ fit (snd (fst (c d))).
  Lemma t_ret {A} Al (Q : A -> Prop) a : Q a -> triple Al Q (cret a).
  Proof. intros Ha d Hd. split; [exact Ha|exact Hd]. Qed.
  Lemma t_lift {A} Al (Q : A -> Prop) x : sound Al Q x -> triple Al Q (clift x).
  Proof. intros Hx d Hd. split; [exact Hx|exact Hd]. Qed.
  Lemma t_emit Al (Q : unit -> Prop) w : Q tt -> triple Al Q (cemit w).
  Proof. intros Hq d Hd. split; [exact Hq|exact Hd]. Qed.
  Lemma t_put Al (Q : unit -> Prop) d : Q tt -> fit d -> triple Al Q (cput d).
  Proof. intros Hq Hd d' Hd'. split; [exact Hq|exact Hd]. Qed.
  Lemma t_bind {A B} Al (Q : A -> Prop) (R : B -> Prop) c f :
    triple Al Q c -> (forall a, Q a -> triple Al R (f a)) -> triple Al R (cbind c f).
  Proof.
    intros Hc Hf d Hd. specialize (Hc d Hd). unfold cbind. destruct (c d) as [[[a|e|u] d1] w1]; cbn in Hc; destruct Hc as [Hc H1].
    - specialize (Hf a Hc d1 H1). destruct (f a d1) as [[r2 d2] w2]. exact Hf.
    - split; [exact I|exact H1].
    - split; [exact Hc|exact H1].
  Qed.
  Lemma t_get {B} Al (R : B -> Prop) f : (forall d, fit d -> triple Al R (f d)) -> triple Al R (cbind cget f).
  Proof. intros Hf d Hd. rewrite cbind_get. exact (Hf d Hd d Hd). Qed.
  Lemma t_fold {A B} Al (I : B -> Prop) (f : B -> A -> cmd T (driver T) B) l b :
    (forall b x, In x l -> I b -> triple Al I (f b x)) -> I b -> triple Al I (cfold f l b).
  Proof.
    revert b; induction l as [|x l IH]; intros b Hf Hb; [now apply t_ret|]. cbn [cfold].
    apply (t_bind _ I); [apply Hf; [now left|exact Hb]|]. intros b' Hb'. apply IH; [|exact Hb']. intros b1 y Iy. apply Hf. now right.
  Qed.
  Lemma t_weak {A} (Al Al' : ub -> Prop) (Q Q' : A -> Prop) c :
    (forall u, Al u -> Al' u) -> (forall a, Q a -> Q' a) -> triple Al Q c -> triple Al' Q' c.
  Proof. intros Ha Hq Hc d Hd. destruct (Hc d Hd) as [X Y]. split; [exact (sound_weak _ _ _ _ _ Ha Hq X)|exact Y]. Qed.

  Lemma fit_set d ignore s : fit d -> sized F (getSolution s) -> fit (set_solver d ignore s).
  Proof.
    intros (M & Oo & P) Ss. split; [exact M|split; [exact Oo|]]. intros i. destruct (P i) as (P1 & P2).
    destruct i, ignore; cbn in *; auto.
  Qed.
  Lemma solution_at d ignore k : fit d -> (k < n)%nat ->
    exists x, get_solution (problem d ignore) (Z.of_nat k) = Ok x /\ sized F x.
  Proof.
    intros (_ & _ & P) Lk. destruct (P ignore) as (_ & us & Es & Lu & Fu). destruct (nth_error us k) as [x|] eqn:Ex; [|apply nth_error_None in Ex; lia].
    exists x. split; [|rewrite Forall_forall in Fu; apply Fu; eapply nth_error_In; eassumption].
    unfold get_solution, vec_at. destruct (Z.ltb_spec (Z.of_nat k) 0); [lia|]. rewrite Nat2Z.id, Es, (map_nth_error Some _ _ Ex). reflexivity.
  Qed.
  Lemma tagged_id ca : In ca (tagged conds) -> exists k p, fst ca = Z.of_nat k /\ nth_error conds k = Some p /\ (k < n)%nat.
  Proof.
    destruct ca as [i t]. intros I. apply tagged_in in I as (k & p & -> & Ep & _). exists k, p. split; [reflexivity|]. split; [exact Ep|].
    apply nth_error_Some. congruence.
  Qed.
  Lemma pec_sound k p Al : nth_error conds k = Some p -> sound Al (fun _ => True) (get_PEC_by_id (mo_mats m) (Z.of_nat k)).
  Proof. intros Ep. rewrite (in_order_get _ _ _ _ O Ep). exact I. Qed.

  Definition dims (C : matrix T) : Prop := nr C = n /\ nc C = n.
  Lemma set_at_sound Al C i j x : dims C -> (i < n)%nat -> (j < n)%nat -> sound Al dims (set_at C (Z.of_nat i) (Z.of_nat j) x).
  Proof.
    intros (D1 & D2) Li Lj. unfold set_at. rewrite D1, D2.
    destruct (Z.leb_spec 0 (Z.of_nat i)), (Z.leb_spec 0 (Z.of_nat j)), (Z.ltb_spec (Z.of_nat i) (Z.of_nat n)), (Z.ltb_spec (Z.of_nat j) (Z.of_nat n)); try lia.
    split; assumption.
  Qed.
  Lemma row_safe ignore C ca : In ca (tagged conds) -> dims C -> triple never dims (row_step dbg femlib ignore (tagged conds) C ca).
  Proof.
    intros Ic Dc. unfold row_step. apply t_get. intros d Hd. destruct (tagged_id ca Ic) as (k & p & Ek & Ep & Lk). rewrite Ek.
    pose proof Hd as (M & Oo & P). rewrite M, Oo.
    destruct (solution_at d ignore k Hd Lk) as (x & Ex & Sx).
    apply (t_bind _ (fun y => y = x)); [apply t_lift; now rewrite Ex|]. intros y ->.
    apply (t_bind _ (fun s => sized F (getSolution s))).
    { apply t_lift. rewrite (setSolution_ok F dbg _ x (proj1 (P ignore)) Sx). exact Sx. }
    intros s Ss. apply (t_bind _ (fun _ => True)); [apply t_put; [exact I|now apply fit_set]|]. intros _ _.
    apply (t_bind _ dims).
    { apply t_lift. apply (sound_foldM _ dims); [|exact Dc]. intros C' cb Ib Dc'. destruct (tagged_id cb Ib) as (j & q & Ej & _ & Lj). rewrite Ej.
      apply (sound_bind _ (fun _ => True)); [apply sound_mat|]. intros a _. now apply set_at_sound. }
    intros C' Dc'. apply (t_bind _ (fun _ => True)); [apply t_lift; exact (pec_sound k p _ Ep)|]. intros q _.
    apply (t_bind _ (fun _ => True)); [now apply t_emit|]. intros _ _. now apply t_ret.
  Qed.
  Lemma gc_safe ignore : triple never dims (getGeneralizedCMatrix dbg femlib ignore).
  Proof.
    unfold getGeneralizedCMatrix. apply t_get. intros d (M & Oo & P). rewrite M.
    apply (t_bind _ (fun c => c = tagged conds)); [apply t_lift; now rewrite (in_order_conductors _ _ O)|]. intros c ->.
    apply (t_bind _ (fun _ => True)); [apply t_lift; now apply openness_sound|]. intros op _.
    destruct (_ && _)%bool; [now apply t_lift|]. rewrite tagged_length.
    apply (t_bind _ dims).
    - apply (t_fold _ dims); [|split; reflexivity]. intros C ca Ic Dc. now apply row_safe.
    - intros C Dc. apply t_ret. exact Dc.
  Qed.
  Lemma invert_sound Al (a : matrix T) : sound Al (fun _ => True) (invert a).
  Proof.
    unfold invert. apply (sound_bind _ (fun _ => True)); [|intros; exact I].
    apply (sound_mapM _ (fun _ => True)). intros k _. destruct (solve_system a (unit_vec k)); exact I.
  Qed.
  Lemma C_safe : triple never (fun _ => True) (getCMatrix dbg femlib).
  Proof.
    unfold getCMatrix. apply (t_bind _ dims); [apply gc_safe|]. intros C _. apply t_get. intros d (M & _). rewrite M.
    apply (t_bind _ (fun _ => True)); [apply t_lift; now apply openness_sound|]. intros op _. now apply t_ret.
  Qed.
  Lemma L_safe : triple never (fun _ => True) (getLMatrix dbg femlib).
  Proof.
    unfold getLMatrix. apply (t_bind _ dims); [apply gc_safe|]. intros C _. apply t_get. intros d (M & _). rewrite M.
    apply (t_bind _ (fun _ => True)); [apply t_lift; now apply openness_sound|]. intros op _. apply t_lift, invert_sound.
  Qed.
  Lemma PUL_safe : triple never (fun _ => True) (getPULMTL dbg femlib).
  Proof.
    unfold getPULMTL, buildPULParametersForModel. apply (t_bind _ (fun _ => True)); [apply C_safe|]. intros C _.
    apply (t_bind _ (fun _ => True)); [apply L_safe|]. intros L _. now apply t_ret.
  Qed.

  (** ** Floating potentials: the systems may be singular *)
  Definition singular (u : ub) : Prop := u = SingularSystem.
  Lemma n_conductors : List.length (nameToAttr_PEC (mo_mats m)) = n.
  Proof.
    destruct (nodup_all_names _ ND) as (N1 & _).
    assert (P : Permutation (nameToAttr_PEC (mo_mats m)) (map (fun p => (p_name p, p_attr p)) (pecs (mo_mats m)))).
    { apply mset_all_permutation. now rewrite map_fst_pairs. }
    rewrite (Permutation_length P), map_length. symmetry. apply Permutation_length, O.
  Qed.
  Lemma floating_sound (C : matrix T) : sound singular (fun f => nr f = nr C /\ nc f = nr C) (floating_matrix C).
  Proof.
    unfold floating_matrix. apply (sound_bind _ (fun _ => True)); [|intros; split; reflexivity].
    apply (sound_mapM _ (fun _ => True)). intros i _. unfold floating_row, inverse_mult. destruct (solve_system _ _); [exact I|reflexivity].
  Qed.
  Lemma fpm_safe ignore : triple singular (fun f => determineOpenness dbg m = Ok Open -> dims f) (getFloatingPotentialsMatrix dbg femlib ignore).
  Proof.
    unfold getFloatingPotentialsMatrix. apply t_get. intros d (M & _). rewrite M, n_conductors.
    destruct (Nat.eqb_spec n 1) as [E1|E1]; [apply t_ret; intros _; unfold dims; rewrite E1; split; reflexivity|].
    apply (t_bind _ (fun op => determineOpenness dbg m = Ok op)).
    { apply t_lift. pose proof (openness_sound dbg m Sg) as S. destruct (determineOpenness dbg m); cbn in *; auto. destruct S. }
    intros op Eo. destruct op.
    - apply (t_bind _ dims); [eapply t_weak; [|intros a Ha; exact Ha|apply gc_safe]; intros u []|].
      intros C (D1 & D2). apply t_lift. eapply sound_weak; [| |apply floating_sound]; [auto|]. intros f (F1 & F2) _. split; congruence.
    - now apply (t_bind _ (fun _ => False)); [apply t_lift|].
    - apply (t_bind _ (fun _ => True)).
      + apply (t_bind _ dims); [eapply t_weak; [|intros a Ha; exact Ha|apply gc_safe]; intros u []|]. intros C _. now apply t_ret.
      + intros C _. apply t_lift. eapply sound_weak; [| |apply floating_sound]; [auto|]. intros f _ X. congruence.
  Qed.
  Lemma floating_safe : triple singular (fun _ => True) (getFloatingPotentials dbg femlib).
  Proof.
    unfold getFloatingPotentials. eapply t_bind; [apply fpm_safe|]. intros e _. eapply t_bind; [apply fpm_safe|]. intros f _. now apply t_ret.
  Qed.

  (** ** In-cell parameters *)
  Lemma fp_at Al (fp : matrix T) i j : dims fp -> (i < n)%nat -> (j < n)%nat -> sound Al (fun _ => True) (mat_atZ fp (Z.of_nat i) (Z.of_nat j)).
  Proof.
    intros (D1 & D2) Li Lj. unfold mat_atZ, mat_at. rewrite D1, D2, !Nat2Z.id.
    destruct (Z.leb_spec 0 (Z.of_nat i)), (Z.leb_spec 0 (Z.of_nat j)), (Nat.ltb_spec i n), (Nat.ltb_spec j n); try lia. exact I.
  Qed.
  Lemma superpose_safe d ignore fp k : fit d -> dims fp -> (k < n)%nat ->
    sound never (fun s => sized F (getSolution s)) (superpose (problem d ignore) fp (Z.of_nat k) (tagged conds)).
  Proof.
    intros Hd Df Lk. unfold superpose. apply (sound_foldM _ (fun s => sized F (getSolution s))).
    - intros s cb Ib Ss. destruct (tagged_id cb Ib) as (j & q & Ej & _ & Lj). unfold superpose_step. rewrite Ej.
      apply (sound_bind _ (fun _ => True)); [now apply fp_at|]. intros a _.
      destruct (solution_at d ignore j Hd Lj) as (x & -> & Sx). cbn. destruct Ss as (A & B & C). cbn in *.
      repeat split; cbn; rewrite gf_add_length; assumption.
    - destruct Hd as (_ & _ & P). destruct (P ignore) as ((A & B & C) & _). cbn in *. repeat split; cbn; unfold gf_scale; rewrite map_length; assumption.
  Qed.
  Lemma average_sound Al (G : fem T) s b : sound Al (fun _ => True) (getInnerRegionAveragePotential m G s b).
  Proof.
    unfold getInnerRegionAveragePotential. apply (sound_bind _ (fun _ => True)); [|intros; exact I].
    apply (sound_foldM _ (fun _ => True)); [|exact I]. intros acc name _ _. unfold inner_step.
    apply (sound_bind _ (fun _ => True)); [apply sound_mat|]. intros tag _.
    apply (sound_bind _ (fun _ => True)); [|intros; exact I]. unfold getAreaOfMaterial.
    destruct (mget name _); [|exact I]. destruct (isDomainMaterial _ _); [exact I|].
    apply (sound_bind _ (fun _ => True)); [|intros; exact I]. unfold get_PEC_by_name. destruct (find _ _); exact I.
  Qed.
  Lemma center_sound Al (G : fem T) s : sound Al (fun _ => True) (getCenterOfCharge G moment s).
  Proof. unfold getCenterOfCharge. destruct (si_open (s_params s)) as [|a [|b l]]; exact I. Qed.
  Lemma field_safe ignore fp res ca : In ca (tagged conds) -> dims fp ->
    triple never (fun _ => True) (field_step femlib moment ignore fp (tagged conds) res ca).
  Proof.
    intros Ic Df. unfold field_step. apply t_get. intros d Hd. destruct (tagged_id ca Ic) as (k & p & Ek & Ep & Lk). rewrite Ek.
    pose proof Hd as (M & Oo & P). rewrite M, Oo.
    apply (t_bind _ (fun s => sized F (getSolution s))); [apply t_lift; now apply superpose_safe|]. intros s Ss.
    apply (t_bind _ (fun _ => True)); [apply t_put; [exact I|now apply fit_set]|]. intros _ _.
    apply (t_bind _ (fun _ => True)); [apply t_lift; exact (pec_sound k p _ Ep)|]. intros q _.
    apply (t_bind _ (fun _ => True)); [now apply t_emit|]. intros _ _.
    apply (t_bind _ (fun _ => True)); [apply t_lift, average_sound|]. intros av _.
    apply (t_bind _ (fun _ => True)); [apply t_lift, center_sound|]. intros cc _.
    apply (t_bind _ (fun _ => True)).
    { apply t_lift. unfold getMultipolarCoefficients. apply (sound_bind _ (fun _ => True)); [apply center_sound|intros; exact I]. }
    intros ab _. apply (t_bind _ (fun _ => True)).
    { apply t_lift. apply (sound_foldM _ (fun _ => True)); [|exact I]. intros r cb Ib _. destruct (tagged_id cb Ib) as (j & q' & Ej & _ & Lj). rewrite Ej.
      apply (sound_bind _ (fun _ => True)); [now apply fp_at|intros; exact I]. }
    intros pots _. now apply t_ret.
  Qed.
  Lemma params_safe ignore : determineOpenness dbg m = Ok Open -> triple singular (fun _ => True) (getFieldParameters dbg femlib moment ignore).
  Proof.
    intros Eo. unfold getFieldParameters. eapply t_bind; [apply fpm_safe|]. cbn. intros fp Df. specialize (Df Eo).
    apply t_get. intros d (M & _). rewrite M.
    apply (t_bind _ (fun c => c = tagged conds)); [apply t_lift; now rewrite (in_order_conductors _ _ O)|]. intros c ->.
    apply (t_fold _ (fun _ => True)); [|exact I]. intros r ca Ic _. eapply t_weak; [|intros a Ha; exact Ha|now apply field_safe]. intros u [].
  Qed.
  Lemma incell_safe : triple singular (fun _ => True) (getInCellPotentials dbg femlib moment).
  Proof.
    unfold getInCellPotentials. apply t_get. intros d (M & _). rewrite M.
    apply (t_bind _ (fun op => determineOpenness dbg m = Ok op)).
    { apply t_lift. pose proof (openness_sound dbg m Sg) as S. destruct (determineOpenness dbg m); cbn in *; auto. destruct S. }
    intros op Eo. destruct op; cbn [negb openness_eqb]; try now apply t_lift.
    apply (t_bind _ (fun _ => True)).
    { apply t_lift. unfold getBoundingBoxOfMaterial. apply (sound_bind _ (fun _ => True)); [apply sound_mat|intros; exact I]. }
    intros b _. apply (t_bind _ (fun _ => True)); [now apply params_safe|]. intros e _.
    apply (t_bind _ (fun _ => True)); [now apply params_safe|]. intros f _. now apply t_ret.
  Qed.
  Lemma run_safe : triple (fun u => determineOpenness dbg m = Ok Open /\ u = SingularSystem) (fun _ => True) (run dbg femlib moment).
  Proof.
    unfold run. apply t_get. intros d (M & _). rewrite M.
    apply (t_bind _ (fun op => determineOpenness dbg m = Ok op)).
    { apply t_lift. pose proof (openness_sound dbg m Sg) as S. destruct (determineOpenness dbg m); cbn in *; auto. destruct S. }
    intros op Eo. destruct op.
    - apply (t_bind _ (fun _ => True)); [|intros; now apply t_emit]. eapply t_weak; [|intros a Ha; exact Ha|apply incell_safe].
      intros u Hu. split; [exact Eo|exact Hu].
    - now apply t_lift.
    - apply (t_bind _ (fun _ => True)); [|intros; now apply t_emit]. eapply t_weak; [|intros a Ha; exact Ha|apply PUL_safe]. intros u [].
  Qed.

  (** ** Any call *)
  (** The undefined behaviour that a call may have. *)
  Definition may (op : dop) (u : ub) : Prop :=
    match op with
    | CallFloating | CallInCell | CallRun => u = SingularSystem
    | _ => False
    end.
  Lemma fit_folder d f : fit d -> fit {| dr_model := dr_model d; dr_opts := with_folder (dr_opts d) f; dr_el := dr_el d; dr_mag := dr_mag d |}.
  Proof. intros (M & Oo & P). split; [exact M|split; [exact Oo|exact P]]. Qed.
  Lemma call_safe op : op <> CallByDomains -> triple (may op) (fun _ => True) (call dbg femlib moment op).
  Proof.
    intros Ne. destruct op; cbn [call may]; try congruence.
    - apply (t_bind _ dims); [apply gc_safe|intros; now apply t_ret].
    - apply (t_bind _ (fun _ => True)); [apply C_safe|intros; now apply t_ret].
    - apply (t_bind _ (fun _ => True)); [apply L_safe|intros; now apply t_ret].
    - apply (t_bind _ (fun _ => True)); [apply PUL_safe|intros; now apply t_ret].
    - apply (t_bind _ (fun _ => True)); [apply floating_safe|intros; now apply t_ret].
    - apply (t_bind _ (fun _ => True)); [apply incell_safe|intros; now apply t_ret].
    - apply (t_bind _ (fun _ => True)); [|intros; now apply t_ret]. eapply t_weak; [|intros a Ha; exact Ha|apply run_safe]. now intros u [_ Hu].
    - apply (t_bind _ (fun _ => True)); [|intros; now apply t_ret]. unfold setExportFolder. apply t_get. intros d Hd. apply t_put; [exact I|]. now apply fit_folder.
  Qed.
  Lemma bydomains_state d : snd (fst (call dbg femlib moment CallByDomains d)) = d.
  Proof.
    assert (K : forall A B (c : cmd T (driver T) A) (f : A -> cmd T (driver T) B) s, snd (fst (c s)) = s -> (forall a, snd (fst (f a s)) = s) -> snd (fst (cbind c f s)) = s).
    { intros A B c f s Hc Hf. unfold cbind. destruct (c s) as [[[a|e|u] s1] w1]; cbn in Hc; subst s1; [|reflexivity|reflexivity].
      specialize (Hf a). destruct (f a s) as [[r2 s2] w2]. exact Hf. }
    cbn [call]. apply K; [|reflexivity]. unfold getPULMTLByDomains. rewrite cbind_get. apply K; [reflexivity|]. intros ds.
    apply K; [|intros; now apply K]. generalize (@nil (Z * pul T)). induction ds as [|x l IH]; intros r; [reflexivity|].
    cbn [cfold]. apply K; [|intros; apply IH]. destruct (sub_pul _ _ _ _ _ _) as [[y s'] w]. reflexivity.
  Qed.
  Lemma left_fit op d : fit d -> fit (left_by dbg femlib moment op d).
  Proof.
    intros Hd. assert (D : op = CallByDomains \/ op <> CallByDomains) by (destruct op; auto; right; discriminate).
    unfold left_by. destruct D as [->|Ne].
    - pose proof (bydomains_state d) as E. destruct (call dbg femlib moment CallByDomains d) as [[r d'] w]. cbn in E. now subst d'.
    - pose proof (proj2 (call_safe op Ne d Hd)) as E. destruct (call dbg femlib moment op d) as [[r d'] w]. exact E.
  Qed.
  Lemma after_fit ops d : fit d -> fit (after dbg femlib moment ops d).
  Proof. revert d; induction ops as [|op l IH]; intros d Hd; [exact Hd|]. cbn. apply IH. now apply left_fit. Qed.
End Calls.
