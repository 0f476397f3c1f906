(** Proofs for C68: without dielectrics the electric and the magnetic problem are the same. *)
From Verif Require Import Prelude StdMap Json Materials Graph ModelM Parser Matrix Solver Domain Results Driver
  SpecInput SpecModel SpecSolver SpecDriver ListLemmas NamesProofs DriverProofs.

Section Vacuum.
  Context {T : Type} `{Num T}.
  Variable dbg : bool.
  Variable femlib : mesh T -> Z -> fem T.
  Variable moment : T * T -> nat -> nat -> T * T -> T.

  (** Problem [i] of [d] is problem [j] of [d']. *)
  Definition like (i j : bool) (d d' : driver T) : Prop :=
    dr_model d = dr_model d' /\ dr_opts d = dr_opts d' /\ problem d i = problem d' j.
  (** The rest of the driver stays. *)
  Definition framed (j : bool) (d d' : driver T) : Prop :=
    dr_model d' = dr_model d /\ dr_opts d' = dr_opts d /\ problem d' (negb j) = problem d (negb j).
  Lemma framed_refl j d : framed j d d. Proof. repeat split. Qed.
  Lemma framed_trans j d1 d2 d3 : framed j d1 d2 -> framed j d2 d3 -> framed j d1 d3.
  Proof. intros (A & B & C) (A' & B' & C'). repeat split; congruence. Qed.
  (** Commands with the same results on such drivers *)
  Definition sim {A} (i j : bool) (c c' : cmd T (driver T) A) : Prop :=
    forall d d', like i j d d' -> fst (fst (c d)) = fst (fst (c' d')) /\ like i j (snd (fst (c d))) (snd (fst (c' d'))) /\
      framed j d' (snd (fst (c' d'))).

  Definition simd {A} (i j : bool) (d d' : driver T) (c c' : cmd T (driver T) A) : Prop :=
    fst (fst (c d)) = fst (fst (c' d')) /\ like i j (snd (fst (c d))) (snd (fst (c' d'))) /\
    framed j d' (snd (fst (c' d'))).
  Lemma sim_ret A i j (a : A) : sim i j (cret a) (cret a).
  Proof. intros d d' L. split; [reflexivity|split; [exact L|apply framed_refl]]. Qed.
  Lemma sim_lift A i j (a : outcome A) : sim i j (clift a) (clift a).
  Proof. intros d d' L. split; [reflexivity|split; [exact L|apply framed_refl]]. Qed.
  Lemma sim_emit i j w w' : sim i j (cemit w) (cemit w').
  Proof. intros d d' L. split; [reflexivity|split; [exact L|apply framed_refl]]. Qed.
  Lemma sim_bind A B i j (c c' : cmd T (driver T) A) (f f' : A -> cmd T (driver T) B) :
    sim i j c c' -> (forall a, sim i j (f a) (f' a)) -> sim i j (cbind c f) (cbind c' f').
  Proof.
    intros Hc Hf d d' L. destruct (Hc d d' L) as (E & L1 & F1). unfold cbind.
    destruct (c d) as [[r s] w], (c' d') as [[r' s'] w']. cbn [fst snd] in E, L1, F1. subst r'.
    destruct r as [a| |]; cbn [fst snd]; [|split; [reflexivity|split; assumption]..].
    destruct (Hf a s s' L1) as (E2 & L2 & F2). destruct (f a s) as [[r2 s2] w2], (f' a s') as [[r2' s2'] w2']. cbn [fst snd] in *.
    split; [exact E2|]. split; [exact L2|]. eapply framed_trans; eassumption.
  Qed.
  (** Reading the state *)
  Lemma sim_get B i j (f f' : driver T -> cmd T (driver T) B) :
    (forall d d', like i j d d' -> fst (fst (f d d)) = fst (fst (f' d' d')) /\ like i j (snd (fst (f d d))) (snd (fst (f' d' d'))) /\
      framed j d' (snd (fst (f' d' d')))) ->
    sim i j (cbind cget f) (cbind cget f').
  Proof.
    intros Hf d d' L. destruct (Hf d d' L) as (E & L' & F). unfold cbind, cget.
    destruct (f d d) as [[r2 s2] w2], (f' d' d') as [[r2' s2'] w2']. cbn [fst snd] in *. split; [exact E|split; assumption].
  Qed.
  Lemma sim_fold A B i j (f f' : B -> A -> cmd T (driver T) B) l : (forall b a, sim i j (f b a) (f' b a)) -> forall b, sim i j (cfold f l b) (cfold f' l b).
  Proof.
    intros Hf. induction l as [|a l IH]; intros b; cbn [cfold]; [apply sim_ret|]. apply sim_bind; [apply Hf|exact IH].
  Qed.
  Lemma like_set i j d d' s : like i j d d' -> like i j (set_solver d i s) (set_solver d' j s).
  Proof.
    intros (E1 & E2 & E3). unfold like, set_solver, problem in *. destruct i, j; cbn; repeat split; auto; now rewrite E3.
  Qed.
  Lemma frame_set d j (s : solver T) : framed j d (set_solver d j s).
  Proof. destruct j; repeat split. Qed.
  (** Storing a solver in the state that was read *)
  Lemma sim_put i j d d' (s : solver T) B (k k' : unit -> cmd T (driver T) B) : like i j d d' -> (forall u, sim i j (k u) (k' u)) ->
    simd i j d d' (cbind (cput (set_solver d i s)) k) (cbind (cput (set_solver d' j s)) k').
  Proof.
    intros L Hk. pose proof (Hk tt _ _ (like_set i j d d' s L)) as (E1 & E2 & E3). apply (framed_trans _ _ _ _ (frame_set d' j s)) in E3. unfold simd, cbind, cput.
    destruct (k tt (set_solver d i s)) as [[r2 s2] w2], (k' tt (set_solver d' j s)) as [[r2' s2'] w2']. cbn [fst snd] in *.
    split; [exact E1|split; assumption].
  Qed.
  Lemma simd_lift A B i j d d' (x : outcome A) (f f' : A -> cmd T (driver T) B) : like i j d d' -> (forall a, simd i j d d' (f a) (f' a)) ->
    simd i j d d' (cbind (clift x) f) (cbind (clift x) f').
  Proof.
    intros L Hf. unfold simd, cbind, clift. destruct x as [a| |]; cbn [fst snd]; [|split; [reflexivity|split; [exact L|apply framed_refl]]..].
    destruct (Hf a) as (E1 & E2 & E3). destruct (f a d) as [[r2 s2] w2], (f' a d') as [[r2' s2'] w2']. cbn [fst snd] in *.
    split; [exact E1|split; assumption].
  Qed.

  Lemma sim_row i j conductors C ca : sim i j (row_step dbg femlib i conductors C ca) (row_step dbg femlib j conductors C ca).
  Proof.
    unfold row_step. apply sim_get. intros d d' L. pose proof L as (E1 & E2 & E3). rewrite E1, E2, E3.
    change (simd i j d d'
       (let F := femlib (mo_mesh (dr_model d')) (o_order (dr_opts d')) in
        let! x := clift (get_solution (problem d' j) (fst ca)) in
        let! s := clift (setSolution dbg (sp_solver (problem d' j)) x) in
        do! cput (set_solver d i s);
        let! C' := clift (foldM (fun C (cb : Z * Z) => let* a := mat_ (fst cb) conductors in set_at C (fst ca) (fst cb) (getChargeInBoundary F s a)) conductors C) in
        let! p := clift (get_PEC_by_id (mo_mats (dr_model d')) (fst ca)) in
        do! cemit (exportFieldSolutions (dr_opts d') s (p_name p) i); cret C')
       (let F := femlib (mo_mesh (dr_model d')) (o_order (dr_opts d')) in
        let! x := clift (get_solution (problem d' j) (fst ca)) in
        let! s := clift (setSolution dbg (sp_solver (problem d' j)) x) in
        do! cput (set_solver d' j s);
        let! C' := clift (foldM (fun C (cb : Z * Z) => let* a := mat_ (fst cb) conductors in set_at C (fst ca) (fst cb) (getChargeInBoundary F s a)) conductors C) in
        let! p := clift (get_PEC_by_id (mo_mats (dr_model d')) (fst ca)) in
        do! cemit (exportFieldSolutions (dr_opts d') s (p_name p) j); cret C')).
    cbn zeta. apply simd_lift; [exact L|]. intros x. apply simd_lift; [exact L|]. intros s.
    apply sim_put; [exact L|]. intros _. apply sim_bind; [apply sim_lift|]. intros C'. apply sim_bind; [apply sim_lift|]. intros p.
    apply sim_bind; [apply sim_emit|]. intros _. apply sim_ret.
  Qed.
  Lemma sim_gc i j : sim i j (getGeneralizedCMatrix dbg femlib i) (getGeneralizedCMatrix dbg femlib j).
  Proof.
    unfold getGeneralizedCMatrix. apply sim_get. intros d d' L. pose proof L as (E1 & E2 & E3). rewrite E1.
    apply (sim_bind _ _ i j (clift (idToAttr_PEC (mo_mats (dr_model d')))) (clift (idToAttr_PEC (mo_mats (dr_model d'))))); [apply sim_lift| |exact L].
    intros conductors. apply sim_bind; [apply sim_lift|]. intros op.
    destruct ((List.length conductors =? 1)%nat && openness_eqb op Closed)%bool; [apply sim_lift|].
    apply sim_bind; [apply sim_fold; intros; apply sim_row|]. intros C. apply sim_ret.
  Qed.
  Lemma sim_floating i j : sim i j (getFloatingPotentialsMatrix dbg femlib i) (getFloatingPotentialsMatrix dbg femlib j).
  Proof.
    unfold getFloatingPotentialsMatrix. apply sim_get. intros d d' L. pose proof L as (E1 & E2 & E3). rewrite E1.
    destruct (List.length (nameToAttr_PEC (mo_mats (dr_model d'))) =? 1)%nat; [split; [reflexivity|split; [exact L|apply framed_refl]]|].
    apply (sim_bind _ _ i j (clift (determineOpenness dbg (dr_model d'))) (clift (determineOpenness dbg (dr_model d')))); [apply sim_lift| |exact L].
    intros op. apply sim_bind; [|intros; apply sim_lift]. destruct op; [apply sim_gc|apply sim_lift|].
    apply sim_bind; [apply sim_gc|intros; apply sim_ret].
  Qed.
  Lemma sim_field i j fp conductors res ca :
    sim i j (field_step femlib moment i fp conductors res ca) (field_step femlib moment j fp conductors res ca).
  Proof.
    unfold field_step. apply sim_get. intros d d' L. pose proof L as (E1 & E2 & E3). rewrite E1, E2, E3. cbn zeta.
    match goal with |- fst (fst (?a d)) = fst (fst (?b d')) /\ _ => change (simd i j d d' a b) end.
    apply simd_lift; [exact L|]. intros s. apply sim_put; [exact L|]. intros _.
    apply sim_bind; [apply sim_lift|]. intros p. apply sim_bind; [apply sim_emit|]. intros _.
    repeat (apply sim_bind; [apply sim_lift|]; intros ?). apply sim_ret.
  Qed.
  Lemma sim_fields i j : sim i j (getFieldParameters dbg femlib moment i) (getFieldParameters dbg femlib moment j).
  Proof.
    unfold getFieldParameters. apply sim_bind; [apply sim_floating|]. intros fp.
    apply sim_get. intros d d' L. pose proof L as (E1 & E2 & E3). rewrite E1.
    match goal with |- fst (fst (?a d)) = fst (fst (?b d')) /\ _ => enough (S : sim i j a b) by exact (S d d' L) end.
    apply sim_bind; [apply sim_lift|]. intros conductors. apply sim_fold. intros. apply sim_field.
  Qed.

  (** ** Both problems are the same *)
  Definition vacuum (m : model T) : Prop := forall q, In q (dielectrics (mo_mats m)) -> d_epsr q = n1.
  Lemma vacuum_inputs (m : model T) : NoDup (all_names (mo_mats m)) -> vacuum m ->
    buildSolverInputsFromModel m false = buildSolverInputsFromModel m true.
  Proof.
    intros ND V. destruct (inputs_of_model m false ND) as (p & Ep & Cp). destruct (inputs_of_model m true ND) as (p' & Ep' & Cp').
    rewrite Ep, Ep'. f_equal.
    assert (Ee : si_eps p = si_eps p').
    { apply msorted_in_ext; [apply Cp|apply Cp'|]. intros t x. rewrite (cp_eps _ _ _ _ Cp), (cp_eps _ _ _ _ Cp').
      split; intros (l1 & d & l2 & E & Et & N & ->); exists l1, d, l2; repeat (split; [assumption|]).
      - apply V. rewrite E. apply in_or_app. right; now left.
      - symmetry. apply V. rewrite E. apply in_or_app. right; now left. }
    unfold buildSolverInputsFromModel in Ep, Ep'. apply bind_ok in Ep as (e & _ & Ep). cbn [bind] in Ep'.
    injection Ep as <-. injection Ep' as <-. cbn [si_eps] in Ee. now rewrite Ee.
  Qed.
  Definition value {S A} (x : (outcome A * S) * list (event T)) : outcome A * S := fst x.
  Lemma fold_values {S A B} (f f' : B -> A -> cmd T S B) : (forall b a s, value (f b a s) = value (f' b a s)) ->
    forall l b s, value (cfold f l b s) = value (cfold f' l b s).
  Proof.
    intros E l. induction l as [|a l IH]; intros b s; [reflexivity|]. cbn [cfold]. unfold cbind.
    specialize (E b a s). destruct (f b a s) as [[r s1] w1], (f' b a s) as [[r' s1'] w1']. cbn in E. injection E as <- <-.
    destruct r as [b'| |]; cbn; [|reflexivity..]. specialize (IH b' s1).
    destruct (cfold f l b' s1) as [[r2 s2] w2], (cfold f' l b' s1) as [[r2' s2'] w2']. exact IH.
  Qed.
  Lemma solve_step_values m o base sp ca : value (solve_step femlib m o false base sp ca tt) = value (solve_step femlib m o true base sp ca tt).
  Proof.
    unfold solve_step. cbn zeta. unfold cbind, clift, cemit, cret.
    destruct (Solve _ _) as [s2| |]; [|reflexivity..]. destruct (get_PEC_by_id _ _) as [p| |]; [|reflexivity..].
    destruct (put_solution _ _ _) as [l| |]; reflexivity.
  Qed.
  Lemma solveForAll_values m o : NoDup (all_names (mo_mats m)) -> vacuum m ->
    value (solveForAllConductors dbg femlib m o false tt) = value (solveForAllConductors dbg femlib m o true tt).
  Proof.
    intros ND V. unfold solveForAllConductors. rewrite (vacuum_inputs m ND V). unfold cbind, clift.
    destruct (buildSolverInputsFromModel m true) as [base| |]; [|reflexivity..].
    destruct (mkSolver _ _ _) as [s| |]; [|reflexivity..]. destruct (idToAttr_PEC _) as [cs| |]; [|reflexivity..].
    set (sp := {| sp_solver := s; sp_solutions := repeat None (List.length cs) |}). cbn [app].
    assert (E : value (cfold (solve_step femlib m o false base) cs sp tt) = value (cfold (solve_step femlib m o true base) cs sp tt)).
    { apply fold_values. intros b a []. apply solve_step_values. }
    destruct (cfold (solve_step femlib m o false base) cs sp tt) as [[r2 s2] w2], (cfold (solve_step femlib m o true base) cs sp tt) as [[r3 s3] w3].
    exact E.
  Qed.
  Lemma vacuum_built m o d : NoDup (all_names (mo_mats m)) -> vacuum m -> built dbg femlib m o d -> dr_el d = dr_mag d.
  Proof.
    intros ND V (w & E). pose proof (solveForAll_values m o ND V) as S. unfold mkDriver, cbind, clift, cret in E.
    destruct (checkConductors m) as [[]| |]; try discriminate.
    destruct (solveForAllConductors dbg femlib m o false tt) as [[[el| |] []] w1]; try discriminate.
    destruct (solveForAllConductors dbg femlib m o true tt) as [[[mg| |] []] w2]; try discriminate.
    cbn in S. injection S as <-. injection E as <- _. reflexivity.
  Qed.

  (** ** The calls *)
  Definition twin (d : driver T) : Prop := dr_el d = dr_mag d.
  Lemma twin_like d : twin d -> like false true d d.
  Proof. intros E. repeat split. exact E. Qed.
  Lemma twin_folder d f : twin d -> twin (in_folder d f).
  Proof. exact (fun E => E). Qed.
  Lemma reply_values {A} (c c' : cmd T (driver T) A) (k : A -> dval T) d d' : fst (fst (c d)) = fst (fst (c' d')) ->
    fst (let '((r, _), w) := cbind c (fun a => cret (k a)) d in (r, w)) = fst (let '((r, _), w) := cbind c' (fun a => cret (k a)) d' in (r, w)).
  Proof. unfold cbind, cret. destruct (c d) as [[[] ?] ?], (c' d') as [[[] ?] ?]; cbn; congruence. Qed.
  Lemma twin_gc d : twin d -> fst (reply dbg femlib moment (CallGeneralizedC true) d) = fst (reply dbg femlib moment (CallGeneralizedC false) d).
  Proof. intros E. unfold reply, call. symmetry. apply reply_values. now apply (sim_gc false true), twin_like. Qed.
  (** two commands, one on each problem *)
  Lemma twin_pair {A B} (c : bool -> cmd T (driver T) A) (k : A -> A -> B) d e s w : twin d ->
    (forall i j, sim i j (c i) (c j)) ->
    (let! a := c false in let! b := c true in cret (k a b)) d = ((Ok e, s), w) -> exists a, e = k a a.
  Proof.
    intros Tw Sm E. unfold cbind, cret in E.
    destruct (c false d) as [[[a| |] d1] w1] eqn:E1; try discriminate.
    destruct (c true d1) as [[[b| |] d2] w2] eqn:E2; try discriminate. injection E as <- _ _.
    exists a. f_equal.
    assert (L : like false true d d1).
    { destruct (Sm false false d d) as (_ & _ & (M & O & F)); [repeat split|]. rewrite E1 in M, O, F. cbn [fst snd negb] in M, O, F.
      repeat split; [congruence..|]. unfold problem in *. rewrite F. exact Tw. }
    destruct (Sm false true d d1 L) as (X & _). rewrite E1, E2 in X. cbn in X. congruence.
  Qed.

  Lemma twin_floating d e f w : twin d -> reply dbg femlib moment CallFloating d = (Ok (VMatrices e f), w) -> e = f.
  Proof.
    intros Tw E. unfold reply, call, getFloatingPotentials in E.
    destruct ((let! e := getFloatingPotentialsMatrix dbg femlib false in let! m := getFloatingPotentialsMatrix dbg femlib true in cret (e, m)) d) as [[r s] w1] eqn:X.
    unfold cbind in E at 1. rewrite X in E. destruct r as [[a b]| |]; try discriminate. cbn in E. injection E as <- <- _.
    apply (twin_pair (fun i => getFloatingPotentialsMatrix dbg femlib i) pair) in X as (c & [= -> ->]); auto. intros; apply sim_floating.
  Qed.
  Lemma twin_incell d p w : twin d -> reply dbg femlib moment CallInCell d = (Ok (VInCell p), w) -> ic_electric p = ic_magnetic p.
  Proof.
    intros Tw E. unfold reply, call in E.
    destruct (getInCellPotentials dbg femlib moment d) as [[r s] w1] eqn:X. unfold cbind in E. rewrite X in E.
    destruct r as [q| |]; try discriminate. cbn in E. injection E as <- _.
    unfold getInCellPotentials in X. rewrite cbind_get in X. unfold cbind at 1, clift at 1 in X.
    destruct (determineOpenness dbg (dr_model d)) as [o| |]; try discriminate.
    destruct (negb (openness_eqb o Open)); [discriminate|]. unfold cbind at 1, clift at 1 in X.
    destruct (getBoundingBoxOfMaterial _ _) as [b| |]; try discriminate.
    destruct ((let! e := getFieldParameters dbg femlib moment false in let! m := getFieldParameters dbg femlib moment true in
               cret {| ic_box := b; ic_electric := e; ic_magnetic := m |}) d) as [[r2 s2] w2] eqn:Y.
    injection X as -> _ _.
    apply (twin_pair (fun i => getFieldParameters dbg femlib moment i) (fun e m => {| ic_box := b; ic_electric := e; ic_magnetic := m |})) in Y as (c & ->); auto.
    intros; apply sim_fields.
  Qed.
End Vacuum.
