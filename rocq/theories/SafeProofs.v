(** Proofs about undefined behaviour (C82). *)
From Verif Require Import Prelude StdMap Json Materials Graph ModelM Parser Matrix Solver Domain Results Driver
  SpecInput SpecModel SpecSolver SpecDriver SpecSafe NameAny SpecName ListLemmas ModelProofs SolverProofs DriverProofs CallProofs DriverFacts.
From Coq Require Import Permutation.

Section Construct.
  Context {T : Type} `{Num T}.
  Lemma no_number_undefined name : no_number name -> undefined (getMaterialIdFromName name).
  Proof. intros (s & S & B). eexists. exact (id_any name s None S (r_nothing s B)). Qed.
  Lemma id_defined name : is_ok (getMaterialIdFromName name) \/ no_number name.
  Proof.
    destruct (id_covers name) as (s & o & S & R). destruct o as [z|]; [left; exists z; exact (id_any _ _ _ S R)|].
    right. exists s. split; [exact S|]. inversion R. assumption.
  Qed.
  Lemma ids_or_not (mats : materials T) :
    (exists ids, conductor_ids mats ids) \/ exists p, In p (pecs mats) /\ no_number (p_name p).
  Proof.
    unfold conductor_ids. induction (pecs mats) as [|p l IH]; [left; exists []; constructor|].
    destruct (id_defined (p_name p)) as [[i Ei]|U]; [|right; exists p; split; [now left|exact U]].
    destruct IH as [(ids & F)|(q & I & U)]; [left; exists (i :: ids); now constructor|right; exists q; split; [now right|exact U]].
  Qed.
  Lemma ids_unique (mats : materials T) i1 i2 : conductor_ids mats i1 -> conductor_ids mats i2 -> i1 = i2.
  Proof.
    unfold conductor_ids. generalize (pecs mats) as l. intros l C. revert i2. induction C as [|p i l l' E C IH]; intros i2 C'.
    - inversion C'. subst. reflexivity.
    - inversion C' as [|? j ? l'' E' C'']; subst. f_equal; [congruence|now apply IH].
  Qed.
  Lemma mapM_undef {A B} (f : A -> outcome B) (l : list A) :
    (forall x, In x l -> is_ok (f x) \/ undefined (f x)) -> (exists x, In x l /\ undefined (f x)) -> undefined (mapM f l).
  Proof.
    induction l as [|a l IH]; intros D (x & I & U); [destruct I|]. cbn [mapM].
    destruct (D a (or_introl eq_refl)) as [[b Eb]|[u Eu]]; [|rewrite Eu; eexists; reflexivity].
    rewrite Eb. cbn [bind]. destruct I as [<-|I]; [destruct U as [u U]; congruence|].
    destruct IH as [u Eu]; [intros y Iy; apply D; now right|eauto|]. rewrite Eu. eexists; reflexivity.
  Qed.
  Lemma check_undef (m : model T) : NoDup (map p_name (pecs (mo_mats m))) ->
    (exists p, In p (pecs (mo_mats m)) /\ no_number (p_name p)) -> undefined (checkConductors m).
  Proof.
    intros ND (p & I & U). unfold checkConductors.
    destruct (mapM_undef (fun na : string * Z => getMaterialIdFromName (fst na)) (nameToAttr_PEC (mo_mats m))) as [u Eu].
    - intros x _. destruct (id_defined (fst x)) as [D|D]; [left; exact D|right; now apply no_number_undefined].
    - exists (p_name p, p_attr p). split; [|exact (no_number_undefined _ U)].
      assert (P : Permutation (nameToAttr_PEC (mo_mats m)) (map (fun p => (p_name p, p_attr p)) (pecs (mo_mats m)))).
      { apply mset_all_permutation. now rewrite map_fst_pairs. }
      apply (Permutation_in _ (Permutation_sym P)). now apply (in_map (fun p => (p_name p, p_attr p))).
    - rewrite Eu. eexists; reflexivity.
  Qed.

  Lemma build_eps_bad (F : fem T) dbg perm : (0 <= fe_domMax F)%Z -> Forall (fun ae => 0 < fst ae)%Z perm ->
    Exists (fun ae => fe_domMax F < fst ae)%Z perm ->
    build_eps F dbg perm = if dbg then Throw AssertFailed else Undef IndexOutOfBounds.
  Proof.
    intros Pm Fa Ex. unfold build_eps. destruct perm as [|ae0 perm0] eqn:Ep; [inversion Ex|]. rewrite <- Ep in *. clear Ep.
    set (f := fun v (ae : Z * T) => _).
    assert (G : forall v, Z.of_nat (List.length v) = fe_domMax F -> foldM f perm v = if dbg then Throw AssertFailed else Undef IndexOutOfBounds).
    { clear ae0 perm0. induction perm as [|ae perm IH]; intros v Lv; [inversion Ex|]. inversion Fa as [|? ? Ha Fb]; subst.
      cbn [foldM]. unfold f at 1.
      destruct (Z.leb_spec (fst ae) (Z.of_nat (List.length v))) as [Le|Gt].
      - unfold assert_. cbn [negb]. rewrite andb_false_r. cbn [bind].
        destruct (scale_at_ok v (fst ae - 1) (snd ae)) as (v1 & E1 & L1 & N1); [lia|]. rewrite E1. cbn [bind].
        apply IH; [exact Fb| |congruence]. inversion Ex as [? ? Hx|? ? Hx]; subst; [lia|exact Hx].
      - unfold assert_. cbn [negb]. rewrite andb_true_r. destruct dbg; cbn [bind]; [reflexivity|].
        unfold scale_at. destruct (Z.leb_spec 0 (fst ae - 1)); [|lia].
        destruct (Z.ltb_spec (fst ae - 1) (Z.of_nat (List.length v))); [lia|]. reflexivity. }
    rewrite G by (rewrite repeat_length; lia). now destruct dbg.
  Qed.

  Section Model.
    Variable dbg : bool.
    Variable femlib : mesh T -> Z -> fem T.
    Variable o : driver_options.
    Variable ms : mesh T.
    Variable mats : materials T.
    Variable gr : Z.
    Notation m := (setGround (mkModel ms mats) gr).
    Notation F := (femlib ms (o_order o)).
    Hypothesis ND : NoDup (all_names mats).
    Hypothesis Gm : good_mesh ms.
    Hypothesis Gl : good_library femlib.

    Lemma keeps_in_mesh : forall t, keepb ms t = true -> (0 < t)%Z.
    Proof. intros t K. apply keepb_iff in K as (e & I & <-). exact (gm_tags _ Gm e I). Qed.
    Lemma model_tags :
      Forall (fun p => 0 < p_attr p)%Z (pecs (mo_mats m)) /\ Forall (fun p => 0 < o_attr p)%Z (openBoundaries (mo_mats m)) /\
      Forall (fun p => 0 < d_attr p)%Z (dielectrics (mo_mats m)).
    Proof.
      cbn [setGround mo_mats]. destruct (mkModel_materials ms mats (keepb ms) ND (keepb_iff ms)) as (_ & -> & -> & ->).
      split; [|split]; apply Forall_forall; intros x I; apply filter_In in I as [_ K]; now apply keeps_in_mesh in K.
    Qed.
    Lemma beyond_iff t : beyond_the_regions ms t <-> (fe_domMax F < t)%Z.
    Proof.
      destruct (Gl ms (o_order o) Gm) as (_ & (e & I & E) & Le). split; [intros B; specialize (B e I); lia|].
      intros L e' I'. specialize (Le e' I'). lia.
    Qed.
    Lemma domMax_pos : (0 < fe_domMax F)%Z.
    Proof. destruct (Gl ms (o_order o) Gm) as (_ & (e & I & <-) & _). exact (gm_tags _ Gm e (or_introl I)). Qed.
    Lemma within_posed : (forall d, In d (dielectrics (mo_mats m)) -> ~ beyond_the_regions ms (d_attr d)) -> well_posed F m.
    Proof.
      intros Wi. destruct model_tags as (T1 & T2 & T3). split.
      - now apply mkModel_names.
      - exact T1.
      - exact T2.
      - apply Forall_forall. intros d I. rewrite Forall_forall in T3. specialize (T3 d I). specialize (Wi d I). rewrite beyond_iff in Wi. lia.
      - exact (proj1 (Gl ms (o_order o) Gm)).
    Qed.
    Lemma beyond_or_not : (exists d, In d (dielectrics (mo_mats m)) /\ beyond_the_regions ms (d_attr d)) \/
      (forall d, In d (dielectrics (mo_mats m)) -> ~ beyond_the_regions ms (d_attr d)).
    Proof.
      induction (dielectrics (mo_mats m)) as [|d l IH]; [right; intros d []|].
      destruct (Z_lt_le_dec (fe_domMax F) (d_attr d)) as [L|L]; [left; exists d; split; [now left|now apply beyond_iff]|].
      destruct IH as [(q & I & B)|A]; [left; exists q; split; [now right|exact B]|right].
      intros q [<-|I]; [rewrite beyond_iff; lia|now apply A].
    Qed.

    Lemma check_cases : (exists p, In p (pecs (mo_mats m)) /\ no_number (p_name p)) /\ undefined (checkConductors m) \/
      (exists ids, conductor_ids (mo_mats m) ids /\
         ((ids <> [] /\ numbered_from_zero ids) /\ checkConductors m = Ok tt \/
          ~ (ids <> [] /\ numbered_from_zero ids) /\ exists msg, checkConductors m = Throw (RuntimeError msg))).
    Proof.
      destruct (nodup_all_names _ (mkModel_names ms mats ND)) as (N1 & _).
      destruct (ids_or_not (mo_mats m)) as [(ids & C)|Un]; [right|left; split; [exact Un|now apply check_undef]].
      exists ids. split; [exact C|]. destruct (checkConductors_ids m ids N1 C) as [Ci Ct].
      destruct (checkConductors m) as [[]|e|u] eqn:Ec.
      - left. split; [now apply Ci|reflexivity].
      - right. split; [intros X; apply Ci in X; discriminate|]. apply Ct. discriminate.
      - destruct Ct as (msg & X); [discriminate|]. discriminate X.
    Qed.
    Lemma ids_readable ids : conductor_ids (mo_mats m) ids -> ~ exists p, In p (pecs (mo_mats m)) /\ no_number (p_name p).
    Proof.
      intros C (p & I & N). destruct (no_number_undefined _ N) as [u X]. clear N. unfold conductor_ids in C. induction C as [|q i l l' E C IH]; [destruct I|].
      destruct I as [<-|I]; [congruence|now apply IH].
    Qed.
    Lemma solve_beyond : (exists d, In d (dielectrics (mo_mats m)) /\ beyond_the_regions ms (d_attr d)) ->
      solveForAllConductors dbg femlib m o false tt = (((if dbg then Throw AssertFailed else Undef IndexOutOfBounds), tt), []).
    Proof.
      intros (d & I & B). unfold solveForAllConductors.
      destruct (inputs_of_model m false (mkModel_names ms mats ND)) as (p & Ep & Cp).
      rewrite (cbind_lift _ _ _ _ Ep).
      assert (Em : mkSolver (femlib (mo_mesh m) (o_order o)) dbg p = if dbg then Throw AssertFailed else Undef IndexOutOfBounds).
      { unfold mkSolver. destruct model_tags as (T1 & T2 & T3).
        destruct (marker_total (fe_bdrMax F) (map fst (si_dirichlet p))) as [ess Ess].
        { apply Forall_forall. intros a Ia. apply in_map_iff in Ia as ((t & x) & <- & Ia). apply (cp_dir _ _ _ _ Cp) in Ia as ((q & Iq & <-) & _).
          rewrite Forall_forall in T1. now apply T1. }
        change (mo_mesh m) with ms. rewrite Ess. cbn [bind].
        rewrite (build_eps_bad F dbg (si_eps p)); [now destruct dbg|pose proof domMax_pos; lia| |].
        - apply Forall_forall. intros (t & x) Ia. apply (cp_eps _ _ _ _ Cp) in Ia as (l1 & q & l2 & El & <- & _).
          rewrite Forall_forall in T3. apply T3. rewrite El. apply in_or_app. right. now left.
        - destruct (last_split d_attr (dielectrics (mo_mats m)) (d_attr d)) as (l1 & q & l2 & El & Eq & Nl); [now apply in_map|].
          apply Exists_exists. exists (d_attr d, d_epsr q). split; [|cbn; now apply beyond_iff].
          apply (cp_eps _ _ _ _ Cp). exists l1, q, l2. auto. }
      unfold cbind at 1. unfold clift at 1. rewrite Em. now destruct dbg.
    Qed.

    Theorem construction_undefined :
      undefined (outcome_of (mkDriver dbg femlib m o) tt) <->
      (exists p, In p (pecs (mo_mats m)) /\ no_number (p_name p)) \/
      (dbg = false /\ (exists ids, conductor_ids (mo_mats m) ids /\ ids <> [] /\ numbered_from_zero ids) /\
       exists d, In d (dielectrics (mo_mats m)) /\ beyond_the_regions ms (d_attr d)).
    Proof.
      unfold outcome_of, mkDriver. destruct check_cases as [[Un [u Eu]]|(ids & C & [[A Ec]|[A (msg & Ec)]])].
      - unfold cbind at 1. unfold clift at 1. rewrite Eu. cbn. split; [intros _; now left|intros _; eexists; reflexivity].
      - rewrite (cbind_lift _ _ _ _ Ec). destruct beyond_or_not as [B|B].
        + pose proof (solve_beyond B) as Es. unfold cbind at 1. rewrite Es. destruct dbg; cbn.
          * split; [intros [u X]; discriminate X|]. intros [X|(X & _)]; [destruct (ids_readable _ C X)|discriminate X].
          * split; [|intros _; eexists; reflexivity]. intros _. right. split; [reflexivity|]. split; [|exact B]. exists ids. auto.
        + split.
          * intros [u X]. exfalso. destruct (in_order_exists _ _ C (proj2 A)) as (conds & O & L).
            destruct (mkDriver_ok dbg femlib m o (within_posed B) conds O) as (d & Ed & _).
            { intros ->. destruct ids; [now apply (proj1 A)|discriminate L]. }
            unfold mkDriver in Ed. rewrite (cbind_lift _ _ _ _ Ec) in Ed. rewrite Ed in X. discriminate X.
          * intros [X|(_ & _ & d & I & X)]; [destruct (ids_readable _ C X)|destruct (B d I X)].
      - unfold cbind at 1. unfold clift at 1. rewrite Ec. cbn. split; [intros [u X]; discriminate X|].
        intros [X|(_ & (ids' & C' & A') & _)]; [destruct (ids_readable _ C X)|]. exfalso. apply A.
        assert (ids' = ids); [|subst; exact A'].
        exact (ids_unique _ _ _ C' C).
    Qed.
    Theorem construction_beyond :
      (exists ids, conductor_ids (mo_mats m) ids /\ ids <> [] /\ numbered_from_zero ids) ->
      (exists d, In d (dielectrics (mo_mats m)) /\ beyond_the_regions ms (d_attr d)) ->
      mkDriver dbg femlib m o tt = (((if dbg then Throw AssertFailed else Undef IndexOutOfBounds), tt), []).
    Proof.
      intros (ids & C & A) B. unfold mkDriver.
      destruct (nodup_all_names _ (mkModel_names ms mats ND)) as (N1 & _).
      pose proof (proj2 (proj1 (checkConductors_ids m ids N1 C)) A) as Ec. rewrite (cbind_lift _ _ _ _ Ec).
      unfold cbind at 1. rewrite (solve_beyond B). now destruct dbg.
    Qed.
    Theorem built_posed d : built dbg femlib m o d -> well_posed F m.
    Proof.
      intros (w & E). apply within_posed. destruct beyond_or_not as [B|B]; [exfalso|exact B].
      unfold mkDriver in E. destruct check_cases as [[Un [u Eu]]|(ids & C & [[A Ec]|[A (msg & Ec)]])].
      - unfold cbind at 1 in E. unfold clift at 1 in E. rewrite Eu in E. discriminate E.
      - rewrite (cbind_lift _ _ _ _ Ec) in E. unfold cbind at 1 in E. rewrite (solve_beyond B) in E. destruct dbg; discriminate E.
      - unfold cbind at 1 in E. unfold clift at 1 in E. rewrite Ec in E. discriminate E.
    Qed.
  End Model.
End Construct.
