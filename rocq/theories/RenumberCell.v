(** Proofs for C67: in-cell parameters of renumbered models. *)
From Coq Require Import Reals Lra Permutation.
From Verif Require Import Prelude StdMap Json Materials Graph ModelM Parser Matrix Solver Domain Results Driver
  SpecInput SpecModel SpecSolver SpecDriver SpecMatrix SpecRenumber SpecField SpecInner SpecInCell RSum ListLemmas LinAlg ModelProofs OpennessProofs SolverProofs DriverProofs CallProofs DriverFacts RunProofs
  MatrixProofs MatrixCalls MatrixFacts FieldProofs InCellOk FemMatrix FemMore RenumberProofs.
Open Scope R_scope.
Open Scope list_scope.

(** ** When the floating potentials exist *)
Definition determined (n : nat) (C : matrix R) : Prop :=
  forall i w, (i < n)%nat -> w i = 0 -> (forall k, (k < n)%nat -> k <> i -> charge C w k = 0) -> forall k, (k < n)%nat -> w k = 0.
Lemma fsys_hom n (C : matrix R) i z k : square n C -> (i < n)%nat ->
  apply_row (fsys C i) z k = charge C (fun j => if (j =? i)%nat then 0 else z j) k - (if (k =? i)%nat then z i else 0).
Proof.
  intros [Er Ec] Li. unfold apply_row, charge. cbn [nr fsys set_col]. rewrite Er, Ec.
  rewrite (Sum_split n i _ Li). rewrite (Sum_split n i (fun j => ent C k j * _) Li).
  unfold fsys, set_col; cbn [ent]. rewrite Nat.eqb_refl. cbn [nopp n1 n0 RNum].
  rewrite (Sum_ext n (fun j => if (j =? i)%nat then 0 else (if (j =? i)%nat then _ else _) * _)
     (fun j => if (j =? i)%nat then 0 else ent C k j * (if (j =? i)%nat then 0 else z j))).
  - destruct (k =? i)%nat; lra.
  - intros j _. destruct (j =? i)%nat; reflexivity.
Qed.
Lemma floating_iff n (C : matrix R) : square n C -> (is_ok (floating_matrix C) <-> determined n C).
Proof.
  intros Sq. pose proof Sq as [Er Ec]. split.
  - intros (fp & E) i w Li Wi Hw k Lk. unfold floating_matrix in E. rewrite Er in E. apply bind_ok in E as (rows & Em & _). apply mapM_ok in Em.
    destruct (Forall2_nth _ _ _ i i Em) as (x & Ex & Hx).
    { rewrite nth_error_nth' with (d := 0%nat) by now rewrite seq_length. now rewrite seq_nth. }
    unfold floating_row, inverse_mult in Hx. fold (fsys C i) in Hx. cbn zeta in Hx.
    destruct (solve_system (fsys C i) _) as [y|] eqn:Es; [|discriminate].
    assert (Sf : nr (fsys C i) = nc (fsys C i)) by (cbn; congruence).
    pose proof (solves_injective _ _ _ Sf Es) as Inj.
    set (z := fun j => if (j =? i)%nat then charge C w i else w j).
    assert (Hz : forall j, (j < n)%nat -> apply_row (fsys C i) z j = 0).
    { intros j Lj. rewrite (fsys_hom n C i z j Sq Li).
      replace (charge C (fun j0 => if (j0 =? i)%nat then 0 else z j0) j) with (charge C w j).
      - unfold z. rewrite Nat.eqb_refl. destruct (Nat.eqb_spec j i) as [-> | Nj]; [lra|]. rewrite (Hw j Lj Nj). lra.
      - unfold charge. apply Sum_ext. intros q _. unfold z. destruct (Nat.eqb_spec q i) as [-> | Nq]; [now rewrite Wi|reflexivity]. }
    destruct (Nat.eq_dec k i) as [-> | Nk]; [exact Wi|].
    assert (Zk : z k = 0).
    { apply Inj; [intros j Lj; apply Hz; cbn [nr fsys set_col] in Lj; congruence|cbn [nr fsys set_col]; congruence]. }
    unfold z in Zk. now rewrite (proj2 (Nat.eqb_neq _ _) Nk) in Zk.
  - intros Dt. unfold floating_matrix. rewrite Er.
    destruct (mapM_total (floating_row C) (seq 0 n)) as [rows E]; [|rewrite E; eexists; reflexivity].
    intros i I. apply in_seq in I. assert (Li : (i < n)%nat) by lia. unfold floating_row, inverse_mult. fold (fsys C i).
    destruct (injective_solves (fsys C i) (fun k => nmul (ent C k i) (nopp n1))) as [x Ex].
    + cbn. congruence.
    + intros z Hz. cbn [nr fsys set_col] in Hz |- *. rewrite Er in *.
      assert (Dw : forall k, (k < n)%nat -> (if (k =? i)%nat then 0 else z k) = 0).
      { intros k Lk. apply (Dt i (fun j => if (j =? i)%nat then 0 else z j) Li); [now rewrite Nat.eqb_refl| |exact Lk].
        intros j Lj Nj. specialize (Hz j Lj). rewrite (fsys_hom n C i z j Sq Li) in Hz. rewrite (proj2 (Nat.eqb_neq _ _) Nj) in Hz. lra. }
      intros k Lk. destruct (Nat.eq_dec k i) as [-> | Nk].
      * specialize (Hz i Li). rewrite (fsys_hom n C i z i Sq Li), Nat.eqb_refl in Hz.
        assert (charge C (fun j => if (j =? i)%nat then 0 else z j) i = 0); [|lra].
        unfold charge. apply Sum_zero. intros q Lq. rewrite Ec in Lq. rewrite (Dw q Lq). ring.
      * specialize (Dw k Lk). now rewrite (proj2 (Nat.eqb_neq _ _) Nk) in Dw.
    + rewrite Ex. eexists; reflexivity.
Qed.
Lemma renumbering_inverse n s : renumbering n s -> exists t, renumbering n t /\ (forall i, (i < n)%nat -> t (s i) = i) /\ (forall i, (i < n)%nat -> s (t i) = i).
Proof.
  intros P.
  set (t := fun j => match find (fun i => (s i =? j)%nat) (seq 0 n) with Some i => i | None => 0%nat end).
  assert (T : forall j, (j < n)%nat -> (t j < n)%nat /\ s (t j) = j).
  { intros j Lj. unfold t. destruct (find (fun i => (s i =? j)%nat) (seq 0 n)) as [i|] eqn:E.
    - apply find_some in E as (I & E). apply in_seq in I. apply Nat.eqb_eq in E. split; [lia|exact E].
    - exfalso. assert (I : In j (map s (seq 0 n))) by (eapply Permutation_in; [apply Permutation_sym, P|apply in_seq; lia]).
      apply in_map_iff in I as (i & Es & I). pose proof (find_none _ _ E i I) as N. cbn in N. apply Nat.eqb_neq in N. congruence. }
  assert (T1 : forall i, (i < n)%nat -> t (s i) = i).
  { intros i Li. pose proof (renumbering_lt n s i P Li) as Ls. destruct (T _ Ls) as (Lt & Et). now apply (renumbering_inj n s). }
  exists t. split; [|split; [exact T1|intros i Li; apply T, Li]].
  unfold renumbering. apply NoDup_Permutation_bis.
  - assert (G : forall l, NoDup l -> (forall x, In x l -> (x < n)%nat) -> NoDup (map t l)).
    { induction l as [|x l IH]; intros N H; [constructor|]. inversion N; subst. cbn. constructor; [|apply IH; auto; intros; apply H; now right].
      intros I. apply in_map_iff in I as (y & Ey & I). apply H2. replace x with y; [exact I|].
      destruct (T x (H x (or_introl eq_refl))) as (_ & <-). rewrite <- Ey. symmetry. apply T, H. now right. }
    apply G; [apply seq_NoDup|]. intros x I. apply in_seq in I. lia.
  - rewrite map_length. auto.
  - intros x I. apply in_map_iff in I as (y & <- & I). apply in_seq in I. apply in_seq. destruct (T y ltac:(lia)). lia.
Qed.
Lemma permuted_determined n s (C C' : matrix R) : renumbering n s -> square n C -> square n C' ->
  (forall i j, (i < n)%nat -> (j < n)%nat -> ent C' (s i) (s j) = ent C i j) -> determined n C -> determined n C'.
Proof.
  intros P [S1 S2] [S1' S2'] E Dt i w Li Wi Hw k Lk.
  destruct (renumbering_inverse n s P) as (t & Pt & Ts & St).
  assert (H : forall j, (j < n)%nat -> (fun a => w (s a)) j = 0).
  { apply (Dt (t i)); [now apply (renumbering_lt n)|cbn; now rewrite St|].
    intros j Lj Nj. rewrite <- (Hw (s j)).
    - unfold charge. rewrite S2, S2', <- (Sum_renumber n s (fun q => ent C' (s j) q * w q) P). apply Sum_ext. intros q Lq. now rewrite E.
    - now apply (renumbering_lt n).
    - intros Es. apply Nj. rewrite <- Es. symmetry. now apply Ts. }
  specialize (H (t k) (renumbering_lt n t k Pt Lk)). cbn in H. now rewrite St in H.
Qed.

(** ** Sums over the conductors *)
Lemma Rsum_nth {A} (l : list A) (f : A -> R) (a : A) : Rsum l f = Sum (List.length l) (fun i => f (nth i l a)).
Proof.
  induction l as [|x l IH]; [reflexivity|]. cbn [List.length]. rewrite Sum_shift, Rsum_cons. cbn [nth]. now rewrite IH.
Qed.
Lemma Rsum_renumbered {A} (l l' : list A) s (f f' : A -> R) : renumbering (List.length l) s -> List.length l' = List.length l ->
  (forall i p, nth_error l i = Some p -> exists p', nth_error l' (s i) = Some p' /\ f' p' = f p) -> Rsum l' f' = Rsum l f.
Proof.
  intros P L H. destruct l as [|a l0]; [destruct l'; [reflexivity|discriminate]|]. set (l := a :: l0) in *.
  rewrite (Rsum_nth l' f' a), (Rsum_nth l f a), L, <- (Sum_renumber _ s _ P). apply Sum_ext. intros i Li.
  destruct (nth_error l i) as [p|] eqn:E; [|apply nth_error_None in E; lia].
  destruct (H i p E) as (p' & E' & Ef). now rewrite (nth_error_nth l' (s i) a E'), (nth_error_nth l i a E).
Qed.

(** ** The average over the inner region *)
Definition media_of (m : model R) : list (string * Z) := map (fun d => (d_name d, d_attr d)) (dielectrics (mo_mats m)).
Definition inner_data (F : fem R) (s : solver R) (m : model R) (conds : list (pec R)) : list (string * (R * R)) :=
  map (fun nt => (fst nt, (getAveragePotentialInDomain F s (snd nt), total_area (mo_mesh m) (snd nt))))
      (filter (fun nt => (String.eqb (fst nt) "Vacuum_0" || negb (contains "Vacuum_" (fst nt)))%bool) (media_of m)) ++
  map (fun p => (p_name p, (getAveragePotentialInBoundary F s (p_attr p), p_area p))) conds.
Lemma inner_data_ok F s m conds : NoDup (all_names (mo_mats m)) -> in_order (mo_mats m) conds ->
  In "Vacuum_0"%string (map d_name (dielectrics (mo_mats m))) ->
  getInnerRegionAveragePotential m F s true =
    Ok (Rsum (inner_data F s m conds) (fun x => fst (snd x) * snd (snd x)) / Rsum (inner_data F s m conds) (fun x => snd (snd x))).
Proof.
  intros ND [Pc _] V. destruct (nodup_all_names _ ND) as (N1 & N2 & N3 & D1 & D2).
  assert (Em : map fst (media_of m) = map d_name (dielectrics (mo_mats m))) by (unfold media_of; rewrite map_map; reflexivity).
  apply inner_average; [exact ND|exact V| |].
  - unfold inner_data. rewrite map_app, !map_map. cbn [fst]. split.
    + apply nodup_app_intro.
      * assert (Nm : NoDup (map fst (media_of m))) by now rewrite Em. clear -Nm. induction (media_of m) as [|x l IH]; [constructor|].
        cbn [map] in Nm. inversion Nm as [|? ? Hx Hl]; subst. cbn [filter]. destruct (_ || _)%bool; [|auto]. cbn [map]. constructor; [|auto].
        intros I. apply Hx. apply in_map_iff in I as (y & Ey & I). apply filter_In in I as (I & _). rewrite <- Ey. now apply in_map.
      * eapply Permutation_NoDup; [apply Permutation_map, Permutation_sym, Pc|exact N1].
      * intros x I J. apply in_map_iff in I as (y & <- & I). apply filter_In in I as (I & _). apply (in_map fst) in I. rewrite Em in I.
        assert (J' : In (fst y) (map p_name (pecs (mo_mats m)))) by (eapply Permutation_in; [apply Permutation_map, Pc|exact J]).
        destruct (D1 _ J') as [_ X]. now apply X.
    + intros n. rewrite in_app_iff. split.
      * intros [I | I].
        -- apply in_map_iff in I as (y & <- & I). apply filter_In in I as (I & E). apply (in_map fst) in I. rewrite Em in I.
           apply Bool.orb_true_iff in E as [E | E]; [left; now apply String.eqb_eq|]. right. left. split; [exact I|].
           apply contains_false. now destruct (contains _ _).
        -- right. right. split; [reflexivity|]. eapply Permutation_in; [apply Permutation_map, Pc|exact I].
      * intros [-> | [(I & Nv) | (_ & I)]].
        -- left. rewrite <- Em in V. apply in_map_iff in V as (y & Ey & I). apply in_map_iff. exists y. split; [exact Ey|].
           apply filter_In. split; [exact I|]. rewrite Ey. reflexivity.
        -- left. rewrite <- Em in I. apply in_map_iff in I as (y & Ey & I). apply in_map_iff. exists y. split; [exact Ey|].
           apply filter_In. split; [exact I|]. apply Bool.orb_true_iff. right. rewrite Ey. apply contains_false in Nv. now rewrite Nv.
        -- right. eapply Permutation_in; [apply Permutation_map, Permutation_sym, Pc|exact I].
  - intros n v a I. unfold inner_data in I. apply in_app_or in I as [I | I].
    + apply in_map_iff in I as (y & Ey & I). injection Ey as <- <- <-. apply filter_In in I as (I & _). unfold media_of in I.
      apply in_map_iff in I as (d & <- & I). left. exists d. auto.
    + apply in_map_iff in I as (p & Ey & I). injection Ey as <- <- <-. right. exists p. split; [|auto]. eapply Permutation_in; [exact Pc|exact I].
Qed.

Section Cell.
  Variable dbg : bool.
  Variable femlib : mesh R -> Z -> fem R.
  Variable moment : R * R -> nat -> nat -> R * R -> R.
  Variables (s : nat -> nat) (m m' : model R) (o o' : driver_options) (d d' : driver R) (ops ops' : list dop) (conds conds' : list (pec R)).
  Hypothesis Rn : renumbered s m m' conds conds'.
  Hypothesis Si : same_inner_region s m m' conds conds'.
  Hypothesis Oo : o_order o' = o_order o.
  Hypothesis Om : o_multipolarExpansionOrder o' = o_multipolarExpansionOrder o.
  Hypothesis W : well_posed (femlib (mo_mesh m) (o_order o)) m.
  Hypothesis W0 : well_posed (femlib (mo_mesh m) (o_order o)) m'.
  Hypothesis B : built dbg femlib m o d.
  Hypothesis B' : built dbg femlib m' o' d'.
  Notation F := (femlib (mo_mesh m) (o_order o)).
  Notation N := (List.length conds).
  Notation Reply op := (reply dbg femlib moment op (after dbg femlib moment ops d)).
  Notation Reply' op := (reply dbg femlib moment op (after dbg femlib moment ops' d')).
  Let O := proj1 (rn_orders _ _ _ _ _ Rn).
  Let O' := proj2 (rn_orders _ _ _ _ _ Rn).
  Let EF : femlib (mo_mesh m') (o_order o') = F.
  Proof. now rewrite (rn_mesh _ _ _ _ _ Rn), Oo. Qed.
  Let W' : well_posed (femlib (mo_mesh m') (o_order o')) m'.
  Proof. rewrite EF. exact W0. Qed.
  Let Pn := rn_bijective _ _ _ _ _ Rn.

  Lemma same_media : media_of m' = media_of m.
  Proof.
    pose proof (rn_media _ _ _ _ _ Rn) as E. destruct Si as (E' & _). unfold media_of. revert E E'.
    generalize (dielectrics (mo_mats m')) (dielectrics (mo_mats m)). induction l as [|x l IH]; intros [|y l'] E E'; try discriminate; [reflexivity|].
    cbn [map] in *. injection E as E1 _ E2. injection E' as E3 E4. rewrite E1, E3. f_equal. now apply IH.
  Qed.
  Lemma inner_name' : In "Vacuum_0"%string (map d_name (dielectrics (mo_mats m'))).
  Proof. destruct Si as (E & I & _). now rewrite E. Qed.
  Lemma same_box : getBoundingBoxOfMaterial m' INNER_REGION_DEFAULT_NAME = getBoundingBoxOfMaterial m INNER_REGION_DEFAULT_NAME.
  Proof.
    pose proof same_media as Em. destruct Si as (E & I & _).
    assert (H : exists t, has_tag (mo_mats m) "Vacuum_0" t /\ has_tag (mo_mats m') "Vacuum_0" t).
    { apply in_map_iff in I as (x & Ex & I). exists (d_attr x).
      assert (Ix : In (d_name x, d_attr x) (media_of m)) by (unfold media_of; apply in_map_iff; eauto).
      rewrite <- Em in Ix. unfold media_of in Ix. apply in_map_iff in Ix as (y & Ey & Iy). injection Ey as E1 E2.
      split; right; right; [exists x; auto|exists y; split; [exact Iy|split; congruence]]. }
    destruct H as (t & H1 & H2). apply (buildNameToAttrMap_get _ _ _ (wp_names _ _ W)) in H1. apply (buildNameToAttrMap_get _ _ _ (wp_names _ _ W0)) in H2.
    unfold getBoundingBoxOfMaterial, mat_. change INNER_REGION_DEFAULT_NAME with "Vacuum_0"%string. rewrite H1, H2. cbn [bind].
    now rewrite (rn_mesh _ _ _ _ _ Rn).
  Qed.
  Lemma same_average (z z' : solver R) : s_phi z' = s_phi z ->
    getInnerRegionAveragePotential m' F z' true = getInnerRegionAveragePotential m F z true.
  Proof.
    intros Ep. rewrite (inner_data_ok F z m conds (wp_names _ _ W) O (proj1 (proj2 Si))), (inner_data_ok F z' m' conds' (wp_names _ _ W0) O' inner_name').
    assert (G : forall h : R * R -> R, Rsum (inner_data F z' m' conds') (fun x => h (snd x)) = Rsum (inner_data F z m conds) (fun x => h (snd x))).
    { intros h. unfold inner_data. rewrite !Rsum_app, !Rsum_map, same_media, (rn_mesh _ _ _ _ _ Rn). cbn [snd]. f_equal.
      - apply Rsum_ext. intros y _. unfold getAveragePotentialInDomain. now rewrite Ep.
      - apply (Rsum_renumbered conds conds' s); [exact Pn|exact (rn_length _ _ _ _ _ Rn)|]. intros i p Ei.
        destruct (rn_tags _ _ _ _ _ Rn i p Ei) as (p' & Ei' & Et). exists p'. split; [exact Ei'|].
        rewrite (proj2 (proj2 Si) i p p' Ei Ei'), Et. unfold getAveragePotentialInBoundary. now rewrite Ep. }
    rewrite (G (fun va => fst va * snd va)), (G (fun va => snd va)). reflexivity.
  Qed.
  Lemma same_charged ignore v v' (z z' : solver R) : conductor_problem (mo_mats m) ignore v (s_params z) -> conductor_problem (mo_mats m') ignore v' (s_params z') ->
    chargedBoundaries z' = chargedBoundaries z.
  Proof.
    intros [[S1 _] D1 N1 _ _] [[S2 _] D2 N2 _ _]. unfold chargedBoundaries. rewrite N1, N2. f_equal.
    assert (E : map (fun tx => (fst tx, 0)) (si_dirichlet (s_params z')) = map (fun tx => (fst tx, 0)) (si_dirichlet (s_params z))).
    { assert (Ms : forall l : list (Z * R), msorted l -> msorted (map (fun tx => (fst tx, 0)) l)).
      { intros l. unfold msorted. now rewrite map_map. }
      apply msorted_in_ext; auto. intros t x. rewrite !in_map_iff. split.
      - intros ([t1 x1] & E & I). cbn in E. injection E as <- <-. apply D2 in I as (I & _).
        apply (has_conductor' s m m' conds conds' Rn) in I.
        exists (t1, v t1). split; [reflexivity|]. apply D1. auto.
      - intros ([t1 x1] & E & I). cbn in E. injection E as <- <-. apply D1 in I as (I & _).
        apply (has_conductor s m m' conds conds' Rn) in I.
        exists (t1, v' t1). split; [reflexivity|]. apply D2. auto. }
    apply (f_equal (map fst)) in E. rewrite !map_map in E. cbn [fst] in E. exact E.
  Qed.
  Lemma same_center ignore v v' (z z' : solver R) c : conductor_problem (mo_mats m) ignore v (s_params z) -> conductor_problem (mo_mats m') ignore v' (s_params z') ->
    s_d z' = s_d z -> getCenterOfCharge F moment z = Ok c -> getCenterOfCharge F moment z' = Ok c.
  Proof.
    intros C C' Ed. pose proof (same_charged _ _ _ _ _ C C') as Ec. unfold getCenterOfCharge.
    assert (Po : Permutation (si_open (s_params z')) (si_open (s_params z))).
    { eapply Permutation_trans; [apply C'|]. rewrite (rn_open _ _ _ _ _ Rn). apply Permutation_sym, C. }
    destruct (si_open (s_params z)) as [|t [|? ?]] eqn:E; try discriminate.
    apply Permutation_sym, Permutation_length_1_inv in Po. rewrite Po. intros <-.
    unfold getTotalCharge, getChargeInBoundary, getChargeMomentComponent. rewrite Ed, Ec. reflexivity.
  Qed.
  Lemma same_multipoles ignore v v' (z z' : solver R) n ab : conductor_problem (mo_mats m) ignore v (s_params z) -> conductor_problem (mo_mats m') ignore v' (s_params z') ->
    s_d z' = s_d z -> getMultipolarCoefficients F moment z n = Ok ab -> getMultipolarCoefficients F moment z' n = Ok ab.
  Proof.
    intros C C' Ed E. pose proof (same_charged _ _ _ _ _ C C') as Ec. unfold getMultipolarCoefficients in *. apply bind_ok in E as (c & E1 & E).
    rewrite (same_center ignore v v' z z' c C C' Ed E1). cbn [bind]. rewrite <- E. f_equal. apply map_ext. intros k.
    unfold getChargeMomentComponent, getChargeInBoundary. rewrite Ed, Ec. reflexivity.
  Qed.

  (** The same field *)
  Lemma same_reconstruction ignore V V' x x' fr fr' (k : nat) :
    reconstruction F dbg moment m k ignore conds V x fr -> reconstruction F dbg moment m' k ignore conds' V' x' fr' ->
    (forall j, (j < N)%nat -> V' (s j) = V j) -> same_field s N fr fr'.
  Proof.
    intros Rx Rx' EV. destruct (rc_units _ _ _ _ _ _ _ _ _ _ Rx) as (us & Fu & Cx). destruct (rc_units _ _ _ _ _ _ _ _ _ _ Rx') as (us' & Fu' & Cx').
    assert (Lu : List.length us = N) by (symmetry; exact (Forall2_length _ _ _ Fu)).
    assert (Lu' : List.length us' = N) by (rewrite <- (rn_length _ _ _ _ _ Rn); symmetry; exact (Forall2_length _ _ _ Fu')).
    assert (Eu : forall j u, nth_error us j = Some u -> nth_error us' (s j) = Some u).
    { intros j u Ej. destruct (Forall2_nth_r _ _ _ j u Fu Ej) as (p & Ep & Up).
      destruct (rn_tags _ _ _ _ _ Rn j p Ep) as (p' & Ep' & Et).
      destruct (Forall2_nth _ _ _ (s j) p' Fu' Ep') as (u' & Eu' & Up'). rewrite Eu'. f_equal.
      rewrite Et in Up'. apply (unit_solution_unique F dbg m' ignore (p_attr p) u' u W0 Up').
      eapply same_unit; [exact Rn| |exact Up]. intros t y. eapply same_permittivity'; exact Rn. }
    assert (Es : forall (g : solution R -> list R) i, Sum N (fun j => V' j * entry (nth j (map g us') []) i) = Sum N (fun j => V j * entry (nth j (map g us) []) i)).
    { intros g i. rewrite <- (Sum_renumber N s _ Pn). apply Sum_ext. intros j Lj. rewrite (EV j Lj). f_equal. f_equal.
      destruct (nth_error us j) as [u|] eqn:Ej; [|apply nth_error_None in Ej; lia].
      rewrite (nth_error_nth (map g us) j [] (map_nth_error g _ _ Ej)).
      exact (nth_error_nth (map g us') (s j) [] (map_nth_error g _ _ (Eu j u Ej))). }
    assert (Ex : so_phi x' = so_phi x /\ so_d x' = so_d x).
    { destruct (rc_sized _ _ _ _ _ _ _ _ _ _ Rx) as (Z1 & _ & Z3), (rc_sized _ _ _ _ _ _ _ _ _ _ Rx') as (Z1' & _ & Z3').
      unfold combines in Cx, Cx'. rewrite Lu in Cx. rewrite Lu' in Cx'. split.
      - apply (nth_ext _ _ 0 0); [congruence|]. intros i _. destruct (Cx i) as (H & _), (Cx' i) as (H' & _). unfold entry in H, H' at 1.
        transitivity (Sum N (fun j => V' j * entry (nth j (map so_phi us') []) i)); [exact H'|]. rewrite (Es so_phi i). symmetry. exact H.
      - apply (nth_ext _ _ 0 0); [congruence|]. intros i _. destruct (Cx i) as (_ & _ & H), (Cx' i) as (_ & _ & H').
        transitivity (Sum N (fun j => V' j * entry (nth j (map so_d us') []) i)); [exact H'|]. rewrite (Es so_d i). symmetry. exact H. }
    destruct Ex as (Ephi & Ed).
    destruct (rc_values _ _ _ _ _ _ _ _ _ _ Rx) as (z & v & Ez & Cz & Ea & Ecc & Eab).
    destruct (rc_values _ _ _ _ _ _ _ _ _ _ Rx') as (z' & v' & Ez' & Cz' & Ea' & Ecc' & Eab').
    assert (E1 : s_phi z' = s_phi z) by (change (so_phi (getSolution z') = so_phi (getSolution z)); congruence).
    assert (E2 : s_d z' = s_d z) by (change (so_d (getSolution z') = so_d (getSolution z)); congruence).
    split.
    - rewrite (same_average z z' E1), Ea in Ea'. now injection Ea'.
    - rewrite (same_center ignore v v' z z' _ Cz Cz' E2 Ecc) in Ecc'. now injection Ecc'.
    - rewrite (same_multipoles ignore v v' z z' k _ Cz Cz' E2 Eab) in Eab'. now injection Eab'.
    - intros j w Lj I. rewrite (rc_potentials _ _ _ _ _ _ _ _ _ _ Rx) in I. apply in_map_iff in I as (j' & E & I).
      assert (Ej : j' = j) by (apply Nat2Z.inj; congruence). subst j'. assert (Ew : V j = w) by congruence.
      rewrite (rc_potentials _ _ _ _ _ _ _ _ _ _ Rx'). apply in_map_iff. exists (s j). split; [now rewrite (EV j Lj), Ew|].
      apply in_seq. rewrite (rn_length _ _ _ _ _ Rn). pose proof (renumbering_lt N s j Pn Lj). lia.
  Qed.

  Lemma one_boundary : List.length (openBoundaries (mo_mats m')) = List.length (openBoundaries (mo_mats m)).
  Proof. pose proof (f_equal (@List.length Z) (rn_open _ _ _ _ _ Rn)) as L. now rewrite !map_length in L. Qed.
  (** The floating potentials of one exist when those of the other do *)
  Lemma floating_exist e f w : determineOpenness dbg m = Ok Open -> Reply CallFloating = (Ok (VMatrices e f), w) ->
    exists e' f' w', Reply' CallFloating = (Ok (VMatrices e' f'), w').
  Proof.
    intros Eo E. assert (Eo' : determineOpenness dbg m' = Ok Open) by (rewrite <- Eo; eapply same_openness; exact Rn).
    assert (Lp : List.length (pecs (mo_mats m)) = N) by (destruct O as [P _]; symmetry; now apply Permutation_length).
    assert (Lp' : List.length (pecs (mo_mats m')) = N) by (destruct O' as [P _]; rewrite <- (rn_length _ _ _ _ _ Rn); symmetry; now apply Permutation_length).
    destruct (Nat.eq_dec N 1) as [L1 | L1].
    - destruct (built_solid dbg femlib _ _ _ W' B') as (c & Oc & _ & _). clear c Oc.
      pose proof (D_model dbg femlib moment Rmul0 m' o' d' ops' W' B') as Dm'.
      assert (Pc : List.length (nameToAttr_PEC (mo_mats m')) = 1%nat).
      { rewrite pec_count; [lia|]. destruct (nodup_all_names _ (wp_names _ _ W0)) as (X & _). exact X. }
      unfold reply, call, getFloatingPotentials, getFloatingPotentialsMatrix, cbind, cget, cret.
      rewrite Dm', Pc. cbn. rewrite Dm', Pc. cbn. do 3 eexists. reflexivity.
    - destruct (generalized_matrix dbg femlib moment m o d ops conds false Open W B O Eo ltac:(discriminate)) as (ge & we & Ee & _).
      destruct (generalized_matrix dbg femlib moment m o d ops conds true Open W B O Eo ltac:(discriminate)) as (gm & wm & Em & _).
      destruct (generalized_matrix dbg femlib moment m' o' d' ops' conds' false Open W' B' O' Eo' ltac:(discriminate)) as (ge' & we' & Ee' & _).
      destruct (generalized_matrix dbg femlib moment m' o' d' ops' conds' true Open W' B' O' Eo' ltac:(discriminate)) as (gm' & wm' & Em' & _).
      destruct (renumbered_g dbg femlib moment s m m' o o' d d' ops ops' conds conds' Rn Oo W W0 B B' _ _ _ _ _ Ee Ee') as (Se & Se' & Ge).
      destruct (renumbered_g dbg femlib moment s m m' o o' d d' ops ops' conds conds' Rn Oo W W0 B B' _ _ _ _ _ Em Em') as (Sm & Sm' & Gm).
      pose proof (reply_floating dbg femlib moment Rmul0 m o d ops W B ge gm we wm Open ltac:(rewrite Lp; exact L1) Eo ltac:(discriminate) Ee Em) as Q.
      rewrite E in Q. cbn [fst] in Q. symmetry in Q. apply bind_ok in Q as (x & Qx & Q). apply bind_ok in Q as (y & Qy & _).
      assert (Hx : is_ok (floating_matrix ge')).
      { apply (floating_iff N ge' Se'). apply (permuted_determined N s ge ge' Pn Se Se' Ge). apply (floating_iff N ge Se). eexists; exact Qx. }
      assert (Hy : is_ok (floating_matrix gm')).
      { apply (floating_iff N gm' Sm'). apply (permuted_determined N s gm gm' Pn Sm Sm' Gm). apply (floating_iff N gm Sm). eexists; exact Qy. }
      destruct Hx as (x' & Hx), Hy as (y' & Hy).
      pose proof (reply_floating dbg femlib moment Rmul0 m' o' d' ops' W' B' ge' gm' we' wm' Open ltac:(rewrite Lp'; exact L1) Eo' ltac:(discriminate) Ee' Em') as Q'.
      cbv iota in Q'. rewrite Hx, Hy in Q'. cbn [bind] in Q'. destruct (Reply' CallFloating) as [r w']. cbn [fst] in Q'. subst r. eauto.
  Qed.
  Lemma incell_box (D0 : driver R) p w (M : model R) : dr_model D0 = M -> reply dbg femlib moment CallInCell D0 = (Ok (VInCell p), w) ->
    getBoundingBoxOfMaterial M INNER_REGION_DEFAULT_NAME = Ok (ic_box p).
  Proof.
    intros <- E. apply reply_incell_inv in E as (d1 & w1 & E). unfold getInCellPotentials in E. rewrite cbind_get in E.
    apply clift_inv in E as (op & w2 & Eo & E). destruct (openness_eqb op Open) eqn:Eb; cbn [negb] in E; [|discriminate].
    apply clift_inv in E as (b & w3 & E1 & E). apply cbind_inv in E as (e & d2 & w4 & w5 & Ee & E).
    apply cbind_inv in E as (g & d3 & w6 & w7 & Eg & E). unfold cret in E. injection E as <- _ _. exact E1.
  Qed.
  Lemma unique_field g i V V' : square N g -> is_ok (floating_matrix g) \/ N = 1%nat -> (i < N)%nat -> floats g i V -> floats g i V' ->
    forall j, (j < N)%nat -> V' j = V j.
  Proof.
    intros Sq [Ok1 | L1] Li Fl Fl' j Lj.
    - destruct Ok1 as (fp & Efp). destruct (floating_matrix_ok g N Sq fp Efp) as (_ & U). destruct (U i Li) as (_ & U').
      rewrite (U' V Fl j Lj), (U' V' Fl' j Lj). reflexivity.
    - assert (j = i) by lia. subst j. destruct Fl as [-> _], Fl' as [-> _]. reflexivity.
  Qed.
  Lemma renumbered_incell p w : Reply CallInCell = (Ok (VInCell p), w) ->
    exists p' w', Reply' CallInCell = (Ok (VInCell p'), w') /\ ic_box p' = ic_box p /\
    forall (ignore : bool) i fr, In (Z.of_nat i, fr) (fields_of p ignore) ->
      exists fr', In (Z.of_nat (s i), fr') (fields_of p' ignore) /\ same_field s N fr fr'.
  Proof.
    intros E.
    assert (Ex : exists p w, Reply CallInCell = (Ok (VInCell p), w)) by eauto.
    apply (reply_incell_iff dbg femlib moment m o d ops W B) in Ex as (Eo & Nm & One & e & f & wf & Ef).
    assert (Eo' : determineOpenness dbg m' = Ok Open) by (rewrite <- Eo; eapply same_openness; exact Rn).
    destruct (floating_exist e f wf Eo Ef) as (e' & f' & wf' & Ef').
    assert (Ex' : exists p w, Reply' CallInCell = (Ok (VInCell p), w)).
    { apply (reply_incell_iff dbg femlib moment m' o' d' ops' W' B'). split; [exact Eo'|]. split; [left; exact inner_name'|].
      split; [rewrite one_boundary; exact One|eauto]. }
    destruct Ex' as (p' & w' & E'). exists p', w'. split; [exact E'|]. split.
    { pose proof (incell_box _ p w m (D_model dbg femlib moment Rmul0 m o d ops W B) E) as B1.
      pose proof (incell_box _ p' w' m' (D_model dbg femlib moment Rmul0 m' o' d' ops' W' B') E') as B2.
      rewrite same_box, B1 in B2. injection B2 as <-. reflexivity. }
    intros ignore i fr I.
    destruct (incell_fields dbg femlib moment m o d ops conds W B O p w E) as (_ & H).
    destruct (incell_fields dbg femlib moment m' o' d' ops' conds' W' B' O' p' w' E') as (_ & H').
    destruct (H ignore) as (K & g & wg & V & Eg & Sg & Hi). destruct (H' ignore) as (K' & g' & wg' & V' & Eg' & Sg' & Hi').
    rewrite (rn_length _ _ _ _ _ Rn) in *.
    destruct (Hi i fr I) as (Li & Fl & x & Rx).
    pose proof (renumbering_lt N s i Pn Li) as Ls.
    assert (J : exists fr', In (Z.of_nat (s i), fr') (fields_of p' ignore)).
    { assert (J : In (Z.of_nat (s i)) (map fst (fields_of p' ignore))) by (rewrite K'; apply in_map, in_seq; lia).
      apply in_map_iff in J as ([k fr'] & Ek & J). cbn in Ek. subst k. eauto. }
    destruct J as (fr' & J). exists fr'. split; [exact J|].
    destruct (Hi' (s i) fr' J) as (_ & Fl' & x' & Rx'). rewrite EF, Om in Rx'.
    apply (same_reconstruction ignore (V i) (V' (s i)) x x' fr fr' _ Rx Rx').
    destruct (renumbered_g dbg femlib moment s m m' o o' d d' ops ops' conds conds' Rn Oo W W0 B B' _ _ _ _ _ Eg Eg') as (_ & _ & Gg).
    pose proof (permuted_floats N s g g' Pn Sg Sg' Gg i (V' (s i)) Li Fl') as Fp.
    apply (unique_field g i (V i) (fun k => V' (s i) (s k)) Sg); auto.
    destruct (Nat.eq_dec N 1) as [L1 | L1]; [right; exact L1|left].
    assert (Lp : List.length (pecs (mo_mats m)) = N) by (destruct O as [P _]; symmetry; now apply Permutation_length).
    destruct (generalized_matrix dbg femlib moment m o d ops conds false Open W B O Eo ltac:(discriminate)) as (ge & we & Ee & _).
    destruct (generalized_matrix dbg femlib moment m o d ops conds true Open W B O Eo ltac:(discriminate)) as (gm & wm & Em & _).
    pose proof (reply_floating dbg femlib moment Rmul0 m o d ops W B ge gm we wm Open ltac:(rewrite Lp; exact L1) Eo ltac:(discriminate) Ee Em) as Q.
    rewrite Ef in Q. cbn [fst] in Q. symmetry in Q. apply bind_ok in Q as (y & Qy & Q). apply bind_ok in Q as (y2 & Qy2 & _).
    destruct ignore.
    - pose proof (eq_trans (eq_sym Em) Eg) as Q0. injection Q0 as -> _. eexists; exact Qy2.
    - pose proof (eq_trans (eq_sym Ee) Eg) as Q0. injection Q0 as -> _. eexists; exact Qy.
  Qed.
End Cell.
