(** Proofs about models (C02, C03, C51, C52). *)
From Verif Require Import Prelude StdMap Materials Graph ModelM Parser Driver SpecInput SpecModel ListLemmas.
From Coq Require Import Permutation Sorted Reals Lra.

Section Gen.
  Context {T : Type} `{Num T}.

  Lemma nodup_all_names (m : materials T) : NoDup (all_names m) ->
    NoDup (map p_name (pecs m)) /\ NoDup (map o_name (openBoundaries m)) /\
    NoDup (map d_name (dielectrics m)) /\
    (forall n, In n (map p_name (pecs m)) -> ~ In n (map o_name (openBoundaries m)) /\ ~ In n (map d_name (dielectrics m))) /\
    (forall n, In n (map o_name (openBoundaries m)) -> ~ In n (map d_name (dielectrics m))).
  Proof.
    unfold all_names. intros ND.
    assert (App : forall (A : Type) (l1 l2 : list A), NoDup (l1 ++ l2) -> NoDup l1 /\ NoDup l2 /\ (forall x, In x l1 -> ~ In x l2)).
    { clear. intros A l1; induction l1 as [|x l1 IH]; intros l2 ND; cbn in *.
      - repeat split; auto. constructor.
      - inversion ND as [|? ? N1 N2]; subst. destruct (IH _ N2) as (A1 & A2 & A3).
        repeat split; auto.
        + constructor; auto. intro; apply N1, in_or_app; auto.
        + intros y [<-|I] J; [apply N1, in_or_app; auto|]. now apply (A3 y). }
    apply App in ND as (N1 & N2 & D1). apply App in N2 as (N2 & N3 & D2).
    repeat split; auto; intros I; specialize (D1 n H0); apply D1, in_or_app; auto.
  Qed.

  Lemma map_fst_pairs {A} (f : A -> string) (g : A -> Z) l : map fst (map (fun x => (f x, g x)) l) = map f l.
  Proof. rewrite map_map. reflexivity. Qed.
  Lemma in_pairs {A} (f : A -> string) (g : A -> Z) l n t :
    In (n, t) (map (fun x => (f x, g x)) l) <-> exists x, In x l /\ f x = n /\ g x = t.
  Proof.
    rewrite in_map_iff. split.
    - intros (x & [= <- <-] & I). eauto.
    - intros (x & I & <- & <-). eauto.
  Qed.

  Lemma nameToAttr_PEC_in (m : materials T) n t : NoDup (map p_name (pecs m)) ->
    In (n, t) (nameToAttr_PEC m) <-> exists p, In p (pecs m) /\ p_name p = n /\ p_attr p = t.
  Proof.
    intros ND. unfold nameToAttr_PEC. rewrite mset_all_in_iff by now rewrite map_fst_pairs. apply in_pairs.
  Qed.
  Lemma nameToAttr_Open_in (m : materials T) n t : NoDup (map o_name (openBoundaries m)) ->
    In (n, t) (nameToAttr_Open m) <-> exists p, In p (openBoundaries m) /\ o_name p = n /\ o_attr p = t.
  Proof.
    intros ND. unfold nameToAttr_Open. rewrite mset_all_in_iff by now rewrite map_fst_pairs. apply in_pairs.
  Qed.
  Lemma nameToAttr_Diel_in (m : materials T) n t : NoDup (map d_name (dielectrics m)) ->
    In (n, t) (nameToAttr_Diel m) <-> exists p, In p (dielectrics m) /\ d_name p = n /\ d_attr p = t.
  Proof.
    intros ND. unfold nameToAttr_Diel. rewrite mset_all_in_iff by now rewrite map_fst_pairs. apply in_pairs.
  Qed.
  Lemma keys_PEC (m : materials T) n : In n (map fst (nameToAttr_PEC m)) <-> In n (map p_name (pecs m)).
  Proof. unfold nameToAttr_PEC. rewrite in_keys_mset_all, map_fst_pairs. cbn. tauto. Qed.
  Lemma keys_Open (m : materials T) n : In n (map fst (nameToAttr_Open m)) <-> In n (map o_name (openBoundaries m)).
  Proof. unfold nameToAttr_Open. rewrite in_keys_mset_all, map_fst_pairs. cbn. tauto. Qed.
  Lemma keys_Diel (m : materials T) n : In n (map fst (nameToAttr_Diel m)) <-> In n (map d_name (dielectrics m)).
  Proof. unfold nameToAttr_Diel. rewrite in_keys_mset_all, map_fst_pairs. cbn. tauto. Qed.
  Lemma sorted_PEC (m : materials T) : msorted (nameToAttr_PEC m).
  Proof. apply mset_all_sorted. constructor. Qed.
  Lemma sorted_Open (m : materials T) : msorted (nameToAttr_Open m).
  Proof. apply mset_all_sorted. constructor. Qed.
  Lemma sorted_Diel (m : materials T) : msorted (nameToAttr_Diel m).
  Proof. apply mset_all_sorted. constructor. Qed.

  Lemma buildNameToAttrMap_sorted (m : materials T) : msorted (buildNameToAttrMap m).
  Proof. unfold buildNameToAttrMap. apply fold_mins_sorted, fold_mins_sorted, sorted_PEC. Qed.

  Lemma buildNameToAttrMap_in (m : materials T) n t : NoDup (all_names m) ->
    (In (n, t) (buildNameToAttrMap m) <-> has_tag m n t).
  Proof.
    intros ND. destruct (nodup_all_names m ND) as (N1 & N2 & N3 & D1 & D2).
    unfold buildNameToAttrMap.
    assert (Dop : forall k', In k' (map fst (nameToAttr_Open m)) -> ~ In k' (map fst (nameToAttr_PEC m))).
    { intros k I J. apply keys_Open in I. apply keys_PEC in J. destruct (D1 k J) as [X _]. contradiction. }
    assert (Sop : msorted (fold_left (fun r kv => mins (fst kv) (snd kv) r) (nameToAttr_Open m) (nameToAttr_PEC m)))
      by apply fold_mins_sorted, sorted_PEC.
    rewrite fold_mins_in; [|exact Sop|apply msorted_nodup, sorted_Diel|].
    - rewrite fold_mins_in; [|apply sorted_PEC|apply msorted_nodup, sorted_Open|exact Dop].
      rewrite nameToAttr_PEC_in, nameToAttr_Open_in, nameToAttr_Diel_in by assumption.
      unfold has_tag. tauto.
    - intros k I J. apply keys_Diel in I.
      apply in_map_iff in J as ([k1 v1] & E & J). cbn in E; subst k1.
      apply fold_mins_in in J; [|apply sorted_PEC|apply msorted_nodup, sorted_Open|exact Dop].
      destruct J as [J|J]; apply (in_map fst) in J; cbn in J.
      + apply keys_Open in J. now apply (D2 k).
      + apply keys_PEC in J. now apply (D1 k).
  Qed.
  Lemma buildNameToAttrMap_get (m : materials T) n t : NoDup (all_names m) ->
    (mget n (buildNameToAttrMap m) = Some t <-> has_tag m n t).
  Proof.
    intros ND. rewrite mget_in_iff by apply buildNameToAttrMap_sorted. now apply buildNameToAttrMap_in.
  Qed.

  (** ** C03 *)
  Lemma present_iff (l : list (element T)) t : present l t = true <-> exists e, In e l /\ e_attr e = t.
  Proof.
    unfold present. rewrite existsb_exists. split; intros (e & I & E); exists e; split; auto;
      now apply Z.eqb_eq.
  Qed.
  Lemma emplace_present_keys (l : list (element T)) all r k :
    In k (map fst (emplace_present l all r)) <->
    In k (map fst r) \/ exists t, In (k, t) all /\ present l t = true.
  Proof.
    unfold emplace_present. revert r; induction all as [|[n a] all IH]; intros r; cbn.
    - split; [auto|]. intros [I|(t & [] & _)]; exact I.
    - rewrite IH. destruct (present l a) eqn:P.
      + rewrite in_keys_mins. split.
        * intros [[->|I]|(t & I & Q)]; eauto.
        * intros [I|(t & [[= -> ->]|I] & Q)]; eauto.
      + split.
        * intros [I|(t & I & Q)]; eauto.
        * intros [I|(t & [[= -> ->]|I] & Q)]; eauto; congruence.
  Qed.

  Definition keepb (ms : mesh T) (t : Z) : bool := present (m_elems ms) t || present (m_bdr ms) t.
  Lemma keepb_iff ms t : keepb ms t = true <-> in_mesh ms t.
  Proof.
    unfold keepb, in_mesh. rewrite orb_true_iff, !present_iff. split.
    - intros [(e & I & E)|(e & I & E)]; exists e; auto.
    - intros (e & [I|I] & E); eauto.
  Qed.

  Lemma inMesh_count (ms : mesh T) (mats : materials T) n t : NoDup (all_names mats) -> has_tag mats n t ->
    mcount n (emplace_present (m_elems ms) (buildNameToAttrMap mats)
               (emplace_present (m_bdr ms) (buildNameToAttrMap mats) [])) = keepb ms t.
  Proof.
    intros ND Ht. apply (buildNameToAttrMap_in mats n t ND) in Ht.
    assert (U : forall t', In (n, t') (buildNameToAttrMap mats) -> t' = t).
    { intros t' I. apply mget_in_iff in I; [|apply buildNameToAttrMap_sorted].
      apply mget_in_iff in Ht; [|apply buildNameToAttrMap_sorted]. congruence. }
    apply eq_true_iff_eq. rewrite mcount_in, !emplace_present_keys. unfold keepb. rewrite orb_true_iff. cbn.
    split.
    - intros [[[]|(t' & I & P)]|(t' & I & P)]; apply U in I; subst; auto.
    - intros [P|P]; eauto.
  Qed.

  Lemma mkModel_materials (ms : mesh T) (mats : materials T) (keep : Z -> bool) :
    NoDup (all_names mats) -> (forall t, keep t = true <-> in_mesh ms t) ->
    mo_mesh (mkModel ms mats) = ms /\
    pecs (mo_mats (mkModel ms mats)) = filter (fun p => keep (p_attr p)) (pecs mats) /\
    openBoundaries (mo_mats (mkModel ms mats)) = filter (fun o => keep (o_attr o)) (openBoundaries mats) /\
    dielectrics (mo_mats (mkModel ms mats)) = filter (fun d => keep (d_attr d)) (dielectrics mats).
  Proof.
    intros ND Hk. assert (K : forall t, keep t = keepb ms t).
    { intros t. apply eq_true_iff_eq. now rewrite Hk, keepb_iff. }
    split; [reflexivity|]. cbn.
    repeat split; apply filter_ext_in; intros x I; rewrite K; apply inMesh_count; auto.
    - left; eauto.
    - right; left; eauto.
    - right; right; eauto.
  Qed.

  Lemma filter_twice {A} (f : A -> bool) l : filter f (filter f l) = filter f l.
  Proof.
    induction l as [|x l IH]; [reflexivity|]. cbn. destruct (f x) eqn:E; [|exact IH].
    cbn. rewrite E. now rewrite IH.
  Qed.
  Lemma filter_map_sub {A} (g : A -> string) (f : A -> bool) l n :
    In n (map g (filter f l)) -> In n (map g l).
  Proof. rewrite !in_map_iff. intros (x & E & I). apply filter_In in I as [I _]. eauto. Qed.
  Lemma filter_nodup_names {A} (g : A -> string) (f : A -> bool) l :
    NoDup (map g l) -> NoDup (map g (filter f l)).
  Proof.
    induction l as [|x l IH]; intros N; [constructor|]. cbn in *. inversion N; subst.
    destruct (f x); auto. cbn. constructor; auto. intros I. apply filter_map_sub in I. contradiction.
  Qed.
  Lemma nodup_app_intro {A} (l1 l2 : list A) : NoDup l1 -> NoDup l2 -> (forall x, In x l1 -> ~ In x l2) -> NoDup (l1 ++ l2).
  Proof.
    induction l1 as [|x l1 IH]; intros N1 N2 D; cbn; auto. inversion N1; subst. constructor.
    - intros I. apply in_app_or in I as [I|I]; [contradiction|]. apply (D x); [now left|exact I].
    - apply IH; auto. intros y I. apply D. now right.
  Qed.
  Lemma mkModel_names (ms : mesh T) (mats : materials T) : NoDup (all_names mats) -> NoDup (all_names (mo_mats (mkModel ms mats))).
  Proof.
    intros ND. destruct (nodup_all_names _ ND) as (N1 & N2 & N3 & D1 & D2).
    unfold all_names. cbn [mkModel mo_mats filterOutMaterialsNotPresentInMesh removeMaterialsNotInList pecs openBoundaries dielectrics].
    apply nodup_app_intro; [now apply filter_nodup_names| |].
    - apply nodup_app_intro; try now apply filter_nodup_names.
      intros n I J. apply filter_map_sub in I, J. now apply (D2 n).
    - intros n I J. apply filter_map_sub in I. apply in_app_or in J as [J|J]; apply filter_map_sub in J;
        destruct (D1 n I); auto.
  Qed.

  Lemma mkModel_idem (ms : mesh T) (mats : materials T) : NoDup (all_names mats) ->
    mkModel ms (mo_mats (mkModel ms mats)) = mkModel ms mats.
  Proof.
    intros ND. pose proof (mkModel_materials ms mats (keepb ms) ND (keepb_iff ms)) as (_ & A1 & A2 & A3).
    pose proof (mkModel_materials ms _ (keepb ms) (mkModel_names ms mats ND) (keepb_iff ms)) as (_ & B1 & B2 & B3).
    rewrite A1 in B1. rewrite A2 in B2. rewrite A3 in B3. rewrite filter_twice in B1. rewrite filter_twice in B2. rewrite filter_twice in B3.
    destruct (mkModel ms (mo_mats (mkModel ms mats))) as [m1 ms1 g1] eqn:E1.
    destruct (mkModel ms mats) as [m2 ms2 g2] eqn:E2.
    injection E1 as F1 F2 F3. injection E2 as G1 G2 G3. cbn [mo_mats] in *.
    destruct m1, m2. cbn in *. congruence.
  Qed.

  (** ** C02 *)
  Lemma zinsert_perm x l : Permutation (zinsert x l) (x :: l).
  Proof.
    induction l as [|y l IH]; cbn; [reflexivity|]. destruct (x <=? y)%Z; [reflexivity|].
    rewrite IH. constructor.
  Qed.
  Lemma zsort_perm l : Permutation (zsort l) l.
  Proof. induction l as [|x l IH]; cbn; [constructor|]. rewrite zinsert_perm. now constructor. Qed.
  Lemma zinsert_sorted x l : StronglySorted Z.le l -> StronglySorted Z.le (zinsert x l).
  Proof.
    induction l as [|y l IH]; intros S; cbn; [repeat constructor|].
    inversion S as [|? ? S1 F1]; subst. destruct (Z.leb_spec x y).
    - constructor; auto. constructor; auto. eapply Forall_impl; [|exact F1]. cbn; lia.
    - constructor; auto. eapply Permutation_Forall; [symmetry; apply zinsert_perm|].
      constructor; [lia|auto].
  Qed.
  Lemma zsort_sorted l : StronglySorted Z.le (zsort l).
  Proof. induction l; cbn; [constructor|]. now apply zinsert_sorted. Qed.

  Lemma sorted_perm_eq l1 l2 : StronglySorted Z.le l1 -> StronglySorted Z.le l2 -> Permutation l1 l2 -> l1 = l2.
  Proof.
    revert l2; induction l1 as [|x l1 IH]; intros l2 S1 S2 P.
    - apply Permutation_nil in P. congruence.
    - destruct l2 as [|y l2]; [apply Permutation_sym, Permutation_nil in P; discriminate|].
      inversion S1 as [|? ? S1' F1]; inversion S2 as [|? ? S2' F2]; subst.
      assert (x = y).
      { assert (Ix : In x (y :: l2)) by (eapply Permutation_in; [exact P|now left]).
        assert (Iy : In y (x :: l1)) by (eapply Permutation_in; [symmetry; exact P|now left]).
        rewrite Forall_forall in F1, F2.
        destruct Ix as [->|Ix]; [reflexivity|]. destruct Iy as [->|Iy]; [reflexivity|].
        apply F1 in Iy. apply F2 in Ix. lia. }
      subst y. f_equal. apply IH; auto. eapply Permutation_cons_inv; exact P.
  Qed.

  Lemma consecutive_seq l k : (match l with a :: _ => a = Z.of_nat k | [] => True end) ->
    (consecutive_ids l = true <-> l = map Z.of_nat (seq k (List.length l))).
  Proof.
    revert k; induction l as [|a l IH]; intros k Ha; [cbn; tauto|]. subst a.
    destruct l as [|b l]; [cbn; tauto|].
    change (consecutive_ids (Z.of_nat k :: b :: l)) with ((b =? Z.of_nat k + 1)%Z && consecutive_ids (b :: l)).
    rewrite andb_true_iff, Z.eqb_eq. cbn [List.length seq map]. split.
    - intros [Eb C]. f_equal. apply (IH (S k)); [lia|exact C].
    - intros [= Eb El]. split; [lia|]. apply (IH (S k)); [lia|]. cbn [List.length seq map]. now rewrite Eb, <- El.
  Qed.

  Lemma seq_Zsorted n k : StronglySorted Z.le (map Z.of_nat (seq k n)).
  Proof.
    revert k; induction n as [|n IH]; intros k; cbn; constructor; auto.
    apply Forall_forall. intros z I. apply in_map_iff in I as (j & <- & I). apply in_seq in I. lia.
  Qed.

  (** Numbers of the conductors in the order of their names. *)
  Lemma conductor_ids_sorted (m : materials T) ids : NoDup (map p_name (pecs m)) ->
    conductor_ids m ids ->
    exists ids', mapM (fun na => getMaterialIdFromName (fst na)) (nameToAttr_PEC m) = Ok ids' /\ Permutation ids ids'.
  Proof.
    intros ND C.
    assert (E : mapM (fun na : string * Z => getMaterialIdFromName (fst na)) (map (fun p => (p_name p, p_attr p)) (pecs m)) = Ok ids).
    { apply mapM_ok. unfold conductor_ids in C. clear ND. induction C; cbn; constructor; auto. }
    eapply mapM_perm; [|exact E]. symmetry. apply mset_all_permutation. now rewrite map_fst_pairs.
  Qed.

  Lemma ids_not_ok (m : materials T) ids' : NoDup (map p_name (pecs m)) ->
    mapM (fun na => getMaterialIdFromName (fst na)) (nameToAttr_PEC m) = Ok ids' ->
    exists ids, conductor_ids m ids /\ Permutation ids ids'.
  Proof.
    intros ND E.
    assert (P : Permutation (nameToAttr_PEC m) (map (fun p => (p_name p, p_attr p)) (pecs m))).
    { apply mset_all_permutation. now rewrite map_fst_pairs. }
    destruct (mapM_perm _ _ _ _ P E) as (ids & E2 & P2). exists ids; split; [|now symmetry].
    apply mapM_ok in E2. unfold conductor_ids. clear -E2. revert ids E2; induction (pecs m); intros ids E2; cbn in *; inversion E2; subst; constructor; auto.
  Qed.

  Lemma checkConductors_ids (m : model T) ids : NoDup (map p_name (pecs (mo_mats m))) ->
    conductor_ids (mo_mats m) ids ->
    (checkConductors m = Ok tt <-> ids <> [] /\ numbered_from_zero ids) /\
    (checkConductors m <> Ok tt -> exists msg, checkConductors m = Throw (RuntimeError msg)).
  Proof.
    intros ND C. destruct (conductor_ids_sorted _ _ ND C) as (ids' & E & P).
    unfold checkConductors. rewrite E. cbn [bind].
    assert (P2 : Permutation ids (zsort ids')) by (rewrite zsort_perm; exact P).
    pose proof (zsort_sorted ids') as S.
    destruct (zsort ids') as [|i0 l] eqn:Z.
    - apply Permutation_sym, Permutation_nil in P2. subst ids.
      split; [split; [discriminate|tauto]|eauto].
    - assert (Len : List.length ids = List.length (i0 :: l)) by now apply Permutation_length.
      assert (N : numbered_from_zero ids <-> i0 :: l = map Z.of_nat (seq 0 (List.length (i0 :: l)))).
      { unfold numbered_from_zero. rewrite Len. split; intros H1.
        - apply sorted_perm_eq; auto using seq_Zsorted. eapply Permutation_trans; [symmetry; exact P2|exact H1].
        - eapply Permutation_trans; [exact P2|]. rewrite <- H1. reflexivity. }
      assert (Ne : ids <> []) by (intros ->; discriminate Len).
      destruct (Z.eqb_spec i0 0) as [->|N0]; cbn [negb].
      + destruct (consecutive_ids (0%Z :: l)) eqn:K; cbn [negb].
        * split; [|congruence]. split; [|auto]. intros _. split; [exact Ne|]. apply N.
          now apply (consecutive_seq (0%Z :: l) 0).
        * split; [|eauto]. split; [discriminate|]. intros [_ H1]. apply N in H1.
          apply (consecutive_seq (0%Z :: l) 0) in H1; [congruence|reflexivity].
      + split; [|eauto]. split; [discriminate|]. intros [_ H1]. apply N in H1. cbn in H1. congruence.
  Qed.

  (** When some number is undefined, checking it is undefined behaviour. *)
  Lemma mapM_never_throws {A B} (f : A -> outcome B) l e :
    (forall x e, f x <> Throw e) -> mapM f l <> Throw e.
  Proof.
    intros Hf. induction l as [|x l IH]; cbn; [discriminate|].
    destruct (f x) eqn:E; cbn; [|now apply Hf in E|discriminate].
    destruct (mapM f l) eqn:E2; cbn; try discriminate. congruence.
  Qed.

  (** The map from conductor numbers to tags. *)
  Lemma idToAttr_fold l res ids :
    Forall2 (fun (p : pec T) i => getMaterialIdFromName (p_name p) = Ok i) l ids ->
    foldM (fun res p => let* id := getMaterialIdFromName (p_name p) in
                        Ok (mset id (p_attr p) res)) l res =
    Ok (mset_all (combine ids (map p_attr l)) res).
  Proof.
    intros F; revert res; induction F as [|p i l ids E F IH]; intros res; [reflexivity|].
    cbn. rewrite E. cbn. rewrite IH. reflexivity.
  Qed.
  Lemma idToAttr_ids (m : materials T) ids : conductor_ids m ids ->
    idToAttr_PEC m = Ok (mset_all (combine ids (map p_attr (pecs m))) []).
  Proof. apply idToAttr_fold. Qed.
End Gen.

(** ** C51 *)
Open Scope R_scope. Open Scope list_scope.
Definition tight (b : box R) (pts : list (R * R)) : Prop :=
  Forall (inside b) pts /\
  (exists p, In p pts /\ fst p = fst (b_min b)) /\ (exists p, In p pts /\ fst p = fst (b_max b)) /\
  (exists p, In p pts /\ snd p = snd (b_min b)) /\ (exists p, In p pts /\ snd p = snd (b_max b)).

Lemma nmin_spec (a b : R) : nmin a b <= a /\ nmin a b <= b /\ (nmin a b = a \/ nmin a b = b).
Proof. unfold nmin; cbn. unfold Rltb. destruct (Rlt_dec b a); lra. Qed.
Lemma nmax_spec (a b : R) : a <= nmax a b /\ b <= nmax a b /\ (nmax a b = a \/ nmax a b = b).
Proof. unfold nmax; cbn. unfold Rltb. destruct (Rlt_dec a b); lra. Qed.

Lemma grow_tight b pts p b' : tight b pts -> grow (Some b) p = Some b' -> tight b' (pts ++ [p]).
Proof.
  intros (I & X1 & X2 & Y1 & Y2) [= <-]. destruct p as [px py].
  pose proof (nmin_spec (fst (b_min b)) px) as A1. pose proof (nmax_spec (fst (b_max b)) px) as A2.
  pose proof (nmin_spec (snd (b_min b)) py) as A3. pose proof (nmax_spec (snd (b_max b)) py) as A4.
  unfold tight; cbn [b_min b_max fst snd].
  repeat split.
  - apply Forall_app; split.
    + eapply Forall_impl; [|exact I]. intros q. unfold inside. cbn [b_min b_max fst snd]. lra.
    + constructor; [|constructor]. unfold inside. cbn [b_min b_max fst snd]. lra.
  - destruct A1 as (_ & _ & [E|E]); rewrite E.
    + destruct X1 as (q & J & <-). exists q; split; auto. apply in_or_app; auto.
    + exists (px, py); split; auto. apply in_or_app; right; now left.
  - destruct A2 as (_ & _ & [E|E]); rewrite E.
    + destruct X2 as (q & J & <-). exists q; split; auto. apply in_or_app; auto.
    + exists (px, py); split; auto. apply in_or_app; right; now left.
  - destruct A3 as (_ & _ & [E|E]); rewrite E.
    + destruct Y1 as (q & J & <-). exists q; split; auto. apply in_or_app; auto.
    + exists (px, py); split; auto. apply in_or_app; right; now left.
  - destruct A4 as (_ & _ & [E|E]); rewrite E.
    + destruct Y2 as (q & J & <-). exists q; split; auto. apply in_or_app; auto.
    + exists (px, py); split; auto. apply in_or_app; right; now left.
Qed.
Lemma tight_single p : tight {| b_min := p; b_max := p |} [p].
Proof.
  unfold tight; cbn. repeat split; try (exists p; auto; fail).
  constructor; [|constructor]. unfold inside; cbn; lra.
Qed.
Lemma fold_grow_tight pts : forall b seen, tight b seen ->
  exists b', fold_left grow pts (Some b) = Some b' /\ tight b' (seen ++ pts).
Proof.
  induction pts as [|p pts IH]; intros b seen Ht.
  - exists b. rewrite app_nil_r. auto.
  - cbn [fold_left]. destruct (grow (Some b) p) as [b1|] eqn:E; [|discriminate].
    destruct (IH b1 (seen ++ [p])) as (b' & E' & T'); [eapply grow_tight; eauto|].
    exists b'; split; auto. now rewrite <- app_assoc in T'.
Qed.
Lemma fold_grow pts : match fold_left grow pts None with
                      | Some b => tight b pts | None => pts = [] end.
Proof.
  destruct pts as [|p pts]; [reflexivity|]. cbn [fold_left grow].
  destruct (fold_grow_tight pts _ _ (tight_single p)) as (b & -> & Ht). exact Ht.
Qed.
Definition tag_points (ms : mesh R) (t : Z) : list (R * R) :=
  flat_map (fun e => if (e_attr e =? t)%Z then map (m_coord ms) (e_verts e) else []) (m_elems ms).
Lemma bbox_points ms t : bbox_of ms t = fold_left grow (tag_points ms t) None.
Proof.
  unfold bbox_of, tag_points. generalize (@None (box R)). induction (m_elems ms) as [|e l IH]; intros b; [reflexivity|].
  cbn [fold_left flat_map]. rewrite fold_left_app, IH. destruct (e_attr e =? t)%Z; [|reflexivity].
  f_equal. clear. revert b; induction (e_verts e); intros b; cbn; auto.
Qed.
Lemma in_tag_points ms t p : In p (tag_points ms t) <-> exists v, vertex_of_tag ms t v /\ m_coord ms v = p.
Proof.
  unfold tag_points, vertex_of_tag. rewrite in_flat_map. split.
  - intros (e & I & J). destruct (Z.eqb_spec (e_attr e) t) as [E|]; [|destruct J].
    apply in_map_iff in J as (v & <- & J). eauto 10.
  - intros (v & (e & I & E & J) & <-). exists e; split; auto. rewrite <- E, Z.eqb_refl. now apply in_map.
Qed.
Lemma bounding_box (m : model R) name t v0 :
  NoDup (all_names (mo_mats m)) -> has_tag (mo_mats m) name t -> vertex_of_tag (mo_mesh m) t v0 ->
  exists b, getBoundingBoxOfMaterial m name = Ok b /\
    (forall v, vertex_of_tag (mo_mesh m) t v -> inside b (m_coord (mo_mesh m) v)) /\
    (forall b', (forall v, vertex_of_tag (mo_mesh m) t v -> inside b' (m_coord (mo_mesh m) v)) ->
                inside b' (b_min b) /\ inside b' (b_max b)).
Proof.
  intros ND Ht Hv. apply (buildNameToAttrMap_get _ _ _ ND) in Ht.
  unfold getBoundingBoxOfMaterial, mat_. rewrite Ht. cbn [bind]. rewrite bbox_points.
  pose proof (fold_grow (tag_points (mo_mesh m) t)) as F.
  destruct (fold_left grow (tag_points (mo_mesh m) t) None) as [b|].
  - exists b. split; [reflexivity|]. destruct F as (I & X1 & X2 & Y1 & Y2). rewrite Forall_forall in I.
    split; [intros v Hv'; apply I, in_tag_points; eauto|].
    intros b' Hb'. assert (B : forall p, In p (tag_points (mo_mesh m) t) -> inside b' p).
    { intros p J. apply in_tag_points in J as (v & J & <-). auto. }
    destruct X1 as (p1 & J1 & E1). destruct X2 as (p2 & J2 & E2).
    destruct Y1 as (p3 & J3 & E3). destruct Y2 as (p4 & J4 & E4).
    pose proof (B _ J1) as K1. pose proof (B _ J2) as K2. pose proof (B _ J3) as K3. pose proof (B _ J4) as K4.
    unfold inside in *. lra.
  - exfalso. assert (J : In (m_coord (mo_mesh m) v0) (tag_points (mo_mesh m) t)) by (apply in_tag_points; eauto).
    rewrite F in J. destruct J.
Qed.
Lemma bounding_box_unknown (m : model R) name :
  NoDup (all_names (mo_mats m)) -> (forall t, ~ has_tag (mo_mats m) name t) ->
  getBoundingBoxOfMaterial m name = Throw OutOfRange.
Proof.
  intros ND Hn. unfold getBoundingBoxOfMaterial, mat_.
  destruct (mget name (buildNameToAttrMap (mo_mats m))) as [t|] eqn:E; [|reflexivity].
  apply (buildNameToAttrMap_get _ _ _ ND) in E. now apply Hn in E.
Qed.

Lemma bbox_none {T} `{Num T} (ms : mesh T) t : (forall v, ~ vertex_of_tag ms t v) -> bbox_of ms t = None.
Proof.
  intros N. unfold bbox_of. assert (G : forall l, (forall e, In e l -> In e (m_elems ms)) ->
    fold_left (fun b e => if (e_attr e =? t)%Z then fold_left (fun b v => grow b (m_coord ms v)) (e_verts e) b else b) l None = None).
  { induction l as [|e l IH]; intros S; [reflexivity|]. cbn [fold_left].
    destruct (Z.eqb_spec (e_attr e) t) as [E|_]; [|apply IH; intros x I; apply S; now right].
    destruct (e_verts e) as [|v vs] eqn:Ev; [apply IH; intros x I; apply S; now right|].
    destruct (N v). exists e. split; [apply S; now left|]. split; [exact E|]. rewrite Ev. now left. }
  apply G. auto.
Qed.
Lemma bounding_box_empty (m : model PrimFloat.float) name t :
  NoDup (all_names (mo_mats m)) -> has_tag (mo_mats m) name t -> (forall v, ~ vertex_of_tag (mo_mesh m) t v) ->
  getBoundingBoxOfMaterial m name =
    Ok {| b_min := (PrimFloat.infinity, PrimFloat.infinity); b_max := (PrimFloat.neg_infinity, PrimFloat.neg_infinity) |}.
Proof.
  intros ND Ht Hv. apply (buildNameToAttrMap_get _ _ _ ND) in Ht.
  unfold getBoundingBoxOfMaterial, mat_. rewrite Ht. cbn [bind]. rewrite (bbox_none _ _ Hv). reflexivity.
Qed.

(** ** C52 *)
Lemma sum_areas_total ms t : sum_areas (m_elems ms) t = total_area ms t.
Proof.
  unfold sum_areas, total_area. cbn [n0 nadd RNum].
  assert (G : forall l a, fold_left (fun a e => if (t =? e_attr e)%Z then a + e_vol e else a) l a =
    a + fold_right Rplus 0 (map e_vol (filter (fun e => (e_attr e =? t)%Z) l))).
  { induction l as [|e l IH]; intros a; cbn; [lra|]. rewrite IH, (Z.eqb_sym t).
    destruct (e_attr e =? t)%Z; cbn; lra. }
  rewrite G. lra.
Qed.

Lemma area_dielectric (m : model R) d : NoDup (all_names (mo_mats m)) -> In d (dielectrics (mo_mats m)) ->
  getAreaOfMaterial m (d_name d) = Ok (total_area (mo_mesh m) (d_attr d)).
Proof.
  intros ND I. unfold getAreaOfMaterial.
  assert (Ht : has_tag (mo_mats m) (d_name d) (d_attr d)) by (right; right; eauto).
  apply (buildNameToAttrMap_get _ _ _ ND) in Ht. rewrite Ht.
  unfold isDomainMaterial. assert (C : mcount (d_name d) (nameToAttr_Diel (mo_mats m)) = true).
  { apply mcount_in, keys_Diel. now apply in_map. }
  rewrite C. now rewrite sum_areas_total.
Qed.
Lemma not_domain (mats : materials R) n : ~ In n (map d_name (dielectrics mats)) -> isDomainMaterial mats n = false.
Proof.
  intros N. unfold isDomainMaterial. apply not_true_iff_false. rewrite mcount_in, keys_Diel. exact N.
Qed.
Lemma find_pec (l : list (pec R)) p : NoDup (map p_name l) -> In p l ->
  find (fun q => String.eqb (p_name q) (p_name p)) l = Some p.
Proof.
  induction l as [|q l IH]; intros ND I; [destruct I|]. cbn in *. inversion ND as [|? ? N1 N2]; subst.
  destruct (String.eqb_spec (p_name q) (p_name p)) as [E|E].
  - destruct I as [->|I]; [reflexivity|]. exfalso. apply N1. rewrite E. now apply in_map.
  - destruct I as [->|I]; [congruence|]. auto.
Qed.
Lemma area_conductor (m : model R) p : NoDup (all_names (mo_mats m)) -> In p (pecs (mo_mats m)) ->
  getAreaOfMaterial m (p_name p) = Ok (p_area p).
Proof.
  intros ND I. destruct (nodup_all_names _ ND) as (N1 & N2 & N3 & D1 & D2). unfold getAreaOfMaterial.
  assert (Ht : has_tag (mo_mats m) (p_name p) (p_attr p)) by (left; eauto).
  apply (buildNameToAttrMap_get _ _ _ ND) in Ht. rewrite Ht.
  rewrite not_domain by (apply D1; now apply in_map).
  unfold get_PEC_by_name. now rewrite find_pec.
Qed.
Lemma area_open (m : model R) o : NoDup (all_names (mo_mats m)) -> In o (openBoundaries (mo_mats m)) ->
  is_throw (getAreaOfMaterial m (o_name o)).
Proof.
  intros ND I. destruct (nodup_all_names _ ND) as (N1 & N2 & N3 & D1 & D2). unfold getAreaOfMaterial.
  assert (Ht : has_tag (mo_mats m) (o_name o) (o_attr o)) by (right; left; eauto).
  apply (buildNameToAttrMap_get _ _ _ ND) in Ht. rewrite Ht.
  rewrite not_domain by (apply D2; now apply in_map).
  unfold get_PEC_by_name.
  destruct (find (fun p => String.eqb (p_name p) (o_name o)) (pecs (mo_mats m))) as [p|] eqn:E.
  - apply find_some in E as [J E]. apply String.eqb_eq in E. exfalso.
    assert (J' : In (o_name o) (map p_name (pecs (mo_mats m)))) by (rewrite <- E; now apply in_map).
    destruct (D1 _ J') as [X _]. apply X. now apply in_map.
  - eexists; reflexivity.
Qed.
Lemma area_unknown (m : model R) name : NoDup (all_names (mo_mats m)) ->
  ~ In name (all_names (mo_mats m)) -> is_throw (getAreaOfMaterial m name).
Proof.
  intros ND N. unfold getAreaOfMaterial.
  destruct (mget name (buildNameToAttrMap (mo_mats m))) as [t|] eqn:E; [|eexists; reflexivity].
  exfalso. apply (buildNameToAttrMap_get _ _ _ ND) in E. apply N. unfold all_names. rewrite !in_app_iff, !in_map_iff.
  destruct E as [(x & I & <- & _)|[(x & I & <- & _)|(x & I & <- & _)]]; eauto 10.
Qed.

(** Areas of distinct tags do not overlap. *)
Lemma areas_disjoint (ms : mesh R) ts : NoDup ts -> Forall (fun e => 0 <= e_vol e) (m_elems ms) ->
  fold_right Rplus 0 (map (total_area ms) ts) <= fold_right Rplus 0 (map e_vol (m_elems ms)).
Proof.
  intros ND F. unfold total_area. induction F as [|e l He F IH].
  - cbn. clear. induction ts; cbn in *; lra.
  - cbn [map filter fold_right].
    assert (G : fold_right Rplus 0 (map (fun t => fold_right Rplus 0
      (map e_vol (if (e_attr e =? t)%Z then e :: filter (fun e0 => (e_attr e0 =? t)%Z) l else filter (fun e0 => (e_attr e0 =? t)%Z) l))) ts)
      <= e_vol e + fold_right Rplus 0 (map (fun t => fold_right Rplus 0 (map e_vol (filter (fun e0 => (e_attr e0 =? t)%Z) l))) ts)
      /\ (~ In (e_attr e) ts -> fold_right Rplus 0 (map (fun t => fold_right Rplus 0
      (map e_vol (if (e_attr e =? t)%Z then e :: filter (fun e0 => (e_attr e0 =? t)%Z) l else filter (fun e0 => (e_attr e0 =? t)%Z) l))) ts)
      = fold_right Rplus 0 (map (fun t => fold_right Rplus 0 (map e_vol (filter (fun e0 => (e_attr e0 =? t)%Z) l))) ts))).
    { clear IH. induction ND as [|t ts N ND IH]; cbn [map fold_right]; [split; [lra|auto]|].
      destruct IH as [I1 I2]. destruct (Z.eqb_spec (e_attr e) t) as [E|E].
      - subst t. split; [|intros X; exfalso; apply X; now left]. rewrite I2 by exact N. cbn [map fold_right]. lra.
      - split; [lra|]. intros X. rewrite I2; [lra|]. intros I; apply X; now right. }
    lra.
Qed.
