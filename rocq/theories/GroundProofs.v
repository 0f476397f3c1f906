(** Grounds of the domains (C18), and the domains of a model as a whole (C15, C16). *)
From Verif Require Import Prelude StdMap Graph Materials ModelM Domain ListLemmas SpecGraph SpecDomain
  GraphProofs SplitProofs CycleProofs ComponentProofs TreeProofs DomainProofs.
From Coq Require Import Permutation Relations Sorted.

Definition same_shape (x y : Z * domain) : Prop :=
  fst x = fst y /\ dm_conductors (snd x) = dm_conductors (snd y) /\
  dm_elems (snd x) = dm_elems (snd y) /\ dm_bdr (snd x) = dm_bdr (snd y).
Definition shape (l1 l2 : list (Z * domain)) : Prop := Forall2 same_shape l1 l2.

Lemma shape_refl l : shape l l.
Proof. induction l as [|x l IH]; constructor; auto. repeat split. Qed.
Lemma shape_sym l1 l2 : shape l1 l2 -> shape l2 l1.
Proof. induction 1 as [|x y l1 l2 S F IH]; constructor; auto. unfold same_shape in *. intuition. Qed.
Lemma shape_trans l1 l2 l3 : shape l1 l2 -> shape l2 l3 -> shape l1 l3.
Proof.
  intros A; revert l3; induction A as [|x y l1 l2 S F IH]; intros l3 B; inversion B as [|? z ? l4 S2 F2]; subst; constructor; auto.
  - unfold same_shape in *. intuition congruence.
  - now apply IH.
Qed.
Lemma shape_keys l1 l2 : shape l1 l2 -> map fst l1 = map fst l2.
Proof. induction 1 as [|x y l1 l2 (S & _) F IH]; cbn; congruence. Qed.
Lemma shape_in l1 l2 id d : shape l1 l2 -> In (id, d) l2 ->
  exists d0, In (id, d0) l1 /\ same_shape (id, d0) (id, d).
Proof.
  intros F I. induction F as [|[i x] [j y] l1 l2 S F IH]; [destruct I|]. destruct I as [E|I].
  - injection E as -> ->. pose proof S as S'. destruct S' as (E & _). cbn in E; subst i. exists x. split; [now left|auto].
  - destruct (IH I) as (d0 & I0 & S0). exists d0; split; auto. now right.
Qed.
Lemma shape_get l1 l2 id : shape l1 l2 ->
  match mget id l1, mget id l2 with
  | Some a, Some b => same_shape (id, a) (id, b)
  | None, None => True
  | _, _ => False
  end.
Proof.
  induction 1 as [|[i x] [j y] l1 l2 S F IH]; cbn; auto. pose proof S as (E & R). cbn in E; subst j.
  destruct (oequiv id i) eqn:Q; auto. apply oequiv_eq in Q; subst. exact S.
Qed.
Lemma shape_mset id d d' l : msorted l -> mget id l = Some d -> same_shape (id, d) (id, d') -> shape l (mset id d' l).
Proof.
  intros S G Sh. induction l as [|[k x] l IH]; [discriminate|]. apply msorted_cons in S as [S F]. cbn in *.
  destruct (Z.ltb_spec id k) as [L|L].
  - exfalso. unfold oequiv in G; cbn in G. assert (negb (id <? k) && negb (k <? id) = false)%Z as X by
      (apply andb_false_iff; rewrite !negb_false_iff; lia).
    rewrite X in G. apply mget_Some_in, (in_map fst), F in G. unfold olt in G; cbn in G. lia.
  - unfold oequiv in G; cbn in G. destruct (Z.ltb_spec k id) as [L2|L2].
    + rewrite andb_false_r in G. constructor; [repeat split|apply IH; auto].
    + assert (id = k) by lia. subst k. assert (negb (id <? id) && true = true)%Z as X by (rewrite Z.ltb_irrefl; auto).
      cbn in X, G. rewrite X in G. injection G as ->. constructor; [auto|]. apply shape_refl.
Qed.
Lemma shape_sorted l1 l2 : shape l1 l2 -> msorted l1 -> msorted l2.
Proof. intros S. unfold msorted. now rewrite (shape_keys _ _ S). Qed.
Lemma shape_ground0 l : shape l (ground0 l).
Proof.
  unfold ground0. induction l as [|[i d] l IH]; cbn; constructor; auto.
  unfold same_shape; cbn. destruct (smem 0%Z (dm_conductors d)); repeat split.
Qed.
Lemma shape_has l1 l2 id c : shape l1 l2 -> (has_conductor l1 id c <-> has_conductor l2 id c).
Proof.
  assert (X : forall l1 l2, shape l1 l2 -> has_conductor l2 id c -> has_conductor l1 id c).
  { intros a b S (d & I & C). destruct (shape_in _ _ _ _ S I) as (d0 & I0 & _ & E & _). exists d0. split; auto.
    cbn in E. now rewrite E. }
  intros S; split; apply X; auto using shape_sym.
Qed.
Lemma shape_map l1 l2 : shape l1 l2 -> domain_map l1 -> domain_map l2.
Proof.
  intros S [A B]. split; [now rewrite <- (shape_keys _ _ S)|].
  intros id d I. destruct (shape_in _ _ _ _ S I) as (d0 & I0 & _ & E & _). cbn in E. rewrite <- E. eauto.
Qed.

(** ** The loop over the edges *)
Definition ground_from (dbg : bool) (ds : list (Z * domain)) (a : Z) (d' : domain) : Prop :=
  exists da rest, mget a ds = Some da /\
    sinter (dm_conductors da) (dm_conductors d') = dm_ground d' :: rest /\ (dbg = true -> rest = []).
Lemma ground_from_shape dbg l1 l2 a d : shape l1 l2 -> ground_from dbg l2 a d -> ground_from dbg l1 a d.
Proof.
  intros S (da & rest & G & E & D). pose proof (shape_get _ _ a S) as X. rewrite G in X.
  destruct (mget a l1) as [da0|] eqn:G0; [|contradiction]. exists da0, rest. split; auto.
  destruct X as (_ & X & _). cbn in X. now rewrite X.
Qed.
Lemma ground_step_ok dbg ds a b ds' : msorted ds -> ground_step dbg ds (a, b) = Ok ds' ->
  shape ds ds' /\ (forall x, x <> b -> mget x ds' = mget x ds) /\
  exists d', mget b ds' = Some d' /\ ground_from dbg ds a d'.
Proof.
  intros S E. unfold ground_step in E; cbn in E.
  destruct (mget a ds) as [d1|] eqn:G1; [|discriminate]. destruct (mget b ds) as [d2|] eqn:G2; [|discriminate].
  destruct (sinter (dm_conductors d1) (dm_conductors d2)) as [|c rest] eqn:Ec.
  { apply bind_ok in E as (u & _ & E). discriminate. }
  apply bind_ok in E as (u & A & E). injection E as <-.
  split; [|split].
  - apply (shape_mset b d2); auto. repeat split.
  - intros x N. now apply mget_mset_other.
  - exists (set_ground d2 c). split; [apply mget_mset_same|]. exists d1, rest. split; auto. split; auto.
    intros ->. unfold assert_ in A. cbn in A. destruct rest; [reflexivity|discriminate].
Qed.
Lemma ground_fold dbg es : forall ds ds', msorted ds -> foldM (ground_step dbg) es ds = Ok ds' ->
  shape ds ds' /\
  (forall b, ~ In b (map snd es) -> mget b ds' = mget b ds) /\
  (forall b d', In b (map snd es) -> mget b ds' = Some d' ->
     exists l1 a l2, es = l1 ++ (a, b) :: l2 /\ ~ In b (map snd l2) /\ ground_from dbg ds a d').
Proof.
  induction es as [|[a b] es IH]; intros ds ds' S E; cbn in E.
  - injection E as <-. split; [apply shape_refl|]. split; auto. intros b d' [].
  - apply bind_ok in E as (ds1 & E1 & E).
    destruct (ground_step_ok _ _ _ _ _ S E1) as (S1 & O1 & d1 & G1 & F1).
    destruct (IH _ _ (shape_sorted _ _ S1 S) E) as (S2 & O2 & F2).
    split; [eapply shape_trans; eauto|]. split.
    + cbn. intros x N. rewrite O2 by tauto. apply O1. intros ->; tauto.
    + cbn. intros x d' I G. destruct (in_dec Z.eq_dec x (map snd es)) as [J|J].
      * destruct (F2 x d' J G) as (l1 & a' & l2 & -> & N & F). exists ((a, b) :: l1), a', l2.
        split; auto. split; auto. eapply ground_from_shape; eauto.
      * destruct I as [<-|I]; [|contradiction]. rewrite O2 in G by auto. rewrite G1 in G. injection G as <-.
        exists [], a, es. auto.
Qed.
Lemma ground_fold_total dbg es : forall ds, msorted ds ->
  (forall a b, In (a, b) es -> exists d1 d2, mget a ds = Some d1 /\ mget b ds = Some d2 /\
     exists c rest, sinter (dm_conductors d1) (dm_conductors d2) = c :: rest /\ (dbg = true -> rest = [])) ->
  exists ds', foldM (ground_step dbg) es ds = Ok ds'.
Proof.
  induction es as [|[a b] es IH]; intros ds S P; cbn; [eauto|].
  destruct (P a b (or_introl eq_refl)) as (d1 & d2 & G1 & G2 & c & rest & Ec & D).
  unfold ground_step at 1; cbn. rewrite G1, G2, Ec. cbn.
  assert (assert_ dbg (List.length rest =? 0)%nat = Ok tt) as ->.
  { unfold assert_. destruct dbg; auto. now rewrite (D eq_refl). }
  cbn. apply IH; [now apply mset_sorted|]. intros x y I.
  assert (Sh : shape ds (mset b (set_ground d2 c) ds)) by (apply (shape_mset b d2); auto; repeat split).
  destruct (P x y (or_intror I)) as (e1 & e2 & H1 & H2 & c' & rest' & E' & D').
  pose proof (shape_get _ _ x Sh) as X1. rewrite H1 in X1. pose proof (shape_get _ _ y Sh) as X2. rewrite H2 in X2.
  destruct (mget x (mset b (set_ground d2 c) ds)) as [f1|]; [|contradiction].
  destruct (mget y (mset b (set_ground d2 c) ds)) as [f2|]; [|contradiction].
  exists f1, f2. split; auto. split; auto. exists c', rest'.
  destruct X1 as (_ & X1 & _). destruct X2 as (_ & X2 & _). cbn in X1, X2. now rewrite <- X1, <- X2.
Qed.

(** ** The domains of a model *)
Section Build.
  Context {T : Type} `{Num T}.
  Lemma raw_inv dbg (mo : model T) raw : rawDomains dbg mo = Ok raw ->
    determineOpenness dbg mo = Ok Closed /\
    exists g parts ds0, buildMeshGraph (mo_mesh mo) = Ok g /\ split g = Ok parts /\
      Forall2 (fun part d => domain_of_part (mo_mesh mo) (pecs (mo_mats mo)) part = Ok d) parts ds0 /\
      raw = map (fun p => (Z.of_nat (fst p), snd p)) (enum ds0).
  Proof.
    unfold rawDomains. intros E. apply bind_ok in E as (o & Eo & E).
    destruct (openness_eqb o Closed) eqn:Q; cbn in E; [|discriminate].
    assert (o = Closed) by (destruct o; cbn in Q; congruence). subst o. split; auto.
    apply bind_ok in E as (g & Eg & E). apply bind_ok in E as (parts & Ep & E). apply bind_ok in E as (ds0 & Ed & E).
    injection E as <-. exists g, parts, ds0. split; auto. split; auto. split; auto. now apply mapM_ok.
  Qed.
  Lemma numbered_keys {A} (l : list A) : map fst (map (fun p => (Z.of_nat (fst p), snd p)) (enum l)) = map Z.of_nat (seq 0 (List.length l)).
  Proof. rewrite map_map. cbn. rewrite <- enum_fst, map_map. reflexivity. Qed.
  Lemma numbered_increasing n : forall k, increasing (map Z.of_nat (seq k n)).
  Proof.
    induction n as [|n IH]; intros k; cbn [seq map]; [exact I|]. specialize (IH (S k)).
    destruct n; cbn [seq map] in *; [exact I|]. split; [lia|exact IH].
  Qed.
  Lemma numbered_in {A} (l : list A) id d :
    In (id, d) (map (fun p => (Z.of_nat (fst p), snd p)) (enum l)) <-> exists k, id = Z.of_nat k /\ nth_error l k = Some d.
  Proof.
    rewrite in_map_iff. split.
    - intros ([k x] & [= <- <-] & I). apply in_enum in I. eauto.
    - intros (k & -> & E). exists (k, d). split; auto. now apply in_enum.
  Qed.

  (** What is known of every domain, whatever its ground. *)
  Record described (m : mesh T) (ps : list (pec T)) (parts : list digraph) (ds : list (Z * domain)) : Prop := {
    de_keys : map fst ds = map Z.of_nat (seq 0 (List.length parts));
    de_all : forall k part, nth_error parts k = Some part -> exists d, In (Z.of_nat k, d) ds;
    de_part : forall id d, In (id, d) ds -> exists k part, id = Z.of_nat k /\ nth_error parts k = Some part /\
      let vs := getVertices part in
      dm_elems d = domain_elems m vs /\ ssorted (dm_conductors d) /\ ssorted (dm_bdr d) /\
      (forall b, In b (dm_bdr d) <-> exists p, In p ps /\ In b (getBdrElemsInDomain (p_attr p) vs m)) /\
      (forall c, In c (dm_conductors d) <-> exists p, In p ps /\ getMaterialIdFromName (p_name p) = Ok c /\
                                             getBdrElemsInDomain (p_attr p) vs m <> []) }.
  Lemma described_shape m ps parts d1 d2 : shape d1 d2 -> described m ps parts d1 -> described m ps parts d2.
  Proof.
    intros S D. destruct D as [K A P]. split.
    - now rewrite <- (shape_keys _ _ S).
    - intros k part E. destruct (A k part E) as (d & I). destruct (shape_in _ _ _ _ (shape_sym _ _ S) I) as (d' & I' & _). eauto.
    - intros id d I. destruct (shape_in _ _ _ _ S I) as (d0 & I0 & _ & E1 & E2 & E3). cbn in E1, E2, E3.
      destruct (P id d0 I0) as (k & part & -> & Ek & X). exists k, part. split; auto. split; auto.
      now rewrite <- E1, <- E2, <- E3.
  Qed.
  Lemma raw_described dbg (mo : model T) raw : rawDomains dbg mo = Ok raw ->
    exists g parts, buildMeshGraph (mo_mesh mo) = Ok g /\ split g = Ok parts /\
      described (mo_mesh mo) (pecs (mo_mats mo)) parts raw /\ forall id d, In (id, d) raw -> dm_ground d = (-1)%Z.
  Proof.
    intros E. destruct (raw_inv _ _ _ E) as (_ & g & parts & ds0 & Eg & Ep & F & ->).
    exists g, parts. split; auto. split; auto. pose proof (Forall2_length _ _ _ F) as L.
    assert (G : forall id d, In (id, d) (map (fun p => (Z.of_nat (fst p), snd p)) (enum ds0)) ->
      exists k part, id = Z.of_nat k /\ nth_error parts k = Some part /\ domain_of_part (mo_mesh mo) (pecs (mo_mats mo)) part = Ok d).
    { intros id d I. apply numbered_in in I as (k & -> & Ek).
      assert (Lk : (k < List.length parts)%nat) by (rewrite L; apply nth_error_Some; congruence).
      destruct (nth_error parts k) as [part|] eqn:Epk; [|apply nth_error_Some in Epk; auto; contradiction].
      destruct (Forall2_nth _ _ _ _ _ F Epk) as (d' & Ed & D). rewrite Ek in Ed. injection Ed as <-. eauto. }
    split.
    - split.
      + now rewrite numbered_keys, L.
      + intros k part Ek. destruct (Forall2_nth _ _ _ _ _ F Ek) as (d & Ed & _). exists d.
        apply numbered_in. eauto.
      + intros id d I. destruct (G id d I) as (k & part & -> & Ek & D). exists k, part. split; auto. split; auto.
        apply domain_of_part_spec in D. tauto.
    - intros id d I. destruct (G id d I) as (k & part & -> & Ek & D). apply domain_of_part_spec in D. tauto.
  Qed.
  Lemma described_map m ps parts ds : described m ps parts ds -> domain_map ds.
  Proof.
    intros [K A P]. split.
    - rewrite K. apply numbered_increasing.
    - intros id d I. destruct (P id d I) as (k & part & _ & _ & _ & S & _). now apply increasing_sorted.
  Qed.

  Lemma build_inv dbg (mo : model T) ds : buildDomains dbg mo = Ok ds ->
    exists raw tree, rawDomains dbg mo = Ok raw /\ mkDomainTree dbg (ground0 raw) = Ok tree /\
      foldM (ground_step dbg) (getEdgesAsPairs tree) (ground0 raw) = Ok ds /\
      msorted (ground0 raw) /\ shape raw (ground0 raw) /\ shape raw ds.
  Proof.
    unfold buildDomains. intros E. apply bind_ok in E as (raw & Er & E). apply bind_ok in E as (tree & Et & E).
    exists raw, tree. split; auto. split; auto. split; auto.
    destruct (raw_described _ _ _ Er) as (g & parts & _ & _ & D & _).
    assert (S : msorted (ground0 raw)).
    { eapply shape_sorted; [apply shape_ground0|]. unfold msorted. apply (increasing_sorted (map fst raw)).
      apply (described_map _ _ _ _ D). }
    split; auto. split; [apply shape_ground0|].
    eapply shape_trans; [apply shape_ground0|]. now destruct (ground_fold _ _ _ _ S E).
  Qed.
  Lemma build_described dbg (mo : model T) ds : buildDomains dbg mo = Ok ds ->
    exists g parts, buildMeshGraph (mo_mesh mo) = Ok g /\ split g = Ok parts /\
      described (mo_mesh mo) (pecs (mo_mats mo)) parts ds.
  Proof.
    intros E. destruct (build_inv _ _ _ E) as (raw & tree & Er & _ & _ & _ & _ & S).
    destruct (raw_described _ _ _ Er) as (g & parts & Eg & Ep & D & _). exists g, parts. split; auto. split; auto.
    eapply described_shape; eauto.
  Qed.
End Build.
