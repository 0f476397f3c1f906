(** Model of the ordered containers of the C++ standard library that the code iterates over:
    std::map, std::set and std::multimap as association lists sorted by key. *)
From Verif Require Import Prelude.
From Coq Require Import Sorted Permutation.

(** std::less<K>. *)
Class Ord (K : Type) := { oltb : K -> K -> bool }.
#[global] Instance OrdZ : Ord Z := { oltb := Z.ltb }.
#[global] Instance OrdNat : Ord nat := { oltb := Nat.ltb }.
(** std::string::operator< is lexicographic on unsigned bytes, as is String.ltb. *)
#[global] Instance OrdString : Ord string := { oltb := String.ltb }.

Section Map.
  Context {K V : Type} `{Ord K}.

  (** Keys are the same when neither is less than the other. *)
  Definition oequiv (a b : K) : bool := andb (negb (oltb a b)) (negb (oltb b a)).

  (** m.find(k) *)
  Fixpoint mget (k : K) (m : list (K * V)) : option V :=
    match m with
    | [] => None
    | (k', v) :: r => if oequiv k k' then Some v else mget k r
    end.

  Definition mcount (k : K) (m : list (K * V)) : bool :=
    match mget k m with Some _ => true | None => false end.

  (** m.at(k) *)
  Definition mat_ (k : K) (m : list (K * V)) : outcome V :=
    match mget k m with Some v => Ok v | None => Throw OutOfRange end.

  (** m[k] = v *)
  Fixpoint mset (k : K) (v : V) (m : list (K * V)) : list (K * V) :=
    match m with
    | [] => [(k, v)]
    | (k', v') :: r =>
        if oltb k k' then (k, v) :: (k', v') :: r
        else if oltb k' k then (k', v') :: mset k v r
        else (k', v) :: r
    end.

  (** m.emplace(k,v), m.insert({k,v}): no effect if the key is present. *)
  Fixpoint mins (k : K) (v : V) (m : list (K * V)) : list (K * V) :=
    match m with
    | [] => [(k, v)]
    | (k', v') :: r =>
        if oltb k k' then (k, v) :: (k', v') :: r
        else if oltb k' k then (k', v') :: mins k v r
        else (k', v') :: r
    end.

  (** multimap.emplace(k,v): after all the elements whose key is not greater. *)
  Fixpoint mmins (k : K) (v : V) (m : list (K * V)) : list (K * V) :=
    match m with
    | [] => [(k, v)]
    | (k', v') :: r =>
        if oltb k k' then (k, v) :: (k', v') :: r
        else (k', v') :: mmins k v r
    end.

  (** set.insert(k) *)
  Fixpoint sins (k : K) (s : list K) : list K :=
    match s with
    | [] => [k]
    | k' :: r =>
        if oltb k k' then k :: k' :: r
        else if oltb k' k then k' :: sins k r
        else k' :: r
    end.
  Definition smem (k : K) (s : list K) : bool := existsb (oequiv k) s.
  (** set(first,last) / set.insert(first,last) *)
  Definition sins_all (l : list K) (s : list K) : list K := fold_left (fun s k => sins k s) l s.
  Definition sof (l : list K) : list K := sins_all l [].
  (** std::set_intersection of two sorted ranges without repetitions, into a set. *)
  Definition sinter (a b : list K) : list K := filter (fun x => smem x b) a.

  Definition mkeys (m : list (K * V)) : list K := map fst m.
End Map.

(** ** Laws *)

Class OrdLaws (K : Type) `{Ord K} : Prop := {
  ol_irr : forall a, oltb a a = false;
  ol_trans : forall a b c, oltb a b = true -> oltb b c = true -> oltb a c = true;
  ol_tri : forall a b, oltb a b = false -> oltb b a = false -> a = b }.

#[global] Instance OrdLawsZ : OrdLaws Z.
Proof. split; simpl; intros; lia. Qed.
#[global] Instance OrdLawsNat : OrdLaws nat.
Proof. split; simpl; intros; rewrite ?Nat.ltb_lt, ?Nat.ltb_ge in *; try lia; apply Nat.ltb_irrefl. Qed.

Lemma ascii_compare_refl a : Ascii.compare a a = Eq.
Proof. unfold Ascii.compare. apply N.compare_refl. Qed.
Lemma ascii_compare_eq a b : Ascii.compare a b = Eq -> a = b.
Proof.
  unfold Ascii.compare. intros E. apply N.compare_eq in E.
  rewrite <- (ascii_N_embedding a), <- (ascii_N_embedding b), E. reflexivity.
Qed.
Lemma ascii_compare_lt_trans a b c :
  Ascii.compare a b = Lt -> Ascii.compare b c = Lt -> Ascii.compare a c = Lt.
Proof. unfold Ascii.compare. rewrite !N.compare_lt_iff. lia. Qed.
Lemma ascii_compare_antisym a b : Ascii.compare a b = CompOpp (Ascii.compare b a).
Proof. unfold Ascii.compare. apply N.compare_antisym. Qed.

Lemma string_compare_refl s : String.compare s s = Eq.
Proof. induction s; simpl; auto. rewrite ascii_compare_refl. auto. Qed.
Lemma string_compare_eq s t : String.compare s t = Eq -> s = t.
Proof.
  revert t; induction s as [|a s IH]; intros [|b t]; simpl; try discriminate; auto.
  destruct (Ascii.compare a b) eqn:E; try discriminate.
  intros; f_equal; auto using ascii_compare_eq.
Qed.
Lemma string_compare_antisym s t : String.compare s t = CompOpp (String.compare t s).
Proof.
  revert t; induction s as [|a s IH]; intros [|b t]; simpl; auto.
  rewrite (ascii_compare_antisym a b). destruct (Ascii.compare b a); simpl; auto.
Qed.
Lemma string_compare_lt_trans s t u :
  String.compare s t = Lt -> String.compare t u = Lt -> String.compare s u = Lt.
Proof.
  revert t u; induction s as [|a s IH]; intros [|b t] [|c u]; simpl; try discriminate; auto.
  destruct (Ascii.compare a b) eqn:E1; try discriminate;
  destruct (Ascii.compare b c) eqn:E2; try discriminate; intros L1 L2.
  - apply ascii_compare_eq in E1; apply ascii_compare_eq in E2; subst.
    rewrite ascii_compare_refl. eauto.
  - apply ascii_compare_eq in E1; subst. rewrite E2; auto.
  - apply ascii_compare_eq in E2; subst. rewrite E1; auto.
  - rewrite (ascii_compare_lt_trans _ _ _ E1 E2). auto.
Qed.

#[global] Instance OrdLawsString : OrdLaws string.
Proof.
  split; simpl; unfold String.ltb.
  - intros a; rewrite string_compare_refl; auto.
  - intros a b c.
    destruct (String.compare a b) eqn:E1; try discriminate;
    destruct (String.compare b c) eqn:E2; try discriminate; intros _ _.
    rewrite (string_compare_lt_trans _ _ _ E1 E2); auto.
  - intros a b. rewrite (string_compare_antisym b a).
    destruct (String.compare a b) eqn:E; simpl; try discriminate. intros; apply string_compare_eq; auto.
Qed.

Section Laws.
  Context {K V : Type} `{OL : OrdLaws K}.

  Lemma oequiv_refl (a : K) : oequiv a a = true.
  Proof. unfold oequiv; rewrite ol_irr; auto. Qed.

  Lemma oequiv_eq (a b : K) : oequiv a b = true <-> a = b.
  Proof.
    split.
    - unfold oequiv. rewrite andb_true_iff, !negb_true_iff. intros [? ?]; apply ol_tri; auto.
    - intros ->; apply oequiv_refl.
  Qed.
  Lemma oequiv_neq (a b : K) : oequiv a b = false <-> a <> b.
  Proof. rewrite <- not_true_iff_false, oequiv_eq. tauto. Qed.

  Lemma olt_neq (a b : K) : oltb a b = true -> a <> b.
  Proof. intros L E; subst. rewrite ol_irr in L; discriminate. Qed.
  Lemma olt_asym (a b : K) : oltb a b = true -> oltb b a = false.
  Proof.
    intros L. destruct (oltb b a) eqn:E; auto.
    pose proof (ol_trans _ _ _ L E) as X. rewrite ol_irr in X; discriminate.
  Qed.

  Definition olt (a b : K) : Prop := oltb a b = true.

  (** Sorted maps: strictly increasing keys. *)
  Definition msorted (m : list (K * V)) : Prop := StronglySorted olt (map fst m).
  Definition ssorted (s : list K) : Prop := StronglySorted olt s.

  Lemma mget_mset_same k v (m : list (K * V)) : mget k (mset k v m) = Some v.
  Proof.
    induction m as [|[k' v'] m IH]; simpl.
    - rewrite oequiv_refl; auto.
    - destruct (oltb k k') eqn:E1; simpl.
      + rewrite oequiv_refl; auto.
      + destruct (oltb k' k) eqn:E2; simpl.
        * unfold oequiv; rewrite E1, E2; simpl; auto.
        * unfold oequiv; rewrite E1, E2; auto.
  Qed.

  Lemma mget_mset_other k k2 v (m : list (K * V)) :
    k <> k2 -> mget k (mset k2 v m) = mget k m.
  Proof.
    intros N. induction m as [|[k' v'] m IH]; simpl.
    - destruct (oequiv k k2) eqn:E; auto. apply oequiv_eq in E; contradiction.
    - destruct (oltb k2 k') eqn:E1; simpl.
      + destruct (oequiv k k2) eqn:E; auto. apply oequiv_eq in E; contradiction.
      + destruct (oltb k' k2) eqn:E2; simpl.
        * rewrite IH; auto.
        * assert (k2 = k') by (apply ol_tri; auto). subst.
          apply oequiv_neq in N. rewrite N. auto.
  Qed.

  Lemma mget_mset k k2 v (m : list (K * V)) :
    mget k (mset k2 v m) = if oequiv k k2 then Some v else mget k m.
  Proof.
    destruct (oequiv k k2) eqn:E.
    - apply oequiv_eq in E; subst. apply mget_mset_same.
    - apply oequiv_neq in E. apply mget_mset_other; auto.
  Qed.

  Lemma msorted_cons k v (m : list (K * V)) :
    msorted ((k, v) :: m) <-> msorted m /\ (forall k', In k' (map fst m) -> olt k k').
  Proof.
    unfold msorted; simpl. split.
    - intros S; inversion S; subst. split; auto. rewrite Forall_forall in *; auto.
    - intros [S F]; constructor; auto. rewrite Forall_forall; auto.
  Qed.

  Lemma in_keys_mset k k2 v (m : list (K * V)) :
    In k (map fst (mset k2 v m)) <-> k = k2 \/ In k (map fst m).
  Proof.
    induction m as [|[k' v'] m IH]; simpl.
    - intuition.
    - destruct (oltb k2 k') eqn:E1; simpl; [intuition|].
      destruct (oltb k' k2) eqn:E2; simpl.
      + rewrite IH. intuition.
      + assert (k2 = k') by (apply ol_tri; auto). subst. intuition.
  Qed.

  Lemma in_keys_mins k k2 v (m : list (K * V)) :
    In k (map fst (mins k2 v m)) <-> k = k2 \/ In k (map fst m).
  Proof.
    induction m as [|[k' v'] m IH]; simpl.
    - intuition.
    - destruct (oltb k2 k') eqn:E1; simpl; [intuition|].
      destruct (oltb k' k2) eqn:E2; simpl.
      + rewrite IH. intuition.
      + assert (k2 = k') by (apply ol_tri; auto). subst. intuition.
  Qed.

  Lemma mset_sorted k v (m : list (K * V)) : msorted m -> msorted (mset k v m).
  Proof.
    induction m as [|[k' v'] m IH]; intros S.
    - simpl. apply msorted_cons. split; [constructor | simpl; tauto].
    - apply msorted_cons in S as [S F]. simpl.
      destruct (oltb k k') eqn:E1; [|destruct (oltb k' k) eqn:E2].
      + apply msorted_cons; split; [apply msorted_cons; auto|].
        simpl. intros x [<-|I]; auto. eapply ol_trans; [exact E1|apply F; auto].
      + apply msorted_cons; split; [auto|]. intros x I. apply in_keys_mset in I as [->|I]; auto.
      + apply msorted_cons; auto.
  Qed.

  Lemma mins_sorted k v (m : list (K * V)) : msorted m -> msorted (mins k v m).
  Proof.
    induction m as [|[k' v'] m IH]; intros S.
    - simpl. apply msorted_cons. split; [constructor | simpl; tauto].
    - apply msorted_cons in S as [S F]. simpl.
      destruct (oltb k k') eqn:E1; [|destruct (oltb k' k) eqn:E2].
      + apply msorted_cons; split; [apply msorted_cons; auto|].
        simpl. intros x [<-|I]; auto. eapply ol_trans; [exact E1|apply F; auto].
      + apply msorted_cons; split; [auto|]. intros x I. apply in_keys_mins in I as [->|I]; auto.
      + apply msorted_cons; auto.
  Qed.

  Lemma mget_None k (m : list (K * V)) : mget k m = None <-> ~ In k (map fst m).
  Proof.
    induction m as [|[k' v'] m IH]; simpl; [tauto|].
    destruct (oequiv k k') eqn:E.
    - apply oequiv_eq in E; subst. split; [discriminate|]. tauto.
    - apply oequiv_neq in E. rewrite IH. intuition.
  Qed.
  Lemma mget_Some_in k v (m : list (K * V)) : mget k m = Some v -> In (k, v) m.
  Proof.
    induction m as [|[k' v'] m IH]; simpl; [discriminate|].
    destruct (oequiv k k') eqn:E; auto. apply oequiv_eq in E; subst. intros X; injection X as ->; auto.
  Qed.
  Lemma mget_in_iff k v (m : list (K * V)) : msorted m -> (mget k m = Some v <-> In (k, v) m).
  Proof.
    intros S; split; [apply mget_Some_in|].
    induction m as [|[k' v'] m IH]; simpl; [tauto|].
    apply msorted_cons in S as [S F].
    intros [X|I].
    - injection X as -> ->. rewrite oequiv_refl; auto.
    - destruct (oequiv k k') eqn:E; auto. apply oequiv_eq in E; subst.
      assert (L : olt k' k') by (apply F; apply in_map_iff; exists (k', v); auto).
      unfold olt in L; rewrite ol_irr in L; discriminate.
  Qed.

  (** Sorted maps are determined by their lookups: they are canonical. *)
  Lemma msorted_ext (m1 m2 : list (K * V)) :
    msorted m1 -> msorted m2 -> (forall k, mget k m1 = mget k m2) -> m1 = m2.
  Proof.
    revert m2. induction m1 as [|[k1 v1] m1 IH]; intros [|[k2 v2] m2] S1 S2 E; auto.
    - specialize (E k2). simpl in E. rewrite oequiv_refl in E. discriminate.
    - specialize (E k1). simpl in E. rewrite oequiv_refl in E. discriminate.
    - pose proof S1 as S1'. pose proof S2 as S2'.
      apply msorted_cons in S1 as [S1 F1]. apply msorted_cons in S2 as [S2 F2].
      assert (k1 = k2).
      { apply ol_tri.
        - destruct (oltb k1 k2) eqn:L; auto.
          pose proof (E k1) as X. simpl in X. rewrite oequiv_refl in X.
          destruct (oequiv k1 k2) eqn:Q; [apply oequiv_eq in Q; subst; rewrite ol_irr in L; discriminate|].
          symmetry in X; apply mget_Some_in in X. apply (in_map fst) in X. apply F2 in X.
          apply olt_asym in L. unfold olt in X; simpl in X. congruence.
        - destruct (oltb k2 k1) eqn:L; auto.
          pose proof (E k2) as X. simpl in X. rewrite oequiv_refl in X.
          destruct (oequiv k2 k1) eqn:Q; [apply oequiv_eq in Q; subst; rewrite ol_irr in L; discriminate|].
          apply mget_Some_in in X. apply (in_map fst) in X. apply F1 in X.
          apply olt_asym in L. unfold olt in X; simpl in X. congruence. }
      subst k2.
      assert (v1 = v2). { specialize (E k1). simpl in E. rewrite oequiv_refl in E. congruence. }
      subst v2. f_equal. apply IH; auto.
      intros k. specialize (E k). simpl in E. destruct (oequiv k k1) eqn:Q; auto.
      apply oequiv_eq in Q; subst.
      assert (forall m : list (K * V), (forall k', In k' (map fst m) -> olt k1 k') -> mget k1 m = None) as NN.
      { intros m F. apply mget_None. intros I. apply F in I. unfold olt in I. rewrite ol_irr in I. discriminate. }
      rewrite (NN m1), (NN m2); auto.
  Qed.

  Lemma mget_mins k k2 v (m : list (K * V)) :
    msorted m ->
    mget k (mins k2 v m) =
      if oequiv k k2 then (match mget k m with Some w => Some w | None => Some v end) else mget k m.
  Proof.
    induction m as [|[k' v'] m IH]; intros S; simpl.
    - destruct (oequiv k k2); auto.
    - apply msorted_cons in S as [S F].
      destruct (oltb k2 k') eqn:E1; [|destruct (oltb k' k2) eqn:E2]; simpl.
      + destruct (oequiv k k2) eqn:Q; auto. apply oequiv_eq in Q; subst.
        destruct (oequiv k2 k') eqn:Q2; auto.
        * apply oequiv_eq in Q2; subst. rewrite ol_irr in E1; discriminate.
        * assert (N : mget k2 m = None).
          { apply mget_None. intros I. apply F in I. apply olt_asym in E1. unfold olt in I. 
            congruence. }
          rewrite N. auto.
      + rewrite IH by auto. destruct (oequiv k k') eqn:Q; auto.
        apply oequiv_eq in Q; subst. destruct (oequiv k' k2); auto.
      + assert (k2 = k') by (apply ol_tri; auto). subst.
        destruct (oequiv k k') eqn:Q; auto.
  Qed.

  Lemma mcount_in k (m : list (K * V)) : mcount k m = true <-> In k (map fst m).
  Proof.
    unfold mcount. destruct (mget k m) eqn:E.
    - split; auto. intros _. apply mget_Some_in in E. apply in_map_iff. eexists; split; eauto. auto.
    - apply mget_None in E. split; [discriminate|contradiction].
  Qed.

  Lemma msorted_nodup (m : list (K * V)) : msorted m -> NoDup (map fst m).
  Proof.
    induction m as [|[k v] m IH]; intros S; simpl; [constructor|].
    apply msorted_cons in S as [S F]. constructor; auto.
    intros I. apply F in I. unfold olt in I; rewrite ol_irr in I; discriminate.
  Qed.

  (** Sets. *)
  Lemma smem_in k (s : list K) : smem k s = true <-> In k s.
  Proof.
    unfold smem. rewrite existsb_exists. split.
    - intros (x & I & E). apply oequiv_eq in E; subst; auto.
    - intros I; exists k; split; auto. apply oequiv_refl.
  Qed.
  Lemma in_sins x k (s : list K) : In x (sins k s) <-> x = k \/ In x s.
  Proof.
    induction s as [|k' s IH]; simpl; [intuition|].
    destruct (oltb k k') eqn:E1; simpl; [intuition|].
    destruct (oltb k' k) eqn:E2; simpl; [rewrite IH; intuition|].
    assert (k = k') by (apply ol_tri; auto). subst. intuition.
  Qed.
  Lemma in_sins_all x l (s : list K) : In x (sins_all l s) <-> In x l \/ In x s.
  Proof.
    unfold sins_all. revert s. induction l as [|k l IH]; intros s; simpl; [tauto|].
    rewrite IH, in_sins. intuition.
  Qed.
  Lemma in_sof x (l : list K) : In x (sof l) <-> In x l.
  Proof. unfold sof. rewrite in_sins_all. simpl. tauto. Qed.
  Lemma sins_sorted k (s : list K) : ssorted s -> ssorted (sins k s).
  Proof.
    unfold ssorted. induction s as [|k' s IH]; intros S; simpl.
    - repeat constructor.
    - inversion S as [|? ? S' F]; subst.
      destruct (oltb k k') eqn:E1; [|destruct (oltb k' k) eqn:E2].
      + constructor; auto. constructor; auto.
        rewrite Forall_forall in *. intros x I. eapply ol_trans; [exact E1| apply F; auto].
      + constructor; auto. rewrite Forall_forall in *. intros x I.
        apply in_sins in I as [->|I]; auto.
      + auto.
  Qed.
  Lemma sins_all_sorted l (s : list K) : ssorted s -> ssorted (sins_all l s).
  Proof.
    unfold sins_all. revert s; induction l as [|k l IH]; intros s S; simpl; auto.
    apply IH, sins_sorted, S.
  Qed.
  Lemma sof_sorted (l : list K) : ssorted (sof l).
  Proof. apply sins_all_sorted. constructor. Qed.
  Lemma ssorted_nodup (s : list K) : ssorted s -> NoDup s.
  Proof.
    unfold ssorted. induction 1 as [|k s S IH F]; constructor; auto.
    intros I. rewrite Forall_forall in F. apply F in I.
    unfold olt in I; rewrite ol_irr in I; discriminate.
  Qed.
  Lemma ssorted_ext (s1 s2 : list K) :
    ssorted s1 -> ssorted s2 -> (forall x, In x s1 <-> In x s2) -> s1 = s2.
  Proof.
    revert s2. induction s1 as [|a s1 IH]; intros [|b s2] S1 S2 E; auto.
    - exfalso. apply (proj2 (E b)). simpl; auto.
    - exfalso. apply (proj1 (E a)). simpl; auto.
    - inversion S1 as [|? ? S1' F1]; subst. inversion S2 as [|? ? S2' F2]; subst.
      rewrite Forall_forall in F1, F2.
      assert (a = b).
      { apply ol_tri.
        - destruct (oltb a b) eqn:L; auto. pose proof (proj1 (E a) (or_introl eq_refl)) as [X|X].
          + subst. rewrite ol_irr in L; discriminate.
          + apply F2 in X. unfold olt in X. apply olt_asym in X. congruence.
        - destruct (oltb b a) eqn:L; auto. pose proof (proj2 (E b) (or_introl eq_refl)) as [X|X].
          + subst. rewrite ol_irr in L; discriminate.
          + apply F1 in X. unfold olt in X. apply olt_asym in X. congruence. }
      subst b. f_equal. apply IH; auto. intros x. split; intros I.
      + destruct (proj1 (E x) (or_intror I)) as [<-|X]; auto.
        apply F1 in I. unfold olt in I; rewrite ol_irr in I; discriminate.
      + destruct (proj2 (E x) (or_intror I)) as [<-|X]; auto.
        apply F2 in I. unfold olt in I; rewrite ol_irr in I; discriminate.
  Qed.
  Lemma in_sinter x (a b : list K) : In x (sinter a b) <-> In x a /\ In x b.
  Proof. unfold sinter. rewrite filter_In, smem_in. tauto. Qed.

  (** Folding assignments: the last assignment to a key wins. *)
  Definition mset_all (l : list (K * V)) (m : list (K * V)) : list (K * V) :=
    fold_left (fun m kv => mset (fst kv) (snd kv) m) l m.
  Lemma mset_all_sorted l (m : list (K * V)) : msorted m -> msorted (mset_all l m).
  Proof.
    unfold mset_all. revert m; induction l as [|kv l IH]; intros m S; simpl; auto.
    apply IH, mset_sorted, S.
  Qed.
  Lemma mset_all_notin k l (m : list (K * V)) :
    ~ In k (map fst l) -> mget k (mset_all l m) = mget k m.
  Proof.
    unfold mset_all. revert m; induction l as [|[k' v'] l IH]; intros m N; simpl; auto.
    simpl in N. rewrite IH by tauto. apply mget_mset_other. intros ->; tauto.
  Qed.
  Lemma mset_all_last k v l1 l2 (m : list (K * V)) :
    ~ In k (map fst l2) -> mget k (mset_all (l1 ++ (k, v) :: l2) m) = Some v.
  Proof.
    intros N. unfold mset_all. rewrite fold_left_app. simpl.
    fold (mset_all l2 (mset k v (fold_left (fun m kv => mset (fst kv) (snd kv) m) l1 m))).
    rewrite mset_all_notin by auto. apply mget_mset_same.
  Qed.
  Lemma in_keys_mset_all k l (m : list (K * V)) :
    In k (map fst (mset_all l m)) <-> In k (map fst l) \/ In k (map fst m).
  Proof.
    unfold mset_all. revert m; induction l as [|[k' v'] l IH]; intros m; simpl; [tauto|].
    rewrite IH, in_keys_mset. simpl. intuition.
  Qed.
  Lemma mset_all_nodup k v l (m : list (K * V)) :
    NoDup (map fst l) -> In (k, v) l -> mget k (mset_all l m) = Some v.
  Proof.
    intros ND I. apply in_split in I as (l1 & l2 & ->).
    apply mset_all_last. rewrite map_app in ND. simpl in ND.
    apply NoDup_remove_2 in ND. intros I; apply ND. apply in_or_app; auto.
  Qed.
  (** ... hence with distinct keys the order of the assignments is irrelevant. *)
  Lemma mset_all_perm l1 l2 :
    NoDup (map fst l1) -> Permutation l1 l2 -> mset_all l1 [] = mset_all l2 [].
  Proof.
    intros ND P. apply msorted_ext.
    - apply mset_all_sorted; constructor.
    - apply mset_all_sorted; constructor.
    - intros k. destruct (mget k (mset_all l1 [])) as [v|] eqn:E.
      + apply mget_Some_in in E.
        assert (I : In k (map fst l1)).
        { apply (in_map fst) in E. apply in_keys_mset_all in E as [E|[]]; auto. }
        apply in_map_iff in I as ([k' w] & X & I); simpl in X; subst k'.
        pose proof (mset_all_nodup k w l1 [] ND I) as G1.
        assert (G2 : mget k (mset_all l2 []) = Some w).
        { apply mset_all_nodup; [|eapply Permutation_in; eauto].
          eapply Permutation_NoDup; [|exact ND]. apply Permutation_map; auto. }
        rewrite G2. apply mget_in_iff in E; [congruence | apply mset_all_sorted; constructor].
      + symmetry. apply mget_None. apply mget_None in E. intros I. apply E.
        apply in_keys_mset_all in I as [I|[]]. apply in_keys_mset_all. left.
        eapply Permutation_in; [|exact I]. apply Permutation_map, Permutation_sym, P.
  Qed.
End Laws.
