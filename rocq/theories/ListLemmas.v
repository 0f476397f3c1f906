(** General facts on the combinators of Prelude and the containers of StdMap. *)
From Verif Require Import Prelude StdMap.
From Coq Require Import Permutation Sorted.

Lemma foldM_app' {A S} (f : S -> A -> outcome S) l1 l2 s :
  foldM f (l1 ++ l2) s = bind (foldM f l1 s) (fun s' => foldM f l2 s').
Proof.
  revert s; induction l1 as [|x l1 IH]; intros s; [reflexivity|]. cbn.
  destruct (f s x) as [s'|e|u]; cbn; auto.
Qed.

Lemma bind_ok {A B} (x : outcome A) (f : A -> outcome B) b :
  bind x f = Ok b <-> exists a, x = Ok a /\ f a = Ok b.
Proof.
  destruct x as [a|e|u]; cbn; split; intros; try discriminate; eauto;
    destruct H as (a' & [= <-] & Hf); exact Hf.
Qed.

Lemma mapM_ok {A B} (f : A -> outcome B) l r :
  mapM f l = Ok r <-> Forall2 (fun x y => f x = Ok y) l r.
Proof.
  revert r; induction l as [|x l IH]; intros r; cbn.
  - split; [intros [= <-]; constructor|]. intros H; inversion H; reflexivity.
  - rewrite bind_ok. split.
    + intros (y & Ey & H). apply bind_ok in H as (ys & Eys & [= <-]). constructor; auto. now apply IH.
    + intros H; inversion H; subst. exists y; split; auto. apply bind_ok.
      exists l'; split; auto. now apply IH.
Qed.

Lemma mapM_total {A B} (f : A -> outcome B) l :
  (forall x, In x l -> is_ok (f x)) -> is_ok (mapM f l).
Proof.
  induction l as [|x l IH]; intros H; [eexists; reflexivity|]. cbn.
  destruct (H x (or_introl eq_refl)) as [y ->]. cbn.
  destruct IH as [ys ->]; [intros; apply H; now right|]. cbn. eexists; reflexivity.
Qed.

Lemma mapM_pure {A B} (f : A -> outcome B) (g : A -> B) l :
  (forall x, In x l -> f x = Ok (g x)) -> mapM f l = Ok (map g l).
Proof.
  induction l as [|x l IH]; intros H; [reflexivity|]. cbn.
  rewrite (H x) by now left. cbn. rewrite IH by (intros; apply H; now right). reflexivity.
Qed.

Lemma mapM_perm {A B} (f : A -> outcome B) l1 l2 r1 :
  Permutation l1 l2 -> mapM f l1 = Ok r1 -> exists r2, mapM f l2 = Ok r2 /\ Permutation r1 r2.
Proof.
  intros P; revert r1; induction P; intros r1 E.
  - cbn in E. injection E as <-. exists []; split; [reflexivity|constructor].
  - cbn in E. apply bind_ok in E as (y & Ey & E). apply bind_ok in E as (ys & Eys & [= <-]).
    destruct (IHP _ Eys) as (r2 & E2 & P2). exists (y :: r2); split; [|now constructor].
    cbn. rewrite Ey. cbn. rewrite E2. reflexivity.
  - cbn in E. apply bind_ok in E as (a & Ea & E). apply bind_ok in E as (z & Ez & [= <-]).
    apply bind_ok in Ez as (b & Eb & Ez). apply bind_ok in Ez as (zs & Ezs & [= <-]).
    exists (b :: a :: zs); split; [|constructor]. cbn. rewrite Eb. cbn. rewrite Ea. cbn.
    rewrite Ezs. reflexivity.
  - destruct (IHP1 _ E) as (r2 & E2 & Q2). destruct (IHP2 _ E2) as (r3 & E3 & Q3).
    exists r3; split; auto. eapply Permutation_trans; eauto.
Qed.

(** ** enum *)
Lemma enum_from_nth {A} (l : list A) k i x :
  In (i, x) (enum_from k l) <-> (k <= i)%nat /\ nth_error l (i - k) = Some x.
Proof.
  revert k; induction l as [|y l IH]; intros k; cbn.
  - split; [tauto|]. intros [_ H]. destruct (i - k)%nat; discriminate.
  - split.
    + intros [[= <- <-]|H].
      * rewrite Nat.sub_diag. auto.
      * apply IH in H as [H1 H2]. split; [lia|]. replace (i - k)%nat with (S (i - S k)) by lia. exact H2.
    + intros [H1 H2]. destruct (Nat.eq_dec i k) as [->|N].
      * rewrite Nat.sub_diag in H2. injection H2 as ->. now left.
      * right. apply IH. split; [lia|]. replace (i - k)%nat with (S (i - S k)) in H2 by lia. exact H2.
Qed.
Lemma in_enum {A} (l : list A) i x : In (i, x) (enum l) <-> nth_error l i = Some x.
Proof. unfold enum. rewrite enum_from_nth, Nat.sub_0_r. split; [tauto|]. intro; split; [lia|auto]. Qed.
Lemma enum_from_fst {A} (l : list A) k : map fst (enum_from k l) = seq k (List.length l).
Proof. revert k; induction l as [|y l IH]; intros k; cbn; [reflexivity|]. now rewrite IH. Qed.
Lemma enum_fst {A} (l : list A) : map fst (enum l) = seq 0 (List.length l).
Proof. apply enum_from_fst. Qed.
Lemma enum_from_snd {A} (l : list A) k : map snd (enum_from k l) = l.
Proof. revert k; induction l as [|y l IH]; intros k; cbn; [reflexivity|]. now rewrite IH. Qed.
Lemma enum_snd {A} (l : list A) : map snd (enum l) = l.
Proof. apply enum_from_snd. Qed.
Lemma enum_length {A} (l : list A) : List.length (enum l) = List.length l.
Proof. rewrite <- (map_length snd). now rewrite enum_snd. Qed.
Lemma enum_from_nodup {A} (l : list A) k : NoDup (enum_from k l).
Proof. apply (NoDup_map_inv fst). rewrite enum_from_fst. apply seq_NoDup. Qed.
Lemma enum_nodup {A} (l : list A) : NoDup (enum l).
Proof. apply enum_from_nodup. Qed.
Lemma nth_error_enum {A} (l : list A) i x : nth_error l i = Some x -> nth_error (enum l) i = Some (i, x).
Proof.
  intros E. assert (L : (i < List.length l)%nat) by (apply nth_error_Some; congruence).
  destruct (nth_error (enum l) i) as [[j y]|] eqn:E2.
  - pose proof (map_nth_error fst _ _ E2) as F1. pose proof (map_nth_error snd _ _ E2) as F2.
    rewrite enum_fst in F1. rewrite enum_snd in F2. cbn in *.
    rewrite nth_error_nth' with (d := 0%nat) in F1 by now rewrite seq_length.
    rewrite seq_nth in F1 by exact L. cbn in F1. congruence.
  - apply nth_error_None in E2. rewrite enum_length in E2. lia.
Qed.

Lemma nmem_in x l : nmem x l = true <-> In x l.
Proof.
  unfold nmem. rewrite existsb_exists. split.
  - intros (y & I & E). apply Nat.eqb_eq in E. now subst.
  - intros I; exists x; split; auto. apply Nat.eqb_refl.
Qed.
Lemma nmem_notin x l : nmem x l = false <-> ~ In x l.
Proof. rewrite <- not_true_iff_false, nmem_in. tauto. Qed.
Lemma zmem_in x l : zmem x l = true <-> In x l.
Proof.
  unfold zmem. rewrite existsb_exists. split.
  - intros (y & I & E). apply Z.eqb_eq in E. now subst.
  - intros I; exists x; split; auto. apply Z.eqb_refl.
Qed.

(** ** Maps *)
Section MapFacts.
  Context {K V : Type} `{OL : OrdLaws K}.

  Lemma mset_all_in_iff (l : list (K * V)) k v :
    NoDup (map fst l) -> (In (k, v) (mset_all l []) <-> In (k, v) l).
  Proof.
    intros ND. assert (S : msorted (mset_all l [])) by (apply mset_all_sorted; constructor).
    split; intros I.
    - assert (Ik : In k (map fst l)).
      { apply (in_map fst) in I. apply in_keys_mset_all in I as [I|[]]. exact I. }
      apply in_map_iff in Ik as ([k' w] & E & Ik). cbn in E; subst k'.
      pose proof (mset_all_nodup k w l [] ND Ik) as G. apply mget_in_iff in I; auto. congruence.
    - apply mget_in_iff; auto. now apply mset_all_nodup.
  Qed.
  Lemma msorted_nodup_pairs (m : list (K * V)) : msorted m -> NoDup m.
  Proof. intros S. apply (NoDup_map_inv fst). now apply msorted_nodup. Qed.
  Lemma mset_all_permutation (l : list (K * V)) :
    NoDup (map fst l) -> Permutation (mset_all l []) l.
  Proof.
    intros ND. apply NoDup_Permutation.
    - apply msorted_nodup_pairs, mset_all_sorted. constructor.
    - now apply (NoDup_map_inv fst).
    - intros [k v]. now apply mset_all_in_iff.
  Qed.
  Lemma fold_mins_sorted (l : list (K * V)) m :
    msorted m -> msorted (fold_left (fun r kv => mins (fst kv) (snd kv) r) l m).
  Proof. revert m; induction l as [|kv l IH]; intros m S; cbn; auto. apply IH, mins_sorted, S. Qed.
  Lemma fold_mins_in (l : list (K * V)) m k v :
    msorted m -> NoDup (map fst l) -> (forall k', In k' (map fst l) -> ~ In k' (map fst m)) ->
    (In (k, v) (fold_left (fun r kv => mins (fst kv) (snd kv) r) l m) <-> In (k, v) l \/ In (k, v) m).
  Proof.
    revert m; induction l as [|[k1 v1] l IH]; intros m S ND D; cbn; [tauto|].
    cbn in ND. inversion ND as [|? ? N1 N2]; subst.
    rewrite IH.
    - rewrite <- (mget_in_iff k v (mins k1 v1 m)) by now apply mins_sorted.
      rewrite mget_mins by auto. rewrite <- (mget_in_iff k v m) by auto.
      assert (G : mget k1 m = None) by (apply mget_None; apply D; now left).
      destruct (oequiv k k1) eqn:E.
      + apply oequiv_eq in E. subst k1. rewrite G. split; [intros [I|[= ->]]; auto|].
        intros [[[= ->]|I]|E2]; auto; discriminate.
      + apply oequiv_neq in E. split; [tauto|]. intros [[[= -> ->]|I]|E2]; tauto.
    - now apply mins_sorted.
    - exact N2.
    - intros k' I J. apply in_keys_mins in J as [->|J]; [contradiction|].
      apply (D k'); [now right|exact J].
  Qed.
End MapFacts.

Lemma filter_ext_in' {A} (f g : A -> bool) l :
  (forall x, In x l -> f x = g x) -> filter f l = filter g l.
Proof. apply filter_ext_in. Qed.

Lemma Forall2_length {A B} (P : A -> B -> Prop) l1 l2 : Forall2 P l1 l2 -> List.length l1 = List.length l2.
Proof. induction 1; cbn; congruence. Qed.
Lemma Forall2_nth {A B} (P : A -> B -> Prop) l1 l2 i a : Forall2 P l1 l2 -> nth_error l1 i = Some a ->
  exists b, nth_error l2 i = Some b /\ P a b.
Proof.
  intros F; revert i; induction F as [|x y l l' Hp F IH]; intros [|i] E; try discriminate.
  - injection E as <-. exists y; auto.
  - cbn in *. now apply IH.
Qed.
