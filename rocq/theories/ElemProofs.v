(** The discretization built from a reference element has the properties assumed of tables. *)
From Coq Require Import Reals Lra Relations Ranalysis1.
From Verif Require Import Prelude ModelM Matrix Solver Fem RSum ListLemmas SpecSolver SpecFem SpecTriangles SpecElements Triangles Elements SolverProofs TriProofs.
Open Scope R_scope.
Open Scope list_scope.

(** ** Lists *)
Lemma values_app (z : list R) k1 k2 : values z (k1 ++ k2) = values z k1 ++ values z k2.
Proof. apply map_app. Qed.
Lemma values_rev (z : list R) ks : values z (rev ks) = rev (values z ks).
Proof. apply map_rev. Qed.
Lemma values_length (z : list R) ks : List.length (values z ks) = List.length ks.
Proof. apply map_length. Qed.
Lemma nth_skip (z : list R) a j : nth j (skipn a z) 0 = nth (a + j) z 0.
Proof. revert z; induction a as [|a IH]; intros z; [reflexivity|]. destruct z as [|y z]; [now destruct j|]. cbn [skipn Nat.add nth]. apply IH. Qed.
Lemma values_seq (z : list R) a m : (a + m <= List.length z)%nat -> values z (seq a m) = firstn m (skipn a z).
Proof.
  intros L. apply (nth_ext _ _ 0 0).
  - rewrite values_length, seq_length, firstn_length, skipn_length. lia.
  - intros j Lj. rewrite values_length, seq_length in Lj. unfold values.
    rewrite (nth_indep _ 0 (nth 0%nat z 0)) by (rewrite map_length, seq_length; lia). rewrite (map_nth (fun k => nth k z 0)), seq_nth by lia.
    rewrite <- nth_skip. clear -Lj. revert j Lj. generalize (skipn a z) as l. intros l. revert m. induction l as [|y l IH]; intros m j Lj; [now rewrite firstn_nil|].
    destruct m as [|m]; [lia|]. destruct j as [|j]; [reflexivity|]. cbn [firstn nth]. apply IH. lia.
Qed.
Lemma flat_map_constant_length {A B} (f : A -> list B) l m : (forall x, In x l -> List.length (f x) = m) -> List.length (flat_map f l) = (List.length l * m)%nat.
Proof.
  induction l as [|x l IH]; intros F; [reflexivity|]. cbn [flat_map]. rewrite app_length, (F x (or_introl eq_refl)), IH by (intros; apply F; now right). reflexivity.
Qed.
Lemma skip_app {A} (l r : list A) j : skipn (List.length l + j) (l ++ r) = skipn j r.
Proof. induction l as [|x l IH]; [reflexivity|]. cbn. exact IH. Qed.
Lemma first_app {A} (l r : list A) : firstn (List.length l) (l ++ r) = l.
Proof. rewrite firstn_app, Nat.sub_diag, firstn_all. cbn. apply app_nil_r. Qed.
Lemma values_block {A} (f : A -> list R) l r m i x : (forall y, In y l -> List.length (f y) = m) -> nth_error l i = Some x ->
  values (flat_map f l ++ r) (seq (i * m) m) = f x.
Proof.
  revert i; induction l as [|y l IH]; intros i F E; [destruct i; discriminate|]. cbn [flat_map]. rewrite <- app_assoc.
  assert (Ly : List.length (f y) = m) by (apply F; now left). destruct i as [|i].
  - injection E as <-. cbn [Nat.mul]. rewrite values_seq by (rewrite app_length; lia). cbn [skipn]. rewrite <- Ly at 1. apply first_app.
  - cbn [nth_error] in E. rewrite <- (IH i (fun z I => F z (or_intror I)) E).
    assert (Li : (i < List.length l)%nat) by (apply nth_error_Some; congruence).
    assert (Lf : List.length (flat_map f l) = (List.length l * m)%nat) by (apply flat_map_constant_length; intros; apply F; now right).
    assert ((i * m + m <= List.length l * m)%nat) by nia.
    rewrite !values_seq by (rewrite ?app_length, ?Lf, ?Ly; cbn [Nat.mul]; lia).
    cbn [Nat.mul]. rewrite <- Ly at 2. now rewrite skip_app.
Qed.
Lemma values_shift (a z : list R) n ks : List.length a = n -> values (a ++ z) (map (fun k => (n + k)%nat) ks) = values z ks.
Proof.
  intros L. unfold values. rewrite map_map. apply map_ext. intros k. rewrite app_nth2 by lia. f_equal. lia.
Qed.
Lemma seq_add a b m : seq (a + b) m = map (fun k => (a + k)%nat) (seq b m).
Proof. revert b; induction m as [|m IH]; intros b; [reflexivity|]. cbn [seq map]. f_equal. rewrite <- IH. f_equal. lia. Qed.
Lemma map2_length (f : R -> R -> R) l l' : List.length l = List.length l' -> List.length (map2 f l l') = List.length l.
Proof. intros E. unfold map2. rewrite map_length, combine_length. lia. Qed.
Lemma dot_map2_mul (s l z : list R) : dot (map2 nmul s l) z = dot l (map2 nmul s z).
Proof.
  revert l z; induction s as [|u s IH]; intros l z; [cbn; destruct l; reflexivity|].
  destruct l as [|y l], z as [|w z]; try reflexivity. unfold map2 in *. cbn [combine map dot fst snd]. rewrite IH. cbn [nmul nadd RNum]. ring.
Qed.
Lemma dot_map2_lin (al be de : R) (f : R -> R -> R) l l' z : (forall u v, f u v = (u * al - v * be) / de) -> List.length l = List.length l' ->
  dot (map2 f l l') z = (dot l z * al - dot l' z * be) / de.
Proof.
  intros F. revert l' z; induction l as [|u l IH]; intros [|v l'] z E; try discriminate; [cbn; unfold Rdiv; ring|].
  destruct z as [|w z]; [cbn; unfold Rdiv; ring|]. unfold map2 in *. cbn [combine map dot fst snd]. rewrite IH by (now injection E). rewrite F. cbn [nadd nmul RNum]. unfold Rdiv. ring.
Qed.
Lemma map2_app (f : R -> R -> R) a b a' b' : List.length a = List.length a' -> map2 f (a ++ b) (a' ++ b') = map2 f a a' ++ map2 f b b'.
Proof.
  revert a'; induction a as [|x a IH]; intros [|x' a'] E; try discriminate; [reflexivity|]. unfold map2 in *. cbn. f_equal. apply IH. now injection E.
Qed.
Lemma map2_repeat (s : R) m l : List.length l = m -> map2 nmul (repeat s m) l = map (fun y => s * y) l.
Proof. intros <-. induction l as [|y l IH]; [reflexivity|]. unfold map2 in *. cbn. f_equal. exact IH. Qed.
Lemma dot_opp_r (l z : list R) : dot l (map Ropp z) = - dot l z.
Proof. revert z; induction l as [|x l IH]; intros [|y z]; cbn [map dot]; cbn [nadd nmul n0 RNum]; rewrite ?IH; ring. Qed.
Lemma dot_zero (l : list R) m : dot l (repeat 0 m) = 0.
Proof. revert m; induction l as [|x l IH]; intros [|m]; cbn [repeat dot]; cbn [nadd nmul n0 RNum]; rewrite ?IH; ring. Qed.
Lemma repeat_split (c : R) n m : repeat c (n + m) = repeat c n ++ repeat c m.
Proof. induction n as [|n IH]; [reflexivity|]. cbn. now rewrite IH. Qed.
Lemma rev_repeat (c : R) n : rev (repeat c n) = repeat c n.
Proof.
  induction n as [|n IH]; [reflexivity|]. cbn [repeat rev]. rewrite IH. change [c] with (repeat c 1). rewrite <- repeat_split. now rewrite Nat.add_1_r.
Qed.
Lemma NoDup_app_intro {A} (l1 l2 : list A) : NoDup l1 -> NoDup l2 -> (forall x, In x l1 -> In x l2 -> False) -> NoDup (l1 ++ l2).
Proof.
  induction 1 as [|x l N ND IH]; intros N2 Dj; [exact N2|]. cbn. constructor.
  - rewrite in_app_iff. intros [I|I]; [contradiction|]. exact (Dj x (or_introl eq_refl) I).
  - apply IH; [exact N2|]. intros y I J. exact (Dj y (or_intror I) J).
Qed.
(** the vector with a one at place [k] *)
Definition basis (n k : nat) : list R := map (fun i => if (i =? k)%nat then 1 else 0) (seq 0 n).
Lemma basis_length n k : List.length (basis n k) = n.
Proof. unfold basis. now rewrite map_length, seq_length. Qed.
Lemma basis_nth n k i : (i < n)%nat -> nth i (basis n k) 0 = if (i =? k)%nat then 1 else 0.
Proof.
  intros L. unfold basis. set (f := fun i => if (i =? k)%nat then 1 else 0). rewrite (nth_indep _ 0 (f 0%nat)) by (rewrite map_length, seq_length; lia).
  rewrite map_nth, seq_nth by lia. reflexivity.
Qed.
Lemma dot_basis l n k : List.length l = n -> (k < n)%nat -> dot l (basis n k) = nth k l 0.
Proof.
  intros L Lk. rewrite (dot_Sum l (basis n k) n L (basis_length n k)). rewrite (Sum_split n k) by exact Lk. rewrite basis_nth, Nat.eqb_refl by exact Lk.
  rewrite Sum_zero; [ring|]. intros i Li. destruct (Nat.eqb_spec i k) as [->|N]; [reflexivity|]. rewrite basis_nth by exact Li. rewrite (proj2 (Nat.eqb_neq i k) N). ring.
Qed.
Lemma numbered_in ms x : In x (numbered (T:=R) ms) <-> triangle ms x.
Proof.
  unfold numbered, triangle, nelems. destruct x as [i e]. cbn [fst snd].
  assert (K : forall a l, In (i, e) (combine (seq a (List.length l)) l) <-> (a <= i)%nat /\ nth_error l (i - a) = Some e).
  { intros a l; revert a; induction l as [|y l IH]; intros a; cbn [List.length seq combine In].
    - split; [easy|]. intros (_ & E). destruct (i - a)%nat; discriminate.
    - rewrite IH. split.
      + intros [[= -> ->]|(L & E)]; [split; [lia|now rewrite Nat.sub_diag]|]. split; [lia|]. replace (i - a)%nat with (S (i - S a)) by lia. exact E.
      + intros (L & E). destruct (Nat.eq_dec a i) as [->|N]; [left; rewrite Nat.sub_diag in E; now injection E as ->|]. right. split; [lia|].
        replace (i - a)%nat with (S (i - S a)) in E by lia. exact E. }
  rewrite K, Nat.sub_0_r. intuition lia.
Qed.

Section Elem.
  Variable ref : reference R.
  Hypothesis Ro : reference_ok ref.
  Variable ms : mesh R.
  Hypothesis Tr : triangulation ms.
  Notation D := (elements ref distance ms).
  Notation nv := (nverts ms).
  Notation ne := (nedges ms).
  Notation ns := (re_side ref).
  Notation ni := (re_inner ref).
  Notation mss := (re_side_nd ref).
  Notation mi := (re_inner_nd ref).
  Notation nh := (n_h1 ref ms).
  Notation nn := (n_nd ref ms).
  Notation P v := (m_coord ms (Z.of_nat v)).

  Lemma tri_in x : triangle ms x -> In (snd x) (m_elems ms).
  Proof. intros T. exact (nth_error_In _ _ T). Qed.
  Lemma tri_lt x : triangle ms x -> (fst x < nelems ms)%nat.
  Proof. intros T. apply nth_error_Some. unfold triangle in T. congruence. Qed.
  Lemma in_tri e : In e (m_elems ms) -> exists i, triangle ms (i, e).
  Proof. intros I. apply In_nth_error in I as (i & E). exists i. exact E. Qed.

  (** ** Degrees of freedom *)
  Lemma oriented_in s l k : In k (oriented s l) <-> In k l.
  Proof. unfold oriented. destruct (fst s <? snd s)%nat; [reflexivity|]. symmetry. apply in_rev. Qed.
  Lemma oriented_nodup s l : NoDup l -> NoDup (oriented s l).
  Proof. unfold oriented. destruct (fst s <? snd s)%nat; [auto|apply NoDup_rev]. Qed.
  Lemma oriented_length s (l : list nat) : List.length (oriented s l) = List.length l.
  Proof. unfold oriented. destruct (fst s <? snd s)%nat; [reflexivity|apply rev_length]. Qed.
  Lemma side_nodes_length s : List.length (side_nodes ref ms s) = ns.
  Proof. unfold side_nodes. rewrite oriented_length. apply seq_length. Qed.
  Lemma side_fields_length s : List.length (side_fields ref ms s) = mss.
  Proof. unfold side_fields. rewrite oriented_length. apply seq_length. Qed.
  Lemma in_side_nodes s k : In k (side_nodes ref ms s) <-> (nv + edge_dof ms s * ns <= k < nv + edge_dof ms s * ns + ns)%nat.
  Proof. unfold side_nodes. rewrite oriented_in, in_seq. reflexivity. Qed.
  Lemma in_side_fields s k : In k (side_fields ref ms s) <-> (edge_dof ms s * mss <= k < edge_dof ms s * mss + mss)%nat.
  Proof. unfold side_fields. rewrite oriented_in, in_seq. reflexivity. Qed.
  Lemma blocks_apart i j m k : (i * m <= k < i * m + m)%nat -> (j * m <= k < j * m + m)%nat -> i = j.
  Proof. intros A B. destruct (Nat.lt_trichotomy i j) as [L|[E|L]]; [exfalso; nia|exact E|exfalso; nia]. Qed.
  Lemma h1_dofs_eq x a b c : corners ms (snd x) a b c ->
    h1_dofs ref ms x = a :: b :: c :: side_nodes ref ms (a, b) ++ side_nodes ref ms (b, c) ++ side_nodes ref ms (c, a) ++ inner_nodes ref ms (fst x).
  Proof.
    intros C. unfold h1_dofs. rewrite (sides_eq ms _ a b c C), (co_nat _ _ _ _ _ C). cbn [flat_map app]. rewrite app_nil_r, <- !app_assoc. reflexivity.
  Qed.
  Lemma nd_dofs_eq x a b c : corners ms (snd x) a b c ->
    nd_dofs ref ms x = side_fields ref ms (a, b) ++ side_fields ref ms (b, c) ++ side_fields ref ms (c, a) ++ inner_fields ref ms (fst x).
  Proof. intros C. unfold nd_dofs. rewrite (sides_eq ms _ a b c C). cbn [flat_map]. rewrite app_nil_r, <- !app_assoc. reflexivity. Qed.
  Lemma sides_distinct e a b c : In e (m_elems ms) -> corners ms e a b c ->
    (edge_dof ms (a, b) < ne /\ edge_dof ms (b, c) < ne /\ edge_dof ms (c, a) < ne)%nat /\
    edge_dof ms (a, b) <> edge_dof ms (b, c) /\ edge_dof ms (b, c) <> edge_dof ms (c, a) /\ edge_dof ms (c, a) <> edge_dof ms (a, b).
  Proof.
    intros I C. destruct (edge_dofs_ok ms Tr e I) as (N & F). unfold edge_dofs in N, F. rewrite (sides_eq ms e a b c C) in N, F. cbn [map] in N, F.
    inversion_clear F as [|? ? F1 F']. inversion_clear F' as [|? ? F2 F'']. inversion_clear F'' as [|? ? F3 _].
    inversion_clear N as [|? ? N1 N']. inversion_clear N' as [|? ? N2 _]. cbn in N1, N2. unfold nedges. intuition.
  Qed.
  Lemma h1_dofs_ok x : triangle ms x -> NoDup (h1_dofs ref ms x) /\ Forall (fun k => k < nh)%nat (h1_dofs ref ms x).
  Proof.
    intros T. pose proof (tri_in x T) as I. pose proof (tri_lt x T) as Lx. destruct (elem_corners ms Tr _ I) as (a & b & c & C).
    destruct (sides_distinct _ a b c I C) as ((L1 & L2 & L3) & N1 & N2 & N3). destruct (corners_lt ms _ a b c I C) as (La & Lb & Lc).
    rewrite (h1_dofs_eq x a b c C). split.
    - change (NoDup ([a; b; c] ++ (side_nodes ref ms (a, b) ++ side_nodes ref ms (b, c) ++ side_nodes ref ms (c, a) ++ inner_nodes ref ms (fst x)))).
      assert (S : forall s, NoDup (side_nodes ref ms s)) by (intros s; apply oriented_nodup, seq_NoDup).
      assert (Lt : forall s k, (edge_dof ms s < ne)%nat -> In k (side_nodes ref ms s) -> (nv <= k < nv + ne * ns)%nat).
      { intros s k L J. apply in_side_nodes in J. nia. }
      assert (Ap : forall s s' k, edge_dof ms s <> edge_dof ms s' -> In k (side_nodes ref ms s) -> In k (side_nodes ref ms s') -> False).
      { intros s s' k N J J'. apply in_side_nodes in J. apply in_side_nodes in J'. apply N. apply (blocks_apart _ _ ns (k - nv)); lia. }
      assert (In' : forall k, In k (inner_nodes ref ms (fst x)) -> (nv + ne * ns <= k)%nat) by (intros k J; apply in_seq in J; lia).
      apply NoDup_app_intro; [exact (corners_nodup ms _ a b c C)| |].
      + apply NoDup_app_intro; [apply S| |].
        * apply NoDup_app_intro; [apply S| |].
          -- apply NoDup_app_intro; [apply S|apply seq_NoDup|]. intros k J J'. apply In' in J'. pose proof (Lt _ k L3 J). lia.
          -- intros k J J'. apply in_app_iff in J' as [J'|J']; [exact (Ap _ _ k N2 J J')|]. apply In' in J'. pose proof (Lt _ k L2 J). lia.
        * intros k J J'. rewrite !in_app_iff in J'. destruct J' as [J'|[J'|J']]; [exact (Ap _ _ k N1 J J')|exact (Ap _ _ k N3 J' J)|]. apply In' in J'. pose proof (Lt _ k L1 J). lia.
      + intros k J J'. assert (k < nv)%nat by (destruct J as [<-|[<-|[<-|[]]]]; assumption). rewrite !in_app_iff in J'.
        destruct J' as [J'|[J'|[J'|J']]]; [pose proof (Lt _ k L1 J')|pose proof (Lt _ k L2 J')|pose proof (Lt _ k L3 J')|pose proof (In' k J')]; lia.
    - assert (Fs : forall s, (edge_dof ms s < ne)%nat -> Forall (fun k => k < nh)%nat (side_nodes ref ms s)).
      { intros s L. apply Forall_forall. intros k J. apply in_side_nodes in J. unfold n_h1. nia. }
      assert (B : (nv <= nh)%nat) by (unfold n_h1; lia). constructor; [lia|]. constructor; [lia|]. constructor; [lia|]. rewrite !Forall_app. repeat split; auto.
      apply Forall_forall. intros k J. apply in_seq in J. unfold n_h1. nia.
  Qed.
  Lemma nd_dofs_ok x : triangle ms x -> NoDup (nd_dofs ref ms x) /\ Forall (fun k => k < nn)%nat (nd_dofs ref ms x).
  Proof.
    intros T. pose proof (tri_in x T) as I. pose proof (tri_lt x T) as Lx. destruct (elem_corners ms Tr _ I) as (a & b & c & C).
    destruct (sides_distinct _ a b c I C) as ((L1 & L2 & L3) & N1 & N2 & N3). rewrite (nd_dofs_eq x a b c C). split.
    - assert (S : forall s, NoDup (side_fields ref ms s)) by (intros s; apply oriented_nodup, seq_NoDup).
      assert (Lt : forall s k, (edge_dof ms s < ne)%nat -> In k (side_fields ref ms s) -> (k < ne * mss)%nat).
      { intros s k L J. apply in_side_fields in J. nia. }
      assert (Ap : forall s s' k, edge_dof ms s <> edge_dof ms s' -> In k (side_fields ref ms s) -> In k (side_fields ref ms s') -> False).
      { intros s s' k N J J'. apply in_side_fields in J. apply in_side_fields in J'. apply N. apply (blocks_apart _ _ mss k); lia. }
      assert (In' : forall k, In k (inner_fields ref ms (fst x)) -> (ne * mss <= k)%nat) by (intros k J; apply in_seq in J; lia).
      apply NoDup_app_intro; [apply S| |].
      + apply NoDup_app_intro; [apply S| |].
        * apply NoDup_app_intro; [apply S|apply seq_NoDup|]. intros k J J'. apply In' in J'. pose proof (Lt _ k L3 J). lia.
        * intros k J J'. apply in_app_iff in J' as [J'|J']; [exact (Ap _ _ k N2 J J')|]. apply In' in J'. pose proof (Lt _ k L2 J). lia.
      + intros k J J'. rewrite !in_app_iff in J'. destruct J' as [J'|[J'|J']]; [exact (Ap _ _ k N1 J J')|exact (Ap _ _ k N3 J' J)|]. apply In' in J'. pose proof (Lt _ k L1 J). lia.
    - assert (Fs : forall s, (edge_dof ms s < ne)%nat -> Forall (fun k => k < nn)%nat (side_fields ref ms s)).
      { intros s L. apply Forall_forall. intros k J. apply in_side_fields in J. unfold n_nd. nia. }
      rewrite !Forall_app. repeat split; auto.
      apply Forall_forall. intros k J. apply in_seq in J. unfold n_nd. nia.
  Qed.
  (** every degree of freedom belongs to an element *)
  Lemma edge_has_side i : (i < ne)%nat -> exists e s, In e (m_elems ms) /\ In s (sides e) /\ edge_dof ms s = i.
  Proof.
    intros L. pose proof (nth_In (edges ms) (0, 0)%nat L) as J. apply edges_in in J as (e & s & Ie & Is & Es). exists e, s. split; [exact Ie|]. split; [exact Is|].
    unfold edge_dof. rewrite Es. apply index_of_nth; [apply edges_nodup|exact L].
  Qed.
  Lemma block_of k m t : (k < t * m)%nat -> exists i, (i < t)%nat /\ (i * m <= k < i * m + m)%nat.
  Proof.
    intros L. assert (m <> 0)%nat by nia. exists (k / m)%nat. pose proof (Nat.div_mod k m ltac:(assumption)) as E. pose proof (Nat.mod_upper_bound k m ltac:(assumption)).
    split; [apply Nat.div_lt_upper_bound; lia|]. nia.
  Qed.
  Lemma h1_dof_in k : (k < nh)%nat -> exists x, triangle ms x /\ In k (h1_dofs ref ms x).
  Proof.
    intros L. unfold n_h1 in L. destruct (Nat.lt_ge_cases k nv) as [Lv|Lv].
    - destruct (lt_vert ms Tr k Lv) as (e & I & J). destruct (in_tri e I) as (i & T). exists (i, e). split; [exact T|]. unfold h1_dofs. apply in_app_iff. now left.
    - destruct (Nat.lt_ge_cases k (nv + ne * ns)) as [Le|Le].
      + destruct (block_of (k - nv) ns ne) as (i & Li & B); [lia|]. destruct (edge_has_side i Li) as (e & s & Ie & Is & E). destruct (in_tri e Ie) as (j & T).
        exists (j, e). split; [exact T|]. unfold h1_dofs. rewrite !in_app_iff. right. left. apply in_flat_map. exists s. split; [exact Is|]. apply in_side_nodes. rewrite E. lia.
      + destruct (block_of (k - (nv + ne * ns)) ni (nelems ms)) as (i & Li & B); [lia|]. destruct (nth_error (m_elems ms) i) as [e|] eqn:E; [|apply nth_error_None in E; unfold nelems in Li; lia].
        exists (i, e). split; [exact E|]. unfold h1_dofs. rewrite !in_app_iff. right. right. apply in_seq. cbn [fst]. lia.
  Qed.
  Lemma nd_dof_in k : (k < nn)%nat -> exists x, triangle ms x /\ In k (nd_dofs ref ms x).
  Proof.
    intros L. unfold n_nd in L. destruct (Nat.lt_ge_cases k (ne * mss)) as [Le|Le].
    - destruct (block_of k mss ne Le) as (i & Li & B). destruct (edge_has_side i Li) as (e & s & Ie & Is & E). destruct (in_tri e Ie) as (j & T).
      exists (j, e). split; [exact T|]. unfold nd_dofs. rewrite !in_app_iff. left. apply in_flat_map. exists s. split; [exact Is|]. apply in_side_fields. rewrite E. lia.
    - destruct (block_of (k - ne * mss) mi (nelems ms)) as (i & Li & B); [lia|]. destruct (nth_error (m_elems ms) i) as [e|] eqn:E; [|apply nth_error_None in E; unfold nelems in Li; lia].
      exists (i, e). split; [exact E|]. unfold nd_dofs. rewrite !in_app_iff. right. apply in_seq. cbn [fst]. lia.
  Qed.

  (** ** Local coefficients *)
  Definition loc (z : list R) (x : nat * element R) : list R := values z (h1_dofs ref ms x).
  Notation nl := (3 + (ns + (ns + (ns + ni))))%nat.
  Notation ml := (mss + (mss + (mss + mi)))%nat.
  Lemma inner_nodes_length i : List.length (inner_nodes ref ms i) = ni. Proof. apply seq_length. Qed.
  Lemma inner_fields_length i : List.length (inner_fields ref ms i) = mi. Proof. apply seq_length. Qed.
  Lemma h1_dofs_length x : triangle ms x -> List.length (h1_dofs ref ms x) = nl.
  Proof.
    intros T. destruct (elem_corners ms Tr _ (tri_in x T)) as (a & b & c & C). rewrite (h1_dofs_eq x a b c C). cbn [List.length].
    rewrite !app_length, !side_nodes_length, inner_nodes_length. reflexivity.
  Qed.
  Lemma nd_dofs_length x : triangle ms x -> List.length (nd_dofs ref ms x) = ml.
  Proof.
    intros T. destruct (elem_corners ms Tr _ (tri_in x T)) as (a & b & c & C). rewrite (nd_dofs_eq x a b c C).
    rewrite !app_length, !side_fields_length, inner_fields_length. reflexivity.
  Qed.
  Lemma loc_length z x : triangle ms x -> List.length (loc z x) = nl.
  Proof. intros T. unfold loc. rewrite values_length. now apply h1_dofs_length. Qed.
  Lemma loc_eq z x a b c : corners ms (snd x) a b c ->
    loc z x = local (nth a z 0) (nth b z 0) (nth c z 0) (values z (side_nodes ref ms (a, b))) (values z (side_nodes ref ms (b, c)))
                    (values z (side_nodes ref ms (c, a))) (values z (inner_nodes ref ms (fst x))).
  Proof. intros C. unfold loc, local. rewrite (h1_dofs_eq x a b c C). unfold values. cbn [map]. rewrite !map_app. reflexivity. Qed.
  Lemma loc_sized z (x : nat * element R) s0 s1 s2 : sized ns ni (values z (side_nodes ref ms s0)) (values z (side_nodes ref ms s1))
                    (values z (side_nodes ref ms s2)) (values z (inner_nodes ref ms (fst x))).
  Proof. repeat split; rewrite values_length; auto using side_nodes_length, inner_nodes_length. Qed.
  Lemma sizes_h1 p : List.length (re_h1x ref p) = nl /\ List.length (re_h1y ref p) = nl.
  Proof. destruct (proj1 (ro_sizes _ Ro) p) as (_ & E1 & E2 & _). auto. Qed.
  Lemma sizes_nd p : List.length (re_ndx ref p) = ml /\ List.length (re_ndy ref p) = ml.
  Proof. destruct (proj1 (ro_sizes _ Ro) p) as (_ & _ & _ & E1 & E2). auto. Qed.
  (** Components of a vector of the reference triangle (u, v) after the transformation *)
  Definition tx (a b c : nat) (u v : R) : R := (u * (snd (P c) - snd (P a)) - v * (snd (P b) - snd (P a))) / det (P a) (P b) (P c).
  Definition ty (a b c : nat) (u v : R) : R := (v * (fst (P b) - fst (P a)) - u * (fst (P c) - fst (P a))) / det (P a) (P b) (P c).
  Lemma to_x_dot e a b c l l' z : corners ms e a b c -> List.length l = List.length l' -> dot (to_x ms e l l') z = tx a b c (dot l z) (dot l' z).
  Proof.
    intros C E. unfold to_x. rewrite (co_nat _ _ _ _ _ C). cbn [map]. unfold tx. apply dot_map2_lin; [reflexivity|exact E].
  Qed.
  Lemma to_y_dot e a b c l l' z : corners ms e a b c -> List.length l = List.length l' -> dot (to_y ms e l l') z = ty a b c (dot l z) (dot l' z).
  Proof.
    intros C E. unfold to_y. rewrite (co_nat _ _ _ _ _ C). cbn [map]. unfold ty.
    rewrite (dot_map2_lin (- (fst (P c) - fst (P a))) (- (fst (P b) - fst (P a))) (det (P a) (P b) (P c))) by (auto; intros; cbn [nsub nmul ndiv RNum]; f_equal; unfold pos; ring).
    f_equal. ring.
  Qed.
  Lemma to_x_length e a b c l l' : corners ms e a b c -> List.length l = List.length l' -> List.length (to_x ms e l l') = List.length l.
  Proof. intros C E. unfold to_x. rewrite (co_nat _ _ _ _ _ C). cbn [map]. now apply map2_length. Qed.
  Lemma to_y_length e a b c l l' : corners ms e a b c -> List.length l = List.length l' -> List.length (to_y ms e l l') = List.length l.
  Proof. intros C E. unfold to_y. rewrite (co_nat _ _ _ _ _ C). cbn [map]. now apply map2_length. Qed.
  Lemma t_zero a b c u v : 0 < det (P a) (P b) (P c) -> (tx a b c u v = 0 /\ ty a b c u v = 0 <-> u = 0 /\ v = 0).
  Proof.
    intros Pd. split.
    - intros (X & Y). unfold tx in X. unfold ty in Y.
      assert (K : forall y d, 0 < d -> y / d = 0 -> y = 0).
      { intros y d Q E. apply (Rmult_eq_reg_r (/ d)); [|apply Rinv_neq_0_compat; lra]. rewrite Rmult_0_l. exact E. }
      apply (K _ _ Pd) in X. apply (K _ _ Pd) in Y. unfold det in Pd. cbn [nsub nmul RNum] in Pd.
      set (bx := fst (P b) - fst (P a)) in *. set (by' := snd (P b) - snd (P a)) in *. set (cx := fst (P c) - fst (P a)) in *. set (cy := snd (P c) - snd (P a)) in *.
      assert (U : u * (bx * cy - cx * by') = 0).
      { replace (u * (bx * cy - cx * by')) with ((u * cy - v * by') * bx + (v * bx - u * cx) * by') by ring. rewrite X, Y. ring. }
      assert (V : v * (bx * cy - cx * by') = 0).
      { replace (v * (bx * cy - cx * by')) with ((u * cy - v * by') * cx + (v * bx - u * cx) * cy) by ring. rewrite X, Y. ring. }
      apply Rmult_integral in U, V. split; [destruct U; lra|destruct V; lra].
    - intros (-> & ->). unfold tx, ty, Rdiv. split; ring.
  Qed.
  (** gradients *)
  Lemma h1_x_dot x a b c p z : triangle ms x -> corners ms (snd x) a b c -> List.length z = nh ->
    dot (h1_x ref ms x p) z = tx a b c (dot (re_h1x ref p) (loc z x)) (dot (re_h1y ref p) (loc z x)).
  Proof.
    intros T C L. destruct (h1_dofs_ok x T) as (N & F). unfold h1_x. rewrite spread_dot by assumption. fold (loc z x).
    apply (to_x_dot _ a b c); [exact C|]. destruct (sizes_h1 p). congruence.
  Qed.
  Lemma h1_y_dot x a b c p z : triangle ms x -> corners ms (snd x) a b c -> List.length z = nh ->
    dot (h1_y ref ms x p) z = ty a b c (dot (re_h1x ref p) (loc z x)) (dot (re_h1y ref p) (loc z x)).
  Proof.
    intros T C L. destruct (h1_dofs_ok x T) as (N & F). unfold h1_y. rewrite spread_dot by assumption. fold (loc z x).
    apply (to_y_dot _ a b c); [exact C|]. destruct (sizes_h1 p). congruence.
  Qed.
  (** fields: coefficients with the signs of the sides *)
  Definition nloc (d : list R) (x : nat * element R) : list R := map2 nmul (nd_signs ref (snd x)) (values d (nd_dofs ref ms x)).
  Lemma ned_x_dot x a b c p d : triangle ms x -> corners ms (snd x) a b c -> List.length d = nn ->
    dot (ned_x ref ms x p) d = tx a b c (dot (re_ndx ref p) (nloc d x)) (dot (re_ndy ref p) (nloc d x)).
  Proof.
    intros T C L. destruct (nd_dofs_ok x T) as (N & F). unfold ned_x. rewrite spread_dot by assumption. rewrite dot_map2_mul. fold (nloc d x).
    apply (to_x_dot _ a b c); [exact C|]. destruct (sizes_nd p). congruence.
  Qed.
  Lemma ned_y_dot x a b c p d : triangle ms x -> corners ms (snd x) a b c -> List.length d = nn ->
    dot (ned_y ref ms x p) d = ty a b c (dot (re_ndx ref p) (nloc d x)) (dot (re_ndy ref p) (nloc d x)).
  Proof.
    intros T C L. destruct (nd_dofs_ok x T) as (N & F). unfold ned_y. rewrite spread_dot by assumption. rewrite dot_map2_mul. fold (nloc d x).
    apply (to_y_dot _ a b c); [exact C|]. destruct (sizes_nd p). congruence.
  Qed.
  Definition signed (s : nat * nat) (d : list R) : list R := map (fun y => sign (T:=R) s * y) (values d (side_fields ref ms s)).
  Lemma nloc_eq d x a b c : corners ms (snd x) a b c ->
    nloc d x = signed (a, b) d ++ signed (b, c) d ++ signed (c, a) d ++ values d (inner_fields ref ms (fst x)).
  Proof.
    intros C. unfold nloc, nd_signs. rewrite (sides_eq ms _ a b c C), (nd_dofs_eq x a b c C). cbn [flat_map]. rewrite app_nil_r, <- !app_assoc, !values_app.
    assert (L : forall s, List.length (repeat (sign (T:=R) s) mss) = List.length (values d (side_fields ref ms s))).
    { intros s. now rewrite repeat_length, values_length, side_fields_length. }
    rewrite !map2_app by apply L. unfold signed. rewrite !map2_repeat by (rewrite values_length; auto using side_fields_length, inner_fields_length). repeat (f_equal; []).
    rewrite <- (map_id (values d (inner_fields ref ms (fst x)))) at 2. apply map_ext. intros y. cbn [n1 RNum]. ring.
  Qed.
  Lemma nloc_length d x : triangle ms x -> List.length (nloc d x) = ml.
  Proof.
    intros T. destruct (elem_corners ms Tr _ (tri_in x T)) as (a & b & c & C). rewrite (nloc_eq d x a b c C). unfold signed.
    rewrite !app_length, !map_length, !values_length, !side_fields_length, inner_fields_length. reflexivity.
  Qed.
  Lemma signed_sized d (x : nat * element R) s0 s1 s2 : sized mss mi (signed s0 d) (signed s1 d) (signed s2 d) (values d (inner_fields ref ms (fst x))).
  Proof. unfold signed. repeat split; rewrite ?map_length, values_length; auto using side_fields_length, inner_fields_length. Qed.

  (** ** Minus the gradient, as a field of the Nedelec space *)
  Definition mgrad (z : list R) : list R := map (fun row => - dot row z) (di_gradient D).
  Definition on_edge (z : list R) (s : nat * nat) : list R := nth (fst s) z 0 :: nth (snd s) z 0 :: values z (side_nodes ref ms s).
  Lemma edge_lt y : In y (edges ms) -> (fst y < snd y < nv)%nat.
  Proof. intros I. destruct (edges_lt ms Tr y I). auto. Qed.
  Lemma edge_itself y : In y (edges ms) -> edge y = y.
  Proof. intros I. pose proof (edge_lt y I) as L. unfold edge. rewrite (proj2 (Nat.ltb_lt _ _)) by lia. reflexivity. Qed.
  Lemma edge_dof_lt y : In y (edges ms) -> (edge_dof ms y < ne)%nat.
  Proof. intros I. unfold edge_dof. rewrite (edge_itself y I). exact (proj1 (index_nth y (edges ms) y I)). Qed.
  Lemma side_row_dot y r z : In y (edges ms) -> List.length z = nh -> dot (spread nh (fst y :: snd y :: side_nodes ref ms y) r) z = dot r (on_edge z y).
  Proof.
    intros I L. pose proof (edge_lt y I) as Ly. pose proof (edge_dof_lt y I) as Le. apply spread_dot; [| |exact L].
    - constructor; [|constructor].
      + intros [E|J]; [lia|]. apply in_side_nodes in J. lia.
      + intros J. apply in_side_nodes in J. lia.
      + apply oriented_nodup, seq_NoDup.
    - constructor; [unfold n_h1; lia|]. constructor; [unfold n_h1; lia|]. apply Forall_forall. intros k J. apply in_side_nodes in J. unfold n_h1. nia.
  Qed.
  Lemma mgrad_eq z : List.length z = nh ->
    mgrad z = flat_map (fun y => map Ropp (applied (re_side_grad ref) (on_edge z y))) (edges ms) ++ flat_map (fun x => map Ropp (applied (re_inner_grad ref) (loc z x))) (numbered ms).
  Proof.
    intros L. unfold mgrad. cbn [di_gradient elements]. rewrite map_app.
    assert (Fm : forall (A : Type) (f : A -> list (list R)) (g : A -> list R) l, (forall y, In y l -> map (fun row => - dot row z) (f y) = g y) ->
              map (fun row => - dot row z) (flat_map f l) = flat_map g l).
    { intros A f g l. induction l as [|y l IH]; intros E; [reflexivity|]. cbn [flat_map]. rewrite map_app, (E y (or_introl eq_refl)), IH by (intros; apply E; now right). reflexivity. }
    f_equal; apply Fm.
    - intros y I. unfold side_rows, applied. rewrite !map_map. apply map_ext. intros r. now rewrite side_row_dot.
    - intros x I. apply numbered_in in I. destruct (h1_dofs_ok x I) as (N & F). unfold inner_rows, applied. rewrite !map_map. apply map_ext. intros r. now rewrite spread_dot.
  Qed.
  Lemma mgrad_length z : List.length z = nh -> List.length (mgrad z) = nn.
  Proof.
    intros L. rewrite (mgrad_eq z L), app_length, (flat_map_constant_length _ _ mss), (flat_map_constant_length _ _ mi).
    - unfold n_nd, nedges. f_equal. f_equal. unfold numbered, nelems. rewrite combine_length, seq_length. lia.
    - intros x _. unfold applied. rewrite !map_length. apply (proj2 (proj2 (proj2 (ro_sizes _ Ro)))).
    - intros y _. unfold applied. rewrite !map_length. apply (proj1 (proj2 (proj2 (ro_sizes _ Ro)))).
  Qed.
  Lemma sides_diff e a b c s : corners ms e a b c -> In s (sides e) -> fst s <> snd s.
  Proof. intros C I. rewrite (sides_eq ms e a b c C) in I. destruct (co_distinct _ _ _ _ _ C) as (N1 & N2 & N3). destruct I as [<-|[<-|[<-|[]]]]; cbn; auto. Qed.
  Lemma edge_dof_edge s : edge_dof ms (edge s) = edge_dof ms s.
  Proof.
    unfold edge_dof. f_equal. unfold edge. destruct (Nat.ltb_spec (fst s) (snd s)) as [L|L]; cbn [fst snd].
    - destruct (Nat.ltb_spec (fst s) (snd s)); [reflexivity|lia].
    - destruct (Nat.ltb_spec (snd s) (fst s)) as [L'|L']; [reflexivity|]. destruct s as [u w]; cbn [fst snd] in *. f_equal; lia.
  Qed.
  Lemma mgrad_edge z i : List.length z = nh -> (i < ne)%nat ->
    values (mgrad z) (seq (i * mss) mss) = map Ropp (applied (re_side_grad ref) (on_edge z (nth i (edges ms) (0, 0)%nat))).
  Proof.
    intros L Li. rewrite (mgrad_eq z L). apply (values_block (fun y => map Ropp (applied (re_side_grad ref) (on_edge z y)))).
    - intros y _. unfold applied. rewrite !map_length. apply (proj1 (proj2 (proj2 (ro_sizes _ Ro)))).
    - now apply nth_error_nth'.
  Qed.
  Lemma mgrad_side e s z : In e (m_elems ms) -> In s (sides e) -> List.length z = nh ->
    signed s (mgrad z) = map Ropp (applied (re_side_grad ref) (on_edge z s)).
  Proof.
    intros I J L. destruct (elem_corners ms Tr e I) as (a & b & c & C). pose proof (sides_diff e a b c s C J) as N.
    destruct (side_dof ms e s I J) as (Ld & En). pose proof (mgrad_edge z (edge_dof ms s) L Ld) as E. rewrite En in E.
    unfold signed, side_fields, oriented. unfold edge, sign in *. destruct (Nat.ltb_spec (fst s) (snd s)) as [Lt|Lt].
    - rewrite E. rewrite <- (map_id (map Ropp _)) at 2. apply map_ext. intros y. cbn [n1 RNum]. ring.
    - rewrite values_rev, E. set (s' := (snd s, fst s)). 
      assert (On : on_edge z s' = nth (snd s) z 0 :: nth (fst s) z 0 :: rev (values z (side_nodes ref ms s))).
      { assert (Ed : edge_dof ms s' = edge_dof ms s).
        { rewrite <- (edge_dof_edge s). unfold edge. now rewrite (proj2 (Nat.ltb_ge (fst s) (snd s))) by lia. }
        unfold on_edge, side_nodes, oriented. rewrite Ed. unfold s'. cbn [fst snd].
        rewrite (proj2 (Nat.ltb_lt (snd s) (fst s))) by lia. rewrite (proj2 (Nat.ltb_ge (fst s) (snd s))) by lia.
        rewrite values_rev, rev_involutive. reflexivity. }
      rewrite On, (ro_gradient_reverse _ Ro) by (rewrite values_length; apply side_nodes_length). fold (on_edge z s).
      rewrite !map_rev, rev_involutive, !map_map. apply map_ext. intros y. cbn [n1 nopp RNum]. ring.
  Qed.
  Lemma mgrad_inner x z : triangle ms x -> List.length z = nh ->
    values (mgrad z) (inner_fields ref ms (fst x)) = map Ropp (applied (re_inner_grad ref) (loc z x)).
  Proof.
    intros T L. rewrite (mgrad_eq z L). unfold inner_fields. rewrite seq_add, values_shift.
    - rewrite <- (app_nil_r (flat_map _ (numbered ms))). apply (values_block (fun x => map Ropp (applied (re_inner_grad ref) (loc z x)))).
      + intros y _. unfold applied. rewrite !map_length. apply (proj2 (proj2 (proj2 (ro_sizes _ Ro)))).
      + unfold triangle in T. destruct x as [i e]. cbn [fst snd] in *. clear -T. unfold numbered, nelems.
        assert (K : forall a l j, nth_error l j = Some e -> nth_error (combine (seq a (List.length l)) l) j = Some ((a + j)%nat, e)).
        { intros a l; revert a; induction l as [|y l IH]; intros a [|j] E; try discriminate; cbn in *; [rewrite Nat.add_0_r; now injection E as ->|]. rewrite (IH (S a) j E). replace (a + S j)%nat with (S a + j)%nat by lia. reflexivity. }
        exact (K 0%nat _ i T).
    - rewrite (flat_map_constant_length _ _ mss); [reflexivity|]. intros y _. unfold applied. rewrite !map_length. apply (proj1 (proj2 (proj2 (ro_sizes _ Ro)))).
  Qed.
  Lemma nloc_mgrad x a b c z p : triangle ms x -> corners ms (snd x) a b c -> List.length z = nh ->
    dot (re_ndx ref p) (nloc (mgrad z) x) = - dot (re_h1x ref p) (loc z x) /\ dot (re_ndy ref p) (nloc (mgrad z) x) = - dot (re_h1y ref p) (loc z x).
  Proof.
    intros T C L. pose proof (tri_in x T) as I. destruct (side_in ms _ a b c C) as (S0 & S1 & S2).
    rewrite (nloc_eq _ x a b c C), (mgrad_side _ _ z I S0 L), (mgrad_side _ _ z I S1 L), (mgrad_side _ _ z I S2 L), (mgrad_inner x z T L).
    rewrite (loc_eq z x a b c C). rewrite <- !map_app, !dot_opp_r.
    destruct (ro_gradient _ Ro p (nth a z 0) (nth b z 0) (nth c z 0) _ _ _ _ (loc_sized z x (a, b) (b, c) (c, a))) as (-> & ->).
    unfold on_edge. cbn [fst snd]. split; reflexivity.
  Qed.
  Theorem field_of_mgrad x p z : triangle ms x -> List.length z = nh ->
    dot (ned_x ref ms x p) (mgrad z) = - dot (h1_x ref ms x p) z /\ dot (ned_y ref ms x p) (mgrad z) = - dot (h1_y ref ms x p) z.
  Proof.
    intros T L. destruct (elem_corners ms Tr _ (tri_in x T)) as (a & b & c & C).
    rewrite (ned_x_dot x a b c p _ T C (mgrad_length z L)), (ned_y_dot x a b c p _ T C (mgrad_length z L)), (h1_x_dot x a b c p z T C L), (h1_y_dot x a b c p z T C L).
    destruct (nloc_mgrad x a b c z p T C L) as (-> & ->). unfold tx, ty, Rdiv. split; ring.
  Qed.
End Elem.
