(** The parts returned by split are the connected components. *)
From Verif Require Import Prelude StdMap Graph SpecGraph ListLemmas GraphProofs SplitProofs.
From Coq Require Import Permutation Relations.


Lemma filter_split {A} (p : A -> bool) l : Permutation l (filter (fun x => negb (p x)) l ++ filter p l).
Proof.
  induction l as [|x l IH]; cbn; auto. destruct (p x); cbn.
  - apply Permutation_cons_app. exact IH.
  - now constructor.
Qed.
Lemma filter_filter_and {A} (p q : A -> bool) l : filter p (filter q l) = filter (fun x => q x && p x) l.
Proof.
  induction l as [|x l IH]; cbn; auto. destruct (q x); cbn; [destruct (p x)|]; now rewrite IH.
Qed.
Lemma perm_eq {A} (l l' : list A) : l = l' -> Permutation l l'.
Proof. intros ->. apply Permutation_refl. Qed.
Lemma bucket_perm {A} (f : A -> nat) n : forall l, (forall x, In x l -> (f x < n)%nat) ->
  Permutation l (flat_map (fun c => filter (fun x => (f x =? c)%nat) l) (seq 0 n)).
Proof.
  induction n as [|n IH]; intros l B.
  - destruct l as [|x l]; [constructor|]. specialize (B x (or_introl eq_refl)). lia.
  - rewrite seq_S, flat_map_app. cbn [flat_map Nat.add]. rewrite app_nil_r.
    eapply Permutation_trans; [apply (filter_split (fun x => (f x =? n)%nat))|].
    apply Permutation_app_tail.
    eapply Permutation_trans; [apply IH|].
    + intros x I. apply filter_In in I as [I F]. apply negb_true_iff, Nat.eqb_neq in F. apply B in I. lia.
    + apply perm_eq. rewrite !flat_map_concat_map. f_equal. apply map_ext_in. intros c Ic.
      apply in_seq in Ic. rewrite filter_filter_and. apply filter_ext. intros x.
      destruct (Nat.eqb_spec (f x) c) as [->|Ne]; [|now rewrite andb_false_r].
      rewrite andb_true_r. apply negb_true_iff, Nat.eqb_neq. lia.
Qed.

Lemma within_iff vs a b : within vs (a, b) = true <-> In a vs /\ In b vs.
Proof.
  unfold within. cbn. rewrite andb_true_iff, !existsb_exists. split.
  - intros [(x & Ix & Ex) (y & Iy & Ey)]. apply Z.eqb_eq in Ex, Ey. now subst.
  - intros [Ia Ib]. split; [exists a|exists b]; split; auto; apply Z.eqb_refl.
Qed.

Lemma filter_map_commute {A B} (h : A -> B) (p : B -> bool) l : filter p (map h l) = map h (filter (fun x => p (h x)) l).
Proof. induction l as [|x l IH]; cbn; auto. destruct (p (h x)); cbn; now rewrite IH. Qed.

Lemma split_components g parts : tight g -> returning g -> split g = Ok parts ->
  components_of (getVertices g) (getEdgesAsPairs g) (map view parts).
Proof.
  intros [W Tg] Ret Sp.
  destruct (Nat.eq_dec (verticesSize g) 0) as [Z0|NE].
  { unfold split in Sp. rewrite Z0 in Sp. cbn in Sp. injection Sp as <-. cbn.
    assert (g_ids g = []) as E0 by (destruct (g_ids g) eqn:E; auto; unfold verticesSize in Z0; rewrite E in Z0; discriminate).
    assert (g_edges g = []) as E1.
    { destruct (g_edges g) as [|[u v] r] eqn:E; auto. pose proof (w_edge _ W u v) as X. rewrite E, E0 in X.
      destruct (X (or_introl eq_refl)) as (_ & L & _). cbn in L. lia. }
    unfold getEdgesAsPairs, getVertices. rewrite E0, E1. cbn. split; cbn.
    - intros p [].
    - intros v. split; [intros []|]. intros (p & [] & _).
    - intros i j p q v Ep. destruct i; discriminate.
    - intros a b [].
    - intros p [].
    - constructor. }
  destruct (split_view g W NE) as (st & num & comp & parts' & K & Sp' & Len & H).
  rewrite Sp' in Sp. injection Sp as ->.
  assert (Vin : forall v, In v (getVertices g) <-> exists k, (k < gsize g)%nat /\ vid g k = v).
  { intros v. rewrite getVertices_in. split; [intros; now apply ids_vid|]. intros (k & L & <-). now apply vid_ids. }
  (* the vertices of part c are those labelled c *)
  assert (PV : forall c p, nth_error parts c = Some p ->
    (forall v, In v (getVertices p) <-> exists k, (k < gsize g)%nat /\ vid g k = v /\ comp k = c) /\
    getEdgesAsPairs p = map (fun e => (vid g (fst e), vid g (snd e))) (filter (fun e => (comp (fst e) =? c)%nat) (g_edges g))).
  { intros c p Ep. destruct H as [(N1 & ->)|(Nn & H)].
    - destruct c as [|c]; [|destruct c; discriminate]. cbn in Ep. injection Ep as <-.
      assert (Z : forall k, (k < gsize g)%nat -> comp k = 0%nat).
      { intros k L. pose proof (k_lt _ _ _ _ K k L). lia. }
      split.
      + intros v. rewrite Vin. split.
        * intros (k & L & <-). exists k. auto.
        * intros (k & L & <- & _). eauto.
      + unfold getEdgesAsPairs. f_equal. symmetry. 
        assert (A : forall l, (forall e, In e l -> In e (g_edges g)) -> filter (fun e => (comp (fst e) =? 0)%nat) l = l).
        { induction l as [|[a b] l IH]; intros S; cbn; auto.
          pose proof (w_edge _ W a b (S _ (or_introl eq_refl))) as (_ & L & _). rewrite (Z a L). cbn. f_equal.
          apply IH. intros; apply S; now right. }
        apply A. auto.
    - destruct (H c p Ep) as ([Wp Tp] & Dp).
      assert (Dp' : getEdgesAsPairs p = map (fun e => (vid g (fst e), vid g (snd e))) (filter (fun e => (comp (fst e) =? c)%nat) (g_edges g))).
      { rewrite Dp. f_equal. apply filter_ext_in. intros [u v] I. unfold in_comp. cbn.
        rewrite (arc_same g st num comp K Ret u v I). apply andb_diag. }
      split; auto. intros v. rewrite getVertices_in, Tp, Dp'. split.
      + intros (w & [I|I]); apply in_map_iff in I as ([a b] & E & I); cbn in E; injection E as E1 E2;
          apply filter_In in I as [I F]; cbn in F; apply Nat.eqb_eq in F;
          pose proof (w_edge _ W a b I) as (_ & La & Lb).
        * exists a. auto.
        * exists b. split; auto. split; auto. rewrite <- (arc_same g st num comp K Ret a b I). exact F.
      + intros (k & L & <- & Ck). assert (Ik : In (vid g k) (g_ids g)) by now apply vid_ids.
        apply Tg in Ik as (w & [I|I]); apply in_map_iff in I as ([a b] & E & I); cbn in E; injection E as E1 E2;
          pose proof (w_edge _ W a b I) as (_ & La & Lb).
        * apply vid_inj in E1; auto. subst a. exists (vid g b). left. apply in_map_iff. exists (k, b). split; auto.
          apply filter_In. split; auto. cbn. now apply Nat.eqb_eq.
        * apply vid_inj in E2; auto. subst b. exists (vid g a). right. apply in_map_iff. exists (a, k). split; auto.
          apply filter_In. split; auto. cbn. apply Nat.eqb_eq. rewrite (arc_same g st num comp K Ret a k I). exact Ck. }
  assert (At : forall p, In p (map view parts) -> exists c q, nth_error parts c = Some q /\ p = view q /\ (c < num)%nat).
  { intros p I. apply in_map_iff in I as (q & <- & I). apply In_nth_error in I as (c & E). exists c, q.
    split; auto. split; auto. rewrite <- Len. apply nth_error_Some. congruence. }
  assert (Ex : forall c, (c < num)%nat -> exists q, nth_error parts c = Some q /\ In (view q) (map view parts)).
  { intros c L. destruct (nth_error parts c) as [q|] eqn:E.
    - exists q. split; auto. apply in_map. eapply nth_error_In; eauto.
    - apply nth_error_None in E. lia. }
  split.
  - intros p Ip E. destruct (At p Ip) as (c & q & Eq & -> & L). destruct (PV c q Eq) as (V & _).
    destruct (k_root _ _ _ _ K c L) as (r & Lr & Cr & _).
    assert (I : In (vid g r) (getVertices q)) by (apply V; exists r; auto).
    cbn in E. rewrite E in I. destruct I.
  - intros v. rewrite Vin. split.
    + intros (k & L & <-). destruct (Ex (comp k)) as (q & Eq & Iq); [now apply (k_lt _ _ _ _ K)|].
      exists (view q). split; auto. cbn. apply (PV _ _ Eq). exists k; auto.
    + intros (p & Ip & Iv). destruct (At p Ip) as (c & q & Eq & -> & L). cbn in Iv.
      apply (PV _ _ Eq) in Iv as (k & Lk & E & _). eauto.
  - intros i j p q v Ei Ej Iv Jv. rewrite nth_error_map in Ei, Ej.
    destruct (nth_error parts i) as [pi|] eqn:Ni; [|discriminate]. destruct (nth_error parts j) as [pj|] eqn:Nj; [|discriminate].
    cbn in Ei, Ej. injection Ei as <-. injection Ej as <-. cbn in Iv, Jv.
    destruct (PV _ _ Ni) as (Vi & _). destruct (PV _ _ Nj) as (Vj & _).
    destruct (proj1 (Vi _) Iv) as (k & Lk & E & <-). destruct (proj1 (Vj _) Jv) as (k' & Lk' & E' & <-).
    f_equal. apply (vid_inj g W); auto. congruence.
  - intros a b Ia Ib. apply Vin in Ia as (ka & La & <-). apply Vin in Ib as (kb & Lb & <-).
    rewrite <- (connected_comp g st num comp W K Ret ka kb La Lb). split.
    + intros (p & Ip & Ja & Jb). destruct (At p Ip) as (c & q & Eq & -> & L). cbn in Ja, Jb.
      destruct (PV _ _ Eq) as (V & _). destruct (proj1 (V _) Ja) as (k & Lk & E & C). destruct (proj1 (V _) Jb) as (k' & Lk' & E' & C').
      apply vid_inj in E; auto. apply vid_inj in E'; auto. congruence.
    + intros C. destruct (Ex (comp ka)) as (q & Eq & Iq); [now apply (k_lt _ _ _ _ K)|].
      exists (view q). split; auto. destruct (PV _ _ Eq) as (V & _). cbn. split; apply V; eauto.
  - intros p Ip. destruct (At p Ip) as (c & q & Eq & -> & L). cbn. destruct (PV _ _ Eq) as (V & D).
    rewrite D. unfold getEdgesAsPairs. rewrite filter_map_commute. f_equal. apply filter_ext_in.
    intros [u v] I. cbn. pose proof (w_edge _ W u v I) as (_ & Lu & Lv). apply eq_iff_eq_true.
    rewrite within_iff, Nat.eqb_eq, !V. split.
    + intros C. split; [exists u|exists v]; auto. rewrite <- (arc_same g st num comp K Ret u v I). auto.
    + intros [(k & Lk & E & C) _]. apply vid_inj in E; auto. now subst.
  - rewrite flat_map_concat_map, map_map. change (fun x => snd (view x)) with getEdgesAsPairs.
    assert (M : map getEdgesAsPairs parts = map (fun c => map (fun e => (vid g (fst e), vid g (snd e)))
        (filter (fun e => (comp (fst e) =? c)%nat) (g_edges g))) (seq 0 num)).
    { apply nth_ext with (d := []) (d' := []); rewrite ?map_length, ?seq_length; auto.
      intros c L. destruct (nth_error parts c) as [q|] eqn:E; [|apply nth_error_None in E; lia].
      erewrite (nth_error_nth (map getEdgesAsPairs parts)); [|rewrite nth_error_map, E; reflexivity].
      destruct (PV c q E) as (_ & ->).
      erewrite nth_error_nth; [reflexivity|]. rewrite nth_error_map.
      rewrite (nth_error_nth' (seq 0 num) 0%nat) by (rewrite seq_length; lia). rewrite seq_nth by lia. reflexivity. }
    rewrite M. unfold getEdgesAsPairs.
    rewrite <- (map_map (fun c => filter (fun e => (comp (fst e) =? c)%nat) (g_edges g)) (map (fun e => (vid g (fst e), vid g (snd e))))).
    rewrite <- concat_map, <- flat_map_concat_map. apply Permutation_map.
    apply bucket_perm. intros [u v] I. cbn. apply (k_lt _ _ _ _ K). apply (w_edge _ W u v I).
Qed.

(** What remains true of any graph. *)
Lemma split_any g : gwf g -> exists parts, split g = Ok parts /\
  (forall p, In p parts -> incl (getVertices p) (getVertices g)) /\
  (forall p a b, In p parts -> In a (getVertices p) -> In b (getVertices p) -> connected (getEdgesAsPairs g) a b) /\
  (forall i j p q v, nth_error parts i = Some p -> nth_error parts j = Some q ->
     In v (getVertices p) -> In v (getVertices q) -> i = j) /\
  (exists lost, Permutation (getEdgesAsPairs g) (flat_map getEdgesAsPairs parts ++ lost)).
Proof.
  intros W. destruct (Nat.eq_dec (verticesSize g) 0) as [Z0|NE].
  { unfold split. rewrite Z0. cbn. exists []. split; [reflexivity|]. split; [intros p []|].
    split; [intros p a b []|]. split; [intros i j p q v E; destruct i; discriminate|].
    exists (getEdgesAsPairs g). apply Permutation_refl. }
  destruct (split_view g W NE) as (st & num & comp & parts & K & Sp & Len & H).
  exists parts. split; auto.
  assert (PV : forall c p, nth_error parts c = Some p ->
    forall v, In v (getVertices p) -> exists k, (k < gsize g)%nat /\ vid g k = v /\ comp k = c).
  { intros c p Ep v Iv. destruct H as [(N1 & ->)|(Nn & H)].
    - destruct c as [|c]; [|destruct c; discriminate]. cbn in Ep. injection Ep as <-.
      apply getVertices_in in Iv. destruct (ids_vid g v W Iv) as (k & L & E). exists k. split; auto. split; auto.
      pose proof (k_lt _ _ _ _ K k L). lia.
    - destruct (H c p Ep) as ([Wp Tp] & Dp). apply getVertices_in, Tp in Iv as (w & Iw). rewrite Dp in Iw.
      destruct Iw as [I|I]; apply in_map_iff in I as ([a b] & E & I); cbn in E; injection E as E1 E2;
        apply filter_In in I as [I F]; unfold in_comp in F; cbn in F; apply andb_prop in F as [F1 F2];
        apply Nat.eqb_eq in F1, F2; pose proof (w_edge _ W a b I) as (_ & La & Lb); eauto. }
  split; [|split; [|split]].
  - intros p Ip v Iv. apply In_nth_error in Ip as (c & E). destruct (PV c p E v Iv) as (k & L & <- & _).
    apply getVertices_in. now apply vid_ids.
  - intros p a b Ip Ia Ib. apply In_nth_error in Ip as (c & E).
    destruct (PV c p E a Ia) as (ka & La & <- & Ca). destruct (PV c p E b Ib) as (kb & Lb & <- & Cb).
    destruct (k_root _ _ _ _ K c) as (r & Lr & Er & Rr).
    { rewrite <- Len. apply nth_error_Some. congruence. }
    eapply rst_trans; [apply rst_sym, reach_connected; auto|apply reach_connected; auto].
  - intros i j p q v Ei Ej Iv Jv. destruct (PV i p Ei v Iv) as (k & Lk & E & <-).
    destruct (PV j q Ej v Jv) as (k' & Lk' & E' & <-). f_equal. apply (vid_inj g W); auto. congruence.
  - destruct H as [(N1 & ->)|(Nn & H)].
    { exists []. cbn. rewrite !app_nil_r. apply Permutation_refl. }
    assert (M : flat_map getEdgesAsPairs parts = map (fun e => (vid g (fst e), vid g (snd e)))
        (flat_map (fun c => filter (in_comp g comp c) (g_edges g)) (seq 0 num))).
    { rewrite !flat_map_concat_map, concat_map, map_map. f_equal.
      apply nth_ext with (d := []) (d' := []); rewrite ?map_length, ?seq_length; auto.
      intros c L. destruct (nth_error parts c) as [q|] eqn:E; [|apply nth_error_None in E; lia].
      erewrite (nth_error_nth (map getEdgesAsPairs parts)); [|rewrite nth_error_map, E; reflexivity].
      destruct (H c q E) as (_ & ->).
      erewrite nth_error_nth; [reflexivity|]. rewrite nth_error_map.
      rewrite (nth_error_nth' (seq 0 num) 0%nat) by (rewrite seq_length; lia). rewrite seq_nth by lia. reflexivity. }
    rewrite M. set (kept := fun e : nat * nat => (comp (fst e) =? comp (snd e))%nat).
    exists (map (fun e => (vid g (fst e), vid g (snd e))) (filter (fun e => negb (kept e)) (g_edges g))).
    unfold getEdgesAsPairs. rewrite <- map_app. apply Permutation_map.
    eapply Permutation_trans; [apply (filter_split kept)|]. eapply Permutation_trans; [apply Permutation_app_comm|].
    apply Permutation_app_tail.
    assert (Q : flat_map (fun c => filter (in_comp g comp c) (g_edges g)) (seq 0 num) =
      flat_map (fun c => filter (fun e => (comp (fst e) =? c)%nat) (filter kept (g_edges g))) (seq 0 num)).
    { rewrite !flat_map_concat_map. f_equal. apply map_ext. intros c. rewrite filter_filter_and.
      apply filter_ext. intros [u v]. unfold in_comp, kept. cbn.
      destruct (Nat.eqb_spec (comp u) c) as [E|E]; cbn; [|now rewrite andb_false_r].
      rewrite andb_true_r, E. now rewrite Nat.eqb_sym. }
    rewrite Q. apply bucket_perm. intros [u v] I. apply filter_In in I as [I _].
    cbn. apply (k_lt _ _ _ _ K). apply (w_edge _ W u v I).
Qed.

(** Graphs where every edge can be walked back, in terms of ids. *)
Lemma walk_back_returning g : gwf g ->
  (forall a b, In (a, b) (getEdgesAsPairs g) ->
     clos_refl_trans Z (fun x y => In (x, y) (getEdgesAsPairs g)) b a) -> returning g.
Proof.
  intros W H u v A. pose proof (w_edge _ W u v A) as (_ & Lu & Lv).
  apply (walk_reach g W (vid g v) (vid g u)); auto. apply H. now apply edge_pair.
Qed.
Lemma split_total g : gwf g -> exists parts, split g = Ok parts.
Proof. intros W. destruct (split_any g W) as (parts & E & _). eauto. Qed.
