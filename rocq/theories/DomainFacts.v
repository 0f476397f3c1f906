(** Domains of a model: facts used by the properties C15-C18. *)
From Verif Require Import Prelude StdMap Graph Materials ModelM Domain ListLemmas SpecGraph SpecDomain
  GraphProofs SplitProofs CycleProofs ComponentProofs TreeProofs DomainProofs GroundProofs.
From Coq Require Import Permutation Relations Sorted.

Section Facts.
  Context {T : Type} `{Num T}.
  Variables (mo : model T) (g : digraph) (parts : list digraph) (ds : list (Z * domain)).
  Let m := mo_mesh mo.
  Hypothesis Eg : buildMeshGraph m = Ok g.
  Hypothesis Ep : split g = Ok parts.
  Hypothesis D : described m (pecs (mo_mats mo)) parts ds.

  Lemma in_domain id d i : In (id, d) ds ->
    exists k part, id = Z.of_nat k /\ nth_error parts k = Some part /\
      (In i (dm_elems d) <-> exists e, nth_error (m_elems m) i = Some e /\ incl (e_verts e) (getVertices part)).
  Proof.
    intros I. destruct (de_part _ _ _ _ D id d I) as (k & part & -> & Ek & Ee & _).
    exists k, part. split; auto. split; auto. rewrite Ee. apply domain_elems_in.
  Qed.
  Lemma domain_vertices id d : In (id, d) ds ->
    exists k part, id = Z.of_nat k /\ nth_error parts k = Some part /\
      forall v, vertex_in m d v <-> In v (getVertices part).
  Proof.
    intros I. destruct (de_part _ _ _ _ D id d I) as (k & part & -> & Ek & Ee & _).
    exists k, part. split; auto. split; auto. intros v. eapply vertex_in_iff; eauto. eapply nth_error_In; eauto.
  Qed.
  Lemma vertex_one_domain id1 d1 id2 d2 v : In (id1, d1) ds -> In (id2, d2) ds ->
    vertex_in m d1 v -> vertex_in m d2 v -> id1 = id2.
  Proof.
    intros I1 I2 V1 V2. destruct (domain_vertices _ _ I1) as (k1 & p1 & -> & E1 & X1).
    destruct (domain_vertices _ _ I2) as (k2 & p2 & -> & E2 & X2). f_equal.
    apply X1 in V1. apply X2 in V2.
    eapply (co_disjoint _ _ _ (mesh_components m g parts Eg Ep) k1 k2 (view p1) (view p2) v); auto; now apply map_nth_error.
  Qed.
  Lemma domain_unique id d1 d2 : In (id, d1) ds -> In (id, d2) ds -> d1 = d2.
  Proof.
    intros I1 I2. destruct (described_map _ _ _ _ D) as [K _]. apply increasing_sorted in K.
    apply (proj2 (mget_in_iff id d1 ds K)) in I1. apply (proj2 (mget_in_iff id d2 ds K)) in I2. congruence.
  Qed.

  Lemma domain_has_element id d : In (id, d) ds -> exists i, In i (dm_elems d).
  Proof.
    intros I. destruct (domain_vertices _ _ I) as (k & part & -> & Ek & X).
    assert (NE : fst (view part) <> []).
    { apply (co_nonempty _ _ _ (mesh_components m g parts Eg Ep)). apply in_map. eapply nth_error_In; eauto. }
    cbn in NE. destruct (getVertices part) as [|v r] eqn:Ev; [contradiction|].
    destruct (proj2 (X v) (or_introl eq_refl)) as (i & e & Ii & _). eauto.
  Qed.
  Lemma domain_conductors id d : In (id, d) ds ->
    (forall c, In c (dm_conductors d) <-> exists p b, In p (pecs (mo_mats mo)) /\
       getMaterialIdFromName (p_name p) = Ok c /\ conductor_touches m d p b) /\
    (forall b, In b (dm_bdr d) <-> exists p, In p (pecs (mo_mats mo)) /\ conductor_touches m d p b).
  Proof.
    intros I. destruct (de_part _ _ _ _ D id d I) as (k & part & -> & Ek & Ee & _ & _ & Bd & Co).
    assert (V : forall v, vertex_in m d v <-> In v (getVertices part))
      by (intros v; eapply vertex_in_iff; eauto; eapply nth_error_In; eauto).
    assert (B : forall p b, In b (getBdrElemsInDomain (p_attr p) (getVertices part) m) <-> conductor_touches m d p b).
    { intros p b. rewrite (proj2 (bdr_elems_in m (p_attr p) (getVertices part) (sof_sorted _)) b).
      unfold conductor_touches, touches. split; intros (be & E1 & E2 & v & w & N & X1 & X2 & X3 & X4);
        exists be; (split; [auto|]; split; [auto|]); exists v, w; rewrite !V in *; auto. }
    split.
    - intros c. rewrite Co. split.
      + intros (p & Ip & Ec & NE). destruct (getBdrElemsInDomain (p_attr p) (getVertices part) m) as [|b l] eqn:Eb; [contradiction|].
        exists p, b. split; auto. split; auto. apply B. rewrite Eb. now left.
      + intros (p & b & Ip & Ec & Ct). exists p. split; auto. split; auto. apply B in Ct. intros E. now rewrite E in Ct.
    - intros b. rewrite Bd. split; intros (p & Ip & X); exists p; (split; [auto|]); now apply B.
  Qed.

  Hypothesis nonempty : forall e, In e (m_elems m) -> e_verts e <> [].

  Lemma some_domain i : (i < List.length (m_elems m))%nat -> exists id d, In (id, d) ds /\ In i (dm_elems d).
  Proof.
    intros L. destruct (nth_error (m_elems m) i) as [e|] eqn:Ei; [|apply nth_error_Some in L; contradiction].
    destruct (element_has_part m g parts Eg Ep nonempty i e Ei) as (k & part & Ek & Inc).
    destruct (de_all _ _ _ _ D k part Ek) as (d & Id). exists (Z.of_nat k), d. split; auto.
    destruct (in_domain _ _ i Id) as (k' & part' & E & Ek' & X). apply Nat2Z.inj in E. subst k'.
    rewrite Ek in Ek'. injection Ek' as <-. apply X. eauto.
  Qed.
  Lemma element_linked id d i j : In (id, d) ds -> In i (dm_elems d) ->
    (In j (dm_elems d) <-> (j < List.length (m_elems m))%nat /\ linked m i j).
  Proof.
    intros Id Ii. destruct (in_domain _ _ i Id) as (k & part & -> & Ek & Xi).
    destruct (in_domain _ _ j Id) as (k' & part' & E & Ek' & Xj). apply Nat2Z.inj in E. subst k'.
    rewrite Ek in Ek'. injection Ek' as <-.
    pose proof (nth_error_In _ _ Ek) as Ip. rewrite Xj. rewrite Xi in Ii. split.
    - intros (f & Ej & Jc). destruct Ii as (e & Ei & Ic). split; [apply nth_error_Some; congruence|].
      eapply same_part_linked; eauto.
    - intros [L Lk]. apply (linked_same_part m g parts Eg Ep i j Lk part Ip). auto.
  Qed.
  Lemma one_domain i id1 d1 id2 d2 : In (id1, d1) ds -> In (id2, d2) ds ->
    In i (dm_elems d1) -> In i (dm_elems d2) -> id1 = id2.
  Proof.
    intros I1 I2 E1 E2. destruct (in_domain _ _ i I1) as (k1 & p1 & -> & Ek1 & X1).
    destruct (in_domain _ _ i I2) as (k2 & p2 & -> & Ek2 & X2). f_equal.
    apply X1 in E1 as (e & Ei & Inc1). apply X2 in E2 as (e' & Ei' & Inc2). rewrite Ei in Ei'. injection Ei' as <-.
    eapply element_one_part; eauto.
  Qed.
  Lemma part_vertex id d i v : In (id, d) ds -> In i (dm_elems d) -> (vertex_of_part m i v <-> vertex_in m d v).
  Proof.
    intros Id Ii. split.
    - intros (j & e & L & Ej & Iv). exists j, e. split; auto. apply (element_linked _ _ _ _ Id Ii). split; auto.
      apply nth_error_Some; congruence.
    - intros (j & e & Ij & Ej & Iv). exists j, e. split; auto. now apply (element_linked _ _ _ _ Id Ii).
  Qed.
  Lemma touches_part_domain c i : touches_part m (pecs (mo_mats mo)) c i <->
    exists id d, In (id, d) ds /\ In i (dm_elems d) /\ In c (dm_conductors d).
  Proof.
    split.
    - intros (p & b & be & v & w & Ip & Ec & Eb & Ea & N & Iv & Iw & Vv & Vw).
      assert (L : (i < List.length (m_elems m))%nat).
      { destruct Vv as (j & e & L & Ej & _). apply clos_rst_rst1n in L. inversion L as [|x z S _]; subst.
        - apply nth_error_Some; congruence.
        - destruct S as [(e1 & e2 & v1 & E1 & _)|(e1 & e2 & v1 & _ & E1 & _)]; apply nth_error_Some; congruence. }
      destruct (some_domain i L) as (id & d & Id & Ii). exists id, d. split; auto. split; auto.
      apply (domain_conductors _ _ Id). exists p, b. split; auto. split; auto. exists be. split; auto. split; auto.
      exists v, w. rewrite <- !(part_vertex id d i) by auto. auto.
    - intros (id & d & Id & Ii & Ic). apply (domain_conductors _ _ Id) in Ic as (p & b & Ip & Ec & be & Eb & Ea & v & w & N & Iv & Iw & Vv & Vw).
      exists p, b, be, v, w. rewrite !(part_vertex id d i) by auto. repeat (split; [assumption|]). assumption.
  Qed.
  (** The conductor 0 condition of the tree in terms of the mesh. *)
  Lemma one_part_iff c : touches_one_part m (pecs (mo_mats mo)) c <-> exists id, holders ds c = [id].
  Proof.
    pose proof (described_map _ _ _ _ D) as [K _]. pose proof (holders_increasing ds c K) as Hi.
    assert (Hl : forall id, In id (holders ds c) <-> exists i d, In (id, d) ds /\ In i (dm_elems d) /\ touches_part m (pecs (mo_mats mo)) c i).
    { intros id. rewrite in_holders. split.
      - intros (d & Id & Ic). destruct (domain_has_element _ _ Id) as (i & Ii). exists i, d. split; auto. split; auto.
        apply touches_part_domain. eauto.
      - intros (i & d & Id & Ii & Tp). apply touches_part_domain in Tp as (id' & d' & Id' & Ii' & Ic).
        assert (id = id') by (eapply one_domain; eauto). subst id'. exists d'. auto. }
    split.
    - intros [(i & Ti) U].
      destruct (proj1 (touches_part_domain c i) Ti) as (id & d & Id & Ii & Ic).
      exists id. assert (A : forall x, In x (holders ds c) <-> x = id).
      { intros x. split.
        - intros Ix. apply Hl in Ix as (j & d' & Id' & Ij & Tj). specialize (U i j Ti Tj).
          eapply one_domain; [exact Id'|exact Id|exact Ij|].
          apply (element_linked _ _ _ _ Id Ii). split; auto.
          destruct (in_domain _ _ j Id') as (? & ? & _ & _ & X). apply X in Ij as (e & Ej & _). apply nth_error_Some; congruence.
        - intros ->. apply Hl. eauto. }
      destruct (holders ds c) as [|x [|y l]].
      + exfalso. apply (A id). reflexivity.
      + f_equal. apply A. now left.
      + assert (x = id) by (apply A; now left). assert (y = id) by (apply A; right; now left). subst.
        destruct Hi as [L _]. lia.
    - intros (id & Eh). split.
      + destruct (proj1 (Hl id)) as (i & d & _ & _ & Tp); [rewrite Eh; now left|]. eauto.
      + intros i j Ti Tj. apply touches_part_domain in Ti as (a & da & Ia & Ii & Ca). apply touches_part_domain in Tj as (b & db & Ib & Ij & Cb).
        assert (Ha : In a (holders ds c)) by (apply in_holders; exists da; auto).
        assert (Hb : In b (holders ds c)) by (apply in_holders; exists db; auto).
        rewrite Eh in Ha, Hb. destruct Ha as [<-|[]]. destruct Hb as [<-|[]].
        assert (da = db) by (eapply domain_unique; eauto). subst db.
        now apply (element_linked _ _ _ _ Ia Ii).
  Qed.
End Facts.
