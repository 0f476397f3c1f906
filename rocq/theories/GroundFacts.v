(** When the domains of a model can be built, and their grounds (C15, C17, C18). *)
From Verif Require Import Prelude StdMap Graph Materials ModelM Domain ListLemmas SpecGraph SpecDomain
  GraphProofs SplitProofs CycleProofs ComponentProofs TreeProofs DomainProofs GroundProofs DomainFacts.
From Coq Require Import Permutation Relations Sorted.

Lemma shape_holders l1 l2 c : shape l1 l2 -> holders l1 c = holders l2 c.
Proof.
  unfold holders. induction 1 as [|x y l1 l2 (E1 & E2 & _) F IH]; cbn; [reflexivity|].
  rewrite <- E2. destruct (smem c (dm_conductors (snd x))); cbn; congruence.
Qed.
Lemma shape_conductors l1 l2 : shape l1 l2 -> all_conductors l1 = all_conductors l2.
Proof.
  unfold all_conductors. intros S. f_equal. induction S as [|x y l1 l2 (E1 & E2 & _) F IH]; cbn; [reflexivity|]. now rewrite E2, IH.
Qed.
Lemma shape_minus_one l1 l2 : shape l1 l2 -> no_conductor_minus_one l1 -> no_conductor_minus_one l2.
Proof. intros S N id X. apply (N id). now apply (shape_has _ _ _ _ S). Qed.

Definition tree_edges (ds : list (Z * domain)) : list (Z * Z) :=
  flat_map (fun c => star (holders ds c)) (all_conductors ds).
Lemma tree_edges_in ds a b : increasing (map fst ds) ->
  (In (a, b) (tree_edges ds) <-> exists c, first_with ds a c /\ has_conductor ds b c /\ a <> b).
Proof.
  intros K. unfold tree_edges. rewrite in_flat_map. split.
  - intros (c & _ & I). apply star_in in I as (a' & b' & [= <- <-] & Ia & Ib & L & Lo); [|now apply holders_increasing].
    exists c. rewrite in_holders in Ia, Ib. split; [split; auto|split; [auto|lia]].
    intros id' X. apply Lo. now apply in_holders.
  - intros (c & (Ha & Lo) & Hb & N). exists c. split.
    + unfold all_conductors. rewrite in_sof. apply in_flat_map. destruct Ha as (d & Id & Ic). exists (a, d). auto.
    + apply star_in; [now apply holders_increasing|]. exists a, b. rewrite !in_holders. repeat (split; [now auto|]).
      split; [specialize (Lo b Hb); lia|]. intros x Ix. apply in_holders in Ix. auto.
Qed.

Lemma tree_of_holders dbg ds t : mkDomainTree dbg ds = Ok t -> exists i, holders ds 0 = [i].
Proof.
  unfold mkDomainTree. rewrite tree_check. destruct (holders ds 0) as [|i [|j l]]; cbn; try discriminate. eauto.
Qed.
Lemma unique_holder ds : domain_map ds -> ((exists i, holders ds 0 = [i]) <-> exists! id, has_conductor ds id 0).
Proof.
  intros [K _]. pose proof (holders_increasing ds 0 K) as Hi. split.
  - intros (i & E). exists i. split; [apply in_holders; rewrite E; now left|].
    intros x X. apply in_holders in X. rewrite E in X. destruct X as [X|[]]; auto.
  - intros (i & Ci & U). exists i. apply in_holders in Ci.
    assert (A : forall x, In x (holders ds 0) -> i = x) by (intros x X; apply U; now apply in_holders).
    destruct (holders ds 0) as [|x [|y l]]; [destruct Ci| |].
    + f_equal. symmetry. apply A. now left.
    + assert (i = x) by (apply A; now left). assert (i = y) by (apply A; right; now left). subst. destruct Hi; lia.
Qed.
Lemma tree_throws dbg ds : (forall i, holders ds 0 <> [i]) ->
  exists msg, mkDomainTree dbg ds = Throw (RuntimeError msg).
Proof.
  intros N. unfold mkDomainTree. rewrite tree_check. destruct (holders ds 0) as [|i [|j l]]; cbn; eauto.
  destruct (N i). reflexivity.
Qed.

Section Build.
  Context {T : Type} `{Num T}.

  Lemma raw_total dbg (mo : model T) : determineOpenness dbg mo = Ok Closed ->
    Forall proper_polygon (m_elems (mo_mesh mo)) ->
    (forall p, In p (pecs (mo_mats mo)) -> is_ok (getMaterialIdFromName (p_name p))) ->
    exists raw, rawDomains dbg mo = Ok raw.
  Proof.
    intros O P N. unfold rawDomains. rewrite O. cbn.
    assert (Bg : exists g, buildMeshGraph (mo_mesh mo) = Ok g).
    { unfold buildMeshGraph. clear O N. assert (W : gwf empty_graph) by apply gwf_empty. revert W. generalize empty_graph.
      induction P as [|e l Pe F IH]; intros g0 W; cbn; [eauto|].
      destruct Pe as [L2 NL]. unfold addClosedPath at 1. destruct (Nat.eqb_spec (List.length (e_verts e)) 1); [lia|].
      rewrite closed_pairs_spec. rewrite foldM_addEdge_total by auto. cbn. apply IH.
      apply addEdges_left_view; auto. }
    destruct Bg as (g & Eg). rewrite Eg. cbn.
    destruct (paths_view _ _ (mesh_paths (mo_mesh mo) g Eg)) as (Tg & _).
    destruct (split_total g (proj1 Tg)) as (parts & Ep). rewrite Ep. cbn.
    destruct (mapM_total (domain_of_part (mo_mesh mo) (pecs (mo_mats mo))) parts) as (ds & Ed).
    { intros part _. unfold domain_of_part. generalize {| dm_ground := -1; dm_conductors := []; dm_elems := domain_elems (mo_mesh mo) (getVertices part); dm_bdr := [] |}.
      induction (pecs (mo_mats mo)) as [|p l IH]; intros d; cbn; [eexists; reflexivity|].
      destruct (getBdrElemsInDomain (p_attr p) (getVertices part) (mo_mesh mo)) eqn:Eb; cbn.
      - apply IH. intros; apply N; now right.
      - destruct (N p (or_introl eq_refl)) as (c & ->). cbn. apply IH. intros; apply N; now right. }
    rewrite Ed. cbn. eauto.
  Qed.

  (** The grounds, with the tree of the result itself. *)
  Lemma build_grounds dbg (mo : model T) ds : buildDomains dbg mo = Ok ds -> no_conductor_minus_one ds ->
    domain_map ds /\ (exists i, holders ds 0 = [i]) /\
    forall b d, In (b, d) ds ->
      (~ In b (map snd (tree_edges ds)) -> dm_ground d = if smem 0%Z (dm_conductors d) then 0%Z else (-1)%Z) /\
      (In b (map snd (tree_edges ds)) -> exists a, In (a, b) (tree_edges ds) /\ ground_from dbg ds a d).
  Proof.
    intros E NM. destruct (build_inv _ _ _ E) as (raw & tree & Er & Et & Ef & Sm & S0 & S).
    destruct (raw_described _ _ _ Er) as (g & parts & Eg & Ep & D & G0).
    pose proof (described_map _ _ _ _ D) as DM.
    assert (DM0 : domain_map (ground0 raw)) by (eapply shape_map; eauto).
    assert (DMs : domain_map ds) by (eapply shape_map; eauto).
    assert (Sd : shape (ground0 raw) ds) by (eapply shape_trans; [apply shape_sym; eauto|eauto]).
    destruct (tree_of_holders _ _ _ Et) as (i0 & H0).
    destruct (tree_spec dbg (ground0 raw) DM0 (shape_minus_one _ _ (shape_sym _ _ Sd) NM) i0 H0) as (t' & Et' & _ & _ & Ee & _).
    rewrite Et in Et'. injection Et' as <-. fold (tree_edges (ground0 raw)) in Ee.
    assert (Ee' : tree_edges (ground0 raw) = tree_edges ds).
    { unfold tree_edges. rewrite (shape_conductors _ _ Sd). rewrite !flat_map_concat_map. f_equal. apply map_ext.
      intros c. now rewrite (shape_holders _ _ c Sd). }
    rewrite Ee' in Ee. rewrite Ee in Ef.
    split; auto. split. { exists i0. now rewrite <- (shape_holders _ _ 0 Sd). }
    intros b d I.
    assert (Ss : msorted ds) by (eapply shape_sorted; eauto).
    apply (proj2 (mget_in_iff b d ds Ss)) in I.
    destruct (ground_fold _ _ _ _ Sm Ef) as (_ & F1 & F2). split.
    - intros Nb. rewrite F1 in I by auto. apply mget_Some_in in I. unfold ground0 in I.
      apply in_map_iff in I as ([i d0] & [= <- <-] & I0). cbn [fst snd] in *.
      destruct (smem 0%Z (dm_conductors d0)) eqn:Q; cbn [set_ground dm_ground dm_conductors]; rewrite Q; [reflexivity|]. eauto.
    - intros Ib. destruct (F2 b d Ib I) as (l1 & a & l2 & El & _ & Gf). exists a. split.
      + rewrite El. apply in_or_app. right. now left.
      + eapply ground_from_shape; [|exact Gf]. now apply shape_sym.
  Qed.

  Lemma build_total (mo : model T) : determineOpenness false mo = Ok Closed ->
    Forall proper_polygon (m_elems (mo_mesh mo)) ->
    (forall p, In p (pecs (mo_mats mo)) -> exists c, getMaterialIdFromName (p_name p) = Ok c /\ c <> (-1)%Z) ->
    (touches_one_part (mo_mesh mo) (pecs (mo_mats mo)) 0 -> is_ok (buildDomains false mo)) /\
    (~ touches_one_part (mo_mesh mo) (pecs (mo_mats mo)) 0 -> exists msg, buildDomains false mo = Throw (RuntimeError msg)).
  Proof.
    intros O P N.
    destruct (raw_total false mo O P) as (raw & Er). { intros p Ip. destruct (N p Ip) as (c & -> & _). eexists; reflexivity. }
    destruct (raw_described _ _ _ Er) as (g & parts & Eg & Ep & D & G0).
    pose proof (described_map _ _ _ _ D) as DM.
    assert (S0 : shape raw (ground0 raw)) by apply shape_ground0.
    assert (DM0 : domain_map (ground0 raw)) by (eapply shape_map; eauto).
    assert (D0 : described (mo_mesh mo) (pecs (mo_mats mo)) parts (ground0 raw)) by (eapply described_shape; eauto).
    assert (NE : forall e, In e (m_elems (mo_mesh mo)) -> e_verts e <> []).
    { intros e Ie Ev. rewrite Forall_forall in P. destruct (P e Ie) as [L _]. rewrite Ev in L. cbn in L. lia. }
    rewrite (one_part_iff mo g parts (ground0 raw) Eg Ep D0 NE 0%Z).
    unfold buildDomains. rewrite Er. cbn [bind].
    assert (NM : no_conductor_minus_one (ground0 raw)).
    { intros id (d & Id & Ic). apply (domain_conductors mo g parts (ground0 raw) Eg Ep D0 id d Id) in Ic as (p & b & Ip & Ec & _).
      destruct (N p Ip) as (c & Ec' & Nc). congruence. }
    assert (Sm : msorted (ground0 raw)) by (unfold msorted; apply (increasing_sorted (map fst (ground0 raw))), DM0).
    split.
    - intros (i0 & H0). destruct (tree_spec false (ground0 raw) DM0 NM i0 H0) as (t & -> & _ & _ & Ee & _). cbn [bind].
      fold (tree_edges (ground0 raw)) in Ee. rewrite Ee. apply ground_fold_total; auto.
      intros a b I. apply tree_edges_in in I as (c & ((da & Ia & Ca) & _) & (db & Ib & Cb) & _); [|apply DM0].
      exists da, db. split; [now apply mget_in_iff|]. split; [now apply mget_in_iff|].
      assert (Ic : In c (sinter (dm_conductors da) (dm_conductors db))) by now apply in_sinter.
      destruct (sinter (dm_conductors da) (dm_conductors db)) as [|x r]; [destruct Ic|]. exists x, r. split; auto. discriminate.
    - intros Nt. destruct (tree_throws false (ground0 raw)) as (msg & ->); [|cbn; eauto].
      intros i X. apply Nt. eauto.
  Qed.
End Build.
