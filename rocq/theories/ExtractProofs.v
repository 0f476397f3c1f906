(** Models of single domains (C19). *)
From Verif Require Import Prelude StdMap Graph Materials ModelM Domain ListLemmas SpecGraph SpecDomain
  GraphProofs SplitProofs CycleProofs ComponentProofs TreeProofs DomainProofs GroundProofs DomainFacts SpecInput SpecModel ModelProofs.
From Coq Require Import Permutation Relations Sorted.

Section Extract.
  Context {T : Type}.
  Implicit Types (m : mesh T) (e : element T).

  Lemma backup_get m i e : nth_error (m_elems m) i = Some e -> mget i (attr_backup m) = Some (e_attr e).
  Proof.
    intros Ei. unfold attr_backup.
    assert (G : forall (l : list (nat * element T)) r, msorted r -> NoDup (map fst l) ->
      (forall x, In x (map fst l) -> mget x r = None) ->
      let r' := fold_left (fun r (ie : nat * element T) => mins (fst ie) (e_attr (snd ie)) r) l r in
      (forall x e, In (x, e) l -> mget x r' = Some (e_attr e)) /\
      (forall x, ~ In x (map fst l) -> mget x r' = mget x r)).
    { induction l as [|[k f] l IH]; intros r S ND N; cbn; [split; [intros x e0 []|auto]|].
      cbn in ND. inversion ND as [|? ? NI ND']; subst.
      destruct (IH (mins k (e_attr f) r)) as (A & B); [now apply mins_sorted|exact ND'| |].
      { intros x I. rewrite mget_mins by auto. destruct (oequiv x k) eqn:Q.
        - apply oequiv_eq in Q; subst. contradiction.
        - apply N. cbn. auto. }
      split.
      - intros x e0 [E|I]; [|auto]. injection E as <- <-. rewrite B by auto. rewrite mget_mins by auto.
        rewrite oequiv_refl, (N k (or_introl eq_refl)). reflexivity.
      - intros x NI'. rewrite B by tauto. rewrite mget_mins by auto. destruct (oequiv x k) eqn:Q; auto.
        apply oequiv_eq in Q; subst. tauto. }
    destruct (G (enum (m_elems m)) []) as (A & _).
    - constructor.
    - rewrite enum_fst. apply seq_NoDup.
    - reflexivity.
    - apply A. now apply in_enum.
  Qed.
  Lemma set_attr_same e a : set_attr (set_attr e a) (e_attr e) = e.
  Proof. destruct e; reflexivity. Qed.
  Lemma enum_map_enum {A B} (f : nat * A -> B) (l : list A) :
    enum (map f (enum l)) = map (fun ie => (fst ie, f ie)) (enum l).
  Proof.
    unfold enum. generalize 0%nat. induction l as [|x l IH]; intros k; cbn; [reflexivity|]. now rewrite IH.
  Qed.
  Definition in_ids (ids : list nat) (ie : nat * element T) : bool :=
    if in_dec Nat.eq_dec (fst ie) ids then true else false.
  Lemma smem_ids i ids : smem i ids = if in_dec Nat.eq_dec i ids then true else false.
  Proof.
    destruct (in_dec Nat.eq_dec i ids) as [I|I].
    - now apply smem_in.
    - apply not_true_iff_false. intros X. apply smem_in in X. contradiction.
  Qed.
  Lemma submesh_marked m d :
    submesh_elems (mark_domain m d) 1 =
    map (fun ie => (fst ie, set_attr (snd ie) 1%Z)) (filter (in_ids (dm_elems d)) (enum (m_elems m))).
  Proof.
    unfold submesh_elems, mark_domain. cbn [m_elems with_elems]. rewrite enum_map_enum.
    induction (enum (m_elems m)) as [|[i e] l IH]; [reflexivity|]. cbn [map filter fst snd].
    unfold in_ids at 1; cbn [fst]. rewrite smem_ids. destruct (in_dec Nat.eq_dec i (dm_elems d)); cbn; now rewrite IH.
  Qed.
  Lemma restored_elems m d :
    mapM (fun ie : nat * element T => let* a := mat_ (fst ie) (attr_backup m) in Ok (set_attr (snd ie) a))
         (submesh_elems (mark_domain m d) 1) = Ok (elements_of m (dm_elems d)).
  Proof.
    rewrite submesh_marked. unfold elements_of. change (fun ie : nat * element T => if in_dec Nat.eq_dec (fst ie) (dm_elems d) then true else false) with (in_ids (dm_elems d)).
    assert (A : forall x, In x (filter (in_ids (dm_elems d)) (enum (m_elems m))) -> nth_error (m_elems m) (fst x) = Some (snd x)).
    { intros [i e] I. apply filter_In in I as [I _]. now apply in_enum in I. }
    induction (filter (in_ids (dm_elems d)) (enum (m_elems m))) as [|[i e] l IH]; [reflexivity|]. cbn [map mapM].
    unfold mat_. cbn [fst]. rewrite (backup_get m i e (A (i, e) (or_introl eq_refl))). cbn [bind snd].
    change (mapM _ (map _ l)) with (mapM (fun ie : nat * element T => let* a := mat_ (fst ie) (attr_backup m) in Ok (set_attr (snd ie) a))
       (map (fun ie => (fst ie, set_attr (snd ie) 1%Z)) l)).
    rewrite IH by (intros; apply A; now right). cbn. now rewrite set_attr_same.
  Qed.
  Lemma restore_same m d : restore (mark_domain m d) (attr_backup m) = Ok m.
  Proof.
    unfold restore, mark_domain. cbn [m_elems with_elems]. rewrite enum_map_enum.
    assert (A : forall x, In x (enum (m_elems m)) -> nth_error (m_elems m) (fst x) = Some (snd x)).
    { intros [i e] I. now apply in_enum in I. }
    assert (E : forall l, (forall x, In x l -> nth_error (m_elems m) (fst x) = Some (snd x)) ->
      mapM (fun ie : nat * element T => let* a := mat_ (fst ie) (attr_backup m) in Ok (set_attr (snd ie) a))
        (map (fun ie : nat * element T => (fst ie, set_attr (snd ie) (if smem (fst ie) (dm_elems d) then 1 else 2)%Z)) l) = Ok (map snd l)).
    { induction l as [|[i e] l IH]; intros P; [reflexivity|]. cbn [map mapM fst snd]. unfold mat_ at 1.
      rewrite (backup_get m i e (P (i, e) (or_introl eq_refl))). cbn [bind]. rewrite IH by (intros; apply P; now right).
      cbn [bind]. now rewrite set_attr_same. }
    rewrite E by exact A. cbn [bind]. rewrite enum_snd. unfold with_elems; cbn. destruct m; reflexivity.
  Qed.

  (** ** Boundary edges *)
  Lemma same_edge_joins a b (e : Z * Z) : same_edge (a, b) e = joins a b e.
  Proof.
    unfold same_edge, joins; cbn. rewrite (Z.eqb_sym a (fst e)), (Z.eqb_sym b (snd e)), (Z.eqb_sym a (snd e)), (Z.eqb_sym b (fst e)).
    f_equal. apply andb_comm.
  Qed.
  Lemma filter_eq_length {A} (p q : A -> bool) l : (forall x, p x = q x) -> List.length (filter p l) = List.length (filter q l).
  Proof. intros E. induction l as [|x l IH]; cbn; auto. rewrite E. destruct (q x); cbn; auto. Qed.
  Lemma boundary_edges_in es a b : In (a, b) (boundary_edges es) <->
    In (a, b) (flat_map (fun e => path_edges (e_verts e)) es) /\ edge_uses es a b = 1%nat.
  Proof.
    unfold boundary_edges, edge_uses, elem_edges.
    assert (E : flat_map (fun e : element T => closed_pairs (e_verts e)) es = flat_map (fun e => path_edges (e_verts e)) es).
    { rewrite !flat_map_concat_map. f_equal. apply map_ext. intros; apply closed_pairs_spec. }
    change (flat_map (fun e : element T => closed_pairs (e_verts e)) es) with (flat_map elem_edges es) in E. rewrite filter_In.
    change (flat_map (fun e : element T => closed_pairs (e_verts e)) es) with (flat_map elem_edges es).
    rewrite E, Nat.eqb_eq. rewrite (filter_eq_length (same_edge (a, b)) (joins a b)) by (intros; apply same_edge_joins). tauto.
  Qed.
  Lemma boundary_edges_verts es : boundary_edges (map (fun e => set_attr e 1%Z) es) = boundary_edges es.
  Proof.
    unfold boundary_edges.
    assert (E : flat_map elem_edges (map (fun e : element T => set_attr e 1%Z) es) = flat_map elem_edges es).
    { rewrite !flat_map_concat_map, map_map. reflexivity. }
    now rewrite E.
  Qed.
  Lemma filter_once {A} (same : A -> A -> bool) (l : list A) : (forall x, same x x = true) ->
    NoDup (filter (fun x => (List.length (filter (same x) l) =? 1)%nat) l).
  Proof.
    intros R. assert (G : forall l1 l2, NoDup (filter (fun x => (List.length (filter (same x) (l1 ++ l2)) =? 1)%nat) l2)).
    { intros l1 l2. revert l1. induction l2 as [|x l2 IH]; intros l1; cbn [filter]; [constructor|].
      assert (IH' : NoDup (filter (fun x0 => (List.length (filter (same x0) (l1 ++ x :: l2)) =? 1)%nat) l2)).
      { specialize (IH (l1 ++ [x])). rewrite <- app_assoc in IH. exact IH. }
      destruct (Nat.eqb_spec (List.length (filter (same x) (l1 ++ x :: l2))) 1) as [E|E]; auto.
      constructor; auto. intros I. apply filter_In in I as [I _].
      rewrite filter_app, app_length in E. cbn in E. rewrite R in E. cbn in E.
      assert (In x (filter (same x) l2)) by (apply filter_In; auto).
      destruct (filter (same x) l2); [contradiction|]. cbn in E. lia. }
    exact (G [] l).
  Qed.
  Lemma boundary_edges_nodup (es : list (element T)) : NoDup (boundary_edges es).
  Proof.
    apply filter_once. intros x. unfold same_edge. now rewrite !Z.eqb_refl.
  Qed.

  Lemma on_edge_iff a b e : on_edge a b e <-> exists f, edge_of_bdr e = Some f /\ same_edge (a, b) f = true.
  Proof.
    unfold on_edge, edge_of_bdr. split.
    - intros (v & w & r & -> & J). exists (v, w). split; auto. now rewrite same_edge_joins.
    - intros (f & E & J). destruct (e_verts e) as [|v [|w r]]; try discriminate. injection E as <-.
      exists v, w, r. split; auto. now rewrite <- same_edge_joins.
  Qed.
  Lemma face_spec m a b :
    (exists k be, faceToBdrElem m (a, b) = Z.of_nat k /\ nth_error (m_bdr m) k = Some be /\ on_edge a b be /\
       forall k' be', (k < k')%nat -> nth_error (m_bdr m) k' = Some be' -> ~ on_edge a b be') \/
    (faceToBdrElem m (a, b) = (-1)%Z /\ forall be, In be (m_bdr m) -> ~ on_edge a b be).
  Proof.
    unfold faceToBdrElem.
    assert (G : forall l k0 r0,
      let r := fold_left (fun r (ib : nat * element T) =>
                 match edge_of_bdr (snd ib) with
                 | Some f => if same_edge (a, b) f then Z.of_nat (fst ib) else r
                 | None => r
                 end) (enum_from k0 l) r0 in
      (exists k be, r = Z.of_nat (k0 + k) /\ nth_error l k = Some be /\ on_edge a b be /\
         forall k' be', (k < k')%nat -> nth_error l k' = Some be' -> ~ on_edge a b be') \/
      (r = r0 /\ forall be, In be l -> ~ on_edge a b be)).
    { induction l as [|x l IH]; intros k0 r0; [right; split; [reflexivity|intros ? []]|]. cbn [enum_from fold_left fst snd].
      set (r1 := match edge_of_bdr x with Some f => if same_edge (a, b) f then Z.of_nat k0 else r0 | None => r0 end).
      destruct (IH (S k0) r1) as [(k & be & E & En & O & L)|(E & N)].
      - left. exists (S k), be. rewrite E. split; [f_equal; lia|]. split; auto. split; auto.
        intros [|k'] be' Lk En'; [lia|]. apply (L k'); auto. lia.
      - cbn zeta in E. rewrite E. destruct (edge_of_bdr x) as [f|] eqn:Ef; [destruct (same_edge (a, b) f) eqn:Es|].
        + left. exists 0%nat, x. subst r1. split; [f_equal; lia|]. split; auto. split; [apply on_edge_iff; eauto|].
          intros [|k'] be' Lk En'; [lia|]. apply N. eapply nth_error_In; eauto.
        + right. split; auto. intros be [<-|I]; auto. intros O. apply on_edge_iff in O as (f' & Ef' & Es'). congruence.
        + right. split; auto. intros be [<-|I]; auto. intros O. apply on_edge_iff in O as (f' & Ef' & Es'). congruence. }
    destruct (G (m_bdr m) 0%nat (-1)%Z) as [(k & be & E & X)|X]; [left|right; exact X].
    exists k, be. split; [exact E|exact X].
  Qed.

  (** The boundary elements of the model of a domain. *)
  Definition new_bdr m (e : Z * Z) : outcome (element T) :=
    let* b := vec_at (m_bdr m) (faceToBdrElem m e) in
    Ok {| e_attr := e_attr b; e_verts := [fst e; snd e]; e_vol := e_vol b |}.
  Lemma new_bdr_ok m a b be : new_bdr m (a, b) = Ok be <->
    exists gbe, boundary_on_edge m a b gbe /\ be = {| e_attr := e_attr gbe; e_verts := [a; b]; e_vol := e_vol gbe |}.
  Proof.
    unfold new_bdr. destruct (face_spec m a b) as [(k & x & -> & En & O & L)|(-> & N)].
    - unfold vec_at. destruct (Z.ltb_spec (Z.of_nat k) 0); [lia|]. rewrite Nat2Z.id, En. cbn. split.
      + intros [= <-]. exists x. split; auto. exists k. auto.
      + intros (gbe & (k' & En' & O' & L') & ->).
        destruct (Nat.lt_trichotomy k k') as [Q|[Q|Q]].
        * exfalso. apply (L k' gbe Q En' O').
        * subst. rewrite En in En'. injection En' as ->. reflexivity.
        * exfalso. apply (L' k x Q En O).
    - cbn. split; [discriminate|]. intros (gbe & (k & En & O & _) & _). exfalso. apply (N gbe); auto. eapply nth_error_In; eauto.
  Qed.
  Lemma new_bdr_total m a b :
    (exists be, In be (m_bdr m) /\ on_edge a b be) -> is_ok (new_bdr m (a, b)).
  Proof.
    intros (be & I & O). unfold new_bdr. destruct (face_spec m a b) as [(k & x & -> & En & _)|(-> & N)].
    - unfold vec_at. destruct (Z.ltb_spec (Z.of_nat k) 0); [lia|]. rewrite Nat2Z.id, En. eexists; reflexivity.
    - exfalso. eapply N; eauto.
  Qed.
  Lemma new_bdr_missing m a b :
    (forall be, In be (m_bdr m) -> ~ on_edge a b be) -> new_bdr m (a, b) = Undef IndexOutOfBounds.
  Proof.
    intros N. unfold new_bdr. destruct (face_spec m a b) as [(k & x & -> & En & O & _)|(-> & _)]; [|reflexivity].
    exfalso. eapply N; eauto. eapply nth_error_In; eauto.
  Qed.

  Lemma extract_unfold m mats d :
    buildModelForDomain m mats d =
    let* bs := mapM (new_bdr m) (boundary_edges (elements_of m (dm_elems d))) in
    Ok (m, setGround (mkModel {| m_elems := elements_of m (dm_elems d); m_bdr := bs; m_coord := m_coord m |} mats) (dm_ground d)).
  Proof.
    unfold buildModelForDomain. rewrite restored_elems, restore_same. cbn [bind].
    assert (B : boundary_edges (map snd (submesh_elems (mark_domain m d) 1)) = boundary_edges (elements_of m (dm_elems d))).
    { rewrite submesh_marked, map_map. cbn [snd]. unfold elements_of. rewrite <- (map_map snd (fun e => set_attr e 1%Z)).
      apply boundary_edges_verts. }
    rewrite B. reflexivity.
  Qed.
  Lemma mapM_undef {A B} (f : A -> outcome B) u l : (forall x, In x l -> is_ok (f x) \/ f x = Undef u) ->
    (exists x, In x l /\ f x = Undef u) -> mapM f l = Undef u.
  Proof.
    induction l as [|x l IH]; intros H (y & I & E); [destruct I|]. cbn.
    destruct (H x (or_introl eq_refl)) as [(z & Ex)|Ex]; rewrite Ex; [|reflexivity]. cbn.
    rewrite IH; [reflexivity| |].
    - intros; apply H; now right.
    - destruct I as [<-|I]; [congruence|eauto].
  Qed.
End Extract.

Lemma Forall2_in_r {A B} (P : A -> B -> Prop) l1 l2 y : Forall2 P l1 l2 -> In y l2 -> exists x, In x l1 /\ P x y.
Proof.
  intros F I. induction F as [|x z l1 l2 Pxz F IH]; [destruct I|]. destruct I as [<-|I].
  - exists x. split; [now left|auto].
  - destruct (IH I) as (w & Iw & Pw). exists w. split; [now right|auto].
Qed.

Section Counting.
  Context {T : Type}.
  Variable mo : model T.
  Variable g : digraph.
  Variable parts : list digraph.
  Variable ds : list (Z * domain).
  Let m := mo_mesh mo.
  Hypothesis Eg : buildMeshGraph m = Ok g.
  Hypothesis Ep : split g = Ok parts.
  Hypothesis D : described m (pecs (mo_mats mo)) parts ds.

  Lemma elements_of_in ids e : In e (elements_of m ids) <-> exists i, In i ids /\ nth_error (m_elems m) i = Some e.
  Proof.
    unfold elements_of. rewrite in_map_iff. split.
    - intros ([i x] & <- & I). apply filter_In in I as [I J]. cbn in *. exists i.
      destruct (in_dec Nat.eq_dec i ids); [|discriminate]. split; auto. now apply in_enum in I.
    - intros (i & I & E). exists (i, e). split; auto. apply filter_In. split; [now apply in_enum|].
      cbn. destruct (in_dec Nat.eq_dec i ids); auto.
  Qed.
  Lemma domain_edge_uses id d a b : In (id, d) ds ->
    In (a, b) (flat_map (fun e => path_edges (e_verts e)) (elements_of m (dm_elems d))) ->
    edge_uses (elements_of m (dm_elems d)) a b = edge_uses (m_elems m) a b.
  Proof.
    intros Id I. apply in_flat_map in I as (e & Ie & I). apply elements_of_in in Ie as (i & Ii & Ei).
    destruct (path_edges_ends _ _ _ I) as [Ia Ib].
    assert (Va : vertex_in m d a) by (exists i, e; auto).
    unfold edge_uses, elements_of. rewrite <- (enum_snd (m_elems m)) at 2.
    assert (A : forall x, In x (enum (m_elems m)) -> nth_error (m_elems m) (fst x) = Some (snd x)).
    { intros [j f] J. now apply in_enum in J. }
    induction (enum (m_elems m)) as [|[j f] l IH]; [reflexivity|].
    cbn [filter fst]. destruct (in_dec Nat.eq_dec j (dm_elems d)) as [J|J].
    - cbn [map flat_map snd]. rewrite !filter_app, !app_length. f_equal. apply IH. intros; apply A; now right.
    - cbn [map flat_map snd]. rewrite filter_app, app_length, <- IH by (intros; apply A; now right).
      assert (E0 : filter (joins a b) (path_edges (e_verts f)) = []).
      { destruct (filter (joins a b) (path_edges (e_verts f))) as [|[v w] r] eqn:E; auto. exfalso. apply J.
        assert (X : In (v, w) (filter (joins a b) (path_edges (e_verts f)))) by (rewrite E; now left).
        apply filter_In in X as [X Y]. destruct (path_edges_ends _ _ _ X) as [Xv Xw].
        assert (Iaf : In a (e_verts f)).
        { unfold joins in Y. cbn in Y. apply orb_true_iff in Y as [Y|Y]; apply andb_true_iff in Y as [Y1 Y2];
            apply Z.eqb_eq in Y1, Y2; subst; auto. }
        pose proof (A (j, f) (or_introl eq_refl)) as Ej. cbn in Ej.
        destruct (in_domain mo parts ds D id d j Id) as (k & part & Ek & Epk & Hj). apply Hj. exists f. split; auto.
        destruct (domain_vertices mo g parts ds Eg Ep D id d Id) as (k' & part' & Ek' & Epk' & Hv).
        assert (k' = k) by lia. subst k'. assert (part' = part) by congruence. subst part'.
        apply (element_in_part m g parts Eg Ep part j f a); auto; [eapply nth_error_In; eauto|]. now apply Hv. }
      rewrite E0. reflexivity.
  Qed.
  Lemma no_self_edges a b e : In e (m_elems m) -> In (a, b) (path_edges (e_verts e)) -> a <> b.
  Proof.
    intros Ie I <-. destruct (paths_view _ _ (mesh_paths m g Eg)) as ((W & _) & _).
    assert (X : In (a, a) (getEdgesAsPairs g)).
    { rewrite (mesh_edges m g Eg). apply in_flat_map. eauto. }
    unfold getEdgesAsPairs in X. apply in_map_iff in X as ([u v] & [= E1 E2] & X).
    destruct (w_edge _ W _ _ X) as (N & U & V). apply N. apply (vid_inj g W); auto. congruence.
  Qed.
  (** A conductor kept in the model of a domain, used by no element, is a conductor of it. *)
  Lemma submodel_conductor id d gm' mo' p c : NoDup (all_names (mo_mats mo)) -> In (id, d) ds ->
    buildModelForDomain m (mo_mats mo) d = Ok (gm', mo') -> In p (pecs (mo_mats mo')) ->
    getMaterialIdFromName (p_name p) = Ok c -> (forall e, In e (m_elems m) -> e_attr e <> p_attr p) ->
    In c (dm_conductors d).
  Proof.
    intros ND Id B Ip Ec Ne. rewrite extract_unfold in B.
    destruct (mapM (new_bdr m) _) as [bs| |] eqn:Ebs; try discriminate. cbn in B. injection B as _ <-.
    set (sub := {| m_elems := elements_of m (dm_elems d); m_bdr := bs; m_coord := m_coord m |}) in *.
    destruct (mkModel_materials sub (mo_mats mo) (keepb sub) ND (keepb_iff sub)) as (_ & Pk & _).
    unfold setGround in Ip. cbn [mo_mats] in Ip. rewrite Pk in Ip. apply filter_In in Ip as [Ip Kp].
    apply keepb_iff in Kp as (be & [Ie|Ie] & Ea).
    - exfalso. cbn in Ie. apply elements_of_in in Ie as (i & _ & Ei). apply (Ne be); auto. eapply nth_error_In; eauto.
    - cbn in Ie. apply mapM_ok in Ebs. destruct (Forall2_in_r _ _ _ _ Ebs Ie) as ([a b] & Iab & X).
      apply new_bdr_ok in X as (gbe & (k & Ek & (v & w & r & Ev & J) & _) & ->). cbn in Ea.
      apply boundary_edges_in in Iab as (Iab & _). apply in_flat_map in Iab as (e & Iel & Iab).
      apply elements_of_in in Iel as (i & Ii & Ei). destruct (path_edges_ends _ _ _ Iab) as [Ia Ib].
      assert (Nab : a <> b) by (eapply no_self_edges; eauto; eapply nth_error_In; eauto).
      assert (Va : vertex_in m d a) by (exists i, e; auto). assert (Vb : vertex_in m d b) by (exists i, e; auto).
      apply (proj1 (domain_conductors mo g parts ds Eg Ep D id d Id)). exists p, k. split; auto. split; auto.
      exists gbe. split; auto. split; auto. unfold touches. rewrite Ev.
      unfold joins in J. cbn in J. apply orb_true_iff in J as [J|J]; apply andb_true_iff in J as [J1 J2];
        apply Z.eqb_eq in J1, J2; subst.
      + exists a, b. cbn. auto 7.
      + exists a, b. cbn. auto 7.
  Qed.
End Counting.
