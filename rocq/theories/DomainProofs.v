(** Domains of a mesh (C15, C16, C18). *)
From Verif Require Import Prelude StdMap Graph Materials ModelM Domain ListLemmas SpecGraph SpecDomain
  GraphProofs SplitProofs CycleProofs ComponentProofs TreeProofs.
From Coq Require Import Permutation Relations Sorted.

(** ** Small facts *)
Lemma fold_sins {A} (f : A -> nat) (p : A -> bool) l : forall s, ssorted s ->
  let r := fold_left (fun r x => if p x then sins (f x) r else r) l s in
  ssorted r /\ forall i, In i r <-> In i s \/ exists x, In x l /\ p x = true /\ f x = i.
Proof.
  induction l as [|x l IH]; intros s S; cbn.
  - split; auto. intros i. split; auto. intros [I|(x & [] & _)]; auto.
  - destruct (p x) eqn:Ep.
    + destruct (IH (sins (f x) s) (sins_sorted _ _ S)) as (S' & M). split; auto.
      intros i. rewrite M, in_sins. split.
      * intros [[->|I]|(y & I & P & E)]; eauto 6.
      * intros [I|(y & [<-|I] & P & E)]; eauto 6.
    + destruct (IH s S) as (S' & M). split; auto. intros i. rewrite M. split.
      * intros [I|(y & I & P & E)]; eauto 6.
      * intros [I|(y & [<-|I] & P & E)]; eauto 6. congruence.
Qed.
Lemma two_distinct {A} (l : list A) : NoDup l ->
  (2 <= List.length l)%nat <-> exists v w, v <> w /\ In v l /\ In w l.
Proof.
  intros ND. split.
  - destruct l as [|a [|b l]]; cbn; try lia. intros _. exists a, b. inversion ND as [|? ? N _]; subst.
    split; [|auto]. intros ->. apply N. now left.
  - intros (v & w & N & Iv & Iw). destruct l as [|a [|b l]]; cbn; try lia.
    + destruct Iv.
    + destruct Iv as [->|[]]. destruct Iw as [->|[]]. contradiction.
Qed.

Section Domains.
  Context {T : Type} `{Num T}.
  Variable m : mesh T.

  Lemma domain_elems_in vs : ssorted (domain_elems m vs) /\
    forall i, In i (domain_elems m vs) <-> exists e, nth_error (m_elems m) i = Some e /\ incl (e_verts e) vs.
  Proof.
    unfold domain_elems.
    destruct (fold_sins fst (fun ie : nat * element T => forallb (fun v => smem v vs) (e_verts (snd ie)))
                (enum (m_elems m)) [] (SSorted_nil _)) as (S & M).
    split; [exact S|]. intros i. rewrite (M i). split.
    - intros [[]|([j e] & I & P & <-)]. apply in_enum in I. exists e. split; auto. cbn in P.
      rewrite forallb_forall in P. intros v Iv. apply P in Iv. now apply smem_in in Iv.
    - intros (e & E & I). right. exists (i, e). split; [now apply in_enum|]. split; auto. cbn.
      apply forallb_forall. intros v Iv. apply smem_in; auto.
  Qed.

  Lemma bdr_elems_in attr vs : ssorted vs -> ssorted (getBdrElemsInDomain attr vs m) /\
    forall b, In b (getBdrElemsInDomain attr vs m) <->
      exists be, nth_error (m_bdr m) b = Some be /\ e_attr be = attr /\
        exists v w, v <> w /\ In v (e_verts be) /\ In w (e_verts be) /\ In v vs /\ In w vs.
  Proof.
    intros Sv. unfold getBdrElemsInDomain.
    destruct (fold_sins fst (fun ie : nat * element T => bdr_in_domain attr vs (snd ie))
                (enum (m_bdr m)) [] (SSorted_nil _)) as (S & M).
    split; [exact S|].
    assert (P : forall be : element T, bdr_in_domain attr vs be = true <-> e_attr be = attr /\
        exists v w, v <> w /\ In v (e_verts be) /\ In w (e_verts be) /\ In v vs /\ In w vs).
    { intros be. unfold bdr_in_domain. rewrite andb_true_iff, Z.eqb_eq, negb_true_iff, Nat.ltb_ge.
      rewrite two_distinct by (unfold sinter; apply NoDup_filter, ssorted_nodup, Sv).
      split; intros [-> (v & w & X)]; (split; [reflexivity|]); exists v, w;
        rewrite !in_sinter, !in_sof in *; tauto. }
    intros b. rewrite (M b). split.
    - intros [[]|([j be] & I & Q & <-)]. apply in_enum in I. apply P in Q as [Q1 Q2]. exists be; auto.
    - intros (be & E & Q). right. exists (b, be). split; [now apply in_enum|]. split; auto. now apply P.
  Qed.

  (** Domain of a part of the graph. *)
  Lemma domain_of_part_spec ps part d : domain_of_part m ps part = Ok d ->
    let vs := getVertices part in
    dm_ground d = (-1)%Z /\ dm_elems d = domain_elems m vs /\
    ssorted (dm_conductors d) /\ ssorted (dm_bdr d) /\
    (forall b, In b (dm_bdr d) <-> exists p, In p ps /\ In b (getBdrElemsInDomain (p_attr p) vs m)) /\
    (forall c, In c (dm_conductors d) <-> exists p, In p ps /\ getMaterialIdFromName (p_name p) = Ok c /\
                                           getBdrElemsInDomain (p_attr p) vs m <> []).
  Proof.
    unfold domain_of_part. set (vs := getVertices part).
    set (d0 := {| dm_ground := -1; dm_conductors := []; dm_elems := domain_elems m vs; dm_bdr := [] |}).
    assert (G : forall (ps : list (pec T)) d1, ssorted (dm_conductors d1) -> ssorted (dm_bdr d1) ->
      foldM (fun d p => match getBdrElemsInDomain (p_attr p) vs m with
             | [] => Ok d
             | _ => let* id := getMaterialIdFromName (p_name p) in
                    Ok {| dm_ground := dm_ground d; dm_conductors := sins id (dm_conductors d);
                          dm_elems := dm_elems d;
                          dm_bdr := sins_all (getBdrElemsInDomain (p_attr p) vs m) (dm_bdr d) |}
             end) ps d1 = Ok d ->
      dm_ground d = dm_ground d1 /\ dm_elems d = dm_elems d1 /\
      ssorted (dm_conductors d) /\ ssorted (dm_bdr d) /\
      (forall b, In b (dm_bdr d) <-> In b (dm_bdr d1) \/ exists p, In p ps /\ In b (getBdrElemsInDomain (p_attr p) vs m)) /\
      (forall c, In c (dm_conductors d) <-> In c (dm_conductors d1) \/
         exists p, In p ps /\ getMaterialIdFromName (p_name p) = Ok c /\ getBdrElemsInDomain (p_attr p) vs m <> [])).
    { clear. induction ps as [|p ps IH]; intros d1 S1 S2 E.
      - cbn in E. injection E as <-. split; [auto|]. split; [auto|]. split; [auto|]. split; [auto|].
        split; intros x; (split; [auto|intros [?|(p & [] & _)]; auto]).
      - cbn [foldM] in E. destruct (getBdrElemsInDomain (p_attr p) vs m) as [|b0 be] eqn:Eb; cbn [bind] in E.
        + destruct (IH _ S1 S2 E) as (A1 & A2 & A3 & A4 & A5 & A6). repeat (split; [assumption|]). split.
          * intros b. rewrite A5. split; intros [X|(q & I & X)]; auto; right.
            -- exists q; split; auto. now right.
            -- destruct I as [<-|I]; [rewrite Eb in X; destruct X|]. eauto.
          * intros c. rewrite A6. split; intros [X|(q & I & Y & X)]; auto; right.
            -- exists q; split; auto. now right.
            -- destruct I as [<-|I]; [congruence|]. eauto.
        + apply bind_ok in E as (d2 & E1 & E). apply bind_ok in E1 as (id & Eid & E1).
          injection E1 as <-.
          change (sins_all be (sins b0 (dm_bdr d1))) with (sins_all (b0 :: be) (dm_bdr d1)) in E.
          match type of E with foldM _ _ ?x = _ => set (d2 := x) in E end.
          destruct (IH d2 (sins_sorted id _ S1) (sins_all_sorted (b0 :: be) _ S2) E) as (A1 & A2 & A3 & A4 & A5 & A6).
          subst d2. cbn [dm_ground dm_elems dm_conductors dm_bdr] in *. repeat (split; [assumption|]). split.
          * intros b. rewrite A5, in_sins_all. split.
            -- intros [[X|X]|(q & I & X)]; auto; right; [exists p; rewrite Eb|exists q]; (split; [|assumption]); [now left|now right].
            -- intros [X|(q & [<-|I] & X)]; eauto. rewrite Eb in X; auto.
          * intros c. rewrite A6, in_sins. split.
            -- intros [[->|X]|(q & I & X)]; auto; right.
               ++ exists p. split; [now left|]. split; auto. rewrite Eb. discriminate.
               ++ exists q. split; [now right|auto].
            -- intros [X|(q & [<-|I] & Y & X)]; eauto. left. left. congruence. }
    intros E. destruct (G ps d0 (SSorted_nil _) (SSorted_nil _) E) as (A1 & A2 & A3 & A4 & A5 & A6).
    repeat (split; [assumption|]). split.
    - intros b. rewrite A5. cbn. tauto.
    - intros c. rewrite A6. cbn. tauto.
  Qed.

  (** The parts of the mesh graph. *)
  Variable g : digraph.
  Variable parts : list digraph.
  Hypothesis Bg : buildMeshGraph m = Ok g.
  Hypothesis Bp : split g = Ok parts.

  Lemma mesh_paths : foldM addClosedPath (map e_verts (m_elems m)) empty_graph = Ok g.
  Proof.
    rewrite <- Bg. unfold buildMeshGraph. generalize empty_graph.
    induction (m_elems m) as [|e l IH]; intros g0; [reflexivity|]. cbn.
    destruct (addClosedPath g0 (e_verts e)); cbn; auto.
  Qed.
  Lemma mesh_components : components_of (getVertices g) (getEdgesAsPairs g) (map view parts).
  Proof.
    destruct (paths_view _ _ mesh_paths) as (Tg & _). apply split_components; auto.
    apply (paths_returning _ _ mesh_paths).
  Qed.
  Lemma mesh_edges : getEdgesAsPairs g = flat_map (fun e => path_edges (e_verts e)) (m_elems m).
  Proof.
    destruct (paths_view _ _ mesh_paths) as (_ & D & _). rewrite D, !flat_map_concat_map, map_map. reflexivity.
  Qed.
  Lemma mesh_vertex v : In v (getVertices g) <-> exists i e, nth_error (m_elems m) i = Some e /\ In v (e_verts e).
  Proof.
    destruct (paths_view _ _ mesh_paths) as ((W & Tg) & D & _). rewrite getVertices_in, Tg, mesh_edges. split.
    - intros (w & [I|I]); apply in_flat_map in I as (e & Ie & I); apply path_edges_ends in I;
        apply In_nth_error in Ie as (i & Ei); exists i, e; tauto.
    - intros (i & e & Ei & I). rewrite <- (path_edges_fst (e_verts e)) in I. apply in_map_iff in I as ([a b] & <- & I).
      exists b. left. apply in_flat_map. exists e; split; auto. eapply nth_error_In; eauto.
  Qed.
  (** vertices of one element are connected *)
  Lemma element_connected i e a b : nth_error (m_elems m) i = Some e -> In a (e_verts e) -> In b (e_verts e) ->
    connected (getEdgesAsPairs g) a b.
  Proof.
    intros Ei Ia Ib. rewrite mesh_edges. apply clos_rt_clos_rst.
    apply (path_walk (fun a b => In (a, b) (flat_map (fun e => path_edges (e_verts e)) (m_elems m))) (e_verts e)); auto.
    intros [x y] I. cbn. apply in_flat_map. exists e; split; auto. eapply nth_error_In; eauto.
  Qed.
  (** an element with a vertex in a part is in it *)
  Lemma element_in_part part i e v : In part parts -> nth_error (m_elems m) i = Some e ->
    In v (e_verts e) -> In v (getVertices part) -> incl (e_verts e) (getVertices part).
  Proof.
    intros Ip Ei Iv Ivp w Iw. pose proof mesh_components as C.
    assert (Gv : In v (getVertices g)) by (apply mesh_vertex; eauto).
    assert (Gw : In w (getVertices g)) by (apply mesh_vertex; eauto).
    destruct (proj2 (co_same _ _ _ C v w Gv Gw) (element_connected _ _ _ _ Ei Iv Iw)) as (p & Jp & Pv & Pw).
    apply in_map_iff in Jp as (q & <- & Jq). cbn in Pv, Pw.
    apply In_nth_error in Ip as (k1 & E1). apply In_nth_error in Jq as (k2 & E2).
    assert (k1 = k2) as <-.
    { eapply (co_disjoint _ _ _ C k1 k2 (view part) (view q) v); auto; now apply map_nth_error. }
    congruence.
  Qed.
  Lemma vertex_in_iff part d v : In part parts -> dm_elems d = domain_elems m (getVertices part) ->
    (vertex_in m d v <-> In v (getVertices part)).
  Proof.
    intros Ip Ed. unfold vertex_in. rewrite Ed. split.
    - intros (i & e & Ii & Ei & Iv). apply domain_elems_in in Ii as (e' & Ei' & I).
      rewrite Ei in Ei'; injection Ei' as <-. auto.
    - intros Iv. pose proof mesh_components as C.
      assert (Gv : In v (getVertices g)).
      { apply (co_cover _ _ _ C). exists (view part). split; auto. now apply in_map. }
      apply mesh_vertex in Gv as (i & e & Ei & Ie). exists i, e. split; auto.
      apply domain_elems_in. exists e. split; auto. eapply element_in_part; eauto.
  Qed.

  Hypothesis nonempty : forall e, In e (m_elems m) -> e_verts e <> [].

  Lemma element_has_part i e : nth_error (m_elems m) i = Some e ->
    exists k part, nth_error parts k = Some part /\ incl (e_verts e) (getVertices part).
  Proof.
    intros Ei. pose proof mesh_components as C. destruct (e_verts e) as [|v r] eqn:Ev.
    { destruct (nonempty e); auto. eapply nth_error_In; eauto. }
    assert (Iv : In v (e_verts e)) by (rewrite Ev; now left).
    assert (Gv : In v (getVertices g)) by (apply mesh_vertex; eauto).
    apply (co_cover _ _ _ C) in Gv as (p & Jp & Pv). apply in_map_iff in Jp as (q & <- & Jq).
    rewrite <- Ev. apply In_nth_error in Jq as (k & Ek). exists k, q. split; auto.
    eapply element_in_part; eauto. eapply nth_error_In; eauto.
  Qed.
  Lemma element_one_part i e k1 p1 k2 p2 : nth_error (m_elems m) i = Some e ->
    nth_error parts k1 = Some p1 -> nth_error parts k2 = Some p2 ->
    incl (e_verts e) (getVertices p1) -> incl (e_verts e) (getVertices p2) -> k1 = k2.
  Proof.
    intros Ei E1 E2 I1 I2. pose proof mesh_components as C. destruct (e_verts e) as [|v r] eqn:Ev.
    { destruct (nonempty e); auto. eapply nth_error_In; eauto. }
    assert (Iv : In v (v :: r)) by now left.
    eapply (co_disjoint _ _ _ C k1 k2 (view p1) (view p2) v); auto; now apply map_nth_error.
  Qed.

  Lemma connected_linked a b : connected (getEdgesAsPairs g) a b ->
    a = b \/ (exists i e, nth_error (m_elems m) i = Some e /\ In a (e_verts e)) /\
             (exists i e, nth_error (m_elems m) i = Some e /\ In b (e_verts e)) /\
             forall i j e f, nth_error (m_elems m) i = Some e -> nth_error (m_elems m) j = Some f ->
               In a (e_verts e) -> In b (e_verts f) -> linked m i j.
  Proof.
    unfold connected. rewrite mesh_edges. induction 1 as [a b I|a|a b _ IH|a x b _ IH1 _ IH2].
    - right. apply in_flat_map in I as (e & Ie & I). apply In_nth_error in Ie as (k & Ek).
      destruct (path_edges_ends _ _ _ I) as [Ia Ib]. split; [eauto|]. split; [eauto|].
      intros i j e1 e2 E1 E2 I1 I2. apply rst_trans with k; apply rst_step; [exists e1, e, a|exists e, e2, b]; auto.
    - now left.
    - destruct IH as [->|(A & B & L)]; [now left|]. right. split; [auto|]. split; [auto|].
      intros i j e1 e2 E1 E2 I1 I2. apply rst_sym. eapply L; eauto.
    - destruct IH1 as [->|(A1 & B1 & L1)]; auto. destruct IH2 as [<-|(A2 & B2 & L2)]; [right; split; [exact A1|split; [exact B1|exact L1]]|].
      right. split; [auto|]. split; [auto|]. intros i j e1 e2 E1 E2 I1 I2.
      destruct B1 as (k & e & Ek & Ie). apply rst_trans with k; [eapply (L1 i k)|eapply (L2 k j)]; eauto.
  Qed.
  Lemma same_part_linked part i j e f : In part parts ->
    nth_error (m_elems m) i = Some e -> nth_error (m_elems m) j = Some f ->
    incl (e_verts e) (getVertices part) -> incl (e_verts f) (getVertices part) -> linked m i j.
  Proof.
    intros Ip Ei Ej I1 I2. pose proof mesh_components as C.
    destruct (e_verts e) as [|v r] eqn:Ev. { destruct (nonempty e); auto. eapply nth_error_In; eauto. }
    destruct (e_verts f) as [|w s] eqn:Ew. { destruct (nonempty f); auto. eapply nth_error_In; eauto. }
    assert (Iv : In v (e_verts e)) by (rewrite Ev; now left). assert (Iw : In w (e_verts f)) by (rewrite Ew; now left).
    assert (Cn : connected (getEdgesAsPairs g) v w).
    { apply (co_same _ _ _ C); try (apply mesh_vertex; eauto). exists (view part). split; [now apply in_map|].
      split; [apply I1; now left|apply I2; now left]. }
    destruct (connected_linked v w Cn) as [<-|(_ & _ & L)]; [|eauto].
    apply rst_step. exists e, f, v. auto.
  Qed.
  Lemma linked_same_part i j : linked m i j -> forall part, In part parts ->
    (exists e, nth_error (m_elems m) i = Some e /\ incl (e_verts e) (getVertices part)) <->
    (exists f, nth_error (m_elems m) j = Some f /\ incl (e_verts f) (getVertices part)).
  Proof.
    induction 1 as [i j (e & f & v & Ei & Ej & Iv & Iw)|i|i j _ IH|i k j _ IH1 _ IH2]; intros part Ip.
    - split.
      + intros (e' & Ei' & I). rewrite Ei in Ei'; injection Ei' as <-. exists f. split; auto.
        eapply element_in_part; eauto.
      + intros (e' & Ei' & I). rewrite Ej in Ei'; injection Ei' as <-. exists e. split; auto.
        eapply element_in_part; eauto.
    - tauto.
    - symmetry; auto.
    - rewrite IH1 by auto. auto.
  Qed.
End Domains.
