(** Properties C15-C18: the domains of a closed model and their tree. *)
From Coq Require Import QArith.
From Verif Require Import Prelude StdMap Graph Materials ModelM Domain ListLemmas SpecGraph SpecDomain
  GraphProofs SplitProofs CycleProofs ComponentProofs TreeProofs DomainProofs GroundProofs DomainFacts GroundFacts.
From Coq Require Import Permutation Relations Sorted.

(** A closed model with two nested shields. Elements 0 and 1 form a part of the mesh between
    Conductor_0 and Conductor_1; element 2 is a part between Conductor_1 and Conductor_2. *)
Definition tri (a b c t : Z) : element Q := {| e_attr := t; e_verts := [a; b; c]; e_vol := 1%Q |}.
Definition seg (a b t : Z) : element Q := {| e_attr := t; e_verts := [a; b]; e_vol := 0%Q |}.
Definition conductor (name : string) (t : Z) : pec Q := {| p_name := name; p_attr := t; p_area := 0%Q |}.
Definition nested_mats : materials Q :=
  {| pecs := [conductor "Conductor_0" 1; conductor "Conductor_1" 2; conductor "Conductor_2" 5];
     openBoundaries := []; dielectrics := [] |}.
Definition nested_mesh : mesh Q :=
  {| m_elems := [tri 0 1 2 3; tri 2 1 3 3; tri 4 5 6 4];
     m_bdr := [seg 0 1 1; seg 1 3 2; seg 3 2 2; seg 2 0 2; seg 4 5 2; seg 5 6 2; seg 6 4 5];
     m_coord := fun _ => (0%Q, 0%Q) |}%Z.
Definition nested : model Q := {| mo_mats := nested_mats; mo_mesh := nested_mesh; mo_ground := 0 |}.

(** ** C15: every element is in exactly one domain *)
Theorem C15_every_element_in_one_domain :
  forall (T : Type) (dbg : bool) (mo : model T) (ds : list (Z * domain)),
    (forall e, In e (m_elems (mo_mesh mo)) -> e_verts e <> []) ->
    buildDomains dbg mo = Ok ds ->
    let n := List.length (m_elems (mo_mesh mo)) in
    map fst ds = map Z.of_nat (seq 0 (List.length ds)) /\
    (forall id d, In (id, d) ds -> dm_elems d <> [] /\ NoDup (dm_elems d)) /\
    (forall i, (i < n)%nat <-> exists id d, In (id, d) ds /\ In i (dm_elems d)) /\
    (forall i id1 d1 id2 d2, In (id1, d1) ds -> In (id2, d2) ds ->
       In i (dm_elems d1) -> In i (dm_elems d2) -> id1 = id2) /\
    (forall id d i j, In (id, d) ds -> In i (dm_elems d) ->
       (In j (dm_elems d) <-> (j < n)%nat /\ linked (mo_mesh mo) i j)).
Proof.
  intros T dbg mo ds NE E n. destruct (build_described _ _ _ E) as (g & parts & Eg & Ep & D).
  assert (K : List.length ds = List.length parts).
  { pose proof (de_keys _ _ _ _ D) as K. apply (f_equal (@List.length Z)) in K. now rewrite !map_length, seq_length in K. }
  split; [rewrite K; apply (de_keys _ _ _ _ D)|]. split; [|split; [|split]].
  - intros id d I. split.
    + destruct (domain_has_element mo g parts ds Eg Ep D id d I) as (i & Ii). intros X. now rewrite X in Ii.
    + destruct (de_part _ _ _ _ D id d I) as (k & part & _ & _ & Ee & _). rewrite Ee.
      apply ssorted_nodup. apply (proj1 (domain_elems_in (mo_mesh mo) (getVertices part))).
  - intros i. split; [eapply some_domain; eauto|]. intros (id & d & I & Ii).
    destruct (in_domain mo parts ds D id d i I) as (k & part & _ & _ & X). apply X in Ii as (e & Ei & _).
    apply nth_error_Some. congruence.
  - intros i id1 d1 id2 d2. eapply one_domain; eauto.
  - intros id d i j. eapply element_linked; eauto.
Qed.
(** The domains can be built for the closed models with proper polygons and named conductors in
    which conductor 0 is in exactly one part of the mesh; other models are rejected. *)
Theorem C15_models_with_domains :
  forall (T : Type) (mo : model T),
    determineOpenness false mo = Ok Closed ->
    Forall proper_polygon (m_elems (mo_mesh mo)) ->
    (forall p, In p (pecs (mo_mats mo)) -> exists c, getMaterialIdFromName (p_name p) = Ok c /\ c <> (-1)%Z) ->
    (touches_one_part (mo_mesh mo) (pecs (mo_mats mo)) 0 -> is_ok (buildDomains false mo)) /\
    (~ touches_one_part (mo_mesh mo) (pecs (mo_mats mo)) 0 ->
       exists msg, buildDomains false mo = Throw (RuntimeError msg)).
Proof. exact @build_total. Qed.
Theorem C15_only_closed_models :
  forall (T : Type) (dbg : bool) (mo : model T) (o : openness),
    determineOpenness dbg mo = Ok o -> o <> Closed ->
    exists msg, buildDomains dbg mo = Throw (RuntimeError msg).
Proof.
  intros T dbg mo o E NC. unfold buildDomains, rawDomains. rewrite E. cbn.
  destruct o; cbn; eauto. contradiction.
Qed.
Example C15_example : exists ds, buildDomains true nested = Ok ds /\
  map (fun d => (fst d, dm_elems (snd d))) ds = [(0%Z, [0; 1]); (1%Z, [2])]%nat /\
  forall e, In e (m_elems nested_mesh) -> e_verts e <> [] /\ proper_polygon e.
Proof.
  eexists. split; [vm_compute; reflexivity|]. split; [reflexivity|].
  intros e [<-|[<-|[<-|[]]]]; (split; [discriminate|]); (split; [cbn; lia|]);
    intros a I; cbn in I; repeat (destruct I as [I|I]; [injection I as <- E; discriminate|]); destruct I.
Qed.

(** ** C16: the conductors and boundary elements of a domain *)
Theorem C16_conductors_of_a_domain :
  forall (T : Type) (dbg : bool) (mo : model T) (ds : list (Z * domain)) (id : Z) (d : domain),
    buildDomains dbg mo = Ok ds -> In (id, d) ds ->
    (forall c, In c (dm_conductors d) <-> exists p b, In p (pecs (mo_mats mo)) /\
       getMaterialIdFromName (p_name p) = Ok c /\ conductor_touches (mo_mesh mo) d p b) /\
    (forall b, In b (dm_bdr d) <-> exists p, In p (pecs (mo_mats mo)) /\ conductor_touches (mo_mesh mo) d p b) /\
    NoDup (dm_conductors d) /\ NoDup (dm_bdr d).
Proof.
  intros T dbg mo ds id d E I. destruct (build_described _ _ _ E) as (g & parts & Eg & Ep & D).
  destruct (domain_conductors mo g parts ds Eg Ep D id d I) as (A & B). split; auto. split; auto.
  destruct (de_part _ _ _ _ D id d I) as (k & part & _ & _ & _ & S1 & S2 & _). split; now apply ssorted_nodup.
Qed.
(** A boundary segment is in at most one domain. *)
Theorem C16_segments_in_one_domain :
  forall (T : Type) (dbg : bool) (mo : model T) (ds : list (Z * domain)) id1 d1 id2 d2 b be v w,
    buildDomains dbg mo = Ok ds -> In (id1, d1) ds -> In (id2, d2) ds ->
    nth_error (m_bdr (mo_mesh mo)) b = Some be -> e_verts be = [v; w] ->
    In b (dm_bdr d1) -> In b (dm_bdr d2) -> id1 = id2.
Proof.
  intros T dbg mo ds id1 d1 id2 d2 b be v w E I1 I2 Eb Ev B1 B2.
  destruct (build_described _ _ _ E) as (g & parts & Eg & Ep & D).
  assert (V : forall id d, In (id, d) ds -> In b (dm_bdr d) -> vertex_in (mo_mesh mo) d v).
  { intros id d I B. apply (domain_conductors mo g parts ds Eg Ep D id d I) in B as (p & _ & be' & Eb' & _ & x & y & Nxy & Ix & Iy & Vx & Vy).
    rewrite Eb in Eb'. injection Eb' as <-. rewrite Ev in Ix, Iy. destruct Ix as [<-|[<-|[]]], Iy as [<-|[<-|[]]]; auto; contradiction. }
  eapply (vertex_one_domain mo g parts ds Eg Ep D); eauto.
Qed.
Example C16_example : exists ds, buildDomains true nested = Ok ds /\
  map (fun d => (dm_conductors (snd d), dm_bdr (snd d))) ds = [([0; 1]%Z, [0; 1; 2; 3]); ([1; 2]%Z, [4; 5; 6])]%nat.
Proof. eexists. split; vm_compute; reflexivity. Qed.

(** ** C17: the domain tree *)
Theorem C17_conductor_0_in_one_domain :
  forall (dbg : bool) (ds : list (Z * domain)), domain_map ds -> no_conductor_minus_one ds ->
    ((exists! id, has_conductor ds id 0) -> is_ok (mkDomainTree dbg ds)) /\
    (~ (exists! id, has_conductor ds id 0) -> exists msg, mkDomainTree dbg ds = Throw (RuntimeError msg)).
Proof.
  intros dbg ds DM NM. rewrite <- (unique_holder ds DM). split.
  - intros (i & H0). destruct (tree_spec dbg ds DM NM i H0) as (t & E & _). exists t. exact E.
  - intros NH. apply tree_throws. intros i X. apply NH. eauto.
Qed.
(** The edges: from the first domain with a conductor to each of the other ones with it. *)
Theorem C17_vertices_edges_and_no_cycle :
  forall (dbg : bool) (ds : list (Z * domain)) (t : digraph), domain_map ds -> no_conductor_minus_one ds ->
    mkDomainTree dbg ds = Ok t ->
    getVertices t = map fst ds /\
    (forall a b, In (a, b) (getEdgesAsPairs t) <->
       exists c, first_with ds a c /\ has_conductor ds b c /\ a <> b) /\
    (forall a b, In (a, b) (getEdgesAsPairs t) -> (a < b)%Z) /\
    (forall cycle, ~ elementary_cycle (getEdgesAsPairs t) cycle) /\
    findCycles t = [].
Proof.
  intros dbg ds t DM NM E. destruct (tree_of_holders _ _ _ E) as (i & H0).
  destruct (tree_spec dbg ds DM NM i H0) as (t' & E' & W & V & Ed & C). rewrite E in E'. injection E' as <-.
  fold (tree_edges ds) in Ed. split; auto.
  assert (Ein : forall a b, In (a, b) (getEdgesAsPairs t) <-> exists c, first_with ds a c /\ has_conductor ds b c /\ a <> b).
  { intros a b. rewrite Ed. apply tree_edges_in. apply DM. }
  split; auto. split; [|split; auto].
  - intros a b I. apply Ein in I as (c & (_ & Lo) & Hb & Nab). specialize (Lo b Hb). lia.
  - intros cy Cy. apply (proj1 (proj2 (findCycles_spec t W))) in Cy as (d & I & _). rewrite C in I. destruct I.
Qed.
(** Hence domains that share a conductor are connected through it. *)
Theorem C17_sharing_domains_are_connected :
  forall (dbg : bool) (ds : list (Z * domain)) (t : digraph) (a b c : Z), domain_map ds -> no_conductor_minus_one ds ->
    mkDomainTree dbg ds = Ok t -> has_conductor ds a c -> has_conductor ds b c -> (a < b)%Z ->
    exists r, has_conductor ds r c /\ (r = a \/ In (r, a) (getEdgesAsPairs t)) /\ In (r, b) (getEdgesAsPairs t).
Proof.
  intros dbg ds t a b c DM NM E Ha Hb L.
  destruct (C17_vertices_edges_and_no_cycle dbg ds t DM NM E) as (_ & Ed & _).
  pose proof (holders_increasing ds c (proj1 DM)) as Hi.
  assert (F : exists r, first_with ds r c).
  { destruct (holders ds c) as [|r l] eqn:Eh; [apply in_holders in Ha; rewrite Eh in Ha; destruct Ha|].
    exists r. split; [apply in_holders; rewrite Eh; now left|]. intros x X. apply in_holders in X. rewrite Eh in X.
    destruct X as [->|X]; [lia|]. pose proof (increasing_head _ _ _ Hi X). lia. }
  destruct F as (r & Hr & Lo). exists r. split; auto. pose proof (Lo a Ha). split.
  - destruct (Z.eq_dec r a); auto. right. apply Ed. exists c. split; [split; auto|auto].
  - apply Ed. exists c. split; [split; auto|]. split; auto. lia.
Qed.
(** Each shared conductor contributes one edge for each domain other than the first. *)
Theorem C17_number_of_edges :
  forall (dbg : bool) (ds : list (Z * domain)) (t : digraph), domain_map ds -> no_conductor_minus_one ds ->
    mkDomainTree dbg ds = Ok t ->
    forall cs, NoDup cs -> (forall c, In c cs <-> exists id, has_conductor ds id c) ->
    (edgesSize t + List.length cs = fold_right Nat.add 0 (map (fun d => List.length (dm_conductors (snd d))) ds))%nat.
Proof.
  intros dbg ds t DM NM E cs ND Hc. destruct (tree_of_holders _ _ _ E) as (i & H0).
  destruct (tree_spec dbg ds DM NM i H0) as (t' & E' & W & V & Ed & C). rewrite E in E'. injection E' as <-.
  rewrite <- edges_size, Ed.
  assert (P : Permutation (all_conductors ds) cs).
  { apply NoDup_Permutation; auto; [apply ssorted_nodup, sof_sorted|]. intros c. rewrite Hc. unfold all_conductors.
    rewrite in_sof, in_flat_map. split; [intros ([id d] & I & Ic); exists id, d; auto|].
    intros (id & d & I & Ic). exists (id, d). auto. }
  assert (S : (List.length (flat_map (fun c => star (holders ds c)) (all_conductors ds)) + List.length (all_conductors ds) =
               List.length (flat_map (holders ds) (all_conductors ds)))%nat).
  { assert (NEm : forall c, In c (all_conductors ds) -> holders ds c <> []).
    { intros c I X. apply (Permutation_in _ P) in I. apply Hc in I as (id & I). apply in_holders in I. now rewrite X in I. }
    induction (all_conductors ds) as [|c l IH] in NEm |- *; [reflexivity|]. cbn. rewrite !app_length.
    rewrite <- IH by (intros; apply NEm; now right). specialize (NEm c (or_introl eq_refl)).
    destruct (holders ds c); [contradiction|]. cbn. rewrite map_length. lia. }
  rewrite <- (Permutation_length P), S.
  (* count the pairs (conductor, domain) the other way round *)
  assert (G : forall l, NoDup l -> (forall c id d, In (id, d) ds -> In c (dm_conductors d) -> In c l) ->
    List.length (flat_map (holders ds) l) = fold_right Nat.add 0%nat (map (fun d => List.length (dm_conductors (snd d))) ds)).
  { destruct DM as [_ DC]. unfold holders. clear - DC. induction ds as [|[i d] ds0 IH]; intros l NDl Cov.
    - induction l as [|x l IHl]; [reflexivity|]. cbn. cbn in IHl. apply IHl; [now inversion NDl|]. intros c id d [].
    - cbn [map fold_right snd]. rewrite <- (IH (fun id d I => DC id d (or_intror I)) l NDl (fun c id d0 I => Cov c id d0 (or_intror I))).
      assert (Nd : NoDup (dm_conductors d)) by (eapply increasing_nodup, DC; now left).
      assert (L : List.length (dm_conductors d) = List.length (filter (fun c => smem c (dm_conductors d)) l)).
      { apply Permutation_length, NoDup_Permutation; auto using NoDup_filter. intros c. rewrite filter_In, smem_in.
        split; [|tauto]. intros Ic. split; auto. eapply Cov; [now left|auto]. }
      rewrite L. clear. set (F := fun c => map fst (filter (fun d : Z * domain => smem c (dm_conductors (snd d))) ((i, d) :: ds0))).
      set (F0 := fun c => map fst (filter (fun d : Z * domain => smem c (dm_conductors (snd d))) ds0)).
      assert (HF : forall c, List.length (F c) = ((if smem c (dm_conductors d) then 1 else 0) + List.length (F0 c))%nat).
      { intros c. unfold F, F0. cbn [filter snd]. now destruct (smem c (dm_conductors d)). }
      clearbody F F0. induction l as [|c l IH]; [reflexivity|]. cbn [flat_map filter].
      rewrite !app_length, IH, HF. destruct (smem c (dm_conductors d)); cbn [List.length]; lia. }
  apply G; [apply ssorted_nodup, sof_sorted|].
  intros c id d I Ic. unfold all_conductors. rewrite in_sof, in_flat_map. exists (id, d). auto.
Qed.
Definition three_domains : list (Z * domain) :=
  [(0, {| dm_ground := 0; dm_conductors := [0; 1; 2]; dm_elems := []; dm_bdr := [] |});
   (1, {| dm_ground := -1; dm_conductors := [1; 3]; dm_elems := []; dm_bdr := [] |});
   (2, {| dm_ground := -1; dm_conductors := [2; 3]; dm_elems := []; dm_bdr := [] |})]%Z.
Example C17_example :
  domain_map three_domains /\ no_conductor_minus_one three_domains /\ (exists! id, has_conductor three_domains id 0) /\
  exists t, mkDomainTree true three_domains = Ok t /\ getEdgesAsPairs t = [(0, 1); (0, 2); (1, 2)]%Z.
Proof.
  assert (DM : domain_map three_domains).
  { split; [cbn; lia|]. intros id d [E|[E|[E|[]]]]; injection E as <- <-; cbn; lia. }
  assert (NM : no_conductor_minus_one three_domains).
  { intros id (d & [E|[E|[E|[]]]] & I); injection E as <- <-; cbn in I; lia. }
  split; auto. split; auto. split.
  - apply (unique_holder _ DM). exists 0%Z. reflexivity.
  - eexists. split; vm_compute; reflexivity.
Qed.
(** The restriction on the number -1: with such a conductor, shared or not, the constructor adds
    a vertex -1 that is no domain. *)
Example C17_conductor_minus_one :
  exists t, mkDomainTree true [(0, {| dm_ground := 0; dm_conductors := [-1; 0]; dm_elems := []; dm_bdr := [] |})]%Z = Ok t /\
    getVertices t = [-1; 0]%Z.
Proof. eexists. split; vm_compute; reflexivity. Qed.

(** ** C18: grounds *)
(** A mesh whose first elements are inside a shield: the same as [nested] with the parts
    numbered the other way. The domain of conductor 0 gets conductor 1 as its ground and the
    other one has none. *)
Definition nested_inside_first : model Q :=
  {| mo_mats := nested_mats;
     mo_mesh := {| m_elems := [tri 4 5 6 4; tri 0 1 2 3; tri 2 1 3 3]%Z; m_bdr := m_bdr nested_mesh; m_coord := m_coord nested_mesh |};
     mo_ground := 0 |}.
Theorem C18_refuted : exists (mo : model Q) ds d,
  determineOpenness true mo = Ok Closed /\ Forall proper_polygon (m_elems (mo_mesh mo)) /\
  touches_one_part (mo_mesh mo) (pecs (mo_mats mo)) 0 /\
  buildDomains true mo = Ok ds /\ In (1%Z, d) ds /\ In 0%Z (dm_conductors d) /\ dm_ground d = 1%Z /\
  (exists d0, In (0%Z, d0) ds /\ dm_ground d0 = (-1)%Z) /\
  exists t, mkDomainTree true ds = Ok t /\ getEdgesAsPairs t = [(0, 1)]%Z.
Proof.
  assert (B : exists ds, buildDomains true nested_inside_first = Ok ds /\ ds =
    [(0%Z, {| dm_ground := -1; dm_conductors := [1; 2]%Z; dm_elems := [0]%nat; dm_bdr := [4; 5; 6]%nat |});
     (1%Z, {| dm_ground := 1; dm_conductors := [0; 1]%Z; dm_elems := [1; 2]%nat; dm_bdr := [0; 1; 2; 3]%nat |})]).
  { eexists. split; vm_compute; reflexivity. }
  destruct B as (ds & B & Eds).
  exists nested_inside_first, ds, {| dm_ground := 1; dm_conductors := [0; 1]%Z; dm_elems := [1; 2]%nat; dm_bdr := [0; 1; 2; 3]%nat |}.
  assert (P : Forall proper_polygon (m_elems (mo_mesh nested_inside_first))).
  { repeat constructor; cbn; try lia;
    intros a I; cbn in I; repeat (destruct I as [I|I]; [injection I as <- E; discriminate|]); destruct I. }
  split; [reflexivity|]. split; auto. split.
  - destruct (build_described _ _ _ B) as (g & parts & Eg & Ep & D).
    apply (one_part_iff nested_inside_first g parts ds Eg Ep D).
    + intros e I. destruct (proj1 (Forall_forall _ _) P e I) as [L _]. intros X. rewrite X in L. cbn in L. lia.
    + exists 1%Z. rewrite Eds. reflexivity.
  - rewrite Eds. split; [rewrite <- Eds; exact B|]. split; [right; now left|]. split; [now left|]. split; [reflexivity|]. split.
    + eexists. split; [now left|reflexivity].
    + eexists. split; vm_compute; reflexivity.
Qed.
(** What does hold of every ground: the ground of a domain that shares a conductor with a domain
    of smaller number is a conductor shared with such a domain; that of the other ones is 0 or,
    without conductor 0, none. *)
Theorem C18_ground_of_each_domain_partial :
  forall (T : Type) (dbg : bool) (mo : model T) (ds : list (Z * domain)) (b : Z) (d : domain),
    buildDomains dbg mo = Ok ds -> no_conductor_minus_one ds -> In (b, d) ds ->
    ((exists a c, (a < b)%Z /\ has_conductor ds a c /\ In c (dm_conductors d)) ->
       exists a, (a < b)%Z /\ has_conductor ds a (dm_ground d) /\ In (dm_ground d) (dm_conductors d)) /\
    ((forall a c, has_conductor ds a c -> In c (dm_conductors d) -> (b <= a)%Z) ->
       (In 0%Z (dm_conductors d) -> dm_ground d = 0%Z) /\ (~ In 0%Z (dm_conductors d) -> dm_ground d = (-1)%Z)).
Proof.
  intros T dbg mo ds b d E NM I. destruct (build_grounds _ _ _ E NM) as (DM & (i0 & H0) & G).
  destruct (G b d I) as (G1 & G2). clear G. destruct DM as [K DC].
  split.
  - intros (a & c & L & Ha & Hc).
    assert (Ib : In b (map snd (tree_edges ds))).
    { pose proof (holders_increasing ds c K) as Hi.
      destruct (holders ds c) as [|r l] eqn:Eh; [apply in_holders in Ha; rewrite Eh in Ha; destruct Ha|].
      assert (Fr : first_with ds r c).
      { split; [apply in_holders; rewrite Eh; now left|]. intros x X. apply in_holders in X. rewrite Eh in X.
        destruct X as [->|X]; [lia|]. pose proof (increasing_head _ _ _ Hi X). lia. }
      apply in_map_iff. exists (r, b). split; auto. apply tree_edges_in; auto. exists c. split; auto.
      split; [exists d; auto|]. pose proof (proj2 Fr a Ha). lia. }
    destruct (G2 Ib) as (a' & Ie & da & rest & Ga & Es & _). exists a'.
    apply tree_edges_in in Ie as (c' & Fr & Hb & Nab); auto. pose proof (proj2 Fr b Hb).
    split; [lia|]. assert (X : In (dm_ground d) (sinter (dm_conductors da) (dm_conductors d))) by (rewrite Es; now left).
    apply in_sinter in X as [X1 X2]. split; auto. exists da. split; auto. now apply mget_Some_in.
  - intros Lo. assert (Nb : ~ In b (map snd (tree_edges ds))).
    { intros Ib. apply in_map_iff in Ib as ([a b'] & Eb & Ie). cbn in Eb; subst b'.
      apply tree_edges_in in Ie as (c & Fr & (d' & Id' & Cc) & Nab); auto.
      assert (d' = d).
      { apply increasing_sorted in K. apply (proj2 (mget_in_iff b d ds K)) in I. apply (proj2 (mget_in_iff b d' ds K)) in Id'. congruence. }
      subst d'. pose proof (Lo a c (proj1 Fr) Cc). pose proof (proj2 Fr b (ex_intro _ d (conj I Cc))). lia. }
    rewrite (G1 Nb). split; intros Z0.
    + apply smem_in in Z0. now rewrite Z0.
    + destruct (smem 0%Z (dm_conductors d)) eqn:Q; auto. apply smem_in in Q. contradiction.
Qed.
(** The property holds when the elements are numbered outwards in: conductor 0 is in the domain
    0, and every other domain shares one and only one conductor with the domains of smaller
    number. *)
Theorem C18_outside_first_partial :
  forall (T : Type) (dbg : bool) (mo : model T) (ds : list (Z * domain)),
    buildDomains dbg mo = Ok ds -> no_conductor_minus_one ds -> has_conductor ds 0 0 ->
    (forall b, In b (map fst ds) -> b <> 0%Z ->
       exists! c, has_conductor ds b c /\ exists a, (a < b)%Z /\ has_conductor ds a c) ->
    (forall d, In (0%Z, d) ds -> dm_ground d = 0%Z) /\
    (forall b d, In (b, d) ds -> b <> 0%Z -> In (dm_ground d) (dm_conductors d) /\
       exists a, (a < b)%Z /\ has_conductor ds a (dm_ground d)) /\
    exists t, mkDomainTree dbg ds = Ok t /\
      forall b, In b (getVertices t) -> clos_refl_trans Z (fun x y => In (x, y) (getEdgesAsPairs t)) 0%Z b.
Proof.
  intros T dbg mo ds E NM H00 U. destruct (build_grounds _ _ _ E NM) as (DM & (i0 & H0) & G).
  destruct (build_described _ _ _ E) as (g & parts & _ & _ & D).
  assert (Pos : forall b, In b (map fst ds) -> (0 <= b)%Z).
  { intros b I. rewrite (de_keys _ _ _ _ D) in I. apply in_map_iff in I as (k & <- & _). lia. }
  assert (Key : forall b c, has_conductor ds b c -> In b (map fst ds)).
  { intros b c (d & I & _). apply in_map_iff. exists (b, d); auto. }
  split; [|split].
  - intros d I. destruct (C18_ground_of_each_domain_partial T dbg mo ds 0 d E NM I) as (_ & P).
    apply P.
    + intros a c Ha _. apply Pos. eauto.
    + destruct H00 as (d' & I' & C'). destruct DM as [K _]. apply increasing_sorted in K.
      apply (proj2 (mget_in_iff 0%Z d ds K)) in I. apply (proj2 (mget_in_iff 0%Z d' ds K)) in I'. congruence.
  - intros b d I Nb. destruct (U b (in_map fst _ _ I) Nb) as (c & ((d' & I' & Cc) & a & L & Ha) & _).
    assert (d' = d).
    { destruct DM as [K _]. apply increasing_sorted in K.
      apply (proj2 (mget_in_iff b d ds K)) in I. apply (proj2 (mget_in_iff b d' ds K)) in I'. congruence. }
    subst d'. destruct (C18_ground_of_each_domain_partial T dbg mo ds b d E NM I) as (P & _).
    destruct P as (a' & L' & Ha' & Ig); [eauto|]. split; eauto.
  - destruct (tree_spec dbg ds DM NM i0 H0) as (t & Et & W & V & Ed & C). exists t. split; auto.
    fold (tree_edges ds) in Ed. rewrite V. intros b I.
    assert (Ib : (0 <= b)%Z) by auto. revert I. pattern b. apply Zlt_0_ind; [|exact Ib].
    clear b Ib. intros b IH Ib I. destruct (Z.eq_dec b 0) as [->|Nb]; [apply rt_refl|].
    destruct (U b I Nb) as (c & (Hb & a & L & Ha) & _).
    destruct (C17_sharing_domains_are_connected dbg ds t a b c DM NM Et Ha Hb L) as (r & Hr & _ & Ie).
    assert (Lr : (r < b)%Z).
    { apply (C17_vertices_edges_and_no_cycle dbg ds t DM NM Et). exact Ie. }
    apply rt_trans with r; [|now apply rt_step]. apply IH; eauto.
Qed.
Example C18_example : exists ds, buildDomains true nested = Ok ds /\ no_conductor_minus_one ds /\ has_conductor ds 0 0 /\
  (forall b, In b (map fst ds) -> b <> 0%Z ->
       exists! c, has_conductor ds b c /\ exists a, (a < b)%Z /\ has_conductor ds a c) /\
  map (fun d => (fst d, dm_ground (snd d))) ds = [(0, 0); (1, 1)]%Z.
Proof.
  assert (B : exists ds, buildDomains true nested = Ok ds /\ ds =
    [(0%Z, {| dm_ground := 0; dm_conductors := [0; 1]%Z; dm_elems := [0; 1]%nat; dm_bdr := [0; 1; 2; 3]%nat |});
     (1%Z, {| dm_ground := 1; dm_conductors := [1; 2]%Z; dm_elems := [2]%nat; dm_bdr := [4; 5; 6]%nat |})]).
  { eexists. split; vm_compute; reflexivity. }
  destruct B as (ds & B & ->). eexists. split; [exact B|]. split; [|split; [|split; [|reflexivity]]].
  - intros id (d & [E|[E|[]]] & I); injection E as <- <-; cbn in I; lia.
  - eexists. split; [now left|now left].
  - cbn. intros b [<-|[<-|[]]] Nb; [lia|]. exists 1%Z. split.
    + split; [eexists; split; [right; now left|now left]|]. exists 0%Z. split; [lia|]. eexists; split; [now left|right; now left].
    + intros c (Hc & a & L & Ha). destruct Hc as (d & X & I). destruct Ha as (d' & X' & I').
      destruct X as [E|[E|[]]]; inversion E; subst;
        destruct X' as [E'|[E'|[]]]; inversion E'; subst; cbn in I, I'; lia.
Qed.

Print Assumptions C15_every_element_in_one_domain.
Print Assumptions C15_models_with_domains.
Print Assumptions C15_only_closed_models.
Print Assumptions C16_conductors_of_a_domain.
Print Assumptions C16_segments_in_one_domain.
Print Assumptions C17_conductor_0_in_one_domain.
Print Assumptions C17_vertices_edges_and_no_cycle.
Print Assumptions C17_sharing_domains_are_connected.
Print Assumptions C17_number_of_edges.
Print Assumptions C18_refuted.
Print Assumptions C18_ground_of_each_domain_partial.
Print Assumptions C18_outside_first_partial.
