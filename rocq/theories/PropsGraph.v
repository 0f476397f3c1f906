(** Properties C09-C14: directed graphs and the openness of a model. *)
From Verif Require Import Prelude StdMap Graph Materials ModelM SpecGraph ListLemmas
  GraphProofs SplitProofs CycleProofs ComponentProofs OpennessProofs.
From Coq Require Import Permutation Relations.

(** ** C09: bookkeeping *)
(** [history_left h] is the graph after the calls h, in order, each of which may throw. *)
Theorem C09_vertices_and_edges : forall h : list gcall,
  let g := history_left h in
  (forall v, In v (getVertices g) <-> exists c, In c h /\ call_vertex c v) /\
  NoDup (getVertices g) /\
  verticesSize g = List.length (getVertices g) /\
  getEdgesAsPairs g = flat_map call_edges h /\
  edgesSize g = List.length (flat_map call_edges h).
Proof.
  intros h g. destruct (history_view h empty_graph gwf_empty) as (W & V & E). fold (history_left h) in *. fold g in W, V, E.
  split; [|split; [|split; [|split]]].
  - intros v. rewrite getVertices_in, V. cbn. tauto.
  - apply ssorted_nodup, sof_sorted.
  - symmetry. now apply getVertices_size.
  - exact E.
  - rewrite <- edges_size, E. reflexivity.
Qed.

(** Which calls are rejected, whatever the calls before, and that the others succeed and
    leave the graph described above. *)
Theorem C09_rejected_calls : forall (h : list gcall),
  let g := history_left h in
  (forall id, In id (getVertices g) -> addVertex g id = g) /\
  (forall a b, (a = b -> is_throw (addEdge g a b)) /\
               (a <> b -> addEdge g a b = Ok (history_left (h ++ [GEdge a b])))) /\
  (forall vs, (call_rejected (GPath vs) -> is_throw (addClosedPath g vs)) /\
              (~ call_rejected (GPath vs) -> addClosedPath g vs = Ok (history_left (h ++ [GPath vs])))).
Proof.
  intros h g. pose proof (history_wf h) as W. fold g in W. split; [|split].
  - intros id I. apply getVertices_in in I. apply mcount_ids in I; auto. unfold addVertex. now rewrite I.
  - intros a b. split.
    + intros ->. rewrite addEdge_loop. eexists; reflexivity.
    + intros N. unfold history_left. rewrite fold_left_app. cbn. fold (history_left h). fold g.
      unfold addEdge_left. destruct (addEdge_view g a b W N) as (g' & -> & _). reflexivity.
  - intros vs. cbn [call_rejected]. unfold addClosedPath. rewrite closed_pairs_spec. split.
    + intros R. destruct (Nat.eqb_spec (List.length vs) 1) as [E|E]; [eexists; reflexivity|].
      destruct R as [R|R]; [contradiction|]. now apply foldM_addEdge_throws.
    + intros R. unfold history_left. rewrite fold_left_app. cbn. fold (history_left h). fold g.
      unfold addClosedPath_left. rewrite closed_pairs_spec.
      destruct (Nat.eqb_spec (List.length vs) 1) as [E|E]; [tauto|].
      apply foldM_addEdge_total; auto. intros a I. apply R. right. eauto.
Qed.

(** A history with a rejected edge, a partly rejected path and repetitions. *)
Example C09_example :
  let h := [GVertex 7; GEdge 3 3; GPath [1; 2; 2; 5]; GEdge 2 1; GVertex 1; GPath [4]]%Z in
  getVertices (history_left h) = [1; 2; 7]%Z /\
  getEdgesAsPairs (history_left h) = [(1, 2); (2, 1)]%Z.
Proof. split; reflexivity. Qed.

(** ** C10: split of graphs made of closed paths *)
Theorem C10_split_closed_paths : forall (paths : list (list Z)) (g : digraph),
  foldM addClosedPath paths empty_graph = Ok g ->
  exists parts, split g = Ok parts /\
    components_of (getVertices g) (getEdgesAsPairs g) (map view parts).
Proof.
  intros paths g B. destruct (paths_view paths g B) as (T & _ & _).
  destruct (split_total g (proj1 T)) as (parts & E). exists parts. split; auto.
  apply split_components; auto. now apply (paths_returning paths).
Qed.
(** ... and the graph has exactly the edges and vertices of the paths. *)
Theorem C10_closed_paths_graph : forall (paths : list (list Z)) (g : digraph),
  foldM addClosedPath paths empty_graph = Ok g ->
  getEdgesAsPairs g = flat_map path_edges paths /\
  (forall v, In v (getVertices g) <-> exists vs, In vs paths /\ In v vs).
Proof.
  intros paths g B. destruct (paths_view paths g B) as ((W & T) & D & L). split; auto.
  intros v. rewrite getVertices_in, T, D. split.
  - intros (w & [I|I]); apply in_flat_map in I as (vs & Iv & I); apply path_edges_ends in I; exists vs; tauto.
  - intros (vs & Iv & I). rewrite <- (path_edges_fst vs) in I. apply in_map_iff in I as ([a b] & <- & I).
    exists b. left. apply in_flat_map. exists vs; auto.
Qed.
(** Two triangles sharing a vertex and a separate square: two components. *)
Example C10_example :
  exists g, foldM addClosedPath [[0; 1; 2]; [7; 8; 9; 10]; [2; 3; 4]]%Z empty_graph = Ok g /\
  match split g with
  | Ok parts => map getVertices parts = [[0; 1; 2; 3; 4]; [7; 8; 9; 10]]%Z
  | _ => False
  end.
Proof.
  exists (match foldM addClosedPath [[0; 1; 2]; [7; 8; 9; 10]; [2; 3; 4]]%Z empty_graph with Ok g => g | _ => empty_graph end).
  split; vm_compute; reflexivity.
Qed.

(** ** C11: split of any graph *)
(** It does not return the connected components of every graph: an edge that cannot be walked
    back may be lost with its vertex... *)
Theorem C11_split_any_graph_refuted :
  exists h parts, let g := history_left h in
    split g = Ok parts /\ In (2, 1)%Z (getEdgesAsPairs g) /\ connected (getEdgesAsPairs g) 0%Z 2%Z /\
    ~ components_of (getVertices g) (getEdgesAsPairs g) (map view parts) /\
    (forall p, In p parts -> ~ In 2%Z (getVertices p)).
Proof.
  exists [GEdge 0 1; GEdge 2 1]%Z. eexists. cbn zeta. split; [vm_compute; reflexivity|]. split; [vm_compute; auto|]. split.
  { apply rst_trans with 1%Z; [apply rst_step; vm_compute; auto|apply rst_sym, rst_step; vm_compute; auto]. }
  split.
  - intros [NE _ _ _ _ _]. apply (NE ([], [])); [right; left; vm_compute; reflexivity|reflexivity].
  - intros p [<-|[<-|[]]]; vm_compute; intuition congruence.
Qed.
(** ... and an isolated vertex of a graph with more than one component is always lost. *)
Theorem C11_isolated_vertex_refuted :
  exists h parts, let g := history_left h in
    split g = Ok parts /\ In 5%Z (getVertices g) /\
    ~ components_of (getVertices g) (getEdgesAsPairs g) (map view parts) /\
    (forall p, In p parts -> ~ In 5%Z (getVertices p)).
Proof.
  exists [GPath [0; 1; 2]; GVertex 5]%Z. eexists. cbn zeta. split; [vm_compute; reflexivity|]. split; [vm_compute; auto|]. split.
  - intros [NE _ _ _ _ _]. apply (NE ([], [])); [right; left; vm_compute; reflexivity|reflexivity].
  - intros p [<-|[<-|[]]]; vm_compute; intuition congruence.
Qed.
(** It does when every edge can be walked back and there are no isolated vertices. *)
Theorem C11_split_returning_graph_partial : forall h : list gcall,
  let g := history_left h in
  (forall v, In v (getVertices g) -> endpoints (getEdgesAsPairs g) v) ->
  (forall a b, In (a, b) (getEdgesAsPairs g) ->
     clos_refl_trans Z (fun x y => In (x, y) (getEdgesAsPairs g)) b a) ->
  exists parts, split g = Ok parts /\
    components_of (getVertices g) (getEdgesAsPairs g) (map view parts).
Proof.
  intros h g Iso Back. pose proof (history_wf h) as W. fold g in W.
  destruct (split_total g W) as (parts & E). exists parts. split; auto.
  apply split_components; auto.
  - split; auto. intros x. split; [rewrite <- getVertices_in; auto|].
    intros (w & [I|I]).
    + apply (connected_ids g W x w); [now apply rst_step|].
      unfold getEdgesAsPairs in I. apply in_map_iff in I as ([u v] & [= <- <-] & I).
      apply vid_ids. apply (w_edge _ W u v I).
    + apply (connected_ids g W w x); [now apply rst_step|].
      unfold getEdgesAsPairs in I. apply in_map_iff in I as ([u v] & [= <- <-] & I).
      apply vid_ids. apply (w_edge _ W u v I).
  - now apply walk_back_returning.
Qed.
(** For every graph split succeeds, its parts are disjoint, never join two components, and no
    edge is invented or repeated. *)
Theorem C11_split_any_graph_partial : forall h : list gcall,
  let g := history_left h in
  exists parts, split g = Ok parts /\
  (forall p, In p parts -> incl (getVertices p) (getVertices g)) /\
  (forall p a b, In p parts -> In a (getVertices p) -> In b (getVertices p) ->
     connected (getEdgesAsPairs g) a b) /\
  (forall i j p q v, nth_error parts i = Some p -> nth_error parts j = Some q ->
     In v (getVertices p) -> In v (getVertices q) -> i = j) /\
  (exists lost, Permutation (getEdgesAsPairs g) (flat_map getEdgesAsPairs parts ++ lost)).
Proof. intros h g. apply split_any. apply history_wf. Qed.

(** ** C12: boundary graph *)
Theorem C12_boundary_graph : forall h : list gcall,
  let g := history_left h in
  exists b, getBoundaryGraph g = Ok b /\
    (forall e, In e (getEdgesAsPairs b) <->
       In e (getEdgesAsPairs g) /\ ~ In (snd e, fst e) (getEdgesAsPairs g)) /\
    (forall e, ~ In (snd e, fst e) (getEdgesAsPairs g) ->
       times e (getEdgesAsPairs b) = times e (getEdgesAsPairs g)) /\
    (forall v, In v (getVertices b) <-> endpoints (getEdgesAsPairs b) v).
Proof.
  intros h g. pose proof (history_wf h) as W. fold g in W.
  destruct (boundary_view g W) as (b & E & (Wb & Tb) & D). exists b. split; [exact E|]. split; [|split].
  - intros [x y]. rewrite D, filter_In, reverse_absent_iff. reflexivity.
  - intros [x y] N. cbn [fst snd] in N. rewrite D. apply (reverse_absent_iff (getEdgesAsPairs g)) in N.
    assert (G : forall l, times (x, y) (filter (reverse_absent (getEdgesAsPairs g)) l) = times (x, y) l).
    { unfold times. induction l as [|d l IH]; [reflexivity|]. cbn [filter].
      destruct (reverse_absent (getEdgesAsPairs g) d) eqn:Q; cbn [count_occ]; rewrite IH; [reflexivity|].
      destruct (edge_dec d (x, y)) as [->|]; [congruence|reflexivity]. }
    apply G.
  - intros v. rewrite getVertices_in. apply Tb.
Qed.

(** For cells that are simple polygons with the same orientation (no directed edge belongs to
    two of them) the edges left are those used by exactly one cell. *)
Theorem C12_boundary_of_cells : forall (cells : list (list Z)) (g b : digraph),
  foldM addClosedPath cells empty_graph = Ok g -> getBoundaryGraph g = Ok b ->
  (forall c, In c cells -> (3 <= List.length c)%nat /\ NoDup c) ->
  NoDup (flat_map path_edges cells) ->
  forall x y,
    (In (x, y) (getEdgesAsPairs b) \/ In (y, x) (getEdgesAsPairs b)) <->
    (exists i c, nth_error cells i = Some c /\ uses c x y /\
       forall j d, nth_error cells j = Some d -> uses d x y -> j = i).
Proof.
  intros cells g b Bg Bb Simple Or x y.
  destruct (paths_view cells g Bg) as ((W & T) & D & L).
  destruct (boundary_view g W) as (b' & E & _ & Db). rewrite Bb in E. injection E as <-.
  assert (Bin : forall u v, In (u, v) (getEdgesAsPairs b) <->
     In (u, v) (flat_map path_edges cells) /\ ~ In (v, u) (flat_map path_edges cells)).
  { intros u v. rewrite Db, filter_In, reverse_absent_iff, D. reflexivity. }
  rewrite !Bin.
  (* a cell does not contain an edge and its reverse *)
  assert (Anti : forall c u v, In c cells -> In (u, v) (path_edges c) -> In (v, u) (path_edges c) -> False).
  { intros c u v Ic I J. destruct (Simple c Ic) as [L3 ND]. unfold path_edges in I, J.
    apply in_map_iff in I as (i & Ei & Ii). apply in_map_iff in J as (j & Ej & Ij).
    apply in_seq in Ii, Ij. injection Ei as <- Ei. injection Ej as Ej1 Ej2.
    set (n := List.length c) in *.
    assert (Mi : (S i mod n < n)%nat) by (apply Nat.mod_upper_bound; lia).
    assert (Mj : (S j mod n < n)%nat) by (apply Nat.mod_upper_bound; lia).
    rewrite <- Ei in Ej1. apply (proj1 (NoDup_nth c 0%Z) ND) in Ej1; [|fold n; lia|fold n; lia].
    apply (proj1 (NoDup_nth c 0%Z) ND) in Ej2; [|fold n; lia|fold n; lia].
    destruct (Nat.eq_dec (S i) n) as [Z1|Z1].
    - rewrite Z1, Nat.mod_same in Ej1 by lia. subst j. rewrite Nat.mod_small in Ej2 by lia. lia.
    - rewrite (Nat.mod_small (S i)) in Ej1 by lia. subst j.
      destruct (Nat.eq_dec (S (S i)) n) as [Z2|Z2].
      + rewrite Z2, Nat.mod_same in Ej2 by lia. subst i. lia.
      + rewrite Nat.mod_small in Ej2 by lia. lia. }
  (* a directed edge belongs to one cell *)
  assert (One : forall l, NoDup (flat_map path_edges l) -> forall i j c d e,
     nth_error l i = Some c -> nth_error l j = Some d -> In e (path_edges c) -> In e (path_edges d) -> i = j).
  { clear. induction l as [|a l IH]; intros ND i j c d e Ei Ej Ic Id; [destruct i; discriminate|].
    cbn in ND.
    assert (Sep : forall k q, nth_error l k = Some q -> In e (path_edges a) -> In e (path_edges q) -> False).
    { intros k q Ek Ia Iq.
      assert (In e (flat_map path_edges l)) as I by (apply in_flat_map; exists q; split; auto; eapply nth_error_In; eauto).
      revert ND Ia I. clear. generalize (flat_map path_edges l). generalize (path_edges a).
      intros l1 l2 ND I1 I2. apply in_split in I1 as (p & q & ->). rewrite <- app_assoc in ND. cbn in ND.
      apply NoDup_remove_2 in ND. apply ND. rewrite !in_app_iff. auto. }
    assert (NDl : NoDup (flat_map path_edges l)).
    { revert ND. generalize (path_edges a). induction l0 as [|z l0 IHl]; cbn; auto. intros H. inversion H; auto. }
    destruct i as [|i], j as [|j]; cbn in Ei, Ej; auto.
    - injection Ei as <-. exfalso. eauto.
    - injection Ej as <-. exfalso. eauto.
    - f_equal. eauto. }
  assert (At : forall e, In e (flat_map path_edges cells) -> exists i c, nth_error cells i = Some c /\ In e (path_edges c)).
  { intros e I. apply in_flat_map in I as (c & Ic & I). apply In_nth_error in Ic as (i & Ei). eauto. }
  assert (Of : forall i c e, nth_error cells i = Some c -> In e (path_edges c) -> In e (flat_map path_edges cells)).
  { intros i c e Ei I. apply in_flat_map. exists c. split; auto. eapply nth_error_In; eauto. }
  split.
  - assert (G : forall u v, In (u, v) (flat_map path_edges cells) -> ~ In (v, u) (flat_map path_edges cells) ->
      exists i c, nth_error cells i = Some c /\ uses c u v /\
       forall j d, nth_error cells j = Some d -> uses d u v -> j = i).
    { intros u v I N. destruct (At _ I) as (i & c & Ei & Ic). exists i, c. split; auto. split; [now left|].
      intros j d Ej [H|H]; [eapply (One cells Or j i); eauto|]. exfalso. apply N. eauto. }
    intros [[I N]|[I N]]; [now apply G|]. destruct (G y x I N) as (i & c & Ei & U & Q). exists i, c.
    split; auto. unfold uses in *. split; [tauto|]. intros j d Ej H. apply (Q j d Ej). tauto.
  - intros (i & c & Ei & U & Q).
    assert (Ic : In c cells) by (eapply nth_error_In; eauto).
    destruct U as [U|U]; [left|right]; (split; [eauto|]; intros I;
      destruct (At _ I) as (j & d & Ej & Id);
      assert (j = i) by (apply (Q j d Ej); unfold uses; auto); subst j;
      rewrite Ei in Ej; injection Ej as <-; eapply Anti; eauto).
Qed.
(** Two triangles sharing an edge: the boundary is the quadrilateral around them. *)
Example C12_example :
  exists g b, foldM addClosedPath [[0; 1; 2]; [0; 2; 3]]%Z empty_graph = Ok g /\ getBoundaryGraph g = Ok b /\
  getEdgesAsPairs b = [(0, 1); (1, 2); (2, 3); (3, 0)]%Z /\ NoDup (flat_map path_edges [[0; 1; 2]; [0; 2; 3]]%Z).
Proof.
  do 2 eexists. split; [vm_compute; reflexivity|]. split; [vm_compute; reflexivity|]. split; [vm_compute; reflexivity|].
  cbn. repeat constructor; cbn; intuition congruence.
Qed.

(** ** C13: cycles *)
Theorem C13_cycles : forall h : list gcall,
  let g := history_left h in
  (forall c, In c (findCycles g) -> elementary_cycle (getEdgesAsPairs g) c) /\
  (forall c, elementary_cycle (getEdgesAsPairs g) c -> exists d, In d (findCycles g) /\ rotation c d) /\
  (forall c d, In c (findCycles g) -> In d (findCycles g) -> rotation c d -> c = d) /\
  NoDup (findCycles g).
Proof. intros h g. apply findCycles_spec, history_wf. Qed.
Example C13_example :
  findCycles (history_left [GPath [3; 1; 2]; GEdge 1 3; GEdge 2 1; GEdge 2 9]%Z) =
  [[3; 1; 2]; [3; 1]; [1; 2]]%Z.
Proof. vm_compute; reflexivity. Qed.

(** ** C14: openness *)
(** Boundary elements are segments (start, end) with different ends; [segments_with m a] are
    those tagged a. *)
Theorem C14_closed_without_open_boundary : forall (T : Type) (HN : Num T) dbg (m : model T),
  openBoundaries (mo_mats m) = [] -> determineOpenness dbg m = Ok Closed.
Proof. intros T HN dbg m E. unfold determineOpenness. rewrite E. unfold assert_. cbn. destruct dbg; reflexivity. Qed.

Theorem C14_open_iff_closes : forall (T : Type) (HN : Num T) dbg (m : model T) obs,
  openBoundaries (mo_mats m) = obs -> obs <> [] -> (dbg = true -> List.length obs = 1%nat) ->
  (forall e, In e (m_bdr (mo_mesh m)) -> is_segment e) ->
  (forall o, In o obs -> NoDup (map fst (segments_with (mo_mesh m) (o_attr o)))) ->
  exists r, determineOpenness dbg m = Ok r /\ (r = Open \/ r = SemiOpen) /\
    (r = Open <-> exists o, In o obs /\ segments_close (segments_with (mo_mesh m) (o_attr o))).
Proof. intros. now apply openness_spec. Qed.

(** The answer does not depend on the order of the boundary elements. *)
Theorem C14_order_irrelevant : forall (T : Type) (HN : Num T) dbg (m m' : model T) r,
  openBoundaries (mo_mats m) <> [] -> (dbg = true -> List.length (openBoundaries (mo_mats m)) = 1%nat) ->
  (forall e, In e (m_bdr (mo_mesh m)) -> is_segment e) ->
  (forall o, In o (openBoundaries (mo_mats m)) -> NoDup (map fst (segments_with (mo_mesh m) (o_attr o)))) ->
  mo_mats m' = mo_mats m -> Permutation (m_bdr (mo_mesh m)) (m_bdr (mo_mesh m')) ->
  determineOpenness dbg m = Ok r -> determineOpenness dbg m' = Ok r.
Proof.
  intros T HN dbg m m' r NE Dbg S ND Em P E.
  assert (PF : forall a, Permutation (segments_with (mo_mesh m) a) (segments_with (mo_mesh m') a)).
  { intros a. unfold segments_with, getElementsWithAttribute. apply Permutation_map.
    clear -P. induction P; cbn; auto.
    - destruct (e_attr x =? a)%Z; auto.
    - destruct (e_attr y =? a)%Z, (e_attr x =? a)%Z; auto. constructor.
    - eapply Permutation_trans; eauto. }
  destruct (openness_spec dbg m _ eq_refl NE Dbg S ND) as (r1 & E1 & O1 & H1).
  destruct (openness_spec dbg m' (openBoundaries (mo_mats m'))) as (r2 & E2 & O2 & H2); auto.
  { now rewrite Em. } { now rewrite Em. }
  { intros e I. apply S. eapply Permutation_in; [apply Permutation_sym, P|auto]. }
  { rewrite Em. intros o I. eapply Permutation_NoDup; [apply Permutation_map, PF|auto]. }
  rewrite E in E1. injection E1 as <-. rewrite E2. f_equal.
  assert (Q : r2 = Open <-> r = Open).
  { rewrite H1, H2, Em.
    assert (G : forall l l' : list (Z * Z), Permutation l l' -> segments_close l -> segments_close l').
    { intros l l' Pl C s Is. apply Permutation_sym in Pl. destruct (C s) as (t & It & Et); [eapply Permutation_in; eauto|].
      exists t. split; auto. eapply Permutation_in; [apply Permutation_sym, Pl|auto]. }
    split; intros (o & Io & C); exists o; (split; [exact Io|]); [apply (G _ _ (Permutation_sym (PF _)) C)|apply (G _ _ (PF _) C)]. }
  destruct Q as [Q1 Q2]. destruct O1 as [->| ->], O2 as [->| ->]; auto; symmetry; auto.
Qed.

(** Concrete boundaries: two loops close; a chain does not; nor does a polygon whose sides are
    not oriented consistently (the user has to orient the open boundary). *)
Definition open_model (segs : list (Z * Z)) : model unit :=
  {| mo_mats := {| pecs := []; openBoundaries := [{| o_name := "OpenBoundary_0"; o_attr := 1 |}]; dielectrics := [] |};
     mo_mesh := {| m_elems := [];
                   m_bdr := map (fun s => {| e_attr := 1; e_verts := [fst s; snd s]; e_vol := tt |}) segs;
                   m_coord := fun _ => (tt, tt) |};
     mo_ground := 0 |}.
Example C14_example :
  determineOpenness true (open_model [(0, 1); (5, 6); (1, 2); (6, 5); (2, 0)]%Z) = Ok Open /\
  determineOpenness true (open_model [(0, 1); (1, 2)]%Z) = Ok SemiOpen /\
  determineOpenness true (open_model [(0, 1); (2, 1); (2, 0)]%Z) = Ok SemiOpen /\
  (forall e, In e (m_bdr (mo_mesh (open_model [(0, 1); (5, 6); (1, 2); (6, 5); (2, 0)]%Z))) -> is_segment e) /\
  NoDup (map fst (segments_with (mo_mesh (open_model [(0, 1); (5, 6); (1, 2); (6, 5); (2, 0)]%Z)) 1%Z)).
Proof.
  split; [vm_compute; reflexivity|]. split; [vm_compute; reflexivity|]. split; [vm_compute; reflexivity|]. split.
  - cbn. intros e I. repeat (destruct I as [<-|I]; [do 2 eexists; split; [reflexivity|lia]|]). destruct I.
  - cbn. repeat constructor; cbn; intuition congruence.
Qed.

Print Assumptions C09_vertices_and_edges.
Print Assumptions C09_rejected_calls.
Print Assumptions C10_split_closed_paths.
Print Assumptions C10_closed_paths_graph.
Print Assumptions C11_split_any_graph_refuted.
Print Assumptions C11_isolated_vertex_refuted.
Print Assumptions C11_split_returning_graph_partial.
Print Assumptions C11_split_any_graph_partial.
Print Assumptions C12_boundary_graph.
Print Assumptions C12_boundary_of_cells.
Print Assumptions C13_cycles.
Print Assumptions C14_closed_without_open_boundary.
Print Assumptions C14_open_iff_closes.
Print Assumptions C14_order_irrelevant.
