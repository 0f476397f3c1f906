(** Proofs about directed graphs: bookkeeping, boundary graph. *)
From Verif Require Import Prelude StdMap Graph SpecGraph ListLemmas.
From Coq Require Import Permutation Relations.

(** ** closed paths *)
Lemma combine_shift {A} (d : A) (l : list A) x :
  combine l (tl l ++ [x]) = map (fun i => (nth i l d, nth (S i) (l ++ [x]) d)) (seq 0 (List.length l)).
Proof.
  induction l as [|a l IH]; [reflexivity|].
  cbn [tl List.length seq map]. destruct l as [|b l]; [reflexivity|].
  cbn [tl] in IH. change (combine (a :: b :: l) ((b :: l) ++ [x])) with ((a, b) :: combine (b :: l) (l ++ [x])).
  f_equal.
  rewrite IH. rewrite <- seq_shift, map_map. reflexivity.
Qed.
Lemma closed_pairs_spec vs : closed_pairs vs = path_edges vs.
Proof.
  unfold closed_pairs, path_edges. destruct vs as [|v r]; [reflexivity|].
  change r with (tl (v :: r)) at 1. rewrite (combine_shift 0%Z).
  apply map_ext_in. intros i I. apply in_seq in I. f_equal. cbn [List.length] in *.
  destruct (Nat.eq_dec (S i) (S (List.length r))) as [->|N].
  - rewrite Nat.mod_same by lia. rewrite app_nth2 by (cbn; lia). cbn [List.length]. now rewrite Nat.sub_diag.
  - rewrite Nat.mod_small by lia. rewrite app_nth1 by (cbn; lia). reflexivity.
Qed.
Lemma path_edges_cons v r :
  path_edges (v :: r) = combine (v :: r) (r ++ [v]).
Proof. now rewrite <- closed_pairs_spec. Qed.
Lemma path_edges_fst vs : map fst (path_edges vs) = vs.
Proof.
  unfold path_edges. rewrite map_map. cbn [fst].
  induction vs as [|v r IH]; [reflexivity|]. cbn [List.length seq map nth]. f_equal.
  rewrite <- seq_shift, map_map. cbn [nth]. exact IH.
Qed.
Lemma path_edges_length vs : List.length (path_edges vs) = List.length vs.
Proof. unfold path_edges. now rewrite map_length, seq_length. Qed.
Lemma combine_snd {A B} (l : list A) (l' : list B) :
  List.length l = List.length l' -> map snd (combine l l') = l'.
Proof.
  revert l'. induction l as [|a l IH]; intros [|b l'] E; cbn in *; try discriminate; auto.
  f_equal. apply IH. lia.
Qed.
Lemma path_edges_snd v r : map snd (path_edges (v :: r)) = r ++ [v].
Proof.
  rewrite path_edges_cons. apply combine_snd. rewrite app_length. cbn. lia.
Qed.
Lemma path_edges_snd_in vs x : In x (map snd (path_edges vs)) <-> In x vs.
Proof.
  destruct vs as [|v r]; [reflexivity|]. rewrite path_edges_snd, in_app_iff. cbn. tauto.
Qed.

Lemma NoDup_app_snoc {A} (l : list A) x : NoDup l -> ~ In x l -> NoDup (l ++ [x]).
Proof.
  induction l as [|a l IH]; intros ND N; cbn; [repeat constructor; auto|].
  inversion ND; subst. constructor.
  - rewrite in_app_iff. cbn. cbn in N. intuition.
  - apply IH; auto. cbn in N; tauto.
Qed.

(** ** Well formed graphs *)
Record gwf (g : digraph) : Prop := {
  w_nodup : NoDup (g_ids g);
  w_sorted : msorted (g_map g);
  w_map : forall id v, mget id (g_map g) = Some v <-> nth_error (g_ids g) v = Some id;
  w_edge : forall u v, In (u, v) (g_edges g) ->
    u <> v /\ (u < List.length (g_ids g))%nat /\ (v < List.length (g_ids g))%nat }.

Lemma gwf_empty : gwf empty_graph.
Proof.
  split; cbn; try constructor; try (intros; contradiction).
  - discriminate.
  - intros E. destruct v; discriminate.
Qed.

Section Wf.
  Variable g : digraph.
  Hypothesis W : gwf g.

  Lemma vid_nth v : (v < List.length (g_ids g))%nat -> nth_error (g_ids g) v = Some (vid g v).
  Proof. intros L. unfold vid. now apply nth_error_nth'. Qed.
  Lemma vid_inj u v : (u < List.length (g_ids g))%nat -> (v < List.length (g_ids g))%nat ->
    vid g u = vid g v -> u = v.
  Proof.
    intros U V E. apply (NoDup_nth_error (g_ids g)); [apply (w_nodup _ W)|auto|].
    rewrite !vid_nth by auto. now f_equal.
  Qed.
  Lemma mget_vid v : (v < List.length (g_ids g))%nat -> mget (vid g v) (g_map g) = Some v.
  Proof. intros L. apply (w_map _ W). now apply vid_nth. Qed.
  Lemma mget_lt id v : mget id (g_map g) = Some v -> (v < List.length (g_ids g))%nat /\ vid g v = id.
  Proof.
    intros E. apply (w_map _ W) in E. split; [apply nth_error_Some; congruence|].
    unfold vid. erewrite nth_error_nth; eauto.
  Qed.
  Lemma mcount_ids id : mcount id (g_map g) = true <-> In id (g_ids g).
  Proof.
    unfold mcount. destruct (mget id (g_map g)) as [v|] eqn:E.
    - split; auto. intros _. apply (w_map _ W) in E. eapply nth_error_In; eauto.
    - split; [discriminate|]. intros I. apply In_nth_error in I as [v I]. apply (w_map _ W) in I. congruence.
  Qed.

  Lemma addVertex_ids id x : In x (g_ids (addVertex g id)) <-> x = id \/ In x (g_ids g).
  Proof.
    unfold addVertex. destruct (mcount id (g_map g)) eqn:E.
    - apply mcount_ids in E. intuition (subst; auto).
    - cbn. rewrite in_app_iff. cbn. intuition.
  Qed.
  Lemma addVertex_edges id : g_edges (addVertex g id) = g_edges g.
  Proof. unfold addVertex. destruct (mcount id (g_map g)); reflexivity. Qed.
  Lemma addVertex_prefix id : exists l, g_ids (addVertex g id) = g_ids g ++ l.
  Proof.
    unfold addVertex. destruct (mcount id (g_map g)); [exists []; now rewrite app_nil_r|]. eexists; reflexivity.
  Qed.
  Lemma addVertex_wf id : gwf (addVertex g id).
  Proof.
    unfold addVertex. destruct (mcount id (g_map g)) eqn:E; [exact W|].
    assert (N : ~ In id (g_ids g)) by (rewrite <- mcount_ids; congruence).
    assert (M : mget id (g_map g) = None).
    { unfold mcount in E. destruct (mget id (g_map g)); congruence. }
    split; cbn.
    - apply NoDup_app_snoc; auto. apply (w_nodup _ W).
    - apply mins_sorted, (w_sorted _ W).
    - intros i v. rewrite mget_mins by apply (w_sorted _ W).
      destruct (oequiv i id) eqn:Q.
      + apply oequiv_eq in Q. subst i. rewrite M. split.
        * intros [= <-]. rewrite nth_error_app2, Nat.sub_diag by lia. reflexivity.
        * intros X. f_equal. destruct (Nat.lt_trichotomy v (List.length (g_ids g))) as [L|[L|L]]; auto.
          -- rewrite nth_error_app1 in X by auto. apply nth_error_In in X. contradiction.
          -- rewrite nth_error_app2 in X by lia.
             destruct (v - List.length (g_ids g))%nat as [|k] eqn:K; [lia|]. cbn in X. destruct k; discriminate.
      + apply oequiv_neq in Q. rewrite (w_map _ W). split; intros X.
        * rewrite nth_error_app1; auto. apply nth_error_Some. congruence.
        * destruct (Nat.lt_ge_cases v (List.length (g_ids g))) as [L|L].
          -- now rewrite nth_error_app1 in X by auto.
          -- rewrite nth_error_app2 in X by lia.
             destruct (v - List.length (g_ids g))%nat as [|k]; cbn in X; [congruence|destruct k; discriminate].
    - intros u v I. apply (w_edge _ W) in I. rewrite app_length. cbn. lia.
  Qed.
End Wf.

Lemma addVertex_vid g id v : (v < List.length (g_ids g))%nat -> vid (addVertex g id) v = vid g v.
Proof.
  intros L. unfold vid. destruct (addVertex_prefix g id) as [l ->]. now apply app_nth1.
Qed.
Lemma getEdges_ext g g' : g_edges g' = g_edges g ->
  (forall v, (v < List.length (g_ids g))%nat -> vid g' v = vid g v) -> gwf g ->
  getEdgesAsPairs g' = getEdgesAsPairs g.
Proof.
  intros E V W. unfold getEdgesAsPairs. rewrite E. apply map_ext_in. intros [u v] I.
  apply (w_edge _ W) in I. cbn. rewrite !V by tauto. reflexivity.
Qed.

(** What a well formed graph shows to its users. *)
Lemma getVertices_in g v : In v (getVertices g) <-> In v (g_ids g).
Proof. apply in_sof. Qed.
Lemma getVertices_size g : gwf g -> List.length (getVertices g) = verticesSize g.
Proof.
  intros W. unfold verticesSize, getVertices. apply Permutation_length.
  apply NoDup_Permutation.
  - apply ssorted_nodup, sof_sorted.
  - apply (w_nodup _ W).
  - intros x. apply in_sof.
Qed.
Lemma edges_size g : List.length (getEdgesAsPairs g) = edgesSize g.
Proof. apply map_length. Qed.

Lemma addVertex_view g id : gwf g ->
  (forall x, In x (g_ids (addVertex g id)) <-> x = id \/ In x (g_ids g)) /\
  getEdgesAsPairs (addVertex g id) = getEdgesAsPairs g /\ gwf (addVertex g id).
Proof.
  intros W. split; [intros; now apply addVertex_ids|]. split; [|now apply addVertex_wf].
  apply getEdges_ext; auto using addVertex_edges. intros; now apply addVertex_vid.
Qed.

Lemma ensure_eq g id : (if mcount id (g_map g) then g else addVertex g id) = addVertex g id.
Proof. unfold addVertex. destruct (mcount id (g_map g)) eqn:E; auto. Qed.

Lemma addEdge_view g a b : gwf g -> a <> b ->
  exists g', addEdge g a b = Ok g' /\ gwf g' /\
    (forall x, In x (g_ids g') <-> x = a \/ x = b \/ In x (g_ids g)) /\
    getEdgesAsPairs g' = getEdgesAsPairs g ++ [(a, b)].
Proof.
  intros W N. unfold addEdge. destruct (Z.eqb_spec a b) as [E|_]; [contradiction|].
  rewrite (ensure_eq g a). rewrite (ensure_eq (addVertex g a) b).
  destruct (addVertex_view g a W) as (V1 & E1 & W1).
  destruct (addVertex_view (addVertex g a) b W1) as (V2 & E2 & W2).
  set (g2 := addVertex (addVertex g a) b) in *.
  assert (Ia : In a (g_ids g2)) by (apply V2; right; apply V1; now left).
  assert (Ib : In b (g_ids g2)) by (apply V2; now left).
  assert (Sa : exists u, mget a (g_map g2) = Some u).
  { apply In_nth_error in Ia as [u Ia]. exists u. now apply (w_map _ W2). }
  assert (Sb : exists u, mget b (g_map g2) = Some u).
  { apply In_nth_error in Ib as [u Ib]. exists u. now apply (w_map _ W2). }
  destruct Sa as [u Eu], Sb as [v Ev].
  destruct (mget_lt _ W2 _ _ Eu) as [Lu Vu]. destruct (mget_lt _ W2 _ _ Ev) as [Lv Vv].
  unfold vindex. rewrite Eu, Ev. eexists. split; [reflexivity|]. split; [|split].
  - split; cbn.
    + apply (w_nodup _ W2).
    + apply (w_sorted _ W2).
    + apply (w_map _ W2).
    + intros x y I. apply in_app_iff in I as [I|[[= <- <-]|[]]]; [now apply (w_edge _ W2)|].
      split; [|tauto]. intros ->. congruence.
  - intros x. cbn. rewrite V2, V1. tauto.
  - unfold getEdgesAsPairs at 1. cbn [g_edges g_ids]. rewrite map_app. cbn [map].
    unfold vid at 3 4. cbn [g_ids fst snd]. fold (vid g2 u). fold (vid g2 v). rewrite Vu, Vv.
    f_equal. rewrite <- E1, <- E2. reflexivity.
Qed.
Lemma addEdge_loop g a : addEdge g a a = Throw (RuntimeError "Edges starting and finishing in same vertex are not allowed.").
Proof. unfold addEdge. now rewrite Z.eqb_refl. Qed.
Lemma addEdge_ok g a b g' : gwf g -> addEdge g a b = Ok g' ->
  a <> b /\ gwf g' /\
    (forall x, In x (g_ids g') <-> x = a \/ x = b \/ In x (g_ids g)) /\
    getEdgesAsPairs g' = getEdgesAsPairs g ++ [(a, b)].
Proof.
  intros W E. destruct (Z.eq_dec a b) as [->|N]; [rewrite addEdge_loop in E; discriminate|].
  destruct (addEdge_view g a b W N) as (g1 & E1 & R). rewrite E1 in E. injection E as <-. auto.
Qed.

Lemma endpoints_app l1 l2 v : endpoints (l1 ++ l2) v <-> endpoints l1 v \/ endpoints l2 v.
Proof.
  unfold endpoints. split.
  - intros (w & H). rewrite !in_app_iff in H. destruct H as [[H|H]|[H|H]]; eauto.
  - intros [(w & [H|H])|(w & [H|H])]; exists w; rewrite !in_app_iff; auto.
Qed.
Lemma endpoints_single a b v : endpoints [(a, b)] v <-> v = a \/ v = b.
Proof.
  unfold endpoints; cbn. split.
  - intros (w & [[[= <- <-]|[]]|[[= <- <-]|[]]]); auto.
  - intros [->| ->]; [exists b|exists a]; auto.
Qed.
Lemma endpoints_cons a b l v : endpoints ((a, b) :: l) v <-> (v = a \/ v = b) \/ endpoints l v.
Proof. rewrite (endpoints_app [(a,b)] l). now rewrite endpoints_single. Qed.
Lemma endpoints_nil v : ~ endpoints [] v.
Proof. intros (w & [[]|[]]). Qed.

(** Adding a list of edges up to the first rejected one. *)
Lemma addEdges_left_view es : forall g, gwf g ->
  gwf (addEdges_left g es) /\
  (forall x, In x (g_ids (addEdges_left g es)) <-> endpoints (until_rejected es) x \/ In x (g_ids g)) /\
  getEdgesAsPairs (addEdges_left g es) = getEdgesAsPairs g ++ until_rejected es.
Proof.
  induction es as [|[a b] es IH]; intros g W; cbn.
  - split; [auto|]. rewrite app_nil_r. split; auto. intros x. split; auto. intros [H|H]; auto.
    now apply endpoints_nil in H.
  - destruct (Z.eqb_spec a b) as [->|N].
    + rewrite addEdge_loop. split; [auto|]. rewrite app_nil_r. split; auto.
      intros x. split; auto. intros [H|H]; auto. now apply endpoints_nil in H.
    + destruct (addEdge_view g a b W N) as (g' & E & W' & V & Ed). rewrite E.
      destruct (IH g' W') as (W2 & V2 & E2). split; [auto|]. split.
      * intros x. rewrite V2, V, endpoints_cons. tauto.
      * rewrite E2, Ed. rewrite <- app_assoc. reflexivity.
Qed.
Lemma foldM_addEdge es : forall g g', gwf g ->
  foldM (fun g e => addEdge g (fst e) (snd e)) es g = Ok g' ->
  (forall a, ~ In (a, a) es) /\ addEdges_left g es = g'.
Proof.
  induction es as [|[a b] es IH]; intros g g' W E; cbn in *.
  - injection E as <-. split; auto.
  - apply bind_ok in E as (g1 & E1 & E). rewrite E1.
    destruct (addEdge_ok _ _ _ _ W E1) as (N & W1 & _). destruct (IH _ _ W1 E) as (L & R).
    split; auto. intros x [[= -> ->]|I]; [contradiction|now apply (L x)].
Qed.
Lemma foldM_addEdge_total es : forall g, gwf g -> (forall a, ~ In (a, a) es) ->
  foldM (fun g e => addEdge g (fst e) (snd e)) es g = Ok (addEdges_left g es).
Proof.
  induction es as [|[a b] es IH]; intros g W N; cbn; [reflexivity|].
  assert (a <> b) by (intros ->; apply (N b); now left).
  destruct (addEdge_view g a b W H) as (g' & E & W' & _). rewrite E. cbn. apply IH; auto.
  intros x I; apply (N x); now right.
Qed.
Lemma foldM_addEdge_throws es : forall g, gwf g -> (exists a, In (a, a) es) ->
  is_throw (foldM (fun g e => addEdge g (fst e) (snd e)) es g).
Proof.
  induction es as [|[a b] es IH]; intros g W (x & I); [contradiction|]. cbn.
  destruct (Z.eq_dec a b) as [->|N]; [rewrite addEdge_loop; eexists; reflexivity|].
  destruct (addEdge_view g a b W N) as (g' & E & W' & _). rewrite E. cbn. apply IH; auto.
  destruct I as [[= -> ->]|I]; [contradiction|eauto].
Qed.
Lemma until_rejected_all es : (forall a, ~ In (a, a) es) -> until_rejected es = es.
Proof.
  induction es as [|[a b] es IH]; intros N; cbn; [reflexivity|].
  destruct (Z.eqb_spec a b) as [->|_]; [exfalso; apply (N b); now left|].
  f_equal. apply IH. intros x I. apply (N x). now right.
Qed.

Lemma addEdge_left_as g a b : addEdge_left g a b = addEdges_left g [(a, b)].
Proof. unfold addEdge_left. cbn. destruct (addEdge g a b); reflexivity. Qed.

Lemma call_left_view g c : gwf g ->
  gwf (call_left g c) /\
  (forall x, In x (g_ids (call_left g c)) <-> call_vertex c x \/ In x (g_ids g)) /\
  getEdgesAsPairs (call_left g c) = getEdgesAsPairs g ++ call_edges c.
Proof.
  intros W. destruct c as [id|a b|vs].
  - cbn [call_left call_vertex call_edges]. destruct (addVertex_view g id W) as (V & E & W').
    split; [auto|split; [auto|]]. now rewrite app_nil_r.
  - cbn [call_left call_vertex call_edges]. rewrite addEdge_left_as. now apply addEdges_left_view.
  - cbn [call_left call_vertex]. unfold addClosedPath_left. cbn [call_edges].
    destruct (List.length vs =? 1)%nat.
    + split; [auto|]. rewrite app_nil_r. split; auto.
      intros x. split; auto. intros [H|H]; auto. now apply endpoints_nil in H.
    + rewrite closed_pairs_spec. now apply addEdges_left_view.
Qed.
Lemma history_view h : forall g, gwf g ->
  let g' := fold_left call_left h g in
  gwf g' /\
  (forall x, In x (g_ids g') <-> (exists c, In c h /\ call_vertex c x) \/ In x (g_ids g)) /\
  getEdgesAsPairs g' = getEdgesAsPairs g ++ flat_map call_edges h.
Proof.
  induction h as [|c h IH]; intros g W; cbn zeta; cbn [fold_left].
  - split; [auto|]. cbn. rewrite app_nil_r. split; auto. intros x. split; auto.
    intros [(c & [] & _)|H]; auto.
  - destruct (call_left_view g c W) as (W1 & V1 & E1).
    destruct (IH _ W1) as (W2 & V2 & E2). split; [auto|]. split.
    + intros x. rewrite V2, V1. cbn. split.
      * intros [(c' & I & H)|[H|H]]; eauto.
      * intros [(c' & [<-|I] & H)|H]; eauto.
    + rewrite E2, E1. cbn. now rewrite app_assoc.
Qed.
Lemma history_wf h : gwf (history_left h).
Proof. apply (history_view h empty_graph gwf_empty). Qed.

(** Vertices that an edge list does not mention do not appear in graphs made of edges only. *)
Definition tight (g : digraph) : Prop :=
  gwf g /\ forall x, In x (g_ids g) <-> endpoints (getEdgesAsPairs g) x.
Lemma tight_empty : tight empty_graph.
Proof. split; [apply gwf_empty|]. cbn. intros x; split; [tauto|]. intros H. now apply endpoints_nil in H. Qed.
Lemma tight_addEdge g a b g' : tight g -> addEdge g a b = Ok g' -> tight g'.
Proof.
  intros [W T] E. destruct (addEdge_ok _ _ _ _ W E) as (N & W' & V & Ed). split; auto.
  intros x. rewrite V, Ed, endpoints_app, endpoints_single, T. tauto.
Qed.
Lemma tight_addEdges g es : tight g -> tight (addEdges_left g es).
Proof.
  revert g; induction es as [|[a b] es IH]; intros g T; cbn; auto.
  destruct (addEdge g a b) eqn:E; auto. apply IH. eapply tight_addEdge; eauto.
Qed.

(** Graphs built from a filtered list of edges. *)
Lemma foldM_filter_edges {A} (p : A -> bool) (h : A -> Z * Z) (l : list A) :
  (forall x, In x l -> p x = true -> fst (h x) <> snd (h x)) ->
  forall g, tight g ->
  exists g', foldM (fun r e => if p e then addEdge r (fst (h e)) (snd (h e)) else Ok r) l g = Ok g' /\
    tight g' /\ getEdgesAsPairs g' = getEdgesAsPairs g ++ map h (filter p l).
Proof.
  induction l as [|x l IH]; intros N g T.
  - exists g. cbn. rewrite app_nil_r. auto.
  - cbn. destruct (p x) eqn:P.
    + destruct (addEdge_view g (fst (h x)) (snd (h x)) (proj1 T)) as (g1 & E1 & W1 & V1 & D1).
      { apply N; [now left|auto]. }
      rewrite E1. cbn [bind]. destruct (IH (fun y I => N y (or_intror I)) g1) as (g' & E & T' & D).
      { eapply tight_addEdge; eauto. }
      exists g'. split; auto. split; auto. rewrite D, D1, <- app_assoc. cbn. do 2 f_equal.
      now destruct (h x).
    + cbn [bind]. destruct (IH (fun y I => N y (or_intror I)) g T) as (g' & R). exists g'. exact R.
Qed.

(** ** Boundary graph *)
Lemma has_edge_iff g u v : has_edge g u v = true <-> In (u, v) (g_edges g).
Proof.
  unfold has_edge. rewrite existsb_exists. split.
  - intros ([a b] & I & E). apply andb_prop in E as [E1 E2]. cbn in *.
    apply Nat.eqb_eq in E1, E2. now subst.
  - intros I. exists (u, v); split; auto. cbn. now rewrite !Nat.eqb_refl.
Qed.
Lemma edge_pair g : gwf g -> forall u v, (u < List.length (g_ids g))%nat -> (v < List.length (g_ids g))%nat ->
  (In (vid g u, vid g v) (getEdgesAsPairs g) <-> In (u, v) (g_edges g)).
Proof.
  intros W u v U V. unfold getEdgesAsPairs. split.
  - intros I. apply in_map_iff in I as ([x y] & [= E1 E2] & I).
    pose proof (w_edge _ W _ _ I) as (_ & L1 & L2).
    apply vid_inj in E1; auto. apply vid_inj in E2; auto. now subst.
  - intros I. apply in_map_iff. exists (u, v). auto.
Qed.

Definition reverse_absent (es : list (Z * Z)) (e : Z * Z) : bool :=
  negb (existsb (fun d => (fst d =? snd e)%Z && (snd d =? fst e)%Z) es).
Lemma reverse_absent_iff es a b : reverse_absent es (a, b) = true <-> ~ In (b, a) es.
Proof.
  unfold reverse_absent. rewrite negb_true_iff, <- not_true_iff_false, existsb_exists. cbn.
  split; intros H I; apply H.
  - exists (b, a). cbn. now rewrite !Z.eqb_refl.
  - destruct I as ([x y] & I & E). cbn in E. apply andb_prop in E as [E1 E2].
    apply Z.eqb_eq in E1, E2. now subst.
Qed.
Lemma foldM_ext {A S} (f g : S -> A -> outcome S) l :
  (forall x s, In x l -> f s x = g s x) -> forall s, foldM f l s = foldM g l s.
Proof.
  induction l as [|x l IH]; intros E s; [reflexivity|]. cbn. rewrite E by now left.
  destruct (g s x); cbn; auto. apply IH. intros; apply E; now right.
Qed.
Lemma boundary_view g : gwf g ->
  exists b, getBoundaryGraph g = Ok b /\ tight b /\
    getEdgesAsPairs b = filter (reverse_absent (getEdgesAsPairs g)) (getEdgesAsPairs g).
Proof.
  intros W. unfold getBoundaryGraph.
  destruct (foldM_filter_edges (fun e => negb (has_edge g (snd e) (fst e)))
              (fun e => (vid g (fst e), vid g (snd e))) (g_edges g)) with (g := empty_graph)
    as (b & E & T & D).
  - intros [u v] I _. cbn. pose proof (w_edge _ W _ _ I) as (N & L1 & L2).
    intros X. apply vid_inj in X; auto.
  - apply tight_empty.
  - exists b. split; [|split; auto].
    + rewrite <- E. apply foldM_ext. intros x s _. cbn. destruct (has_edge g (snd x) (fst x)); reflexivity.
    + rewrite D. cbn [getEdgesAsPairs empty_graph g_edges map app].
      unfold getEdgesAsPairs at 2.
      assert (M : forall l, (forall e, In e l -> In e (g_edges g)) ->
        map (fun e => (vid g (fst e), vid g (snd e))) (filter (fun e => negb (has_edge g (snd e) (fst e))) l)
        = filter (reverse_absent (getEdgesAsPairs g)) (map (fun e => (vid g (fst e), vid g (snd e))) l)).
      { induction l as [|[u v] l IH]; intros S; [reflexivity|]. cbn [map filter fst snd].
        pose proof (w_edge _ W _ _ (S _ (or_introl eq_refl))) as (N & L1 & L2).
        assert (Q : negb (has_edge g v u) = reverse_absent (getEdgesAsPairs g) (vid g u, vid g v)).
        { apply eq_iff_eq_true. rewrite reverse_absent_iff, negb_true_iff, <- not_true_iff_false, has_edge_iff.
          rewrite edge_pair by auto. tauto. }
        rewrite Q. destruct (reverse_absent _ _); cbn [map]; rewrite IH; auto; intros; apply S; now right. }
      apply M. auto.
Qed.
