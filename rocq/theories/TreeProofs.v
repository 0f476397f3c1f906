(** The domain tree (C17). *)
From Verif Require Import Prelude StdMap Graph Materials ModelM Domain ListLemmas SpecGraph SpecDomain
  GraphProofs SplitProofs CycleProofs.
From Coq Require Import Permutation Relations Sorted.

(** ** Increasing lists *)
Lemma increasing_sorted l : increasing l <-> ssorted l.
Proof.
  unfold ssorted. induction l as [|a l IH]; [split; [constructor|exact (fun _ => I)]|].
  split.
  - intros H. assert (S : StronglySorted olt l) by (apply IH; destruct l; [exact I|apply H]).
    constructor; auto. destruct l as [|b l]; [constructor|]. destruct H as [L _].
    inversion S as [|? ? S' F]; subst. constructor; [unfold olt; cbn; lia|].
    apply Forall_forall. intros x Ix. rewrite Forall_forall in F. apply F in Ix.
    unfold olt in *; cbn in *; lia.
  - intros S. inversion S as [|? ? S' F]; subst. destruct l as [|b l]; [exact I|]. split.
    + inversion F; subst. unfold olt in *; cbn in *; lia.
    + now apply IH.
Qed.
Lemma increasing_nodup l : increasing l -> NoDup l.
Proof. intros H. apply ssorted_nodup. now apply increasing_sorted. Qed.
Lemma increasing_filter p l : increasing l -> increasing (filter p l).
Proof.
  rewrite !increasing_sorted. unfold ssorted. induction 1 as [|a l S IH F]; cbn; [constructor|].
  destruct (p a); auto. constructor; auto. apply Forall_forall. intros x Ix.
  apply filter_In in Ix as [Ix _]. rewrite Forall_forall in F. auto.
Qed.
Lemma increasing_head a l x : increasing (a :: l) -> In x l -> (a < x)%Z.
Proof.
  rewrite increasing_sorted. intros S I. inversion S as [|? ? S' F]; subst.
  rewrite Forall_forall in F. apply F in I. unfold olt in I; cbn in I; lia.
Qed.
Lemma increasing_tail a l : increasing (a :: l) -> increasing l.
Proof. destruct l; cbn; tauto. Qed.

(** ** The multimap *)
Definition key (c : Z) (p : Z * Z) : bool := (fst p =? c)%Z.
Definition mm_sorted (mm : list (Z * Z)) : Prop := StronglySorted (fun a b : Z * Z => (fst a <= fst b)%Z) mm.
Lemma mmins_in (k v : Z) mm x : In x (mmins k v mm) <-> x = (k, v) \/ In x mm.
Proof.
  induction mm as [|[k' v'] mm IH]; cbn; [intuition|].
  destruct (k <? k')%Z; cbn; [intuition|]. rewrite IH. intuition.
Qed.
Lemma mmins_sorted (k v : Z) mm : mm_sorted mm -> mm_sorted (mmins k v mm).
Proof.
  unfold mm_sorted. induction 1 as [|[k' v'] mm S IH F]; cbn; [repeat constructor|].
  destruct (Z.ltb_spec k k').
  - constructor; [constructor; auto|]. constructor; [cbn; lia|].
    apply Forall_forall. intros x I. rewrite Forall_forall in F. apply F in I. cbn in *. lia.
  - constructor; auto. apply Forall_forall. intros x I. apply mmins_in in I as [->|I]; [cbn; lia|].
    rewrite Forall_forall in F; auto.
Qed.
Lemma mmins_filter c (k v : Z) mm : mm_sorted mm ->
  filter (key c) (mmins k v mm) = filter (key c) mm ++ (if (k =? c)%Z then [(k, v)] else []).
Proof.
  unfold mm_sorted. induction 1 as [|[k' v'] mm S IH F]; cbn; [unfold key; cbn; now destruct (k =? c)%Z|].
  destruct (Z.ltb_spec k k') as [L|L].
  - assert (N : k = c -> filter (key c) ((k', v') :: mm) = []).
    { intros <-. cbn. unfold key at 1; cbn. destruct (Z.eqb_spec k' k); [lia|].
      rewrite Forall_forall in F. clear - F L. induction mm as [|x mm IH]; auto. cbn.
      unfold key at 1. assert (fst x <> k) by (specialize (F x (or_introl eq_refl)); cbn in F; lia).
      destruct (Z.eqb_spec (fst x) k); [contradiction|]. apply IH. intros; apply F; now right. }
    change (filter (key c) ((k, v) :: (k', v') :: mm) = filter (key c) ((k', v') :: mm) ++ (if (k =? c)%Z then [(k, v)] else [])).
    destruct (Z.eqb_spec k c) as [E|E].
    + rewrite (N E). cbn [filter] in *. unfold key at 1; cbn. destruct (Z.eqb_spec k c); [|contradiction].
      now rewrite (N E).
    + rewrite app_nil_r. cbn [filter]. unfold key at 1; cbn. destruct (Z.eqb_spec k c); [contradiction|reflexivity].
  - cbn. rewrite IH. now destruct (key c (k', v')).
Qed.

Lemma mm_split c mm : mm_sorted mm -> (forall p, In p mm -> (c <= fst p)%Z) ->
  mm = filter (key c) mm ++ filter (fun p => negb (key c p)) mm.
Proof.
  unfold mm_sorted. induction 1 as [|[k v] mm S IH F]; intros B; [reflexivity|]. cbn.
  assert (K : key c (k, v) = (k =? c)%Z) by reflexivity. rewrite K.
  destruct (Z.eqb_spec k c) as [->|N]; cbn.
  - f_equal. apply IH. intros; apply B; now right.
  - assert (c < k)%Z by (specialize (B (k, v) (or_introl eq_refl)); cbn in B; lia).
    assert (E : filter (key c) mm = []).
    { rewrite Forall_forall in F. clear - F H. induction mm as [|x mm IH]; auto. cbn. unfold key at 1.
      assert (fst x <> c) by (specialize (F x (or_introl eq_refl)); cbn in F; lia).
      destruct (Z.eqb_spec (fst x) c); [contradiction|]. apply IH. intros; apply F; now right. }
    rewrite E. cbn. f_equal. rewrite E in IH. apply IH. intros p I.
    rewrite Forall_forall in F. apply F in I. cbn in *; lia.
Qed.
Lemma filter_sorted p mm : mm_sorted mm -> mm_sorted (filter p mm).
Proof.
  unfold mm_sorted. induction 1 as [|a l S IH F]; cbn; [constructor|].
  destruct (p a); auto. constructor; auto. apply Forall_forall. intros x Ix.
  apply filter_In in Ix as [Ix _]. rewrite Forall_forall in F. auto.
Qed.
Lemma mm_groups cs : forall mm, mm_sorted mm -> increasing cs -> (forall p, In p mm -> In (fst p) cs) ->
  mm = flat_map (fun c => filter (key c) mm) cs.
Proof.
  induction cs as [|c cs IH]; intros mm S I B.
  - destruct mm as [|p mm]; [reflexivity|]. destruct (B p (or_introl eq_refl)).
  - cbn [flat_map]. rewrite (mm_split c mm S) at 1.
    2:{ intros p Ip. destruct (B p Ip) as [<-|X]; [lia|]. pose proof (increasing_head _ _ _ I X). lia. }
    f_equal. rewrite (IH (filter (fun p => negb (key c p)) mm)).
    + rewrite !flat_map_concat_map. f_equal. apply map_ext_in. intros c' Ic'.
      assert (c < c')%Z by (eapply increasing_head; eauto).
      clear - H. induction mm as [|p mm IH]; [reflexivity|]. cbn.
      assert (K : forall x, key x p = (fst p =? x)%Z) by reflexivity. rewrite !K.
      destruct (Z.eqb_spec (fst p) c); cbn.
      * destruct (Z.eqb_spec (fst p) c'); [lia|exact IH].
      * rewrite K. destruct (Z.eqb_spec (fst p) c'); [f_equal|]; exact IH.
    + now apply filter_sorted.
    + now apply increasing_tail in I.
    + intros p Ip. apply filter_In in Ip as [Ip Np]. destruct (B p Ip) as [E|X]; auto.
      unfold key in Np. rewrite <- E, Z.eqb_refl in Np. discriminate.
Qed.

(** ** Vertices and multimap of the tree *)
Definition holders (ds : list (Z * domain)) (c : Z) : list Z :=
  map fst (filter (fun d => smem c (dm_conductors (snd d))) ds).
Definition all_conductors (ds : list (Z * domain)) : list Z :=
  sof (flat_map (fun d => dm_conductors (snd d)) ds).

Lemma in_holders ds c id : In id (holders ds c) <-> has_conductor ds id c.
Proof.
  unfold holders, has_conductor. rewrite in_map_iff. split.
  - intros ([i d] & <- & I). apply filter_In in I as [I S]. cbn in *. apply smem_in in S. exists d; auto.
  - intros (d & I & S). exists (id, d). split; auto. apply filter_In. split; auto. cbn. now apply smem_in.
Qed.
Lemma holders_increasing ds c : increasing (map fst ds) -> increasing (holders ds c).
Proof.
  unfold holders. rewrite !increasing_sorted. unfold ssorted. induction ds as [|[i d] ds IH]; cbn; intros S; [constructor|].
  inversion S as [|? ? S' F]; subst. destruct (smem c (dm_conductors d)); cbn; auto.
  constructor; auto. apply Forall_forall. intros x Ix. apply in_map_iff in Ix as ([j e] & <- & Ij).
  apply filter_In in Ij as [Ij _]. rewrite Forall_forall in F. apply F. apply in_map_iff. eexists; split; eauto.
Qed.

Lemma emplace_all c (id : Z) cs : forall mm, mm_sorted mm -> NoDup cs ->
  let mm' := fold_left (fun mm c => mmins c id mm) cs mm in
  mm_sorted mm' /\
  filter (key c) mm' = filter (key c) mm ++ (if smem c cs then [(c, id)] else []) /\
  (forall x, In x mm' -> In x mm \/ In (fst x) cs).
Proof.
  induction cs as [|k cs IH]; intros mm S ND; cbn; [rewrite app_nil_r; auto|].
  inversion ND as [|? ? NI ND']; subst.
  destruct (IH (mmins k id mm) (mmins_sorted _ _ _ S) ND') as (S' & F & X). split; auto. split.
  - rewrite F, mmins_filter by auto. rewrite <- app_assoc. f_equal. unfold oequiv; cbn [oltb OrdZ].
    destruct (Z.eqb_spec k c) as [->|N].
    + rewrite !Z.ltb_irrefl. cbn. assert (smem c cs = false) as ->; [|reflexivity].
      apply not_true_iff_false. intros Q. now apply smem_in in Q.
    + assert (negb (c <? k) && negb (k <? c) = false)%Z as ->; [|reflexivity].
      apply andb_false_iff. rewrite !negb_false_iff. lia.
  - intros x I. apply X in I as [I|I]; auto. apply mmins_in in I as [->|I]; cbn; auto.
Qed.

Lemma tree_vertices_view ds : forall g mm, gwf g -> mm_sorted mm ->
  (forall id d, In (id, d) ds -> increasing (dm_conductors d)) ->
  let r := fold_left (fun (s : digraph * list (Z * Z)) (d : Z * domain) =>
                 (addVertex (fst s) (fst d),
                  fold_left (fun mm c => mmins c (fst d) mm) (dm_conductors (snd d)) (snd s)))
              ds (g, mm) in
  gwf (fst r) /\ getEdgesAsPairs (fst r) = getEdgesAsPairs g /\
  (forall x, In x (g_ids (fst r)) <-> In x (map fst ds) \/ In x (g_ids g)) /\
  mm_sorted (snd r) /\
  (forall c, filter (key c) (snd r) = filter (key c) mm ++ map (pair c) (holders ds c)) /\
  (forall x, In x (snd r) -> In x mm \/ In (fst x) (flat_map (fun d => dm_conductors (snd d)) ds)).
Proof.
  induction ds as [|[i d] ds IH]; intros g mm W S C; cbn.
  - split; auto. split; auto. split; [tauto|]. split; auto. split; auto. intros; now rewrite app_nil_r.
  - destruct (addVertex_view g i W) as (V & E & W').
    assert (ND : NoDup (dm_conductors d)) by (eapply increasing_nodup, C; now left).
    pose proof (fun c => emplace_all c i (dm_conductors d) mm S ND) as EA. cbn in EA.
    destruct (IH (addVertex g i) (fold_left (fun mm c => mmins c i mm) (dm_conductors d) mm))
      as (W2 & E2 & V2 & S2 & F2 & X2); auto.
    { apply (EA 0%Z). }
    { intros; eapply C; right; eauto. }
    cbn in W2, E2, V2, S2, F2, X2 |- *. split; auto. split; [congruence|]. split; [|split; [auto|split]].
    + intros x. rewrite V2, V. intuition auto.
    + intros c. rewrite F2. destruct (EA c) as (_ & -> & _). rewrite <- app_assoc. f_equal.
      unfold holders; cbn. now destruct (smem c (dm_conductors d)).
    + intros x I. apply X2 in I as [I|I].
      * apply (EA 0%Z) in I as [I|I]; auto. right. apply in_app_iff; auto.
      * right. apply in_app_iff; auto.
Qed.

(** ** Edges *)
Definition star (l : list Z) : list (Z * Z) := match l with [] => [] | a :: r => map (pair a) r end.

Lemma edge_star c a l : forall g, gwf g -> ~ In a l -> In a (g_ids g) -> incl l (g_ids g) ->
  exists g', foldM tree_edge_step (map (pair c) l) (g, (c, a)) = Ok (g', (c, a)) /\
    gwf g' /\ (forall x, In x (g_ids g') <-> In x (g_ids g)) /\
    getEdgesAsPairs g' = getEdgesAsPairs g ++ map (pair a) l.
Proof.
  induction l as [|b l IH]; intros g W N Ia Il; cbn.
  - exists g. rewrite app_nil_r. split; [reflexivity|]. split; [auto|]. split; [tauto|auto].
  - rewrite Z.eqb_refl.
    assert (Nab : a <> b) by (intros ->; apply N; now left).
    destruct (addEdge_view g a b W Nab) as (g1 & -> & W1 & V1 & E1). cbn.
    assert (V : forall x, In x (g_ids g1) <-> In x (g_ids g)).
    { intros x. rewrite V1. split; auto. intros [->|[->|X]]; auto. apply Il; now left. }
    destruct (IH g1 W1) as (g' & -> & W' & V' & E').
    + intros X; apply N; now right.
    + now apply V.
    + intros x X. apply V, Il. now right.
    + exists g'. split; auto. split; auto. split.
      * intros x. now rewrite V'.
      * rewrite E', E1, <- app_assoc. reflexivity.
Qed.
Lemma edge_groups h cs : forall g pc pd, gwf g -> ~ In pc cs -> NoDup cs ->
  (forall c, In c cs -> NoDup (h c) /\ incl (h c) (g_ids g)) ->
  exists g' s, foldM tree_edge_step (flat_map (fun c => map (pair c) (h c)) cs) (g, (pc, pd)) = Ok (g', s) /\
    gwf g' /\ (forall x, In x (g_ids g') <-> In x (g_ids g)) /\
    getEdgesAsPairs g' = getEdgesAsPairs g ++ flat_map (fun c => star (h c)) cs.
Proof.
  induction cs as [|c cs IH]; intros g pc pd W NI ND H; cbn.
  - exists g, (pc, pd). rewrite app_nil_r. split; [reflexivity|]. split; [auto|]. split; [tauto|auto].
  - inversion ND as [|? ? NIc ND']; subst. rewrite foldM_app'.
    destruct (H c (or_introl eq_refl)) as [NDh Ih].
    destruct (h c) as [|a l] eqn:Eh; cbn.
    + apply IH; auto; [intros X; apply NI; now right|]. intros c' Ic'. apply H. now right.
    + destruct (Z.eqb_spec c pc) as [->|_]; [destruct NI; now left|].
      cbn. destruct (addVertex_view g a W) as (V1 & E1 & W1).
      assert (V : forall x, In x (g_ids (addVertex g a)) <-> In x (g_ids g)).
      { intros x. rewrite V1. split; auto. intros [->|X]; auto. apply Ih. now left. }
      inversion NDh; subst.
      destruct (edge_star c a l (addVertex g a) W1) as (g2 & -> & W2 & V2 & E2); auto.
      { apply V, Ih; now left. }
      { intros x X. apply V, Ih. now right. }
      cbn. destruct (IH g2 c a W2) as (g' & s & -> & W' & V' & E'); auto.
      { intros c' Ic'. destruct (H c' (or_intror Ic')) as [Hn Hi]. split; auto.
        intros x X. apply V2, V, Hi, X. }
      exists g', s. split; auto. split; auto. split.
      * intros x. now rewrite V', V2.
      * rewrite E', E2, E1, <- app_assoc. reflexivity.
Qed.

(** ** Conductor 0 *)
Lemma tree_check ds : forall found,
  foldM tree_check_step ds found =
    (if found then match holders ds 0 with [] => Ok true
                   | _ => Throw (RuntimeError "Conductor 0 must be only in a single domain.") end
     else match holders ds 0 with [] => Ok false | [_] => Ok true
          | _ => Throw (RuntimeError "Conductor 0 must be only in a single domain.") end).
Proof.
  unfold holders. induction ds as [|[i d] ds IH]; intros found; cbn; [now destruct found|].
  unfold tree_check_step at 1; cbn. destruct (smem 0%Z (dm_conductors d)); cbn.
  - destruct found; cbn; [reflexivity|]. rewrite IH.
    now destruct (map fst (filter (fun d : Z * domain => smem 0%Z (dm_conductors (snd d))) ds)).
  - rewrite IH. reflexivity.
Qed.

Lemma star_in l e : increasing l ->
  (In e (star l) <-> exists a b, e = (a, b) /\ In a l /\ In b l /\ (a < b)%Z /\ forall x, In x l -> (a <= x)%Z).
Proof.
  intros I. destruct l as [|a l]; cbn [star].
  - split; [intros []|]. intros (a & b & _ & [] & _).
  - rewrite in_map_iff. split.
    + intros (b & <- & Ib). exists a, b. split; auto. split; [now left|]. split; [now right|].
      split; [now apply (increasing_head a l)|]. intros x [->|X]; [lia|].
      pose proof (increasing_head a l x I X). lia.
    + intros (a' & b & -> & [->|Ia] & Ib & L & Lo).
      * exists b. split; auto. destruct Ib as [->|Ib]; [lia|auto].
      * pose proof (increasing_head a l a' I Ia). specialize (Lo a (or_introl eq_refl)). lia.
Qed.

Lemma tree_spec dbg ds : domain_map ds -> no_conductor_minus_one ds -> forall i0, holders ds 0 = [i0] ->
  exists t, mkDomainTree dbg ds = Ok t /\ gwf t /\
    getVertices t = map fst ds /\
    getEdgesAsPairs t = flat_map (fun c => star (holders ds c)) (all_conductors ds) /\
    findCycles t = [].
Proof.
  intros [Ik Ic] NM i0 H0. unfold mkDomainTree. rewrite tree_check, H0. cbn [bind negb].
  unfold tree_vertices.
  pose proof (tree_vertices_view ds empty_graph [] gwf_empty (SSorted_nil _) Ic) as TV.
  cbn zeta in TV. destruct (fold_left _ ds (empty_graph, [])) as [g mm] eqn:Eg. cbn [fst snd] in TV.
  destruct TV as (W & E & V & S & F & X).
  assert (Gr : mm = flat_map (fun c => map (pair c) (holders ds c)) (all_conductors ds)).
  { rewrite (mm_groups (all_conductors ds) mm S) at 1.
    - rewrite !flat_map_concat_map. f_equal. apply map_ext. intros c. now rewrite F.
    - apply increasing_sorted, sof_sorted.
    - intros p Ip. apply in_sof. now destruct (X p Ip) as [[]|]. }
  rewrite Gr.
  destruct (edge_groups (holders ds) (all_conductors ds) g (-1)%Z (-1)%Z W) as (t & s & R & Wt & Vt & Et).
  - intros I. unfold all_conductors in I. rewrite in_sof in I. apply in_flat_map in I as ([i d] & I & Id). apply (NM i). exists d; auto.
  - apply ssorted_nodup, sof_sorted.
  - intros c _. split; [now apply increasing_nodup, holders_increasing|].
    intros x I. apply V. left. unfold holders in I. apply in_map_iff in I as (p & <- & I).
    apply filter_In in I as [I _]. now apply in_map.
  - change (foldM tree_edge_step (flat_map (fun c => map (pair c) (holders ds c)) (all_conductors ds)) (g, (-1, -1)%Z))
      with (foldM tree_edge_step (flat_map (fun c => map (pair c) (holders ds c)) (all_conductors ds)) (g, ((-1)%Z, (-1)%Z))).
    rewrite R. cbn [bind fst]. rewrite E in Et. cbn [app getEdgesAsPairs] in Et.
    change (getEdgesAsPairs empty_graph) with (@nil (Z * Z)) in Et. cbn [app] in Et.
    assert (NC : findCycles t = []).
    { destruct (findCycles t) as [|cy l] eqn:Ef; [reflexivity|]. exfalso.
      destruct (findCycles_spec t Wt) as (FC & _). assert (Icy : In cy (findCycles t)) by (rewrite Ef; now left).
      apply FC in Icy as (L2 & ND & Ed).
      assert (Up : forall a b, In (a, b) (path_edges cy) -> (a < b)%Z).
      { intros a b I. apply Ed in I. rewrite Et in I. apply in_flat_map in I as (c & _ & I).
        apply star_in in I as (a' & b' & [= -> ->] & _ & _ & L & _); auto. now apply holders_increasing. }
      destruct cy as [|v r]; [cbn in L2; lia|].
      assert (St : forall x y, clos_refl_trans Z (fun a b => (a < b)%Z) x y -> (x <= y)%Z).
      { induction 1; lia. }
      (* the edge into v comes from a vertex that v reaches *)
      assert (Iv : In v (map snd (path_edges (v :: r)))) by (apply path_edges_snd_in; now left).
      apply in_map_iff in Iv as ([u v'] & Ev & Iu). cbn in Ev; subst v'.
      pose proof (Up _ _ Iu) as Luv. apply path_edges_ends in Iu as [Iu _].
      pose proof (path_walk (fun a b => (a < b)%Z) (v :: r) (fun e => match e with (a, b) => Up a b end) v u (or_introl eq_refl) Iu) as Wk.
      apply St in Wk. lia. }
    rewrite NC. cbn. unfold assert_. rewrite andb_false_r. cbn.
    exists t. split; auto. split; auto. split; [|split; [exact Et|exact NC]].
    apply ssorted_ext; [apply sof_sorted|now apply increasing_sorted|].
    intros x. rewrite getVertices_in, Vt, V. cbn. tauto.
Qed.
