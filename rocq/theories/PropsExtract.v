(** Properties C19 and C20: the models of single domains and their parameters. *)
From Coq Require Import QArith.
From Verif Require Import Prelude StdMap Json Graph Materials ModelM Matrix Solver Domain Results Parser Driver
  ListLemmas SpecGraph SpecDomain SpecInput SpecModel SpecSolver SpecDriver ModelProofs DriverProofs
  TreeProofs DomainProofs GroundProofs DomainFacts GroundFacts ExtractProofs PropsDomain.
From Coq Require Import Permutation Relations Sorted.
Open Scope list_scope.

(** ** C19 *)
(** The model of a domain: the mesh is given back as it was; the elements are those of the
    domain with their attributes; there is a boundary element on each edge used once by them,
    with the data of the (last) boundary element of the mesh on that edge; the materials are
    those of the mesh of the domain; the ground is that of the domain. *)
Theorem C19_model_of_a_domain :
  forall (T : Type) (gm : mesh T) (mats : materials T) (d : domain) (gm' : mesh T) (mo : model T),
    buildModelForDomain gm mats d = Ok (gm', mo) ->
    let es := elements_of gm (dm_elems d) in
    gm' = gm /\
    m_elems (mo_mesh mo) = es /\
    (forall be, In be (m_bdr (mo_mesh mo)) <->
       exists a b old, In (a, b) (flat_map (fun e => path_edges (e_verts e)) es) /\ edge_uses es a b = 1%nat /\
         boundary_on_edge gm a b old /\ be = {| e_attr := e_attr old; e_verts := [a; b]; e_vol := e_vol old |}) /\
    NoDup (map e_verts (m_bdr (mo_mesh mo))) /\
    m_coord (mo_mesh mo) = m_coord gm /\
    mo_mats mo = mo_mats (mkModel (mo_mesh mo) mats) /\
    mo_ground mo = dm_ground d.
Proof.
  intros T gm mats d gm' mo B es. rewrite extract_unfold in B. fold es in B.
  destruct (mapM (new_bdr gm) (boundary_edges es)) as [bs| |] eqn:Eb; try discriminate.
  cbn in B. injection B as <- <-. split; auto. split; auto. pose proof (proj1 (mapM_ok _ _ _) Eb) as F.
  assert (V : map e_verts bs = map (fun e : Z * Z => [fst e; snd e]) (boundary_edges es)).
  { clear - F. induction F as [|[a b] y l1 l2 P F IH]; [reflexivity|]. cbn. rewrite IH.
    apply new_bdr_ok in P as (g & _ & ->). reflexivity. }
  split; [|split; [|auto]].
  - intros be. cbn [m_bdr mo_mesh setGround mkModel]. split.
    + intros I. destruct (Forall2_in_r _ _ _ _ F I) as ([a b] & Ia & P).
      apply new_bdr_ok in P as (old & O & ->). apply boundary_edges_in in Ia as (Ia & U). exists a, b, old. auto.
    + intros (a & b & old & Ia & U & O & ->).
      assert (I : In (a, b) (boundary_edges es)) by (apply boundary_edges_in; auto).
      apply In_nth_error in I as (k & Ek). destruct (Forall2_nth _ _ _ _ _ F Ek) as (y & Ey & P).
      assert (Q : new_bdr gm (a, b) = Ok {| e_attr := e_attr old; e_verts := [a; b]; e_vol := e_vol old |}).
      { apply new_bdr_ok. eauto. }
      rewrite Q in P. injection P as <-. eapply nth_error_In; eauto.
  - cbn [m_bdr mo_mesh setGround mkModel]. rewrite V. apply FinFun.Injective_map_NoDup; [|apply boundary_edges_nodup].
    intros [a b] [a' b'] E. cbn in E. congruence.
Qed.
(** It exists iff there is a boundary element of the mesh on each of these edges; otherwise the
    code indexes a vector with -1. *)
Theorem C19_when_the_model_exists :
  forall (T : Type) (gm : mesh T) (mats : materials T) (d : domain),
    let es := elements_of gm (dm_elems d) in
    let covered := forall a b, In (a, b) (flat_map (fun e => path_edges (e_verts e)) es) -> edge_uses es a b = 1%nat ->
                     exists be, In be (m_bdr gm) /\ on_edge a b be in
    (covered -> is_ok (buildModelForDomain gm mats d)) /\
    (~ covered -> buildModelForDomain gm mats d = Undef IndexOutOfBounds).
Proof.
  intros T gm mats d es covered. rewrite extract_unfold. fold es.
  assert (Each : forall a b, is_ok (new_bdr gm (a, b)) \/ new_bdr gm (a, b) = Undef IndexOutOfBounds).
  { intros a b. unfold new_bdr, vec_at. destruct (faceToBdrElem gm (a, b) <? 0)%Z; [now right|].
    destruct (nth_error (m_bdr gm) _); [left; eexists; reflexivity|now right]. }
  split.
  - intros C. destruct (mapM_total (new_bdr gm) (boundary_edges es)) as (bs & ->).
    + intros [a b] I. apply boundary_edges_in in I as (I & U). apply new_bdr_total. auto.
    + eexists; reflexivity.
  - intros NC. rewrite (mapM_undef _ IndexOutOfBounds); [reflexivity| |].
    + intros [a b] _. apply Each.
    + destruct (Exists_dec (fun e => new_bdr gm e = Undef IndexOutOfBounds) (boundary_edges es)) as [X|X].
      { intros [a b]. destruct (new_bdr gm (a, b)) as [y|y|[]] eqn:E; try (right; discriminate). now left. }
      * apply Exists_exists in X. exact X.
      * exfalso. apply NC. intros a b I U. destruct (Each a b) as [(y & O)|O].
        -- apply new_bdr_ok in O as (old & (k & En & On & _) & _). exists old. split; auto. eapply nth_error_In; eauto.
        -- exfalso. apply X. apply Exists_exists. exists (a, b). split; auto. apply boundary_edges_in. auto.
Qed.
(** The domains of a model cut no edge: the edges of a domain are used by its elements as often
    as by those of the mesh. So, when there is a boundary element on each edge of the boundary of
    the mesh, all the domains have a model. *)
Theorem C19_domains_cut_no_edge :
  forall (T : Type) (dbg : bool) (mo : model T) (ds : list (Z * domain)) (id : Z) (d : domain),
    buildDomains dbg mo = Ok ds -> In (id, d) ds ->
    let es := elements_of (mo_mesh mo) (dm_elems d) in
    (forall a b, In (a, b) (flat_map (fun e => path_edges (e_verts e)) es) ->
       edge_uses es a b = edge_uses (m_elems (mo_mesh mo)) a b) /\
    ((forall a b, edge_uses (m_elems (mo_mesh mo)) a b = 1%nat -> exists be, In be (m_bdr (mo_mesh mo)) /\ on_edge a b be) ->
       is_ok (buildModelForDomain (mo_mesh mo) (mo_mats mo) d)).
Proof.
  intros T dbg mo ds id d E I es. destruct (build_described _ _ _ E) as (g & parts & Eg & Ep & D).
  assert (U : forall a b, In (a, b) (flat_map (fun e => path_edges (e_verts e)) es) ->
       edge_uses es a b = edge_uses (m_elems (mo_mesh mo)) a b).
  { intros a b. apply (domain_edge_uses mo g parts ds Eg Ep D id d); auto. }
  split; auto. intros C. apply (C19_when_the_model_exists T). intros a b Ia Ua. apply C. rewrite <- U; auto.
Qed.
(** Extracting the models of all the domains one after the other, as getPULMTLByDomains does
    with copies, gives the same with one mesh that is modified in place. *)
Theorem C19_one_after_the_other :
  forall (T : Type) (gm : mesh T) (mats : materials T) (d1 d2 : domain) (gm1 : mesh T) (mo1 : model T),
    buildModelForDomain gm mats d1 = Ok (gm1, mo1) ->
    buildModelForDomain gm1 mats d2 = buildModelForDomain gm mats d2.
Proof. intros T gm mats d1 d2 gm1 mo1 E. apply C19_model_of_a_domain in E as (-> & _). reflexivity. Qed.

Example C19_example : exists ds d mo,
  buildDomains true nested = Ok ds /\ In (0%Z, d) ds /\
  buildModelForDomain nested_mesh nested_mats d = Ok (nested_mesh, mo) /\
  m_elems (mo_mesh mo) = [tri 0 1 2 3; tri 2 1 3 3]%Z /\
  m_bdr (mo_mesh mo) = [seg 0 1 1; seg 2 0 2; seg 1 3 2; seg 3 2 2]%Z /\
  map p_name (pecs (mo_mats mo)) = ["Conductor_0"; "Conductor_1"]%string /\
  forall a b, edge_uses (m_elems nested_mesh) a b = 1%nat -> exists be, In be (m_bdr nested_mesh) /\ on_edge a b be.
Proof.
  eexists. exists {| dm_ground := 0; dm_conductors := [0; 1]%Z; dm_elems := [0; 1]%nat; dm_bdr := [0; 1; 2; 3]%nat |}.
  eexists. split; [vm_compute; reflexivity|]. split; [now left|]. split; [vm_compute; reflexivity|].
  split; [reflexivity|]. split; [reflexivity|]. split; [reflexivity|].
  intros a b U. unfold edge_uses in U.
  destruct (filter (joins a b) (flat_map (fun e => path_edges (e_verts e)) (m_elems nested_mesh))) as [|[v w] l] eqn:E; [discriminate|].
  assert (I : In (v, w) (filter (joins a b) (flat_map (fun e => path_edges (e_verts e)) (m_elems nested_mesh)))) by (rewrite E; now left).
  apply filter_In in I as [I J].
  assert (S : forall x y t r, In (seg x y t) (m_bdr nested_mesh) -> joins a b (x, y) = true -> r = seg x y t ->
            exists be, In be (m_bdr nested_mesh) /\ on_edge a b be).
  { intros x y t r X Y ->. exists (seg x y t). split; auto. exists x, y, []. auto. }
  assert (Js : forall x y, joins a b (x, y) = true -> x = a /\ y = b \/ x = b /\ y = a).
  { intros x y. unfold joins. cbn [fst snd]. rewrite orb_true_iff, !andb_true_iff, !Z.eqb_eq. auto. }
  cbn in I. repeat (destruct I as [I|I]; [injection I as <- <-|]); try destruct I.
  - eapply (S 0 1 1)%Z; [cbn; tauto|exact J|reflexivity].
  - (* the edge between 1 and 2 is used twice *)
    exfalso. apply Js in J as [(<- & <-)|(<- & <-)]; vm_compute in E; first [discriminate E | injection E as <-; discriminate U].
  - eapply (S 2 0 2)%Z; [cbn; tauto|exact J|reflexivity].
  - exfalso. apply Js in J as [(<- & <-)|(<- & <-)]; vm_compute in E; first [discriminate E | injection E as <-; discriminate U].
  - eapply (S 1 3 2)%Z; [cbn; tauto|exact J|reflexivity].
  - eapply (S 3 2 2)%Z; [cbn; tauto|exact J|reflexivity].
  - eapply (S 4 5 2)%Z; [cbn; tauto|exact J|reflexivity].
  - eapply (S 5 6 2)%Z; [cbn; tauto|exact J|reflexivity].
  - eapply (S 6 4 5)%Z; [cbn; tauto|exact J|reflexivity].
Qed.
(** A mesh without a boundary element on one of the edges of the boundary: no model. *)
Example C19_uncovered_example : exists d,
  buildModelForDomain {| m_elems := [tri 0 1 2 3]%Z; m_bdr := [seg 0 1 1; seg 1 2 2]%Z; m_coord := m_coord nested_mesh |} nested_mats d =
  Undef IndexOutOfBounds /\ dm_elems d = [0%nat].
Proof. exists {| dm_ground := 0; dm_conductors := []; dm_elems := [0%nat]; dm_bdr := [] |}. split; reflexivity. Qed.

(** ** C20 *)
(** [p] are the parameters computed by a Driver built for the model of the domain [dom]. *)
Definition domain_parameters {T} `{Num T} (dbg : bool) (femlib : mesh T -> Z -> fem T)
    (moment : T * T -> nat -> nat -> T * T -> T) (m : model T) (o : driver_options) (dom : domain) (p : pul T) : Prop :=
  exists gm' mo' d', buildModelForDomain (mo_mesh m) (mo_mats m) dom = Ok (gm', mo') /\
    built dbg femlib mo' o d' /\ fst (reply dbg femlib moment CallPUL d') = Ok (VPul p).

Section C20.
  Context {T : Type} `{Num T}.
  Variable dbg : bool.
  Variable femlib : mesh T -> Z -> fem T.
  Variable moment : T * T -> nat -> nat -> T * T -> T.

  Lemma sub_pul_ok m o dom p :
    fst (fst (sub_pul dbg femlib m o dom tt)) = Ok p <-> domain_parameters dbg femlib moment m o dom p.
  Proof.
    unfold sub_pul, domain_parameters, built, reply, call.
    set (K := mkDriver dbg femlib). set (G := getPULMTL dbg femlib). clearbody K G. unfold cbind at 1, clift.
    destruct (buildModelForDomain (mo_mesh m) (mo_mats m) dom) as [[gm' mo']|x|x].
    2,3: split; [discriminate|]; intros (? & ? & ? & X & _); discriminate.
    cbn [snd]. unfold cbind at 1. destruct (K mo' o tt) as [[[d'|x|x] []] w] eqn:Ed; cbn.
    2,3: split; [discriminate|]; intros (? & ? & ? & X & (w' & Y) & _); injection X as <- <-; rewrite Ed in Y; discriminate.
    split.
    - intros X. exists gm', mo', d'. split; auto. split; [eauto|]. unfold cbind.
      destruct (G d') as [[[q|x|x] s] w2]; cbn in *; congruence.
    - intros (? & ? & d2 & X & (w' & Y) & Z0). injection X as <- <-. rewrite Ed in Y. injection Y as <- <-.
      unfold cbind in Z0. destruct (G d') as [[[q|x|x] s] w2]; cbn in *; congruence.
  Qed.
  Lemma mset_last {V} (k : Z) (v : V) r : (forall x, In x (map fst r) -> (x < k)%Z) -> mset k v r = r ++ [(k, v)].
  Proof.
    induction r as [|[a b] r IH]; intros L; [reflexivity|].
    pose proof (L a (or_introl eq_refl)) as La. cbn.
    assert ((k <? a)%Z = false) as -> by (apply Z.ltb_ge; lia).
    assert ((a <? k)%Z = true) as -> by (now apply Z.ltb_lt).
    f_equal. apply IH. intros x I. apply L. now right.
  Qed.
  Lemma by_domains_fold m o (d s : driver T) ds : forall r : list (Z * pul T),
    increasing (map fst ds) -> (forall x y, In x (map fst r) -> In y (map fst ds) -> (x < y)%Z) ->
    forall l, (exists w, cfold (fun r (idd : Z * domain) =>
                          fun s : driver T => let '((x, _), w) := sub_pul dbg femlib m o (snd idd) tt in
                                   ((bind x (fun p => Ok (mset (fst idd) p r)), s), w)) ds r d = ((Ok l, s), w)) <->
      s = d /\ exists l2, l = r ++ l2 /\
        Forall2 (fun a b => fst a = fst b /\ domain_parameters dbg femlib moment m o (snd a) (snd b)) ds l2.
  Proof.
    induction ds as [|[id dom] ds IH]; intros r Inc Lt l; cbn [cfold].
    - split.
      + intros (w & E). unfold cret in E. injection E as <- <- _. split; auto. exists []. rewrite app_nil_r. auto.
      + intros (-> & l2 & -> & F). inversion F. subst. rewrite app_nil_r. eexists; reflexivity.
    - unfold cbind at 1. cbn [fst snd].
      pose proof (sub_pul_ok m o dom) as Sp. destruct (sub_pul dbg femlib m o dom tt) as [[[p|x|x] []] w]; cbn in Sp; cbn [bind].
      2,3: split; [intros (w' & E); discriminate|intros (_ & l2 & _ & F); inversion F as [|? [k2 p2] ? ? (_ & P)]; subst; apply Sp in P; discriminate].
      assert (Sp' : domain_parameters dbg femlib moment m o dom p) by now apply Sp.
      rewrite mset_last.
      2:{ intros x I. apply Lt; [auto|now left]. }
      assert (Inc' : increasing (map fst ds)) by (eapply increasing_tail; exact Inc).
      assert (Lt' : forall x y, In x (map fst (r ++ [(id, p)])) -> In y (map fst ds) -> (x < y)%Z).
      { intros x y Ix Iy. rewrite map_app, in_app_iff in Ix. destruct Ix as [Ix|[<-|[]]]; [apply Lt; auto; now right|].
        cbn. eapply (increasing_head _ _ _ Inc); auto. }
      specialize (IH (r ++ [(id, p)]) Inc' Lt' l).
      set (f := cfold _ ds (r ++ [(id, p)]) d) in *. destruct f as [[r2 s2] w2]. split.
      + intros (w' & E). injection E as -> -> _. destruct IH as [IH _]. destruct IH as (Es & l2 & -> & F); [eauto|].
        split; auto. exists ((id, p) :: l2). rewrite <- app_assoc. split; auto.
      + intros (-> & l2 & -> & F). inversion F as [|? [k2 p2] ? l3 (Ek & P) F']; subst. cbn in Ek, P. subst k2.
        apply Sp in P. injection P as <-. destruct IH as [_ IH].
        destruct IH as (w' & E); [split; auto; exists l3; rewrite <- app_assoc; auto|].
        injection E as -> -> _. eauto.
  Qed.
  Lemma by_domains_ok d t l :
    fst (reply dbg femlib moment CallByDomains d) = Ok (VDomains t l) <->
    exists ds, buildDomains dbg (dr_model d) = Ok ds /\ mkDomainTree dbg ds = Ok t /\
      Forall2 (fun a b => fst a = fst b /\ domain_parameters dbg femlib moment (dr_model d) (dr_opts d) (snd a) (snd b)) ds l.
  Proof.
    unfold reply, call. unfold cbind at 1. unfold getPULMTLByDomains. rewrite cbind_get.
    destruct (buildDomains dbg (dr_model d)) as [ds|x|x] eqn:Eb.
    2,3: unfold cbind, clift; cbn; split; [discriminate|intros (? & X & _); discriminate].
    rewrite (cbind_lift _ _ _ _ eq_refl).
    assert (Inc : increasing (map fst ds)).
    { destruct (build_described _ _ _ Eb) as (g & parts & _ & _ & D). apply (described_map _ _ _ _ D). }
    pose proof (fun s => by_domains_fold (dr_model d) (dr_opts d) d s ds [] Inc (fun x y (F : In x []) => match F with end)) as Fo.
    set (f := cfold _ ds []) in *. clearbody f. unfold cbind at 1. destruct (f d) as [[[r|x|x] s] w] eqn:Ef.
    2,3: split; [discriminate|]; intros (ds' & [= <-] & Et & F); destruct (proj2 (Fo d l) (conj eq_refl (ex_intro _ l (conj eq_refl F)))) as (w' & X); discriminate.
    assert (Fr : s = d /\ exists l2, r = [] ++ l2 /\
        Forall2 (fun a b => fst a = fst b /\ domain_parameters dbg femlib moment (dr_model d) (dr_opts d) (snd a) (snd b)) ds l2).
    { apply (proj1 (Fo s r)). eauto. }
    destruct Fr as (-> & l2 & -> & F2). cbn [app] in *.
    unfold cbind, clift, cret. destruct (mkDomainTree dbg ds) as [t'|x|x] eqn:Et; cbn.
    2,3: split; [discriminate|intros (ds' & X & Y & _); congruence].
    split.
    - intros [= -> ->]. eauto.
    - intros (ds' & [= <-] & Y & F). destruct (proj2 (Fo d l) (conj eq_refl (ex_intro _ l (conj eq_refl F)))) as (w' & X). congruence.
  Qed.
  Lemma tree_shape l1 l2 : shape l1 l2 -> mkDomainTree dbg l1 = mkDomainTree dbg l2.
  Proof.
    intros S. unfold mkDomainTree.
    assert (A : forall b, foldM tree_check_step l1 b = foldM tree_check_step l2 b).
    { induction S as [|x y l1 l2 (E1 & E2 & _) F IH]; intros b; [reflexivity|]. cbn [foldM].
      assert (tree_check_step b x = tree_check_step b y) as -> by (unfold tree_check_step; now rewrite E2).
      destruct (tree_check_step b y); cbn [bind]; auto. }
    assert (B : tree_vertices l1 = tree_vertices l2).
    { clear A. unfold tree_vertices. generalize (empty_graph, @nil (Z * Z)). induction S as [|x y l1 l2 (E1 & E2 & _) F IH]; intros s; [reflexivity|].
      cbn. rewrite E1, E2. apply IH. }
    now rewrite A, B.
  Qed.
  Lemma checked_has_zero (m : model T) : checkConductors m = Ok tt ->
    exists p, In p (pecs (mo_mats m)) /\ getMaterialIdFromName (p_name p) = Ok 0%Z.
  Proof.
    unfold checkConductors. intros E. apply bind_ok in E as (ids & Em & E).
    destruct (zsort ids) as [|i0 l] eqn:Ez; [discriminate|]. destruct (Z.eqb_spec i0 0); [subst i0|discriminate].
    assert (I : In 0%Z ids) by (apply (Permutation_in _ (zsort_perm ids)); rewrite Ez; now left).
    apply mapM_ok in Em. destruct (Forall2_in_r _ _ _ _ Em I) as ([n t] & In_ & Eid). cbn in Eid.
    apply (in_map fst), keys_PEC, in_map_iff in In_ as (p & Ep & Ip). cbn in Ep. subst n. eauto.
  Qed.
End C20.

(** The result, when there is one: the tree of the domains and, for each of them, the parameters
    of a Driver built for its model. There is a result iff each of these Drivers can be built
    and has parameters. *)
Theorem C20_parameters_of_each_domain_partial :
  forall (T : Type) (N : Num T) (dbg : bool) (femlib : mesh T -> Z -> fem T)
    (moment : T * T -> nat -> nat -> T * T -> T) (d : driver T) (t : digraph) (l : list (Z * pul T)),
    fst (reply dbg femlib moment CallByDomains d) = Ok (VDomains t l) <->
    exists ds, buildDomains dbg (dr_model d) = Ok ds /\ mkDomainTree dbg ds = Ok t /\
      Forall2 (fun a b => fst a = fst b /\ domain_parameters dbg femlib moment (dr_model d) (dr_opts d) (snd a) (snd b)) ds l.
Proof. intros. apply by_domains_ok. Qed.
(** But the Driver of a domain requires a conductor 0, which is in one domain only: there is no
    result for any model with several domains in which the tag of conductor 0 is only on
    boundary elements, whatever the finite element library, options and previous calls. *)
Theorem C20_no_result_with_several_domains :
  forall (T : Type) (N : Num T) (dbg : bool) (femlib : mesh T -> Z -> fem T)
    (moment : T * T -> nat -> nat -> T * T -> T) (d : driver T) (ds : list (Z * domain)),
    NoDup (all_names (mo_mats (dr_model d))) ->
    (forall p e, In p (pecs (mo_mats (dr_model d))) -> getMaterialIdFromName (p_name p) = Ok 0%Z ->
       In e (m_elems (mo_mesh (dr_model d))) -> e_attr e <> p_attr p) ->
    buildDomains dbg (dr_model d) = Ok ds -> (2 <= List.length ds)%nat ->
    forall v, fst (reply dbg femlib moment CallByDomains d) <> Ok v.
Proof.
  intros T N dbg femlib moment d ds ND Ne B L v E.
  assert (Ev : exists t l, v = VDomains t l).
  { revert E. unfold reply, call. unfold cbind at 1. destruct (getPULMTLByDomains dbg femlib d) as [[[[t l]|x|x] s] w]; cbn; try discriminate.
    intros [= <-]. eauto. }
  destruct Ev as (t & l & ->). apply by_domains_ok in E as (ds' & B' & Et & F). rewrite B in B'. injection B' as <-.
  destruct (tree_of_holders _ _ _ Et) as (i & H0). destruct (build_described _ _ _ B) as (g & parts & Eg & Ep & D).
  assert (Z0 : forall id dom, In (id, dom) ds -> id = i).
  { intros id dom I. assert (X : In id (holders ds 0)).
    { apply in_holders. exists dom. split; auto. apply In_nth_error in I as Ik. destruct Ik as (k & Ek).
      destruct (Forall2_nth _ _ _ _ _ F Ek) as ([id' p] & _ & _ & gm' & mo' & d' & Bm & (w & Bd) & _). cbn in Bm.
      assert (C : checkConductors mo' = Ok tt).
      { unfold mkDriver in Bd. unfold cbind at 1, clift in Bd. destruct (checkConductors mo') as [[]|x|x]; auto; discriminate. }
      destruct (checked_has_zero _ C) as (q & Iq & Eq).
      apply (submodel_conductor (dr_model d) g parts ds Eg Ep D id dom gm' mo' q); auto.
      intros e Ie. apply Ne; auto.
      apply (C19_model_of_a_domain T) in Bm as (_ & _ & _ & _ & _ & Mm & _). rewrite Mm in Iq.
      destruct (mkModel_materials (mo_mesh mo') (mo_mats (dr_model d)) (keepb (mo_mesh mo')) ND (keepb_iff (mo_mesh mo'))) as (_ & Pk & _).
      rewrite Pk in Iq. now apply filter_In in Iq. }
    rewrite H0 in X. destruct X as [X|[]]; auto. }
  pose proof (described_map _ _ _ _ D) as (K & _). apply increasing_nodup in K.
  destruct ds as [|[i1 d1] [|[i2 d2] r]]; cbn in L; try lia.
  assert (i1 = i) by (eapply Z0; now left). assert (i2 = i) by (eapply Z0; right; now left). subst.
  inversion K as [|? ? N1 _]. apply N1. now left.
Qed.
(** The parameters of a problem with a single domain are those of a Driver for its model, whose
    elements and boundary are those of the whole mesh. *)
Theorem C20_single_domain_partial :
  forall (T : Type) (N : Num T) (dbg : bool) (femlib : mesh T -> Z -> fem T)
    (moment : T * T -> nat -> nat -> T * T -> T) (d : driver T) (id : Z) (dom : domain) (p : pul T),
    (forall e, In e (m_elems (mo_mesh (dr_model d))) -> e_verts e <> []) ->
    buildDomains dbg (dr_model d) = Ok [(id, dom)] ->
    domain_parameters dbg femlib moment (dr_model d) (dr_opts d) dom p ->
    (exists t, fst (reply dbg femlib moment CallByDomains d) = Ok (VDomains t [(id, p)])) /\
    elements_of (mo_mesh (dr_model d)) (dm_elems dom) = m_elems (mo_mesh (dr_model d)).
Proof.
  intros T N dbg femlib moment d id dom p NE B P. split.
  - destruct (build_inv _ _ _ B) as (raw & tree & Er & Et & Ef & Sm & S0 & S).
    assert (Tt : mkDomainTree dbg [(id, dom)] = Ok tree).
    { rewrite <- Et. apply tree_shape. eapply shape_trans; [apply shape_sym; exact S|exact S0]. }
    exists tree. apply by_domains_ok. exists [(id, dom)]. split; auto.
  - destruct (build_described _ _ _ B) as (g & parts & Eg & Ep & D).
    assert (A : forall i, (i < List.length (m_elems (mo_mesh (dr_model d))))%nat -> In i (dm_elems dom)).
    { intros i L. destruct (some_domain (dr_model d) g parts [(id, dom)] Eg Ep D NE i L) as (id' & d' & [I|[]] & X). congruence. }
    unfold elements_of. rewrite (filter_ext_in _ (fun _ => true)).
    + rewrite <- (enum_snd (m_elems (mo_mesh (dr_model d)))) at 2. f_equal.
      induction (enum (m_elems (mo_mesh (dr_model d)))) as [|x l IH]; cbn; congruence.
    + intros [i e] I. cbn. destruct (in_dec Nat.eq_dec i (dm_elems dom)); auto. exfalso. apply n, A.
      apply in_enum in I. apply nth_error_Some. congruence.
Qed.

(** Concrete cases, with a library with one degree of freedom for each of the tags 1, 2 and 5. *)
Definition three_fem : fem Q :=
  let at_ (l : list Q) i := nth i l 0%Q in
  {| fe_nH1 := 3; fe_nND := 3; fe_nRT := 3; fe_bdrMax := 5; fe_domMax := 4;
     fe_bdrDofs := [(1%Z, [0%nat]); (2%Z, [1%nat]); (5%Z, [2%nat])];
     fe_flux := [{| q_attr := 1; q_pos := (0, 0); q_w := [-(1); 0; 0] |};
                 {| q_attr := 2; q_pos := (0, 0); q_w := [0; -(1); 0] |};
                 {| q_attr := 5; q_pos := (0, 0); q_w := [0; 0; -(1)] |}]%Q;
     fe_bdrPhi := []; fe_domPhi := []; fe_energy := [];
     fe_phi := fun _ _ _ ess phi0 _ => map (fun i => if nmem i ess then at_ phi0 i else 0%Q) (seq 0 3);
     fe_e := fun phi => let a := at_ phi 0%nat in let b := at_ phi 1%nat in let c := at_ phi 2%nat in
               [a - b; b + b - a - c; c - b]%Q;
     fe_d := fun _ e => e |}.
Definition three_lib : mesh Q -> Z -> fem Q := fun _ _ => three_fem.
Definition no_moment (c : Q * Q) (n k : nat) (p : Q * Q) : Q := 0%Q.
Definition silent : driver_options :=
  {| o_order := 3; o_printIterations := false; o_exportParaView := false; o_exportVisIt := false;
     o_exportFolder := ""; o_multipolarExpansionOrder := 1 |}.
(** The Driver of the two nested shields can be built and has PUL parameters, and there are two
    domains; but there are no parameters by domains. *)
Theorem C20_refuted : exists d ds p msg,
  built true three_lib nested silent d /\ buildDomains true nested = Ok ds /\ List.length ds = 2%nat /\
  fst (reply true three_lib no_moment CallPUL d) = Ok (VPul p) /\
  fst (reply true three_lib no_moment CallByDomains d) = Throw (RuntimeError msg).
Proof.
  eexists. eexists. eexists. eexists. split; [eexists; vm_compute; reflexivity|].
  split; [vm_compute; reflexivity|]. split; [reflexivity|]. split; [vm_compute; reflexivity|]. vm_compute. reflexivity.
Qed.
Example C20_several_domains_example :
  NoDup (all_names nested_mats) /\
  (forall p e, In p (pecs nested_mats) -> getMaterialIdFromName (p_name p) = Ok 0%Z ->
     In e (m_elems nested_mesh) -> e_attr e <> p_attr p).
Proof.
  split.
  - unfold all_names; cbn. repeat constructor; cbn; intuition discriminate.
  - intros p e [<-|[<-|[<-|[]]]]; cbn; intros E; try discriminate; intros [<-|[<-|[<-|[]]]]; cbn; discriminate.
Qed.
(** A single domain: the first two elements. *)
Definition coax : model Q :=
  mkModel {| m_elems := [tri 0 1 2 3; tri 2 1 3 3]%Z; m_bdr := [seg 0 1 1; seg 1 3 2; seg 3 2 2; seg 2 0 2]%Z;
             m_coord := m_coord nested_mesh |} nested_mats.
Example C20_single_domain_example : exists d t p,
  built true three_lib coax silent d /\
  fst (reply true three_lib no_moment CallByDomains d) = Ok (VDomains t [(0%Z, p)]) /\
  nr (pul_C p) = 1%nat /\ (forall e, In e (m_elems (mo_mesh coax)) -> e_verts e <> []).
Proof.
  eexists. eexists. eexists. split; [eexists; vm_compute; reflexivity|].
  split; [vm_compute; reflexivity|]. split; [reflexivity|]. intros e [<-|[<-|[]]]; discriminate.
Qed.

Print Assumptions C19_model_of_a_domain.
Print Assumptions C19_when_the_model_exists.
Print Assumptions C19_domains_cut_no_edge.
Print Assumptions C19_one_after_the_other.
Print Assumptions C20_parameters_of_each_domain_partial.
Print Assumptions C20_no_result_with_several_domains.
Print Assumptions C20_single_domain_partial.
Print Assumptions C20_refuted.
