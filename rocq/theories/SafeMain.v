(** Undefined behaviour of getPULMTLByDomains and of the executable (C82). *)
From Coq Require Import Reals DecimalString DecimalNat.
From Verif Require Import Prelude StdMap Json Materials Graph ModelM Parser Matrix Solver Domain Results Driver Main
  SpecInput SpecModel SpecSolver SpecDriver SpecDomain SpecSafe ListLemmas InputProofs ModelProofs SolverProofs DriverProofs CallProofs DriverFacts
  DomainProofs MainProofs SafeProofs SafeCalls PropsDomain PropsExtract.
From Coq Require Import Permutation.
Open Scope list_scope.

Section Built.
  Context {T : Type} `{Num T}.
  Variable dbg : bool.
  Variable femlib : mesh T -> Z -> fem T.
  Variable moment : T * T -> nat -> nat -> T * T -> T.
  Hypothesis Gl : good_library femlib.

  Lemma built_fit (ms : mesh T) mats gr o d : NoDup (all_names mats) -> good_mesh ms ->
    let m := setGround (mkModel ms mats) gr in
    built dbg femlib m o d ->
    exists conds, in_order (mo_mats m) conds /\ NoDup (all_names (mo_mats m)) /\ segments (mo_mesh m) /\ fit femlib m (o_order o) conds d.
  Proof.
    intros ND Gm m B. pose proof (built_posed dbg femlib o ms mats gr ND Gm Gl d B) as W.
    destruct (built_finished dbg femlib m o d W B) as (conds & O & _ & M & Op & Fi & _).
    exists conds. split; [exact O|]. split; [exact (wp_names _ _ W)|]. split; [exact (gm_segments _ Gm)|].
    split; [exact M|]. split; [now rewrite Op|]. intros ignore. destruct (Fi ignore) as ((us & Eu & Fu) & Sz & _).
    split; [exact Sz|]. exists us. split; [exact Eu|]. split; [symmetry; exact (Forall2_length _ _ _ Fu)|].
    clear -Fu. induction Fu as [|p u l l' (_ & X) Fu IH]; constructor; auto.
  Qed.
  Lemma built_call (ms : mesh T) mats o d ops op u : NoDup (all_names mats) -> good_mesh ms ->
    built dbg femlib (mkModel ms mats) o d -> op <> CallByDomains ->
    fst (reply dbg femlib moment op (after dbg femlib moment ops d)) = Undef u ->
    u = SingularSystem /\ (op = CallFloating \/ op = CallInCell \/ op = CallRun).
  Proof.
    intros ND Gm B Ne E. destruct (built_fit ms mats 0 o d ND Gm B) as (conds & O & Nm & Sg & Fi).
    pose proof (after_fit dbg femlib moment _ _ conds O Nm Sg ops d Fi) as Fa.
    pose proof (proj1 (call_safe dbg femlib moment _ _ conds O Nm Sg op Ne _ Fa)) as S.
    unfold reply in E. destruct (call dbg femlib moment op (after dbg femlib moment ops d)) as [[r d'] w]. cbn in E, S. subst r.
    destruct op; cbn in S; try contradiction; subst; auto.
  Qed.

  (** ** By domains *)
  Lemma sound_assert Al b c : sound Al (fun _ => True) (assert_ b c).
  Proof. unfold assert_. destruct (b && negb c)%bool; exact I. Qed.
  Lemma tree_sound ds : sound never (fun _ => True) (mkDomainTree dbg ds).
  Proof.
    unfold mkDomainTree. apply (sound_bind _ (fun _ => True)).
    - apply (sound_foldM _ (fun _ => True)); [|exact I]. intros f x _ _. unfold tree_check_step.
      destruct (smem _ _); [destruct f|]; exact I.
    - intros f _. destruct (negb f); [exact I|]. destruct (tree_vertices ds) as [g mm].
      apply (sound_bind _ (fun _ => True)).
      + apply (sound_foldM _ (fun _ => True)); [|exact I]. intros [g' [pc pd]] x _ _. unfold tree_edge_step.
        destruct (fst x =? pc)%Z; [|exact I]. apply (sound_bind _ (fun _ => True)); [|intros; exact I]. unfold addEdge.
        destruct (pd =? snd x)%Z; exact I.
      + intros r _. apply (sound_bind _ (fun _ => True)); [apply sound_assert|intros; exact I].
  Qed.
  Lemma no_undef {A} (Q : A -> Prop) x : sound never Q x <-> ~ undefined x /\ (forall a, x = Ok a -> Q a).
  Proof.
    destruct x as [a|e|u]; cbn.
    - split; [intros Hq; split; [intros [u X]; discriminate|intros b [= <-]; exact Hq]|intros [_ X]; now apply X].
    - split; auto. intros _. split; [intros [u X]; discriminate|intros b X; discriminate].
    - split; [intros []|]. intros [X _]. apply X. eexists; reflexivity.
  Qed.
End Built.

(** No undefined behaviour of a sub-driver. *)
Section Domains.
  Context {T : Type} `{Num T}.
  Variable dbg : bool.
  Variable femlib : mesh T -> Z -> fem T.
  Variable moment : T * T -> nat -> nat -> T * T -> T.
  Hypothesis Gl : good_library femlib.
  Variable ms : mesh T.
  Variable mats : materials T.
  Notation m := (mkModel ms mats).
  Hypothesis ND : NoDup (all_names mats).
  Hypothesis Gm : good_mesh ms.
  Hypothesis Poly : Forall proper_polygon (m_elems ms).
  Hypothesis Cov : forall a b, edge_uses (m_elems ms) a b = 1%nat -> exists be, In be (m_bdr ms) /\ on_edge a b be.
  Hypothesis Diel : forall d e, In d (dielectrics mats) -> In e (m_bdr ms) -> e_attr e <> d_attr d.
  Hypothesis Ids : forall p, In p (pecs (mo_mats m)) -> exists c, getMaterialIdFromName (p_name p) = Ok c /\ c <> (-1)%Z.

  Lemma elements_incl ids e : In e (elements_of ms ids) -> In e (m_elems ms).
  Proof.
    intros I. unfold elements_of in I. apply in_map_iff in I as ([i x] & <- & I). apply filter_In in I as (I & _).
    apply in_enum in I. cbn. eapply nth_error_In; exact I.
  Qed.
  Lemma elements_some ids i : In i ids -> (i < List.length (m_elems ms))%nat -> elements_of ms ids <> [].
  Proof.
    intros I L. destruct (nth_error (m_elems ms) i) as [x|] eqn:En; [|apply nth_error_None in En; lia].
    assert (In x (elements_of ms ids)).
    { unfold elements_of. apply in_map_iff. exists (i, x). split; [reflexivity|]. apply filter_In. split; [now apply in_enum|].
      cbn [fst]. destruct (in_dec _ _ _) as [|N]; [reflexivity|destruct (N I)]. }
    intros E. rewrite E in H0. destruct H0.
  Qed.
  (** Assertions only add exceptions. *)
  Definition guarded {A} (x y : outcome A) : Prop := x = Throw AssertFailed \/ x = y.
  Lemma g_bind {A B} (x y : outcome A) (f g : A -> outcome B) : guarded x y -> (forall a, guarded (f a) (g a)) -> guarded (bind x f) (bind y g).
  Proof. intros [-> | ->] Hf; [now left|]. destruct y as [a|e|u]; [apply Hf|now right|now right]. Qed.
  Lemma g_fold {A S} (f g : S -> A -> outcome S) l s : (forall s x, guarded (f s x) (g s x)) -> guarded (foldM f l s) (foldM g l s).
  Proof. intros Hf. revert s; induction l as [|x l IH]; intros s; [now right|]. cbn [foldM]. apply g_bind; [apply Hf|exact IH]. Qed.
  Lemma g_assert c : guarded (assert_ dbg c) (assert_ false c).
  Proof. unfold assert_. destruct dbg, c; cbn; unfold guarded; auto. Qed.
  Lemma g_refl {A} (x : outcome A) : guarded x x. Proof. now right. Qed.
  Lemma g_domains (mo : model T) : guarded (buildDomains dbg mo) (buildDomains false mo).
  Proof.
    unfold buildDomains. apply g_bind.
    - unfold rawDomains. apply g_bind; [|intros; apply g_refl]. unfold determineOpenness. apply g_bind; [apply g_assert|intros; apply g_refl].
    - intros ds. apply g_bind.
      + unfold mkDomainTree. apply g_bind; [apply g_refl|]. intros f. destruct (negb f); [apply g_refl|]. destruct (tree_vertices _) as [g mm].
        apply g_bind; [apply g_refl|]. intros r. apply g_bind; [apply g_assert|intros; apply g_refl].
      + intros tree. apply g_fold. intros r e. unfold ground_step.
        destruct (mget (fst e) r); [|apply g_refl]. destruct (mget (snd e) r); [|apply g_refl]. apply g_bind; [apply g_assert|intros; apply g_refl].
  Qed.
  Lemma domains_sound : ~ undefined (buildDomains dbg m).
  Proof.
    assert (Ub : ~ undefined (buildDomains false m)).
    { pose proof (openness_sound false m (gm_segments _ Gm)) as So. destruct (determineOpenness false m) as [op|e|u] eqn:Eo; [|..].
      - destruct op.
        + destruct (C15_only_closed_models T false m Open Eo) as (msg & ->); [discriminate|]. intros [u X]; discriminate X.
        + destruct (C15_only_closed_models T false m SemiOpen Eo) as (msg & ->); [discriminate|]. intros [u X]; discriminate X.
        + destruct (C15_models_with_domains T m Eo Poly Ids) as (A & Bt).
          intros [u X]. assert (N : ~ touches_one_part (mo_mesh m) (pecs (mo_mats m)) 0) by (intros Y; apply A in Y as [ds Y]; congruence).
          apply Bt in N as (msg & N). congruence.
      - unfold buildDomains, rawDomains. rewrite Eo. cbn. intros [u X]; discriminate X.
      - destruct So. }
    destruct (g_domains m) as [-> | ->]; [intros [u X]; discriminate X|exact Ub].
  Qed.
  Lemma sub_safe o ds id dom : buildDomains dbg m = Ok ds -> In (id, dom) ds -> ~ undefined (outcome_of (sub_pul dbg femlib m o dom) tt).
  Proof.
    intros B I. unfold outcome_of, sub_pul.
    destruct (proj2 (C19_domains_cut_no_edge T dbg m ds id dom B I) Cov) as [[gm' mo] Em].
    change (mo_mesh m) with ms in *. pose proof (C19_model_of_a_domain T ms (mo_mats m) dom gm' mo Em) as K. cbv zeta in K.
    destruct K as (_ & K2 & K3 & _ & _ & K6 & _).
    rewrite (cbind_lift _ _ _ _ Em). cbn [snd].
    destruct (C15_every_element_in_one_domain T dbg m ds) as (_ & Ne & In_dom & _); [|exact B|].
    { intros e Ie. rewrite Forall_forall in Poly. destruct (Poly e Ie) as (L2 & _). intros E0. rewrite E0 in L2. cbn in L2. lia. }
    destruct (Ne id dom I) as (Ne0 & _).
    assert (Gs : good_mesh (mo_mesh mo)).
    { split.
      - intros e [Ie|Ie]; [rewrite K2 in Ie; apply elements_incl in Ie; apply (gm_tags _ Gm); auto|].
        apply K3 in Ie as (a & b & old & _ & _ & Hb & ->). cbn. destruct Hb as (k & Hb & _).
        apply (gm_tags _ Gm). right. eapply nth_error_In; exact Hb.
      - intros e Ie. apply K3 in Ie as (a & b & old & _ & _ & _ & ->). cbn. eauto.
      - rewrite K2. destruct (dm_elems dom) as [|i l] eqn:Ed; [congruence|].
        assert (L : (i < List.length (m_elems ms))%nat) by (apply In_dom; exists id, dom; rewrite Ed; split; [exact I|now left]).
        apply (elements_some _ i); [now left|exact L]. }
    assert (Emo : mo = setGround (mkModel (mo_mesh mo) (mo_mats m)) (mo_ground mo)).
    { destruct mo as [mm mms mg]. cbn [mo_mesh mo_mats mo_ground] in *. rewrite K6. reflexivity. }
    pose proof (mkModel_names ms mats ND) as ND'.
    set (sm := mo_mesh mo) in *. set (g := mo_ground mo) in *. rewrite Emo.
    assert (Sp : forall p, In p (pecs (mo_mats (mkModel sm (mo_mats m)))) -> In p (pecs (mo_mats m))).
    { intros p Ip. destruct (mkModel_materials sm (mo_mats m) (keepb sm) ND' (keepb_iff sm)) as (_ & Ep & _). rewrite Ep in Ip. now apply filter_In in Ip. }
    assert (Sd : forall d, In d (dielectrics (mo_mats (mkModel sm (mo_mats m)))) -> ~ beyond_the_regions sm (d_attr d)).
    { intros d Id Bd. destruct (mkModel_materials sm (mo_mats m) (keepb sm) ND' (keepb_iff sm)) as (_ & _ & _ & Ep). rewrite Ep in Id.
      apply filter_In in Id as (Id & Kd). apply keepb_iff in Kd as (e & [Ie|Ie] & Ee); [specialize (Bd e Ie); lia|].
      unfold sm in Ie. apply K3 in Ie as (a & b & old & _ & _ & Hb & ->). cbn in Ee. destruct Hb as (k & Hb & _).
      destruct (mkModel_materials ms mats (keepb ms) ND (keepb_iff ms)) as (_ & _ & _ & Eq). rewrite Eq in Id. apply filter_In in Id as (Id & _).
      apply (Diel d old Id); [|exact Ee]. eapply nth_error_In; exact Hb. }
    assert (Sr : ~ exists p, In p (pecs (mo_mats (mkModel sm (mo_mats m)))) /\ no_number (p_name p)).
    { intros (p & Ip & N). destruct (no_number_undefined _ N) as [u X]. destruct (Ids p (Sp p Ip)) as (c & Ec & _). congruence. }
    pose proof (construction_undefined dbg femlib o sm (mo_mats m) g ND' Gs Gl) as Cu.
    pose proof (built_fit dbg femlib Gl sm (mo_mats m) g o) as Bf. cbv zeta in Bf. unfold outcome_of in Cu. unfold built in Bf.
    unfold cbind at 1.
    destruct (mkDriver dbg femlib (setGround (mkModel sm (mo_mats m)) g) o tt) as [[[sd|e|u] s1] w1]; cbn [fst].
    - destruct s1. destruct (Bf sd ND' Gs) as (conds & O & Nm & Sg & Fi); [eexists; reflexivity|].
      pose proof (proj1 (PUL_safe dbg femlib _ _ conds O Sg sd Fi)) as S.
      destruct (getPULMTL dbg femlib sd) as [[[p|e|u] s2] w2]; cbn in S |- *; intros [u' X]; try discriminate X. destruct S.
    - cbn. intros [u X]. discriminate X.
    - exfalso. destruct (proj1 Cu) as [X|(_ & _ & d & Id & Bd)]; [eexists; reflexivity|exact (Sr X)|exact (Sd d Id Bd)].
  Qed.
  Lemma by_domains_safe d : dr_model d = m -> ~ undefined (fst (reply dbg femlib moment CallByDomains d)).
  Proof.
    intros M. unfold reply, call, getPULMTLByDomains.
    pose proof domains_sound as Ub.
    unfold cbind at 1. rewrite cbind_get. unfold cbind at 1. unfold clift at 1. rewrite M.
    destruct (buildDomains dbg m) as [ds|e|u] eqn:Eb; [|intros [v X]; discriminate X|exfalso; apply Ub; eexists; reflexivity].
    assert (Each : forall id dom, In (id, dom) ds -> ~ undefined (outcome_of (sub_pul dbg femlib m (dr_opts d) dom) tt)).
    { intros id dom I. exact (sub_safe (dr_opts d) ds id dom Eb I). }
    set (f := fun (r : list (Z * pul T)) (idd : Z * domain) (s : driver T) => _).
    assert (Fold : forall l r s, (forall x, In x l -> In x ds) -> ~ undefined (fst (fst (cfold f l r s)))).
    { induction l as [|x l IH]; intros r s Il; [intros [u X]; discriminate X|]. cbn [cfold]. unfold cbind, f at 1.
      pose proof (Each (fst x) (snd x)) as Ex. unfold outcome_of in Ex.
      destruct (sub_pul dbg femlib m (dr_opts d) (snd x) tt) as [[[p|e|u] s'] w]; cbn [bind].
      - specialize (IH (mset (fst x) p r) s (fun y I => Il y (or_intror I))). destruct (cfold f l _ s) as [[y s2] w2]. exact IH.
      - cbn. intros [u X]; discriminate X.
      - exfalso. apply Ex; [destruct x; apply Il; now left|]. cbn. eexists; reflexivity. }
    specialize (Fold ds [] d (fun x I => I)). unfold cbind at 1. destruct (cfold f ds [] d) as [[[puls|e|u] s1] w1]; cbn [fst] in Fold.
    - unfold cbind at 1. unfold clift at 1. pose proof (tree_sound dbg ds) as Ts. destruct (mkDomainTree dbg ds) as [t|e|u]; cbn in Ts |- *.
      + intros [u X]; discriminate X.
      + intros [u X]; discriminate X.
      + destruct Ts.
    - cbn. intros [u X]; discriminate X.
    - exfalso. apply Fold. eexists; reflexivity.
  Qed.
End Domains.

(** ** Reading the input file *)
Section Reading.
  Context {T : Type} `{Num T}.
  Notation json := (json T).
  Lemma material_names (res : materials T) kv res' : readMaterial res kv = Ok res' -> Permutation (all_names res') (fst kv :: all_names res).
  Proof.
    unfold readMaterial, all_names. intro E.
    repeat (match type of E with
            | bind ?x _ = Ok _ => destruct x; cbn [bind] in E; try discriminate E
            end).
    match type of E with match ?t with _ => _ end = _ => destruct t end;
    repeat (match type of E with
            | bind ?x _ = Ok _ => destruct x; cbn [bind] in E; try discriminate E
            end);
    injection E as <-; cbn [pecs openBoundaries dielectrics]; rewrite !map_app; cbn [map p_name o_name d_name].
    - rewrite <- app_assoc. cbn [app]. symmetry; apply Permutation_middle.
    - rewrite !app_assoc. rewrite <- Permutation_cons_append. reflexivity.
    - rewrite <- app_assoc. cbn [app]. rewrite !app_assoc. symmetry.
      rewrite <- app_assoc. rewrite !app_assoc. apply Permutation_middle.
    - rewrite !app_assoc. rewrite <- Permutation_cons_append. reflexivity.
  Qed.
  Lemma materials_names l (res res' : materials T) :
    foldM readMaterial l res = Ok res' -> Permutation (all_names res') (map fst l ++ all_names res).
  Proof.
    revert res; induction l as [|kv l IH]; intros res; cbn [foldM map app].
    - intros [= ->]. reflexivity.
    - destruct (readMaterial res kv) as [r|e|u] eqn:E; cbn [bind]; try discriminate.
      intro E2. apply material_names in E. rewrite (IH _ E2), E. rewrite <- Permutation_middle. reflexivity.
  Qed.
  Lemma number_names i j : nat_to_string i = nat_to_string j -> i = j.
  Proof.
    unfold nat_to_string. intros E. apply (f_equal NilEmpty.uint_of_string) in E. rewrite !NilEmpty.usu in E.
    injection E as E. apply Unsigned.to_uint_inj. exact E.
  Qed.
  Lemma mset_all_values (P : json -> Prop) l (m : list (string * json)) :
    (forall k v, mget k m = Some v -> P v) -> Forall (fun kv => P (snd kv)) l -> forall k v, mget k (mset_all l m) = Some v -> P v.
  Proof.
    revert m. unfold mset_all. induction l as [|[k' v'] l IH]; intros m Hm Hl k v E; [exact (Hm k v E)|]. cbn [fold_left] in E.
    apply Forall_cons_iff in Hl as (H1 & H2).
    refine (IH _ _ H2 k v E). intros k2 v2 E2. cbn [fst snd] in E2. rewrite mget_mset in E2. destruct (oequiv k2 k'); [now injection E2 as <-|now apply (Hm k2)].
  Qed.
  (** What is in a value that has been read has been read. *)
  Definition was_read (j : json) : Prop := exists t, j = jparse t.
  Lemma field_read (j x : json) k : was_read j -> field j k x -> was_read x.
  Proof.
    intros [t ->] (m & E & Ex). destruct t; try discriminate E. rewrite jparse_obj in E. injection E as <-.
    refine (mset_all_values was_read _ _ _ _ k x Ex); [discriminate|]. rewrite parse_members_map. apply Forall_forall.
    intros kv I. apply in_map_iff in I as (kt & <- & _). eexists; reflexivity.
  Qed.
  Lemma items_distinct (j : json) mats : was_read j -> readMaterials j = Ok mats -> NoDup (all_names mats).
  Proof.
    intros [t ->] E. pose proof (materials_names _ _ _ E) as P. cbn [all_names no_materials pecs openBoundaries dielectrics map app] in P.
    rewrite app_nil_r in P. eapply Permutation_NoDup; [symmetry; exact P|]. clear E P.
    destruct t as [| | | | |l|m]; try (cbn; repeat constructor; intros []).
    - cbn [jparse jitems]. rewrite map_map. cbn [fst]. rewrite <- (map_map fst nat_to_string). apply FinFun.Injective_map_NoDup; [exact number_names|].
      rewrite enum_fst. apply seq_NoDup.
    - destruct (jparse_sorted m) as (m' & -> & Hs). cbn. now apply msorted_nodup.
  Qed.
  Lemma sound_double Al (j : json) : sound Al (fun _ => True) (jget_double j).
  Proof. destruct j; exact I. Qed.
  Lemma sound_string Al (j : json) : sound Al (fun _ => True) (jget_string j).
  Proof. destruct j; exact I. Qed.
  Lemma sound_bool Al (j : json) : sound Al (fun _ => True) (jget_bool j).
  Proof. destruct j; exact I. Qed.
  Lemma sound_at Al k (j : json) : sound Al (fun x => field j k x) (jat k j).
  Proof. destruct j; try exact I. cbn. destruct (mget k m) as [x|] eqn:E; [|exact I]. exists m. auto. Qed.
  Lemma sound_int (j : json) : fits_int j -> sound never (fun _ => True) (jget_int j).
  Proof.
    intros F. destruct j as [| | |x| | |]; try exact I. destruct (F x eq_refl) as (z & E & B). unfold jget_int. rewrite E.
    rewrite (proj2 (Z.leb_le _ _) (proj1 B)), (proj2 (Z.ltb_lt _ _) (proj2 B)). exact I.
  Qed.
  Lemma material_sound (res : materials T) kv : (forall tag, field (snd kv) "tag" tag -> fits_int tag) -> sound never (fun _ => True) (readMaterial res kv).
  Proof.
    intros F. unfold readMaterial. eapply sound_bind; [apply sound_at|]. intros jt _. eapply sound_bind; [apply sound_string|]. intros label _.
    eapply sound_bind; [apply sound_mat|]. intros t _. eapply sound_bind; [apply sound_at|]. intros jg Fg.
    eapply sound_bind; [exact (sound_int _ (F jg Fg))|]. intros a _. destruct t.
    - apply (sound_bind _ (fun _ => True)); [|intros; exact I]. unfold jvalue_double. destruct (snd kv); try exact I.
      destruct (mget "area" m); [apply sound_double|exact I].
    - eapply sound_bind; [apply sound_at|]. intros je _. eapply sound_bind; [apply sound_double|]. intros; exact I.
    - exact I.
    - exact I.
  Qed.
  Variable fs : string -> option (option (jtext T)).
  Variable load_mesh : string -> outcome (mesh T).
  Lemma input_sound fn :
    (forall f, sound never (fun ms => good_mesh ms) (load_mesh f)) ->
    (forall t, fs fn = Some (Some t) -> tags_and_order_fit (jparse t)) ->
    sound never (fun mo => exists ms mats, fst mo = mkModel ms mats /\ good_mesh ms /\ NoDup (all_names mats)) (loadInput fs load_mesh fn).
  Proof.
    intros Sm Ft. unfold loadInput.
    apply (sound_bind _ (fun root => was_read root /\ tags_and_order_fit root)).
    { unfold readJSON. destruct (fs fn) as [[t|]|]; try exact I. cbn. split; [eexists; reflexivity|auto]. }
    intros root (Wr & Tf & Of). eapply (sound_bind _ (fun m => exists ms mats, m = mkModel ms mats /\ good_mesh ms /\ NoDup (all_names mats))).
    - unfold readModel. eapply sound_bind; [apply sound_at|]. intros j Fj. eapply sound_bind; [apply sound_at|]. intros jg _.
      eapply sound_bind; [apply sound_string|]. intros gmsh _. eapply sound_bind; [apply Sm|]. intros ms Gm.
      eapply sound_bind; [apply sound_at|]. intros jm Fm. pose proof (field_read _ _ _ (field_read _ _ _ Wr Fj) Fm) as Wm.
      eapply (sound_bind _ (fun mats => readMaterials jm = Ok mats)).
      + apply no_undef. split; [|auto].
        assert (S : sound never (fun _ => True) (readMaterials jm)).
        { unfold readMaterials. apply (sound_foldM _ (fun _ => True)); [|exact I]. intros s [name mat] Ikv _. apply material_sound.
          intros tag Ftag. exact (Tf _ _ _ _ _ Fj Fm Ikv Ftag). }
        apply no_undef in S as [S _]. exact S.
      + intros mats Em. cbn. exists ms, mats. split; [reflexivity|]. split; [exact Gm|]. exact (items_distinct _ _ Wm Em).
    - intros m Hm. eapply (sound_bind _ (fun _ => True)); [|intros o _; exact Hm].
      unfold readDriverOptions. eapply sound_bind; [apply sound_at|]. intros j Fj.
      assert (K : forall A (get : json -> outcome A) entry label (Al : ub -> Prop), (forall x, field j label x -> sound Al (fun _ => True) (get x)) -> sound Al (fun _ => True) (setIfExists get j entry label)).
      { intros A get entry label Al Hg. unfold setIfExists, jfind. destruct j as [| | | | | |mm]; try exact I.
        destruct (mget label mm) as [v|] eqn:E; [|exact I]. apply Hg. exists mm. auto. }
      eapply sound_bind; [apply K; intros x Fx; apply sound_int; exact (Of _ _ Fj Fx)|]. intros ord _.
      eapply sound_bind; [apply K; intros; apply sound_bool|]. intros pri _.
      eapply sound_bind; [apply K; intros; apply sound_bool|]. intros par _.
      eapply sound_bind; [apply K; intros; apply sound_bool|]. intros vis _.
      eapply sound_bind; [apply K; intros; apply sound_string|]. intros fol _. exact I.
  Qed.

  Variable dbg : bool.
  Variable femlib : mesh T -> Z -> fem T.
  Variable moment : T * T -> nat -> nat -> T * T -> T.
  Hypothesis Gl : good_library femlib.
  (** ** The executable *)
  Lemma program_undefined args u w :
    (forall f, sound never (fun ms => good_mesh ms) (load_mesh f)) ->
    (forall fn t, fs fn = Some (Some t) -> tags_and_order_fit (jparse t)) ->
    program dbg femlib moment fs load_mesh args = (Undefined u, w) ->
    exists fn m o, loadInput fs load_mesh fn = Ok (m, o) /\
      ((exists p, In p (pecs (mo_mats m)) /\ no_number (p_name p)) \/
       (dbg = false /\ exists d, In d (dielectrics (mo_mats m)) /\ beyond_the_regions (mo_mesh m) (d_attr d)) \/
       (determineOpenness dbg m = Ok Open /\ u = SingularSystem)).
  Proof.
    intros Sm Ft. unfold program. destruct (parse_command_line args no_options) as [[help [fn|]]|]; try discriminate; [|destruct help; discriminate].
    destruct help; [discriminate|]. pose proof (input_sound fn Sm (Ft fn)) as S. unfold launch, loadFromFile.
    unfold cbind at 1. unfold cbind at 1. unfold clift at 1.
    destruct (loadInput fs load_mesh fn) as [[m o]|e|v] eqn:El; cbn in S; [|discriminate|destruct S].
    destruct S as (ms & mats & -> & Gm & ND). cbn [fst snd].
    pose proof (construction_undefined dbg femlib o ms mats 0 ND Gm Gl) as Cu.
    pose proof (built_fit dbg femlib Gl ms mats 0 o) as Bf. cbv zeta in Bf. unfold outcome_of in Cu. unfold built in Bf.
    change (setGround (mkModel ms mats) 0) with (mkModel ms mats) in *.
    intros E. exists fn, (mkModel ms mats), o. split; [exact El|].
    destruct (mkDriver dbg femlib (mkModel ms mats) o tt) as [[[sd|e|v] []] w1]; cbn [fst] in Cu.
    - right. right. destruct (Bf sd ND Gm) as (conds & O & Nm & Sg & Fi); [eexists; reflexivity|].
      pose proof (proj1 (run_safe dbg femlib moment _ _ conds O Nm Sg _ (fit_folder femlib (mkModel ms mats) (o_order o) conds sd (input_directory fn) Fi))) as Rs.
      rewrite MainProofs.set_then in E. unfold in_folder in E.
      destruct (run dbg femlib moment _) as [[r d2] w2]. cbn in Rs. destruct r as [[]|e|v]; cbn in E, Rs; try discriminate E.
      destruct Rs as [Ho Hv]. split; [exact Ho|]. injection E as <- _. exact Hv.
    - discriminate E.
    - destruct (proj1 Cu) as [X|(Db & _ & X)]; [eexists; reflexivity|left; exact X|right; left; split; [exact Db|exact X]].
  Qed.
End Reading.
