(** Proofs about the Driver. *)
From Verif Require Import Prelude StdMap Json Materials Graph ModelM Parser Matrix Solver Domain Results Driver
  SpecInput SpecModel SpecSolver SpecDriver ListLemmas ModelProofs SolverProofs.
From Coq Require Import Permutation Sorted.

Section Order.
  Context {T : Type} `{Num T}.

  Definition id_of (p : pec T) : Z := match getMaterialIdFromName (p_name p) with Ok i => i | _ => 0 end.
  Lemma conductor_ids_map (mats : materials T) ids : conductor_ids mats ids ->
    ids = map id_of (pecs mats) /\ Forall (fun p => getMaterialIdFromName (p_name p) = Ok (id_of p)) (pecs mats).
  Proof.
    intros F. unfold conductor_ids in F. induction F as [|p i l l' E F IH]; [split; constructor|].
    destruct IH as [-> IH]. assert (id_of p = i) by (unfold id_of; now rewrite E).
    subst i. split; [reflexivity|]. constructor; auto.
  Qed.
  Lemma in_order_exists (mats : materials T) ids : conductor_ids mats ids -> numbered_from_zero ids ->
    exists conds, in_order mats conds /\ List.length conds = List.length ids.
  Proof.
    intros C N. apply conductor_ids_map in C as [-> F]. unfold numbered_from_zero in N.
    apply Permutation_sym, Permutation_map_inv in N as (conds & E & P).
    exists conds. split.
    - split; [now apply Permutation_sym|]. intros i p Ei.
      assert (F' : Forall (fun p => getMaterialIdFromName (p_name p) = Ok (id_of p)) conds).
      { rewrite Forall_forall in *. intros q I. apply F. eapply Permutation_in; [apply Permutation_sym; exact P|exact I]. }
      rewrite Forall_forall in F'. rewrite (F' p) by (eapply nth_error_In; eauto). f_equal.
      pose proof (map_nth_error id_of _ _ Ei) as M. rewrite <- E in M.
      assert (L : (i < List.length conds)%nat) by (apply nth_error_Some; congruence).
      assert (L2 : List.length conds = List.length (pecs mats)) by (symmetry; now apply Permutation_length).
      rewrite map_length in M. pose proof (map_nth_error Z.of_nat i (seq 0 (List.length (pecs mats)))) as M2.
      rewrite (M2 i) in M.
      + now injection M.
      + rewrite nth_error_nth' with (d := 0%nat) by (rewrite seq_length; lia). rewrite seq_nth by lia. reflexivity.
    - rewrite map_length. symmetry. now apply Permutation_length.
  Qed.

  Lemma in_order_ids (mats : materials T) conds : in_order mats conds ->
    exists ids, conductor_ids mats ids /\ numbered_from_zero ids /\ List.length ids = List.length conds.
  Proof.
    intros [P N]. exists (map id_of (pecs mats)).
    assert (Fc : forall p, In p conds -> getMaterialIdFromName (p_name p) = Ok (id_of p)).
    { intros p I. apply In_nth_error in I as [i I]. unfold id_of. now rewrite (N _ _ I). }
    assert (Mc : map id_of conds = map Z.of_nat (seq 0 (List.length conds))).
    { apply nth_error_ext'. intros i. destruct (nth_error conds i) as [p|] eqn:E.
      - rewrite (map_nth_error id_of _ _ E).
        assert (L : (i < List.length conds)%nat) by (apply nth_error_Some; congruence).
        rewrite (map_nth_error Z.of_nat i (seq 0 (List.length conds)) (d := i)).
        + f_equal. unfold id_of. now rewrite (N _ _ E).
        + rewrite nth_error_nth' with (d := 0%nat) by (rewrite seq_length; lia). rewrite seq_nth by lia. reflexivity.
      - assert (L : (List.length conds <= i)%nat) by now apply nth_error_None.
        rewrite (proj2 (nth_error_None _ _)) by (rewrite map_length; lia).
        symmetry. apply nth_error_None. rewrite map_length, seq_length. lia. }
    split; [|split].
    - unfold conductor_ids. assert (Fp : Forall (fun p => getMaterialIdFromName (p_name p) = Ok (id_of p)) (pecs mats)).
      { apply Forall_forall. intros p I. apply Fc. eapply Permutation_in; [apply Permutation_sym; exact P|exact I]. }
      clear -Fp. induction Fp; constructor; auto.
    - unfold numbered_from_zero. rewrite map_length, <- (Permutation_length P), <- Mc.
      apply Permutation_map, Permutation_sym, P.
    - now rewrite map_length, (Permutation_length P).
  Qed.

  (** The conductors as (number, tag). *)
  Definition tagged (conds : list (pec T)) : list (Z * Z) :=
    map (fun ip => (Z.of_nat (fst ip), p_attr (snd ip))) (enum conds).
  Lemma tagged_length conds : List.length (tagged conds) = List.length conds.
  Proof. unfold tagged. now rewrite map_length, enum_length. Qed.
  Lemma tagged_keys conds : map fst (tagged conds) = map Z.of_nat (seq 0 (List.length conds)).
  Proof. unfold tagged. rewrite map_map. cbn. rewrite <- enum_fst, map_map. reflexivity. Qed.
  Lemma tagged_in conds i t : In (i, t) (tagged conds) <->
    exists k p, i = Z.of_nat k /\ nth_error conds k = Some p /\ p_attr p = t.
  Proof.
    unfold tagged. rewrite in_map_iff. split.
    - intros ([k p] & E & I). cbn in E. injection E as <- <-. apply in_enum in I. eauto.
    - intros (k & p & -> & E & <-). exists (k, p). split; [reflexivity|]. now apply in_enum.
  Qed.
  Lemma tagged_nth conds k p : nth_error conds k = Some p ->
    nth_error (tagged conds) k = Some (Z.of_nat k, p_attr p).
  Proof. intros E. unfold tagged. rewrite nth_error_map, (nth_error_enum _ _ _ E). reflexivity. Qed.
  Lemma seq_olt n k : StronglySorted (@olt Z _) (map Z.of_nat (seq k n)).
  Proof.
    revert k; induction n as [|n IH]; intros k; cbn; constructor; auto.
    apply Forall_forall. intros z I. apply in_map_iff in I as (j & <- & I). apply in_seq in I.
    unfold olt. cbn. lia.
  Qed.
  Lemma tagged_sorted conds : msorted (tagged conds).
  Proof. unfold msorted. rewrite tagged_keys. apply seq_olt. Qed.
  Lemma mset_all_self {K V} `{OL : OrdLaws K} (m : list (K * V)) : msorted m -> mset_all m [] = m.
  Proof.
    intros S. apply msorted_ext; auto.
    - apply mset_all_sorted. constructor.
    - intros k. destruct (mget k m) as [v|] eqn:E.
      + apply mget_Some_in in E. apply mset_all_nodup; auto. now apply msorted_nodup.
      + apply mget_None. apply mget_None in E. intros I. apply E. apply in_keys_mset_all in I as [I|[]]. exact I.
  Qed.
  Lemma in_order_conductors (mats : materials T) conds : in_order mats conds ->
    idToAttr_PEC mats = Ok (tagged conds).
  Proof.
    intros O. destruct (in_order_ids mats conds O) as (ids & C & N & L).
    rewrite (idToAttr_ids mats ids C). f_equal. rewrite <- (mset_all_self (tagged conds)) by apply tagged_sorted.
    destruct O as [P O]. pose proof (conductor_ids_map _ _ C) as [-> F].
    symmetry. apply mset_all_perm.
    - apply msorted_nodup, tagged_sorted.
    - assert (E : forall l, combine (map id_of l) (map p_attr l) = map (fun p : pec T => (id_of p, p_attr p)) l).
      { induction l as [|p l IH]; [reflexivity|]. cbn. now rewrite IH. }
      rewrite E. apply Permutation_trans with (map (fun p => (id_of p, p_attr p)) conds).
      + replace (tagged conds) with (map (fun p => (id_of p, p_attr p)) conds); [apply Permutation_refl|].
        apply nth_error_ext'. intros i. rewrite nth_error_map. destruct (nth_error conds i) as [p|] eqn:Ei; cbn.
        * rewrite (tagged_nth _ _ _ Ei). unfold id_of. now rewrite (O _ _ Ei).
        * symmetry. apply nth_error_None. rewrite tagged_length. now apply nth_error_None.
      + apply Permutation_map, P.
  Qed.
  Lemma find_pec_id_in (l : list (pec T)) i p :
    NoDup (map id_of l) -> Forall (fun p => getMaterialIdFromName (p_name p) = Ok (id_of p)) l ->
    In p l -> id_of p = i -> find_pec_id i l = Ok p.
  Proof.
    induction l as [|q l IH]; intros ND F I E; [destruct I|]. cbn.
    inversion F as [|? ? Fq Fl]; subst. rewrite Fq. cbn. cbn in ND. inversion ND as [|? ? N1 N2]; subst.
    destruct I as [->|I].
    - now rewrite Z.eqb_refl.
    - destruct (Z.eqb_spec (id_of q) (id_of p)) as [E|E]; [|now apply IH].
      exfalso. apply N1. rewrite E. now apply in_map.
  Qed.
  Lemma in_order_get (mats : materials T) conds i p : in_order mats conds -> nth_error conds i = Some p ->
    get_PEC_by_id mats (Z.of_nat i) = Ok p.
  Proof.
    intros O E. destruct (in_order_ids mats conds O) as (ids & C & N & L).
    pose proof (conductor_ids_map _ _ C) as [-> F]. destruct O as [P O].
    unfold get_PEC_by_id. apply find_pec_id_in; auto.
    - eapply Permutation_NoDup; [apply Permutation_sym; exact N|]. rewrite map_length.
      apply FinFun.Injective_map_NoDup; [intros a b; lia|apply seq_NoDup].
    - eapply Permutation_in; [exact P|]. eapply nth_error_In; eauto.
    - unfold id_of. now rewrite (O _ _ E).
  Qed.
  Lemma in_order_unique (mats : materials T) c1 c2 : in_order mats c1 -> in_order mats c2 -> c1 = c2.
  Proof.
    intros O1 O2. apply nth_error_ext'. intros i.
    assert (L : List.length c1 = List.length c2).
    { destruct O1 as [P1 _], O2 as [P2 _]. rewrite (Permutation_length P1). symmetry. now apply Permutation_length. }
    destruct (nth_error c1 i) as [p|] eqn:E1, (nth_error c2 i) as [q|] eqn:E2; auto.
    - pose proof (in_order_get _ _ _ _ O1 E1). pose proof (in_order_get _ _ _ _ O2 E2). congruence.
    - apply nth_error_None in E2. assert (i < List.length c1)%nat by (apply nth_error_Some; congruence). lia.
    - apply nth_error_None in E1. assert (i < List.length c2)%nat by (apply nth_error_Some; congruence). lia.
  Qed.
End Order.

Section Inputs.
  Context {T : Type} `{Num T}.

  Lemma const_map_in (l : list (string * Z)) (v : T) t x :
    In (t, x) (buildAttrToValueMap l v) <-> In t (map snd l) /\ x = v.
  Proof.
    unfold buildAttrToValueMap. set (L := map (fun na : string * Z => (snd na, v)) l).
    assert (S : msorted (mset_all L [])) by (apply mset_all_sorted; constructor).
    assert (K : map fst L = map snd l) by (unfold L; rewrite map_map; reflexivity).
    assert (V : forall kv, In kv L -> snd kv = v).
    { intros kv I. unfold L in I. apply in_map_iff in I as (na & <- & _). reflexivity. }
    assert (G : forall (L m : list (Z * T)) k y, (forall kv, In kv L -> snd kv = v) -> mget k (mset_all L m) = Some y -> y = v \/ mget k m = Some y).
    { clear. intros L; induction L as [|[k' v'] L IH]; intros m k y V E; [now right|].
      cbn in E. apply IH in E as [E|E]; [now left| |intros; apply V; now right].
      rewrite mget_mset in E. destruct (oequiv k k'); [|now right]. left.
      injection E as <-. apply (V (k', v')). now left. }
    split.
    - intros I. split.
      + rewrite <- K. apply (in_map fst) in I. apply in_keys_mset_all in I as [I|[]]. exact I.
      + apply mget_in_iff in I; auto. apply G in I as [I|I]; auto; discriminate.
    - intros [I ->]. rewrite <- K in I.
      assert (I' : In t (map fst (mset_all L []))) by (apply in_keys_mset_all; now left).
      apply in_map_iff in I' as ([t' x] & E & I'). cbn in E. subst t'.
      pose proof I' as I2. apply mget_in_iff in I2; auto. apply G in I2 as [->|I2]; auto; discriminate.
  Qed.
  Lemma const_map_sorted (l : list (string * Z)) (v : T) : msorted (buildAttrToValueMap l v).
  Proof. apply mset_all_sorted. constructor. Qed.

  Lemma eps_fold (l : list (dielectric T)) r :
    (forall d, In d l -> In (d_attr d) (map fst r)) ->
    foldM (fun r d => let* _ := mat_ (d_attr d) r in Ok (mset (d_attr d) (d_epsr d) r)) l r =
    Ok (mset_all (map (fun d => (d_attr d, d_epsr d)) l) r).
  Proof.
    revert r; induction l as [|d l IH]; intros r Hi; [reflexivity|]. cbn [foldM map].
    unfold mat_. destruct (mget (d_attr d) r) as [x|] eqn:E.
    - cbn [bind]. rewrite IH; [reflexivity|]. intros d' I. apply in_keys_mset. right. apply Hi. now right.
    - exfalso. apply mget_None in E. apply E, Hi. now left.
  Qed.

  Lemma last_split {A} (f : A -> Z) (l : list A) t : In t (map f l) ->
    exists l1 d l2, l = l1 ++ d :: l2 /\ f d = t /\ ~ In t (map f l2).
  Proof.
    induction l as [|a l IH]; intros I; [destruct I|].
    destruct (in_dec Z.eq_dec t (map f l)) as [J|J].
    - destruct (IH J) as (l1 & d & l2 & -> & E & N). exists (a :: l1), d, l2. auto.
    - destruct I as [E|I]; [|contradiction]. exists [], a, l. auto.
  Qed.

  Lemma open_attrs_perm (mats : materials T) : NoDup (map o_name (openBoundaries mats)) ->
    Permutation (getAttributesInMap (nameToAttr_Open mats)) (map o_attr (openBoundaries mats)).
  Proof.
    intros ND. unfold getAttributesInMap, nameToAttr_Open.
    replace (map o_attr (openBoundaries mats)) with (map snd (map (fun p => (o_name p, o_attr p)) (openBoundaries mats)))
      by (rewrite map_map; reflexivity).
    apply Permutation_map, mset_all_permutation. rewrite map_map. exact ND.
  Qed.

  Lemma inputs_of_model (m : model T) ignore : NoDup (all_names (mo_mats m)) ->
    exists p, buildSolverInputsFromModel m ignore = Ok p /\
      conductor_problem (mo_mats m) ignore (fun _ => n0) p.
  Proof.
    intros ND. destruct (nodup_all_names _ ND) as (N1 & N2 & N3 & _).
    unfold buildSolverInputsFromModel. set (mats := mo_mats m) in *.
    assert (Kd : forall t, In t (map snd (nameToAttr_Diel mats)) <-> In t (map d_attr (dielectrics mats))).
    { intros t. rewrite !in_map_iff. split.
      - intros ([n t'] & E & I). cbn in E. subst t'. apply nameToAttr_Diel_in in I as (d & I & _ & E); auto. eauto.
      - intros (d & E & I). exists (d_name d, t). split; auto. apply nameToAttr_Diel_in; auto. eauto. }
    assert (Kp : forall t, In t (map snd (nameToAttr_PEC mats)) <-> exists q, In q (pecs mats) /\ p_attr q = t).
    { intros t. rewrite in_map_iff. split.
      - intros ([n t'] & E & I). cbn in E. subst t'. apply nameToAttr_PEC_in in I as (d & I & _ & E); auto. eauto.
      - intros (d & I & E). exists (p_name d, t). split; auto. apply nameToAttr_PEC_in; auto. eauto. }
    assert (E0 : forall t x, In (t, x) (buildAttrToValueMap (nameToAttr_Diel mats) n1) <-> permittivity mats true t x).
    { intros t x. rewrite const_map_in, Kd. split.
      - intros [I ->]. apply last_split in I as (l1 & d & l2 & E & Ed & N). exists l1, d, l2. auto.
      - intros (l1 & d & l2 & E & Ed & N & ->). split; auto. rewrite E, map_app, in_app_iff. right; now left. }
    destruct ignore.
    - eexists. split; [reflexivity|]. split; cbn.
      + split; apply const_map_sorted.
      + intros t x. now rewrite const_map_in, Kp.
      + reflexivity.
      + now apply open_attrs_perm.
      + exact E0.
    - rewrite eps_fold.
      2:{ intros d I. assert (I1 : In (d_attr d, n1) (buildAttrToValueMap (nameToAttr_Diel mats) n1)).
          { apply const_map_in. split; auto. apply Kd. now apply in_map. }
          now apply (in_map fst) in I1. }
      cbn [bind]. eexists. split; [reflexivity|].
      assert (S : msorted (mset_all (map (fun d => (d_attr d, d_epsr d)) (dielectrics mats))
                   (buildAttrToValueMap (nameToAttr_Diel mats) n1))) by apply mset_all_sorted, const_map_sorted.
      split; cbn.
      + split; [apply const_map_sorted|exact S].
      + intros t x. now rewrite const_map_in, Kp.
      + reflexivity.
      + now apply open_attrs_perm.
      + intros t x.
        assert (K : forall l1 d l2, dielectrics mats = l1 ++ d :: l2 -> d_attr d = t -> ~ In t (map d_attr l2) ->
          mget t (mset_all (map (fun d => (d_attr d, d_epsr d)) (dielectrics mats))
             (buildAttrToValueMap (nameToAttr_Diel mats) n1)) = Some (d_epsr d)).
        { intros l1 d l2 E Ed N. rewrite E, map_app. cbn [map]. rewrite Ed. apply mset_all_last.
          rewrite map_map. exact N. }
        split.
        * intros I. assert (It : In t (map d_attr (dielectrics mats))).
          { apply (in_map fst) in I. apply in_keys_mset_all in I as [I|I].
            - rewrite map_map in I. exact I.
            - apply Kd. apply in_map_iff in I as ([t' y] & Et & I). cbn in Et. subst t'.
              apply const_map_in in I. tauto. }
          apply last_split in It as (l1 & d & l2 & E & Ed & N). exists l1, d, l2. repeat split; auto.
          apply mget_in_iff in I; auto. specialize (K l1 d l2 E Ed N). congruence.
        * intros (l1 & d & l2 & E & Ed & N & ->). apply mget_in_iff; auto. apply (K l1 d l2); auto.
  Qed.

  (** The conditions with 1 V on one tag. *)
  Lemma unit_conditions (mats : materials T) ignore p t : conductor_problem mats ignore (fun _ => n0) p ->
    (exists q, In q (pecs mats) /\ p_attr q = t) ->
    conductor_problem mats ignore (unit_potential t) (with_dirichlet p (mset t n1 (si_dirichlet p))) /\
    map fst (mset t n1 (si_dirichlet p)) = map fst (si_dirichlet p).
  Proof.
    intros [[S1 S2] D N O E] Ht.
    assert (S1' : msorted (mset t n1 (si_dirichlet p))) by now apply mset_sorted.
    assert (It : In t (map fst (si_dirichlet p))).
    { assert (I : In (t, n0) (si_dirichlet p)) by (apply D; auto). now apply (in_map fst) in I. }
    assert (D' : forall t' x, In (t', x) (mset t n1 (si_dirichlet p)) <->
                 (exists q, In q (pecs mats) /\ p_attr q = t') /\ x = unit_potential t t').
    { intros t' x. rewrite <- mget_in_iff by auto. rewrite mget_mset. unfold unit_potential.
      destruct (oequiv t' t) eqn:Q.
      - apply oequiv_eq in Q. subst t'. rewrite Z.eqb_refl. split; [intros [= <-]; auto|].
        intros [_ ->]. reflexivity.
      - apply oequiv_neq in Q. destruct (Z.eqb_spec t' t); [contradiction|]. rewrite mget_in_iff by auto. apply D. }
    split; [split; cbn; auto|].
    clear -S1 It. induction (si_dirichlet p) as [|[k v] l IH]; [destruct It|]. cbn.
    apply msorted_cons in S1 as [S1 L]. cbn in It. destruct (t <? k)%Z eqn:E1.
    - exfalso. destruct It as [->|It]; [lia|]. apply L in It. unfold olt in It. cbn in It. lia.
    - destruct (k <? t)%Z eqn:E2; cbn; [|reflexivity]. f_equal. apply IH; auto.
      destruct It as [->|It]; [lia|exact It].
  Qed.
  Lemma problem_inputs_ok (F : fem T) (m : model T) ignore v p : well_posed F m ->
    conductor_problem (mo_mats m) ignore v p -> inputs_ok F p.
  Proof.
    intros W [S D N O E]. destruct W as [_ Wp Wo Wd _]. rewrite Forall_forall in Wp, Wo, Wd.
    split.
    - apply Forall_forall. intros [t x] I. apply D in I as [(q & I & <-) _]. cbn. auto.
    - rewrite N. constructor.
    - apply Forall_forall. intros a I. apply (Permutation_in _ O) in I. apply in_map_iff in I as (o & <- & I). auto.
    - apply Forall_forall. intros [t x] I. apply E in I as (l1 & d & l2 & Ed & <- & _). cbn. apply Wd.
      rewrite Ed. apply in_or_app. right; now left.
  Qed.
End Inputs.

(** ** Running commands *)
Section CmdFacts.
  Context {T S : Type}.
  Lemma cbind_ok {A B} (m : cmd T S A) (f : A -> cmd T S B) s a s1 w1 :
    m s = ((Ok a, s1), w1) ->
    cbind m f s = let '((r2, s2), w2) := f a s1 in ((r2, s2), w1 ++ w2).
  Proof. intros E. unfold cbind. now rewrite E. Qed.
  Lemma cbind_lift {A B} (x : outcome A) (f : A -> cmd T S B) s a : x = Ok a ->
    cbind (clift x) f s = f a s.
  Proof.
    intros ->. unfold cbind, clift. destruct (f a s) as [[r s'] w]. reflexivity.
  Qed.
  Lemma cbind_get {B} (f : S -> cmd T S B) s : cbind cget f s = f s s.
  Proof. unfold cbind, cget. destruct (f s s) as [[r s'] w]. reflexivity. Qed.
  Lemma cbind_put {B} (f : unit -> cmd T S B) s s' : cbind (cput s') f s = f tt s'.
  Proof. unfold cbind, cput. destruct (f tt s') as [[r s''] w]. reflexivity. Qed.
  Lemma cbind_emit {B} (w : list (event T)) (f : unit -> cmd T S B) s :
    cbind (cemit w) f s = let '((r2, s2), w2) := f tt s in ((r2, s2), w ++ w2).
  Proof. reflexivity. Qed.
  Lemma cbind_throw {A B} (m : cmd T S A) (f : A -> cmd T S B) s e s1 w1 :
    m s = ((Throw e, s1), w1) -> cbind m f s = ((Throw e, s1), w1).
  Proof. intros E. unfold cbind. now rewrite E. Qed.
End CmdFacts.

Section Construct.
  Context {T : Type} `{Num T}.
  Variable dbg : bool.
  Variable femlib : mesh T -> Z -> fem T.
  Variable m : model T.
  Variable o : driver_options.
  Notation F := (femlib (mo_mesh m) (o_order o)).
  Hypothesis W : well_posed F m.

  (** Solving with 1 V on a conductor, whatever was solved before. *)
  Lemma unit_solve ignore base s0 t :
    conductor_problem (mo_mats m) ignore (fun _ => n0) base -> mkSolver F dbg base = Ok s0 ->
    (exists q, In q (pecs (mo_mats m)) /\ p_attr q = t) ->
    exists x, solved_fields F (setDirichletConditions s0 (mset t n1 (si_dirichlet base))) = Ok x /\
      sized F x /\ unit_solution F dbg (mo_mats m) ignore t x.
  Proof.
    intros B E0 Ht. destruct (unit_conditions _ _ _ _ B Ht) as [U K].
    pose proof (problem_inputs_ok F m ignore _ _ W U) as Ui.
    destruct (mkSolver_ok F dbg _ Ui) as (s & Es & P & Ess & Eo & Ee & Eg & Ls & Sz).
    pose proof (wp_fem F m W) as Hf.
    destruct (Solve_ok F s (fo_bdr F Hf) (mkSolver_elim_ok F _ _ _ Es)) as (phi0 & E1 & _ & Sv).
    { rewrite P. apply (io_dir F _ Ui). } { rewrite P. exact Ess. }
    match type of Sv with _ = Ok ?s' => assert (Sf : solved_fields F s = Ok (getSolution s')) end.
    { unfold solved_fields. rewrite Sv. reflexivity. }
    assert (Nb : si_dirichlet base <> []).
    { destruct B as [_ D _ _ _]. intros En. pose proof (proj2 (D t n0) (conj Ht eq_refl)) as I0. rewrite En in I0. exact I0. }
    eexists. split; [|split].
    - rewrite <- Sf. pose proof (history_of_conditions F dbg base s0 [SetDirichlet (mset t n1 (si_dirichlet base))]
        (setDirichletConditions s0 (mset t n1 (si_dirichlet base))) (mset t n1 (si_dirichlet base)) E0) as Hh.
      destruct Hh as (s1 & Es1 & ->); auto.
      + discriminate.
      + rewrite Es in Es1. injection Es1 as <-. reflexivity.
    - repeat split; cbn; apply Hf.
    - exists (with_dirichlet base (mset t n1 (si_dirichlet base))), s. auto.
  Qed.

  Definition export_fields (u : solution T) (name : string) (ignore : bool) : list (event T) :=
    (if o_exportParaView o then [EvParaView (export_name (o_exportFolder o) "ParaView" name ignore) (contents u)] else []) ++
    (if o_exportVisIt o then [EvVisIt (export_name (o_exportFolder o) "VisIt" name ignore) (contents u)] else []).
  Definition exports (ignore : bool) (conds : list (pec T)) (us : list (solution T)) : list (event T) :=
    flat_map (fun pu => export_fields (snd pu) (p_name (fst pu)) ignore) (combine conds us).
  Definition stored (sp : solved T) : list (solution T) :=
    flat_map (fun x => match x with Some u => [u] | None => [] end) (sp_solutions sp).
  Lemma stored_some sp us : sp_solutions sp = map Some us -> stored sp = us.
  Proof. unfold stored. intros ->. induction us as [|u us IH]; cbn; congruence. Qed.

  (** State of the loop over the conductors after the first [k] ones. *)
  Record ready (ignore : bool) (conds : list (pec T)) (base : solver_inputs T) (s0 : solver T)
      (k : nat) (sp : solved T) : Prop := {
    rd_sols : exists us, sp_solutions sp = map Some us ++ repeat None (List.length conds - k) /\
        Forall2 (fun p u => unit_solution F dbg (mo_mats m) ignore (p_attr p) u /\ sized F u) (firstn k conds) us;
    rd_core : s_ess (sp_solver sp) = s_ess s0 /\ s_open (sp_solver sp) = s_open s0 /\
              s_eps (sp_solver sp) = s_eps s0 /\ s_sigma (sp_solver sp) = s_sigma s0 /\
              (si_dirichlet (s_params (sp_solver sp)) = [] <-> si_dirichlet base = []) /\ elim_ok F (sp_solver sp);
    rd_sized : sized F (getSolution (sp_solver sp));
    rd_params : exists v, conductor_problem (mo_mats m) ignore v (s_params (sp_solver sp)) }.

  Lemma put_solution_at us rest (x : solution T) :
    put_solution (map Some us ++ None :: rest) (Z.of_nat (List.length us)) x =
    Ok (map Some (us ++ [x]) ++ rest).
  Proof.
    unfold put_solution, vec_at. destruct (Z.ltb_spec (Z.of_nat (List.length us)) 0); [lia|].
    rewrite Nat2Z.id. rewrite nth_error_app2 by (rewrite map_length; lia). rewrite map_length, Nat.sub_diag. cbn [nth_error bind].
    f_equal. rewrite map_app. cbn [map]. rewrite <- app_assoc. cbn [app].
    set (k := List.length us).
    unfold enum.
    assert (L : forall (l l2 : list (option (solution T))) j, enum_from j (l ++ l2) = enum_from j l ++ enum_from (j + List.length l) l2).
    { induction l as [|a l IH]; intros l2 j; cbn; [now rewrite Nat.add_0_r|]. rewrite IH. now replace (S j + List.length l)%nat with (j + S (List.length l))%nat by lia. }
    assert (N : forall (l : list (option (solution T))) j, (forall i, (j <= i < j + List.length l)%nat -> i <> k) ->
      map (fun p => if (fst p =? k)%nat then Some x else snd p) (enum_from j l) = l).
    { induction l as [|a l IH]; intros j Hn; [reflexivity|]. cbn. destruct (Nat.eqb_spec j k).
      - exfalso. apply (Hn j); cbn; lia.
      - f_equal. apply IH. intros i Hi. apply Hn. cbn. lia. }
    rewrite L, map_app, N by (rewrite map_length; intros; unfold k; lia). f_equal.
    rewrite map_length. cbn [enum_from map]. fold k. rewrite Nat.add_0_l. cbn [fst snd]. rewrite Nat.eqb_refl. f_equal.
    apply N. intros. lia.
  Qed.

  Lemma firstn_snoc {A} (l : list A) k p : nth_error l k = Some p -> firstn (S k) l = firstn k l ++ [p].
  Proof.
    revert k; induction l as [|a l IH]; intros [|k] E; try discriminate.
    - injection E as ->. reflexivity.
    - cbn [firstn app]. f_equal. now apply IH.
  Qed.

  Lemma solve_step_ok ignore conds base s0 k p sp :
    in_order (mo_mats m) conds -> conductor_problem (mo_mats m) ignore (fun _ => n0) base ->
    mkSolver F dbg base = Ok s0 -> ready ignore conds base s0 k sp -> nth_error conds k = Some p ->
    exists sp' x, solve_step femlib m o ignore base sp (Z.of_nat k, p_attr p) tt =
                ((Ok sp', tt), export_fields x (p_name p) ignore) /\
                (forall us, sp_solutions sp = map Some us ++ repeat None (List.length conds - k) ->
                   sp_solutions sp' = map Some (us ++ [x]) ++ repeat None (List.length conds - S k)) /\
                ready ignore conds base s0 (S k) sp'.
  Proof.
    intros O B E0 R Ep. destruct R as [(us & Su & Fu) (C1 & C2 & C3 & C4 & C5 & C6) Sz (v & Pv)].
    assert (Hin : exists q, In q (pecs (mo_mats m)) /\ p_attr q = p_attr p).
    { exists p. split; auto. eapply Permutation_in; [apply O|]. eapply nth_error_In; eauto. }
    destruct (unit_solve ignore base s0 (p_attr p) B E0 Hin) as (x & Ex & Sx & Ux).
    set (s1 := setDirichletConditions (sp_solver sp) (mset (p_attr p) n1 (si_dirichlet base))).
    assert (K1 : si_dirichlet (s_params s1) = [] <-> si_dirichlet base = []).
    { destruct (unit_conditions _ _ _ _ B Hin) as [_ K]. cbn. split; intros En; rewrite En in K.
      - destruct (si_dirichlet base); [reflexivity|discriminate K].
      - destruct (mset _ _ _); [reflexivity|discriminate K]. }
    assert (H1 : elim_ok F s1).
    { unfold elim_ok in *. cbn [s1 s_elim setDirichletConditions]. destruct (s_elim (sp_solver sp)); auto.
      rewrite <- C6. apply ess_now_same; [reflexivity|]. tauto. }
    assert (Ex1 : solved_fields F s1 = Ok x).
    { rewrite <- Ex. apply same_solve; auto. unfold elim_ok. cbn [s_elim setDirichletConditions]. now rewrite (mkSolver_elim F _ _ _ E0). }
    unfold solved_fields in Ex1. apply bind_ok in Ex1 as (s2 & Es2 & [= Ex2]).
    assert (Lk : (k < List.length conds)%nat) by (apply nth_error_Some; congruence).
    assert (Lu : List.length us = k).
    { apply Forall2_length in Fu. rewrite firstn_length in Fu. lia. }
    exists {| sp_solver := s2; sp_solutions := map Some (us ++ [x]) ++ repeat None (List.length conds - S k) |}, x.
    split; [|split].
    - unfold solve_step. cbn [fst snd]. fold s1. rewrite (cbind_lift _ _ _ _ Es2).
      rewrite (cbind_lift _ _ _ _ (in_order_get _ _ _ _ O Ep)). rewrite cbind_emit.
      rewrite (cbind_lift _ _ _ (map Some (us ++ [x]) ++ repeat None (List.length conds - S k))).
      + rewrite <- Ex2. cbn. now rewrite app_nil_r.
      + rewrite Su. replace (List.length conds - k)%nat with (S (List.length conds - S k)) by lia.
        cbn [repeat]. rewrite <- Lu, Ex2. apply put_solution_at.
    - intros us' E'. cbn [sp_solutions]. rewrite Su in E'. apply app_inv_tail in E'.
      assert (Eu : us' = us) by (clear -E'; revert us' E'; induction us as [|a us IH]; intros [|b us'] E'; try discriminate; [reflexivity|]; injection E' as -> E'; f_equal; now apply IH).
      now rewrite Eu.
    - destruct (Solve_elim_ok F _ _ H1 Es2) as (H2 & Q5 & Q1 & Q2 & Q3 & Q4). split; cbn [sp_solutions sp_solver].
      + exists (us ++ [x]). split; [reflexivity|]. rewrite (firstn_snoc _ _ _ Ep). apply Forall2_app; auto.
      + rewrite Q1, Q2, Q3, Q4, Q5. auto 10.
      + rewrite Ex2. exact Sx.
      + rewrite Q5. exists (unit_potential (p_attr p)). destruct (unit_conditions _ _ _ _ B Hin) as [[[A1 A2] A3 A4 A5 A6] _].
        cbn in A3. destruct Pv as [[Pa Pb] Pc Pd Pe Pf]. split; cbn; auto.
  Qed.

  Lemma solve_all_from ignore conds base s0 : in_order (mo_mats m) conds ->
    conductor_problem (mo_mats m) ignore (fun _ => n0) base -> mkSolver F dbg base = Ok s0 ->
    forall n k sp, (k + n = List.length conds)%nat -> ready ignore conds base s0 k sp ->
    exists sp' xs, cfold (solve_step femlib m o ignore base) (skipn k (tagged conds)) sp tt =
                ((Ok sp', tt), exports ignore (skipn k conds) xs) /\
                (forall us, sp_solutions sp = map Some us ++ repeat None (List.length conds - k) -> sp_solutions sp' = map Some (us ++ xs)) /\
                ready ignore conds base s0 (List.length conds) sp'.
  Proof.
    intros O B E0 n; induction n as [|n IH]; intros k sp L R.
    - exists sp, []. rewrite !skipn_all2 by (rewrite ?tagged_length; lia). split; [reflexivity|].
      split; [intros us Eu; rewrite Eu; replace (List.length conds - k)%nat with 0%nat by lia; cbn; now rewrite !app_nil_r|].
      now replace (List.length conds) with k by lia.
    - destruct (nth_error conds k) as [p|] eqn:Ep; [|apply nth_error_None in Ep; lia].
      assert (S1 : skipn k conds = p :: skipn (S k) conds).
      { clear -Ep. revert k Ep. induction conds as [|a l IHl]; intros [|k] E; try discriminate.
        - injection E as ->. reflexivity.
        - cbn in *. now apply IHl. }
      assert (S2 : skipn k (tagged conds) = (Z.of_nat k, p_attr p) :: skipn (S k) (tagged conds)).
      { pose proof (tagged_nth _ _ _ Ep) as Et. revert Et. generalize (tagged conds). clear. intros l.
        revert k. induction l as [|a l IHl]; intros [|k] E; try discriminate.
        - injection E as ->. reflexivity.
        - cbn [skipn]. set (i := Z.of_nat (S k)) in *. cbn [nth_error] in E.
          assert (G : forall (l : list (Z * Z)) k y, nth_error l k = Some y -> skipn k l = y :: skipn (S k) l).
          { clear. induction l as [|a l IH]; intros [|k] y E; try discriminate.
            - injection E as ->. reflexivity.
            - cbn in *. now apply IH. }
          now apply G. }
      rewrite S1, S2. destruct (solve_step_ok ignore conds base s0 k p sp O B E0 R Ep) as (sp1 & x & Es & Hx & R1).
      destruct (IH (S k) sp1) as (sp' & xs & Ef & Hxs & R'); [lia|exact R1|].
      exists sp', (x :: xs). split; [|split; [|exact R']]; [|intros us Eu; rewrite (Hxs _ (Hx us Eu)), <- app_assoc; reflexivity]. cbn [cfold]. rewrite (cbind_ok _ _ _ _ _ _ Es), Ef. reflexivity.
  Qed.

  Definition finished (ignore : bool) (conds : list (pec T)) (sp : solved T) : Prop :=
    (exists us, sp_solutions sp = map Some us /\
        Forall2 (fun p u => unit_solution F dbg (mo_mats m) ignore (p_attr p) u /\ sized F u) conds us) /\
    sized F (getSolution (sp_solver sp)) /\
    exists v, conductor_problem (mo_mats m) ignore v (s_params (sp_solver sp)).

  Lemma solveForAll_ok ignore conds : in_order (mo_mats m) conds ->
    exists sp, solveForAllConductors dbg femlib m o ignore tt = ((Ok sp, tt), exports ignore conds (stored sp)) /\
      finished ignore conds sp.
  Proof.
    intros O. unfold solveForAllConductors.
    destruct (inputs_of_model m ignore (wp_names F m W)) as (base & Eb & B).
    rewrite (cbind_lift _ _ _ _ Eb).
    destruct (mkSolver_ok F dbg base) as (s0 & Es & P & _ & _ & _ & _ & _ & Sz).
    { now apply (problem_inputs_ok F m ignore (fun _ => n0)). }
    rewrite (cbind_lift _ _ _ _ Es), (cbind_lift _ _ _ _ (in_order_conductors _ _ O)).
    destruct (solve_all_from ignore conds base s0 O B Es (List.length conds) 0
      {| sp_solver := s0; sp_solutions := repeat None (List.length (tagged conds)) |}) as (sp & xs & E & Hxs & R).
    - lia.
    - split; cbn; auto.
      + exists []. rewrite Nat.sub_0_r, tagged_length. split; [reflexivity|constructor].
      + rewrite P. repeat split; auto. now apply (mkSolver_elim_ok F dbg base).
      + rewrite P. eauto.
    - cbn [skipn] in E. exists sp.
      assert (Ex : sp_solutions sp = map Some xs) by (apply (Hxs []); cbn; now rewrite Nat.sub_0_r, tagged_length).
      rewrite (stored_some _ _ Ex). split; [exact E|]. destruct R as [(us & Su & Fu) _ Sz' Pv].
      rewrite Nat.sub_diag, app_nil_r in Su. rewrite firstn_all in Fu. split; eauto.
  Qed.

  Lemma mkDriver_ok conds : in_order (mo_mats m) conds -> conds <> [] ->
    exists d, mkDriver dbg femlib m o tt = ((Ok d, tt), exports false conds (stored (dr_el d)) ++ exports true conds (stored (dr_mag d))) /\
      dr_model d = m /\ dr_opts d = o /\ forall ignore, finished ignore conds (problem d ignore).
  Proof.
    intros O Ne. unfold mkDriver.
    assert (Ec : checkConductors m = Ok tt).
    { destruct (in_order_ids _ _ O) as (ids & C & N & L).
      destruct (nodup_all_names _ (wp_names F m W)) as (N1 & _).
      apply (checkConductors_ids m ids N1 C). split; auto. intros ->. destruct conds; [auto|discriminate]. }
    rewrite (cbind_lift _ _ _ _ Ec).
    destruct (solveForAll_ok false conds O) as (el & E1 & R1).
    destruct (solveForAll_ok true conds O) as (mg & E2 & R2).
    rewrite (cbind_ok _ _ _ _ _ _ E1), (cbind_ok _ _ _ _ _ _ E2).
    exists {| dr_model := m; dr_opts := o; dr_el := el; dr_mag := mg |}. split; [|split; [|split]].
    - cbn. now rewrite app_nil_r.
    - reflexivity.
    - reflexivity.
    - intros []; assumption.
  Qed.
End Construct.

(** ** The unit solutions are determined by the model *)
Section Unique.
  Context {T : Type} `{Num T}.
  Lemma msorted_in_ext {V} (m1 m2 : list (Z * V)) : msorted m1 -> msorted m2 ->
    (forall t x, In (t, x) m1 <-> In (t, x) m2) -> m1 = m2.
  Proof.
    intros S1 S2 E. apply msorted_ext; auto. intros k.
    destruct (mget k m1) as [v|] eqn:E1.
    - apply mget_in_iff in E1; auto. apply E in E1. symmetry. now apply mget_in_iff.
    - destruct (mget k m2) as [v|] eqn:E2; [|reflexivity]. apply mget_in_iff in E2; auto. apply E in E2.
      apply mget_in_iff in E2; auto. congruence.
  Qed.
  Lemma zmax_list_perm_le l1 l2 a1 a2 : (forall x, In x (a1 :: l1) -> In x (a2 :: l2)) ->
    (zmax_list a1 l1 <= zmax_list a2 l2)%Z.
  Proof.
    intros I. destruct (zmax_list_ge l2 a2) as [A B].
    destruct (I _ (zmax_list_in l1 a1)) as [<-|J]; auto.
  Qed.
  Lemma mark_fold_length attrs m m' : mark_fold attrs m = Ok m' -> List.length m' = List.length m.
  Proof.
    revert m; induction attrs as [|a l IH]; intros m E; [injection E as <-; reflexivity|].
    unfold mark_fold in *. cbn [foldM] in E. destruct (0 <? a)%Z; [|discriminate]. cbn [bind] in E.
    apply IH in E. now rewrite E, set_nth_true_length.
  Qed.
  Lemma marker_perm b l1 l2 : Permutation l1 l2 -> Forall (fun a => 0 < a)%Z l1 ->
    AttrToMarker b l1 = AttrToMarker b l2.
  Proof.
    intros P F1. destruct l1 as [|a1 r1].
    { apply Permutation_nil in P. now subst. }
    destruct l2 as [|a2 r2]; [apply Permutation_sym, Permutation_nil in P; discriminate|].
    assert (F2 : Forall (fun a => 0 < a)%Z (a2 :: r2)).
    { rewrite Forall_forall in *. intros x I. apply F1. eapply Permutation_in; [apply Permutation_sym; exact P|exact I]. }
    destruct (marker_positive b (a1 :: r1)) as (m1 & E1 & _ & _ & N1); [discriminate|exact F1|].
    destruct (marker_positive b (a2 :: r2)) as (m2 & E2 & _ & _ & N2); [discriminate|exact F2|].
    rewrite E1, E2. f_equal.
    assert (L : List.length m1 = List.length m2).
    { rewrite AttrToMarker_fold in E1, E2.
      - apply mark_fold_length in E1, E2. rewrite repeat_length in *. rewrite E1, E2. do 2 f_equal.
        apply Z.le_antisymm; apply zmax_list_perm_le; intros x I; (eapply Permutation_in; [|exact I]); auto.
        now apply Permutation_sym.
      - intros [= -> ->]. inversion F2; lia.
      - intros [= -> ->]. inversion F1; lia. }
    apply nth_error_ext'. intros i. destruct (nth_error m1 i) as [x|] eqn:X1.
    - destruct (nth_error m2 i) as [y|] eqn:X2.
      + f_equal. apply N1 in X1. apply N2 in X2.
        assert (Q : In (Z.of_nat i + 1)%Z (a1 :: r1) <-> In (Z.of_nat i + 1)%Z (a2 :: r2)).
        { split; intros I; (eapply Permutation_in; [|exact I]); auto. now apply Permutation_sym. }
        destruct x, y; intuition congruence.
      + apply nth_error_None in X2. assert (i < List.length m1)%nat by (apply nth_error_Some; congruence). lia.
    - symmetry. apply nth_error_None. apply nth_error_None in X1. lia.
  Qed.
  Lemma unit_solution_unique (F : fem T) dbg m ignore t x y : well_posed F m ->
    unit_solution F dbg (mo_mats m) ignore t x -> unit_solution F dbg (mo_mats m) ignore t y -> x = y.
  Proof.
    intros W (p1 & s1 & C1 & E1 & X1) (p2 & s2 & C2 & E2 & X2).
    pose proof (problem_inputs_ok F m ignore _ _ W C1) as I1.
    destruct C1 as [[A1 A2] A3 A4 A5 A6], C2 as [[B1 B2] B3 B4 B5 B6].
    assert (D : si_dirichlet p1 = si_dirichlet p2).
    { apply msorted_in_ext; auto. intros t' v. rewrite A3, B3. reflexivity. }
    assert (E : si_eps p1 = si_eps p2).
    { apply msorted_in_ext; auto. intros t' v. rewrite A6, B6. reflexivity. }
    assert (O : AttrToMarker (fe_bdrMax F) (si_open p1) = AttrToMarker (fe_bdrMax F) (si_open p2)).
    { apply marker_perm; [|apply I1]. eapply Permutation_trans; [exact A5|]. now apply Permutation_sym. }
    enough (Q : solved_fields F s1 = solved_fields F s2) by congruence.
    unfold mkSolver in E1, E2. rewrite D, E, O, A4 in E1. rewrite B4 in E2.
    apply bind_ok in E1 as (e1 & Q1 & E1), E2 as (e2 & R1 & E2).
    apply bind_ok in E1 as (e3 & Q2 & E1), E2 as (e4 & R2 & E2).
    apply bind_ok in E1 as (e5 & Q3 & E1), E2 as (e6 & R3 & E2).
    apply bind_ok in E1 as (e7 & Q4 & E1), E2 as (e8 & R4 & E2).
    injection E1 as <-. injection E2 as <-. apply same_solve; cbn; try exact I; congruence.
  Qed.
End Unique.

(** ** Calls on a driver: the part of the state that matters *)
Section Relational.
  Context {T S : Type} (R : S -> S -> Prop).
  Definition rel {A} (m m' : cmd T S A) : Prop :=
    forall d d', R d d' ->
      fst (fst (m d)) = fst (fst (m' d')) /\ snd (m d) = snd (m' d') /\
      R (snd (fst (m d))) (snd (fst (m' d'))).
  Lemma rel_ret {A} (a : A) : rel (cret a) (cret a).
  Proof. intros d d' Hr. cbn. auto. Qed.
  Lemma rel_lift {A} (x x' : outcome A) : x = x' -> rel (clift x) (clift x').
  Proof. intros -> d d' Hr. cbn. auto. Qed.
  Lemma rel_emit w : rel (cemit w) (cemit w).
  Proof. intros d d' Hr. cbn. auto. Qed.
  Lemma rel_put s s' : R s s' -> rel (cput s) (cput s').
  Proof. intros Hs d d' Hr. cbn. auto. Qed.
  Lemma rel_bind {A B} (m m' : cmd T S A) (f f' : A -> cmd T S B) :
    rel m m' -> (forall a, rel (f a) (f' a)) -> rel (cbind m f) (cbind m' f').
  Proof.
    intros Hm Hf d d' Hr. destruct (Hm d d' Hr) as (E1 & E2 & E3). unfold cbind.
    destruct (m d) as [[r s] w], (m' d') as [[r' s'] w']. cbn in *. subst r' w'.
    destruct r as [a|e|u]; cbn; auto.
    destruct (Hf a s s' E3) as (G1 & G2 & G3).
    destruct (f a s) as [[q t] v], (f' a s') as [[q' t'] v']. cbn in *. subst. auto.
  Qed.
  Lemma rel_get {B} (f f' : S -> cmd T S B) :
    (forall d d', R d d' -> rel (f d) (f' d')) -> rel (cbind cget f) (cbind cget f').
  Proof. intros Hf d d' Hr. rewrite !cbind_get. now apply Hf. Qed.
  Lemma rel_lift_bind {A B} (x x' : outcome A) (f f' : A -> cmd T S B) : x = x' ->
    (forall a, x = Ok a -> rel (f a) (f' a)) -> rel (cbind (clift x) f) (cbind (clift x') f').
  Proof.
    intros <- Hf d d' Hr. destruct x as [a|e|u].
    - rewrite !(cbind_lift (Ok a) _ _ a) by reflexivity. now apply Hf.
    - cbn. auto.
    - cbn. auto.
  Qed.
  Lemma rel_fold {A B} (f f' : B -> A -> cmd T S B) l b :
    (forall b x, rel (f b x) (f' b x)) -> rel (cfold f l b) (cfold f' l b).
  Proof.
    intros Hf; revert b; induction l as [|x l IH]; intros b; cbn; [apply rel_ret|].
    apply rel_bind; auto.
  Qed.
End Relational.

Section Calls.
  Context {T : Type} `{Num T}.
  Variable dbg : bool.
  Variable femlib : mesh T -> Z -> fem T.
  Variable moment : T * T -> nat -> nat -> T * T -> T.

  (** Two solvers that differ at most in the values of the current fields. *)
  Definition same_solver (F : fem T) (s s' : solver T) : Prop :=
    s_params s = s_params s' /\ s_ess s = s_ess s' /\ s_open s = s_open s' /\ s_eps s = s_eps s' /\
    s_sigma s = s_sigma s' /\ s_elim s = s_elim s' /\ sized F (getSolution s) /\ sized F (getSolution s').
  Definition same_solved (F : fem T) (sp sp' : solved T) : Prop :=
    sp_solutions sp = sp_solutions sp' /\ same_solver F (sp_solver sp) (sp_solver sp') /\
    forall x, In (Some x) (sp_solutions sp) -> sized F x.
  Notation Fd d := (femlib (mo_mesh (dr_model d)) (o_order (dr_opts d))).
  Definition same_driver (d d' : driver T) : Prop :=
    dr_model d = dr_model d' /\ dr_opts d = dr_opts d' /\
    forall ignore, same_solved (Fd d) (problem d ignore) (problem d' ignore).

  Lemma same_set_solver d d' ignore s s' : same_driver d d' ->
    same_solver (Fd d) s s' -> same_driver (set_solver d ignore s) (set_solver d' ignore s').
  Proof.
    intros (M & O & P) Hs. split; [exact M|split; [exact O|]]. intros i.
    pose proof (P i) as (A & B & C). destruct i, ignore; cbn in *; split; auto.
  Qed.
  Lemma get_solution_in sp i (x : solution T) : get_solution sp i = Ok x -> In (Some x) (sp_solutions sp).
  Proof.
    unfold get_solution, vec_at. destruct (i <? 0)%Z; [discriminate|].
    destruct (nth_error (sp_solutions sp) (Z.to_nat i)) as [[y|]|] eqn:E; cbn; try discriminate.
    intros [= ->]. eapply nth_error_In; eauto.
  Qed.
  Lemma same_setSolution F s s' x : same_solver F s s' -> sized F x ->
    exists r r', setSolution dbg s x = Ok r /\ setSolution dbg s' x = Ok r' /\
      r = set_fields s (so_phi x) (so_e x) (so_d x) /\ r' = r.
  Proof.
    intros (P & A & B & C & D & D' & S1 & S2) Hx.
    rewrite (setSolution_ok F dbg s x S1 Hx), (setSolution_ok F dbg s' x S2 Hx).
    eexists; eexists; split; [reflexivity|split; [reflexivity|split; [reflexivity|]]].
    unfold set_fields. now rewrite P, A, B, C, D, D'.
  Qed.
  Lemma set_fields_same F s (x : solution T) : sized F x ->
    same_solver F (set_fields s (so_phi x) (so_e x) (so_d x)) (set_fields s (so_phi x) (so_e x) (so_d x)).
  Proof. intros Hx. destruct x. repeat split; cbn; apply Hx. Qed.

  Lemma same_sym d d' : same_driver d d' -> same_driver d' d.
  Proof.
    intros (M & O & P). split; [now symmetry|split; [now symmetry|]]. intros i. destruct (P i) as (A & (B1 & B2 & B3 & B4 & B5 & B8 & B6 & B7) & C).
    rewrite <- M, <- O. split; [now symmetry|split; [repeat split; auto; apply B6 || apply B7|]]. rewrite <- A. exact C.
  Qed.
  Lemma same_trans d1 d2 d3 : same_driver d1 d2 -> same_driver d2 d3 -> same_driver d1 d3.
  Proof.
    intros (M & O & P) (M' & O' & P'). split; [congruence|split; [congruence|]]. intros i.
    destruct (P i) as (A & (B1 & B2 & B3 & B4 & B5 & B8 & B6 & B7) & C).
    destruct (P' i) as (A' & (B1' & B2' & B3' & B4' & B5' & B8' & B6' & B7') & C'). rewrite <- M, <- O in *.
    split; [congruence|split; [|exact C]]. repeat split; try congruence; apply B6 || apply B7'.
  Qed.
  Lemma same_put d0 d ignore s : same_driver d0 d -> same_solver (Fd d) (sp_solver (problem d ignore)) s ->
    same_driver d0 (set_solver d ignore s).
  Proof.
    intros H0 Hs. eapply same_trans; [exact H0|]. apply same_sym in H0 as H0'.
    assert (Hd : same_driver d d) by (eapply same_trans; [exact H0'|exact H0]).
    destruct Hd as (M & O & P). split; [exact M|split; [exact O|]]. intros i.
    destruct (P i) as (A & B & C). destruct i, ignore; cbn in *; split; auto.
  Qed.

  Variable d0 : driver T.
  Notation rl := (rel (T := T) (fun d d' => same_driver d0 d /\ same_driver d d')).

  Lemma rel_row ignore conductors C ca : rl (row_step dbg femlib ignore conductors C ca) (row_step dbg femlib ignore conductors C ca).
  Proof.
    unfold row_step. apply rel_get. intros d d' [H0 Hd]. pose proof Hd as (M & O & P).
    destruct (P ignore) as (Q1 & Q2 & Q3). rewrite <- M, <- O.
    apply rel_lift_bind.
    { unfold get_solution. now rewrite Q1. }
    intros x Ex. apply get_solution_in in Ex. apply Q3 in Ex.
    destruct (same_setSolution _ _ _ x Q2 Ex) as (r & r' & E1 & E2 & Er & Er'). subst r'.
    apply rel_lift_bind; [congruence|].
    intros s Es. assert (s = r) by congruence. subst s.
    apply rel_bind; [|intros _].
    { apply rel_put. split.
      - apply same_put; auto. rewrite Er. destruct Q2 as (? & ? & ? & ? & ? & ? & Z1 & Z2). repeat split; try apply Z1; apply Ex.
      - apply same_set_solver; auto. rewrite Er. now apply set_fields_same. }
    apply rel_lift_bind; [reflexivity|]. intros C' _.
    apply rel_lift_bind; [reflexivity|]. intros p _.
    apply rel_bind; [apply rel_emit|]. intros _. apply rel_ret.
  Qed.
  Lemma rel_gc ignore : rl (getGeneralizedCMatrix dbg femlib ignore) (getGeneralizedCMatrix dbg femlib ignore).
  Proof.
    unfold getGeneralizedCMatrix. apply rel_get. intros d d' [H0 Hd]. pose proof Hd as (M & O & P). rewrite <- M.
    apply rel_lift_bind; [reflexivity|]. intros cs _. apply rel_lift_bind; [reflexivity|]. intros o _.
    destruct (_ && _)%bool; [now apply rel_lift|].
    apply rel_bind; [|intros; apply rel_ret]. apply rel_fold. intros; apply rel_row.
  Qed.
  Lemma rel_C : rl (getCMatrix dbg femlib) (getCMatrix dbg femlib).
  Proof.
    unfold getCMatrix. apply rel_bind; [apply rel_gc|]. intros gC. apply rel_get. intros d d' [H0 (M & _)]. rewrite <- M.
    apply rel_lift_bind; [reflexivity|]. intros. apply rel_ret.
  Qed.
  Lemma rel_L : rl (getLMatrix dbg femlib) (getLMatrix dbg femlib).
  Proof.
    unfold getLMatrix. apply rel_bind; [apply rel_gc|]. intros gC. apply rel_get. intros d d' [H0 (M & _)]. rewrite <- M.
    apply rel_lift_bind; [reflexivity|]. intros. now apply rel_lift.
  Qed.
  Lemma rel_PUL : rl (getPULMTL dbg femlib) (getPULMTL dbg femlib).
  Proof.
    unfold getPULMTL, buildPULParametersForModel. apply rel_bind; [apply rel_C|]. intros.
    apply rel_bind; [apply rel_L|]. intros. apply rel_ret.
  Qed.
  Lemma rel_fpm ignore : rl (getFloatingPotentialsMatrix dbg femlib ignore) (getFloatingPotentialsMatrix dbg femlib ignore).
  Proof.
    unfold getFloatingPotentialsMatrix. apply rel_get. intros d d' [H0 (M & _)]. rewrite <- M.
    destruct (_ =? 1)%nat; [apply rel_ret|]. apply rel_lift_bind; [reflexivity|]. intros o _.
    apply rel_bind; [|intros; now apply rel_lift]. destruct o.
    - apply rel_gc.
    - now apply rel_lift.
    - apply rel_bind; [apply rel_gc|]. intros; apply rel_ret.
  Qed.
  Lemma rel_fp : rl (getFloatingPotentials dbg femlib) (getFloatingPotentials dbg femlib).
  Proof.
    unfold getFloatingPotentials. apply rel_bind; [apply rel_fpm|]. intros.
    apply rel_bind; [apply rel_fpm|]. intros. apply rel_ret.
  Qed.
  Lemma rel_bydom : rl (getPULMTLByDomains dbg femlib) (getPULMTLByDomains dbg femlib).
  Proof.
    unfold getPULMTLByDomains. apply rel_get. intros d d' [H0 (M & O & _)]. rewrite <- M, <- O.
    apply rel_lift_bind; [reflexivity|]. intros ds _. apply rel_bind.
    - apply rel_fold. intros b x s s' Hs. destruct (sub_pul dbg femlib (dr_model d) (dr_opts d) (snd x) tt) as [[r u] w].
      cbn. auto.
    - intros. apply rel_lift_bind; [reflexivity|]. intros. apply rel_ret.
  Qed.
  (** With [x * 0 = 0] the previous fields are erased before the superposition. *)
  Hypothesis mul0 : forall x : T, nmul x n0 = n0.
  Lemma gf_scale0 (l : list T) : gf_scale n0 l = repeat n0 (List.length l).
  Proof. unfold gf_scale. induction l as [|a l IH]; cbn; [reflexivity|]. now rewrite mul0, IH. Qed.
  Lemma gf_axpy_length a (x y : list T) : List.length (gf_axpy a x y) = List.length y.
  Proof. revert y; induction x as [|u x IH]; intros [|v y]; cbn; auto. Qed.
  Lemma gf_add_length (y : list T) a x : List.length (gf_add y a x) = List.length y.
  Proof. unfold gf_add. destruct (neqb a n0); auto. apply gf_axpy_length. Qed.

  Lemma superpose_sized F sp fp i l s r : sized F (getSolution s) ->
    foldM (superpose_step sp fp i) l s = Ok r ->
    sized F (getSolution r) /\ s_params r = s_params s /\ s_ess r = s_ess s /\ s_open r = s_open s /\
    s_eps r = s_eps s /\ s_sigma r = s_sigma s /\ s_elim r = s_elim s.
  Proof.
    revert s; induction l as [|cb l IH]; intros s Hs E; [injection E as <-; split; [exact Hs|repeat split]|].
    cbn [foldM] in E. apply bind_ok in E as (s1 & E1 & E). unfold superpose_step in E1.
    apply bind_ok in E1 as (a & _ & E1). apply bind_ok in E1 as (x & _ & E1).
    assert (Hs1 : sized F (getSolution s1) /\ s_params s1 = s_params s /\ s_ess s1 = s_ess s /\ s_open s1 = s_open s /\
      s_eps s1 = s_eps s /\ s_sigma s1 = s_sigma s /\ s_elim s1 = s_elim s).
    { injection E1 as <-. split; [|repeat split]. destruct Hs as (A & B & C). cbn in *.
      repeat split; cbn; rewrite gf_add_length; assumption. }
    destruct Hs1 as (H1 & H2 & H3 & H4 & H5 & H6 & H7). destruct (IH _ H1 E) as (G1 & G2 & G3 & G4 & G5 & G6 & G7).
    split; [exact G1|]. repeat split; congruence.
  Qed.
  Lemma same_superpose F sp sp' fp i l : same_solved F sp sp' ->
    superpose sp fp i l = superpose sp' fp i l /\
    forall s, superpose sp fp i l = Ok s -> sized F (getSolution s) /\ s_params s = s_params (sp_solver sp) /\
      s_ess s = s_ess (sp_solver sp) /\ s_open s = s_open (sp_solver sp) /\ s_eps s = s_eps (sp_solver sp) /\ s_sigma s = s_sigma (sp_solver sp) /\
      s_elim s = s_elim (sp_solver sp).
  Proof.
    intros (Q1 & (P & A & B & C & D & D' & S1 & S2) & Q3). unfold superpose.
    assert (E0 : set_fields (sp_solver sp) (gf_scale n0 (s_phi (sp_solver sp))) (gf_scale n0 (s_e (sp_solver sp))) (gf_scale n0 (s_d (sp_solver sp))) =
                 set_fields (sp_solver sp') (gf_scale n0 (s_phi (sp_solver sp'))) (gf_scale n0 (s_e (sp_solver sp'))) (gf_scale n0 (s_d (sp_solver sp')))).
    { destruct S1 as (L1 & L2 & L3), S2 as (L1' & L2' & L3'). cbn in *. unfold set_fields. rewrite !gf_scale0.
      rewrite L1, L2, L3, L1', L2', L3', P, A, B, C, D, D'. reflexivity. }
    rewrite <- E0. split.
    - assert (G : forall l s, foldM (superpose_step sp fp i) l s = foldM (superpose_step sp' fp i) l s).
      { induction l0 as [|cb l0 IH]; intros s; [reflexivity|]. cbn [foldM].
        assert (Es : superpose_step sp fp i s cb = superpose_step sp' fp i s cb).
        { unfold superpose_step, get_solution. now rewrite Q1. }
        rewrite <- Es. destruct (superpose_step sp fp i s cb); cbn; auto. }
      apply G.
    - intros s E. apply (superpose_sized F) in E; [exact E|].
      destruct S1 as (L1 & L2 & L3). cbn in *. repeat split; cbn; unfold gf_scale; rewrite map_length; assumption.
  Qed.
  Lemma rel_field ignore fp conductors res ca :
    rl (field_step femlib moment ignore fp conductors res ca) (field_step femlib moment ignore fp conductors res ca).
  Proof.
    unfold field_step. apply rel_get. intros d d' [H0 Hd]. pose proof Hd as (M & O & P). rewrite <- M, <- O.
    destruct (same_superpose _ _ _ fp (fst ca) conductors (P ignore)) as [E Hs].
    apply rel_lift_bind; [exact E|]. intros s Es. apply rel_bind; [|intros _].
    { apply rel_put. destruct (Hs s Es) as (S1 & S2 & S3). split.
      - apply same_put; auto. destruct (P ignore) as (_ & (? & ? & ? & ? & ? & ? & Z1 & Z2) & _).
        repeat split; try apply S1; try apply Z1; symmetry; apply S2 || apply S3.
      - apply same_set_solver; auto. repeat split; auto; apply S1. }
    apply rel_lift_bind; [reflexivity|]. intros p _. apply rel_bind; [apply rel_emit|intros _].
    do 4 (apply rel_lift_bind; [reflexivity|]; intros ? _). apply rel_ret.
  Qed.
  Lemma rel_fieldparams ignore : rl (getFieldParameters dbg femlib moment ignore) (getFieldParameters dbg femlib moment ignore).
  Proof.
    unfold getFieldParameters. apply rel_bind; [apply rel_fpm|]. intros fp. apply rel_get. intros d d' [H0 (M & _)]. rewrite <- M.
    apply rel_lift_bind; [reflexivity|]. intros cs _. apply rel_fold. intros; apply rel_field.
  Qed.
  Lemma rel_incell : rl (getInCellPotentials dbg femlib moment) (getInCellPotentials dbg femlib moment).
  Proof.
    unfold getInCellPotentials. apply rel_get. intros d d' [H0 (M & _)]. rewrite <- M.
    apply rel_lift_bind; [reflexivity|]. intros o _. destruct (negb _); [now apply rel_lift|].
    apply rel_lift_bind; [reflexivity|]. intros b _. apply rel_bind; [apply rel_fieldparams|]. intros.
    apply rel_bind; [apply rel_fieldparams|]. intros. apply rel_ret.
  Qed.
  Lemma rel_run : rl (run dbg femlib moment) (run dbg femlib moment).
  Proof.
    unfold run. apply rel_get. intros d d' [H0 (M & O & _)]. rewrite <- M, <- O.
    apply rel_lift_bind; [reflexivity|]. intros o _. destruct o.
    - apply rel_bind; [apply rel_incell|]. intros; apply rel_emit.
    - now apply rel_lift.
    - apply rel_bind; [apply rel_PUL|]. intros; apply rel_emit.
  Qed.
End Calls.
