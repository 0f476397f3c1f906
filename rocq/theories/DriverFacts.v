(** Facts about the Driver used in PropsDriver (C02, C22, C23, C50). *)
From Coq Require Import Reals Lra Permutation.
From Verif Require Import Prelude StdMap Json Materials Graph ModelM Parser Matrix Solver Domain Results Driver
  SpecInput SpecModel SpecSolver SpecDriver SpecInner ListLemmas RSum ModelProofs SolverProofs DriverProofs CallProofs.
Open Scope list_scope.

Section Construction.
  Context {T : Type} `{Num T}.

  Lemma rejected_before_solving (m : model T) ids : NoDup (map p_name (pecs (mo_mats m))) ->
    conductor_ids (mo_mats m) ids -> ~ (ids <> [] /\ numbered_from_zero ids) ->
    exists msg, forall dbg femlib o, mkDriver dbg femlib m o tt = ((Throw (RuntimeError msg), tt), []).
  Proof.
    intros ND C N. destruct (checkConductors_ids m ids ND C) as [I J].
    destruct J as [msg E]. { intros E. apply N, I, E. }
    exists msg. intros. unfold mkDriver, cbind, clift. now rewrite E.
  Qed.
  Lemma accepted_and_built (m : model T) ids dbg femlib o : well_posed (femlib (mo_mesh m) (o_order o)) m ->
    conductor_ids (mo_mats m) ids -> ids <> [] -> numbered_from_zero ids ->
    exists d, built dbg femlib m o d /\ dr_model d = m /\ dr_opts d = o /\
      forall ignore, List.length (sp_solutions (problem d ignore)) = List.length ids /\
                     forall i, In i ids -> is_ok (get_solution (problem d ignore) i).
  Proof.
    intros W C Ne N. destruct (in_order_exists _ _ C N) as (conds & O & L).
    destruct (mkDriver_ok dbg femlib m o W conds O) as (d & E & Em & Eo & Fi).
    { intros ->. destruct ids; [congruence|discriminate]. }
    exists d. split; [eexists; exact E|]. split; [exact Em|]. split; [exact Eo|]. intros ignore.
    destruct (Fi ignore) as ((us & Eu & F2) & _). apply Forall2_length in F2 as L2.
    rewrite Eu, map_length. split; [congruence|].
    intros i I. unfold numbered_from_zero in N.
    apply (Permutation_in _ N), in_map_iff in I as (k & <- & I). apply in_seq in I.
    unfold get_solution, vec_at. replace (Z.of_nat k <? 0)%Z with false by (symmetry; apply Z.ltb_ge; lia).
    rewrite Nat2Z.id, Eu, nth_error_map. destruct (nth_error us k) eqn:E2; cbn; [eexists; reflexivity|].
    apply nth_error_None in E2. lia.
  Qed.

  Lemma solution_of_conductor dbg femlib moment (m : model T) o d ops conds ignore i p :
    well_posed (femlib (mo_mesh m) (o_order o)) m -> built dbg femlib m o d -> in_order (mo_mats m) conds ->
    Forall (fun op => matrix_call op \/ forall x : T, nmul x n0 = n0) ops -> nth_error conds i = Some p ->
    exists x, nth_error (sp_solutions (problem (after dbg femlib moment ops d) ignore)) i = Some (Some x) /\
      unit_solution (femlib (mo_mesh m) (o_order o)) dbg (mo_mats m) ignore (p_attr p) x.
  Proof.
    intros W B O Fo E. destruct (built_solid _ _ _ _ _ W B) as (conds' & O' & _ & S).
    apply (after_solid dbg femlib moment m o conds' d ops Fo) in S.
    rewrite (in_order_unique _ _ _ O' O) in S. destruct S as (_ & _ & Fi).
    destruct (Fi ignore) as ((us & Eu & F2) & _). destruct (Forall2_nth _ _ _ _ _ F2 E) as (u & E2 & U & _).
    exists u. split; [|exact U]. now rewrite Eu, nth_error_map, E2.
  Qed.

  Lemma unit_solution_prescribes (F : fem T) dbg m ignore t x : well_posed F m ->
    (exists q, In q (pecs (mo_mats m)) /\ p_attr q = t) ->
    unit_solution F dbg (mo_mats m) ignore t x ->
    exists eps opn ess phi0 sig,
      so_phi x = fe_phi F eps opn ess ess phi0 sig /\ so_e x = fe_e F (so_phi x) /\ so_d x = fe_d F eps (so_e x) /\
      (forall k, In k ess <-> exists q, In q (pecs (mo_mats m)) /\ on_boundary F (p_attr q) k) /\
      List.length phi0 = fe_nH1 F /\
      forall k, (k < fe_nH1 F)%nat ->
        ((on_boundary F t k /\ forall q, In q (pecs (mo_mats m)) -> on_boundary F (p_attr q) k -> (p_attr q <= t)%Z) ->
           nth_error phi0 k = Some n1) /\
        (~ (on_boundary F t k /\ forall q, In q (pecs (mo_mats m)) -> on_boundary F (p_attr q) k -> (p_attr q <= t)%Z) ->
           nth_error phi0 k = Some n0).
  Proof.
    intros W (q0 & I0 & E0) (p & s & CP & Es & Ex).
    assert (IO := problem_inputs_ok F m ignore _ p W CP).
    destruct CP as [[Sd _] Cd _ _ _].
    assert (Ne : si_dirichlet p <> []).
    { intros E. assert (J : In (t, unit_potential t t) (si_dirichlet p)) by (apply Cd; eauto). rewrite E in J. destruct J. }
    destruct (Solve_prescribes F dbg p s (wp_fem _ _ W) IO Sd Ne Es) as (phi0 & ess & phi & Ef & Ep & He & L & Hv).
    rewrite Ef in Ex. injection Ex as <-. cbn [so_phi so_e so_d].
    exists (s_eps s), (s_open s), ess, phi0, (s_sigma s).
    split; [exact Ep|]. split; [reflexivity|]. split; [reflexivity|]. split.
    { intros k. rewrite He. split.
      - intros (t' & v & J & K). apply Cd in J as ((q & Iq & <-) & _). eauto.
      - intros (q & Iq & K). exists (p_attr q), (unit_potential t (p_attr q)). split; auto. apply Cd. eauto. }
    split; [exact L|]. intros k Lk. destruct (Hv k Lk) as (v & Ev & P).
    assert (BM : forall t', on_boundary F t' k -> (t' <= fe_bdrMax F)%Z).
    { intros t' (b & Ib & <- & _). destruct (wp_fem _ _ W) as [fb _ _ _]. rewrite Forall_forall in fb.
      specialize (fb b Ib). lia. }
    split.
    - intros [Ot Mt]. rewrite Ev. f_equal. destruct P as [(t' & J & _ & Ot' & Mx)|[_ No]].
      + apply Cd in J as ((q & Iq & <-) & ->).
        assert (A : (t <= p_attr q)%Z). { apply (Mx t (unit_potential t t)); auto. apply Cd. eauto. }
        assert (B := Mt q Iq Ot'). unfold unit_potential.
        replace (p_attr q =? t)%Z with true by (symmetry; apply Z.eqb_eq; lia). reflexivity.
      + exfalso. apply (No t (unit_potential t t)); auto. apply Cd. eauto.
    - intros Nt. rewrite Ev. f_equal. destruct P as [(t' & J & _ & Ot' & Mx)|[-> _]]; [|reflexivity].
      apply Cd in J as ((q & Iq & <-) & ->). unfold unit_potential.
      destruct (Z.eqb_spec (p_attr q) t) as [Eq|]; [|reflexivity].
      exfalso. apply Nt. rewrite Eq in *. split; [exact Ot'|].
      intros q' Iq' Oq'. apply (Mx (p_attr q') (unit_potential t (p_attr q'))); auto. apply Cd. eauto.
  Qed.

  Lemma gc_symmetric dbg femlib moment (d : driver T) ignore C w i j :
    reply dbg femlib moment (CallGeneralizedC ignore) d = (Ok (VMatrix C), w) -> ent C i j = ent C j i.
  Proof.
    unfold reply, call, cbind. destruct (getGeneralizedCMatrix dbg femlib ignore d) as [[r d'] w0] eqn:E.
    destruct r as [m0| |]; [|discriminate|discriminate]. cbn. intros E2. injection E2 as -> _.
    revert E. unfold getGeneralizedCMatrix, cbind, cget, clift.
    destruct (idToAttr_PEC _) as [cs| |]; [|discriminate|discriminate].
    destruct (determineOpenness _ _) as [op| |]; [|discriminate|discriminate].
    destruct (_ && _)%bool; [discriminate|].
    destruct (cfold _ _ _ _) as [[[M| |] d1] w1]; [|discriminate|discriminate].
    unfold cret. intros E; injection E as <- _ _. unfold symmetrize; cbn [ent].
    destruct (Nat.eqb_spec i j) as [->|Nij]; [now rewrite Nat.eqb_refl|].
    replace (j =? i)%nat with false by (symmetry; apply Nat.eqb_neq; auto).
    now rewrite (Nat.max_comm j i), (Nat.min_comm j i).
  Qed.
End Construction.

Lemma qval_charge {T} `{Num T} (dbg : bool) femlib (m : model T) o x t q :
  charge_on (femlib (mo_mesh m) (o_order o)) x t q -> qval femlib m o x t = q.
Proof.
  intros C. specialize (C {| s_params := {| si_dirichlet := []; si_neumann := []; si_open := []; si_eps := [] |};
    s_ess := []; s_open := []; s_eps := EpsConst n1; s_sigma := []; s_elim := None; s_phi := so_phi x; s_e := so_e x; s_d := so_d x |}).
  rewrite <- C; [reflexivity|]. destruct x; reflexivity.
Qed.

Open Scope R_scope.
Lemma Rmul0 : forall x : R, nmul x n0 = n0. Proof. intros x. cbn. ring. Qed.

Lemma generalized_matrix dbg femlib moment (m : model R) o d ops conds ignore op :
  well_posed (femlib (mo_mesh m) (o_order o)) m -> built dbg femlib m o d -> in_order (mo_mats m) conds ->
  determineOpenness dbg m = Ok op -> (List.length conds = 1%nat -> op <> Closed) ->
  exists C w, reply dbg femlib moment (CallGeneralizedC ignore) (after dbg femlib moment ops d) = (Ok (VMatrix C), w) /\
    nr C = List.length conds /\ nc C = List.length conds /\
    forall i j p q x y a b, nth_error conds i = Some p -> nth_error conds j = Some q ->
      unit_solution (femlib (mo_mesh m) (o_order o)) dbg (mo_mats m) ignore (p_attr p) x ->
      unit_solution (femlib (mo_mesh m) (o_order o)) dbg (mo_mats m) ignore (p_attr q) y ->
      charge_on (femlib (mo_mesh m) (o_order o)) x (p_attr q) a ->
      charge_on (femlib (mo_mesh m) (o_order o)) y (p_attr p) b ->
      ent C i j = (a + b) / 2.
Proof.
  intros W B O Eo N1. destruct (built_solid _ _ _ _ _ W B) as (conds' & O' & _ & S).
  rewrite (in_order_unique _ _ _ O' O) in S. clear conds' O'.
  apply (after_solid dbg femlib moment m o conds d ops) in S.
  2:{ apply Forall_forall. intros; right; exact Rmul0. }
  destruct (gc_ok dbg femlib m o conds O ignore _ op S Eo N1) as (us & C & d' & E & Hh & Eu & R1 & R2 & V).
  unfold reply, call. rewrite (cbind_ok _ _ _ _ _ _ E). cbn.
  exists C; eexists. split; [reflexivity|]. split; [exact R1|]. split; [exact R2|].
  intros i j p q x y a b Ei Ej Ux Uy Ca Cb.
  destruct Hh as (_ & _ & F2).
  destruct (Forall2_nth _ _ _ _ _ F2 Ei) as (u & E1 & U1 & _).
  destruct (Forall2_nth _ _ _ _ _ F2 Ej) as (v & E2 & U2 & _).
  rewrite (unit_solution_unique _ _ _ _ _ _ _ W U1 Ux) in E1.
  rewrite (unit_solution_unique _ _ _ _ _ _ _ W U2 Uy) in E2.
  assert (Li : (i < List.length conds)%nat) by (apply nth_error_Some; congruence).
  assert (Lj : (j < List.length conds)%nat) by (apply nth_error_Some; congruence).
  specialize (V i j Li Lj x y p q E1 E2 Ei Ej). rewrite V.
  apply (qval_charge dbg) in Ca, Cb. rewrite lit_half. cbn [nmul nadd RNum].
  destruct (Nat.eqb_spec i j) as [->|Nij].
  - rewrite Ei in Ej. injection Ej as <-. rewrite E1 in E2. injection E2 as <-. rewrite Ca in *. subst b. lra.
  - rewrite Ca, Cb. destruct (j <? i)%nat; lra.
Qed.

(** ** C50 *)
Lemma prefix_iff a s : prefix a s = true <-> exists b, s = (a ++ b)%string.
Proof.
  revert s; induction a as [|c a IH]; intros s; cbn.
  - split; eauto. destruct s; auto.
  - destruct s as [|c' s]; [split; [discriminate|intros [b E]; discriminate]|].
    cbn [prefix]. destruct (Ascii.ascii_dec c c') as [->|N].
    + rewrite IH. split; intros [b E]; exists b; congruence.
    + split; [discriminate|]. intros [b E]. congruence.
Qed.
Lemma contains_iff sub s : contains sub s = true <-> string_in sub s.
Proof.
  induction s as [|c s IH]; cbn [contains]; rewrite Bool.orb_true_iff, prefix_iff.
  - split.
    + intros [[b E]|]; [|discriminate]. exists EmptyString, b. exact E.
    + intros (a & b & E). left. destruct a; [|discriminate]. exists b. exact E.
  - rewrite IH. split.
    + intros [[b E]|(a & b & E)]; [exists EmptyString, b; exact E|].
      exists (String c a), b. cbn. now rewrite E.
    + intros (a & b & E). destruct a as [|c' a]; [left; exists b; exact E|].
      right. cbn in E. injection E as _ E. exists a, b. exact E.
Qed.


Lemma step_of_material m F s acc n v a : NoDup (all_names (mo_mats m)) -> material_data F s m n v a ->
  inner_step m F s acc n = Ok (fst acc + v * a, snd acc + a).
Proof.
  intros ND D. destruct (nodup_all_names _ ND) as (N1 & N2 & N3 & D1 & D2). unfold inner_step, mat_.
  destruct D as [(d & I & <- & -> & ->)|(p & I & <- & -> & ->)].
  - assert (Ht : has_tag (mo_mats m) (d_name d) (d_attr d)) by (right; right; eauto).
    apply (buildNameToAttrMap_get _ _ _ ND) in Ht. rewrite Ht. cbn [bind].
    rewrite area_dielectric by auto. cbn [bind]. unfold isDomainMaterial.
    assert (Cn : mcount (d_name d) (nameToAttr_Diel (mo_mats m)) = true).
    { apply mcount_in, keys_Diel. now apply in_map. }
    now rewrite Cn.
  - assert (Ht : has_tag (mo_mats m) (p_name p) (p_attr p)) by (left; eauto).
    apply (buildNameToAttrMap_get _ _ _ ND) in Ht. rewrite Ht. cbn [bind].
    rewrite area_conductor by auto. cbn [bind].
    now rewrite not_domain by (apply D1; now apply in_map).
Qed.
Lemma fold_inner m F s (val : string -> R * R) l : NoDup (all_names (mo_mats m)) ->
  (forall n, In n l -> material_data F s m n (fst (val n)) (snd (val n))) ->
  forall acc, foldM (inner_step m F s) l acc =
    Ok (fst acc + Rsum l (fun n => fst (val n) * snd (val n)), snd acc + Rsum l (fun n => snd (val n))).
Proof.
  intros ND. induction l as [|n l IH]; intros D acc.
  - cbn. destruct acc; cbn. now rewrite !Rplus_0_r.
  - cbn [foldM]. rewrite (step_of_material m F s acc n _ _ ND (D n (or_introl eq_refl))). cbn [bind].
    rewrite IH by (intros; apply D; now right). cbn [fst snd]. rewrite !Rsum_cons. f_equal. f_equal; ring.
Qed.
Lemma contains_false n : contains "Vacuum_" n = false <-> ~ string_in "Vacuum_" n.
Proof. rewrite <- contains_iff. destruct (contains "Vacuum_" n); split; congruence. Qed.
Lemma inner_list {T} (m : model T) conductors : NoDup (all_names (mo_mats m)) ->
  In "Vacuum_0"%string (map d_name (dielectrics (mo_mats m))) ->
  inner_materials m conductors (listMaterialsInInnerRegion m conductors).
Proof.
  intros ND V. destruct (nodup_all_names _ ND) as (N1 & N2 & N3 & D1 & D2).
  unfold listMaterialsInInnerRegion, INNER_REGION_DEFAULT_NAME. split.
  - constructor.
    + intros I. apply in_app_or in I as [I|I].
      * apply filter_In in I as [_ E]. discriminate E.
      * destruct conductors; [|destruct I]. apply keys_PEC in I. destruct (D1 _ I) as [_ X]. now apply X.
    + apply nodup_app_intro.
      * apply NoDup_filter, msorted_nodup, sorted_Diel.
      * destruct conductors; [|constructor]. apply msorted_nodup, sorted_PEC.
      * intros x I J. apply filter_In in I as [I _]. apply keys_Diel in I.
        destruct conductors; [|destruct J]. apply keys_PEC in J. destruct (D1 _ J) as [_ X]. now apply X.
  - intros n. cbn [In]. rewrite in_app_iff, filter_In, keys_Diel, Bool.negb_true_iff, contains_false.
    assert (P : In n (if conductors then map fst (nameToAttr_PEC (mo_mats m)) else []) <->
                conductors = true /\ In n (map p_name (pecs (mo_mats m)))).
    { destruct conductors; [rewrite keys_PEC; tauto|cbn; intuition discriminate]. }
    rewrite P. intuition congruence.
Qed.
Definition lookup_data (data : list (string * (R * R))) (n : string) : R * R :=
  match find (fun p => String.eqb (fst p) n) data with Some p => snd p | None => (0, 0) end.
Lemma lookup_in data n va : NoDup (map fst data) -> In (n, va) data -> lookup_data data n = va.
Proof.
  unfold lookup_data. induction data as [|[n' w] l IH]; intros N I; [destruct I|]. cbn in *. inversion N; subst.
  destruct (String.eqb_spec n' n) as [->|Ne].
  - destruct I as [E|I]; [now injection E|]. exfalso. apply H1. now apply (in_map fst) in I.
  - destruct I as [E|I]; [congruence|]. auto.
Qed.
Lemma inner_average m F s conductors data : NoDup (all_names (mo_mats m)) ->
  In "Vacuum_0"%string (map d_name (dielectrics (mo_mats m))) ->
  inner_materials m conductors (map fst data) ->
  (forall n v a, In (n, (v, a)) data -> material_data F s m n v a) ->
  getInnerRegionAveragePotential m F s conductors =
    Ok (Rsum data (fun x => fst (snd x) * snd (snd x)) / Rsum data (fun x => snd (snd x))).
Proof.
  intros ND V [Nd Id] D. destruct (inner_list m conductors ND V) as [Nl Il].
  assert (P : Permutation (listMaterialsInInnerRegion m conductors) (map fst data)).
  { apply NoDup_Permutation; auto. intros n. now rewrite Il, Id. }
  unfold getInnerRegionAveragePotential.
  assert (L : forall x, In x data -> lookup_data data (fst x) = snd x).
  { intros [n va] I. now apply lookup_in. }
  rewrite (fold_inner m F s (lookup_data data)); [|exact ND|].
  - cbn [bind fst snd]. rewrite !(Rsum_perm _ _ _ P), !Rsum_map. cbn [n0 RNum].
    rewrite !Rplus_0_l. f_equal. cbn [ndiv RNum]. f_equal; apply Rsum_ext; intros x I; now rewrite (L x I).
  - intros n I. apply (Permutation_in _ P), in_map_iff in I as ([n' [v a]] & <- & I). cbn [fst].
    rewrite (lookup_in data n' (v, a)) by auto. cbn. auto.
Qed.
Lemma weighted_between {A} (l : list A) (v a : A -> R) lo hi :
  (forall x, In x l -> 0 <= a x) -> (forall x, In x l -> lo <= v x <= hi) -> 0 < Rsum l a ->
  lo <= Rsum l (fun x => v x * a x) / Rsum l a <= hi.
Proof.
  intros Na B P. split.
  - apply Rmult_le_reg_r with (Rsum l a); auto. unfold Rdiv. rewrite Rmult_assoc, Rinv_l, Rmult_1_r by lra.
    rewrite <- Rsum_scal. apply Rsum_le. intros x I. specialize (Na x I). specialize (B x I). nra.
  - apply Rmult_le_reg_r with (Rsum l a); auto. unfold Rdiv. rewrite Rmult_assoc, Rinv_l, Rmult_1_r by lra.
    rewrite <- Rsum_scal. apply Rsum_le. intros x I. specialize (Na x I). specialize (B x I). nra.
Qed.
Lemma inner_average_between m F s conductors data lo hi v : NoDup (all_names (mo_mats m)) ->
  In "Vacuum_0"%string (map d_name (dielectrics (mo_mats m))) ->
  inner_materials m conductors (map fst data) ->
  (forall n v a, In (n, (v, a)) data -> material_data F s m n v a /\ lo <= v <= hi /\ 0 <= a) ->
  0 < Rsum data (fun x => snd (snd x)) ->
  getInnerRegionAveragePotential m F s conductors = Ok v -> lo <= v <= hi.
Proof.
  intros ND V Im D P E. rewrite (inner_average m F s conductors data ND V Im) in E.
  2:{ intros n v' a I. now apply D. }
  injection E as <-. apply weighted_between; auto; intros [n [w a]] I; destruct (D n w a I) as (_ & B & A); auto.
Qed.
