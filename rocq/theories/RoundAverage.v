(** C84: rounding errors of the area-weighted average. *)
From Coq Require Import Reals Lra Lia List Floats Permutation.
From Verif Require Import Prelude StdMap Materials ModelM Solver Driver SpecInput SpecModel SpecInner SpecDouble RSum ListLemmas ModelProofs DriverFacts DoubleFacts Rounding.
Open Scope R_scope.
Open Scope list_scope.

Section Estimate.
  Variables (u B S n W num num' den' q z : R).
  Hypotheses (U : 0 < u) (PB : 0 < B) (PS : 0 < S) (Hn : 1 <= n) (Sm : 16 * (n * u) <= 1).
  Hypothesis Bnum : Rabs num <= B * S.
  Hypothesis En : Rabs (num' - num) <= (3 * n + 3) * u * (B * S).
  Hypothesis Ed : Rabs (den' - S) <= 2 * n * u * S.
  Lemma av_den : 7 / 8 * S <= den'.
  Proof.
    assert (2 * n * u * S <= 1 / 8 * S) by (apply Rmult_le_compat_r; lra). revert Ed. unfold Rabs. destruct (Rcase_abs _); intros; lra.
  Qed.
  Lemma av_n1 : (3 * n + 3) * u <= 3 / 8.
  Proof. assert (u * 1 <= u * n) by (apply Rmult_le_compat_l; lra). lra. Qed.
  Lemma av_num' : Rabs num' <= 11 / 8 * (B * S).
  Proof.
    replace num' with ((num' - num) + num) by ring. eapply Rle_trans; [apply Rabs_triang|]. pose proof av_n1.
    assert (0 < B * S) by (apply Rmult_lt_0_compat; lra). assert ((3 * n + 3) * u * (B * S) <= 3 / 8 * (B * S)) by (apply Rmult_le_compat_r; lra). lra.
  Qed.
  Lemma av_inv : 0 < / den' <= 8 / 7 / S.
  Proof.
    pose proof av_den. split; [apply Rinv_0_lt_compat; lra|]. replace (8 / 7 / S) with (/ (7 / 8 * S)) by (field; lra). apply Rinv_le_contravar; lra.
  Qed.
  Lemma av_quot' : Rabs (num' / den') <= 2 * B.
  Proof.
    unfold Rdiv. rewrite Rabs_mult. pose proof av_num'. pose proof av_inv. rewrite (Rabs_right (/ den')) by lra.
    apply Rle_trans with (11 / 8 * (B * S) * (8 / 7 / S)); [apply Rmult_le_compat; try lra; apply Rabs_pos|].
    replace (11 / 8 * (B * S) * (8 / 7 / S)) with (11 / 7 * B) by (field; lra). lra.
  Qed.
  Lemma av_quot : Rabs (num' / den' - num / S) <= (6 * n + 4) * u * B.
  Proof.
    pose proof av_den. pose proof av_inv as I. replace (num' / den' - num / S) with ((num' - num) * / den' + num * / S * (- (den' - S)) * / den') by (field; lra).
    eapply Rle_trans; [apply Rabs_triang|]. rewrite !Rabs_mult, Rabs_Ropp, (Rabs_right (/ den')) by lra.
    assert (X1 : Rabs (num' - num) * / den' <= (3 * n + 3) * u * (B * S) * (8 / 7 / S)) by (apply Rmult_le_compat; try lra; apply Rabs_pos).
    assert (IS : 0 < / S) by now apply Rinv_0_lt_compat.
    assert (X2 : Rabs num * Rabs (/ S) <= B). { rewrite (Rabs_right (/ S)) by lra. replace B with (B * S * / S) by (field; lra). apply Rmult_le_compat_r; lra. }
    assert (X3 : Rabs num * Rabs (/ S) * Rabs (den' - S) <= B * (2 * n * u * S)).
    { apply Rmult_le_compat; try assumption; [apply Rmult_le_pos; apply Rabs_pos|apply Rabs_pos]. }
    assert (X4 : Rabs num * Rabs (/ S) * Rabs (den' - S) * / den' <= B * (2 * n * u * S) * (8 / 7 / S)).
    { apply Rmult_le_compat; try lra. repeat apply Rmult_le_pos; apply Rabs_pos. }
    replace ((3 * n + 3) * u * (B * S) * (8 / 7 / S)) with ((24 / 7 * n + 24 / 7) * (u * B)) in X1 by (field; lra).
    replace (B * (2 * n * u * S) * (8 / 7 / S)) with (16 / 7 * n * (u * B)) in X4 by (field; lra).
    assert (0 < u * B) by (apply Rmult_lt_0_compat; lra). assert (0 <= n * (u * B)) by (apply Rmult_le_pos; lra). lra.
  Qed.
  Hypothesis Eq : Rabs (z - num' / den') <= u * Rabs (num' / den') + u * B.
  Lemma average : Rabs (z - num / S) <= 8 * (n + 1) * u * B.
  Proof.
    replace (z - num / S) with ((z - num' / den') + (num' / den' - num / S)) by ring. eapply Rle_trans; [apply Rabs_triang|].
    pose proof av_quot. pose proof av_quot'. assert (u * Rabs (num' / den') <= u * (2 * B)) by (apply Rmult_le_compat_l; lra).
    assert (0 < u * B) by (apply Rmult_lt_0_compat; lra). assert (0 <= n * (u * B)) by (apply Rmult_le_pos; lra). lra.
  Qed.
End Estimate.

Lemma Rsum_const {A} (l : list A) c : Rsum l (fun _ => c) = INR (List.length l) * c.
Proof. induction l as [|x l IH]; [cbn; ring|]. rewrite Rsum_cons, IH. cbn [List.length]. rewrite S_INR. ring. Qed.

Section Average.
  Variables (l : list (float * float)) (B : R).
  Let S := Rsum l (fun w => double_value (snd w)).
  Let n := INR (List.length l).
  Let num := Rsum l (fun w => double_value (fst w) * double_value (snd w)).
  Hypotheses (Nu : forall w, In w l -> is_number (fst w) /\ is_number (snd w) /\ Rabs (double_value (fst w)) <= B /\ 0 <= double_value (snd w)).
  Hypotheses (MB : moderate B) (MS : moderate S) (Sm : 16 * (n * roundoff) <= 1).
  Let fnum := fold_left (fun s w => (s + fst w * snd w)%float) l 0%float.
  Let fden := fold_left (fun s w => (s + snd w)%float) l 0%float.
  Lemma AB : 0 < B. Proof. now apply moderate_pos. Qed.
  Lemma AS : 0 < S. Proof. now apply moderate_pos. Qed.
  Lemma An : 1 <= n.
  Proof.
    unfold n. replace 1 with (INR 1) by reflexivity. apply le_INR. pose proof AS as P. unfold S in P. clear - P. destruct l; [|cbn; lia]. exfalso. cbn in P. lra.
  Qed.
  Lemma ABS_range : / 2 ^ 800 <= B * S <= 2 ^ 800.
  Proof.
    pose proof AB. pose proof AS. destruct MB, MS. replace (2 ^ 800) with (2 ^ 400 * 2 ^ 400) by (rewrite <- pow_add; reflexivity). rewrite Rinv_mult.
    assert (0 < / 2 ^ 400) by (apply Rinv_0_lt_compat, pow_lt; lra). split; apply Rmult_le_compat; lra.
  Qed.
  Lemma Atiny : n * tiny <= roundoff * (B * S) /\ tiny <= roundoff * B.
  Proof.
    pose proof roundoff_pos as U. split.
    - apply Rle_trans with (2 ^ 53 * tiny).
      + apply Rmult_le_compat_r; [pose proof tiny_pos; lra|]. apply Rmult_le_reg_r with roundoff; [exact U|]. replace (2 ^ 53 * roundoff) with 1 by (unfold roundoff; field; pose proof (pow_lt 2 53 ltac:(lra)); lra). lra.
      + apply Rle_trans with (roundoff * / 2 ^ 800); [|apply Rmult_le_compat_l; [lra|apply ABS_range]]. unfold tiny, roundoff. rewrite <- Rinv_mult, <- pow_add.
        replace (2 ^ 53 * / 2 ^ 1075) with (/ 2 ^ 1022). * apply Rinv_le_contravar; [apply pow_lt; lra|]. apply Rle_pow; [lra|lia].
        * replace (2 ^ 1075) with (2 ^ 1022 * 2 ^ 53) by (rewrite <- pow_add; reflexivity). pose proof (pow_lt 2 1022 ltac:(lra)). pose proof (pow_lt 2 53 ltac:(lra)). field; lra.
    - apply moderate_tiny. exact MB.
  Qed.
  Lemma Ahuge c x : 0 <= x <= 2 ^ 800 -> 0 <= c <= 16 -> c * x <= huge.
  Proof.
    intros Hx Hc. rewrite huge_eq. apply Rle_trans with (2 ^ 4 * 2 ^ 800); [apply Rmult_le_compat; lra|]. rewrite <- pow_add. apply Rle_pow; [lra|lia].
  Qed.
  Lemma Aroundings : roundings (List.length l) <= 2 * n * roundoff.
  Proof. apply roundings_le. fold n. lra. Qed.
  Lemma Abound w : In w l -> Rabs (double_value (fst w) * double_value (snd w)) <= B * double_value (snd w).
  Proof. intros I. destruct (Nu w I) as (_ & _ & Hb & Hp). rewrite Rabs_mult, (Rabs_right (double_value (snd w))) by lra. apply Rmult_le_compat_r; lra. Qed.
  Lemma Amember w : In w l -> double_value (snd w) <= S.
  Proof. intros I. apply (Rsum_member l (fun w => double_value (snd w)) w I). intros y Iy. now apply Nu. Qed.
  Lemma Aproduct w : In w l -> is_number (fst w * snd w)%float /\
    Rabs (double_value (fst w * snd w)%float - double_value (fst w) * double_value (snd w)) <= roundoff * (B * double_value (snd w)) + tiny.
  Proof.
    intros I. destruct (Nu w I) as (N1 & N2 & Hb & Hp). pose proof (Abound w I) as Hm. pose proof (Amember w I) as HS. pose proof AB.
    assert (N : is_number (fst w * snd w)%float).
    { apply mul_number; try assumption. eapply Rle_trans; [exact Hm|]. apply Rle_trans with (1 * (B * S)); [rewrite Rmult_1_l; apply Rmult_le_compat_l; lra|].
      apply Ahuge; [|lra]. pose proof AS. split; [apply Rmult_le_pos; lra|apply ABS_range]. }
    split; [exact N|]. destruct (mul_value _ _ N) as (_ & _ & d & e & Hd & He & ->). set (x := double_value (fst w) * double_value (snd w)) in *.
    replace (x * (1 + d) + e - x) with (d * x + e) by ring. eapply Rle_trans; [apply Rabs_triang|]. rewrite Rabs_mult.
    assert (Rabs d * Rabs x <= roundoff * (B * double_value (snd w))) by (apply Rmult_le_compat; try apply Rabs_pos; assumption). lra.
  Qed.
  Lemma Asum_products : Rsum l (fun w => Rabs (double_value (fst w * snd w)%float - double_value (fst w) * double_value (snd w))) <= 2 * roundoff * (B * S).
  Proof.
    apply Rle_trans with (Rsum l (fun w => roundoff * B * double_value (snd w) + tiny)).
    - apply Rsum_le. intros w I. pose proof (proj2 (Aproduct w I)). lra.
    - rewrite Rsum_plus, Rsum_const, Rsum_scal. fold S n. pose proof (proj1 Atiny). lra.
  Qed.
  Lemma Asum_abs : Rsum l (fun w => Rabs (double_value (fst w * snd w)%float)) <= 5 / 4 * (B * S).
  Proof.
    apply Rle_trans with (Rsum l (fun w => Rabs (double_value (fst w * snd w)%float - double_value (fst w) * double_value (snd w)) + B * double_value (snd w))).
    - apply Rsum_le. intros w I. pose proof (Abound w I). set (x := double_value (fst w) * double_value (snd w)) in *. set (y := double_value (fst w * snd w)%float).
      replace y with ((y - x) + x) at 1 by ring. eapply Rle_trans; [apply Rabs_triang|]. lra.
    - rewrite Rsum_plus, Rsum_scal. fold S. pose proof Asum_products. pose proof roundoff_small. pose proof roundoff_pos. pose proof AB. pose proof AS. assert (0 < B * S) by (apply Rmult_lt_0_compat; lra).
      assert (2 * roundoff * (B * S) <= 1 / 4 * (B * S)) by (apply Rmult_le_compat_r; lra). lra.
  Qed.
  Lemma Abs_range : 0 <= B * S <= 2 ^ 800.
  Proof. pose proof AB. pose proof AS. split; [apply Rmult_le_pos; lra|apply ABS_range]. Qed.
  Lemma Anum : is_number fnum /\ Rabs (double_value fnum - num) <= (3 * n + 3) * roundoff * (B * S).
  Proof.
    pose proof Aroundings as Hr. pose proof Asum_abs as Ha. pose proof Abs_range as Hb.
    assert (N : is_number fnum).
    { apply (fsum_number (fun w => (fst w * snd w)%float) l 0%float); [apply zero_number|intros w I; now apply Aproduct| |].
      - lra.
      - rewrite (proj2 zero_number), Rabs_R0, Rplus_0_l. apply Rle_trans with (5 / 2 * (B * S)); [lra|]. apply Ahuge; lra. }
    split; [exact N|]. destruct (fsum_value (fun w => (fst w * snd w)%float) l 0%float N) as (_ & _ & E). fold fnum in E.
    rewrite (proj2 zero_number), Rabs_R0, !Rplus_0_l in E. set (mid := Rsum l (fun k => double_value (fst k * snd k)%float)) in *.
    assert (E2 : Rabs (mid - num) <= 2 * roundoff * (B * S)).
    { unfold mid, num. rewrite <- Rsum_minus. eapply Rle_trans; [apply Rsum_abs|]. apply Asum_products. }
    replace (double_value fnum - num) with ((double_value fnum - mid) + (mid - num)) by ring. eapply Rle_trans; [apply Rabs_triang|].
    assert (roundings (List.length l) * Rsum l (fun w => Rabs (double_value (fst w * snd w)%float)) <= 2 * n * roundoff * (5 / 4 * (B * S))).
    { apply Rmult_le_compat; [apply roundings_pos|apply Rsum_nonneg; intros; apply Rabs_pos|exact Hr|exact Ha]. }
    pose proof roundoff_pos. pose proof An. assert (0 <= roundoff * (B * S)) by (apply Rmult_le_pos; lra). assert (0 <= n * (roundoff * (B * S))) by (apply Rmult_le_pos; lra). lra.
  Qed.
  Lemma Aabs : Rsum l (fun w => Rabs (double_value (snd w))) = S.
  Proof. apply Rsum_ext. intros w I. apply Rabs_right. apply Rle_ge. now apply Nu. Qed.
  Lemma Aden : is_number fden /\ Rabs (double_value fden - S) <= 2 * n * roundoff * S.
  Proof.
    pose proof Aroundings as Hr. pose proof AS as PS.
    assert (N : is_number fden).
    { apply (fsum_number snd l 0%float); [apply zero_number|intros w I; now apply Nu| |].
      - lra.
      - rewrite (proj2 zero_number), Rabs_R0, Rplus_0_l, Aabs. apply Ahuge; [|lra]. split; [lra|]. destruct MS as (_ & H). eapply Rle_trans; [exact H|]. apply Rle_pow; [lra|lia]. }
    split; [exact N|]. destruct (fsum_value snd l 0%float N) as (_ & _ & E). fold fden in E.
    rewrite (proj2 zero_number), Rabs_R0, !Rplus_0_l, Aabs in E. eapply Rle_trans; [exact E|]. apply Rmult_le_compat_r; lra.
  Qed.
  Lemma average_double : is_number (fnum / fden)%float /\ Rabs (double_value (fnum / fden)%float - num / S) <= 8 * (n + 1) * roundoff * B.
  Proof.
    destruct Anum as (Nn & En). destruct Aden as (Nd & Ed). pose proof AB as PB. pose proof AS as PS. pose proof An as Pn. pose proof roundoff_pos as U.
    assert (Bn : Rabs num <= B * S).
    { unfold num. eapply Rle_trans; [apply Rsum_abs|]. unfold S. rewrite <- Rsum_scal. apply Rsum_le. intros w I. now apply Abound. }
    pose proof (av_den roundoff S n (double_value fden) PS Sm Ed) as Hd.
    pose proof (av_quot' roundoff B S n num (double_value fnum) (double_value fden) U PB PS Pn Sm Bn En Ed) as Hq.
    assert (N : is_number (fnum / fden)%float).
    { apply div_number; [exact Nn|lra|]. eapply Rle_trans; [exact Hq|]. apply Ahuge; [|lra]. split; [lra|]. destruct MB as (_ & H). eapply Rle_trans; [exact H|]. apply Rle_pow; [lra|lia]. }
    split; [exact N|]. destruct (div_value _ _ N Nd) as (_ & _ & d & e & Hd2 & He & E).
    apply (average roundoff B S n num (double_value fnum) (double_value fden)); try assumption.
    rewrite E. set (x := double_value fnum / double_value fden). replace (x * (1 + d) + e - x) with (d * x + e) by ring. eapply Rle_trans; [apply Rabs_triang|].
    rewrite Rabs_mult. pose proof (proj2 Atiny). assert (Rabs d * Rabs x <= roundoff * Rabs x) by (apply Rmult_le_compat_r; [apply Rabs_pos|exact Hd2]). lra.
  Qed.
End Average.

(** ** The average over the inner region *)
Lemma not_domain_f (mats : materials float) n : ~ In n (map d_name (dielectrics mats)) -> isDomainMaterial mats n = false.
Proof.
  intros N. unfold isDomainMaterial. apply Bool.not_true_iff_false. rewrite mcount_in, keys_Diel. exact N.
Qed.
Lemma step_of_computed (m : model float) F s acc n v a : NoDup (all_names (mo_mats m)) -> computed_data F s m n v a ->
  inner_step m F s acc n = Ok ((fst acc + v * a)%float, (snd acc + a)%float).
Proof.
  intros ND (Ea & D). destruct (nodup_all_names _ ND) as (N1 & N2 & N3 & D1 & D2). unfold inner_step, mat_.
  destruct D as [(d & I & <- & ->)|(p & I & <- & ->)].
  - assert (Ht : has_tag (mo_mats m) (d_name d) (d_attr d)) by (right; right; eauto).
    apply (buildNameToAttrMap_get _ _ _ ND) in Ht. rewrite Ht. cbn [bind]. rewrite Ea. cbn [bind]. unfold isDomainMaterial.
    assert (Cn : mcount (d_name d) (nameToAttr_Diel (mo_mats m)) = true).
    { apply mcount_in, keys_Diel. now apply in_map. }
    now rewrite Cn.
  - assert (Ht : has_tag (mo_mats m) (p_name p) (p_attr p)) by (left; eauto).
    apply (buildNameToAttrMap_get _ _ _ ND) in Ht. rewrite Ht. cbn [bind]. rewrite Ea. cbn [bind].
    now rewrite not_domain_f by (apply D1; now apply in_map).
Qed.
Definition looked (data : list (string * (float * float))) (n : string) : float * float :=
  match find (fun p => String.eqb (fst p) n) data with Some p => snd p | None => (0%float, 0%float) end.
Lemma looked_in data n va : NoDup (map fst data) -> In (n, va) data -> looked data n = va.
Proof.
  unfold looked. induction data as [|[n' w] l IH]; intros N I; [destruct I|]. cbn in *. inversion N; subst.
  destruct (String.eqb_spec n' n) as [->|Ne].
  - destruct I as [E|I]; [now injection E|]. exfalso. apply H1. now apply (in_map fst) in I.
  - destruct I as [E|I]; [congruence|]. auto.
Qed.
Lemma fold_computed (m : model float) F s (val : string -> float * float) l : NoDup (all_names (mo_mats m)) ->
  (forall n, In n l -> computed_data F s m n (fst (val n)) (snd (val n))) ->
  forall acc, foldM (inner_step m F s) l acc =
    Ok (fold_left (fun s w => (s + fst w * snd w)%float) (map val l) (fst acc), fold_left (fun s w => (s + snd w)%float) (map val l) (snd acc)).
Proof.
  intros ND. induction l as [|n l IH]; intros D acc.
  - cbn. now destruct acc.
  - cbn [foldM]. rewrite (step_of_computed m F s acc n _ _ ND (D n (or_introl eq_refl))). cbn [bind].
    rewrite IH by (intros; apply D; now right). reflexivity.
Qed.
Lemma inner_average_double (m : model float) F s conductors (data : list (string * (float * float))) B :
  NoDup (all_names (mo_mats m)) -> In "Vacuum_0"%string (map d_name (dielectrics (mo_mats m))) ->
  inner_materials m conductors (map fst data) ->
  (forall n v a, In (n, (v, a)) data -> computed_data F s m n v a /\ is_number v /\ is_number a /\ Rabs (double_value v) <= B /\ 0 <= double_value a) ->
  let areas := Rsum data (fun x => double_value (snd (snd x))) in
  let k := INR (List.length data) in
  moderate B -> moderate areas -> 16 * k * roundoff <= 1 ->
  exists av, getInnerRegionAveragePotential m F s conductors = Ok av /\ is_number av /\
    Rabs (double_value av - Rsum data (fun x => double_value (fst (snd x)) * double_value (snd (snd x))) / areas) <= 8 * (k + 1) * roundoff * B.
Proof.
  intros ND V [Nd Id] D areas k MB MS Sm. destruct (inner_list m conductors ND V) as [Nl Il].
  assert (P : Permutation (listMaterialsInInnerRegion m conductors) (map fst data)).
  { apply NoDup_Permutation; auto. intros n. now rewrite Il, Id. }
  set (names := listMaterialsInInnerRegion m conductors) in *.
  assert (Pd : Permutation (map (looked data) names) (map snd data)).
  { rewrite (Permutation_map (looked data) P), map_map. erewrite map_ext_in; [reflexivity|]. intros [n va] I. now apply looked_in. }
  unfold getInnerRegionAveragePotential. fold names. rewrite (fold_computed m F s (looked data) names ND).
  2:{ intros n I. apply (Permutation_in _ P), in_map_iff in I as ([n' [v a]] & <- & I). cbn [fst]. rewrite (looked_in data n' (v, a)) by auto. cbn. now apply D. }
  cbn [bind fst snd]. eexists. split; [reflexivity|]. set (l := map (looked data) names) in *.
  assert (Es : Rsum l (fun w => double_value (snd w)) = areas) by (rewrite (Rsum_perm _ _ _ Pd), Rsum_map; reflexivity).
  assert (En : Rsum l (fun w => double_value (fst w) * double_value (snd w)) = Rsum data (fun x => double_value (fst (snd x)) * double_value (snd (snd x)))) by (rewrite (Rsum_perm _ _ _ Pd), Rsum_map; reflexivity).
  assert (Ek : INR (List.length l) = k) by (rewrite (Permutation_length Pd), map_length; reflexivity).
  rewrite <- En, <- Es, <- Ek. apply average_double.
  - intros w I. apply (Permutation_in _ Pd), in_map_iff in I as ([n [v a]] & <- & I). cbn. destruct (D n v a I) as (_ & H). exact H.
  - exact MB.
  - now rewrite Es.
  - rewrite Ek. lra.
Qed.
