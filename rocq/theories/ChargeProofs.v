(** Proofs about charges, moments, averages and energy (C36-C38, C55, C56). *)
From Verif Require Import Prelude StdMap Matrix Multipole Solver SpecSolver SolverProofs RSum SpecCharge
  SpecMultipole MultipoleProofs ListLemmas.
From Coq Require Import Reals Lra.
Open Scope R_scope.
Open Scope list_scope.

Lemma dot_vscale a c x : dot a (vscale c x) = c * dot a x.
Proof. unfold vscale. revert x; induction a as [|u a IH]; intros [|v x]; cbn; try lra. rewrite IH. lra. Qed.
Lemma dot_vadd a x y : List.length x = List.length y -> dot a (vadd x y) = dot a x + dot a y.
Proof.
  unfold vadd. revert x y; induction a as [|u a IH]; intros [|v x] [|w y] L; cbn in *; try lra; try discriminate.
  injection L as L. rewrite IH by exact L. lra.
Qed.

Section Charge.
  Variable F : fem R.

  Lemma flux_form_Rsum c d : flux_form F c d = Rsum (fe_flux F) (fun q => c q * flux_at d q).
  Proof. unfold flux_form. cbn [nadd nmul n0 RNum]. rewrite fold_left_sum. cbn. unfold flux_at. lra. Qed.
  Lemma Rsum_filter {A} (l : list A) P f : Rsum (filter P l) f = Rsum l (fun x => if P x then f x else 0).
  Proof. induction l as [|x l IH]; [reflexivity|]. cbn [filter]. rewrite Rsum_cons. destruct (P x); rewrite ?Rsum_cons, IH; lra. Qed.
  Lemma total_charge_flux s : getTotalCharge F s = flux_out F (s_d s) (fun _ => true).
  Proof.
    unfold getTotalCharge, flux_out. rewrite flux_form_Rsum, Rsum_filter. apply Rsum_ext. intros q _. cbn. lra.
  Qed.
  Lemma charge_in_boundary_flux s a : getChargeInBoundary F s a = - flux_out F (s_d s) (fun t => (t =? a)%Z).
  Proof.
    unfold getChargeInBoundary, flux_out. rewrite flux_form_Rsum, Rsum_filter, <- Rsum_opp. apply Rsum_ext.
    intros q _. cbn. destruct (q_attr q =? a)%Z; lra.
  Qed.
  Lemma flux_out_tags d tags : NoDup tags ->
    Rsum tags (fun a => flux_out F d (fun t => (t =? a)%Z)) = flux_out F d (fun t => zmem t tags).
  Proof.
    intros ND. unfold flux_out. erewrite Rsum_ext; [|intros a _; apply Rsum_filter].
    rewrite Rsum_exchange, Rsum_filter. apply Rsum_ext. intros q _.
    destruct (zmem (q_attr q) tags) eqn:Z.
    - apply zmem_in in Z. etransitivity; [|apply (Rsum_single Z.eqb tags (q_attr q) (fun _ => flux_at d q) Z.eqb_eq ND Z)].
      apply Rsum_ext. intros a _.
      rewrite (Z.eqb_sym a). reflexivity.
    - apply Rsum_zero. intros a I. destruct (Z.eqb_spec (q_attr q) a); [|reflexivity]. subst a.
      apply zmem_in in I. congruence.
  Qed.
  Lemma flux_out_ext d P Q : (forall q, In q (fe_flux F) -> P (q_attr q) = Q (q_attr q)) ->
    flux_out F d P = flux_out F d Q.
  Proof. intros E. unfold flux_out. rewrite !Rsum_filter. apply Rsum_ext. intros q I. now rewrite (E q I). Qed.

  (** C36 *)
  Lemma total_charge_sum s tags : NoDup tags -> covers F tags ->
    getTotalCharge F s = - Rsum tags (getChargeInBoundary F s).
  Proof.
    intros ND Cv. rewrite <- Rsum_opp. erewrite Rsum_ext; [|intros a _; rewrite charge_in_boundary_flux, Ropp_involutive; reflexivity].
    rewrite flux_out_tags by exact ND. rewrite total_charge_flux. apply flux_out_ext.
    intros q I. symmetry. now apply zmem_in, Cv.
  Qed.

  (** C38 *)
  Lemma monopole_flux m s c : NoDup (chargedBoundaries s) ->
    getChargeMomentComponent F m s 0 0 c = - flux_out F (s_d s) (fun t => zmem t (chargedBoundaries s)).
  Proof.
    intros ND. cbn [getChargeMomentComponent nadd n0 RNum]. rewrite fold_left_sum.
    erewrite Rsum_ext; [|intros a _; apply charge_in_boundary_flux]. rewrite Rsum_opp, flux_out_tags by exact ND. lra.
  Qed.
  Lemma multipolar_shape m s order ab : getMultipolarCoefficients F m s order = Ok ab ->
    List.length ab = S order /\ forall k, (k <= order)%nat ->
      exists c, getCenterOfCharge F m s = Ok c /\
        nth_error ab k = Some (getChargeMomentComponent F m s k 0 c, getChargeMomentComponent F m s k 1 c).
  Proof.
    intros E. unfold getMultipolarCoefficients in E. apply bind_ok in E as (c & Ec & E).
    remember (seq 0 (S order)) as sq eqn:Esq. injection E as <-. subst sq.
    rewrite map_length, seq_length. split; [reflexivity|]. intros k L. exists c. split; [exact Ec|].
    rewrite nth_error_map. rewrite nth_error_nth' with (d := 0%nat) by (rewrite seq_length; lia).
    rewrite seq_nth by lia. reflexivity.
  Qed.
  Lemma multipolar_first m s order ab : getMultipolarCoefficients F m s order = Ok ab ->
    NoDup (chargedBoundaries s) ->
    List.length ab = S order /\
    nth_error ab 0 = Some (- flux_out F (s_d s) (fun t => zmem t (chargedBoundaries s)), 0) /\
    forall dbg, expansion_assert dbg ab = Ok tt.
  Proof.
    intros E ND. destruct (multipolar_shape _ _ _ _ E) as [L H]. destruct (H 0%nat) as (c & Ec & Hn); [lia|].
    split; [exact L|]. rewrite monopole_flux in Hn by exact ND. split; [exact Hn|].
    intros dbg. destruct ab as [|c0 ab]; [discriminate|]. injection Hn as ->. cbn. unfold assert_, Reqb.
    destruct (Req_EM_T 0 0); [|lra]. cbn. now rewrite andb_false_r.
  Qed.
  Lemma moment_linear m s n k c d1 d2 a b : List.length d1 = List.length d2 ->
    getChargeMomentComponent F m (with_d s (vadd (vscale a d1) (vscale b d2))) n k c =
    a * getChargeMomentComponent F m (with_d s d1) n k c + b * getChargeMomentComponent F m (with_d s d2) n k c.
  Proof.
    intros L.
    assert (Lin : forall f, flux_form F f (vadd (vscale a d1) (vscale b d2)) = a * flux_form F f d1 + b * flux_form F f d2).
    { intros f. rewrite !flux_form_Rsum, <- !Rsum_scal, <- Rsum_plus. apply Rsum_ext. intros q _. unfold flux_at.
      rewrite dot_vadd by (unfold vscale; now rewrite !map_length). rewrite !dot_vscale. lra. }
    destruct n as [|n].
    - destruct k as [|k]; cbn [getChargeMomentComponent]; [|cbn; lra].
      cbn [nadd n0 RNum]. rewrite !fold_left_sum, !Rplus_0_l.
      change (chargedBoundaries (with_d s (vadd (vscale a d1) (vscale b d2)))) with (chargedBoundaries s).
      change (chargedBoundaries (with_d s d1)) with (chargedBoundaries s).
      change (chargedBoundaries (with_d s d2)) with (chargedBoundaries s).
      rewrite <- !Rsum_scal, <- Rsum_plus. apply Rsum_ext. intros t _. unfold getChargeInBoundary. cbn [with_d set_fields s_d]. apply Lin.
    - cbn [getChargeMomentComponent with_d set_fields s_d]. apply Lin.
  Qed.

  (** C37 *)
  Lemma moment1 p c : momentComponent p 1 0 c = fst p - fst c /\ momentComponent p 1 1 c = snd p - snd c.
  Proof.
    destruct (moment_pow p 1 c) as [A B]; [lia|]. rewrite A, B. cbn. split; field.
  Qed.
  Lemma first_moment_shift s k c :
    getChargeMomentComponent F momentComponent s 1 k c =
    getChargeMomentComponent F momentComponent s 1 k (0, 0) +
    (match k with O => fst c | _ => snd c end) * flux_out F (s_d s) (fun t => zmem t (chargedBoundaries s)).
  Proof.
    cbn [getChargeMomentComponent]. rewrite !flux_form_Rsum. unfold flux_out.
    rewrite Rsum_filter, <- Rsum_scal, <- Rsum_plus. apply Rsum_ext. intros q _.
    destruct (zmem (q_attr q) (chargedBoundaries s)); [|cbn; destruct k; lra]. cbn [nopp nmul n1 RNum].
    destruct k as [|k].
    - destruct (moment1 (q_pos q) c) as [-> _], (moment1 (q_pos q) (0, 0)) as [-> _]. cbn. lra.
    - assert (E : forall c', momentComponent (q_pos q) 1 (S k) c' = momentComponent (q_pos q) 1 1 c') by reflexivity.
      rewrite !E. destruct (moment1 (q_pos q) c) as [_ ->], (moment1 (q_pos q) (0, 0)) as [_ ->]. cbn. lra.
  Qed.
  Lemma dipole_vanishes s opn order ab : si_open (s_params s) = [opn] -> ~ In opn (chargedBoundaries s) ->
    covers F (opn :: chargedBoundaries s) -> flux_out F (s_d s) (fun _ => true) = 0 ->
    flux_out F (s_d s) (fun t => (t =? opn)%Z) <> 0 -> (0 < order)%nat ->
    getMultipolarCoefficients F momentComponent s order = Ok ab ->
    nth_error ab 1 = Some (0, 0).
  Proof.
    intros Ho Nin Cv Ht Hne L E. destruct (multipolar_shape _ _ _ _ E) as [_ H].
    destruct (H 1%nat) as (c & Ec & ->); [lia|]. f_equal.
    assert (Sp : flux_out F (s_d s) (fun t => zmem t (chargedBoundaries s)) = - flux_out F (s_d s) (fun t => (t =? opn)%Z)).
    { enough (flux_out F (s_d s) (fun t => zmem t (chargedBoundaries s)) + flux_out F (s_d s) (fun t => (t =? opn)%Z)
              = flux_out F (s_d s) (fun _ => true)) by lra.
      unfold flux_out. rewrite !Rsum_filter, <- Rsum_plus. apply Rsum_ext. intros q I. specialize (Cv q I).
      destruct (Z.eqb_spec (q_attr q) opn) as [Eo|No].
      - destruct (zmem (q_attr q) (chargedBoundaries s)) eqn:Z; [|lra]. apply zmem_in in Z. rewrite Eo in Z. contradiction.
      - destruct Cv as [Ce|Cc]; [congruence|]. apply zmem_in in Cc. rewrite Cc. lra. }
    unfold getCenterOfCharge in Ec. rewrite Ho in Ec.
    apply (f_equal (fun o => match o with Ok c => c | _ => (0, 0) end)) in Ec. cbv beta iota in Ec. subst c.
    rewrite total_charge_flux, charge_in_boundary_flux, Ht.
    cbn [nsub ndiv n0 RNum].
    match goal with |- (getChargeMomentComponent _ _ _ _ _ ?c, _) = _ => rewrite (first_moment_shift s 0 c), (first_moment_shift s 1 c) end.
    rewrite Sp. cbn [fst snd].
    f_equal; field; lra.
  Qed.

  (** C55 *)
  Lemma h1_form_Rsum pts a phi : h1_form pts a phi =
    Rsum (filter (fun q : Z * list R => (fst q =? a)%Z) pts) (fun q => dot (snd q) phi).
  Proof.
    unfold h1_form. cbn [nadd nmul n0 n1 RNum]. rewrite fold_left_sum, Rsum_filter, Rplus_0_l. apply Rsum_ext.
    intros q _. destruct (fst q =? a)%Z; lra.
  Qed.
  Lemma repeat_vscale c n : repeat c n = vscale c (repeat 1 n).
  Proof. induction n as [|n IH]; cbn; [reflexivity|]. rewrite IH. f_equal. lra. Qed.
  Lemma h1_const pts a c n : h1_form pts a (repeat c n) = c * h1_form pts a (repeat 1 n).
  Proof.
    rewrite !h1_form_Rsum, repeat_vscale, <- Rsum_scal. apply Rsum_ext. intros q _. apply dot_vscale.
  Qed.
  Lemma h1_linear pts a x y b c : List.length x = List.length y ->
    h1_form pts a (vadd (vscale b x) (vscale c y)) = b * h1_form pts a x + c * h1_form pts a y.
  Proof.
    intros L. rewrite !h1_form_Rsum, <- !Rsum_scal, <- Rsum_plus. apply Rsum_ext. intros q _.
    rewrite dot_vadd by (unfold vscale; now rewrite !map_length). now rewrite !dot_vscale.
  Qed.
  Lemma dot_local w x y : List.length x = List.length y ->
    (forall k, nth k w 0 <> 0 -> nth k x 0 = nth k y 0) -> dot w x = dot w y.
  Proof.
    revert x y; induction w as [|u w IH]; intros [|v x] [|v' y] L E; cbn in *; try discriminate; auto.
    rewrite (IH x y); [|congruence|intros k; apply (E (S k))].
    destruct (Req_dec u 0) as [->|N]; [lra|]. rewrite (E 0%nat) by exact N. reflexivity.
  Qed.
  Lemma h1_local pts a x y : List.length x = List.length y ->
    (forall w k, In (a, w) pts -> nth k w 0 <> 0 -> nth k x 0 = nth k y 0) ->
    h1_form pts a x = h1_form pts a y.
  Proof.
    intros L E. rewrite !h1_form_Rsum. apply Rsum_ext. intros [t w] I. apply filter_In in I as [I Et].
    cbn in *. apply Z.eqb_eq in Et. subst t. apply dot_local; auto. intros k. now apply E.
  Qed.
  Lemma h1_bounds pts a x lo hi : (forall w k, In (a, w) pts -> 0 <= nth k w 0) ->
    (forall v, In v x -> lo <= v <= hi) ->
    lo * h1_form pts a (repeat 1 (List.length x)) <= h1_form pts a x <= hi * h1_form pts a (repeat 1 (List.length x)).
  Proof.
    intros W B. rewrite <- !h1_const, !h1_form_Rsum.
    assert (D : forall w c, (forall k, 0 <= nth k w 0) ->
      (forall v, In v x -> c <= v) -> dot w (repeat c (List.length x)) <= dot w x).
    { clear. induction x as [|v x IH]; intros w c Hw Hx; destruct w as [|u w]; cbn; try lra.
      assert (H1 := Hw 0%nat). assert (H2 := Hx v (or_introl eq_refl)). cbn in H1.
      assert (H3 := IH w c (fun k => Hw (S k)) (fun v' I => Hx v' (or_intror I))). nra. }
    assert (D' : forall w c, (forall k, 0 <= nth k w 0) ->
      (forall v, In v x -> v <= c) -> dot w x <= dot w (repeat c (List.length x))).
    { clear. induction x as [|v x IH]; intros w c Hw Hx; destruct w as [|u w]; cbn; try lra.
      assert (H1 := Hw 0%nat). assert (H2 := Hx v (or_introl eq_refl)). cbn in H1.
      assert (H3 := IH w c (fun k => Hw (S k)) (fun v' I => Hx v' (or_intror I))). nra. }
    split; apply Rsum_le; intros [t w] I; apply filter_In in I as [I Et]; cbn in *; apply Z.eqb_eq in Et; subst t;
      [apply D|apply D']; intros; try (now apply (W w)); now apply B.
  Qed.

  (** C56 *)
  Lemma eps_fold (perm : list (Z * R)) i y : NoDup (map fst perm) ->
    fold_left (fun y ae => if (fst ae =? Z.of_nat i + 1)%Z then nmul y (snd ae) else y) perm y =
    y * eps_of perm (Z.of_nat i + 1).
  Proof.
    revert y; induction perm as [|[t x] perm IH]; intros y ND; cbn.
    - lra.
    - cbn in ND. inversion ND as [|? ? N1 N2]; subst. rewrite IH by exact N2. unfold eps_of. cbn.
      destruct (Z.eqb_spec t (Z.of_nat i + 1)) as [E|E]; [|reflexivity].
      destruct (find (fun ae => (fst ae =? Z.of_nat i + 1)%Z) perm) as [ae|] eqn:Ef; [|cbn; lra].
      apply find_some in Ef as [I Ef]. apply Z.eqb_eq in Ef. exfalso. apply N1. rewrite E, <- Ef. now apply in_map.
  Qed.
  Lemma energy_formula s : NoDup (map fst (si_eps (s_params s))) ->
    Forall (fun ae => 0 < fst ae <= fe_domMax F)%Z (si_eps (s_params s)) -> energy_tags_ok F ->
    getTotalEnergy F s = Ok (energy_spec F (si_eps (s_params s)) (s_e s)).
  Proof.
    intros ND Fa Ht. unfold getTotalEnergy.
    destruct (build_eps_fold false (si_eps (s_params s)) (repeat n1 (Z.to_nat (fe_domMax F)))) as (v & E & L & N).
    { eapply Forall_impl; [|exact Fa]. cbn. intros a Ha. rewrite repeat_length. lia. }
    cbn [assert_ andb bind] in E.
    change (foldM (fun v0 ae => scale_at v0 (fst ae - 1) (snd ae)) (si_eps (s_params s)) (repeat n1 (Z.to_nat (fe_domMax F))) = Ok v) in E.
    rewrite E. cbn [bind]. rewrite repeat_length in L.
    assert (W : forall a l, (forall y, In y l -> (0 < y_attr y <= fe_domMax F)%Z) ->
      foldM (fun a y => let* eps := vec_at v (y_attr y - 1) in
               let ex := dot (y_x y) (s_e s) in let ey := dot (y_y y) (s_e s) in
               Ok (nadd a (nmul (nmul (y_weight y) eps) (nadd (nmul ex ex) (nmul ey ey))))) l a =
      Ok (a + Rsum l (fun y => y_weight y * eps_of (si_eps (s_params s)) (y_attr y) *
                               (dot (y_x y) (s_e s) ^ 2 + dot (y_y y) (s_e s) ^ 2)))).
    { intros a l; revert a; induction l as [|y l IH]; intros a Hl; cbn [foldM]; [f_equal; cbn; lra|].
      assert (Hy := Hl y (or_introl eq_refl)).
      assert (Ey : vec_at v (y_attr y - 1) = Ok (eps_of (si_eps (s_params s)) (y_attr y))).
      { unfold vec_at. destruct (Z.ltb_spec (y_attr y - 1) 0); [lia|].
        rewrite (N _ 1).
        - rewrite eps_fold by exact ND. replace (Z.of_nat (Z.to_nat (y_attr y - 1)) + 1)%Z with (y_attr y) by lia. f_equal. apply Rmult_1_l.
        - rewrite nth_error_nth' with (d := 1) by (rewrite repeat_length; lia). f_equal. apply nth_repeat. }
      rewrite Ey. cbn [bind]. rewrite IH by (intros; apply Hl; now right). f_equal. rewrite Rsum_cons. cbn [nadd nmul RNum]. cbn [pow]. lra. }
    rewrite W by exact Ht. cbn [bind]. unfold energy_spec. rewrite lit_half. f_equal. cbn [nmul n0 RNum]. lra.
  Qed.
  Lemma energy_nonneg eps e : Forall (fun ae => 0 < snd ae) eps -> (forall y, In y (fe_energy F) -> 0 <= y_weight y) ->
    0 <= energy_spec F eps e.
  Proof.
    intros Fa Hw. unfold energy_spec. apply Rmult_le_pos; [lra|]. apply Rsum_nonneg. intros y I.
    assert (P : 0 < eps_of eps (y_attr y)).
    { unfold eps_of. destruct (find _ eps) as [ae|] eqn:Ef; [|lra]. apply find_some in Ef as [If _].
      rewrite Forall_forall in Fa. now apply Fa. }
    apply Rmult_le_pos; [apply Rmult_le_pos; [now apply Hw|lra]|]. nra.
  Qed.
  Lemma energy_scale eps c e : energy_spec F eps (vscale c e) = c ^ 2 * energy_spec F eps e.
  Proof.
    unfold energy_spec. rewrite <- !Rsum_scal.
    apply Rsum_ext. intros y _. rewrite !dot_vscale. ring.
  Qed.
  Lemma energy_eps eps c e : (forall y, In y (fe_energy F) -> In (y_attr y) (map fst eps)) ->
    energy_spec F (map (fun ae => (fst ae, c * snd ae)) eps) e = c * energy_spec F eps e.
  Proof.
    intros Hc. unfold energy_spec. rewrite <- !Rsum_scal.
    apply Rsum_ext. intros y I. specialize (Hc y I).
    assert (E : eps_of (map (fun ae => (fst ae, c * snd ae)) eps) (y_attr y) = c * eps_of eps (y_attr y)).
    { clear I. unfold eps_of. induction eps as [|[t x] eps IH]; [destruct Hc|]. cbn in *.
      destruct (Z.eqb_spec t (y_attr y)); [reflexivity|]. apply IH. destruct Hc; [congruence|auto]. }
    rewrite E. ring.
  Qed.
  Lemma multipolar_defined m s order :
    (exists opn, si_open (s_params s) = [opn]) <-> is_ok (getMultipolarCoefficients F m s order).
  Proof.
    unfold getMultipolarCoefficients, getCenterOfCharge. split.
    - intros [o ->]. eexists. reflexivity.
    - intros [ab E]. destruct (si_open (s_params s)) as [|o [|o2 r]]; try discriminate. eauto.
  Qed.
  Lemma average_const s t c : s_phi s = repeat c (fe_nH1 F) ->
    (h1_form (fe_domPhi F) t (repeat 1 (fe_nH1 F)) <> 0 -> getAveragePotentialInDomain F s t = c) /\
    (h1_form (fe_bdrPhi F) t (repeat 1 (fe_nH1 F)) <> 0 -> getAveragePotentialInBoundary F s t = c).
  Proof.
    intros E. unfold getAveragePotentialInDomain, getAveragePotentialInBoundary. rewrite E.
    rewrite (h1_const (fe_domPhi F) t c), (h1_const (fe_bdrPhi F) t c).
    cbn [ndiv n1 RNum]. split; intros N; field; exact N.
  Qed.
  Lemma average_linear s t b c x y : List.length x = List.length y ->
    getAveragePotentialInDomain F (with_phi s (vadd (vscale b x) (vscale c y))) t =
      b * getAveragePotentialInDomain F (with_phi s x) t + c * getAveragePotentialInDomain F (with_phi s y) t /\
    getAveragePotentialInBoundary F (with_phi s (vadd (vscale b x) (vscale c y))) t =
      b * getAveragePotentialInBoundary F (with_phi s x) t + c * getAveragePotentialInBoundary F (with_phi s y) t.
  Proof.
    intros L. unfold getAveragePotentialInDomain, getAveragePotentialInBoundary. cbn [with_phi set_fields s_phi ndiv RNum].
    rewrite !h1_linear by exact L. unfold Rdiv. split; ring.
  Qed.
  Lemma average_local s t x y : List.length x = List.length y ->
    ((forall w k, In (t, w) (fe_domPhi F) -> nth k w 0 <> 0 -> nth k x 0 = nth k y 0) ->
     getAveragePotentialInDomain F (with_phi s x) t = getAveragePotentialInDomain F (with_phi s y) t) /\
    ((forall w k, In (t, w) (fe_bdrPhi F) -> nth k w 0 <> 0 -> nth k x 0 = nth k y 0) ->
     getAveragePotentialInBoundary F (with_phi s x) t = getAveragePotentialInBoundary F (with_phi s y) t).
  Proof.
    intros L. unfold getAveragePotentialInDomain, getAveragePotentialInBoundary. cbn [with_phi set_fields s_phi].
    split; intros E; now rewrite (h1_local _ _ _ _ L E).
  Qed.
  Lemma dot_ones_nonneg w n : (forall k, 0 <= nth k w 0) -> 0 <= dot w (repeat 1 n).
  Proof.
    revert n; induction w as [|u w IH]; intros [|n] Hw; cbn; try lra.
    assert (H0 := Hw 0%nat). cbn in H0. specialize (IH n (fun k => Hw (S k))). lra.
  Qed.
  Lemma dot_ones_pos w n k : (forall k, 0 <= nth k w 0) -> (k < n)%nat -> 0 < nth k w 0 -> 0 < dot w (repeat 1 n).
  Proof.
    revert n k; induction w as [|u w IH]; intros [|n] k Hw L P; cbn; try lia; [destruct k; cbn in P; lra|].
    assert (H0 := Hw 0%nat). cbn in H0. pose proof (dot_ones_nonneg w n (fun k => Hw (S k))).
    destruct k as [|k]; cbn in P; [lra|]. specialize (IH n k (fun k => Hw (S k))). assert (k < n)%nat by lia.
    specialize (IH H1 P). lra.
  Qed.
  Lemma Rsum_pos {A} (l : list A) f x : (forall y, In y l -> 0 <= f y) -> In x l -> 0 < f x -> 0 < Rsum l f.
  Proof.
    induction l as [|y l IH]; intros Hn I P; [destruct I|]. rewrite Rsum_cons.
    assert (0 <= f y) by (apply Hn; now left).
    assert (0 <= Rsum l f) by (apply Rsum_nonneg; intros; apply Hn; now right).
    destruct I as [->|I]; [lra|]. assert (0 < Rsum l f) by (apply IH; auto; intros; apply Hn; now right). lra.
  Qed.
  Lemma area_positive n pts t : (forall w k, In (t, w) pts -> 0 <= nth k w 0) ->
    (exists w k, In (t, w) pts /\ (k < n)%nat /\ 0 < nth k w 0) -> h1_form pts t (repeat 1 n) <> 0.
  Proof.
    intros Hw (w & k & I & L & P). apply Rgt_not_eq, Rlt_gt. rewrite h1_form_Rsum.
    apply (Rsum_pos _ _ (t, w)).
    - intros [t' w'] I'. apply filter_In in I' as [I' E]. cbn in *. apply Z.eqb_eq in E. subst t'.
      apply dot_ones_nonneg. intros; now apply Hw.
    - apply filter_In. split; [exact I|]. apply Z.eqb_refl.
    - cbn. apply (dot_ones_pos w n k); auto.
  Qed.
  Lemma average_between s t lo hi : List.length (s_phi s) = fe_nH1 F ->
    (forall v, In v (s_phi s) -> lo <= v <= hi) ->
    (forall w k, In (t, w) (fe_domPhi F) -> 0 <= nth k w 0) ->
    h1_form (fe_domPhi F) t (repeat 1 (fe_nH1 F)) <> 0 ->
    lo <= getAveragePotentialInDomain F s t <= hi.
  Proof.
    intros L B W N. destruct (h1_bounds (fe_domPhi F) t (s_phi s) lo hi W B) as [A1 A2]. rewrite L in *.
    unfold getAveragePotentialInDomain. cbn [ndiv n1 RNum] in *.
    assert (P : 0 < h1_form (fe_domPhi F) t (repeat 1 (fe_nH1 F))).
    { enough (0 <= h1_form (fe_domPhi F) t (repeat 1 (fe_nH1 F))) by lra. rewrite h1_form_Rsum.
      apply Rsum_nonneg. intros [t' w'] I'. apply filter_In in I' as [I' E]. cbn in *. apply Z.eqb_eq in E. subst t'.
      apply dot_ones_nonneg. intros; now apply W. }
    split; [apply (Rmult_le_reg_r _ _ _ P)|apply (Rmult_le_reg_r _ _ _ P)]; unfold Rdiv; rewrite Rmult_assoc, Rinv_l, Rmult_1_r; lra.
  Qed.
  Lemma total_energy_nonneg s w :
    Forall (fun ae => 0 < snd ae) (si_eps (s_params s)) ->
    Forall (fun ae => 0 < fst ae <= fe_domMax F)%Z (si_eps (s_params s)) ->
    NoDup (map fst (si_eps (s_params s))) -> energy_tags_ok F ->
    (forall y, In y (fe_energy F) -> 0 <= y_weight y) ->
    getTotalEnergy F s = Ok w -> 0 <= w.
  Proof.
    intros Fp Fa ND Ht Hw E. rewrite energy_formula in E by auto. injection E as <-. now apply energy_nonneg.
  Qed.
  Lemma total_energy_scale s c w : NoDup (map fst (si_eps (s_params s))) ->
    Forall (fun ae => 0 < fst ae <= fe_domMax F)%Z (si_eps (s_params s)) -> energy_tags_ok F ->
    getTotalEnergy F s = Ok w -> getTotalEnergy F (with_e s (vscale c (s_e s))) = Ok (c ^ 2 * w).
  Proof.
    intros ND Fa Ht E. rewrite energy_formula in E by auto. injection E as <-.
    rewrite energy_formula by auto. cbn [with_e set_fields s_params s_e]. now rewrite energy_scale.
  Qed.
  Lemma total_energy_eps s s2 c w : NoDup (map fst (si_eps (s_params s))) ->
    Forall (fun ae => 0 < fst ae <= fe_domMax F)%Z (si_eps (s_params s)) -> energy_tags_ok F ->
    (forall y, In y (fe_energy F) -> In (y_attr y) (map fst (si_eps (s_params s)))) ->
    si_eps (s_params s2) = map (fun ae => (fst ae, c * snd ae)) (si_eps (s_params s)) ->
    s_e s2 = s_e s ->
    getTotalEnergy F s = Ok w -> getTotalEnergy F s2 = Ok (c * w).
  Proof.
    intros ND Fa Ht Hc Ee Es E. rewrite energy_formula in E by auto. injection E as <-.
    rewrite energy_formula; [|rewrite Ee, map_map; exact ND| |exact Ht].
    - rewrite Ee, Es, energy_eps by exact Hc. reflexivity.
    - rewrite Ee. apply Forall_forall. intros ae I. apply in_map_iff in I as (ae' & <- & I). cbn.
      rewrite Forall_forall in Fa. now apply Fa.
  Qed.
End Charge.
