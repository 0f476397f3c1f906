(** Energy and change of the unit of length (C62, C63). *)
From Coq Require Import Reals Lra Permutation.
From Verif Require Import Prelude StdMap Materials Graph ModelM Parser Matrix Solver Fem Domain Results Driver RSum LinAlg ListLemmas
  SpecSolver SpecCharge SpecModel SpecDriver SpecMatrix SpecField SpecFem DriverProofs CallProofs DriverFacts MatrixProofs MatrixCalls MatrixFacts
  SolverProofs ChargeProofs FieldProofs FemProofs FemCalls FemFacts FemModel FemLaws FemDriver FemMatrix.
Open Scope R_scope.
Open Scope list_scope.

Lemma Rsum_Forall2 {A B} (P : A -> B -> Prop) l l' (f : A -> R) (g : B -> R) : Forall2 P l l' ->
  (forall a b, In a l -> P a b -> f a = g b) -> Rsum l f = Rsum l' g.
Proof.
  intros Fo. induction Fo as [|a b l l' H Fo IH]; intros E; [reflexivity|]. rewrite !Rsum_cons, (E a b (or_introl eq_refl) H), IH; auto.
  intros. apply E; auto. now right.
Qed.

Section Energy.
  Variable abc : R * R -> R.
  Variable D : discretization R.
  Notation F := (discretize abc D).
  Variable dbg : bool.
  Variable m : model R.
  Hypothesis W : well_posed F m.
  Hypothesis Rm : regular_model abc D m.
  Notation mats := (mo_mats m).
  Let OK : tables_ok D := rm_tables _ _ _ Rm.
  Lemma energy_work ignore v s : openBoundaries mats = [] -> same_quadrature D ->
    conductor_problem mats ignore v (s_params s) -> computes abc D dbg (s_params s) (getSolution s) ->
    getTotalEnergy F s = Ok (/ 2 * work abc D (s_params s) (s_phi s) (s_phi s)).
  Proof.
    intros Eo Sq Cp Cx. destruct (model_problem abc D m W Rm ignore v _ Cp) as (Hp & An).
    destruct Sq as [Ty Sq]. change (energy_tags_ok F) in Ty.
    rewrite (energy_formula F s); auto.
    2:{ apply msorted_nodup, (cp_sorted _ _ _ _ Cp). }
    2:{ exact (io_eps F _ (po_inputs _ _ _ Hp)). }
    f_equal. unfold energy_spec. f_equal. unfold work.
    assert (Op : open_points D (s_params s) = []).
    { unfold open_points. assert (E : si_open (s_params s) = []).
      { pose proof (cp_open _ _ _ _ Cp) as Q. rewrite Eo in Q. now apply Permutation_sym, Permutation_nil in Q. }
      rewrite E. clear. induction (di_abc D); cbn; auto. }
    rewrite Op, Rsum_nil, Rplus_0_r. change (fe_energy F) with (di_energy D).
    pose proof (e_of_phi abc D OK dbg _ _ Hp Cx) as Ee. unfold is_minus_gradient in Ee. cbn [getSolution so_e so_phi] in Ee.
    assert (Lp : potential D (s_phi s)).
    { destruct (minimal abc D OK dbg _ _ Hp An Cx) as (_ & _ & L & _). exact L. }
    rewrite Ee. refine (eq_trans _ (Sq (s_phi s) (eps_of (si_eps (s_params s))) Lp)). apply Rsum_ext. intros y _. cbn zeta. ring.
  Qed.
End Energy.

(** ** Change of the unit of length *)
Section Scale.
  Variable abc abc' : R * R -> R.
  Variable D D' : discretization R.
  Variable s : R.
  Hypothesis Ps : 0 < s.
  Hypothesis Rs : rescaled s D D'.
  Variable dbg dbg' : bool.
  Variable m m' : model R.
  Hypothesis W : well_posed (discretize abc D) m.
  Hypothesis W' : well_posed (discretize abc' D') m'.
  Hypothesis Rm : regular_model abc D m.
  Hypothesis Rm' : regular_model abc' D' m'.
  Hypothesis Em : mo_mats m' = mo_mats m.
  Hypothesis Ab : openBoundaries (mo_mats m) = [] \/ forall x y, abc' (s * x, s * y) = abc (x, y) / s.

  Lemma shrunk_dot (a a' x : list R) : shrunk s a a' -> dot a' x = dot a x / s.
  Proof.
    intros ->. rewrite (dot_sum _ x _ eq_refl), (dot_sum a x _ eq_refl). unfold Rdiv. rewrite <- Sum_scal_r. apply Sum_ext. intros k _.
    replace (nth k (map (fun y => y * / s) a) 0) with (nth k a 0 * / s); [ring|].
    rewrite <- (map_nth (fun y => y * / s)). f_equal. ring.
  Qed.
  Lemma no_open i v p (D0 : discretization R) : openBoundaries (mo_mats m) = [] -> conductor_problem (mo_mats m) i v p -> open_points D0 p = [].
  Proof.
    intros Eo C. unfold open_points. assert (E : si_open p = []).
    { pose proof (cp_open _ _ _ _ C) as Q. rewrite Eo in Q. now apply Permutation_sym, Permutation_nil in Q. }
    rewrite E. clear. induction (di_abc D0); cbn; auto.
  Qed.
  Lemma scale_work i v p a b : conductor_problem (mo_mats m) i v p -> work abc' D' p a b = work abc D p a b.
  Proof.
    intros C. unfold work. f_equal.
    - symmetry. apply (Rsum_Forall2 _ _ _ _ _ (rs_grad _ _ _ Rs)). intros q q' _ (Ea & Ew & Ex & Ey).
      unfold grad2. rewrite Ea, Ew, !(shrunk_dot _ _ _ Ex), !(shrunk_dot _ _ _ Ey). field. lra.
    - destruct Ab as [Eo|Ha]; [rewrite !(no_open i v p) by assumption; reflexivity|].
      unfold open_points. rewrite !Rsum_filter. symmetry.
      apply (Rsum_Forall2 _ _ _ _ _ (rs_abc _ _ _ Rs)). intros q q' _ (Ea & Ew & Eb & Ep).
      rewrite Ea, Ew, Eb, Ep, Ha, <- surjective_pairing. destruct (zmem _ _); [|reflexivity]. field. lra.
  Qed.
  Lemma scale_projects p e d : projects D' p e d <-> projects D p e d.
  Proof.
    unfold projects. destruct (rs_sizes _ _ _ Rs) as (_ & _ & -> & _).
    assert (A : forall t, Rsum (di_rt D') (fun q => r_weight q * (dot (r_x q) d * dot (r_x q) t + dot (r_y q) d * dot (r_y q) t)) =
                          Rsum (di_rt D) (fun q => r_weight q * (dot (r_x q) d * dot (r_x q) t + dot (r_y q) d * dot (r_y q) t))).
    { intros t. symmetry. apply (Rsum_Forall2 _ _ _ _ _ (rs_rt _ _ _ Rs)). intros q q' _ (Ew & Ex & Ey).
      rewrite Ew, !(shrunk_dot _ _ _ Ex), !(shrunk_dot _ _ _ Ey). field. lra. }
    assert (B : forall t, Rsum (di_mix D') (fun q => x_weight q * eps_of (si_eps p) (x_attr q) * (dot (x_ndx q) e * dot (x_rtx q) t + dot (x_ndy q) e * dot (x_rty q) t)) =
                          Rsum (di_mix D) (fun q => x_weight q * eps_of (si_eps p) (x_attr q) * (dot (x_ndx q) e * dot (x_rtx q) t + dot (x_ndy q) e * dot (x_rty q) t))).
    { intros t. symmetry. apply (Rsum_Forall2 _ _ _ _ _ (rs_mix _ _ _ Rs)). intros q q' _ (Ea & Ew & E1 & E2 & E3 & E4).
      rewrite Ea, Ew, !(shrunk_dot _ _ _ E1), !(shrunk_dot _ _ _ E2), !(shrunk_dot _ _ _ E3), !(shrunk_dot _ _ _ E4). field. lra. }
    split; intros (L & H); (split; [exact L|]); intros t Lt; specialize (H t Lt).
    - now rewrite A, B in H.
    - now rewrite A, B.
  Qed.
  Lemma bdr_same t k : on_boundary (discretize abc' D') t k <-> on_boundary (discretize abc D) t k.
  Proof. unfold on_boundary. change (fe_bdrDofs (discretize abc' D')) with (di_bdrDofs D'). destruct (rs_sizes _ _ _ Rs) as (_ & _ & _ & -> & _). reflexivity. Qed.
  Lemma scale_fields ignore v x y : model_fields abc D dbg m ignore v x -> model_fields abc' D' dbg' m' ignore v y -> x = y.
  Proof.
    intros (p & Cp & Cx) (p' & Cp' & Cy).
    pose proof (rm_tables _ _ _ Rm) as OK. pose proof (rm_tables _ _ _ Rm') as OK'.
    destruct (model_problem abc D m W Rm ignore v p Cp) as (Hp & An). destruct (model_problem abc' D' m' W' Rm' ignore v p' Cp') as (Hp' & An').
    assert (Nn : si_neumann p' = []) by apply (cp_neu _ _ _ _ Cp'). rewrite Em in Cp'.
    assert (Dir : si_dirichlet p = si_dirichlet p').
    { apply msorted_in_ext; [apply Cp|apply Cp'|]. intros t z. rewrite (cp_dir _ _ _ _ Cp), (cp_dir _ _ _ _ Cp'). reflexivity. }
    assert (Eps : si_eps p = si_eps p').
    { apply msorted_in_ext; [apply Cp|apply Cp'|]. intros t z. rewrite (cp_eps _ _ _ _ Cp), (cp_eps _ _ _ _ Cp'). reflexivity. }
    assert (P : so_phi x = so_phi y).
    { destruct (minimal abc' D' OK' dbg' p' y Hp' An' Cy) as (_ & _ & Ly & Py & _).
      apply (weak_field abc D OK dbg p x _ Hp An Cx (cp_neu _ _ _ _ Cp)).
      - unfold potential in *. rewrite Ly. apply (rs_sizes _ _ _ Rs).
      - intros t z k I B M. apply (Py t z k); [now rewrite <- Dir|now apply bdr_same|].
        intros t' z' I' B'. apply (M t' z'); [now rewrite Dir|now apply bdr_same].
      - intros psi Lp Zp.
        assert (Z : work abc' D' p' (so_phi y) psi = 0).
        { apply (computed_weak abc' D' OK' dbg' p' y psi Hp' An' Cy Nn).
          - unfold potential in *. rewrite Lp. symmetry. apply (rs_sizes _ _ _ Rs).
          - intros t z k I B. apply (Zp t z k); [now rewrite Dir|now apply bdr_same]. }
        rewrite <- Z, (scale_work ignore v p' _ _ Cp'). unfold work. rewrite Eps, (open_points_perm D p p'); [reflexivity|].
        eapply Permutation_trans; [exact (cp_open _ _ _ _ Cp)|]. apply Permutation_sym. exact (cp_open _ _ _ _ Cp'). }
    assert (E : so_e x = so_e y).
    { pose proof (e_of_phi abc D OK dbg p x Hp Cx) as G1. pose proof (e_of_phi abc' D' OK' dbg' p' y Hp' Cy) as G2.
      unfold is_minus_gradient in *. rewrite G1, G2, P, (rs_gradient _ _ _ Rs). reflexivity. }
    assert (Dd : so_d x = so_d y).
    { symmetry. apply (d_of_e abc D OK dbg p x _ Hp Cx).
      assert (Q : projects D' p' (so_e y) (so_d y)) by now apply (d_of_e abc' D' OK' dbg' p' y _ Hp' Cy).
      apply scale_projects in Q. unfold projects in *. now rewrite Eps, E. }
    destruct x, y; cbn in *; congruence.
  Qed.
  Lemma scale_charge x t q : charge_on (discretize abc D) x t q <-> charge_on (discretize abc' D') x t q.
  Proof.
    assert (G : forall z, getChargeInBoundary (discretize abc D) z t = getChargeInBoundary (discretize abc' D') z t).
    { intros z. unfold getChargeInBoundary. rewrite !flux_form_Rsum.
      change (fe_flux (discretize abc D)) with (di_flux D). change (fe_flux (discretize abc' D')) with (di_flux D').
      apply (Rsum_Forall2 _ _ _ _ _ (rs_flux _ _ _ Rs)). intros a b _ (-> & Eb). unfold flux_at. now rewrite Eb. }
    unfold charge_on. split; intros H z Ez; [rewrite <- G|rewrite G]; now apply H.
  Qed.
End Scale.

(** entries of the inverse matrices *)
Lemma inverse_ext n (a a' l l' : matrix R) : square n a -> square n a' -> (forall i j, (i < n)%nat -> (j < n)%nat -> ent a i j = ent a' i j) ->
  product_is n a l 1 -> product_is n l a 1 -> product_is n a' l' 1 -> forall i j, (i < n)%nat -> (j < n)%nat -> ent l i j = ent l' i j.
Proof.
  intros Sa Sa' E P1 P2 P3 i j Li Lj.
  (* l = l (a' l') = (l a) l' = l' *)
  assert (A : Sum n (fun k => ent l i k * Sum n (fun r => ent a' k r * ent l' r j)) = ent l i j).
  { rewrite (Sum_ext n _ (fun k => if (k =? j)%nat then ent l i k else 0)); [exact (Sum_single n j (fun k => ent l i k) Lj)|].
    intros k Lk. rewrite (P3 k j Lk Lj). destruct (k =? j)%nat; ring. }
  rewrite <- A. rewrite (Sum_ext n _ (fun k => Sum n (fun r => ent l i k * ent a' k r * ent l' r j))).
  2:{ intros k _. rewrite <- Sum_scal. apply Sum_ext. intros; ring. }
  rewrite Sum_exchange. rewrite (Sum_ext n _ (fun r => if (r =? i)%nat then ent l' r j else 0)); [exact (Sum_single n i (fun r => ent l' r j) Li)|].
  intros r Lr. rewrite Sum_scal_r. rewrite (Sum_ext n _ (fun k => ent l i k * ent a k r)) by (intros; now rewrite E).
  rewrite (P2 i r Li Lr), Nat.eqb_sym. destruct (r =? i)%nat; ring.
Qed.

Section ScaleDriver.
  Variable abc abc' : R * R -> R.
  Variable disc : mesh R -> Z -> discretization R.
  Variable dbg : bool.
  Variable moment : R * R -> nat -> nat -> R * R -> R.
  Notation femlib := (fun ms k => discretize abc (disc ms k)).
  Notation femlib' := (fun ms k => discretize abc' (disc ms k)).
  Variables m m' : model R.
  Variable o : driver_options.
  Variables d0 d0' : driver R.
  Variables ops ops' : list dop.
  Variable conds : list (pec R).
  Notation D := (disc (mo_mesh m) (o_order o)).
  Notation D' := (disc (mo_mesh m') (o_order o)).
  Variable s : R.
  Hypothesis Ps : 0 < s.
  Hypothesis Rs : rescaled s D D'.
  Hypothesis Em : mo_mats m' = mo_mats m.
  Hypothesis W : well_posed (discretize abc D) m.
  Hypothesis W' : well_posed (discretize abc' D') m'.
  Hypothesis Rm : regular_model abc D m.
  Hypothesis Rm' : regular_model abc' D' m'.
  Hypothesis B : built dbg femlib m o d0.
  Hypothesis B' : built dbg femlib' m' o d0'.
  Hypothesis O : in_order (mo_mats m) conds.
  Hypothesis Ab : openBoundaries (mo_mats m) = [] \/ forall x y, abc' (s * x, s * y) = abc (x, y) / s.
  Lemma scale_g ignore g g' w w' :
    reply dbg femlib moment (CallGeneralizedC ignore) (after dbg femlib moment ops d0) = (Ok (VMatrix g), w) ->
    reply dbg femlib' moment (CallGeneralizedC ignore) (after dbg femlib' moment ops' d0') = (Ok (VMatrix g'), w') ->
    forall i j, (i < List.length conds)%nat -> (j < List.length conds)%nat -> ent g i j = ent g' i j.
  Proof.
    intros E E' i j Li Lj. pose proof O as O'. rewrite <- Em in O'.
    destruct (gc_entries abc disc dbg moment m o d0 ops conds W B O _ _ _ E) as (_ & G).
    destruct (gc_entries abc' disc dbg moment m' o d0' ops' conds W' B' O' _ _ _ E') as (_ & G').
    destruct (units_exist abc D dbg m W Rm ignore conds) as (us & Fu). destruct (units_exist abc' D' dbg m' W' Rm' ignore conds) as (us' & Fu').
    assert (L : List.length us = List.length conds) by (apply Forall2_length in Fu; auto).
    assert (L' : List.length us' = List.length conds) by (apply Forall2_length in Fu'; auto).
    destruct (nth_error conds i) as [p|] eqn:Ep; [|apply nth_error_None in Ep; lia].
    destruct (nth_error conds j) as [q|] eqn:Eq; [|apply nth_error_None in Eq; lia].
    destruct (nth_error us i) as [x|] eqn:Ex; [|apply nth_error_None in Ex; lia].
    destruct (nth_error us j) as [y|] eqn:Ey; [|apply nth_error_None in Ey; lia].
    destruct (nth_error us' i) as [x'|] eqn:Ex'; [|apply nth_error_None in Ex'; lia].
    destruct (nth_error us' j) as [y'|] eqn:Ey'; [|apply nth_error_None in Ey'; lia].
    assert (Same : forall k u u', nth_error us k = Some u -> nth_error us' k = Some u' -> u = u').
    { intros k u u' Eu Eu'. destruct (Forall2_nth_r _ _ _ k u Fu Eu) as (c1 & Ec1 & U). destruct (Forall2_nth_r _ _ _ k u' Fu' Eu') as (c2 & Ec2 & U').
      assert (c1 = c2) by congruence. subst c2. apply unit_fields in U, U'.
      apply (scale_fields abc abc' D D' s Ps Rs dbg dbg m m' W W' Rm Rm' Em Ab ignore _ _ _ U U'). }
    assert (x = x') by (eapply Same; eassumption). assert (y = y') by (eapply Same; eassumption). subst x' y'.
    pose proof (chargeF abc D x (p_attr q)) as Ca. pose proof (chargeF abc D y (p_attr p)) as Cb.
    rewrite (G us i j p q x y _ _ Fu Ep Eq Ex Ey Ca Cb).
    apply (scale_charge abc abc' D D' s Rs) in Ca, Cb. symmetry.
    apply (G' us' i j p q x y _ _ Fu' Ep Eq Ex' Ey' Ca Cb).
  Qed.
  Lemma scale_pul op p p' w w' n : determineOpenness dbg m = Ok op -> determineOpenness dbg m' = Ok op -> List.length conds = S n ->
    reply dbg femlib moment CallPUL (after dbg femlib moment ops d0) = (Ok (VPul p), w) ->
    reply dbg femlib' moment CallPUL (after dbg femlib' moment ops' d0') = (Ok (VPul p'), w') ->
    square n (pul_C p) /\ square n (pul_L p) /\ square n (pul_C p') /\ square n (pul_L p') /\
    forall i j, (i < n)%nat -> (j < n)%nat -> ent (pul_C p) i j = ent (pul_C p') i j /\ ent (pul_L p) i j = ent (pul_L p') i j.
  Proof.
    intros Cl Cl' Ln E E'. pose proof O as O'. rewrite <- Em in O'.
    destruct (PUL_inv dbg femlib moment Rmul0 m o d0 ops W B p w E) as (C & L & w1 & w2 & EC & EL & ->).
    destruct (PUL_inv dbg femlib' moment Rmul0 m' o d0' ops' W' B' p' w' E') as (C' & L' & w1' & w2' & EC' & EL' & ->).
    pose proof (D_model dbg femlib moment Rmul0 m o d0 ops W B) as Dm. pose proof (D_model dbg femlib' moment Rmul0 m' o d0' ops' W' B') as Dm'.
    destruct (C_inv _ _ _ _ _ _ EC) as (ge & op1 & Ee & Eo1 & ->). rewrite Dm, Cl in Eo1. injection Eo1 as <-.
    destruct (L_inv _ _ _ _ _ _ EL) as (gm & op1 & Em1 & Eo1 & Inv). rewrite Dm, Cl in Eo1. injection Eo1 as <-.
    destruct (C_inv _ _ _ _ _ _ EC') as (ge' & op1 & Ee' & Eo1 & ->). rewrite Dm', Cl' in Eo1. injection Eo1 as <-.
    destruct (L_inv _ _ _ _ _ _ EL') as (gm' & op1 & Em1' & Eo1 & Inv'). rewrite Dm', Cl' in Eo1. injection Eo1 as <-.
    pose proof (scale_g false _ _ _ _ Ee Ee') as Ge. pose proof (scale_g true _ _ _ _ Em1 Em1') as Gm.
    destruct (gc_entries abc disc dbg moment m o d0 ops conds W B O _ _ _ Ee) as (Se & _).
    destruct (gc_entries abc disc dbg moment m o d0 ops conds W B O _ _ _ Em1) as (Sm & _).
    destruct (gc_entries abc' disc dbg moment m' o d0' ops' conds W' B' O' _ _ _ Ee') as (Se' & _).
    destruct (gc_entries abc' disc dbg moment m' o d0' ops' conds W' B' O' _ _ _ Em1') as (Sm' & _).
    rewrite Ln in *.
    pose proof (reduced_size ge n Se op) as Re. pose proof (reduced_size gm n Sm op) as Rem.
    pose proof (reduced_size ge' n Se' op) as Re'. pose proof (reduced_size gm' n Sm' op) as Rem'.
    destruct (invert_product _ n Rem L Inv) as (Sl & P1 & P2). destruct (invert_product _ n Rem' L' Inv') as (Sl' & P1' & P2').
    split; [exact Re|]. split; [exact Sl|]. split; [exact Re'|]. split; [exact Sl'|].
    intros i j Li Lj. cbn [pul_L pul_C mscale ent nmul RNum]. split.
    - f_equal. apply (reduced_ext ge ge' n op Se Se'); auto.
    - f_equal. apply (inverse_ext n (getCFromGeneralizedC gm op) (getCFromGeneralizedC gm' op) L L' Rem Rem'); auto.
      intros a b La Lb. apply (reduced_ext gm gm' n op Sm Sm'); auto.
  Qed.
End ScaleDriver.

Section Weak.
  Variable abc : R * R -> R.
  Variable D : discretization R.
  Hypothesis OK : tables_ok D.
  Notation F := (discretize abc D).
  Variable dbg : bool.
  Lemma prescribed_value_unique bc k (x y : R) : msorted bc -> prescribed_value F bc k x -> prescribed_value F bc k y -> x = y.
  Proof.
    intros S [(t & I & L & B & M)|(-> & M)] [(t' & I' & L' & B' & M')|(-> & M')].
    - assert (t = t') as -> by (pose proof (M _ _ I' L' B'); pose proof (M' _ _ I L B); lia).
      apply (mget_in_iff t') in I, I'; auto. congruence.
    - destruct (M' _ _ I L B).
    - destruct (M _ _ I' L' B').
    - reflexivity.
  Qed.
  Lemma density_unique p s1 s2 : problem_ok abc D p -> surface_density abc D p s1 -> surface_density abc D p s2 -> s1 = s2.
  Proof.
    intros Hp (L1 & H1) (L2 & H2). apply (nth_ext s1 s2 0 0); [congruence|]. intros k Lk. rewrite L1 in Lk.
    eapply prescribed_value_unique; [apply (po_sorted _ _ _ Hp)|apply H1, Lk|apply H2, Lk].
  Qed.
  Lemma weak_unique p x y sigma : problem_ok abc D p -> anchored abc D p -> computes abc D dbg p x -> surface_density abc D p sigma ->
    potential D y -> prescribed abc D p y ->
    (forall psi, potential D psi -> (forall t v k, In (t, v) (si_dirichlet p) -> on_boundary F t k -> nth_error psi k = Some 0) ->
       work abc D p y psi = source D sigma psi) -> so_phi x = y.
  Proof.
    intros Hp An C Sg Ly Py Wy. destruct (computes_inv abc D OK dbg p x Hp C) as (s & ess & phi0 & Es & So & Ep & _).
    pose proof (one_solve abc D OK dbg p Hp An s ess phi0 So) as W. rewrite <- Ep in W.
    apply (one_unique abc D OK dbg p Hp An s ess phi0 So); [exact W|]. split; [exact Ly|].
    split; [apply (prescribed_iff abc D OK dbg p s ess phi0 y So (proj1 (po_sorted _ _ _ Hp)) Ly); exact Py|].
    intros psi Lp Zp. rewrite (one_work abc D OK dbg p Hp s ess phi0 So).
    rewrite Wy; [|exact Lp|].
    - f_equal. eapply density_unique; [exact Hp|exact Sg|exact (sf_sigma _ _ _ _ _ _ _ So)].
    - intros t v k I B. pose proof (on_bdr_lt abc D OK t k B) as Lk. rewrite (nth_error_nth0 psi k) by (unfold potential in Lp; rewrite Lp; exact Lk).
      f_equal. apply Zp; [exact Lk|]. apply (sf_ess _ _ _ _ _ _ _ So). eauto.
  Qed.
End Weak.
