(** Two discretizations of the same problem: if potentials and fluxes correspond, so do the charges
    and all parameters (C70). *)
From Coq Require Import Reals Lra Permutation.
From Verif Require Import Prelude StdMap Materials Graph ModelM Parser Matrix Solver Fem Domain Results Driver RSum LinAlg ListLemmas
  SpecSolver SpecCharge SpecModel SpecDriver SpecMatrix SpecField SpecFem DriverProofs CallProofs DriverFacts MatrixProofs MatrixCalls MatrixFacts
  SolverProofs ChargeProofs FieldProofs FemProofs FemCalls FemFacts FemModel FemLaws FemDriver FemMatrix FemMore.
Open Scope R_scope.
Open Scope list_scope.

Section Iso.
  Variable abc abc' : R * R -> R.
  Variable D D' : discretization R.
  Variable dbg dbg' : bool.
  Variable m m' : model R.
  Hypothesis W : well_posed (discretize abc D) m.
  Hypothesis W' : well_posed (discretize abc' D') m'.
  Hypothesis Rm : regular_model abc D m.
  Hypothesis Rm' : regular_model abc' D' m'.
  Hypothesis Em : mo_mats m' = mo_mats m.
  (** from D' to D and back *)
  Variable tp up td : list R -> list R.
  Hypothesis tp_pot : forall y, potential D' y -> potential D (tp y).
  Hypothesis up_pot : forall z, potential D z -> potential D' (up z).
  Hypothesis Iwork : forall i v p y z, conductor_problem (mo_mats m) i v p -> potential D' y -> potential D z -> work abc D p (tp y) z = work abc' D' p y (up z).
  Hypothesis Ibdr : forall t k y x, on_boundary (discretize abc D) t k -> potential D' y ->
    exists k', on_boundary (discretize abc' D') t k' /\ (forall t', on_boundary (discretize abc' D') t' k' -> on_boundary (discretize abc D) t' k) /\
      (nth_error y k' = Some x -> nth_error (tp y) k = Some x).
  Hypothesis Iup : forall t k' z, on_boundary (discretize abc' D') t k' -> potential D z ->
    exists k, on_boundary (discretize abc D) t k /\ (nth_error z k = Some 0 -> nth_error (up z) k' = Some 0).
  Hypothesis Iproj : forall p y d, potential D' y -> projects D' p (map (fun row => - dot row y) (di_gradient D')) d ->
    projects D p (map (fun row => - dot row (tp y)) (di_gradient D)) (td d).
  Hypothesis Iflux : forall d t, List.length d = di_nRT D' ->
    Rsum (di_flux D) (fun q => if (q_attr q =? t)%Z then dot (q_w q) (td d) else 0) = Rsum (di_flux D') (fun q => if (q_attr q =? t)%Z then dot (q_w q) d else 0).

  Lemma iso_fields ignore v x y : model_fields abc D dbg m ignore v x -> model_fields abc' D' dbg' m' ignore v y ->
    so_phi x = tp (so_phi y) /\ so_d x = td (so_d y) /\ List.length (so_d y) = di_nRT D'.
  Proof.
    intros (p & Cp & Cx) (p' & Cp' & Cy).
    pose proof (rm_tables _ _ _ Rm) as OK. pose proof (rm_tables _ _ _ Rm') as OK'.
    destruct (model_problem abc D m W Rm ignore v p Cp) as (Hp & An). destruct (model_problem abc' D' m' W' Rm' ignore v p' Cp') as (Hp' & An').
    assert (Nn : si_neumann p' = []) by apply (cp_neu _ _ _ _ Cp'). rewrite Em in Cp'.
    assert (Dir : si_dirichlet p = si_dirichlet p').
    { apply msorted_in_ext; [apply Cp|apply Cp'|]. intros t z. rewrite (cp_dir _ _ _ _ Cp), (cp_dir _ _ _ _ Cp'). reflexivity. }
    assert (Eps : si_eps p = si_eps p').
    { apply msorted_in_ext; [apply Cp|apply Cp'|]. intros t z. rewrite (cp_eps _ _ _ _ Cp), (cp_eps _ _ _ _ Cp'). reflexivity. }
    destruct (minimal abc' D' OK' dbg' p' y Hp' An' Cy) as (_ & _ & Ly & Py & _).
    assert (P : so_phi x = tp (so_phi y)).
    { apply (weak_field abc D OK dbg p x _ Hp An Cx (cp_neu _ _ _ _ Cp)).
      - now apply tp_pot.
      - intros t z k I B M. destruct (Ibdr t k (so_phi y) z B Ly) as (k' & B' & M' & E). apply E.
        apply (Py t z k'); [now rewrite <- Dir|exact B'|]. intros t' z' I' B1. apply (M t' z'); [now rewrite Dir|now apply M'].
      - intros psi Lp Zp.
        assert (Z : work abc' D' p' (so_phi y) (up psi) = 0).
        { apply (computed_weak abc' D' OK' dbg' p' y (up psi) Hp' An' Cy Nn); [now apply up_pot|].
          intros t z k I B. destruct (Iup t k psi B Lp) as (k0 & B0 & E). apply E. apply (Zp t z k0); [now rewrite Dir|exact B0]. }
        rewrite <- Z, <- (Iwork ignore v p' _ _ Cp' Ly Lp). unfold work. rewrite Eps, (open_points_perm D p p'); [reflexivity|].
        eapply Permutation_trans; [exact (cp_open _ _ _ _ Cp)|]. apply Permutation_sym. exact (cp_open _ _ _ _ Cp'). }
    split; [exact P|].
    assert (Q : projects D' p' (so_e y) (so_d y)) by now apply (d_of_e abc' D' OK' dbg' p' y _ Hp' Cy).
    pose proof (proj1 Q) as Ld. split; [|exact Ld]. symmetry. apply (d_of_e abc D OK dbg p x _ Hp Cx).
    pose proof (e_of_phi abc D OK dbg p x Hp Cx) as G1. pose proof (e_of_phi abc' D' OK' dbg' p' y Hp' Cy) as G2.
    unfold is_minus_gradient in G1, G2. rewrite G1, P. rewrite G2 in Q.
    pose proof (Iproj p' _ _ Ly Q) as Q'. unfold projects in Q' |- *. now rewrite Eps.
  Qed.
  Lemma iso_charge ignore v x y t q : model_fields abc D dbg m ignore v x -> model_fields abc' D' dbg' m' ignore v y ->
    charge_on (discretize abc D) x t q -> charge_on (discretize abc' D') y t q.
  Proof.
    intros Hx Hy C. destruct (iso_fields ignore v x y Hx Hy) as (_ & Ed & Ld).
    rewrite (charge_on_fun abc D x t q _ C (chargeF abc D x t)).
    assert (G : forall A d, flux_form (discretize abc A) (fun q => if (q_attr q =? t)%Z then - 1 else 0) d =
                              - Rsum (di_flux A) (fun q => if (q_attr q =? t)%Z then dot (q_w q) d else 0)).
    { intros A d. rewrite flux_form_Rsum, <- Rsum_opp. change (fe_flux (discretize abc A)) with (di_flux A). apply Rsum_ext. intros a _.
      unfold flux_at. destruct (q_attr a =? t)%Z; ring. }
    rewrite G, Ed, (Iflux _ t Ld), <- G. exact (chargeF abc' D' y t).
  Qed.
End Iso.

Section IsoDriver.
  Variable abc abc' : R * R -> R.
  Variable disc disc' : mesh R -> Z -> discretization R.
  Variable dbg : bool.
  Variable moment : R * R -> nat -> nat -> R * R -> R.
  Notation femlib := (fun ms k => discretize abc (disc ms k)).
  Notation femlib' := (fun ms k => discretize abc' (disc' ms k)).
  Variables m m' : model R.
  Variables o o' : driver_options.
  Variables d0 d0' : driver R.
  Variables ops ops' : list dop.
  Variable conds : list (pec R).
  Notation N := (List.length conds).
  Notation D := (disc (mo_mesh m) (o_order o)).
  Notation D' := (disc' (mo_mesh m') (o_order o')).
  Hypothesis Em : mo_mats m' = mo_mats m.
  Hypothesis W : well_posed (discretize abc D) m.
  Hypothesis W' : well_posed (discretize abc' D') m'.
  Hypothesis Rm : regular_model abc D m.
  Hypothesis Rm' : regular_model abc' D' m'.
  Hypothesis B : built dbg femlib m o d0.
  Hypothesis B' : built dbg femlib' m' o' d0'.
  Hypothesis O : in_order (mo_mats m) conds.
  Hypothesis Ch : forall ignore v x y t q, model_fields abc D dbg m ignore v x -> model_fields abc' D' dbg m' ignore v y ->
    charge_on (discretize abc D) x t q -> charge_on (discretize abc' D') y t q.
  Lemma order' : in_order (mo_mats m') conds.
  Proof. rewrite Em. exact O. Qed.
  Lemma iso_g ignore g g' w w' :
    reply dbg femlib moment (CallGeneralizedC ignore) (after dbg femlib moment ops d0) = (Ok (VMatrix g), w) ->
    reply dbg femlib' moment (CallGeneralizedC ignore) (after dbg femlib' moment ops' d0') = (Ok (VMatrix g'), w') ->
    square N g /\ square N g' /\ forall i j, (i < N)%nat -> (j < N)%nat -> ent g i j = ent g' i j.
  Proof.
    intros E E'. pose proof order' as O'.
    destruct (gc_entries abc disc dbg moment m o d0 ops conds W B O _ _ _ E) as (Sg & G).
    destruct (gc_entries abc' disc' dbg moment m' o' d0' ops' conds W' B' O' _ _ _ E') as (Sg' & G').
    split; [exact Sg|]. split; [exact Sg'|]. intros i j Li Lj.
    destruct (units_exist abc D dbg m W Rm ignore conds) as (us & Fu). destruct (units_exist abc' D' dbg m' W' Rm' ignore conds) as (us' & Fu').
    assert (L : List.length us = N) by (apply Forall2_length in Fu; auto).
    assert (L' : List.length us' = N) by (apply Forall2_length in Fu'; auto).
    destruct (nth_error conds i) as [p|] eqn:Ep; [|apply nth_error_None in Ep; lia].
    destruct (nth_error conds j) as [q|] eqn:Eq; [|apply nth_error_None in Eq; lia].
    destruct (nth_error us i) as [x|] eqn:Ex; [|apply nth_error_None in Ex; lia].
    destruct (nth_error us j) as [y|] eqn:Ey; [|apply nth_error_None in Ey; lia].
    destruct (nth_error us' i) as [x'|] eqn:Ex'; [|apply nth_error_None in Ex'; lia].
    destruct (nth_error us' j) as [y'|] eqn:Ey'; [|apply nth_error_None in Ey'; lia].
    assert (Same : forall k u u' t c, nth_error us k = Some u -> nth_error us' k = Some u' -> charge_on (discretize abc D) u t c -> charge_on (discretize abc' D') u' t c).
    { intros k u u' t c Eu Eu'. destruct (Forall2_nth_r _ _ _ k u Fu Eu) as (c1 & Ec1 & U). destruct (Forall2_nth_r _ _ _ k u' Fu' Eu') as (c2 & Ec2 & U').
      assert (c1 = c2) by congruence. subst c2. apply unit_fields in U, U'. exact (Ch ignore _ _ _ t c U U'). }
    pose proof (chargeF abc D x (p_attr q)) as Ca. pose proof (chargeF abc D y (p_attr p)) as Cb.
    rewrite (G us i j p q x y _ _ Fu Ep Eq Ex Ey Ca Cb). symmetry.
    apply (G' us' i j p q x' y' _ _ Fu' Ep Eq Ex' Ey' (Same i x x' _ _ Ex Ex' Ca) (Same j y y' _ _ Ey Ey' Cb)).
  Qed.
  Lemma iso_pul op p p' w w' n : determineOpenness dbg m = Ok op -> determineOpenness dbg m' = Ok op -> N = S n ->
    reply dbg femlib moment CallPUL (after dbg femlib moment ops d0) = (Ok (VPul p), w) ->
    reply dbg femlib' moment CallPUL (after dbg femlib' moment ops' d0') = (Ok (VPul p'), w') ->
    square n (pul_C p) /\ square n (pul_L p) /\ square n (pul_C p') /\ square n (pul_L p') /\
    forall i j, (i < n)%nat -> (j < n)%nat -> ent (pul_C p) i j = ent (pul_C p') i j /\ ent (pul_L p) i j = ent (pul_L p') i j.
  Proof.
    intros Cl Cl' Ln E E'.
    destruct (PUL_inv dbg femlib moment Rmul0 m o d0 ops W B p w E) as (C & L & w1 & w2 & EC & EL & ->).
    destruct (PUL_inv dbg femlib' moment Rmul0 m' o' d0' ops' W' B' p' w' E') as (C' & L' & w1' & w2' & EC' & EL' & ->).
    pose proof (D_model dbg femlib moment Rmul0 m o d0 ops W B) as Dm. pose proof (D_model dbg femlib' moment Rmul0 m' o' d0' ops' W' B') as Dm'.
    destruct (C_inv _ _ _ _ _ _ EC) as (ge & op1 & Ee & Eo1 & ->). rewrite Dm, Cl in Eo1. injection Eo1 as <-.
    destruct (L_inv _ _ _ _ _ _ EL) as (gm & op1 & Em1 & Eo1 & Inv). rewrite Dm, Cl in Eo1. injection Eo1 as <-.
    destruct (C_inv _ _ _ _ _ _ EC') as (ge' & op1 & Ee' & Eo1 & ->). rewrite Dm', Cl' in Eo1. injection Eo1 as <-.
    destruct (L_inv _ _ _ _ _ _ EL') as (gm' & op1 & Em1' & Eo1 & Inv'). rewrite Dm', Cl' in Eo1. injection Eo1 as <-.
    destruct (iso_g false _ _ _ _ Ee Ee') as (Se & Se' & Ge). destruct (iso_g true _ _ _ _ Em1 Em1') as (Sm & Sm' & Gm).
    rewrite Ln in *.
    pose proof (reduced_size ge n Se op) as Re. pose proof (reduced_size gm n Sm op) as Rem.
    pose proof (reduced_size ge' n Se' op) as Re'. pose proof (reduced_size gm' n Sm' op) as Rem'.
    destruct (invert_product _ n Rem L Inv) as (Sl & P1 & P2). destruct (invert_product _ n Rem' L' Inv') as (Sl' & P1' & P2').
    split; [exact Re|]. split; [exact Sl|]. split; [exact Re'|]. split; [exact Sl'|].
    intros i j Li Lj. cbn [pul_L pul_C mscale ent nmul RNum]. split.
    - f_equal. apply (reduced_ext ge ge' n op Se Se'); auto.
    - f_equal. apply (inverse_ext n (getCFromGeneralizedC gm op) (getCFromGeneralizedC gm' op) L L' Rem Rem'); auto.
      intros a b La Lb. apply (reduced_ext gm gm' n op Sm Sm'); auto.
  Qed.
  Lemma injective_ext n (a b : matrix R) l : square n a -> square n b -> (forall i j, (i < n)%nat -> (j < n)%nat -> ent a i j = ent b i j) ->
    invert a = Ok l -> exists l', invert b = Ok l'.
  Proof.
    intros (S1 & S2) (S1' & S2') E Inv. apply injective_invert; [congruence|].
    destruct (Nat.eq_dec n 0) as [-> | N0]; [intros z _ k Lk; lia|].
    intros z Hz k Lk. apply (invert_injective a l ltac:(congruence) ltac:(lia) Inv z); [|lia]. intros i Li. rewrite <- (Hz i ltac:(lia)).
    unfold apply_row. rewrite S1, S1'. apply Sum_ext. intros j Lj. rewrite E by lia. reflexivity.
  Qed.
  Lemma iso_pul_exists op p w n : determineOpenness dbg m = Ok op -> determineOpenness dbg m' = Ok op -> N = S n -> (n = 0%nat -> op <> Closed) ->
    reply dbg femlib moment CallPUL (after dbg femlib moment ops d0) = (Ok (VPul p), w) ->
    exists p' w', reply dbg femlib' moment CallPUL (after dbg femlib' moment ops' d0') = (Ok (VPul p'), w').
  Proof.
    intros Cl Cl' Ln N0 E. pose proof order' as O'. assert (N1 : N = 1%nat -> op <> Closed) by (intros; apply N0; lia).
    destruct (PUL_inv dbg femlib moment Rmul0 m o d0 ops W B p w E) as (C & L & w1 & w2 & EC & EL & ->).
    pose proof (D_model dbg femlib moment Rmul0 m o d0 ops W B) as Dm. pose proof (D_model dbg femlib' moment Rmul0 m' o' d0' ops' W' B') as Dm'.
    destruct (L_inv _ _ _ _ _ _ EL) as (gm & op1 & Em1 & Eo1 & Inv). rewrite Dm, Cl in Eo1. injection Eo1 as <-.
    destruct (generalized_matrix dbg femlib' moment m' o' d0' ops' conds false op W' B' O' Cl' N1) as (ge' & we' & Ee' & _).
    destruct (generalized_matrix dbg femlib' moment m' o' d0' ops' conds true op W' B' O' Cl' N1) as (gm' & wm' & Em1' & _).
    destruct (iso_g true _ _ _ _ Em1 Em1') as (Sm & Sm' & Gm). rewrite Ln in *.
    destruct (injective_ext n (getCFromGeneralizedC gm op) (getCFromGeneralizedC gm' op) L (reduced_size gm n Sm op) (reduced_size gm' n Sm' op)) as (L' & Inv'); [|exact Inv|].
    { intros i j Li Lj. apply (reduced_ext gm gm' n op Sm Sm'); auto. }
    pose proof (reply_C _ _ _ _ _ _ op Ee' ltac:(rewrite Dm'; exact Cl')) as EC'.
    pose proof (reply_L _ _ _ _ _ _ op Em1' ltac:(rewrite Dm'; exact Cl')) as EL'. rewrite Inv' in EL'. cbn [bind] in EL'.
    pose proof (reply_PUL dbg femlib' moment Rmul0 m' o' d0' ops' W' B' _ _ _ _ EC' EL') as E'. eexists. eexists. exact E'.
  Qed.
  Lemma floats_ext n (C C' : matrix R) i V : square n C -> square n C' -> (forall i j, (i < n)%nat -> (j < n)%nat -> ent C i j = ent C' i j) -> floats C' i V -> floats C i V.
  Proof.
    intros (S1 & S2) (S1' & S2') E (V1 & H). split; [exact V1|]. rewrite S1. intros k Lk Nk. rewrite <- (H k ltac:(lia) Nk). unfold charge.
    rewrite S2, S2'. apply Sum_ext. intros j Lj. now rewrite E.
  Qed.
  Lemma iso_floating op e f e' f' w w' : (2 <= N)%nat -> determineOpenness dbg m = Ok op -> determineOpenness dbg m' = Ok op -> op <> SemiOpen ->
    reply dbg femlib moment CallFloating (after dbg femlib moment ops d0) = (Ok (VMatrices e f), w) ->
    reply dbg femlib' moment CallFloating (after dbg femlib' moment ops' d0') = (Ok (VMatrices e' f'), w') ->
    let n := match op with Closed => (N - 1)%nat | _ => N end in
    square n e /\ square n f /\ square n e' /\ square n f' /\
    forall i j, (i < n)%nat -> (j < n)%nat -> ent e i j = ent e' i j /\ ent f i j = ent f' i j.
  Proof.
    intros L2 Eo Eo' Ns E E' n. pose proof order' as O'.
    assert (N1 : N = 1%nat -> op <> Closed) by lia.
    destruct (generalized_matrix dbg femlib moment m o d0 ops conds false op W B O Eo N1) as (ge & we & Ee & _).
    destruct (generalized_matrix dbg femlib moment m o d0 ops conds true op W B O Eo N1) as (gm & wm & Em1 & _).
    destruct (generalized_matrix dbg femlib' moment m' o' d0' ops' conds false op W' B' O' Eo' N1) as (ge' & we' & Ee' & _).
    destruct (generalized_matrix dbg femlib' moment m' o' d0' ops' conds true op W' B' O' Eo' N1) as (gm' & wm' & Em1' & _).
    destruct (iso_g false _ _ _ _ Ee Ee') as (Se & Se' & Ge). destruct (iso_g true _ _ _ _ Em1 Em1') as (Sm & Sm' & Gm).
    set (red := fun g : matrix R => match op with Closed => grounded g | _ => g end).
    assert (Sr : forall g, square N g -> square n (red g)).
    { intros g (S1 & S2). unfold red, n. destruct op; [split; assumption|split; assumption|]. unfold square, grounded. cbn [nr nc]. lia. }
    assert (Er : forall g g', (forall i j, (i < N)%nat -> (j < N)%nat -> ent g i j = ent g' i j) -> forall i j, (i < n)%nat -> (j < n)%nat -> ent (red g) i j = ent (red g') i j).
    { intros g g' Q i j Li Lj. unfold red, n in *. destruct op; try (apply Q; assumption). cbn [grounded ent]. apply Q; lia. }
    pose proof (floating_potentials dbg femlib moment m o d0 ops conds W B O op ge gm we wm e f w L2 Eo Ns Ee Em1 E) as K.
    pose proof (floating_potentials dbg femlib' moment m' o' d0' ops' conds W' B' O' op ge' gm' we' wm' e' f' w' L2 Eo' Ns Ee' Em1' E') as K'.
    destruct (K (red ge) e (or_introl eq_refl)) as (Q1 & A1). destruct (K (red gm) f (or_intror eq_refl)) as (Q2 & A2).
    destruct (K' (red ge') e' (or_introl eq_refl)) as (Q1' & A1'). destruct (K' (red gm') f' (or_intror eq_refl)) as (Q2' & A2').
    rewrite (proj1 (Sr _ Se)) in Q1, A1. rewrite (proj1 (Sr _ Sm)) in Q2, A2. rewrite (proj1 (Sr _ Se')) in Q1', A1'. rewrite (proj1 (Sr _ Sm')) in Q2', A2'.
    repeat (split; [assumption|]). intros i j Li Lj. split; symmetry.
    - apply (proj2 (A1 i Li)); [|exact Lj]. apply (floats_ext n (red ge) (red ge') i _ (Sr _ Se) (Sr _ Se') (Er _ _ Ge)), A1', Li.
    - apply (proj2 (A2 i Li)); [|exact Lj]. apply (floats_ext n (red gm) (red gm') i _ (Sr _ Sm) (Sr _ Sm') (Er _ _ Gm)), A2', Li.
  Qed.
End IsoDriver.
