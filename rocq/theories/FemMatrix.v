(** The matrices of a Driver as charges of fields (C59-C63). *)
From Coq Require Import Reals Lra Permutation.
From Verif Require Import Prelude StdMap Materials Graph ModelM Parser Matrix Solver Fem Domain Results Driver RSum LinAlg ListLemmas
  SpecSolver SpecCharge SpecModel SpecDriver SpecMatrix SpecField SpecFem DriverProofs CallProofs DriverFacts MatrixProofs MatrixCalls MatrixFacts
  SolverProofs ChargeProofs FieldProofs FemProofs FemCalls FemFacts FemModel FemLaws FemDriver.
Open Scope R_scope.
Open Scope list_scope.

Lemma Forall2_nth_r {A B} (P : A -> B -> Prop) l l' k y : Forall2 P l l' -> nth_error l' k = Some y -> exists x, nth_error l k = Some x /\ P x y.
Proof.
  intros Fo. revert k. induction Fo as [|a b l l' H Fo IH]; intros [|k] E; cbn in *; try discriminate.
  - injection E as <-. eauto.
  - apply IH, E.
Qed.

Section Gauss.
  Variable abc : R * R -> R.
  Variable D : discretization R.
  Notation F := (discretize abc D).
  Notation n := (di_nH1 D).
  Variable dbg : bool.
  Variable m : model R.
  Hypothesis W : well_posed F m.
  Hypothesis Rm : regular_model abc D m.
  Notation mats := (mo_mats m).
  Let OK : tables_ok D := rm_tables _ _ _ Rm.

  Lemma prescribed_model ignore v p psi : conductor_problem mats ignore v p -> potential D psi ->
    (prescribed abc D p psi <-> has_potentials abc D m v psi).
  Proof.
    intros Cp L. unfold prescribed, has_potentials. split.
    - intros H. split; [exact L|]. intros c k Ic B M. apply (H (p_attr c) _ k); auto.
      + apply (cp_dir _ _ _ _ Cp). eauto.
      + intros t' v' I B'. apply (cp_dir _ _ _ _ Cp) in I as [(c' & Ic' & <-) _]. now apply M.
    - intros [_ H] t w k I B M. apply (cp_dir _ _ _ _ Cp) in I as [(c & Ic & <-) ->]. apply H; auto.
      intros c' Ic' B'. apply (M _ (v (p_attr c'))); auto. apply (cp_dir _ _ _ _ Cp). eauto.
  Qed.
  Lemma fields_potentials ignore v x : model_fields abc D dbg m ignore v x -> has_potentials abc D m v (so_phi x).
  Proof.
    intros (p & Cp & Cx). destruct (model_problem abc D m W Rm ignore v p Cp) as (Hp & An).
    destruct (minimal abc D OK dbg p x Hp An Cx) as (_ & _ & L & P & _). now apply (prescribed_model ignore v p).
  Qed.
  Lemma work_model ignore v v' p p' a b : conductor_problem mats ignore v p -> conductor_problem mats ignore v' p' ->
    work abc D p a b = work abc D p' a b.
  Proof.
    intros C C'. unfold work. rewrite (problem_eps m ignore v v' p p' C C').
    rewrite (open_points_perm D p p'); [reflexivity|]. eapply Permutation_trans; [apply (cp_open _ _ _ _ C)|].
    apply Permutation_sym, (cp_open _ _ _ _ C').
  Qed.
  Lemma work_sym p a b : work abc D p a b = work abc D p b a.
  Proof. unfold work, grad2. f_equal; apply Rsum_ext; intros; ring. Qed.

  Lemma gauss_reciprocal ignore conds : gauss abc D dbg m ignore -> in_order mats conds -> reciprocal F dbg m ignore conds.
  Proof.
    intros Gs [Pm _] i j p q x y a b Nij Ei Ej Ux Uy Ca Cb. apply unit_fields in Ux, Uy.
    assert (Ip : In p (pecs mats)) by (apply (Permutation_in _ Pm); eapply nth_error_In; exact Ei).
    assert (Iq : In q (pecs mats)) by (apply (Permutation_in _ Pm); eapply nth_error_In; exact Ej).
    pose proof (fields_potentials _ _ _ Ux) as Hx. pose proof (fields_potentials _ _ _ Uy) as Hy.
    destruct Ux as (px & Cpx & Cx), Uy as (py & Cpy & Cy).
    rewrite (Gs _ px x q _ a Cpx Cx Iq Hy Ca), (Gs _ py y p _ b Cpy Cy Ip Hx Cb).
    rewrite work_sym. eapply work_model; eassumption.
  Qed.
  (** work of a combination *)
  Lemma work_combination p N c (us : nat -> list R) y psi : (forall j, (j < N)%nat -> List.length (us j) = n) ->
    List.length y = n -> (forall k, nth k y 0 = Sum N (fun j => c j * nth k (us j) 0)) ->
    work abc D p y psi = Sum N (fun j => c j * work abc D p (us j) psi).
  Proof.
    intros L Ly E. unfold work. pose proof (fun a => dot_combination a y n N c us Ly L E) as A.
    rewrite (Sum_ext N _ (fun j => Rsum (di_grad D) (fun q => c j * (g_weight q * eps_of (si_eps p) (g_attr q) * grad2 q (us j) psi)) +
      Rsum (open_points D p) (fun q => c j * (b_weight q * abc (b_pos q) * (dot (b_shape q) (us j) * dot (b_shape q) psi))))).
    - rewrite Sum_plus, !Sum_Rsum. f_equal; apply Rsum_ext; intros q _.
      + unfold grad2. rewrite !A.
        rewrite (Sum_ext N (fun j => c j * (g_weight q * _ * _)) (fun j => g_weight q * eps_of (si_eps p) (g_attr q) * (c j * dot (g_x q) (us j) * dot (g_x q) psi + c j * dot (g_y q) (us j) * dot (g_y q) psi))) by (intros; ring).
        rewrite Sum_scal, Sum_plus, !Sum_scal_r. reflexivity.
      + rewrite !A. rewrite (Sum_ext N (fun j => c j * (b_weight q * abc (b_pos q) * _)) (fun j => b_weight q * abc (b_pos q) * (c j * dot (b_shape q) (us j) * dot (b_shape q) psi))) by (intros; ring).
        rewrite Sum_scal, Sum_scal_r. reflexivity.
    - intros j _. rewrite !Rsum_scal. ring.
  Qed.
  (** sum of potential times charge = work *)
  Lemma charge_work ignore conds us V v x p Q : gauss abc D dbg m ignore -> in_order mats conds ->
    Forall2 (fun p u => unit_solution F dbg mats ignore (p_attr p) u) conds us ->
    (forall j q, nth_error conds j = Some q -> v (p_attr q) = V j) ->
    conductor_problem mats ignore v p -> computes abc D dbg p x ->
    (forall j q, nth_error conds j = Some q -> charge_on F x (p_attr q) (Q j)) ->
    Sum (List.length conds) (fun i => V i * Q i) = work abc D p (so_phi x) (so_phi x).
  Proof.
    intros Gs O Fu Hv Cp Cx HQ. assert (Fx : model_fields abc D dbg m ignore v x) by (exists p; auto).
    pose proof (conductor_combination abc D dbg m W Rm ignore conds us V v x O Fu Hv Fx) as Cb.
    assert (L : List.length us = List.length conds) by (apply Forall2_length in Fu; auto).
    pose (d0 := {| so_phi := []; so_e := []; so_d := [] |} : solution R).
    assert (Hu : forall j u, nth_error us j = Some u -> exists q, nth_error conds j = Some q /\ unit_solution F dbg mats ignore (p_attr q) u).
    { intros j u Eu. apply (Forall2_nth_r _ _ _ j u Fu) in Eu as (q & Eq & U). eauto. }
    rewrite (work_combination p (List.length us) V (fun j => so_phi (nth j us d0)) (so_phi x) (so_phi x)).
    - rewrite L. apply Sum_ext. intros i Li. f_equal.
      destruct (nth_error us i) as [u|] eqn:Eu; [|apply nth_error_None in Eu; lia].
      destruct (Hu i u Eu) as (q & Eq & U). apply unit_fields in U.
      rewrite work_sym, (nth_error_nth us i d0 Eu). apply (Gs v p x q _ _ Cp Cx).
      + apply (Permutation_in _ (proj1 O)). eapply nth_error_In; exact Eq.
      + now apply (fields_potentials ignore).
      + now apply HQ.
    - intros j Lj. destruct (nth_error us j) as [u|] eqn:Eu; [|apply nth_error_None in Eu; lia]. rewrite (nth_error_nth us j d0 Eu).
      destruct (Hu j u Eu) as (q & Eq & U). apply unit_fields in U. apply (fields_potentials _ _ _ U).
    - apply (fields_potentials _ _ _ Fx).
    - intros k. destruct (Cb k) as (E & _). unfold entry in E. rewrite E. apply Sum_ext. intros j _. f_equal.
      change (@nil R) with (so_phi d0). now rewrite map_nth.
  Qed.
  Lemma work_nonneg ignore v p z : conductor_problem mats ignore v p -> 0 <= work abc D p z z.
  Proof.
    intros Cp. destruct (model_problem abc D m W Rm ignore v p Cp) as (Hp & An).
    destruct (computes_exists abc D OK dbg p Hp) as (x & Cx).
    destruct (computes_inv abc D OK dbg p x Hp Cx) as (s & ess & phi0 & Es & So & _).
    rewrite <- (one_work abc D OK dbg p Hp s ess phi0 So). apply (workc_nonneg abc D OK).
    - apply (one_pos abc D OK dbg p Hp s ess phi0 So).
    - apply (one_abc abc D OK dbg p Hp s ess phi0 So).
  Qed.
  Lemma work_zero ignore v p z : conductor_problem mats ignore v p -> work abc D p z z = 0 ->
    flat D z /\ forall q, at_open D m q -> dot (b_shape q) z = 0.
  Proof.
    intros Cp E. destruct (model_problem abc D m W Rm ignore v p Cp) as (Hp & An).
    destruct (computes_exists abc D OK dbg p Hp) as (x & Cx).
    destruct (computes_inv abc D OK dbg p x Hp Cx) as (s & ess & phi0 & Es & So & _).
    rewrite <- (one_work abc D OK dbg p Hp s ess phi0 So) in E. apply (workc_zero abc D OK) in E as [E1 E2].
    - split; [exact E1|]. intros q A. apply E2; [apply A|]. apply (open_points_model D m ignore v p q Cp) in A.
      unfold open_points in A. apply filter_In in A as [I M].
      rewrite (open_marked abc D p (s_open s)); [exact M|apply (po_inputs _ _ _ Hp)|apply (sf_open _ _ _ _ _ _ _ So)|apply (to_abc D OK q I)].
    - apply (one_pos abc D OK dbg p Hp s ess phi0 So).
    - apply (one_abc abc D OK dbg p Hp s ess phi0 So).
  Qed.
  Hypothesis Cm : connected_mesh abc D m.
  Lemma flat_constant v z c : has_potentials abc D m v z -> flat D z -> In c (pecs mats) ->
    exists w, z = repeat w n /\ v (p_attr c) = w.
  Proof.
    intros [L H] Fl Ic. destruct (cm_connected _ _ _ Cm z L Fl) as (w & ->). exists w. split; [reflexivity|].
    destruct (cm_visible _ _ _ Cm c Ic) as (k & B & M). specialize (H c k Ic B M).
    rewrite nth_const in H by apply (on_bdr_lt abc D OK _ k B). congruence.
  Qed.
End Gauss.

Section Driver.
  Variable abc : R * R -> R.
  Variable disc : mesh R -> Z -> discretization R.
  Variable dbg : bool.
  Variable moment : R * R -> nat -> nat -> R * R -> R.
  Notation femlib := (fun ms k => discretize abc (disc ms k)).
  Variable m : model R.
  Variable o : driver_options.
  Variable d0 : driver R.
  Variable ops : list dop.
  Variable conds : list (pec R).
  Notation D := (disc (mo_mesh m) (o_order o)).
  Notation F := (discretize abc D).
  Notation mats := (mo_mats m).
  Notation N := (List.length conds).
  Notation Reply op := (reply dbg femlib moment op (after dbg femlib moment ops d0)).
  Hypothesis W : well_posed F m.
  Hypothesis Rm : regular_model abc D m.
  Hypothesis B : built dbg femlib m o d0.
  Hypothesis O : in_order mats conds.

  Lemma gc_openness ignore g w : Reply (CallGeneralizedC ignore) = (Ok (VMatrix g), w) ->
    exists op, determineOpenness dbg m = Ok op /\ (N = 1%nat -> op <> Closed).
  Proof.
    intros Em. destruct (determineOpenness dbg m) as [op| |] eqn:Eo.
    - exists op. split; [reflexivity|]. intros L1 ->.
      destruct (built_solid dbg femlib _ _ _ W B) as (conds' & O' & _ & S).
      rewrite (in_order_unique _ _ _ O' O) in S.
      apply (after_solid dbg femlib moment m o conds d0 ops) in S.
      2:{ apply Forall_forall. intros; right; exact Rmul0. }
      destruct (gc_single dbg femlib m o conds O ignore _ S Eo L1) as [msg Es].
      unfold reply, call in Em. rewrite (cbind_throw _ _ _ _ _ _ Es) in Em. discriminate.
    - exfalso. unfold reply, call, getGeneralizedCMatrix, cbind, cget, clift in Em.
      rewrite (D_model dbg femlib moment Rmul0 m o d0 ops W B) in Em. rewrite Eo in Em.
      destruct (idToAttr_PEC _); discriminate.
    - exfalso. unfold reply, call, getGeneralizedCMatrix, cbind, cget, clift in Em.
      rewrite (D_model dbg femlib moment Rmul0 m o d0 ops W B) in Em. rewrite Eo in Em.
      destruct (idToAttr_PEC _); discriminate.
  Qed.
  Lemma gc_entries ignore g w : Reply (CallGeneralizedC ignore) = (Ok (VMatrix g), w) ->
    square N g /\ forall us i j p q x y a b, Forall2 (fun p u => unit_solution F dbg mats ignore (p_attr p) u) conds us ->
      nth_error conds i = Some p -> nth_error conds j = Some q -> nth_error us i = Some x -> nth_error us j = Some y ->
      charge_on F x (p_attr q) a -> charge_on F y (p_attr p) b -> ent g i j = (a + b) / 2.
  Proof.
    intros E. destruct (gc_openness _ _ _ E) as (op & Eo & N1).
    destruct (generalized_matrix dbg femlib moment m o d0 ops conds ignore op W B O Eo N1) as (g' & w' & E' & S1 & S2 & V).
    rewrite E' in E. injection E as <- <-. split; [split; assumption|].
    intros us i j p q x y a b Fu Ei Ej Ex Ey. apply V; auto.
    - destruct (Forall2_nth_r _ _ _ i x Fu Ex) as (p' & Ep & U). congruence.
    - destruct (Forall2_nth_r _ _ _ j y Fu Ey) as (p' & Ep & U). congruence.
  Qed.
  Lemma g_charges ignore g w V v x i p : reciprocal F dbg m ignore conds ->
    Reply (CallGeneralizedC ignore) = (Ok (VMatrix g), w) ->
    (forall j q, nth_error conds j = Some q -> v (p_attr q) = V j) -> model_fields abc D dbg m ignore v x ->
    nth_error conds i = Some p -> charge_on F x (p_attr p) (charge g V i).
  Proof.
    intros Rc E Hv Fx Ei. destruct (gc_entries _ _ _ E) as ((S1 & S2) & G).
    destruct (units_exist abc D dbg m W Rm ignore conds) as (us & Fu).
    assert (L : List.length us = N) by (apply Forall2_length in Fu; auto).
    assert (Li : (i < N)%nat) by (apply nth_error_Some; congruence).
    unfold charge. rewrite S2.
    rewrite (Sum_ext N _ (fun j => V j * ent g i j)) by (intros; ring).
    apply (charges_of_fields abc D dbg m W Rm ignore conds us V v x _ (ent g i) O Fu Hv Fx).
    intros j u Eu. destruct (Forall2_nth_r _ _ _ j u Fu Eu) as (q & Eq & U).
    destruct (nth_error us i) as [ui|] eqn:Eui; [|apply nth_error_None in Eui; lia].
    destruct (Forall2_nth_r _ _ _ i ui Fu Eui) as (p' & Ep' & Ui). assert (p' = p) by congruence. subst p'.
    pose proof (chargeF abc D ui (p_attr q)) as Ca. pose proof (chargeF abc D u (p_attr p)) as Cb.
    rewrite (G us i j p q ui u _ _ Fu Ei Eq Eui Eu Ca Cb).
    destruct (Nat.eq_dec i j) as [->|Nij].
    - assert (ui = u) by congruence. assert (p = q) by congruence. subst. 
      match goal with |- charge_on _ _ _ ((?a + ?a) / 2) => replace ((a + a) / 2) with a by field end. exact Ca.
    - rewrite (Rc i j p q ui u _ _ Nij Ei Eq Ui U Ca Cb).
      match goal with |- charge_on _ _ _ ((?a + ?a) / 2) => replace ((a + a) / 2) with a by field end. exact Cb.
  Qed.
  Lemma closed_model : determineOpenness dbg m = Ok Closed -> openBoundaries mats = [].
  Proof.
    unfold determineOpenness. intros E. apply bind_ok in E as (_ & _ & E). destruct (openBoundaries mats) as [|ob l]; [reflexivity|].
    exfalso. cbn [List.length Nat.eqb] in E. revert E. generalize (ob :: l). intros l'. induction l' as [|o' l' IH]; cbn [openness_loop]; [discriminate|].
    destruct (elementsFormOpenLoops _) as [b| |]; cbn [bind]; try discriminate. destruct b; [exact IH|discriminate].
  Qed.
  Lemma open_model op : determineOpenness dbg m = Ok op -> op <> Closed -> openBoundaries mats <> [].
  Proof.
    unfold determineOpenness. intros E Ne E0. rewrite E0 in E. cbn in E. apply bind_ok in E as (_ & _ & [= <-]). congruence.
  Qed.
  Lemma closed_rows ignore g w : reciprocal F dbg m ignore conds -> determineOpenness dbg m = Ok Closed -> constants_ok D ->
    Reply (CallGeneralizedC ignore) = (Ok (VMatrix g), w) -> forall i, (i < N)%nat -> Sum N (fun k => ent g i k) = 0.
  Proof.
    intros Rc Eo Co E i Li. destruct (nth_error conds i) as [p|] eqn:Ep; [|apply nth_error_None in Ep; lia].
    destruct (model_fields_exist abc D dbg m W Rm ignore (fun _ => 1)) as (x & Hx).
    destruct (constant_fields abc D dbg m W Rm ignore 1 _ x (closed_model Eo) Co (fun _ _ => eq_refl) Hx) as (_ & _ & Ed).
    pose proof (g_charges ignore g w (fun _ => 1) _ x i p Rc E (fun _ _ _ => eq_refl) Hx Ep) as C1.
    pose proof (charge_on_fun abc D _ _ _ _ C1 (no_charge abc D x (p_attr p) Ed)) as Z. unfold charge in Z.
    destruct (gc_entries _ _ _ E) as ((S1 & S2) & _). rewrite S2 in Z. refine (eq_trans _ Z). apply Sum_ext. intros; ring.
  Qed.
  Lemma closed_total ignore g w : determineOpenness dbg m = Ok Closed -> constants_ok D ->
    Reply (CallGeneralizedC ignore) = (Ok (VMatrix g), w) -> total g = 0.
  Proof.
    intros Eo Co E. destruct (gc_entries _ _ _ E) as ((S1 & S2) & G).
    destruct (units_exist abc D dbg m W Rm ignore conds) as (us & Fu).
    assert (L : List.length us = N) by (apply Forall2_length in Fu; auto).
    set (dof i := match nth_error us i with Some u => so_d u | None => [] end).
    set (tag j := match nth_error conds j with Some p => p_attr p | None => 0%Z end).
    set (Q i j := flux_form F (fun q => if (q_attr q =? tag j)%Z then - 1 else 0) (dof i)).
    assert (HQ : forall i j u p, nth_error us i = Some u -> nth_error conds j = Some p -> charge_on F u (p_attr p) (Q i j)).
    { intros i j u p Eu Ep. pose proof (chargeF abc D u (p_attr p)) as X. unfold Q, dof, tag. rewrite Eu, Ep. exact X. }
    unfold total. rewrite S1, S2.
    rewrite (Sum_ext N _ (fun i => Sum N (fun j => / 2 * Q i j) + Sum N (fun j => / 2 * Q j i))).
    2:{ intros i Li. rewrite <- Sum_plus. apply Sum_ext. intros j Lj.
        destruct (nth_error conds i) as [p|] eqn:Ep; [|apply nth_error_None in Ep; lia].
        destruct (nth_error conds j) as [q|] eqn:Eq; [|apply nth_error_None in Eq; lia].
        destruct (nth_error us i) as [x|] eqn:Ex; [|apply nth_error_None in Ex; lia].
        destruct (nth_error us j) as [y|] eqn:Ey; [|apply nth_error_None in Ey; lia].
        rewrite (G us i j p q x y _ _ Fu Ep Eq Ex Ey (HQ i j x q Ex Eq) (HQ j i y p Ey Ep)). field. }
    assert (Z : forall j, (j < N)%nat -> Sum N (fun i => Q i j) = 0).
    { intros j Lj. destruct (nth_error conds j) as [q|] eqn:Eq; [|apply nth_error_None in Eq; lia].
      apply (closed_unit_charges abc D dbg m W Rm ignore conds us (p_attr q) (fun i => Q i j) (closed_model Eo) Co O Fu).
      intros i u Eu. exact (HQ i j u q Eu Eq). }
    rewrite Sum_plus, Sum_exchange. rewrite (Sum_zero N (fun j => Sum N (fun i => / 2 * Q i j))).
    - ring.
    - intros j Lj. rewrite Sum_scal, Z by exact Lj. ring.
  Qed.

  (** ** Homogeneous medium *)
  Lemma homogeneous_g er ge gm we wm : determineOpenness dbg m = Ok Closed -> 0 < er ->
    (forall d, In d (dielectrics mats) -> d_epsr d = er) ->
    (forall q, In q (di_grad D) -> In (g_attr q) (map d_attr (dielectrics mats))) ->
    (forall q, In q (di_mix D) -> In (x_attr q) (map d_attr (dielectrics mats))) ->
    Reply (CallGeneralizedC false) = (Ok (VMatrix ge), we) -> Reply (CallGeneralizedC true) = (Ok (VMatrix gm), wm) ->
    forall i j, (i < N)%nat -> (j < N)%nat -> ent ge i j = er * ent gm i j.
  Proof.
    intros Eo Per He Tg Tx Ee Em i j Li Lj.
    destruct (gc_entries _ _ _ Ee) as (_ & Ge). destruct (gc_entries _ _ _ Em) as (_ & Gm).
    destruct (units_exist abc D dbg m W Rm false conds) as (us & Fu). destruct (units_exist abc D dbg m W Rm true conds) as (us' & Fu').
    assert (L : List.length us = N) by (apply Forall2_length in Fu; auto).
    assert (L' : List.length us' = N) by (apply Forall2_length in Fu'; auto).
    destruct (nth_error conds i) as [p|] eqn:Ep; [|apply nth_error_None in Ep; lia].
    destruct (nth_error conds j) as [q|] eqn:Eq; [|apply nth_error_None in Eq; lia].
    destruct (nth_error us i) as [x|] eqn:Ex; [|apply nth_error_None in Ex; lia].
    destruct (nth_error us j) as [y|] eqn:Ey; [|apply nth_error_None in Ey; lia].
    destruct (nth_error us' i) as [x'|] eqn:Ex'; [|apply nth_error_None in Ex'; lia].
    destruct (nth_error us' j) as [y'|] eqn:Ey'; [|apply nth_error_None in Ey'; lia].
    assert (G : forall k c u u', nth_error conds k = Some c -> nth_error us k = Some u -> nth_error us' k = Some u' ->
       forall t a, charge_on F u' t a -> charge_on F u t (er * a)).
    { intros k c u u' Ec Eu Eu' t a Ca. destruct (Forall2_nth_r _ _ _ k u Fu Eu) as (c1 & Ec1 & U). destruct (Forall2_nth_r _ _ _ k u' Fu' Eu') as (c2 & Ec2 & U').
      assert (c1 = c2) by congruence. subst c2. apply unit_fields in U, U'.
      destruct (homogeneous_fields abc D dbg m W Rm er _ u u' (closed_model Eo) Per He Tg Tx U U') as (_ & _ & Ed).
      pose proof (chargeF abc D u t) as X. rewrite Ed in X. pose proof (chargeF abc D u' t) as Y.
      rewrite (charge_on_fun abc D _ _ _ _ Ca Y). 
      match type of X with charge_on _ _ _ ?r => replace (er * _) with r; [exact X|] end.
      rewrite !flux_form_Rsum, <- Rsum_scal. apply Rsum_ext. intros fq _. unfold flux_at.
      assert (Lu : List.length (so_d u') = di_nRT D) by (apply (fields_sized abc D dbg m W _ _ _ U')).
      rewrite !(dot_sum (q_w fq) _ (di_nRT D)) by (unfold vscale; rewrite ?map_length; exact Lu).
      rewrite <- !Sum_scal. apply Sum_ext. intros k0 _. unfold vscale.
      replace (nth k0 (map (fun v0 => er * v0) (so_d u')) 0) with (er * nth k0 (so_d u') 0); [ring|].
      rewrite <- (map_nth (fun v0 => er * v0)). f_equal. ring. }
    pose proof (chargeF abc D x' (p_attr q)) as Ca. pose proof (chargeF abc D y' (p_attr p)) as Cb.
    rewrite (Gm us' i j p q x' y' _ _ Fu' Ep Eq Ex' Ey' Ca Cb).
    rewrite (Ge us i j p q x y _ _ Fu Ep Eq Ex Ey (G i p x x' Ep Ex Ex' _ _ Ca) (G j q y y' Eq Ey Ey' _ _ Cb)). field.
  Qed.
  Lemma homogeneous_pul er p w k : determineOpenness dbg m = Ok Closed -> 0 < er ->
    (forall d, In d (dielectrics mats) -> d_epsr d = er) ->
    (forall q, In q (di_grad D) -> In (g_attr q) (map d_attr (dielectrics mats))) ->
    (forall q, In q (di_mix D) -> In (x_attr q) (map d_attr (dielectrics mats))) -> N = S k ->
    Reply CallPUL = (Ok (VPul p), w) ->
    square k (pul_L p) /\ square k (pul_C p) /\
    product_is k (pul_L p) (pul_C p) (mu0 * eps0 * er) /\ product_is k (pul_C p) (pul_L p) (mu0 * eps0 * er).
  Proof.
    intros Eo Per He Tg Tx Ln E. destruct (PUL_inv dbg femlib moment Rmul0 m o d0 ops W B p w E) as (C & L & w1 & w2 & EC & EL & ->).
    pose proof (D_model dbg femlib moment Rmul0 m o d0 ops W B) as Dm.
    destruct (C_inv _ _ _ _ _ _ EC) as (ge & op & Ee & Eo1 & ->).
    destruct (L_inv _ _ _ _ _ _ EL) as (gm & op' & Em & Eo' & Inv). rewrite Dm, Eo in Eo1, Eo'. injection Eo1 as <-. injection Eo' as <-.
    destruct (gc_entries _ _ _ Ee) as (Se & _). destruct (gc_entries _ _ _ Em) as (Sm & _). rewrite Ln in *.
    pose proof (reduced_size ge k Se Closed) as Re. pose proof (reduced_size gm k Sm Closed) as Rm'.
    destruct (invert_product _ k Rm' L Inv) as (Sl & P1 & P2).
    pose proof (homogeneous_g er ge gm _ _ Eo Per He Tg Tx Ee Em) as V. rewrite Ln in V.
    assert (X : forall i j, (i < k)%nat -> (j < k)%nat -> ent (getCFromGeneralizedC ge Closed) i j = er * ent (getCFromGeneralizedC gm Closed) i j).
    { intros i j Li Lj. rewrite !reduced_closed. apply V; lia. }
    split; [exact Sl|]. split; [exact Re|]. cbn [pul_L pul_C mscale ent]. rewrite eps0_value, mu0_value.
    split; intros i j Li Lj; cbn [ent mscale nmul RNum].
    - specialize (P2 i j Li Lj). 
      rewrite (Sum_ext k _ (fun l => mu0 * eps0 * er * (ent L i l * ent (getCFromGeneralizedC gm Closed) l j))).
      + rewrite Sum_scal, P2. destruct (i =? j)%nat; ring.
      + intros l Lk. rewrite X by auto. ring.
    - specialize (P1 i j Li Lj). 
      rewrite (Sum_ext k _ (fun l => mu0 * eps0 * er * (ent (getCFromGeneralizedC gm Closed) i l * ent L l j))).
      + rewrite Sum_scal, P1. destruct (i =? j)%nat; ring.
      + intros l Lk. rewrite X by auto. ring.
  Qed.

  (** ** Positive matrices *)
  Lemma g_quad ignore g w V v p x : gauss abc D dbg m ignore ->
    Reply (CallGeneralizedC ignore) = (Ok (VMatrix g), w) ->
    (forall j q, nth_error conds j = Some q -> v (p_attr q) = V j) ->
    conductor_problem mats ignore v p -> computes abc D dbg p x -> quad g V = work abc D p (so_phi x) (so_phi x).
  Proof.
    intros Gs E Hv Cp Cx. destruct (units_exist abc D dbg m W Rm ignore conds) as (us & Fu).
    pose proof (gauss_reciprocal abc D dbg m W Rm ignore conds Gs O) as Rc. destruct (gc_entries _ _ _ E) as ((S1 & _) & _).
    unfold quad. rewrite S1. apply (charge_work abc D dbg m W Rm ignore conds us V v x p (charge g V) Gs O Fu Hv Cp Cx).
    intros j q Ej. apply (g_charges ignore g w V v x j q Rc E Hv); auto. exists p; auto.
  Qed.
  Lemma g_positive ignore g w : gauss abc D dbg m ignore -> connected_mesh abc D m -> constants_ok D ->
    Reply (CallGeneralizedC ignore) = (Ok (VMatrix g), w) ->
    positive_for_differences g /\ (openBoundaries mats <> [] -> 0 < total g).
  Proof.
    intros Gs Cm Co E. destruct (gc_entries _ _ _ E) as ((S1 & S2) & _).
    assert (Hx : forall V, exists v p x, (forall j q, nth_error conds j = Some q -> v (p_attr q) = V j) /\
        conductor_problem mats ignore v p /\ computes abc D dbg p x /\ has_potentials abc D m v (so_phi x) /\
        quad g V = work abc D p (so_phi x) (so_phi x)).
    { intros V. destruct (by_tag conds V (order_tags abc D m Rm conds O)) as (v & Hv).
      destruct (model_fields_exist abc D dbg m W Rm ignore v) as (x & p & Cp & Cx). exists v, p, x.
      split; [exact Hv|]. split; [exact Cp|]. split; [exact Cx|]. split.
      - apply (fields_potentials abc D dbg m W Rm ignore). exists p; auto.
      - now apply (g_quad ignore g w V v). }
    split.
    - intros V (k & Lk & Nk). destruct (Hx V) as (v & p & x & Hv & Cp & Cx & Hp & ->).
      pose proof (work_nonneg abc D dbg m W Rm ignore v p (so_phi x) Cp) as Nn.
      destruct (Req_dec (work abc D p (so_phi x) (so_phi x)) 0) as [Z|]; [|lra]. exfalso.
      destruct (work_zero abc D dbg m W Rm ignore v p _ Cp Z) as [Fl _]. rewrite S1 in Lk.
      assert (L0 : (0 < N)%nat) by lia.
      destruct (nth_error conds k) as [pk|] eqn:Ek; [|apply nth_error_None in Ek; lia].
      destruct (nth_error conds 0) as [q0|] eqn:E0; [|apply nth_error_None in E0; lia].
      assert (Ik : In pk (pecs mats)) by (apply (Permutation_in _ (proj1 O)); eapply nth_error_In; exact Ek).
      assert (I0 : In q0 (pecs mats)) by (apply (Permutation_in _ (proj1 O)); eapply nth_error_In; exact E0).
      destruct (flat_constant abc D m Rm Cm v _ pk Hp Fl Ik) as (w1 & E1 & V1).
      destruct (flat_constant abc D m Rm Cm v _ q0 Hp Fl I0) as (w2 & E2 & V2).
      assert (Wk : w1 = w2).
      { destruct (cm_visible _ _ _ Cm pk Ik) as (kk & Bk & _). pose proof (on_bdr_lt abc D (rm_tables _ _ _ Rm) _ kk Bk) as Lkk.
        assert (Q : Some w1 = Some w2) by (rewrite <- (nth_const w1 _ kk Lkk), <- (nth_const w2 _ kk Lkk), <- E1, <- E2; reflexivity). congruence. }
      rewrite (Hv _ _ Ek) in V1. rewrite (Hv _ _ E0) in V2. congruence.
    - intros No. destruct (Hx (fun _ => 1)) as (v & p & x & Hv & Cp & Cx & Hp & Eq).
      assert (T : total g = quad g (fun _ => 1)).
      { unfold total, quad, charge. apply Sum_ext. intros i _. rewrite Rmult_1_l. apply Sum_ext. intros; ring. }
      rewrite T, Eq. pose proof (work_nonneg abc D dbg m W Rm ignore v p (so_phi x) Cp) as Nn.
      destruct (Req_dec (work abc D p (so_phi x) (so_phi x)) 0) as [Z|]; [|lra]. exfalso.
      destruct (work_zero abc D dbg m W Rm ignore v p _ Cp Z) as [Fl Op].
      destruct (openBoundaries mats) as [|ob l] eqn:Eob; [congruence|].
      destruct (cm_open _ _ _ Cm ob) as (q & Iq & Aq); [rewrite Eob; now left|].
      assert (Aq' : at_open D m q) by (split; [exact Iq|exists ob; rewrite Eob; split; [now left|auto]]).
      pose proof (rm_conductors _ _ _ Rm) as Nc. destruct conds as [|c l'] eqn:Ec.
      { apply Nc. apply Permutation_nil. exact (proj1 O). }
      assert (Ic : In c (pecs mats)) by (apply (Permutation_in _ (proj1 O)); now left).
      destruct (flat_constant abc D m Rm Cm v _ c Hp Fl Ic) as (w1 & E1 & V1).
      rewrite (Hv 0%nat c eq_refl) in V1. subst w1. specialize (Op q Aq'). rewrite E1, (co_shape D Co q Iq) in Op. lra.
  Qed.
End Driver.
