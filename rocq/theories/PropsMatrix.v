(** Properties C24-C29, C49: the capacitance and inductance matrices. *)
From Coq Require Import QArith Reals Lra Floats.
From Verif Require Import Prelude StdMap Json Materials Graph ModelM Parser Matrix Solver Domain Results Driver
  SpecInput SpecModel SpecSolver SpecDriver SpecMatrix RSum DriverProofs DriverFacts MatrixProofs MatrixCalls MatrixFacts Toy.
Open Scope R_scope.
Open Scope list_scope.

(** ** C24 *)
(** charge g V i is sum_k g(i,k) V_k (SpecMatrix.v). *)
Theorem C24_closed_reduction :
  forall (g : matrix R) (n : nat), square (S n) g ->
    (forall i, (i < n)%nat -> Sum (S n) (fun k => ent g (S i) k) = 0) ->
    square n (getCFromGeneralizedC g Closed) /\
    forall (V : nat -> R) i, (i < n)%nat ->
      charge g V (S i) = Sum n (fun j => ent (getCFromGeneralizedC g Closed) i j * (V (S j) - V 0%nat)).
Proof.
  intros g n Sq Z. split; [now apply reduced_size|]. intros V i L. apply closed_charges; auto.
  rewrite (proj2 Sq). auto.
Qed.
Print Assumptions C24_closed_reduction.
(** With conductor 0 at 0 V the rows need not add up to zero, and no other matrix does it. *)
Theorem C24_reference_is_conductor_0 :
  forall (g : matrix R) (n : nat) (c : nat -> nat -> R), square (S n) g ->
    (forall i j, (i < n)%nat -> (j < n)%nat -> c i j = ent (getCFromGeneralizedC g Closed) i j) <->
    (forall V i, (i < n)%nat -> V 0%nat = 0 -> charge g V (S i) = Sum n (fun j => c i j * (V (S j) - V 0%nat))).
Proof.
  intros g n c Sq. split; [|now apply closed_unique]. intros E V i L Z.
  rewrite (charge_shift g n Sq), Z, Rmult_0_l, Rplus_0_r. apply Sum_ext. intros j Lj. now rewrite E.
Qed.
Print Assumptions C24_reference_is_conductor_0.
Theorem C24_getCMatrix_of_closed_problems :
  forall (dbg : bool) femlib moment (d : driver R) (g : matrix R) w (n : nat),
    reply dbg femlib moment (CallGeneralizedC false) d = (Ok (VMatrix g), w) ->
    determineOpenness dbg (dr_model d) = Ok Closed -> nr g = S n ->
    (forall i, (i < n)%nat -> Sum (S n) (fun k => ent g (S i) k) = 0) ->
    exists C, reply dbg femlib moment CallC d = (Ok (VMatrix C), w) /\ square n C /\
      forall (V : nat -> R) i, (i < n)%nat ->
        charge g V (S i) = Sum n (fun j => ent C i j * (V (S j) - V 0%nat)).
Proof.
  intros dbg femlib moment d g w n E Eo L Z. exists (getCFromGeneralizedC g Closed).
  split; [exact (reply_C _ _ _ _ _ _ _ E Eo)|]. destruct (gc_run _ _ _ _ _ _ _ E) as [S _].
  apply C24_closed_reduction; auto. split; congruence.
Qed.
Print Assumptions C24_getCMatrix_of_closed_problems.

(** Matrices of two rows for the examples, and the driver of the toy problem (Toy.v). *)
Definition two (a b : R) : matrix R := {| nr := 2; nc := 2; ent := fun i j => if (i =? j)%nat then a else b |}.
Lemma toy_built op : exists d, built true toy_lib (toy_model op 2%R) toy_options d.
Proof.
  destruct (mkDriver_ok true toy_lib (toy_model op 2%R) toy_options (toy_posed op 2%R _) toy_conds (toy_order op 2%R) ltac:(discriminate))
    as (d & E & _). exists d. eexists; exact E.
Qed.
Lemma toy_generalized op ignore ops d : built true toy_lib (toy_model op 2%R) toy_options d ->
  exists g w, reply true toy_lib (fun _ _ _ _ => 0%R) (CallGeneralizedC ignore) (after true toy_lib (fun _ _ _ _ => 0%R) ops d) = (Ok (VMatrix g), w) /\ nr g = 2%nat.
Proof.
  intros B. destruct (generalized_matrix true toy_lib (fun _ _ _ _ => 0%R) (toy_model op 2%R) toy_options d ops toy_conds ignore op
    (toy_posed op 2%R _) B (toy_order op 2%R) (toy_openness _ _ _) ltac:(discriminate)) as (g & w & E & N & _).
  eauto.
Qed.
Example C24_example :
  square 2 (two 3 (-3)) /\ (forall i, (i < 1)%nat -> Sum 2 (fun k => ent (two 3 (-3)) (S i) k) = 0) /\
  exists d g w, built true toy_lib (toy_model Closed 2%R) toy_options d /\
    reply true toy_lib (fun _ _ _ _ => 0%R) (CallGeneralizedC false) d = (Ok (VMatrix g), w) /\ nr g = 2%nat.
Proof.
  split; [split; reflexivity|]. split.
  - intros i L. replace i with 0%nat by lia. unfold Sum, Rsum; cbn. lra.
  - destruct (toy_built Closed) as [d B]. destruct (toy_generalized Closed false [] d B) as (g & w & E & L). exists d, g, w. auto.
Qed.

(** ** C25 *)
(** total g: the sum of all entries. Any other openness than closed. *)
Theorem C25_charge_neutral_reduction :
  forall (g : matrix R) (n : nat) (o : openness), square (S n) g -> o <> Closed -> total g <> 0 ->
    square n (getCFromGeneralizedC g o) /\
    (forall (V : nat -> R) i, (i < n)%nat -> Sum (S n) (charge g V) = 0 ->
       charge g V (S i) = Sum n (fun j => ent (getCFromGeneralizedC g o) i j * (V (S j) - V 0%nat))) /\
    (forall c : nat -> nat -> R,
       (forall V i, (i < n)%nat -> Sum (S n) (charge g V) = 0 ->
          charge g V (S i) = Sum n (fun j => c i j * (V (S j) - V 0%nat))) ->
       forall i j, (i < n)%nat -> (j < n)%nat -> c i j = ent (getCFromGeneralizedC g o) i j).
Proof.
  intros g n o Sq No Nt. split; [now apply reduced_size|]. split.
  - intros V i L Q. apply open_charges; auto. now rewrite (proj1 Sq).
  - intros c Hc. apply open_unique; auto. intros V i L Q. rewrite (proj1 Sq) in Q. auto.
Qed.
Print Assumptions C25_charge_neutral_reduction.
(** There are such potentials for any given differences. *)
Theorem C25_neutral_potentials_exist :
  forall (g : matrix R) (n : nat) (W : nat -> R), square (S n) g -> total g <> 0 ->
    exists V, Sum (S n) (charge g V) = 0 /\ forall j, V (S j) - V 0%nat = W j.
Proof.
  intros g n W Sq Nt. exists (neutral g n W). split.
  - pose proof (neutral_total g n Sq W Nt) as E. now rewrite (proj1 Sq) in E.
  - apply neutral_diff.
Qed.
Print Assumptions C25_neutral_potentials_exist.
Theorem C25_getCMatrix_of_open_problems :
  forall (dbg : bool) femlib moment (d : driver R) (g : matrix R) w (o : openness) (n : nat),
    reply dbg femlib moment (CallGeneralizedC false) d = (Ok (VMatrix g), w) ->
    determineOpenness dbg (dr_model d) = Ok o -> o <> Closed -> nr g = S n -> total g <> 0 ->
    exists C, reply dbg femlib moment CallC d = (Ok (VMatrix C), w) /\ square n C /\
      forall (V : nat -> R) i, (i < n)%nat -> Sum (S n) (charge g V) = 0 ->
        charge g V (S i) = Sum n (fun j => ent C i j * (V (S j) - V 0%nat)).
Proof.
  intros dbg femlib moment d g w o n E Eo No L Nt. exists (getCFromGeneralizedC g o).
  split; [exact (reply_C _ _ _ _ _ _ _ E Eo)|]. destruct (gc_run _ _ _ _ _ _ _ E) as [S _].
  assert (Sq : square (Datatypes.S n) g) by (split; congruence).
  destruct (C25_charge_neutral_reduction g n o Sq No Nt) as (X & Y & _). auto.
Qed.
Print Assumptions C25_getCMatrix_of_open_problems.
Example C25_example :
  square 2 (two 4 (-1)) /\ total (two 4 (-1)) = 6 /\
  ent (getCFromGeneralizedC (two 4 (-1)) Open) 0 0 = 5 / 2 /\
  exists d g w, built true toy_lib (toy_model Open 2%R) toy_options d /\
    reply true toy_lib (fun _ _ _ _ => 0%R) (CallGeneralizedC false) d = (Ok (VMatrix g), w) /\ nr g = 2%nat.
Proof.
  split; [split; reflexivity|]. split; [unfold total, Sum, Rsum; cbn; lra|]. split; [cbn; lra|].
  destruct (toy_built Open) as [d B]. destruct (toy_generalized Open false [] d B) as (g & w & E & L). exists d, g, w. auto.
Qed.

(** ** C26 *)
Theorem C26_C_matrix_bitwise_symmetric :
  forall (dbg : bool) femlib moment (d : driver float) (C : matrix float) w,
    reply dbg femlib moment CallC d = (Ok (VMatrix C), w) ->
    forall i j, ent C i j = ent C j i.
Proof. exact C_bitwise. Qed.
Print Assumptions C26_C_matrix_bitwise_symmetric.
(** The same for any matrix given to the public reduction. *)
Theorem C26_reduction_keeps_bitwise_symmetry :
  forall (g : matrix float) (o : openness), nr g = nc g -> (forall i j, ent g i j = ent g j i) ->
    forall i j, ent (getCFromGeneralizedC g o) i j = ent (getCFromGeneralizedC g o) j i.
Proof. exact reduced_bitwise. Qed.
Print Assumptions C26_reduction_keeps_bitwise_symmetry.
Example C26_example :
  match mkDriver true toy_lib (toy_model Open 2%float) toy_options tt with
  | ((Ok d, _), _) =>
      match fst (reply true toy_lib (fun _ _ _ _ => 0%float) CallC d) with Ok (VMatrix C) => Some (ent C 0 0) | _ => None end
  | _ => None
  end = Some 3%float.
Proof. vm_compute. reflexivity. Qed.

(** ** C27 *)
Theorem C27_C_is_symmetric_positive_definite :
  forall (dbg : bool) femlib moment (d : driver R) (g : matrix R) w (o : openness) (n : nat),
    reply dbg femlib moment (CallGeneralizedC false) d = (Ok (VMatrix g), w) ->
    determineOpenness dbg (dr_model d) = Ok o -> nr g = S n ->
    positive_for_differences g -> (o <> Closed -> 0 < total g) ->
    exists C, reply dbg femlib moment CallC d = (Ok (VMatrix C), w) /\ square n C /\
      symmetric C /\ positive_definite C.
Proof.
  intros dbg femlib moment d g w o n E Eo L P Q. exists (getCFromGeneralizedC g o).
  split; [exact (reply_C _ _ _ _ _ _ _ E Eo)|]. destruct (gc_run _ _ _ _ _ _ _ E) as [S _].
  assert (Sq : square (Datatypes.S n) g) by (split; congruence).
  assert (Sy : symmetric g) by (intros i j _ _; eapply gc_symmetric; exact E).
  split; [now apply reduced_size|]. split; [now apply (reduced_symmetric g n Sq)|now apply (reduced_pd g n Sq)].
Qed.
Print Assumptions C27_C_is_symmetric_positive_definite.
Theorem C27_L_exists_and_is_symmetric_positive_definite :
  forall (dbg : bool) femlib moment (d : driver R) (g : matrix R) w (o : openness) (n : nat),
    reply dbg femlib moment (CallGeneralizedC true) d = (Ok (VMatrix g), w) ->
    determineOpenness dbg (dr_model d) = Ok o -> nr g = S n ->
    positive_for_differences g -> (o <> Closed -> 0 < total g) ->
    exists L, reply dbg femlib moment CallL d = (Ok (VMatrix L), w) /\ square n L /\
      symmetric L /\ positive_definite L /\
      product_is n (getCFromGeneralizedC g o) L 1 /\ product_is n L (getCFromGeneralizedC g o) 1.
Proof.
  intros dbg femlib moment d g w o n E Eo Ln P Q. destruct (gc_run _ _ _ _ _ _ _ E) as [S _].
  assert (Sq : square (Datatypes.S n) g) by (split; congruence).
  assert (Sy : symmetric g) by (intros i j _ _; eapply gc_symmetric; exact E).
  pose proof (reduced_size g n Sq o) as Sr.
  pose proof (reduced_symmetric g n Sq o Sy) as Cy. pose proof (reduced_pd g n Sq o Sy P Q) as Cp.
  destruct (LinAlg.injective_invert (getCFromGeneralizedC g o)) as [L EL].
  - destruct Sr; congruence.
  - exact (pd_injective _ n Sr Cp).
  - destruct (invert_product _ n Sr L EL) as (SL & P1 & P2). exists L.
    split; [rewrite (reply_L _ _ _ _ _ _ _ E Eo), EL; reflexivity|]. split; [exact SL|].
    split; [exact (inverse_sym _ n Sr L Cy SL P1 P2)|]. split; [exact (inverse_pd _ n Sr L Cp SL P1)|]. auto.
Qed.
Print Assumptions C27_L_exists_and_is_symmetric_positive_definite.
(** A vacuum matrix without an inverse is an error, of getLMatrix and of getPULMTL: no inductance
    that is not an inverse is ever returned. *)
Theorem C32_singular_vacuum_matrix_throws :
  forall (dbg : bool) femlib moment (m : model R) (opts : driver_options) (d0 : driver R) (ops : list dop) (g : matrix R) w (o : openness) (n : nat),
    well_posed (femlib (mo_mesh m) (o_order opts)) m -> built dbg femlib m opts d0 ->
    let d := after dbg femlib moment ops d0 in
    reply dbg femlib moment (CallGeneralizedC true) d = (Ok (VMatrix g), w) ->
    determineOpenness dbg m = Ok o -> nr g = S n ->
    (~ exists L, product_is n (getCFromGeneralizedC g o) L 1) ->
    reply dbg femlib moment CallL d = (Throw MfemError, w) /\
    forall p w', reply dbg femlib moment CallPUL d <> (Ok (VPul p), w').
Proof.
  intros dbg femlib moment m opts d0 ops g w o n W B d E Eo Ln Si. unfold d in *.
  assert (Eo' : determineOpenness dbg (dr_model (after dbg femlib moment ops d0)) = Ok o) by now rewrite (D_model dbg femlib moment Rmul0 m opts d0 ops W B).
  destruct (gc_run _ _ _ _ _ _ _ E) as [S _].
  assert (Sq : square (Datatypes.S n) g) by (split; congruence).
  pose proof (reduced_size g n Sq o) as Sr.
  assert (Ei : invert (getCFromGeneralizedC g o) = Throw MfemError).
  { destruct (invert (getCFromGeneralizedC g o)) as [L|e|u] eqn:EL.
    - exfalso. destruct (invert_product _ n Sr L EL) as (_ & P & _). apply Si. now exists L.
    - f_equal. clear -EL. unfold invert in EL. destruct (mapM _ _) as [cols|e'|u'] eqn:Em; cbn in EL; [discriminate|injection EL as <-|discriminate].
      revert Em. generalize (seq 0 (nr (getCFromGeneralizedC g o))) as l. induction l as [|k l IH]; cbn; [discriminate|].
      destruct (solve_system _ _); cbn; [|congruence]. destruct (mapM _ l) eqn:El; cbn; [discriminate|intros E; injection E as E; subst; apply IH; exact eq_refl || exact El|discriminate].
    - exfalso. clear -EL. unfold invert in EL. destruct (mapM _ _) as [cols|e'|u'] eqn:Em; cbn in EL; [discriminate|discriminate|].
      revert Em. generalize (seq 0 (nr (getCFromGeneralizedC g o))) as l. induction l as [|k l IH]; cbn; [discriminate|].
      destruct (solve_system _ _); cbn; [|discriminate]. destruct (mapM _ l) eqn:El; cbn; [discriminate|discriminate|intros E; injection E as E; subst; apply IH; exact eq_refl || exact El]. }
  pose proof (reply_L _ _ _ _ _ _ _ E Eo') as El. rewrite Ei in El. split; [exact El|].
  intros p w' Ep. destruct (PUL_inv dbg femlib moment Rmul0 m opts d0 ops W B p w' Ep) as (C & L & w1 & w2 & _ & E2 & _). pose proof (eq_trans (eq_sym El) E2) as K. discriminate K.
Qed.
Print Assumptions C32_singular_vacuum_matrix_throws.
(** Computed: a discretization without fluxes (no conductor is charged) has the vacuum matrix 0. *)
Definition chargeless_lib : mesh Q -> Z -> fem Q :=
  fun ms o => let F := toy_lib ms o in
    {| fe_nH1 := fe_nH1 F; fe_nND := fe_nND F; fe_nRT := fe_nRT F; fe_bdrMax := fe_bdrMax F; fe_domMax := fe_domMax F;
       fe_bdrDofs := fe_bdrDofs F; fe_flux := []; fe_bdrPhi := fe_bdrPhi F; fe_domPhi := fe_domPhi F; fe_energy := fe_energy F;
       fe_phi := fe_phi F; fe_e := fe_e F; fe_d := fe_d F |}.
Example C32_example_singular :
  match mkDriver true chargeless_lib (toy_model Closed 2%Q) toy_options tt with
  | ((Ok d, _), _) =>
      (match fst (reply true chargeless_lib (fun _ _ _ _ => 0%Q) (CallGeneralizedC true) d) with
       | Ok (VMatrix g) => Some (nr g, ent (getCFromGeneralizedC g Closed) 0 0) | _ => None end,
       fst (reply true chargeless_lib (fun _ _ _ _ => 0%Q) CallL d))
  | _ => (None, Throw MfemError)
  end = (Some (2%nat, 0%Q), Throw MfemError).
Proof. vm_compute. reflexivity. Qed.
(** A positive definite generalized matrix meets the hypotheses (that of a closed problem is
    only positive for potentials that differ). *)
Theorem C27_positive_definite_suffices :
  forall g : matrix R, positive_definite g -> (0 < nr g)%nat -> nr g = nc g ->
    positive_for_differences g /\ 0 < total g.
Proof. exact pd_spd. Qed.
Print Assumptions C27_positive_definite_suffices.
Example C27_example : positive_for_differences (two 3 (-3)) /\ positive_definite (two 4 (-1)).
Proof.
  assert (Q : forall a b V, quad (two a b) V = a * (V 0%nat * V 0%nat + V 1%nat * V 1%nat) + 2 * b * V 0%nat * V 1%nat).
  { intros a b V. unfold quad, charge, Sum, Rsum; cbn. ring. }
  split; intros V (k & L & N); cbn in L; rewrite Q.
  - assert (k = 1%nat) as ->.
    { destruct k as [|[|k]]; [congruence|reflexivity|lia]. }
    assert (0 < (V 1%nat - V 0%nat) * (V 1%nat - V 0%nat)) by (apply Rsqr_pos_lt; lra). nra.
  - destruct k as [|[|k]]; [| |lia].
    + assert (0 < V 0%nat * V 0%nat) by (apply Rsqr_pos_lt; exact N). pose proof (Rle_0_sqr (V 0%nat - V 1%nat)). unfold Rsqr in *. nra.
    + assert (0 < V 1%nat * V 1%nat) by (apply Rsqr_pos_lt; exact N). pose proof (Rle_0_sqr (V 0%nat - V 1%nat)). unfold Rsqr in *. nra.
Qed.

(** ** C28 *)
(** eps0 = 8.8541878176e-12, mu0 = 4 pi 1e-7 (SpecMatrix.v). *)
Theorem C28_units :
  forall (dbg : bool) femlib moment (m : model R) (o : driver_options) (d : driver R) (ops : list dop)
         (C L : matrix R) w1 w2,
    well_posed (femlib (mo_mesh m) (o_order o)) m -> built dbg femlib m o d ->
    reply dbg femlib moment CallC (after dbg femlib moment ops d) = (Ok (VMatrix C), w1) ->
    reply dbg femlib moment CallL (after dbg femlib moment ops d) = (Ok (VMatrix L), w2) ->
    exists p w, reply dbg femlib moment CallPUL (after dbg femlib moment ops d) = (Ok (VPul p), w) /\
      nr (pul_C p) = nr C /\ nc (pul_C p) = nc C /\ nr (pul_L p) = nr L /\ nc (pul_L p) = nc L /\
      forall i j, ent (pul_C p) i j = eps0 * ent C i j /\ ent (pul_L p) i j = mu0 * ent L i j.
Proof. intros. eapply pul_units; eassumption. Qed.
Print Assumptions C28_units.
Theorem C28_vacuum_identity :
  forall (dbg : bool) femlib moment (m : model R) (o : driver_options) (d : driver R) (ops : list dop)
         (conds : list (pec R)) (p : pul R) w (n : nat),
    well_posed (femlib (mo_mesh m) (o_order o)) m -> built dbg femlib m o d -> in_order (mo_mats m) conds ->
    (forall q, In q (dielectrics (mo_mats m)) -> d_epsr q = 1) -> List.length conds = S n ->
    reply dbg femlib moment CallPUL (after dbg femlib moment ops d) = (Ok (VPul p), w) ->
    square n (pul_L p) /\ square n (pul_C p) /\
    product_is n (pul_L p) (pul_C p) (mu0 * eps0) /\ product_is n (pul_C p) (pul_L p) (mu0 * eps0).
Proof. intros. eapply pul_vacuum; eassumption. Qed.
Print Assumptions C28_vacuum_identity.
(** The toy problem in vacuum returns PUL parameters. *)
Example C28_example :
  match mkDriver true toy_lib (toy_model Closed 1%Q) toy_options tt with
  | ((Ok d, _), _) =>
      match fst (reply true toy_lib (fun _ _ _ _ => 0%Q) CallPUL d) with
      | Ok (VPul p) => Some (nr (pul_L p), nr (pul_C p)) | _ => None end
  | _ => None
  end = Some (1, 1)%nat.
Proof. vm_compute. reflexivity. Qed.

(** ** C29 *)
(** floats C i V: V_i = 1 and no other conductor has charge. In open problems C is the generalized
    matrix, in closed ones that matrix without conductor 0. *)
Theorem C29_floating_potentials :
  forall (dbg : bool) femlib moment (m : model R) (o : driver_options) (d : driver R) (ops : list dop)
         (conds : list (pec R)) (op : openness) (ge gm e f : matrix R) we wm w,
    well_posed (femlib (mo_mesh m) (o_order o)) m -> built dbg femlib m o d -> in_order (mo_mats m) conds ->
    (2 <= List.length conds)%nat -> determineOpenness dbg m = Ok op -> op <> SemiOpen ->
    reply dbg femlib moment (CallGeneralizedC false) (after dbg femlib moment ops d) = (Ok (VMatrix ge), we) ->
    reply dbg femlib moment (CallGeneralizedC true) (after dbg femlib moment ops d) = (Ok (VMatrix gm), wm) ->
    reply dbg femlib moment CallFloating (after dbg femlib moment ops d) = (Ok (VMatrices e f), w) ->
    forall C fp, (C, fp) = (match op with Closed => grounded ge | _ => ge end, e) \/
                 (C, fp) = (match op with Closed => grounded gm | _ => gm end, f) ->
    square (nr C) fp /\
    forall i, (i < nr C)%nat ->
      floats C i (ent fp i) /\ forall V, floats C i V -> forall j, (j < nr C)%nat -> V j = ent fp i j.
Proof. intros. eapply floating_potentials; eassumption. Qed.
Print Assumptions C29_floating_potentials.
Theorem C29_positive_definite_matrices_are_regular :
  forall (dbg : bool) femlib moment (m : model R) (o : driver_options) (d : driver R) (ops : list dop)
         (conds : list (pec R)) (op : openness) (ge gm : matrix R) we wm,
    well_posed (femlib (mo_mesh m) (o_order o)) m -> built dbg femlib m o d -> in_order (mo_mats m) conds ->
    (2 <= List.length conds)%nat -> determineOpenness dbg m = Ok op -> op <> SemiOpen ->
    reply dbg femlib moment (CallGeneralizedC false) (after dbg femlib moment ops d) = (Ok (VMatrix ge), we) ->
    reply dbg femlib moment (CallGeneralizedC true) (after dbg femlib moment ops d) = (Ok (VMatrix gm), wm) ->
    (forall g, g = ge \/ g = gm -> symmetric g /\ positive_definite (match op with Closed => grounded g | _ => g end)) ->
    exists e f w, reply dbg femlib moment CallFloating (after dbg femlib moment ops d) = (Ok (VMatrices e f), w).
Proof. intros. eapply floating_regular; eassumption. Qed.
Print Assumptions C29_positive_definite_matrices_are_regular.
Theorem C29_single_conductor :
  forall (dbg : bool) femlib moment (d : driver R), List.length (pecs (mo_mats (dr_model d))) = 1%nat ->
    exists e f, reply dbg femlib moment CallFloating d = (Ok (VMatrices e f), []) /\
      forall fp, fp = e \/ fp = f -> square 1 fp /\ ent fp 0 0 = 1.
Proof. exact floating_single. Qed.
Print Assumptions C29_single_conductor.
(** Toy problem: generalized matrix eps (2 -1; -1 2), floating potentials 1/2. *)
Example C29_example :
  match mkDriver true toy_lib (toy_model Open 2%Q) toy_options tt with
  | ((Ok d, _), _) =>
      match fst (reply true toy_lib (fun _ _ _ _ => 0%Q) CallFloating d),
            fst (reply true toy_lib (fun _ _ _ _ => 0%Q) (CallGeneralizedC false) d) with
      | Ok (VMatrices e f), Ok (VMatrix g) => Some ((ent g 0 0, ent g 0 1), (ent e 0 1, ent f 1 0)) | _, _ => None end
  | _ => None
  end = Some ((4#1, -2#1)%Q, (1#2, 1#2)%Q).
Proof. vm_compute. reflexivity. Qed.

(** ** C49 *)
Theorem C49_coupling_coefficients :
  forall (p : pul R), nr (pul_C p) = nc (pul_C p) ->
    (forall i, (i < nr (pul_C p))%nat -> ent (pul_C p) i i <> 0) ->
    exists K, getCapacitiveCouplingCoefficients p = Ok K /\ nr K = nr (pul_C p) /\ nc K = nc (pul_C p) /\
      forall i j, (i < nr K)%nat -> (j < nc K)%nat ->
        ent K i i = 1 /\ ent K i j * ent (pul_C p) i i = ent (pul_C p) i j.
Proof.
  intros p Sq Nz. unfold getCapacitiveCouplingCoefficients, coupling_rows_ok.
  rewrite <- Sq, Nat.leb_refl. eexists. split; [reflexivity|]. cbn [nr nc ent]. split; [reflexivity|]. split; [reflexivity|].
  intros i j Li Lj. cbn [ndiv RNum]. specialize (Nz i Li). split; field; exact Nz.
Qed.
Print Assumptions C49_coupling_coefficients.
(** A matrix with more columns than rows is divided row by row as well; one with more rows than columns has no
    diagonal element in its last rows, and reading it is undefined. *)
Theorem C49_matrices_that_are_not_square :
  forall (p : pul R),
    ((nr (pul_C p) <= nc (pul_C p))%nat -> exists K, getCapacitiveCouplingCoefficients p = Ok K /\ nr K = nr (pul_C p) /\ nc K = nc (pul_C p) /\
       forall i j, (i < nr K)%nat -> (j < nc K)%nat -> ent K i j = ent (pul_C p) i j / ent (pul_C p) i i) /\
    ((nc (pul_C p) < nr (pul_C p))%nat -> exists u, getCapacitiveCouplingCoefficients p = Undef u).
Proof.
  intros p. unfold getCapacitiveCouplingCoefficients, coupling_rows_ok. split; intros L.
  - rewrite (proj2 (Nat.leb_le _ _) L). eexists. split; [reflexivity|]. cbn [nr nc ent]. auto.
  - rewrite (proj2 (Nat.leb_gt _ _) L). eauto.
Qed.
Print Assumptions C49_matrices_that_are_not_square.
Theorem C49_unit_diagonal_in_floating_point :
  forall (p : pul float), nr (pul_C p) = nc (pul_C p) ->
    (forall i, (i < nr (pul_C p))%nat -> is_finite (ent (pul_C p) i i) = true /\ is_zero (ent (pul_C p) i i) = false) ->
    exists K, getCapacitiveCouplingCoefficients p = Ok K /\ nr K = nr (pul_C p) /\ nc K = nc (pul_C p) /\
      forall i j, (i < nr K)%nat -> (j < nc K)%nat ->
        ent K i i = 1%float /\ ent K i j = (ent (pul_C p) i j / ent (pul_C p) i i)%float.
Proof.
  intros p Sq Nz. unfold getCapacitiveCouplingCoefficients, coupling_rows_ok.
  rewrite <- Sq, Nat.leb_refl. eexists. split; [reflexivity|]. cbn [nr nc ent]. split; [reflexivity|]. split; [reflexivity|].
  intros i j Li Lj. destruct (Nz i Li) as [Fi Zi]. split; [now apply fdiv_self|reflexivity].
Qed.
Print Assumptions C49_unit_diagonal_in_floating_point.
Example C49_example :
  let C := {| nr := 2; nc := 2; ent := fun i j => if (i =? j)%nat then 0x1.3p-40 else (-0x1p-42) |}%float in
  forall i, (i < nr C)%nat -> is_finite (ent C i i) = true /\ is_zero (ent C i i) = false.
Proof. intros C i _. unfold C; cbn [ent]. rewrite Nat.eqb_refl. split; vm_compute; reflexivity. Qed.
