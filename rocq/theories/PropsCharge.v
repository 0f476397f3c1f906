(** Properties C36, C37, C38, C55, C56: charges, moments, averages and energy. *)
From Verif Require Import Prelude StdMap Matrix Multipole Solver SpecSolver RSum SpecCharge ChargeProofs.
From Coq Require Import Reals Lra.
Open Scope R_scope.
Open Scope list_scope.

(** A mesh with a conductor (tag 1) at (1,0), an open boundary (tag 2) at (3,0), one degree of
    freedom each for the flux; two quadrature points for potentials and energy. *)
Definition ex_fem : fem R :=
  {| fe_nH1 := 2; fe_nND := 1; fe_nRT := 2; fe_bdrMax := 2; fe_domMax := 1;
     fe_bdrDofs := [(1%Z, [0%nat]); (2%Z, [1%nat])];
     fe_flux := [{| q_attr := 1; q_pos := (1, 0); q_w := [1; 0] |};
                 {| q_attr := 2; q_pos := (3, 0); q_w := [0; 1] |}];
     fe_bdrPhi := [(1%Z, [2; 0]); (2%Z, [0; 2])];
     fe_domPhi := [(1%Z, [1; 1])];
     fe_energy := [{| y_attr := 1; y_weight := 2; y_x := [1]; y_y := [0] |}];
     fe_phi := fun _ _ _ _ phi0 _ => phi0; fe_e := fun _ => [0]; fe_d := fun _ _ => [0; 0] |}.
Definition ex_solver (d : list R) : solver R :=
  {| s_params := {| si_dirichlet := [(1%Z, 1)]; si_neumann := []; si_open := [2%Z]; si_eps := [(1%Z, 3)] |};
     s_ess := [true; false]; s_open := [false; true]; s_eps := EpsPW [3]; s_sigma := [0; 0]; s_elim := None;
     s_phi := [5; 5]; s_e := [2]; s_d := d |}.

(** ** C36 *)
(** The claim with the opposite sign: getTotalCharge is minus the sum of the charges. *)
Theorem C36_total_is_minus_the_sum_partial :
  forall (F : fem R) (s : solver R) (tags : list Z), NoDup tags -> covers F tags ->
    getTotalCharge F s = - Rsum tags (getChargeInBoundary F s).
Proof. exact total_charge_sum. Qed.
Print Assumptions C36_total_is_minus_the_sum_partial.

(** The charge in a boundary is minus the flux out of the mesh through it: the charge that the
    conductor on the other side has. *)
Theorem C36_charge_in_boundary :
  forall (F : fem R) (s : solver R) (a : Z),
    getChargeInBoundary F s a = - flux_out F (s_d s) (fun t => (t =? a)%Z).
Proof. exact charge_in_boundary_flux. Qed.
Print Assumptions C36_charge_in_boundary.

Theorem C36_sign_refuted :
  exists (F : fem R) (s : solver R) (tags : list Z), NoDup tags /\ covers F tags /\
    getTotalCharge F s <> Rsum tags (getChargeInBoundary F s).
Proof.
  exists ex_fem, (ex_solver [1; 0]), [1; 2]%Z.
  assert (ND : NoDup [1; 2]%Z) by (repeat constructor; cbn; intuition lia).
  assert (Cv : covers ex_fem [1; 2]%Z) by (intros q [<-|[<-|[]]]; cbn; auto).
  split; [exact ND|]. split; [exact Cv|]. intros E.
  pose proof (total_charge_sum _ (ex_solver [1; 0]) _ ND Cv) as E2. rewrite E2 in E.
  assert (getTotalCharge ex_fem (ex_solver [1; 0]) = 1) by (rewrite total_charge_flux; unfold flux_out, flux_at; cbn; lra).
  lra.
Qed.
Print Assumptions C36_sign_refuted.

(** ** C37 *)
(** Proved when the fluxes through all the boundaries add up to zero (Gauss: no charge inside
    the mesh) and the conductors are charged. *)
Theorem C37_dipole_vanishes_partial :
  forall (F : fem R) (s : solver R) (opn : Z) (order : nat) (ab : list (R * R)),
    si_open (s_params s) = [opn] -> ~ In opn (chargedBoundaries s) ->
    covers F (opn :: chargedBoundaries s) ->
    flux_out F (s_d s) (fun _ => true) = 0 -> flux_out F (s_d s) (fun t => (t =? opn)%Z) <> 0 ->
    (0 < order)%nat ->
    getMultipolarCoefficients F momentComponent s order = Ok ab ->
    nth_error ab 1 = Some (0, 0).
Proof. exact dipole_vanishes. Qed.
Print Assumptions C37_dipole_vanishes_partial.

Example C37_example :
  exists ab, getMultipolarCoefficients ex_fem momentComponent (ex_solver [1; -1]) 1 = Ok ab /\
    si_open (s_params (ex_solver [1; -1])) = [2%Z] /\
    ~ In 2%Z (chargedBoundaries (ex_solver [1; -1])) /\
    covers ex_fem (2%Z :: chargedBoundaries (ex_solver [1; -1])) /\
    flux_out ex_fem [1; -1] (fun _ => true) = 0 /\
    flux_out ex_fem [1; -1] (fun t => (t =? 2)%Z) <> 0.
Proof.
  eexists. split; [reflexivity|]. split; [reflexivity|]. split; [cbn; intuition lia|].
  split; [intros q [<-|[<-|[]]]; cbn; auto|]. unfold flux_out, flux_at. cbn. split; lra.
Qed.

(** Otherwise (the discrete fluxes do not balance exactly) it need not vanish. *)
Theorem C37_unbalanced_flux_refuted :
  exists (F : fem R) (s : solver R) (opn : Z) (ab : list (R * R)),
    si_open (s_params s) = [opn] /\ ~ In opn (chargedBoundaries s) /\
    covers F (opn :: chargedBoundaries s) /\
    flux_out F (s_d s) (fun t => zmem t (chargedBoundaries s)) <> 0 /\
    getMultipolarCoefficients F momentComponent s 1 = Ok ab /\
    nth_error ab 1 <> Some (0, 0).
Proof.
  exists ex_fem, (ex_solver [1; 0]), 2%Z.
  destruct (getMultipolarCoefficients ex_fem momentComponent (ex_solver [1; 0]) 1) as [ab|e|u] eqn:E; try discriminate.
  exists ab. split; [reflexivity|]. split; [cbn; intuition lia|].
  split; [intros q [<-|[<-|[]]]; cbn; auto|].
  split; [unfold flux_out, flux_at; cbn; lra|]. split; [reflexivity|].
  destruct (multipolar_shape _ _ _ _ _ E) as [_ H]. destruct (H 1%nat) as (c & Ec & ->); [lia|].
  unfold getCenterOfCharge in Ec. cbn [ex_solver s_params si_open] in Ec.
  apply (f_equal (fun o => match o with Ok c => c | _ => (0, 0) end)) in Ec. cbv beta iota in Ec.
  change (ex_solver [1; 0]) with (ex_solver [1; 0]) in Ec.
  fold (ex_solver [1; 0]) in Ec.
  rewrite (first_moment_shift ex_fem (ex_solver [1; 0]) 0 c).
  assert (M : getChargeMomentComponent ex_fem momentComponent (ex_solver [1; 0]) 1 0 (0, 0) = -1).
  { cbn [getChargeMomentComponent]. rewrite flux_form_Rsum. cbn [ex_fem fe_flux]. rewrite !Rsum_cons, Rsum_nil.
    cbn [q_attr zmem chargedBoundaries ex_solver s_params si_dirichlet si_neumann map fst app existsb Z.eqb Pos.eqb orb].
    destruct (moment1 (q_pos {| q_attr := 1; q_pos := (1, 0); q_w := [1; 0] |}) (0, 0)) as [-> _].
    unfold flux_at. cbn. lra. }
  assert (Fc : fst c = -1).
  { rewrite <- Ec. cbn [fst]. change n0 with 0.
    change (getChargeMomentComponent ex_fem momentComponent (ex_solver [1; 0]) 1 0 (0, 0) /
      (getTotalCharge ex_fem (ex_solver [1; 0]) - getChargeInBoundary ex_fem (ex_solver [1; 0]) 2) = -1).
    rewrite M, total_charge_flux, charge_in_boundary_flux. unfold flux_out, flux_at. cbn. field. }
  rewrite M, Fc. intros [= A _]. revert A. unfold flux_out, flux_at. cbn. lra.
Qed.
Print Assumptions C37_unbalanced_flux_refuted.

(** ** C38 *)
Theorem C38_shape_and_first_coefficient :
  forall (F : fem R) (moment : R * R -> nat -> nat -> R * R -> R) (s : solver R) (order : nat) ab,
    getMultipolarCoefficients F moment s order = Ok ab ->
    NoDup (chargedBoundaries s) ->
    List.length ab = S order /\
    nth_error ab 0 = Some (- flux_out F (s_d s) (fun t => zmem t (chargedBoundaries s)), 0) /\
    forall dbg, expansion_assert dbg ab = Ok tt.
Proof. exact multipolar_first. Qed.
Print Assumptions C38_shape_and_first_coefficient.

(** charged boundaries: those with a prescribed potential or surface charge *)
Theorem C38_charged_boundaries :
  forall (s : solver R) (t : Z), In t (chargedBoundaries s) <->
    In t (map fst (si_dirichlet (s_params s))) \/ In t (map fst (si_neumann (s_params s))).
Proof. intros s t. apply in_app_iff. Qed.

Theorem C38_linear_in_the_field :
  forall (F : fem R) (moment : R * R -> nat -> nat -> R * R -> R) (s : solver R) (n k : nat) (center : R * R)
         (d1 d2 : list R) (a b : R), List.length d1 = List.length d2 ->
    getChargeMomentComponent F moment (with_d s (vadd (vscale a d1) (vscale b d2))) n k center =
    a * getChargeMomentComponent F moment (with_d s d1) n k center +
    b * getChargeMomentComponent F moment (with_d s d2) n k center.
Proof. exact moment_linear. Qed.
Print Assumptions C38_linear_in_the_field.

(** Coefficients exist exactly for problems with one open boundary. *)
Theorem C38_defined_for_one_open_boundary :
  forall (F : fem R) (moment : R * R -> nat -> nat -> R * R -> R) (s : solver R) (order : nat),
    (exists opn, si_open (s_params s) = [opn]) <-> is_ok (getMultipolarCoefficients F moment s order).
Proof. exact multipolar_defined. Qed.
Print Assumptions C38_defined_for_one_open_boundary.

Example C38_example :
  exists ab, getMultipolarCoefficients ex_fem momentComponent (ex_solver [1; -1]) 3 = Ok ab /\
    NoDup (chargedBoundaries (ex_solver [1; -1])) /\ nth_error ab 0 = Some (-1, 0).
Proof.
  destruct (getMultipolarCoefficients ex_fem momentComponent (ex_solver [1; -1]) 3) as [ab|e|u] eqn:E; try discriminate.
  exists ab. split; [reflexivity|]. assert (ND : NoDup (chargedBoundaries (ex_solver [1; -1]))) by (repeat constructor; cbn; tauto).
  split; [exact ND|]. destruct (multipolar_first _ _ _ _ _ E ND) as (_ & -> & _).
  f_equal. f_equal. unfold flux_out, flux_at. cbn. lra.
Qed.

(** ** C55 *)
Theorem C55_average_of_a_constant :
  forall (F : fem R) (s : solver R) (t : Z) (c : R),
    s_phi s = repeat c (fe_nH1 F) ->
    (h1_form (fe_domPhi F) t (repeat 1 (fe_nH1 F)) <> 0 -> getAveragePotentialInDomain F s t = c) /\
    (h1_form (fe_bdrPhi F) t (repeat 1 (fe_nH1 F)) <> 0 -> getAveragePotentialInBoundary F s t = c).
Proof. exact average_const. Qed.
Print Assumptions C55_average_of_a_constant.
(** the area of a tag is not zero as soon as one of its weights is positive and none is negative *)
Theorem C55_tags_have_area :
  forall (n : nat) (pts : list (Z * list R)) (t : Z),
    (forall w k, In (t, w) pts -> 0 <= nth k w 0) ->
    (exists w k, In (t, w) pts /\ (k < n)%nat /\ 0 < nth k w 0) ->
    h1_form pts t (repeat 1 n) <> 0.
Proof. exact area_positive. Qed.
Print Assumptions C55_tags_have_area.

Theorem C55_average_is_linear :
  forall (F : fem R) (s : solver R) (t : Z) (b c : R) (x y : list R), List.length x = List.length y ->
    getAveragePotentialInDomain F (with_phi s (vadd (vscale b x) (vscale c y))) t =
      b * getAveragePotentialInDomain F (with_phi s x) t + c * getAveragePotentialInDomain F (with_phi s y) t /\
    getAveragePotentialInBoundary F (with_phi s (vadd (vscale b x) (vscale c y))) t =
      b * getAveragePotentialInBoundary F (with_phi s x) t + c * getAveragePotentialInBoundary F (with_phi s y) t.
Proof. exact average_linear. Qed.
Print Assumptions C55_average_is_linear.

(** only the degrees of freedom that have a weight in the elements with the tag matter *)
Theorem C55_average_is_local :
  forall (F : fem R) (s : solver R) (t : Z) (x y : list R), List.length x = List.length y ->
    ((forall w k, In (t, w) (fe_domPhi F) -> nth k w 0 <> 0 -> nth k x 0 = nth k y 0) ->
     getAveragePotentialInDomain F (with_phi s x) t = getAveragePotentialInDomain F (with_phi s y) t) /\
    ((forall w k, In (t, w) (fe_bdrPhi F) -> nth k w 0 <> 0 -> nth k x 0 = nth k y 0) ->
     getAveragePotentialInBoundary F (with_phi s x) t = getAveragePotentialInBoundary F (with_phi s y) t).
Proof. exact average_local. Qed.
Print Assumptions C55_average_is_local.

(** with weights that are not negative (e.g. order 1) the average is between the extremes *)
Theorem C55_average_is_between :
  forall (F : fem R) (s : solver R) (t : Z) (lo hi : R), List.length (s_phi s) = fe_nH1 F ->
    (forall v, In v (s_phi s) -> lo <= v <= hi) ->
    ((forall w k, In (t, w) (fe_domPhi F) -> 0 <= nth k w 0) ->
     h1_form (fe_domPhi F) t (repeat 1 (fe_nH1 F)) <> 0 -> lo <= getAveragePotentialInDomain F s t <= hi) /\
    ((forall w k, In (t, w) (fe_bdrPhi F) -> 0 <= nth k w 0) ->
     h1_form (fe_bdrPhi F) t (repeat 1 (fe_nH1 F)) <> 0 -> lo <= getAveragePotentialInBoundary F s t <= hi).
Proof.
  intros F s t lo hi L B. split; [now apply average_between|].
  exact (average_between {| fe_nH1 := fe_nH1 F; fe_nND := fe_nND F; fe_nRT := fe_nRT F; fe_bdrMax := fe_bdrMax F; fe_domMax := fe_domMax F;
       fe_bdrDofs := fe_bdrDofs F; fe_flux := fe_flux F; fe_bdrPhi := fe_bdrPhi F; fe_domPhi := fe_bdrPhi F; fe_energy := fe_energy F;
       fe_phi := fe_phi F; fe_e := fe_e F; fe_d := fe_d F |} s t lo hi L B).
Qed.
Print Assumptions C55_average_is_between.

Example C55_example :
  s_phi (ex_solver [0; 0]) = repeat 5 (fe_nH1 ex_fem) /\
  h1_form (fe_domPhi ex_fem) 1 (repeat 1 (fe_nH1 ex_fem)) = 2 /\
  getAveragePotentialInDomain ex_fem (ex_solver [0; 0]) 1 = 5.
Proof. split; [reflexivity|]. unfold getAveragePotentialInDomain, h1_form. cbn. lra. Qed.

(** ** C56 *)
Theorem C56_energy_formula :
  forall (F : fem R) (s : solver R),
    NoDup (map fst (si_eps (s_params s))) ->
    Forall (fun ae => 0 < fst ae <= fe_domMax F)%Z (si_eps (s_params s)) -> energy_tags_ok F ->
    getTotalEnergy F s = Ok (energy_spec F (si_eps (s_params s)) (s_e s)).
Proof. exact energy_formula. Qed.
Print Assumptions C56_energy_formula.
Theorem C56_energy_is_not_negative :
  forall (F : fem R) (s : solver R) (w : R),
    Forall (fun ae => 0 < snd ae) (si_eps (s_params s)) ->
    Forall (fun ae => 0 < fst ae <= fe_domMax F)%Z (si_eps (s_params s)) ->
    NoDup (map fst (si_eps (s_params s))) -> energy_tags_ok F ->
    (forall y, In y (fe_energy F) -> 0 <= y_weight y) ->
    getTotalEnergy F s = Ok w -> 0 <= w.
Proof. exact total_energy_nonneg. Qed.
Print Assumptions C56_energy_is_not_negative.
Theorem C56_energy_scales_with_the_square_of_the_field :
  forall (F : fem R) (s : solver R) (c w : R),
    NoDup (map fst (si_eps (s_params s))) ->
    Forall (fun ae => 0 < fst ae <= fe_domMax F)%Z (si_eps (s_params s)) -> energy_tags_ok F ->
    getTotalEnergy F s = Ok w -> getTotalEnergy F (with_e s (vscale c (s_e s))) = Ok (c ^ 2 * w).
Proof. exact total_energy_scale. Qed.
Print Assumptions C56_energy_scales_with_the_square_of_the_field.
(** every material has a permittivity in the map (as the Driver passes them) *)
Theorem C56_energy_is_proportional_to_the_permittivity :
  forall (F : fem R) (s s2 : solver R) (c w : R),
    NoDup (map fst (si_eps (s_params s))) ->
    Forall (fun ae => 0 < fst ae <= fe_domMax F)%Z (si_eps (s_params s)) -> energy_tags_ok F ->
    (forall y, In y (fe_energy F) -> In (y_attr y) (map fst (si_eps (s_params s)))) ->
    si_eps (s_params s2) = map (fun ae => (fst ae, c * snd ae)) (si_eps (s_params s)) ->
    s_e s2 = s_e s ->
    getTotalEnergy F s = Ok w -> getTotalEnergy F s2 = Ok (c * w).
Proof. exact total_energy_eps. Qed.
Print Assumptions C56_energy_is_proportional_to_the_permittivity.
Example C56_example :
  energy_tags_ok ex_fem /\ NoDup (map fst (si_eps (s_params (ex_solver [0; 0])))) /\
  Forall (fun ae => 0 < fst ae <= fe_domMax ex_fem)%Z (si_eps (s_params (ex_solver [0; 0]))) /\
  energy_spec ex_fem (si_eps (s_params (ex_solver [0; 0]))) (s_e (ex_solver [0; 0])) = 12.
Proof.
  split; [intros y [<-|[]]; cbn; lia|]. split; [repeat constructor; cbn; tauto|].
  split; [repeat constructor; cbn; lia|]. unfold energy_spec. cbn. lra.
Qed.

Print Assumptions C38_charged_boundaries.
