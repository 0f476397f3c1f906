(** Properties C46, C47, C48: integration planes, box averages and on-box parameters. *)
From Coq Require Import Reals List Sorted Lra QArith.
From Verif Require Import Prelude StdMap Json ModelM Matrix Results Multipole ListLemmas RSum
  SpecMultipole MultipoleProofs SpecBox BoxProofs CellProofs.
From Verif Require SpecMatrix MatrixFacts.
Open Scope R_scope.
Open Scope list_scope.

(** ** C46 *)
Theorem C46_planes_subdivide_the_box :
  forall outer inner : box R, proper outer -> ordered inner -> contained inner outer ->
    exists xs ys, buildIntegrationPlanesForBox outer inner = Ok (xs, ys) /\
      subdivides xs (left outer) (right outer) (left inner) (right inner) /\
      subdivides ys (bottom outer) (top outer) (bottom inner) (top inner).
Proof.
  intros outer inner (P1 & P2) (O1 & O2) C. rewrite (planes_ok _ _ C). destruct C as (C1 & C2 & C3 & C4).
  eexists _, _. split; [reflexivity|]. split; apply planes_subdivide; auto.
Qed.
(** The planes are exactly the equispaced points between neighbouring faces. *)
Theorem C46_which_planes :
  forall (outer inner : box R) xs ys, buildIntegrationPlanesForBox outer inner = Ok (xs, ys) ->
    (forall x, In x xs <-> exists a b, neighbours [left outer; right outer; left inner; right inner] a b /\ equispaced a b x) /\
    (forall y, In y ys <-> exists a b, neighbours [bottom outer; top outer; bottom inner; top inner] a b /\ equispaced a b y).
Proof.
  intros outer inner xs ys E. assert (C : contained inner outer).
  { destruct (Rle_dec (left outer) (left inner)), (Rle_dec (right inner) (right outer)),
      (Rle_dec (bottom outer) (bottom inner)), (Rle_dec (top inner) (top outer));
      try (rewrite planes_throw in E; [discriminate|unfold contained; tauto]). unfold contained; tauto. }
  rewrite (planes_ok _ _ C) in E. injection E as <- <-. split; intros; apply in_planes.
Qed.
Theorem C46_rejection :
  forall outer inner : box R,
    (exists e, buildIntegrationPlanesForBox outer inner = Throw e) <-> ~ contained inner outer.
Proof.
  intros outer inner. split.
  - intros (e & E) C. rewrite (planes_ok _ _ C) in E. discriminate.
  - intros N. eexists. now apply planes_throw.
Qed.
Definition mkbox (a b c d : R) : box R := {| b_min := (a, b); b_max := (c, d) |}.
(** An inner region touching the box on one side. *)
Example C46_example :
  let outer := mkbox 0 (-1) 4 3 in let inner := mkbox 0 0 1 2 in
  proper outer /\ ordered inner /\ contained inner outer /\ ~ contained (mkbox (-1) 0 1 2) outer.
Proof. cbn. unfold proper, ordered, contained, left, right, top, bottom; cbn. lra. Qed.
Example C46_planes_computed :
  match buildIntegrationPlanesForBox {| b_min := (0, 0)%Q; b_max := (4, 4)%Q |} {| b_min := (1, 0)%Q; b_max := (3, 4)%Q |} with
  | Ok (xs, ys) => List.length xs = 301%nat /\ List.length ys = 101%nat
  | _ => False
  end.
Proof. vm_compute. auto. Qed.

(** ** C47 *)
(** [cells] depend on the boxes only. [expansion] is the evaluation of the reconstructed potential
    outside the inner region, with values phi. *)
Theorem C47_integration_over_the_cells :
  forall inner outer : box R, proper outer -> ordered inner -> contained inner outer ->
    exists cells, tiles cells inner outer /\ total cells area = area outer - area inner /\
      forall (expansion : R * R -> list (R * R) -> R * R -> outcome R) (f : fieldrec R) (phi : R * R -> R),
        (forall p, in_box outer p -> ~ in_box inner p -> expansion p (fr_ab f) (fr_center f) = Ok (phi p)) ->
        getAveragePotential expansion f inner outer =
          Ok ((fr_avg f * area inner + total cells (fun c => phi (middle c) * area c)) / area outer).
Proof.
  intros inner outer Po Oi Co.
  destruct (C46_planes_subdivide_the_box outer inner Po Oi Co) as (xs & ys & E & Sx & Sy).
  exists (outer_cells xs ys inner). pose proof (cells_tile inner outer Po xs ys Sx Sy) as Ti. split; [auto|].
  split; [eapply total_area; eauto|]. intros expansion f phi H. unfold getAveragePotential. rewrite E. cbn [bind fst snd n0 RNum].
  rewrite (outer_loop inner xs ys expansion f phi).
  - cbn [bind nadd nmul ndiv RNum]. f_equal. 
    rewrite (total_Rsum _ (fun c => area c * _)), (total_Rsum _ (fun c => _ * area c)).
    rewrite (Rsum_ext _ (fun c => area c * phi (middle c)) (fun c => phi (middle c) * area c)) by (intros; lra). reflexivity.
  - intros c I. pose proof (middle_interior c (ti_proper _ _ _ Ti c I)) as M. apply H.
    + pose proof (ti_inside _ _ _ Ti c I) as K. unfold contained, in_box, interior in *. lra.
    + apply (ti_outside _ _ _ Ti c); auto.
Qed.
(** The expansion the code uses (with its assert, b_0 = 0). *)
Definition code_expansion := multipolarExpansionCall.
Definition b0_zero (ab : list (R * R)) : Prop := match ab with [] => True | c :: _ => snd c = 0 end.
Lemma code_expansion_ok dbg p ab c : b0_zero ab -> code_expansion dbg p ab c = Ok (multipolarExpansion p ab c).
Proof.
  intros B. unfold code_expansion, multipolarExpansionCall, expansion_assert. destruct ab as [|x ab]; [reflexivity|].
  cbn in B. unfold Reqb. destruct Req_EM_T; [|contradiction]. unfold assert_. cbn. now rewrite andb_false_r.
Qed.
Theorem C47_average_of_the_reconstruction :
  forall inner outer : box R, proper outer -> ordered inner -> contained inner outer ->
    exists cells, tiles cells inner outer /\ total cells area = area outer - area inner /\
      forall (dbg : bool) (f : fieldrec R), b0_zero (fr_ab f) ->
        getAveragePotential (code_expansion dbg) f inner outer =
          Ok ((fr_avg f * area inner +
               total cells (fun c => multipolarExpansion (middle c) (fr_ab f) (fr_center f) * area c)) / area outer).
Proof.
  intros inner outer Po Oi Co. destruct (C47_integration_over_the_cells inner outer Po Oi Co) as (cells & T & A & F).
  exists cells. split; [auto|]. split; [auto|]. intros dbg f B.
  apply (F (code_expansion dbg) f (fun p => multipolarExpansion p (fr_ab f) (fr_center f))). intros p _ _. now apply code_expansion_ok.
Qed.
Lemma area_pos b : proper b -> 0 < area b. Proof. intros [A B]. unfold area. apply Rmult_lt_0_compat; lra. Qed.
Lemma area_nonneg b : ordered b -> 0 <= area b. Proof. intros [A B]. unfold area. apply Rmult_le_pos; lra. Qed.
(** Linear: a u + b v of two reconstructions around the same centre. *)
Theorem C47_linear :
  forall (dbg : bool) (inner outer : box R) (f g h : fieldrec R) (a b u v : R),
    proper outer -> ordered inner -> contained inner outer ->
    in_box inner (fr_center f) -> fr_center g = fr_center f -> fr_center h = fr_center f ->
    b0_zero (fr_ab f) -> b0_zero (fr_ab g) -> List.length (fr_ab f) = List.length (fr_ab g) ->
    fr_avg h = a * fr_avg f + b * fr_avg g -> fr_ab h = combine_coefficients a b (fr_ab f) (fr_ab g) ->
    getAveragePotential (code_expansion dbg) f inner outer = Ok u ->
    getAveragePotential (code_expansion dbg) g inner outer = Ok v ->
    getAveragePotential (code_expansion dbg) h inner outer = Ok (a * u + b * v).
Proof.
  intros dbg inner outer f g h a b u v Po Oi Co Ci Eg Eh Bf Bg L Ea Eab U V.
  destruct (C47_average_of_the_reconstruction inner outer Po Oi Co) as (cells & T & A & F).
  rewrite (F dbg f Bf) in U. rewrite (F dbg g Bg) in V. injection U as <-. injection V as <-.
  rewrite F.
  - f_equal. pose proof (area_pos _ Po). rewrite Ea, Eh, Eg, Eab.
    assert (S : total cells (fun c => multipolarExpansion (middle c) (combine_coefficients a b (fr_ab f) (fr_ab g)) (fr_center f) * area c) =
       a * total cells (fun c => multipolarExpansion (middle c) (fr_ab f) (fr_center f) * area c) +
       b * total cells (fun c => multipolarExpansion (middle c) (fr_ab g) (fr_center f) * area c)).
    { change total with (@Rsum (box R)). rewrite <- !Rsum_scal, <- Rsum_plus. apply Rsum_ext.
      intros c I. rewrite expansion_linear; auto; [ring|]. intros E.
      apply (ti_outside _ _ _ T c (middle c) I); [apply middle_interior, (ti_proper _ _ _ T c I)|]. now rewrite E. }
    rewrite S. field. lra.
  - rewrite Eab. destruct (fr_ab f) as [|x l], (fr_ab g) as [|y m]; cbn; auto. cbn in Bf, Bg. rewrite Bf, Bg. ring.
Qed.
(** Between the smallest and the largest value. *)
Theorem C47_bounds :
  forall (expansion : R * R -> list (R * R) -> R * R -> outcome R) (inner outer : box R) (f : fieldrec R) (phi : R * R -> R) (m M : R),
    proper outer -> ordered inner -> contained inner outer ->
    (forall p, in_box outer p -> ~ in_box inner p ->
       expansion p (fr_ab f) (fr_center f) = Ok (phi p) /\ m <= phi p <= M) ->
    m <= fr_avg f <= M ->
    exists av, getAveragePotential expansion f inner outer = Ok av /\ m <= av <= M.
Proof.
  intros expansion inner outer f phi m M Po Oi Co H Bf.
  destruct (C47_integration_over_the_cells inner outer Po Oi Co) as (cells & T & A & F).
  rewrite (F expansion f phi) by (intros p I N; now apply H). eexists. split; [reflexivity|].
  pose proof (area_pos _ Po) as Ao. pose proof (area_nonneg _ Oi) as Ai.
  assert (B : m * total cells area <= total cells (fun c => phi (middle c) * area c) <= M * total cells area).
  { change total with (@Rsum (box R)). rewrite <- !Rsum_scal. split; apply Rsum_le; intros c I.
    all: pose proof (ti_proper _ _ _ T c I) as Pc; pose proof (area_pos c Pc); pose proof (middle_interior c Pc) as Mc.
    all: destruct (H (middle c)) as [_ K];
      [pose proof (ti_inside _ _ _ T c I) as K; unfold contained, in_box, interior in *; lra
      |now apply (ti_outside _ _ _ T c)|].
    all: apply Rmult_le_compat_r; lra. }
  rewrite A in B. assert (m * area inner <= fr_avg f * area inner <= M * area inner) by (split; apply Rmult_le_compat_r; lra).
  split.
  - apply (Rmult_le_reg_r (area outer)); auto. unfold Rdiv. rewrite (Rmult_assoc _ (/ _)), Rinv_l by lra. lra.
  - apply (Rmult_le_reg_r (area outer)); auto. unfold Rdiv. rewrite (Rmult_assoc _ (/ _)), Rinv_l by lra. lra.
Qed.
(** Exact for constants. *)
Theorem C47_constants :
  forall (expansion : R * R -> list (R * R) -> R * R -> outcome R) (inner outer : box R) (f : fieldrec R) (v : R),
    proper outer -> ordered inner -> contained inner outer ->
    (forall p, in_box outer p -> ~ in_box inner p -> expansion p (fr_ab f) (fr_center f) = Ok v) ->
    fr_avg f = v -> getAveragePotential expansion f inner outer = Ok v.
Proof.
  intros expansion inner outer f v Po Oi Co H E.
  destruct (C47_bounds expansion inner outer f (fun _ => v) v v Po Oi Co) as (av & G & B).
  - intros p I N. split; [now apply H|lra].
  - rewrite E. lra.
  - rewrite G. f_equal. lra.
Qed.
(** A box that does not contain the inner region is rejected. *)
Theorem C47_rejection :
  forall (expansion : R * R -> list (R * R) -> R * R -> outcome R) (inner outer : box R) (f : fieldrec R),
    ~ contained inner outer -> exists e, getAveragePotential expansion f inner outer = Throw e.
Proof. intros expansion inner outer f N. unfold getAveragePotential. rewrite (planes_throw _ _ N). eexists; reflexivity. Qed.
(** The hypotheses of C47_linear and C47_constants on concrete data. *)
Example C47_example :
  let outer := mkbox 0 (-1) 4 3 in let inner := mkbox 0 0 1 2 in
  let f := {| fr_avg := 5; fr_center := (1/2, 1); fr_ab := [(2, 0); (3, 1)]; fr_pots := [(0%Z, 1)] |} in
  in_box inner (fr_center f) /\ b0_zero (fr_ab f) /\
  (exists u, getAveragePotential (code_expansion true) f inner outer = Ok u) /\
  getAveragePotential (fun _ _ _ => Ok 5) f inner outer = Ok 5.
Proof.
  cbn zeta. assert (P : proper (mkbox 0 (-1) 4 3)) by (unfold proper, left, right, top, bottom; cbn; lra).
  assert (O : ordered (mkbox 0 0 1 2)) by (unfold ordered, left, right, top, bottom; cbn; lra).
  assert (C : contained (mkbox 0 0 1 2) (mkbox 0 (-1) 4 3)) by (unfold contained, left, right, top, bottom; cbn; lra).
  split; [unfold in_box, left, right, top, bottom; cbn; lra|]. split; [reflexivity|]. split.
  - destruct (C47_average_of_the_reconstruction _ _ P O C) as (cells & _ & _ & F). eexists. apply F. reflexivity.
  - apply C47_constants; auto.
Qed.

(** ** C48 *)
Theorem C48_average_on_the_inner_region :
  forall (expansion : R * R -> list (R * R) -> R * R -> outcome R) (f : fieldrec R) (b : box R),
    proper b -> getAveragePotential expansion f b b = Ok (fr_avg f).
Proof.
  intros expansion f b P. assert (O : ordered b) by (destruct P; split; lra).
  assert (C : contained b b) by (unfold contained; lra).
  destruct (C47_integration_over_the_cells b b P O C) as (cells & T & _ & F).
  rewrite (F expansion f (fun _ => fr_avg f)) by (intros p I N; contradiction).
  f_equal. assert (E : total cells (fun c => fr_avg f * area c) = 0).
  { rewrite total_Rsum. apply Rsum_zero. intros c I. exfalso.
    pose proof (middle_interior c (ti_proper _ _ _ T c I)) as M. apply (ti_outside _ _ _ T c _ I M).
    pose proof (ti_inside _ _ _ T c I). unfold contained, in_box, interior in *. lra. }
  rewrite E. pose proof (area_pos b P). field. lra.
Qed.
(** Also when some conductor is missing: both fail in the same way. *)
Theorem C48_capacitance :
  forall (expansion : R * R -> list (R * R) -> R * R -> outcome R) (p : incell R) (i j : Z),
    proper (ic_box p) ->
    getCapacitanceOnBox expansion p i j (ic_box p) = getCapacitanceUsingInnerRegion p i j.
Proof.
  intros expansion p i j P. unfold getCapacitanceOnBox, getCapacitanceUsingInnerRegion.
  destruct (mat_ j (ic_electric p)) as [f| |]; [|reflexivity..]. cbn [bind]. destruct (monopole f); [|reflexivity..]. cbn [bind].
  rewrite C48_average_on_the_inner_region by auto. reflexivity.
Qed.
(** The inductance reads the conductor potential in the electric field of j instead of the
    magnetic one: it agrees when both hold the same potential of i. *)
Theorem C48_inductance_partial :
  forall (expansion : R * R -> list (R * R) -> R * R -> outcome R) (p : incell R) (i j : Z) (fe fm : fieldrec R),
    proper (ic_box p) -> mget j (ic_electric p) = Some fe -> mget j (ic_magnetic p) = Some fm ->
    mget i (fr_pots fe) = mget i (fr_pots fm) ->
    getInductanceOnBox expansion p i j (ic_box p) = getInductanceUsingInnerRegion p i j.
Proof.
  intros expansion p i j fe fm P Ee Em E. unfold getInductanceOnBox, getInductanceUsingInnerRegion.
  unfold mat_. rewrite Ee, Em. cbn [bind]. destruct (monopole fm); [|reflexivity..]. cbn [bind].
  rewrite C48_average_on_the_inner_region by auto. cbn [bind]. rewrite E. reflexivity.
Qed.
(** ... and only then (for a current different from zero). *)
Theorem C48_inductance_only_if_partial :
  forall (expansion : R * R -> list (R * R) -> R * R -> outcome R) (p : incell R) (i j : Z) (fe fm : fieldrec R) a b Ve Vm rest,
    proper (ic_box p) -> mget j (ic_electric p) = Some fe -> mget j (ic_magnetic p) = Some fm ->
    fr_ab fm = (a, b) :: rest -> a <> 0 -> mget i (fr_pots fe) = Some Ve -> mget i (fr_pots fm) = Some Vm ->
    (getInductanceOnBox expansion p i j (ic_box p) = getInductanceUsingInnerRegion p i j <-> Ve = Vm).
Proof.
  intros expansion p i j fe fm a b Ve Vm rest P Ee Em Eab Na Eve Evm. unfold getInductanceOnBox, getInductanceUsingInnerRegion.
  unfold mat_. rewrite Ee, Em. cbn [bind]. unfold monopole. rewrite Eab. cbn [bind].
  rewrite C48_average_on_the_inner_region by auto. cbn [bind fst]. rewrite Eve, Evm. cbn [bind nadd ndiv nmul nopp RNum]. split.
  - intros E. injection E as E. assert (M : MU0_SI <> 0).
    { unfold MU0_SI, lit. cbn [nmul ndiv nofZ npi RNum]. pose proof PI_RGT_0.
      apply Rmult_integral_contrapositive_currified; [|lra].
      apply Rmult_integral_contrapositive_currified; [apply not_0_IZR; lia|]. apply Rinv_neq_0_compat, not_0_IZR. vm_compute. discriminate. }
    apply Rmult_eq_reg_r in E; auto. apply Rmult_eq_reg_r in E; [lra|]. now apply Rinv_neq_0_compat.
  - now intros ->.
Qed.
Theorem C48_refuted :
  exists (p : incell R) (i j : Z), proper (ic_box p) /\ is_ok (getInductanceUsingInnerRegion p i j) /\
    forall expansion, getInductanceOnBox expansion p i j (ic_box p) <> getInductanceUsingInnerRegion p i j.
Proof.
  pose (fe := {| fr_avg := 0; fr_center := (0, 0); fr_ab := [(1, 0)]; fr_pots := [(0%Z, 1)] |}).
  pose (fm := {| fr_avg := 0; fr_center := (0, 0); fr_ab := [(1, 0)]; fr_pots := [(0%Z, 2)] |}).
  exists {| ic_box := mkbox 0 0 1 1; ic_electric := [(0%Z, fe)]; ic_magnetic := [(0%Z, fm)] |}, 0%Z, 0%Z.
  assert (P : proper (mkbox 0 0 1 1)) by (unfold proper, left, right, top, bottom; cbn; lra).
  split; [exact P|]. split; [eexists; reflexivity|]. intros expansion.
  rewrite (C48_inductance_only_if_partial _ _ _ _ fe fm 1 0 1 2 []); try reflexivity; auto; lra.
Qed.
(** On any other box: the mean of the reconstruction over it (C47: the cells tile what is outside of
    the inner region) instead of the average over the inner region. *)
Theorem C48_on_any_box :
  forall (p : incell R) (i j : Z) (b : box R) (dbg : bool) (fe fm : fieldrec R) (Q I0 V : R) re rm,
    proper b -> ordered (ic_box p) -> contained (ic_box p) b ->
    mget j (ic_electric p) = Some fe -> fr_ab fe = (Q, 0) :: re -> mget i (fr_pots fe) = Some V ->
    mget j (ic_magnetic p) = Some fm -> fr_ab fm = (I0, 0) :: rm ->
    exists cells, tiles cells (ic_box p) b /\
      let mean f := (fr_avg f * area (ic_box p) + total cells (fun c => multipolarExpansion (middle c) (fr_ab f) (fr_center f) * area c)) / area b in
      getCapacitanceOnBox (code_expansion dbg) p i j b = Ok (SpecMatrix.eps0 * Q / (V - mean fe)) /\
      getInductanceOnBox (code_expansion dbg) p i j b = Ok (SpecMatrix.mu0 * (V - mean fm) / I0).
Proof.
  intros p i j b dbg fe fm Q I0 V re rm Pb Oi Ci Ee Ae Ev Em Am.
  destruct (C47_average_of_the_reconstruction (ic_box p) b Pb Oi Ci) as (cells & T & _ & F). exists cells. split; [exact T|]. cbv zeta.
  assert (Me : monopole fe = Ok Q) by (unfold monopole; now rewrite Ae). assert (Mm : monopole fm = Ok I0) by (unfold monopole; now rewrite Am).
  assert (Be : b0_zero (fr_ab fe)) by (rewrite Ae; reflexivity). assert (Bm : b0_zero (fr_ab fm)) by (rewrite Am; reflexivity).
  unfold getCapacitanceOnBox, getInductanceOnBox, mat_. rewrite Ee, Em. cbn [bind]. rewrite Me, Mm. cbn [bind].
  rewrite (F dbg fe Be), (F dbg fm Bm). cbn [bind]. rewrite Ev. cbn [bind]. rewrite MatrixFacts.eps0_value, MatrixFacts.mu0_value.
  cbn [nadd nmul ndiv nopp RNum].
  set (u := (fr_avg fe * _ + _) / area b). set (v := (fr_avg fm * _ + _) / area b). clearbody u v.
  replace (- u + V) with (V - u) by ring. replace (- v + V) with (V - v) by ring. split; f_equal; unfold Rdiv; ring.
Qed.
Example C48_any_box_example : exists (p : incell R) (b : box R) (fe fm : fieldrec R),
  proper b /\ ordered (ic_box p) /\ contained (ic_box p) b /\ ic_box p <> b /\ mget 0%Z (ic_electric p) = Some fe /\ fr_ab fe = [(2, 0); (1, 1)] /\
  mget 1%Z (fr_pots fe) = Some (1/2) /\ mget 0%Z (ic_magnetic p) = Some fm /\ fr_ab fm = [(3, 0)].
Proof.
  exists {| ic_box := mkbox 0 0 1 1; ic_electric := [(0%Z, {| fr_avg := 1; fr_center := (0, 0); fr_ab := [(2, 0); (1, 1)]; fr_pots := [(1%Z, 1/2)] |})];
            ic_magnetic := [(0%Z, {| fr_avg := 1; fr_center := (0, 0); fr_ab := [(3, 0)]; fr_pots := [(1%Z, 1/2)] |})] |}, (mkbox (-1) 0 2 1).
  eexists _, _. repeat split; try reflexivity; cbn; try lra. intros E. injection E as E _. lra.
Qed.
Example C48_example :
  let f := {| fr_avg := 1/2; fr_center := (0, 0); fr_ab := [(3, 0)]; fr_pots := [(0%Z, 1); (1%Z, 1/4)] |} in
  let p := {| ic_box := mkbox 0 0 1 2; ic_electric := [(0%Z, f)]; ic_magnetic := [(0%Z, f)] |} in
  proper (ic_box p) /\ is_ok (getCapacitanceUsingInnerRegion p 1 0) /\
  getCapacitanceUsingInnerRegion p 1 1 = Throw OutOfRange /\
  forall e, getInductanceOnBox e p 1 0 (ic_box p) = getInductanceUsingInnerRegion p 1 0.
Proof.
  cbn zeta. assert (P : proper (mkbox 0 0 1 2)) by (unfold proper, left, right, top, bottom; cbn; lra).
  split; [exact P|]. split; [eexists; reflexivity|]. split; [reflexivity|]. intros e. eapply C48_inductance_partial; try reflexivity. exact P.
Qed.

Print Assumptions C46_planes_subdivide_the_box.
Print Assumptions C46_which_planes.
Print Assumptions C46_rejection.
Print Assumptions C47_integration_over_the_cells.
Print Assumptions C47_average_of_the_reconstruction.
Print Assumptions C47_linear.
Print Assumptions C47_bounds.
Print Assumptions C47_constants.
Print Assumptions C47_rejection.
Print Assumptions C48_average_on_the_inner_region.
Print Assumptions C48_capacitance.
Print Assumptions C48_inductance_partial.
Print Assumptions C48_inductance_only_if_partial.
Print Assumptions C48_on_any_box.
Print Assumptions C48_refuted.
