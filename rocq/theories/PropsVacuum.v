(** Property C68: without dielectrics the electric and the magnetic results are the same. *)
From Coq Require Import Reals Lra QArith.
From Verif Require Import Prelude StdMap Json Materials Graph ModelM Parser Matrix Multipole Solver Domain Results Driver
  SpecInput SpecModel SpecSolver SpecDriver SpecMatrix SpecBox ListLemmas RSum CallProofs DriverFacts MatrixFacts VacuumProofs Toy PropsDriver PropsBox.
Open Scope R_scope.
Open Scope list_scope.

(** ** C68 *)
(** All media have the relative permittivity 1. In any arithmetic, with any finite element library, on
    a new Driver: both generalized matrices, both matrices of floating potentials and all in-cell
    parameters agree (bit for bit, or both calls fail in the same way). *)
Theorem C68_new_driver_any_arithmetic :
  forall (T : Type) (N : Num T) (dbg : bool) femlib moment (m : model T) (o : driver_options) (d : driver T),
    NoDup (all_names (mo_mats m)) -> (forall q, In q (dielectrics (mo_mats m)) -> d_epsr q = n1) -> built dbg femlib m o d ->
    fst (reply dbg femlib moment (CallGeneralizedC true) d) = fst (reply dbg femlib moment (CallGeneralizedC false) d) /\
    (forall e f w, reply dbg femlib moment CallFloating d = (Ok (VMatrices e f), w) -> e = f) /\
    (forall p w, reply dbg femlib moment CallInCell d = (Ok (VInCell p), w) -> ic_electric p = ic_magnetic p).
Proof.
  intros T N dbg femlib moment m o d ND V B. pose proof (vacuum_built dbg femlib m o d ND V B) as Tw.
  split; [now apply twin_gc|]. split; [intros e f w; now apply twin_floating|intros p w; now apply twin_incell].
Qed.
Print Assumptions C68_new_driver_any_arithmetic.
(** In real arithmetic, after any history of calls. *)
Theorem C68_any_history :
  forall (dbg : bool) femlib moment (m : model R) (o : driver_options) (d : driver R) (ops : list dop),
    well_posed (femlib (mo_mesh m) (o_order o)) m -> (forall q, In q (dielectrics (mo_mats m)) -> d_epsr q = 1) -> built dbg femlib m o d ->
    let d' := after dbg femlib moment ops d in
    fst (reply dbg femlib moment (CallGeneralizedC true) d') = fst (reply dbg femlib moment (CallGeneralizedC false) d') /\
    (forall e f w, reply dbg femlib moment CallFloating d' = (Ok (VMatrices e f), w) -> e = f) /\
    (forall p w, reply dbg femlib moment CallInCell d' = (Ok (VInCell p), w) -> ic_electric p = ic_magnetic p).
Proof.
  intros dbg femlib moment m o d ops W V B d'. subst d'.
  pose proof (vacuum_built dbg femlib m o d (wp_names _ _ W) V B) as Tw.
  apply (twin_folder _ (last_folder ops (o_exportFolder o))) in Tw.
  rewrite !(C31_history_is_irrelevant dbg femlib moment m o d ops _ W B).
  split; [now apply twin_gc|]. split; [intros e f w E|intros p w E].
  - eapply twin_floating; eassumption.
  - eapply twin_incell; eassumption.
Qed.
Print Assumptions C68_any_history.
(** The in-cell capacitances and inductances belong to waves with the speed of light: C L = mu0 eps0,
    computed with the inner region or on any box, and the inductance on the inner region is the right
    one (compare C48). *)
Theorem C68_in_cell_parameters :
  forall (dbg : bool) femlib moment expansion (m : model R) (o : driver_options) (d : driver R) (ops : list dop) (p : incell R) w (i j : Z),
    well_posed (femlib (mo_mesh m) (o_order o)) m -> (forall q, In q (dielectrics (mo_mats m)) -> d_epsr q = 1) -> built dbg femlib m o d ->
    reply dbg femlib moment CallInCell (after dbg femlib moment ops d) = (Ok (VInCell p), w) ->
    (forall C L, getCapacitanceUsingInnerRegion p i j = Ok C -> getInductanceUsingInnerRegion p i j = Ok L ->
       C <> 0 -> L <> 0 -> C * L = mu0 * eps0) /\
    (forall b C L, getCapacitanceOnBox expansion p i j b = Ok C -> getInductanceOnBox expansion p i j b = Ok L ->
       C <> 0 -> L <> 0 -> C * L = mu0 * eps0) /\
    (proper (ic_box p) -> getInductanceOnBox expansion p i j (ic_box p) = getInductanceUsingInnerRegion p i j).
Proof.
  intros dbg femlib moment expansion m o d ops p w i j W V B E.
  assert (Ok_inj : forall a b : R, Ok a = Ok b -> a = b) by (clear; intros a b E; now injection E).
  destruct (C68_any_history dbg femlib moment m o d ops W V B) as (_ & _ & H). apply H in E as Ei. clear H E.
  assert (G : forall Q v e u C L : R, Q / v * e = C -> v / Q * u = L -> C <> 0 -> L <> 0 -> C * L = u * e).
  { intros Q v e u C L <- <- N1 N2.
    assert (Q <> 0) by (intros ->; apply N1; unfold Rdiv; rewrite Rmult_0_l; ring).
    assert (v <> 0) by (intros ->; apply N2; unfold Rdiv; rewrite Rmult_0_l; ring).
    field. auto. }
  split; [|split].
  - intros C L. unfold getCapacitanceUsingInnerRegion, getInductanceUsingInnerRegion. rewrite <- Ei.
    destruct (mat_ j (ic_electric p)) as [f| |]; try discriminate. cbn [bind].
    destruct (monopole f) as [Q| |]; try discriminate. cbn [bind].
    destruct (mat_ i (fr_pots f)) as [v| |]; try discriminate. cbn [bind]. intros EC%Ok_inj EL%Ok_inj.
    rewrite eps0_value in EC. rewrite mu0_value in EL. eapply G; eassumption.
  - intros b C L. unfold getCapacitanceOnBox, getInductanceOnBox. rewrite <- Ei.
    destruct (mat_ j (ic_electric p)) as [f| |] eqn:Ef; try discriminate. cbn [bind].
    destruct (monopole f) as [Q| |]; try discriminate. cbn [bind].
    destruct (getAveragePotential expansion f (ic_box p) b) as [av| |]; try discriminate. cbn [bind].
    destruct (mat_ i (fr_pots f)) as [v| |]; try discriminate. cbn [bind]. intros EC%Ok_inj EL%Ok_inj.
    rewrite eps0_value in EC. rewrite mu0_value in EL. eapply G; eassumption.
  - intros P. destruct (mget j (ic_electric p)) as [f|] eqn:Ef.
    + apply (C48_inductance_partial expansion p i j f f P Ef); [now rewrite <- Ei|reflexivity].
    + unfold getInductanceOnBox, getInductanceUsingInnerRegion, mat_. rewrite <- Ei, Ef. reflexivity.
Qed.
Print Assumptions C68_in_cell_parameters.

(** The open toy problem in vacuum has in-cell parameters, C and L different from zero. *)
Example C68_example :
  exists d p w, built true toy_lib (toy_model Open 1%Q) toy_options d /\
    reply true toy_lib toy_moment CallInCell d = (Ok (VInCell p), w) /\ List.length (ic_electric p) = 2%nat.
Proof. do 3 eexists. split; [eexists; vm_compute; reflexivity|]. split; vm_compute; reflexivity. Qed.
