(** Properties C33, C34, C35, C54: boundary conditions and snapshots of ElectrostaticSolver. *)
From Verif Require Import Prelude StdMap Matrix Solver SpecSolver SolverProofs.
From Coq Require Import QArith.

(** ** C33 *)
(** Position k (from 0) of the marker is attribute k+1 of the mesh. *)
Theorem C33_marker_flags_exactly_the_listed_attributes :
  forall (bdrMax : Z) (attrs : list Z), attrs <> [] -> Forall (fun a => 0 < a)%Z attrs ->
    exists m, AttrToMarker bdrMax attrs = Ok m /\
      (bdrMax <= Z.of_nat (List.length m))%Z /\
      (forall a, In a attrs -> (a <= Z.of_nat (List.length m))%Z) /\
      (forall k b, nth_error m k = Some b -> (b = true <-> In (Z.of_nat k + 1)%Z attrs)).
Proof. exact marker_positive. Qed.
Print Assumptions C33_marker_flags_exactly_the_listed_attributes.

Theorem C33_minus_one_flags_everything :
  forall bdrMax : Z, (0 < bdrMax)%Z -> AttrToMarker bdrMax [-1]%Z = Ok (repeat true (Z.to_nat bdrMax)).
Proof. exact marker_all. Qed.
Print Assumptions C33_minus_one_flags_everything.

Theorem C33_no_attributes : forall bdrMax : Z, AttrToMarker bdrMax [] = Ok [].
Proof. exact marker_none. Qed.

Theorem C33_other_non_positive_attributes_abort :
  forall (bdrMax : Z) (attrs : list Z), Exists (fun a => a <= 0)%Z attrs -> attrs <> [-1]%Z ->
    AttrToMarker bdrMax attrs = Throw MfemError.
Proof. exact marker_abort. Qed.
Print Assumptions C33_other_non_positive_attributes_abort.

Example C33_example : AttrToMarker 4 [3; 1]%Z = Ok [true; false; true; false].
Proof. reflexivity. Qed.

(** ** C34 *)
(** As long as the set of tags is the one the solver was built with, and the first Solve of the
    history had prescribed boundaries (exactly if the solver has them at the end), Solve gives what a
    solver newly built with the last conditions gives (and with the same changes of surface charges),
    after any history of changes, solves (also without prescribed boundaries) and stored solutions put
    back. *)
Theorem C34_last_conditions_partial :
  forall (T : Type) (N : Num T) (F : fem T) (dbg : bool) (p : solver_inputs T) (s0 : solver T)
         (ops : list (@sop T)) (s : solver T) (bc : list (Z * T)),
    mkSolver F dbg p = Ok s0 -> srun F dbg s0 ops = Ok s ->
    bc = last_dirichlet ops (si_dirichlet p) ->
    (forall b, first_solved ops (si_dirichlet p) = Some b -> (b = [] <-> bc = [])) ->
    map fst bc = map fst (si_dirichlet p) ->
    exists s1, mkSolver F dbg (with_dirichlet p bc) = Ok s1 /\
      solved_fields F s = bind (srun F dbg s1 (neumann_ops ops)) (solved_fields F).
Proof. exact @history_of_conditions. Qed.
Print Assumptions C34_last_conditions_partial.

(** Two boundaries (tags 1 and 2) with one degree of freedom each; a solver that keeps the
    prescribed values and puts 0 elsewhere. *)
Definition two_bdr : fem Q :=
  {| fe_nH1 := 2; fe_nND := 0; fe_nRT := 0; fe_bdrMax := 2; fe_domMax := 1;
     fe_bdrDofs := [(1%Z, [0%nat]); (2%Z, [1%nat])];
     fe_flux := []; fe_bdrPhi := []; fe_domPhi := []; fe_energy := [];
     fe_phi := fun _ _ _ ess phi0 _ => map (fun k => if nmem k ess then nth k phi0 0%Q else 0%Q) (seq 0 2);
     fe_e := fun _ => []; fe_d := fun _ _ => [] |}.
Definition one_at_tag1 : solver_inputs Q :=
  {| si_dirichlet := [(1%Z, 1%Q)]; si_neumann := []; si_open := []; si_eps := [] |}.
Lemma two_bdr_ok : fem_ok two_bdr.
Proof. constructor; intros; try reflexivity. repeat constructor; cbn; lia. Qed.
Lemma two_bdr_keeps : keeps_essential two_bdr.
Proof.
  intros eps o ess phi0 sig k x I L E. cbn [two_bdr fe_phi fe_nH1] in *.
  destruct phi0 as [|a [|b [|c r]]]; try discriminate.
  destruct k as [|[|k]]; cbn in E |- *; try (destruct k; discriminate).
  - rewrite (proj2 (ListLemmas.nmem_in _ _) I). exact E.
  - rewrite (proj2 (ListLemmas.nmem_in _ _) I). exact E.
Qed.
(** With other tags the boundaries that are prescribed stay those of construction. *)
Theorem C34_new_tags_are_not_prescribed_refuted :
  exists (F : fem Q) (p : solver_inputs Q) (s0 : solver Q) (ops : list sop) (s : solver Q),
    fem_ok F /\ keeps_essential F /\ inputs_ok F p /\
    mkSolver F true p = Ok s0 /\ Forall dirichlet_op ops /\ Forall (same_kind (si_dirichlet p)) ops /\ srun F true s0 ops = Ok s /\
    solved_fields F s <>
    bind (mkSolver F true (with_dirichlet p (last_dirichlet ops (si_dirichlet p)))) (solved_fields F).
Proof.
  exists two_bdr, one_at_tag1. eexists. exists [DoSolve; SetDirichlet [(2%Z, 1%Q)]]. eexists.
  split; [exact two_bdr_ok|]. split; [exact two_bdr_keeps|].
  split; [constructor; repeat constructor|].
  split; [vm_compute; reflexivity|]. split; [repeat constructor|]. split; [repeat constructor; discriminate|].
  split; [vm_compute; reflexivity|]. vm_compute. discriminate.
Qed.
Print Assumptions C34_new_tags_are_not_prescribed_refuted.
Example C34_example :
  exists s0 s, mkSolver two_bdr true one_at_tag1 = Ok s0 /\
    srun two_bdr true s0 [DoSolve; SetDirichlet [(1%Z, 5%Q)]; DoSolve] = Ok s /\
    s_phi s = [5%Q; 0%Q].
Proof. eexists; eexists; repeat split; vm_compute; reflexivity. Qed.

(** ** C35 *)
(** phi0 is the vector Solve hands to MFEM, ess the degrees of freedom it eliminates. *)
Theorem C35_solve_starts_from_the_prescribed_values :
  forall (T : Type) (N : Num T) (F : fem T) (dbg : bool) (p : solver_inputs T) (s : solver T),
    fem_ok F -> inputs_ok F p -> msorted (si_dirichlet p) -> si_dirichlet p <> [] ->
    mkSolver F dbg p = Ok s ->
    exists phi0 ess phi,
      solved_fields F s = Ok {| so_phi := phi; so_e := fe_e F phi; so_d := fe_d F (s_eps s) (fe_e F phi) |} /\
      phi = fe_phi F (s_eps s) (s_open s) ess ess phi0 (s_sigma s) /\
      (forall k, In k ess <-> exists t x, In (t, x) (si_dirichlet p) /\ on_boundary F t k) /\
      List.length phi0 = fe_nH1 F /\
      (forall k, (k < fe_nH1 F)%nat ->
         exists x, nth_error phi0 k = Some x /\ prescribed_value F (si_dirichlet p) k x).
Proof. exact @Solve_prescribes. Qed.
Print Assumptions C35_solve_starts_from_the_prescribed_values.

(** So the potential that is found has the value given for the tag (the largest where several
    touch), as MFEM keeps prescribed values. *)
Theorem C35_potential_on_the_boundaries :
  forall (T : Type) (N : Num T) (F : fem T) (dbg : bool) (p : solver_inputs T) (s : solver T) phi e d,
    fem_ok F -> keeps_essential F -> inputs_ok F p -> msorted (si_dirichlet p) ->
    mkSolver F dbg p = Ok s ->
    solved_fields F s = Ok {| so_phi := phi; so_e := e; so_d := d |} ->
    forall t v k, In (t, v) (si_dirichlet p) -> on_boundary F t k -> (k < fe_nH1 F)%nat ->
      (forall t' v', In (t', v') (si_dirichlet p) -> on_boundary F t' k -> (t' <= t)%Z) ->
      nth_error phi k = Some v.
Proof. exact @solved_potential. Qed.
Print Assumptions C35_potential_on_the_boundaries.
Example C35_example :
  exists s phi e d, fem_ok two_bdr /\ keeps_essential two_bdr /\ inputs_ok two_bdr one_at_tag1 /\
    msorted (si_dirichlet one_at_tag1) /\ mkSolver two_bdr true one_at_tag1 = Ok s /\
    solved_fields two_bdr s = Ok {| so_phi := phi; so_e := e; so_d := d |} /\
    on_boundary two_bdr 1 0 /\ phi = [1%Q; 0%Q].
Proof.
  eexists; eexists; eexists; eexists. split; [exact two_bdr_ok|]. split; [exact two_bdr_keeps|].
  split; [constructor; repeat constructor|]. split; [repeat constructor|].
  split; [vm_compute; reflexivity|]. split; [vm_compute; reflexivity|].
  split; [|reflexivity]. exists (1%Z, [0%nat]). cbn. auto.
Qed.

(** Tags above the largest tag of the boundary elements are ignored, so that the same fields are computed without them
    (given that some tag is left); a tag below 1 is read outside of an array. *)
Theorem C35_tags_outside_the_mesh :
  forall (T : Type) (N : Num T) (F : fem T) (s : solver T) (dbcs : list (Z * T)),
    let inside := filter (fun tx => (fst tx <=? fe_bdrMax F)%Z) dbcs in
    (inside <> [] ->
       solved_fields F (setDirichletConditions s dbcs) = solved_fields F (setDirichletConditions s inside)) /\
    ((exists t x, In (t, x) dbcs /\ (t < 1)%Z /\ (t <= fe_bdrMax F)%Z) -> Solve F (setDirichletConditions s dbcs) = Undef IndexOutOfBounds).
Proof.
  intros T N F s dbcs inside. split.
  - intros Ne. assert (E : forall gf, applyBoundaryConstantValues F dbcs gf = applyBoundaryConstantValues F inside gf).
    { unfold inside, applyBoundaryConstantValues. clear. induction dbcs as [|(t, x) l IH]; intros gf; [reflexivity|]. cbn [filter fst].
      destruct (t <=? fe_bdrMax F)%Z eqn:C; cbn [foldM fst snd]; rewrite ?C; [|exact (IH gf)]. destruct (0 <? t)%Z; [|reflexivity]. cbn [bind]. apply IH. }
    unfold solved_fields, Solve, setDirichletConditions. cbn [s_params si_dirichlet s_ess s_elim s_eps s_open s_sigma]. rewrite E.
    destruct dbcs as [|d l]; [now destruct Ne|]. fold inside. destruct inside as [|d' l'] eqn:Ei; [now destruct Ne|].
    destruct (applyBoundaryConstantValues F (d' :: l') (zeros (fe_nH1 F))); [|reflexivity|reflexivity]. cbn [bind].
    destruct (essential_dofs F (s_ess s)); reflexivity.
  - intros (t & x & I & L & M). unfold Solve, setDirichletConditions. cbn [s_params si_dirichlet].
    assert (E : forall gf, applyBoundaryConstantValues F dbcs gf = Undef IndexOutOfBounds); [|now rewrite E].
    unfold applyBoundaryConstantValues. clear s inside. induction dbcs as [|(t', x') l IH]; intros gf; [easy|]. cbn [foldM fst snd].
    destruct I as [[= -> ->]|I].
    + rewrite (proj2 (Z.leb_le _ _) M), (proj2 (Z.ltb_ge 0 t)) by lia. reflexivity.
    + destruct (t' <=? fe_bdrMax F)%Z; [destruct (0 <? t')%Z; [|reflexivity]|]; cbn [bind]; apply (IH I).
Qed.
Print Assumptions C35_tags_outside_the_mesh.
Example C35_outside_example : fe_bdrMax two_bdr = 2%Z /\ exists s, mkSolver two_bdr true one_at_tag1 = Ok s /\
  solved_fields two_bdr (setDirichletConditions s [(1%Z, 5%Q); (7%Z, 3%Q)]) = solved_fields two_bdr (setDirichletConditions s [(1%Z, 5%Q)]) /\
  Solve two_bdr (setDirichletConditions s [(0%Z, 5%Q)]) = Undef IndexOutOfBounds.
Proof. split; [reflexivity|]. eexists. repeat split; vm_compute; reflexivity. Qed.

(** ** C54 *)
(** getSolution returns values, so nothing can change them; after any operations that do not
    throw, setSolution restores the fields and all quantities derived from them (the moments
    depend also on which boundaries are charged). *)
Theorem C54_snapshots_restore_everything :
  forall (T : Type) (N : Num T) (F : fem T) (dbg : bool) (s : solver T) (ops : list sop) (s' : solver T),
    fem_ok F -> sized F (getSolution s) -> srun F dbg s ops = Ok s' ->
    exists s'', setSolution dbg s' (getSolution s) = Ok s'' /\
      getSolution s'' = getSolution s /\
      getTotalCharge F s'' = getTotalCharge F s /\
      (forall a, getChargeInBoundary F s'' a = getChargeInBoundary F s a) /\
      (forall a, getAveragePotentialInDomain F s'' a = getAveragePotentialInDomain F s a) /\
      (forall a, getAveragePotentialInBoundary F s'' a = getAveragePotentialInBoundary F s a) /\
      getTotalEnergy F s'' = getTotalEnergy F s /\
      (si_dirichlet (s_params s') = si_dirichlet (s_params s) ->
       si_neumann (s_params s') = si_neumann (s_params s) ->
       forall moment n, getCenterOfCharge F moment s'' = getCenterOfCharge F moment s /\
         getMultipolarCoefficients F moment s'' n = getMultipolarCoefficients F moment s n).
Proof. exact @snapshot_restored. Qed.
Print Assumptions C54_snapshots_restore_everything.

(** Every solver and every solver reached from it has fields of the right sizes. *)
Theorem C54_sizes_are_kept :
  forall (T : Type) (N : Num T) (F : fem T) (dbg : bool) (p : solver_inputs T) (s0 : solver T)
         (ops : list sop) (s : solver T),
    fem_ok F -> inputs_ok F p -> mkSolver F dbg p = Ok s0 -> srun F dbg s0 ops = Ok s ->
    sized F (getSolution s).
Proof. exact @reachable_sized. Qed.
Print Assumptions C54_sizes_are_kept.
Example C54_example :
  exists s0 s1 s2 s3, mkSolver two_bdr true one_at_tag1 = Ok s0 /\
    srun two_bdr true s0 [DoSolve] = Ok s1 /\
    srun two_bdr true s1 [SetDirichlet [(1%Z, 7%Q)]; DoSolve] = Ok s2 /\ s_phi s2 = [7%Q; 0%Q] /\
    setSolution true s2 (getSolution s1) = Ok s3 /\ s_phi s3 = [1%Q; 0%Q].
Proof. do 4 eexists. repeat split; vm_compute; reflexivity. Qed.

Print Assumptions C33_no_attributes.
