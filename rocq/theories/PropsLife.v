(** C81: the solver classes release what they allocate, once, and never touch what has been
    released. *)
From Verif Require Import Prelude Lifetime SpecLife LifeProofs LifeDriver.
From Coq Require Import Permutation Lia.

(** Every program that follows the rules of SpecLife.v, of any length and with any interleaving of
    meshes, solvers and solutions, runs without a use after free, a double free or a read of values
    that were never stored, although the open boundary coefficient and the coefficients of the
    boundary integrals die before the forms that refer to them. *)
Theorem C81_no_memory_error_partial : forall p sc, disciplined no_scope p sc ->
  exists w, execute empty_world p = Good w.
Proof.
  intros p sc D. destruct (run_ok p _ _ _ _ inv_empty D) as (w & K & E & _). exists w. exact E.
Qed.

(** When everything has gone out of scope, what is still allocated is what the constructors that
    threw left behind. *)
Theorem C81_everything_is_released : forall p, disciplined no_scope p no_scope ->
  exists w, execute empty_world p = Good w /\
    List.length (h_live (w_heap w)) = list_sum (map left_behind p).
Proof.
  intros p D. destruct (run_ok p _ _ _ _ inv_empty D) as (w & K & E & I & L).
  exists w. split; [exact E | ]. rewrite app_nil_r in I.
  rewrite (Permutation_length (inv_no_scope w K I)). exact L.
Qed.

(** The same at any point of such a program: if an exception ends it there and the variables in
    scope are destroyed, in any order, nothing stays allocated. *)
Theorem C81_unwinding_releases_everything : forall p sc u, disciplined no_scope p sc -> throws_none p ->
  cleanup sc u -> exists w, execute empty_world (p ++ u) = Good w /\ h_live (w_heap w) = [].
Proof.
  intros p sc u D T C. destruct (run_ok p _ _ _ _ inv_empty D) as (w & K & E & I & L).
  destruct (inv_nodup _ _ _ I) as (N1 & N2 & N3).
  pose proof (cleanup_ok u sc N1 N2 N3 C) as Du.
  assert (Tu : throws_none u).
  { intros m f J. apply (Permutation_in _ C) in J.
    apply in_app_or in J. destruct J as [J | J]; [ | apply in_app_or in J; destruct J as [J | J] ];
      apply in_map_iff in J; destruct J as (z & Ez & _); discriminate Ez. }
  destruct (run_ok u w sc (K ++ []) no_scope I Du) as (w' & K' & E' & I' & L').
  exists w'. split; [rewrite execute_app, E; exact E' | ].
  rewrite (nothing_left_behind p T) in L. rewrite (nothing_left_behind u Tu) in L'.
  destruct K; [ | discriminate L]. destruct K'; [ | discriminate L'].
  apply Permutation_nil. apply Permutation_sym. exact (inv_no_scope w' [] I').
Qed.

(** A Driver, whatever the number of conductors, the options and the calls, including the drivers of
    the subdomains: no memory error and nothing left; and the same when an exception ends its life
    at any point. *)
Theorem C81_driver : forall conductors open export calls,
  (exists w, execute empty_world (driver_life conductors open export calls) = Good w /\
             h_live (w_heap w) = []) /\
  (forall p q, driver_life conductors open export calls = p ++ q ->
     exists sc, disciplined no_scope p sc /\
       forall u, cleanup sc u -> exists w, execute empty_world (p ++ u) = Good w /\ h_live (w_heap w) = []).
Proof.
  intros conductors open export calls.
  pose proof (driver_life_ok conductors open export calls) as D.
  pose proof (driver_never_throws conductors open export calls) as T. split.
  - destruct (C81_everything_is_released _ D) as (w & E & L). exists w. split; [exact E | ].
    rewrite (nothing_left_behind _ T) in L. destruct (h_live (w_heap w)); [reflexivity | discriminate L].
  - intros p q E. rewrite E in D, T. destruct (disciplined_split p _ _ q D) as (sc & D1 & _).
    exists sc. split; [exact D1 | ]. intros u C.
    apply (C81_unwinding_releases_everything p sc u D1); [ | exact C].
    intros m f I. apply (T m f). apply in_or_app. left. exact I.
Qed.

(** Solvers can be copied (the copy constructor is the implicit one) and the copy shares every
    pointer: deleting both, or using one after the other has gone, is an error, always. *)
Theorem C81_copies_are_not_safe_refuted : forall p sc x y, disciplined no_scope p sc ->
  In x (names (sc_solvers sc)) -> ~ In y (names (sc_solvers sc)) ->
  execute empty_world (p ++ [CopySolver y x; DeleteSolver x; DeleteSolver y]) = Bad DoubleFree /\
  execute empty_world (p ++ [CopySolver y x; DeleteSolver y; SolveS x]) = Bad UseAfterFree.
Proof.
  intros p sc x y D Ix Fy. destruct (run_ok p _ _ _ _ inv_empty D) as (w & K & E & I & L).
  destruct (copy_facts w sc _ x y I Ix) as (o & Fo & Ec & h' & Ed & Dead).
  assert (Ne : y <> x) by (intro Ey; subst y; exact (Fy Ix)).
  split; rewrite execute_app, E; cbn [execute]; rewrite Ec; unfold exec; cbn [w_solvers w_heap find_name].
  - rewrite (proj2 (Nat.eqb_neq y x) Ne), Fo, Ed. unfold drop_name; cbn [w_solvers filter fst].
    rewrite (proj2 (Nat.eqb_neq y x) Ne). cbn [negb find_name]. rewrite Nat.eqb_refl. cbn [w_heap].
    rewrite destroy_dead; [reflexivity | ]. apply Dead. exact (proj1 (cells_in o)).
  - rewrite Nat.eqb_refl, Ed. unfold on_solver, drop_name; cbn [w_solvers filter fst].
    rewrite Nat.eqb_refl. cbn [negb]. change (filter _ (w_solvers w)) with (drop_name y (w_solvers w)).
    rewrite (find_drop y x) by congruence. rewrite Fo. cbn [w_heap].
    rewrite solve_dead; [reflexivity | ]. apply Dead.
    destruct (cells_in o) as (_ & _ & _ & _ & _ & _ & _ & _ & _ & _ & J & _). exact J.
Qed.

(** A constructor that throws (an attribute below one among the Dirichlet or open boundaries) leaves
    8 or 11 objects behind that nothing can ever release. *)
Theorem C81_a_constructor_that_throws_leaks_refuted : forall p sc m c u, disciplined no_scope p sc ->
  throws_none p -> In m (sc_meshes sc) -> cleanup sc u ->
  exists w, execute empty_world (p ++ FailedSolver m c :: u) = Good w /\
            List.length (h_live (w_heap w)) = (if c then 11 else 8)%nat.
Proof.
  intros p sc m c u D T Im C. destruct (run_ok p _ _ _ _ inv_empty D) as (w & K & E & I & L).
  destruct (inv_nodup _ _ _ I) as (N1 & N2 & N3).
  pose proof (cleanup_ok u sc N1 N2 N3 C) as Du.
  assert (Tu : throws_none u).
  { intros m' f J. apply (Permutation_in _ C) in J.
    apply in_app_or in J. destruct J as [J | J]; [ | apply in_app_or in J; destruct J as [J | J] ];
      apply in_map_iff in J; destruct J as (z & Ez & _); discriminate Ez. }
  assert (D2 : disciplined no_scope (p ++ FailedSolver m c :: u) no_scope).
  { eapply disciplined_app; [exact D | ]. destruct sc as [ms ss qs]. econstructor; [ | exact Du].
    apply al_failed_solver. exact Im. }
  destruct (C81_everything_is_released _ D2) as (w' & E' & L'). exists w'. split; [exact E' | ].
  rewrite L'. rewrite map_app. cbn [map]. rewrite list_sum_app.
  rewrite (nothing_left_behind p T). unfold list_sum; cbn [fold_right]. fold (list_sum (map left_behind u)).
  rewrite (nothing_left_behind u Tu). destruct c; reflexivity.
Qed.

(** The rules are needed: reading before solving, and solving when the mesh is gone. *)
Example C81_the_rules_are_needed :
  execute empty_world [NewMesh 0; NewSolver 0 0 true; Get 0 TotalCharge] = Bad Uninitialised /\
  execute empty_world [NewMesh 0; NewSolver 0 0 true; GetSolution 0 0] = Bad Uninitialised /\
  execute empty_world [NewMesh 0; NewSolver 0 0 true; DeleteMesh 0; SolveS 0] = Bad UseAfterFree.
Proof. vm_compute. repeat split; reflexivity. Qed.

(** A program with two meshes and three solvers, whose solutions outlive the solver they come from,
    follows the rules, and so does a driver with a call per kind. *)
Example C81_example :
  disciplined no_scope
    [NewMesh 0; NewSolver 0 0 true; NewMesh 1; NewSolver 1 1 false; SolveS 0; GetSolution 0 0;
     DeleteSolver 0; NewSolver 2 0 true; SetSolution 2 0; AddSolution 2 0; Get 2 ChargeInBoundary;
     SetNeumann 1; SolveS 1; DeleteMesh 1; GetSolution 1 1; DeleteSolver 1; DeleteSolution 0]
    {| sc_meshes := [0%nat]; sc_solvers := [(2%nat, (Some 0%nat, true))]; sc_solutions := [1%nat] |} /\
  List.length (driver_life 3 true true [CallPUL; CallInCell; CallByDomains [(2%nat, false); (3%nat, true)]]) = 262%nat.
Proof.
  split; [ | vm_compute; reflexivity].
  repeat (econstructor; [econstructor; cbn; first [tauto | intuition congruence | intuition lia | idtac] | cbn]).
  constructor.
Qed.

Print Assumptions C81_no_memory_error_partial.
Print Assumptions C81_everything_is_released.
Print Assumptions C81_unwinding_releases_everything.
Print Assumptions C81_driver.
Print Assumptions C81_copies_are_not_safe_refuted.
Print Assumptions C81_a_constructor_that_throws_leaks_refuted.
