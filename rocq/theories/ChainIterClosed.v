(** The closed chain with PCG: explicit constants of C79. *)
From Coq Require Import Reals Lra Lia Permutation.
From Verif Require Import Prelude StdMap Materials Graph ModelM Parser Matrix Solver Fem Iterative Domain Results Driver RSum LinAlg ListLemmas SpecSolver SpecDriver SpecCharge SpecField SpecFem SpecMatrix SpecIter
  SolverProofs ChargeProofs FieldProofs FemProofs FemCalls FemFacts FemLaws FemModel FemDriver FemMatrix MatrixProofs MatrixCalls PcgProofs IterProofs IterCalls IterFlux IterEnergy DriverProofs CallProofs IterMatrix Toy FemToy ChainIter.
Open Scope R_scope.
Open Scope list_scope.
Local Opaque pcg iterated_phi reiterated_phi iterated_d.
Definition closed_chain : model R := scaled_model 1 Closed 1.
Notation D := (@chain R _ 1).
Notation mats := (@toy_mats R _ Closed 1).

Section Problem.
  Variable ignore : bool.
  Variable v : Z -> R.
  Variable p : solver_inputs R.
  Hypothesis Cp : conductor_problem mats ignore v p.
  Lemma cc_eps : si_eps p = [(3%Z, 1)].
  Proof.
    apply msorted_in_ext; [apply Cp|repeat constructor|]. intros k z. rewrite (cp_eps _ _ _ _ Cp). unfold permittivity. cbn. split.
    - intros ([|? [|? l1]] & q & l2 & El & <- & _ & ->); cbn in El; try discriminate. injection El as <- _. cbn. destruct ignore; auto.
    - intros [[= <- <-]|[]]. exists [], {| d_name := "Vacuum_0"; d_attr := 3; d_epsr := 1 |}, []. cbn. destruct ignore; auto.
  Qed.
  Lemma cc_open : si_open p = [].
  Proof. pose proof (cp_open _ _ _ _ Cp) as Q. cbn in Q. now apply Permutation_sym, Permutation_nil in Q. Qed.
  Lemma cc_work a b c a' b' c' : work two D p [a; b; c] [a'; b'; c'] = (c - a) * (c' - a') + (b - c) * (b' - c').
  Proof. unfold work, open_points. rewrite cc_eps, cc_open. unfold eps_of, grad2, two. cbn. field. Qed.
  Lemma cc_held k : held two D p k <-> k = 0%nat \/ k = 1%nat.
  Proof.
    unfold held. split.
    - intros (t & x & I & B). apply (cp_dir _ _ _ _ Cp) in I as [(q & Iq & Eq) _]. cbn in Iq.
      apply (chain_bdr 1 two) in B. destruct Iq as [<-|[<-|[]]]; cbn in Eq; subst t; destruct B as [[E ->]|[[E ->]|[E ->]]]; try discriminate; auto.
    - intros [-> | ->].
      + exists 1%Z, (v 1%Z). split; [|apply (chain_bdr 1 two); auto]. apply (cp_dir _ _ _ _ Cp). split; [|reflexivity]. eexists. split; [right; left; reflexivity|reflexivity].
      + exists 2%Z, (v 2%Z). split; [|apply (chain_bdr 1 two); auto]. apply (cp_dir _ _ _ _ Cp). split; [|reflexivity]. eexists. split; [left; reflexivity|reflexivity].
  Qed.
  Lemma cc_vanishing u : vanishing two D p u -> exists c, u = [0; 0; c].
  Proof.
    intros (L & H). destruct (len3 u L) as (a & b & c & ->). exists c.
    pose proof (H 0%nat (proj2 (cc_held 0) ltac:(auto))) as H0. pose proof (H 1%nat (proj2 (cc_held 1) ltac:(auto))) as H1.
    cbn in H0, H1. congruence.
  Qed.
  Lemma cc_conditioned : conditioned 3 (work two D p) (vanishing two D p) 1 2.
  Proof.
    split; [lra|]. split.
    - intros u Vu. destruct (cc_vanishing u Vu) as (c & ->).
      replace (hat 3 0) with [1; 0; 0] by reflexivity. cbv [Sum seq Rsum fold_left fold_right map].
      unfold Sum, Rsum. cbn [seq map fold_left fold_right].
      replace (hat 3 0) with [1; 0; 0] by reflexivity. replace (hat 3 1) with [0; 1; 0] by reflexivity. replace (hat 3 2) with [0; 0; 1] by reflexivity.
      rewrite !cc_work. cbn [nth]. apply Req_le. ring.
    - intros i Li. exists (remove Nat.eq_dec i [0; 1; 2]%nat). split.
      + destruct i as [|[|[|i]]]; cbn; try lia.
      + intros j Lj Nj _. apply in_in_remove; [exact Nj|]. destruct j as [|[|[|j]]]; cbn; auto; lia.
  Qed.
  Lemma cc_projects e1 e2 d : projects D p [e1; e2] d -> d = [e1; e2].
  Proof.
    intros (L & H). destruct (len2 d L) as (d1 & d2 & ->).
    pose proof (H [1; 0] eq_refl) as H1. pose proof (H [0; 1] eq_refl) as H2. rewrite cc_eps in H1, H2. unfold eps_of in H1, H2. cbn in H1, H2.
    repeat f_equal; lra.
  Qed.
  Lemma cc_field a b c : field_of D [a; b; c] = [a - c; c - b].
  Proof. unfold field_of. cbn. repeat f_equal; ring. Qed.
  Lemma cc_flux2 a b : flux2 D [a; b] [a; b] = a * a + b * b.
  Proof. unfold flux2. cbn. field. Qed.
  Lemma cc_flux_bound : flux_bound two D p 1.
  Proof.
    split; [lra|]. intros u d Vu P. destruct (cc_vanishing u Vu) as (c & ->). rewrite cc_field in P. apply cc_projects in P. subst d.
    rewrite cc_flux2, cc_work. pose proof (Rle_0_sqr c). unfold Rsqr in *. lra.
  Qed.
  Lemma cc_start z : zero_extension two D p z -> z = [v 1%Z; v 2%Z; 0].
  Proof.
    intros (L & Pr & H). destruct (len3 z L) as (a & b & c & ->).
    assert (Hc : forall t k, (t = 1%Z /\ k = 0%nat) \/ (t = 2%Z /\ k = 1%nat) -> nth_error [a; b; c] k = Some (v t)).
    { intros t k Hk. apply (Pr t).
      - apply (cp_dir _ _ _ _ Cp). split; [|reflexivity].
        destruct Hk as [[-> _]|[-> _]]; [exists {| p_name := "Conductor_0"%string; p_attr := 1; p_area := 1 |}|exists {| p_name := "Conductor_1"%string; p_attr := 2; p_area := 1 |}]; cbn; auto.
      - apply (chain_bdr 1 two). tauto.
      - intros t' v' _ B. apply (chain_bdr 1 two) in B. lia. }
    pose proof (Hc 1%Z 0%nat ltac:(auto)) as E1. pose proof (Hc 2%Z 1%nat ltac:(auto)) as E2. cbn in E1, E2. injection E1 as ->. injection E2 as ->.
    pose proof (H 2%nat ltac:(cbn; lia)) as E3. cbn [nth] in E3. rewrite E3; [reflexivity|]. rewrite cc_held. lia.
  Qed.
End Problem.

Lemma cc_driver : exists d, galerkin_driver two toy_disc true closed_chain toy_options d toy_conds.
Proof. apply toy_driver; unfold two; lra. Qed.
Lemma cc_disc k : toy_disc (mo_mesh closed_chain) k = D.
Proof. exact (disc_scaled 1 Closed 1 k). Qed.
Lemma cc_constants ignore : exists pr, solver_constants two D closed_chain ignore toy_conds pr 1 2 1 0 1 1 1 1.
Proof.
  assert (W : well_posed (discretize two D) closed_chain) by (apply (chain_posed 1 Rlt_0_1 two Closed 1)).
  destruct (problem_exists two D closed_chain W ignore (unit_potential 1%Z)) as (p0 & C0).
  destruct (problem_exists two D closed_chain W ignore (unit_potential 2%Z)) as (p1 & C1).
  exists (fun i => match i with 0%nat => p0 | _ => p1 end).
  assert (St : forall t p z d, t = 1%Z \/ t = 2%Z -> conductor_problem mats ignore (unit_potential t) p -> zero_extension two D p z -> projects D p (field_of D z) d ->
    work two D p z z <= 1 /\ flux2 D d d <= 1).
  { intros t p z d Ht Cp Zz P. pose proof (cc_start ignore _ p Cp z Zz) as ->. rewrite cc_field in P. pose proof (cc_projects ignore _ p Cp _ _ _ P) as ->.
    rewrite (cc_work ignore _ p Cp), cc_flux2. unfold unit_potential. destruct Ht as [-> | ->]; cbn; lra. }
  constructor.
  - intros [|[|i]] q E; cbn in E; try (injection E as <-; assumption). destruct i; discriminate.
  - intros [|i] _; [exact (cc_conditioned ignore _ p0 C0)|exact (cc_conditioned ignore _ p1 C1)].
  - exact oc_flux_conditioned.
  - intros [|i] _; [exact (cc_flux_bound ignore _ p0 C0)|exact (cc_flux_bound ignore _ p1 C1)].
  - intros q [<-|[<-|[]]]; apply oc_charge; cbn; auto.
  - intros [|i] z d _ Zz P; [exact (St 1%Z p0 z d ltac:(auto) C0 Zz P)|exact (St 2%Z p1 z d ltac:(auto) C1 Zz P)].
Qed.
