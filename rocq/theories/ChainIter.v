(** The open chain with PCG: explicit constants of C79. *)
From Coq Require Import Reals Lra Lia Permutation.
From Verif Require Import Prelude StdMap Materials Graph ModelM Parser Matrix Solver Fem Iterative Domain Results Driver RSum LinAlg ListLemmas SpecSolver SpecDriver SpecCharge SpecField SpecFem SpecMatrix SpecIter
  SolverProofs ChargeProofs FieldProofs FemProofs FemCalls FemFacts FemLaws FemModel FemDriver FemMatrix MatrixProofs MatrixCalls PcgProofs IterProofs IterCalls IterFlux IterEnergy DriverProofs CallProofs IterMatrix Toy FemToy.
Open Scope R_scope.
Open Scope list_scope.
Local Opaque pcg iterated_phi reiterated_phi iterated_d.
Definition two (_ : R * R) : R := 2.
Definition open_chain : model R := scaled_model 1 Open 1.
Notation D := (@chain R _ 1).
Notation mats := (@toy_mats R _ Open 1).

Section Problem.
  Variable ignore : bool.
  Variable v : Z -> R.
  Variable p : solver_inputs R.
  Hypothesis Cp : conductor_problem mats ignore v p.
  Lemma oc_eps : si_eps p = [(3%Z, 1)].
  Proof.
    apply msorted_in_ext; [apply Cp|repeat constructor|]. intros k z. rewrite (cp_eps _ _ _ _ Cp). unfold permittivity. cbn. split.
    - intros ([|? [|? l1]] & q & l2 & El & <- & _ & ->); cbn in El; try discriminate. injection El as <- _. cbn. destruct ignore; auto.
    - intros [[= <- <-]|[]]. exists [], {| d_name := "Vacuum_0"; d_attr := 3; d_epsr := 1 |}, []. cbn. destruct ignore; auto.
  Qed.
  Lemma oc_open : si_open p = [4%Z].
  Proof. pose proof (cp_open _ _ _ _ Cp) as Q. cbn in Q. now apply Permutation_sym, Permutation_length_1_inv in Q. Qed.
  Lemma oc_work a b c a' b' c' : work two D p [a; b; c] [a'; b'; c'] = (c - a) * (c' - a') + (b - c) * (b' - c') + 2 * (c * c').
  Proof. unfold work, open_points. rewrite oc_eps, oc_open. unfold eps_of, grad2, two. cbn. field. Qed.
  Lemma oc_held k : held two D p k <-> k = 0%nat \/ k = 1%nat.
  Proof.
    unfold held. split.
    - intros (t & x & I & B). apply (cp_dir _ _ _ _ Cp) in I as [(q & Iq & Eq) _]. cbn in Iq.
      apply (chain_bdr 1 two) in B. destruct Iq as [<-|[<-|[]]]; cbn in Eq; subst t; destruct B as [[E ->]|[[E ->]|[E ->]]]; try discriminate; auto.
    - intros [-> | ->].
      + exists 1%Z, (v 1%Z). split; [|apply (chain_bdr 1 two); auto]. apply (cp_dir _ _ _ _ Cp). split; [|reflexivity]. eexists. split; [right; left; reflexivity|reflexivity].
      + exists 2%Z, (v 2%Z). split; [|apply (chain_bdr 1 two); auto]. apply (cp_dir _ _ _ _ Cp). split; [|reflexivity]. eexists. split; [left; reflexivity|reflexivity].
  Qed.
  Lemma oc_vanishing u : vanishing two D p u -> exists c, u = [0; 0; c].
  Proof.
    intros (L & H). destruct (len3 u L) as (a & b & c & ->). exists c.
    pose proof (H 0%nat (proj2 (oc_held 0) ltac:(auto))) as H0. pose proof (H 1%nat (proj2 (oc_held 1) ltac:(auto))) as H1.
    cbn in H0, H1. congruence.
  Qed.
  Lemma oc_conditioned : conditioned 3 (work two D p) (vanishing two D p) 1 2.
  Proof.
    split; [lra|]. split.
    - intros u Vu. destruct (oc_vanishing u Vu) as (c & ->).
      replace (hat 3 0) with [1; 0; 0] by reflexivity. cbv [Sum seq Rsum fold_left fold_right map].
      unfold Sum, Rsum. cbn [seq map fold_left fold_right].
      replace (hat 3 0) with [1; 0; 0] by reflexivity. replace (hat 3 1) with [0; 1; 0] by reflexivity. replace (hat 3 2) with [0; 0; 1] by reflexivity.
      rewrite !oc_work. cbn [nth]. apply Req_le. ring.
    - intros i Li. exists (remove Nat.eq_dec i [0; 1; 2]%nat). split.
      + destruct i as [|[|[|i]]]; cbn; try lia.
      + intros j Lj Nj _. apply in_in_remove; [exact Nj|]. destruct j as [|[|[|j]]]; cbn; auto; lia.
  Qed.
  Lemma oc_projects e1 e2 d : projects D p [e1; e2] d -> d = [e1; e2].
  Proof.
    intros (L & H). destruct (len2 d L) as (d1 & d2 & ->).
    pose proof (H [1; 0] eq_refl) as H1. pose proof (H [0; 1] eq_refl) as H2. rewrite oc_eps in H1, H2. unfold eps_of in H1, H2. cbn in H1, H2.
    repeat f_equal; lra.
  Qed.
  Lemma oc_field a b c : field_of D [a; b; c] = [a - c; c - b].
  Proof. unfold field_of. cbn. repeat f_equal; ring. Qed.
  Lemma oc_flux2 a b : flux2 D [a; b] [a; b] = a * a + b * b.
  Proof. unfold flux2. cbn. field. Qed.
  Lemma oc_flux_bound : flux_bound two D p 1.
  Proof.
    split; [lra|]. intros u d Vu P. destruct (oc_vanishing u Vu) as (c & ->). rewrite oc_field in P. apply oc_projects in P. subst d.
    rewrite oc_flux2, oc_work. pose proof (Rle_0_sqr c). unfold Rsqr in *. lra.
  Qed.
  Lemma oc_start z : zero_extension two D p z -> z = [v 1%Z; v 2%Z; 0].
  Proof.
    intros (L & Pr & H). destruct (len3 z L) as (a & b & c & ->).
    assert (Hc : forall t k, (t = 1%Z /\ k = 0%nat) \/ (t = 2%Z /\ k = 1%nat) -> nth_error [a; b; c] k = Some (v t)).
    { intros t k Hk. apply (Pr t).
      - apply (cp_dir _ _ _ _ Cp). split; [|reflexivity].
        destruct Hk as [[-> _]|[-> _]]; [exists {| p_name := "Conductor_0"%string; p_attr := 1; p_area := 1 |}|exists {| p_name := "Conductor_1"%string; p_attr := 2; p_area := 1 |}]; cbn; auto.
      - apply (chain_bdr 1 two). tauto.
      - intros t' v' _ B. apply (chain_bdr 1 two) in B. lia. }
    pose proof (Hc 1%Z 0%nat ltac:(auto)) as E1. pose proof (Hc 2%Z 1%nat ltac:(auto)) as E2. cbn in E1, E2. injection E1 as ->. injection E2 as ->.
    pose proof (H 2%nat ltac:(cbn; lia)) as E3. cbn [nth] in E3. rewrite E3; [reflexivity|]. rewrite oc_held. lia.
  Qed.
End Problem.

Lemma oc_flux_conditioned : conditioned 2 (flux2 D) (fun d => List.length d = 2%nat) 1 0.
Proof.
  split; [lra|]. split.
  - intros d L. destruct (len2 d L) as (a & b & ->). unfold Sum, Rsum. cbn [seq map fold_left fold_right].
    replace (hat 2 0) with [1; 0] by reflexivity. replace (hat 2 1) with [0; 1] by reflexivity. rewrite !oc_flux2. cbn [nth]. apply Req_le. ring.
  - intros i Li. exists []. split; [cbn; lia|]. intros j Lj Nj E. exfalso. apply E.
    destruct i as [|[|i]], j as [|[|j]]; try lia; unfold flux2, hat; cbn; field.
Qed.
Lemma oc_charge t : t = 1%Z \/ t = 2%Z -> charge_bound two D t 1.
Proof.
  intros Ht. split; [lra|]. intros d L. destruct (len2 d L) as (a & b & ->). rewrite oc_flux2.
  unfold flux_out, flux_at. pose proof (Rle_0_sqr a). pose proof (Rle_0_sqr b). unfold Rsqr in *.
  destruct Ht as [-> | ->]; cbn; nra.
Qed.

Lemma oc_driver : exists d, galerkin_driver two toy_disc true open_chain toy_options d toy_conds.
Proof. apply toy_driver; unfold two; lra. Qed.
Lemma oc_disc k : toy_disc (mo_mesh open_chain) k = D.
Proof. exact (disc_scaled 1 Open 1 k). Qed.
Lemma oc_constants ignore : exists pr, solver_constants two D open_chain ignore toy_conds pr 1 2 1 0 1 1 1 1.
Proof.
  assert (W : well_posed (discretize two D) open_chain) by (apply (chain_posed 1 Rlt_0_1 two Open 1)).
  destruct (problem_exists two D open_chain W ignore (unit_potential 1%Z)) as (p0 & C0).
  destruct (problem_exists two D open_chain W ignore (unit_potential 2%Z)) as (p1 & C1).
  exists (fun i => match i with 0%nat => p0 | _ => p1 end).
  assert (St : forall t p z d, t = 1%Z \/ t = 2%Z -> conductor_problem mats ignore (unit_potential t) p -> zero_extension two D p z -> projects D p (field_of D z) d ->
    work two D p z z <= 1 /\ flux2 D d d <= 1).
  { intros t p z d Ht Cp Zz P. pose proof (oc_start ignore _ p Cp z Zz) as ->. rewrite oc_field in P. pose proof (oc_projects ignore _ p Cp _ _ _ P) as ->.
    rewrite (oc_work ignore _ p Cp), oc_flux2. unfold unit_potential. destruct Ht as [-> | ->]; cbn; lra. }
  constructor.
  - intros [|[|i]] q E; cbn in E; try (injection E as <-; assumption). destruct i; discriminate.
  - intros [|i] _; [exact (oc_conditioned ignore _ p0 C0)|exact (oc_conditioned ignore _ p1 C1)].
  - exact oc_flux_conditioned.
  - intros [|i] _; [exact (oc_flux_bound ignore _ p0 C0)|exact (oc_flux_bound ignore _ p1 C1)].
  - intros q [<-|[<-|[]]]; apply oc_charge; cbn; auto.
  - intros [|i] z d _ Zz P; [exact (St 1%Z p0 z d ltac:(auto) C0 Zz P)|exact (St 2%Z p1 z d ltac:(auto) C1 Zz P)].
Qed.
Lemma oc_tolerance : 0 <= tolerance 1 2 1 0 1 1 1 1 <= 1 / 100.
Proof.
  split; [apply sqrt_pos|]. rewrite <- (sqrt_pow2 (1 / 100)) by lra. unfold tolerance. apply sqrt_le_1_alt.
  assert (K : kappa 1 2 = 5) by (unfold kappa; cbn; ring). assert (K' : kappa 1 0 = 1) by (unfold kappa; cbn; ring). unfold reduction. rewrite K, K'.
  assert (P : (1 - / 5) ^ 500 <= 1 / 100000).
  { change 500%nat with (60 + 440)%nat. rewrite pow_add. replace (1 - / 5) with (4 / 5) by lra.
    assert (Q : (4 / 5) ^ 440 <= 1) by (rewrite <- (pow1 440); apply pow_incr; lra).
    assert (Q' : 0 <= (4 / 5) ^ 60 <= 1 / 100000) by lra.
    apply (Rle_trans _ ((4 / 5) ^ 60 * 1)); [apply Rmult_le_compat_l; [apply Q'|exact Q]|lra]. }
  assert (Q : (1 - / 1) ^ 500 = 0) by (replace (1 - / 1) with 0 by field; apply pow_i; lia). rewrite Q.
  assert (M1 : Rmax (5 / 10 ^ 12) ((1 - / 5) ^ 500) <= 1 / 100000) by (apply Rmax_lub; lra).
  assert (M2 : Rmax (1 / 10 ^ 12) 0 <= 1 / 100000) by (apply Rmax_lub; lra).
  assert (M3 : Rmax (Rmax (1 / 10 ^ 12) 0 * (2 * 1 + 8 * 1 * 1)) (1 / 10 ^ 24) <= 1 / 10000 / 4) by (rewrite (Rmax_left (1 / 10 ^ 12) 0) by lra; apply Rmax_lub; lra).
  lra.
Qed.
(** The generalized matrix of the exact solution *)
Lemma oc_matrix moment d ops ignore g w : galerkin_driver two toy_disc true open_chain toy_options d toy_conds ->
  reply true (galerkin two toy_disc) moment (CallGeneralizedC ignore) (after true (galerkin two toy_disc) moment ops d) = (Ok (VMatrix g), w) ->
  square 2 g /\ ent g 0 0 = 3 / 4 /\ ent g 0 1 = - (1 / 4) /\ ent g 1 0 = - (1 / 4) /\ ent g 1 1 = 3 / 4.
Proof.
  intros [W Rm B O] E. assert (Pa : 0 < two (1 / 2, 0)) by (unfold two; lra).
  destruct (gc_entries two toy_disc true moment open_chain toy_options d ops toy_conds W B O ignore g w E) as (Sq & G). split; [exact Sq|].
  destruct (units_exist two (toy_disc (mo_mesh open_chain) (o_order toy_options)) true _ W Rm ignore toy_conds) as (us & Fu).
  inversion Fu as [|p0 u0 l0 us0 U0 Fu0]; subst. inversion Fu0 as [|p1 u1 l1 us1 U1 Fu1]; subst. inversion Fu1; subst.
  assert (F : forall t u, t = 1%Z \/ t = 2%Z -> unit_solution (discretize two (toy_disc (mo_mesh open_chain) (o_order toy_options))) true (mo_mats open_chain) ignore t u ->
    so_d u = [unit_potential t 1%Z - 1 / 4; 1 / 4 - unit_potential t 2%Z]).
  { intros t u Ht U. apply unit_fields in U. destruct U as (p & Cp & Cx). rewrite oc_disc in Cx.
    destruct (chain_fields 1 Rlt_0_1 two Open 1 Rlt_0_1 (scaled_mesh 1 Open) Pa true ignore _ p u Cp Cx) as (c & _ & E2 & E3 & _).
    rewrite E3. unfold stray, two in E2. assert (Ig : (if ignore then 1 else 1) = 1) by (destruct ignore; reflexivity). rewrite Ig in *.
    assert (c = 1 / 4) as -> by (unfold unit_potential in E2; destruct Ht as [-> | ->]; cbn in E2; lra). f_equal; [ring|f_equal; ring]. }
  pose proof (F 1%Z u0 ltac:(auto) U0) as F0. pose proof (F 2%Z u1 ltac:(auto) U1) as F1.
  assert (Q : forall x t d1 d2, so_d x = [d1; d2] -> exists q, charge_on (discretize two (toy_disc (mo_mesh open_chain) (o_order toy_options))) x t q /\ (t = 1%Z -> q = d1) /\ (t = 2%Z -> q = - d2)).
  { intros x t d1 d2 Ed. eexists. split; [apply chargeF|]. exact (chain_charge 1 two x t d1 d2 _ Ed (chargeF two D x t)). }
  destruct (Q u0 1%Z _ _ F0) as (q00 & Q00 & V00 & _). destruct (Q u0 2%Z _ _ F0) as (q01 & Q01 & _ & V01).
  destruct (Q u1 1%Z _ _ F1) as (q10 & Q10 & V10 & _). destruct (Q u1 2%Z _ _ F1) as (q11 & Q11 & _ & V11).
  specialize (V00 eq_refl). specialize (V01 eq_refl). specialize (V10 eq_refl). specialize (V11 eq_refl). unfold unit_potential in *. cbn in V00, V01, V10, V11.
  rewrite (G [u0; u1] 0%nat 0%nat _ _ u0 u0 _ _ Fu eq_refl eq_refl eq_refl eq_refl Q00 Q00), (G [u0; u1] 0%nat 1%nat _ _ u0 u1 _ _ Fu eq_refl eq_refl eq_refl eq_refl Q01 Q10),
    (G [u0; u1] 1%nat 0%nat _ _ u1 u0 _ _ Fu eq_refl eq_refl eq_refl eq_refl Q10 Q01), (G [u0; u1] 1%nat 1%nat _ _ u1 u1 _ _ Fu eq_refl eq_refl eq_refl eq_refl Q11 Q11).
  lra.
Qed.
