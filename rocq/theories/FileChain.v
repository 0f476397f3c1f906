(** The closed chain as it is read from a file (conductors in the order of their names). *)
From Coq Require Import Reals Lra Lia Permutation.
From Verif Require Import Prelude StdMap Materials Graph ModelM Parser Matrix Solver Fem Iterative Domain Results Driver RSum LinAlg ListLemmas SpecInput SpecModel SpecSolver SpecDriver SpecCharge SpecField SpecFem SpecMatrix SpecIter
  SolverProofs ChargeProofs FieldProofs FemProofs FemCalls FemFacts FemLaws FemModel FemDriver FemMatrix MatrixProofs MatrixCalls PcgProofs IterProofs IterCalls IterFlux IterEnergy DriverProofs CallProofs IterMatrix Toy FemToy ChainIter ChainIterClosed.
Open Scope R_scope.
Open Scope list_scope.
Local Opaque pcg iterated_phi reiterated_phi iterated_d.
Definition file_chain : model R :=
  {| mo_mats := {| pecs := toy_conds; openBoundaries := []; dielectrics := [{| d_name := "Vacuum_0"; d_attr := 3; d_epsr := 1 |}] |};
     mo_mesh := scaled_mesh 1 Closed; mo_ground := 0 |}.
Notation D := (@chain R _ 1).
Lemma Ptwo : 0 < two (1 / 2, 0). Proof. unfold two; lra. Qed.
Lemma fc_in q : In q (pecs (mo_mats file_chain)) <-> In q (pecs (mo_mats closed_chain)).
Proof. cbn. tauto. Qed.
Lemma fc_problem ignore v p : conductor_problem (mo_mats file_chain) ignore v p <-> conductor_problem (mo_mats closed_chain) ignore v p.
Proof.
  split; intros [A1 A2 A3 A4 A5]; constructor; try assumption; intros t x; rewrite A2;
    (split; intros ((q & I & E) & X); (split; [exists q; split; [apply fc_in; exact I|exact E]|exact X])).
Qed.
Lemma fc_disc k : toy_disc (mo_mesh file_chain) k = D.
Proof. exact (disc_scaled 1 Closed 1 k). Qed.
Lemma fc_order : in_order (mo_mats file_chain) toy_conds.
Proof. split; [reflexivity|]. intros [|[|i]] p E; cbn in E; try (injection E as <-; reflexivity). destruct i; discriminate. Qed.
Lemma fc_posed : well_posed (discretize two D) file_chain.
Proof.
  destruct (chain_posed 1 Rlt_0_1 two Closed 1 (scaled_mesh 1 Closed)) as [W1 W2 W3 W4 W5]. constructor; try assumption.
  - unfold all_names. cbn. repeat constructor; cbn; intuition discriminate.
  - repeat constructor.
Qed.
Lemma fc_regular : regular_model two D file_chain.
Proof.
  destruct (chain_regular 1 Rlt_0_1 two Closed 1 Rlt_0_1 (scaled_mesh 1 Closed) Ptwo) as [R1 R2 R3 R4 R5 R6]. constructor; try assumption.
  - discriminate.
  - cbn. repeat constructor; cbn; intuition lia.
  - intros z Pz Fl Hc Ho. apply R6; [exact Pz|exact Fl|intros c k Ic; apply Hc, fc_in, Ic|exact Ho].
Qed.
Lemma fc_driver (dbg : bool) o : exists d, galerkin_driver two toy_disc dbg file_chain o d toy_conds.
Proof.
  assert (W : well_posed (galerkin two toy_disc (mo_mesh file_chain) (o_order o)) file_chain) by (unfold galerkin; rewrite fc_disc; exact fc_posed).
  destruct (mkDriver_ok dbg (galerkin two toy_disc) file_chain o W toy_conds fc_order) as (d & E & _); [discriminate|].
  exists d. constructor; [exact W|rewrite fc_disc; exact fc_regular|eexists; exact E|exact fc_order].
Qed.
Lemma fc_connected : connected_mesh two D file_chain.
Proof.
  destruct (chain_connected 1 Rlt_0_1 two Closed 1 (scaled_mesh 1 Closed)) as [C1 C2 C3]. constructor; [exact C1| |intros ob []].
  intros c Ic. destruct (C2 c (proj1 (fc_in c) Ic)) as (k & B & U). exists k. split; [exact B|]. intros c' Ic'. apply U, fc_in, Ic'.
Qed.
Lemma fc_gauss (dbg : bool) ignore : gauss two D dbg file_chain ignore.
Proof.
  intros v p x c psi q Cp Cx Ic Hp Cq. apply fc_problem in Cp.
  apply (chain_gauss 1 Rlt_0_1 two Closed 1 Rlt_0_1 (scaled_mesh 1 Closed) Ptwo dbg ignore v p x c psi q Cp Cx (proj1 (fc_in c) Ic)); [|exact Cq].
  destruct Hp as (L & Pr). split; [exact L|]. intros c0 k Ic0 B U. apply (Pr c0 k (proj2 (fc_in c0) Ic0) B). intros c' Ic'. apply U, fc_in, Ic'.
Qed.
Lemma fc_constants ignore : exists pr, solver_constants two D file_chain ignore toy_conds pr 1 2 1 0 1 1 1 1.
Proof.
  destruct (cc_constants ignore) as (pr & [S1 S2 S3 S4 S5 S6]). exists pr. constructor; try assumption.
  intros i pi E. apply fc_problem. exact (S1 i pi E).
Qed.
(** The generalized matrix of the exact solution *)
Lemma fc_matrix (dbg : bool) moment o d ops ignore g w : galerkin_driver two toy_disc dbg file_chain o d toy_conds ->
  reply dbg (galerkin two toy_disc) moment (CallGeneralizedC ignore) (after dbg (galerkin two toy_disc) moment ops d) = (Ok (VMatrix g), w) ->
  square 2 g /\ ent g 1 1 = 1 / 2.
Proof.
  intros [W Rm B O] E.
  destruct (gc_entries two toy_disc dbg moment file_chain o d ops toy_conds W B O ignore g w E) as (Sq & G). split; [exact Sq|].
  destruct (units_exist two (toy_disc (mo_mesh file_chain) (o_order o)) dbg _ W Rm ignore toy_conds) as (us & Fu).
  inversion Fu as [|p0 u0 l0 us0 U0 Fu0]; subst. inversion Fu0 as [|p1 u1 l1 us1 U1 Fu1]; subst. inversion Fu1; subst.
  assert (F : so_d u1 = [- (1 / 2); - (1 / 2)]).
  { apply unit_fields in U1. destruct U1 as (p & Cp & Cx). apply fc_problem in Cp. rewrite fc_disc in Cx.
    destruct (chain_fields 1 Rlt_0_1 two Closed 1 Rlt_0_1 (scaled_mesh 1 Closed) Ptwo dbg ignore _ p u1 Cp Cx) as (c & _ & E2 & E3 & _).
    rewrite E3. unfold stray in E2. assert (Ig : (if ignore then 1 else 1) = 1) by (destruct ignore; reflexivity). rewrite Ig in *.
    unfold unit_potential in *. cbn [toy_conds p_attr Z.eqb Pos.eqb] in *. change n0 with 0 in *. change n1 with 1 in *.
    assert (c = 1 / 2) as -> by lra. repeat f_equal; lra. }
  pose proof (chargeF two (toy_disc (mo_mesh file_chain) (o_order o)) u1 2%Z) as Q.
  pose proof (proj2 (chain_charge 1 two u1 2%Z _ _ _ F Q) eq_refl) as V.
  rewrite (G [u0; u1] 1%nat 1%nat _ _ u1 u1 _ _ Fu eq_refl eq_refl eq_refl eq_refl Q Q), V. field.
Qed.
