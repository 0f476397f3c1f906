(** The field problems of a model (C57-C63): they are regular, and their fields depend linearly on
    the potentials of the conductors. *)
From Coq Require Import Reals Lra Permutation.
From Verif Require Import Prelude StdMap Materials ModelM Matrix Solver Fem RSum LinAlg ListLemmas SpecSolver SpecCharge SpecModel SpecDriver
  SpecField SpecFem DriverProofs SolverProofs ChargeProofs FieldProofs FemProofs FemCalls FemFacts.
Open Scope R_scope.
Open Scope list_scope.

Lemma msorted_map (l : list (Z * R)) (f : Z -> R) : msorted l -> msorted (map (fun tv => (fst tv, f (fst tv))) l).
Proof. unfold msorted. rewrite map_map. cbn. auto. Qed.
Lemma msorted_keys {A B} (l1 : list (Z * A)) (l2 : list (Z * B)) : msorted l1 -> msorted l2 ->
  (forall t, In t (map fst l1) <-> In t (map fst l2)) -> map fst l1 = map fst l2.
Proof.
  intros S1 S2 E.
  assert (M : map (fun tv : Z * A => (fst tv, tt)) l1 = map (fun tv : Z * B => (fst tv, tt)) l2).
  { apply msorted_in_ext; [unfold msorted; rewrite map_map; exact S1|unfold msorted; rewrite map_map; exact S2|].
    assert (G : forall C (l : list (Z * C)) t u, In (t, u) (map (fun tv => (fst tv, tt)) l) <-> In t (map fst l)).
    { intros C l t u. rewrite !in_map_iff. split; intros ([t' c] & Ec & I); cbn in Ec; [injection Ec as -> <-|subst]; exists (t, c); auto.
      cbn. destruct u. auto. }
    intros t u. now rewrite !G. }
  apply (f_equal (map fst)) in M. rewrite !map_map in M. exact M.
Qed.

Section Model.
  Variable abc : R * R -> R.
  Variable D : discretization R.
  Notation F := (discretize abc D).
  Notation n := (di_nH1 D).
  Variable dbg : bool.
  Variable m : model R.
  Hypothesis W : well_posed F m.
  Hypothesis Rm : regular_model abc D m.
  Notation mats := (mo_mats m).
  Let OK : tables_ok D := rm_tables _ _ _ Rm.

  Lemma problem_exists ignore v : exists p, conductor_problem mats ignore v p.
  Proof.
    destruct (inputs_of_model m ignore (wp_names _ _ W)) as (p & _ & [[S1 S2] C1 C2 C3 C4]).
    exists {| si_dirichlet := map (fun tv => (fst tv, v (fst tv))) (si_dirichlet p); si_neumann := si_neumann p; si_open := si_open p; si_eps := si_eps p |}.
    constructor; cbn; auto.
    - split; [now apply msorted_map|auto].
    - intros t x. rewrite in_map_iff. split.
      + intros ([t' y] & E & I). cbn in E. injection E as <- <-. split; [|reflexivity]. apply C1 in I. apply I.
      + intros [H ->]. exists (t, 0). split; [reflexivity|]. apply C1. auto.
  Qed.
  Lemma open_points_model ignore v p q : conductor_problem mats ignore v p -> (In q (open_points D p) <-> at_open D m q).
  Proof.
    intros Cp. unfold open_points, at_open. rewrite filter_In, zmem_in. split; intros [I J]; (split; [exact I|]).
    - apply (Permutation_in _ (cp_open _ _ _ _ Cp)) in J. apply in_map_iff in J as (o & E & J). eauto.
    - destruct J as (o & J & E). apply (Permutation_in _ (Permutation_sym (cp_open _ _ _ _ Cp))). apply in_map_iff. eauto.
  Qed.
  Lemma model_problem ignore v p : conductor_problem mats ignore v p -> problem_ok abc D p /\ anchored abc D p.
  Proof.
    intros Cp. pose proof (problem_inputs_ok F m ignore v p W Cp) as Hi. split; [constructor|].
    - exact Hi.
    - split; [apply Cp|]. split; [apply Cp|]. rewrite (cp_neu _ _ _ _ Cp). constructor.
    - intros E. pose proof (rm_conductors _ _ _ Rm) as Hc. destruct (pecs mats) as [|c l] eqn:El; [congruence|].
      assert (I : In (p_attr c, v (p_attr c)) (si_dirichlet p)).
      { apply (cp_dir _ _ _ _ Cp). split; [|reflexivity]. exists c. rewrite El. split; [now left|reflexivity]. }
      rewrite E in I. destruct I.
    - intros t x I. apply (cp_eps _ _ _ _ Cp) in I as (l1 & d & l2 & Ed & _ & _ & ->). destruct ignore; cbn; [lra|].
      apply (rm_epsr _ _ _ Rm). rewrite Ed. apply in_elt.
    - intros q I. apply (rm_abc _ _ _ Rm). now apply (open_points_model ignore v p q Cp).
    - intros z Lz Zz G1 G2. apply (rm_anchored _ _ _ Rm); auto.
      + intros c k Ic B. apply (Zz (p_attr c) (v (p_attr c)) k); auto. apply (cp_dir _ _ _ _ Cp). split; [eauto|reflexivity].
      + intros q I. apply G2. now apply (open_points_model ignore v p q Cp).
  Qed.
  Lemma model_fields_exist ignore v : exists x, model_fields abc D dbg m ignore v x.
  Proof.
    destruct (problem_exists ignore v) as (p & Cp). destruct (model_problem ignore v p Cp) as (Hp & _).
    destruct (computes_exists abc D OK dbg p Hp) as (x & Cx). exists x, p. auto.
  Qed.
  Lemma unit_fields ignore t x : unit_solution F dbg mats ignore t x <-> model_fields abc D dbg m ignore (unit_potential t) x.
  Proof.
    unfold unit_solution, model_fields, computes. split.
    - intros (p & s & Cp & Es & Ex). exists p. eauto.
    - intros (p & Cp & s & Es & Ex). exists p, s. auto.
  Qed.
  Lemma fields_sized ignore v x : model_fields abc D dbg m ignore v x -> sized F x.
  Proof. intros (p & _ & s & _ & Ex). eapply solved_sized; [apply (wp_fem _ _ W)|exact Ex]. Qed.
  Lemma problem_keys ignore v ignore' v' p p' : conductor_problem mats ignore v p -> conductor_problem mats ignore' v' p' ->
    map fst (si_dirichlet p) = map fst (si_dirichlet p').
  Proof.
    intros C1 C2. apply msorted_keys; [apply C1|apply C2|].
    assert (G : forall i w q t, conductor_problem mats i w q -> (In t (map fst (si_dirichlet q)) <-> exists c, In c (pecs mats) /\ p_attr c = t)).
    { intros i w q t C. rewrite in_map_iff. split.
      - intros ([t' x] & E & I). cbn in E. subst t'. apply (cp_dir _ _ _ _ C) in I. apply I.
      - intros H. exists (t, w t). split; [reflexivity|]. apply (cp_dir _ _ _ _ C). auto. }
    intros t. rewrite (G _ _ _ t C1), (G _ _ _ t C2). reflexivity.
  Qed.
  Lemma problem_eps ignore v v' p p' : conductor_problem mats ignore v p -> conductor_problem mats ignore v' p' -> si_eps p = si_eps p'.
  Proof. intros C1 C2. apply msorted_in_ext; [apply C1|apply C2|]. intros t x. rewrite (cp_eps _ _ _ _ C1), (cp_eps _ _ _ _ C2). reflexivity. Qed.

  Lemma fields_combination ignore (vs : list (Z -> R)) us c v x : Forall2 (model_fields abc D dbg m ignore) vs us ->
    model_fields abc D dbg m ignore v x ->
    (forall q, In q (pecs mats) -> v (p_attr q) = Sum (List.length vs) (fun j => c j * nth j vs (fun _ => 0) (p_attr q))) ->
    combines us c x.
  Proof.
    intros Fs (p & Cp & Cx) E.
    assert (H : exists ps, Forall2 (conductor_problem mats ignore) vs ps /\ Forall2 (computes abc D dbg) ps us).
    { clear -Fs. induction Fs as [|w u ws us' (p & Cp & Cu) Fs IH]; [exists []; split; constructor|].
      destruct IH as (ps & F1 & F2). exists (p :: ps). split; constructor; auto. }
    destruct H as (ps & F1 & F2).
    assert (L : List.length vs = List.length ps) by (apply Forall2_length in F1; auto).
    assert (All : forall p', In p' ps -> exists w, conductor_problem mats ignore w p').
    { clear -F1. induction F1 as [|w p' ws ps C F1 IH]; cbn; [tauto|]. intros q [<-|I]; eauto. }
    destruct (model_problem _ _ _ Cp) as [Hp An].
    apply (superposition abc D OK dbg ps c p us x); auto.
    - apply Forall_forall. intros p' I. destruct (All p' I) as (w & C). apply (model_problem _ _ _ C).
    - intros p' I. destruct (All p' I) as (w & C). split; [|now apply (problem_eps ignore w v)].
      eapply Permutation_trans; [apply (cp_open _ _ _ _ C)|]. apply Permutation_sym, (cp_open _ _ _ _ Cp).
    - split.
      + intros l' I. apply in_map_iff in I as (p' & <- & I). destruct (All p' I) as (w & C). now apply (problem_keys ignore w ignore v).
      + intros t y I. apply (cp_dir _ _ _ _ Cp) in I as [(q & Iq & <-) ->]. rewrite (E q Iq), map_length, <- L.
        apply Sum_ext. intros j Lj. f_equal. destruct (nth_error vs j) as [w|] eqn:Ew; [|apply nth_error_None in Ew; lia].
        destruct (Forall2_nth _ _ _ j w F1 Ew) as (pj & Ej & Cj). rewrite (nth_error_nth _ _ _ Ew).
        rewrite (nth_error_nth (map si_dirichlet ps) j [] (map_nth_error si_dirichlet _ _ Ej)). symmetry. apply value_of_in; [apply Cj|].
        apply (cp_dir _ _ _ _ Cj). split; [eauto|reflexivity].
    - split.
      + intros l' I. apply in_map_iff in I as (p' & <- & I). destruct (All p' I) as (w & C). now rewrite (cp_neu _ _ _ _ C), (cp_neu _ _ _ _ Cp).
      + intros t y I. rewrite (cp_neu _ _ _ _ Cp) in I. destruct I.
  Qed.
  Lemma unit_at (conds : list (pec R)) i j p q : NoDup (map p_attr conds) -> nth_error conds i = Some p -> nth_error conds j = Some q ->
    unit_potential (T := R) (p_attr p) (p_attr q) = if (j =? i)%nat then 1 else 0.
  Proof.
    intros ND Ei Ej. unfold unit_potential. destruct (Nat.eqb_spec j i) as [->|Ne].
    - assert (p = q) by congruence. subst. now rewrite Z.eqb_refl.
    - destruct (Z.eqb_spec (p_attr q) (p_attr p)) as [E|]; [|reflexivity]. exfalso. apply Ne.
      eapply NoDup_nth_error; [exact ND|..].
      + rewrite map_length. apply nth_error_Some. congruence.
      + rewrite (map_nth_error p_attr _ _ Ei), (map_nth_error p_attr _ _ Ej). now f_equal.
  Qed.
  (** Fields for the potentials V: combination of the unit solutions *)
  Lemma conductor_combination ignore conds us V v x : in_order mats conds ->
    Forall2 (fun p u => unit_solution F dbg mats ignore (p_attr p) u) conds us ->
    (forall j q, nth_error conds j = Some q -> v (p_attr q) = V j) ->
    model_fields abc D dbg m ignore v x -> combines us V x.
  Proof.
    intros [Pm _] Fu Hv Fx.
    assert (ND : NoDup (map p_attr conds)).
    { eapply Permutation_NoDup; [apply Permutation_map, Permutation_sym; exact Pm|]. apply (rm_tags _ _ _ Rm). }
    apply (fields_combination ignore (map (fun p : pec R => unit_potential (p_attr p)) conds) us V v x); auto.
    - clear -Fu. induction Fu; constructor; auto. now apply unit_fields.
    - intros q Iq. apply (Permutation_in _ (Permutation_sym Pm)) in Iq. apply In_nth_error in Iq as (i & Ei).
      rewrite (Hv i q Ei), map_length. assert (Li : (i < List.length conds)%nat) by (apply nth_error_Some; congruence).
      rewrite (Sum_ext _ _ (fun j => if (j =? i)%nat then V j else 0)); [now rewrite Sum_single|].
      intros j Lj. destruct (nth_error conds j) as [c|] eqn:Ej; [|apply nth_error_None in Ej; lia].
      rewrite (nth_error_nth (map _ conds) j _ (map_nth_error (fun p : pec R => unit_potential (p_attr p)) _ _ Ej)).
      rewrite (unit_at conds j i c q ND Ej Ei). rewrite Nat.eqb_sym. destruct (j =? i)%nat; ring.
  Qed.
  Lemma combines_unique us c x y : combines us c x -> combines us c y -> sized F x -> sized F y -> x = y.
  Proof.
    intros Hx Hy (A1 & A2 & A3) (B1 & B2 & B3). destruct x as [p1 e1 d1], y as [p2 e2 d2]; cbn in *.
    f_equal; apply list_ext; try congruence; intros k _; destruct (Hx k) as (X1 & X2 & X3), (Hy k) as (Y1 & Y2 & Y3); unfold entry in *; cbn in *; congruence.
  Qed.
  (** the potentials by tag of the conductors *)
  Lemma by_tag (conds : list (pec R)) (V : nat -> R) : NoDup (map p_attr conds) -> exists v : Z -> R,
    forall j q, nth_error conds j = Some q -> v (p_attr q) = V j.
  Proof.
    intros ND. exists (fun t => Sum (List.length conds) (fun j => V j * match nth_error conds j with Some p => unit_potential (p_attr p) t | None => 0 end)).
    intros i q Ei. assert (Li : (i < List.length conds)%nat) by (apply nth_error_Some; congruence).
    rewrite (Sum_ext _ _ (fun j => if (j =? i)%nat then V j else 0)); [now rewrite Sum_single|].
    intros j Lj. destruct (nth_error conds j) as [c|] eqn:Ej; [|apply nth_error_None in Ej; lia].
    rewrite (unit_at conds j i c q ND Ej Ei). rewrite Nat.eqb_sym. destruct (j =? i)%nat; ring.
  Qed.
  Lemma order_tags conds : in_order mats conds -> NoDup (map p_attr conds).
  Proof.
    intros [Pm _]. eapply Permutation_NoDup; [apply Permutation_map, Permutation_sym; exact Pm|]. apply (rm_tags _ _ _ Rm).
  Qed.
End Model.
