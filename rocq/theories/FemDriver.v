(** The matrices of a Driver and the fields of its model (C58-C61). *)
From Coq Require Import Reals Lra Permutation.
From Verif Require Import Prelude StdMap Materials Graph ModelM Parser Matrix Solver Fem Domain Results Driver RSum LinAlg ListLemmas
  SpecSolver SpecCharge SpecModel SpecDriver SpecMatrix SpecField SpecFem DriverProofs CallProofs DriverFacts MatrixProofs MatrixCalls MatrixFacts
  SolverProofs ChargeProofs FieldProofs FemProofs FemCalls FemFacts FemModel FemLaws.
Open Scope R_scope.
Open Scope list_scope.

Section Model.
  Variable abc : R * R -> R.
  Variable D : discretization R.
  Notation F := (discretize abc D).
  Notation n := (di_nH1 D).
  Variable dbg : bool.
  Variable m : model R.
  Hypothesis W : well_posed F m.
  Hypothesis Rm : regular_model abc D m.
  Notation mats := (mo_mats m).
  Let OK : tables_ok D := rm_tables _ _ _ Rm.

  Lemma nth_const (c : R) k i : (i < k)%nat -> nth_error (repeat c k) i = Some c.
  Proof. intros L. rewrite nth_error_nth' with (d := c) by (rewrite repeat_length; exact L). f_equal. apply nth_repeat. Qed.
  Lemma zero_displacement p : projects D p (repeat 0 (di_nND D)) (repeat 0 (di_nRT D)).
  Proof.
    split; [apply repeat_length|]. intros t Lt. rewrite !Rsum_zero; auto; intros q _; rewrite !repeat_dot; ring.
  Qed.
  (** Equal potentials on all conductors of a closed problem *)
  Lemma constant_fields ignore c v x : openBoundaries mats = [] -> constants_ok D ->
    (forall q, In q (pecs mats) -> v (p_attr q) = c) -> model_fields abc D dbg m ignore v x ->
    so_phi x = repeat c n /\ so_e x = repeat 0 (di_nND D) /\ so_d x = repeat 0 (di_nRT D).
  Proof.
    intros Eo Co Hv (p & Cp & Cx). destruct (model_problem abc D m W Rm ignore v p Cp) as (Hp & An).
    assert (P : so_phi x = repeat c n).
    { apply (weak_field abc D OK dbg p x _ Hp An Cx (cp_neu _ _ _ _ Cp)).
      - apply repeat_length.
      - intros t y k I B _. apply (cp_dir _ _ _ _ Cp) in I as [(q & Iq & <-) ->]. rewrite (Hv q Iq). apply nth_const.
        apply (on_bdr_lt abc D OK _ k B).
      - intros psi _ _. unfold work. assert (Op : open_points D p = []).
        { unfold open_points. assert (E : si_open p = []).
          { pose proof (cp_open _ _ _ _ Cp) as Q. rewrite Eo in Q. now apply Permutation_sym, Permutation_nil in Q. }
          rewrite E. clear. induction (di_abc D); cbn; auto. }
        rewrite Op, Rsum_nil, Rsum_zero; [ring|]. intros q I. destruct (co_flat D Co q I) as [Gx Gy].
        unfold grad2. rewrite !(dot_const _ c), Gx, Gy. ring. }
    assert (E : so_e x = repeat 0 (di_nND D)).
    { pose proof (e_of_phi abc D OK dbg p x Hp Cx) as G. unfold is_minus_gradient in G. rewrite G, P.
      rewrite <- (proj1 (to_gradient D OK)). pose proof (co_gradient D Co) as Z. clear -Z. induction (di_gradient D) as [|r l IH]; [reflexivity|].
      cbn [map List.length repeat]. f_equal; [|apply IH; intros; apply Z; now right].
      rewrite dot_const, Z by now left. ring. }
    split; [exact P|]. split; [exact E|]. symmetry. apply (d_of_e abc D OK dbg p x _ Hp Cx). rewrite E. apply zero_displacement.
  Qed.
  Lemma no_charge x t : so_d x = repeat 0 (di_nRT D) -> charge_on F x t 0.
  Proof.
    intros E s Es. unfold getChargeInBoundary. rewrite flux_form_Rsum. apply Rsum_zero. intros q _. unfold flux_at.
    assert (Ed : s_d s = so_d x) by (rewrite <- Es; reflexivity). rewrite Ed, E, repeat_dot. ring.
  Qed.
  Lemma chargeF x t : charge_on F x t (flux_form F (fun q => if (q_attr q =? t)%Z then - 1 else 0) (so_d x)).
  Proof. intros s <-. reflexivity. Qed.
  Lemma charge_on_fun x t a b : charge_on F x t a -> charge_on F x t b -> a = b.
  Proof.
    intros Ha Hb.
    pose (s := {| s_params := {| si_dirichlet := []; si_neumann := []; si_open := []; si_eps := [] |}; s_ess := []; s_open := [];
                  s_eps := EpsConst 1; s_sigma := []; s_elim := None; s_phi := so_phi x; s_e := so_e x; s_d := so_d x |} : solver R).
    rewrite <- (Ha s), <- (Hb s); auto; destruct x; reflexivity.
  Qed.
  (** Charges for given potentials *)
  Lemma charges_of_fields ignore conds us V v x t Q : in_order mats conds ->
    Forall2 (fun p u => unit_solution F dbg mats ignore (p_attr p) u) conds us ->
    (forall j q, nth_error conds j = Some q -> v (p_attr q) = V j) -> model_fields abc D dbg m ignore v x ->
    (forall j u, nth_error us j = Some u -> charge_on F u t (Q j)) ->
    charge_on F x t (Sum (List.length conds) (fun j => V j * Q j)).
  Proof.
    intros O Fu Hv Fx HQ. pose proof (conductor_combination abc D dbg m W Rm ignore conds us V v x O Fu Hv Fx) as Cx.
    assert (Su : Forall (sized F) us).
    { clear -Fu W. induction Fu as [|p u l l' Hu Fu IH]; constructor; auto.
      destruct Hu as (pp & s & _ & E1 & E2). eapply solved_sized; [apply W|exact E2]. }
    assert (L : List.length conds = List.length us) by (apply Forall2_length in Fu; auto).
    assert (E : flux_form F (fun q => if (q_attr q =? t)%Z then - 1 else 0) (so_d x) = Sum (List.length conds) (fun j => V j * Q j)).
    2:{ rewrite <- E. apply chargeF. }
    rewrite (charge_combination F us V x t (fields_sized abc D dbg m W ignore v x Fx) Su Cx), L.
    apply Sum_ext. intros j Lj. f_equal. destruct (nth_error us j) as [u|] eqn:Eu; [|apply nth_error_None in Eu; lia].
    rewrite (nth_error_nth (map so_d us) j [] (map_nth_error so_d _ _ Eu)).
    apply (charge_on_fun u t); [apply chargeF|now apply HQ].
  Qed.
  Lemma units_exist ignore (conds : list (pec R)) : exists us, Forall2 (fun p u => unit_solution F dbg mats ignore (p_attr p) u) conds us.
  Proof.
    induction conds as [|p l (us & IH)]; [exists []; constructor|].
    destruct (model_fields_exist abc D dbg m W Rm ignore (unit_potential (p_attr p))) as (x & Hx).
    exists (x :: us). constructor; auto. now apply unit_fields.
  Qed.
  (** The unit charges of a closed problem add up to zero. *)
  Lemma closed_unit_charges ignore conds us t Q : openBoundaries mats = [] -> constants_ok D -> in_order mats conds ->
    Forall2 (fun p u => unit_solution F dbg mats ignore (p_attr p) u) conds us ->
    (forall j u, nth_error us j = Some u -> charge_on F u t (Q j)) -> Sum (List.length conds) Q = 0.
  Proof.
    intros Eo Co O Fu HQ. destruct (model_fields_exist abc D dbg m W Rm ignore (fun _ => 1)) as (x & Hx).
    destruct (constant_fields ignore 1 _ x Eo Co (fun _ _ => eq_refl) Hx) as (_ & _ & Ed).
    pose proof (charges_of_fields ignore conds us (fun _ => 1) _ x t Q O Fu (fun _ _ _ => eq_refl) Hx HQ) as C1.
    pose proof (charge_on_fun _ _ _ _ C1 (no_charge x t Ed)) as E. rewrite <- E. apply Sum_ext. intros; ring.
  Qed.

  (** ** Homogeneous medium *)
  Lemma homogeneous_fields er v x y : openBoundaries mats = [] -> 0 < er ->
    (forall d, In d (dielectrics mats) -> d_epsr d = er) ->
    (forall q, In q (di_grad D) -> In (g_attr q) (map d_attr (dielectrics mats))) ->
    (forall q, In q (di_mix D) -> In (x_attr q) (map d_attr (dielectrics mats))) ->
    model_fields abc D dbg m false v x -> model_fields abc D dbg m true v y ->
    so_phi x = so_phi y /\ so_e x = so_e y /\ so_d x = vscale er (so_d y).
  Proof.
    intros Eo Per He Tg Tx (p & Cp & Cx) (p' & Cp' & Cy).
    destruct (model_problem abc D m W Rm false v p Cp) as (Hp & An). destruct (model_problem abc D m W Rm true v p' Cp') as (Hp' & An').
    assert (Ee : forall t, In t (map d_attr (dielectrics mats)) -> eps_of (si_eps p) t = er /\ eps_of (si_eps p') t = 1).
    { intros t It. destruct (last_split d_attr (dielectrics mats) t It) as (l1 & d & l2 & Ed & Ea & Nd).
      assert (G : forall i v' q z, conductor_problem mats i v' q -> z = (if i then 1 else d_epsr d) -> eps_of (si_eps q) t = z).
      { intros i v' q z C Ez. assert (I : In (t, z) (si_eps q)).
        { apply (cp_eps _ _ _ _ C). exists l1, d, l2. subst z. auto. }
        unfold eps_of. destruct (find _ _) as [[t' z']|] eqn:Ef.
        - apply find_some in Ef as [If Et]. cbn in Et. apply Z.eqb_eq in Et. subst t'. cbn.
          pose proof (proj2 (cp_sorted _ _ _ _ C)) as S. apply (mget_in_iff t) in I; [|exact S]. apply (mget_in_iff t) in If; [|exact S]. congruence.
        - eapply find_none in Ef; [|exact I]. cbn in Ef. rewrite Z.eqb_refl in Ef. discriminate. }
      split; [apply (G false v p er Cp)|apply (G true v p' 1 Cp'); reflexivity]. symmetry. apply He. rewrite Ed. apply in_elt. }
    assert (Op : forall i w q, conductor_problem mats i w q -> open_points D q = []).
    { intros i w q C. unfold open_points. assert (E : si_open q = []).
      { pose proof (cp_open _ _ _ _ C) as Q. rewrite Eo in Q. now apply Permutation_sym, Permutation_nil in Q. }
      rewrite E. clear. induction (di_abc D); cbn; auto. }
    assert (Wk : forall a b, work abc D p a b = er * work abc D p' a b).
    { intros a b. unfold work. rewrite (Op _ _ _ Cp), (Op _ _ _ Cp'), !Rsum_nil, !Rplus_0_r, <- Rsum_scal. apply Rsum_ext. intros q I.
      destruct (Ee _ (Tg q I)) as [-> ->]. ring. }
    assert (Dir : si_dirichlet p = si_dirichlet p').
    { apply msorted_in_ext; [apply Cp|apply Cp'|]. intros t z. rewrite (cp_dir _ _ _ _ Cp), (cp_dir _ _ _ _ Cp'). reflexivity. }
    assert (P : so_phi x = so_phi y).
    { destruct (minimal abc D OK dbg p' y Hp' An' Cy) as (_ & _ & Ly & Py & _).
      apply (weak_field abc D OK dbg p x _ Hp An Cx (cp_neu _ _ _ _ Cp)); auto.
      - unfold prescribed in *. rewrite Dir. exact Py.
      - intros psi Lp Zp. rewrite Wk, (computed_weak abc D OK dbg p' y psi Hp' An' Cy (cp_neu _ _ _ _ Cp') Lp); [ring|].
        rewrite <- Dir. exact Zp. }
    assert (E : so_e x = so_e y).
    { pose proof (e_of_phi abc D OK dbg p x Hp Cx) as G1. pose proof (e_of_phi abc D OK dbg p' y Hp' Cy) as G2.
      unfold is_minus_gradient in *. rewrite G1, G2, P. reflexivity. }
    split; [exact P|]. split; [exact E|]. symmetry. apply (d_of_e abc D OK dbg p x _ Hp Cx).
    assert (Py : projects D p' (so_e y) (so_d y)) by now apply (d_of_e abc D OK dbg p' y _ Hp' Cy).
    destruct Py as (Ld & Hd). split; [unfold vscale; rewrite map_length; exact Ld|]. intros t Lt.
    assert (Sc : forall a : list R, dot a (vscale er (so_d y)) = er * dot a (so_d y)).
    { intros a. rewrite !(dot_sum a _ (di_nRT D)) by (unfold vscale; rewrite ?map_length; exact Ld). rewrite <- Sum_scal. apply Sum_ext.
      intros k _. unfold vscale. replace (nth k (map (fun v0 => er * v0) (so_d y)) 0) with (er * nth k (so_d y) 0); [ring|].
      rewrite <- (map_nth (fun v0 => er * v0)). f_equal. ring. }
    specialize (Hd t Lt).
    rewrite (Rsum_ext (di_rt D) _ (fun q => er * (r_weight q * (dot (r_x q) (so_d y) * dot (r_x q) t + dot (r_y q) (so_d y) * dot (r_y q) t))))
      by (intros; rewrite !Sc; ring).
    rewrite Rsum_scal, Hd, <- Rsum_scal. apply Rsum_ext. intros q I. destruct (Ee _ (Tx q I)) as [-> ->]. rewrite E. ring.
  Qed.
End Model.
