(** Exact solutions with uniform fields in each triangle are found by elements of any order (C72). *)
From Coq Require Import Reals Lra Relations Permutation Ranalysis1.
From Verif Require Import Prelude StdMap Materials Graph ModelM Parser Matrix Solver Fem Domain Results Driver RSum LinAlg ListLemmas SpecInput SpecModel SpecSolver SpecDriver SpecCharge SpecField SpecFem
  SpecTriangles SpecFlux SpecExact SpecElements SpecUniform Triangles Elements RefElements SolverProofs ChargeProofs FemProofs FemCalls FemFacts FemModel FemLaws FemMore TriProofs TriModel FluxProofs ExactProofs
  TriLocal DrawLocal ElemProofs ElemTables ElemModel ElemFields RefProofs SpecExtend RefOrder.
Open Scope R_scope.
Open Scope list_scope.

(** ** Reference elements of the orders 1, 2 and 3 *)
Lemma poly_rule n rule (a : nat -> nat -> R) : exact_to n rule ->
  Rsum rule (fun q => snd q * poly n a (fst q)) = Sum (S n) (fun i => Sum (S (n - i)) (fun j => a i j * (INR (fact i * fact j) / INR (fact (i + j + 2))))).
Proof.
  intros E. unfold poly. transitivity (Rsum rule (fun q => Sum (S n) (fun i => Sum (S (n - i)) (fun j => a i j * (snd q * (fst (fst q) ^ i * snd (fst q) ^ j)))))).
  - apply Rsum_ext. intros q _. unfold Sum. rewrite <- Rsum_scal. apply Rsum_ext. intros i _. rewrite <- Rsum_scal. apply Rsum_ext. intros j _. ring.
  - unfold Sum. rewrite Rsum_exchange. apply Rsum_ext. intros i Hi. apply in_seq in Hi. rewrite Rsum_exchange. apply Rsum_ext. intros j Hj. apply in_seq in Hj.
    rewrite Rsum_scal. f_equal. apply E. lia.
Qed.
Definition side_mean (k : nat) : list R := match k with 1%nat => [1/2; 1/2] | 2%nat => [1/6; 1/6; 4/6] | _ => [1/8; 1/8; 3/8; 3/8] end.
Definition side_unit (k : nat) : list R := match k with 1%nat => [1] | 2%nat => [1; 1] | _ => [1; 2; 1] end.
Definition inner_uniform (k : nat) (ref : reference R) (u v : R) : list R :=
  applied (re_inner_grad ref) (local 0 u v (applied (side_table 1 k) [0; u]) (applied (side_table 1 k) [u; v]) (applied (side_table 1 k) [v; 0]) (applied (inner_table 1 k) [0; u; v])).
Theorem orders_linear_complete k rule1 rule0 rule2 : (1 <= k <= 3)%nat -> rules_of_order k rule1 rule0 rule2 ->
  linear_complete (reference_of rule1 rule0 rule2 (Z.of_nat k)).
Proof.
  intros L [_ (_ & E0 & _) _]. assert (E : exact_to (k - 1) rule0) by (apply (exact_less _ (2 * (k - 1))); [lia|exact E0]). clear E0.
  constructor.
  - exists (side_table 1 k), (inner_table 1 k). assert (k = 1 \/ k = 2 \/ k = 3)%nat as [-> |[-> | ->]] by lia;
    change (reference_of ?x ?y ?z (Z.of_nat 1)) with (linear x y z); change (reference_of ?x ?y ?z (Z.of_nat 2)) with (quadratic x y z); change (reference_of ?x ?y ?z (Z.of_nat 3)) with (cubic x y z);
    (split; [reflexivity|]; split; [reflexivity|]; tab; split; [intros p a b c; unf; field|intros a b; unf; repeat (f_equal; try field)]).
  - exists (side_unit k), (inner_uniform k (reference_of rule1 rule0 rule2 (Z.of_nat k))). unfold inner_uniform, side_unit, times. assert (k = 1 \/ k = 2 \/ k = 3)%nat as [-> |[-> | ->]] by lia;
    change (reference_of ?x ?y ?z (Z.of_nat 1)) with (linear x y z); change (reference_of ?x ?y ?z (Z.of_nat 2)) with (quadratic x y z); change (reference_of ?x ?y ?z (Z.of_nat 3)) with (cubic x y z);
    (split; [reflexivity|]; split; [reflexivity|]; split; [reflexivity|]; tab; intros p u v; split; unf; field).
  - exists (dot (side_mean k)). unfold side_mean. assert (k = 1 \/ k = 2 \/ k = 3)%nat as [-> |[-> | ->]] by lia;
    change (reference_of ?x ?y ?z (Z.of_nat 1)) with (linear x y z); change (reference_of ?x ?y ?z (Z.of_nat 2)) with (quadratic x y z); change (reference_of ?x ?y ?z (Z.of_nat 3)) with (cubic x y z);
    (split; [|split]).
    all: cbn [Nat.sub] in E.
    + intros a b l A. cbn in A. take l 0%nat. unf. field.
    + unf. field.
    + intros a b c l0 l1 l2 l (A0 & A1 & A2 & A3). cbn in A0, A1, A2, A3. take l0 0%nat. take l1 0%nat. take l2 0%nat. take l 0%nat. unfold local. cbn [app re_rule0 linear]. split.
      * rewrite (Rsum_ext rule0 _ (fun q => snd q * poly 0 (hx1 a b c) (fst q))) by (intros q _; now rewrite hx1_poly). rewrite (poly_rule 0 _ _ E). unfold Sum, Rsum, hx1. cbn. field.
      * rewrite (Rsum_ext rule0 _ (fun q => snd q * poly 0 (hy1 a b c) (fst q))) by (intros q _; now rewrite hy1_poly). rewrite (poly_rule 0 _ _ E). unfold Sum, Rsum, hy1. cbn. field.
    + intros a b l A. cbn in A. take l 1%nat. unf. field.
    + unf. field.
    + intros a b c l0 l1 l2 l (A0 & A1 & A2 & A3). cbn in A0, A1, A2, A3. take l0 1%nat. take l1 1%nat. take l2 1%nat. take l 0%nat. unfold local. cbn [app re_rule0 quadratic]. split.
      * rewrite (Rsum_ext rule0 _ (fun q => snd q * poly 1 (hx2 a b c r r0 r1) (fst q))) by (intros q _; now rewrite hx2_poly). rewrite (poly_rule 1 _ _ E). unfold Sum, Rsum, hx2. cbn. field.
      * rewrite (Rsum_ext rule0 _ (fun q => snd q * poly 1 (hy2 a b c r r0 r1) (fst q))) by (intros q _; now rewrite hy2_poly). rewrite (poly_rule 1 _ _ E). unfold Sum, Rsum, hy2. cbn. field.
    + intros a b l A. cbn in A. take l 2%nat. unf. field.
    + unf. field.
    + intros a b c l0 l1 l2 l (A0 & A1 & A2 & A3). cbn in A0, A1, A2, A3. take l0 2%nat. take l1 2%nat. take l2 2%nat. take l 1%nat. unfold local. cbn [app re_rule0 cubic]. split.
      * rewrite (Rsum_ext rule0 _ (fun q => snd q * poly 2 (hx3 a b c r r0 r1 r2 r3 r4 r5) (fst q))) by (intros q _; now rewrite hx3_poly). rewrite (poly_rule 2 _ _ E). unfold Sum, Rsum, hx3. cbn. field.
      * rewrite (Rsum_ext rule0 _ (fun q => snd q * poly 2 (hy3 a b c r r0 r1 r2 r3 r4 r5) (fst q))) by (intros q _; now rewrite hy3_poly). rewrite (poly_rule 2 _ _ E). unfold Sum, Rsum, hy3. cbn. field.
Qed.

(** ** The mesh *)
Lemma numbered_sum (ms : mesh R) (g : element R -> R) : Rsum (numbered ms) (fun x => g (snd x)) = Rsum (m_elems ms) g.
Proof.
  unfold numbered, nelems. generalize (m_elems ms) 0%nat. intros l. induction l as [|e l IH]; intros k; [reflexivity|]. cbn [List.length seq combine]. rewrite !Rsum_cons, IH. reflexivity.
Qed.
Section Exact.
  Variable ref : reference R.
  Hypothesis Ro : reference_ok ref.
  Hypothesis Lc : linear_complete ref.
  Variable abc : R * R -> R.
  Variable m : model R.
  Hypothesis Cs : cross_section abc m.
  Notation ms := (mo_mesh m).
  Notation ns := (re_side ref).
  Notation mss := (re_side_nd ref).
  Notation nh := (n_h1 ref ms).
  Notation nn := (n_nd ref ms).
  Notation P v := (m_coord ms (Z.of_nat v)).
  Let Tr : triangulation ms := proj1 (cs_mesh _ _ Cs).

  Lemma gradient_unique phi x p g g' : triangle ms x -> is_gradient ref ms phi x p g -> is_gradient ref ms phi x p g' -> g = g'.
  Proof.
    intros T H H'. destruct (elem_corners ms Tr _ (tri_in ms x T)) as (a & b & c & C). pose proof (co_det _ _ _ _ _ C) as Pd.
    pose proof (uniqueness_limite _ _ _ _ (H (1, 0)) (H' (1, 0))) as E1. pose proof (uniqueness_limite _ _ _ _ (H (0, 1)) (H' (0, 1))) as E2.
    unfold place in E1, E2. rewrite (co_verts _ _ _ _ _ C) in E1, E2. cbn [fst snd] in E1, E2. destruct g as (g1, g2), g' as (h1, h2). cbn [fst snd] in *.
    unfold det in Pd. cbn [nsub nmul RNum] in Pd. set (A := P a) in *. set (B := P b) in *. set (X := P c) in *.
    assert (K1 : (g1 - h1) * (fst B - fst A) + (g2 - h2) * (snd B - snd A) = 0) by lra.
    assert (K2 : (g1 - h1) * (fst X - fst A) + (g2 - h2) * (snd X - snd A) = 0) by lra.
    set (d1 := g1 - h1) in *. set (d2 := g2 - h2) in *.
    set (dd := (fst B - fst A) * (snd X - snd A) - (snd B - snd A) * (fst X - fst A)) in *.
    assert (Z1 : d1 * dd = 0).
    { transitivity ((d1 * (fst B - fst A) + d2 * (snd B - snd A)) * (snd X - snd A) - (d1 * (fst X - fst A) + d2 * (snd X - snd A)) * (snd B - snd A)); [unfold dd; ring|rewrite K1, K2; ring]. }
    assert (Z2 : d2 * dd = 0).
    { transitivity ((d1 * (fst X - fst A) + d2 * (snd X - snd A)) * (fst B - fst A) - (d1 * (fst B - fst A) + d2 * (snd B - snd A)) * (fst X - fst A)); [unfold dd; ring|rewrite K1, K2; ring]. }
    assert (Nd : dd <> 0) by (unfold dd; lra).
    apply Rmult_integral in Z1 as [Z1 | Z1]; [|contradiction]. apply Rmult_integral in Z2 as [Z2 | Z2]; [|contradiction]. unfold d1, d2 in *. f_equal; lra.
  Qed.
  Lemma field_gradient psi u x p : List.length psi = nh -> has_field ref m psi u -> triangle ms x -> gradient_in ref ms psi x p = (- fst (u (snd x)), - snd (u (snd x))).
  Proof. intros L H T. exact (gradient_unique psi x p _ _ T (elements_gradient ref Ro ms Tr psi x p T L) (H x p T)). Qed.
  Lemma on_edge_swap z u w : u <> w -> on_edge ref ms z (w, u) = nth w z 0 :: nth u z 0 :: rev (values z (side_nodes ref ms (u, w))).
  Proof.
    intros N. unfold on_edge, side_nodes. rewrite (edge_dof_swap ms u w N). unfold oriented. cbn [fst snd].
    destruct (Nat.ltb_spec u w), (Nat.ltb_spec w u); try lia; rewrite ?values_rev, ?rev_involutive; reflexivity.
  Qed.

  (** *** Divergence theorem on a triangle, for a uniform field *)
  Definition across (U : R * R) (a b : nat) : R := fst U * (snd (P b) - snd (P a)) - snd U * (fst (P b) - fst (P a)).
  Lemma across_flux U a b : flux_through (fst U, snd U, 0) (P a) (P b) = across U a b.
  Proof. unfold flux_through, value, midpoint, across. cbn [fst snd]. ring. Qed.
  Section Mean.
    Variable mean : list R -> R.
    Hypothesis Mr : forall a b l, List.length l = ns -> mean (b :: a :: rev l) = mean (a :: b :: l).
    Hypothesis Mz : mean (repeat 0 (2 + ns)) = 0.
    Hypothesis Md : forall a b c l0 l1 l2 l, sized ns (re_inner ref) l0 l1 l2 l ->
        Rsum (re_rule0 ref) (fun q => snd q * dot (re_h1x ref (fst q)) (local a b c l0 l1 l2 l)) = mean (b :: c :: l1) - mean (c :: a :: l2) /\
        Rsum (re_rule0 ref) (fun q => snd q * dot (re_h1y ref (fst q)) (local a b c l0 l1 l2 l)) = mean (b :: c :: l1) - mean (a :: b :: l0).
    Lemma divergence x a b c z U : triangle ms x -> corners ms (snd x) a b c -> List.length z = nh ->
      2 * area ms (snd x) * Rsum (re_rule0 ref) (fun q => snd q * (fst U * dot (h1_x ref ms x (fst q)) z + snd U * dot (h1_y ref ms x (fst q)) z)) =
      mean (on_edge ref ms z (a, b)) * across U a b + mean (on_edge ref ms z (b, c)) * across U b c + mean (on_edge ref ms z (c, a)) * across U c a.
    Proof.
      intros T C L. destruct (Md (nth a z 0) (nth b z 0) (nth c z 0) _ _ _ _ (loc_sized ref ms z x (a, b) (b, c) (c, a))) as (Ex & Ey).
      rewrite <- (loc_eq ref ms z x a b c C) in Ex, Ey. change (nth b z 0 :: nth c z 0 :: values z (side_nodes ref ms (b, c))) with (on_edge ref ms z (b, c)) in Ex, Ey.
      change (nth c z 0 :: nth a z 0 :: values z (side_nodes ref ms (c, a))) with (on_edge ref ms z (c, a)) in Ex. change (nth a z 0 :: nth b z 0 :: values z (side_nodes ref ms (a, b))) with (on_edge ref ms z (a, b)) in Ey.
      pose proof (co_det _ _ _ _ _ C) as Pd. rewrite (area_det ms _ a b c C). set (dd := det (P a) (P b) (P c)) in *.
      transitivity (dd * ((fst U * (snd (P c) - snd (P a)) - snd U * (fst (P c) - fst (P a))) / dd * Rsum (re_rule0 ref) (fun q => snd q * dot (re_h1x ref (fst q)) (loc ref ms z x)) +
                          (snd U * (fst (P b) - fst (P a)) - fst U * (snd (P b) - snd (P a))) / dd * Rsum (re_rule0 ref) (fun q => snd q * dot (re_h1y ref (fst q)) (loc ref ms z x)))).
      - rewrite <- !Rsum_scal, <- Rsum_plus, <- !Rsum_scal. apply Rsum_ext. intros q _.
        rewrite (h1_x_dot ref Ro ms Tr x a b c (fst q) z T C L), (h1_y_dot ref Ro ms Tr x a b c (fst q) z T C L). unfold tx, ty. fold dd.
        set (X := dot (re_h1x ref (fst q)) _). set (Y := dot (re_h1y ref (fst q)) _). field. lra.
      - rewrite Ex, Ey. unfold across. set (m0 := mean (on_edge ref ms z (a, b))). set (m1 := mean (on_edge ref ms z (b, c))). set (m2 := mean (on_edge ref ms z (c, a))). field. lra.
    Qed.
    (** a field without sources has no work against potentials that vanish on the conductors *)
    Lemma el_no_work eps u outer z : outline m outer -> exact_field_in m eps u outer -> List.length z = nh ->
      (forall c b k, In c (pecs (mo_mats m)) -> In b (m_bdr ms) -> e_attr b = p_attr c -> In k (bdr_dofs ref ms b) -> nth k z 0 = 0) ->
      Rsum (numbered ms) (fun x => eps (e_attr (snd x)) * (2 * area ms (snd x)) *
        Rsum (re_rule0 ref) (fun q => snd q * (fst (u (snd x)) * dot (h1_x ref ms x (fst q)) z + snd (u (snd x)) * dot (h1_y ref ms x (fst q)) z))) = 0.
    Proof.
      intros (inner & Pe) (Cv & Ho) Lz Hz. destruct (coefficients ms Tr _ Cv) as (d & Ld & Ed).
      pose (G := fun s : Z * Z => mean (on_edge ref ms z (Z.to_nat (fst s), Z.to_nat (snd s))) * fl ms d (Z.to_nat (fst s), Z.to_nat (snd s))).
      transitivity (Rsum (numbered ms) (fun x => Rsum (directed_sides (snd x)) G)).
      { apply Rsum_ext. intros x I. apply numbered_in in I. pose proof (tri_in ms x I) as Ie. destruct (elem_corners ms Tr _ Ie) as (a & b & c & C).
        rewrite Rmult_assoc, (divergence x a b c z (u (snd x)) I C Lz), (directed_corners m _ a b c C), !Rsum_cons, Rsum_nil. unfold G. cbn [fst snd]. rewrite !Nat2Z.id.
        destruct (side_in ms _ a b c C) as (S0 & S1 & S2).
        rewrite <- (field_flux ms Tr d _ a b Ie S0), <- (field_flux ms Tr d _ b c Ie S1), <- (field_flux ms Tr d _ c a Ie S2), <- (Ed _ Ie). unfold displacement.
        assert (K : forall i j, flux_through (eps (e_attr (snd x)) * fst (u (snd x)), eps (e_attr (snd x)) * snd (u (snd x)), 0) (P i) (P j) = eps (e_attr (snd x)) * across (u (snd x)) i j).
        { intros i j. unfold flux_through, value, midpoint, across. cbn [fst snd]. ring. }
        rewrite !K. ring. }
      assert (En : Rsum (numbered ms) (fun x => Rsum (directed_sides (snd x)) G) = Rsum (flat_map directed_sides (m_elems ms)) G).
      { rewrite Rsum_flat_map. apply (numbered_sum ms (fun e => Rsum (directed_sides e) G)). }
      rewrite En.
      assert (Own : forall s, In s (inner ++ map (fun s => (snd s, fst s)) inner ++ outer) -> exists e, In e (m_elems ms) /\ side_of e (fst s) (snd s)).
      { intros s Is. apply (Permutation_in s (Permutation_sym Pe)) in Is. apply in_flat_map in Is as (e & I & J). exists e. split; [exact I|now apply directed_side]. }
      rewrite (Rsum_perm _ _ G Pe), !Rsum_app, Rsum_map.
      assert (E1 : Rsum inner (fun s => G (snd s, fst s)) = Rsum inner (fun s => - G s)).
      { apply Rsum_ext. intros s Is. unfold G. cbn [fst snd]. destruct (Own s (in_or_app _ _ _ (or_introl Is))) as (e & I & S).
        destruct (side_corners ms Tr e _ _ I S) as (i & j & -> & -> & _ & N). rewrite !Nat2Z.id, (fl_reverse ms d i j N), (on_edge_swap z i j N).
        rewrite Mr by (rewrite values_length; apply side_nodes_length). unfold on_edge. cbn [fst snd]. ring. }
      assert (E2 : Rsum outer G = 0).
      { apply Rsum_zero. intros s Is. destruct (Own s ltac:(rewrite !in_app_iff; auto)) as (e & I & S).
        destruct (Ho s e Is I S) as [(c & b & Ic & Ib & Ea & Ev) | Z].
        - unfold G. rewrite <- (bdr_values ref m b (fst s) (snd s) z Ib Ev).
          assert (Ez : values z (bdr_dofs ref ms b) = repeat 0 (2 + ns)).
          { rewrite <- (bdr_dofs_length ref ms Tr b Ib). pose proof (fun k => Hz c b k Ic Ib Ea) as Hk. unfold values. induction (bdr_dofs ref ms b) as [|k l IH]; [reflexivity|]. cbn [map List.length repeat].
            rewrite (Hk k (or_introl eq_refl)), IH by (intros; apply Hk; now right). reflexivity. }
          rewrite Ez, Mz. ring.
        - rewrite (Ed e I), (field_flux_any ms Tr d e _ _ I (or_introl S)) in Z. unfold G. rewrite Z. ring. }
      rewrite E1, E2, Rsum_opp. lra.
    Qed.
  End Mean.

  (** such a potential has the least energy *)
  Lemma held_zero v phi psi c b k : held_along ref ms (mo_mats m) v phi -> held_along ref ms (mo_mats m) v psi -> In c (pecs (mo_mats m)) -> In b (m_bdr ms) -> e_attr b = p_attr c -> In k (bdr_dofs ref ms b) ->
    nth k phi 0 = nth k psi 0.
  Proof.
    intros H H' Ic Ib Ea J.
    assert (K : forall z, held_along ref ms (mo_mats m) v z -> nth k z 0 = v (p_attr c)).
    { intros z (L & Hz). refine (proj1 (held_dofs ref Ro ms Tr z (v (p_attr c)) b Ib L) _ k J). intros s Hs. destruct (bdr_side abc m Cs b Ib) as (v1 & v2 & x & E & T & S). destruct (S s) as (p & Sp).
      rewrite (bdr_values ref m b v1 v2 z Ib E). destruct (value_on_side ref Ro ms Tr z x v1 v2 s p T L Sp) as (<- & _). exact (Hz c b x v1 v2 s p Ic Ib Ea E T Hs Sp). }
    now rewrite (K phi H), (K psi H').
  Qed.
  Lemma el_exact_least eps u outer v psi phi : (forall t, 0 < eps t) -> outline m outer -> exact_field_in m eps u outer ->
    held_along ref ms (mo_mats m) v psi -> has_field ref m psi u -> held_along ref ms (mo_mats m) v phi ->
    energy_by_rule ref ms eps psi <= energy_by_rule ref ms eps phi.
  Proof.
    intros Pe Ou Ef Hpsi Hu Hphi. pose proof (proj1 Hpsi) as Lp. pose proof (proj1 Hphi) as Lq. set (z := vadd phi (vscale (- 1) psi)).
    assert (Lz : List.length z = nh) by (unfold z, vadd, vscale; rewrite map_length, combine_length, map_length; lia).
    assert (Hz : forall c b k, In c (pecs (mo_mats m)) -> In b (m_bdr ms) -> e_attr b = p_attr c -> In k (bdr_dofs ref ms b) -> nth k z 0 = 0).
    { intros c b k Ic Ib Ea J. pose proof (held_zero v phi psi c b k Hphi Hpsi Ic Ib Ea J) as E. pose proof (proj1 (Forall_forall _ _) (proj2 (bdr_dofs_ok ref ms Tr b Ib)) k J) as Lk. cbv beta in Lk.
      unfold z, vadd, vscale. rewrite (nth_indep _ 0 (fst (0, -1 * 0) + snd (0, -1 * 0))) by (rewrite map_length, combine_length, map_length; lia).
      rewrite (map_nth (fun p => fst p + snd p)), combine_nth by (rewrite map_length; lia). cbn [fst snd]. rewrite (map_nth (fun v => -1 * v)), E. ring. }
    destruct (lc_rule _ Lc) as (mean & Mr & Mz & Md). pose proof (el_no_work mean Mr Mz Md eps u outer z Ou Ef Lz Hz) as N.
    assert (Dz : forall l, dot l z = dot l phi - dot l psi) by (intros l; unfold z; rewrite dot_vadd by (unfold vscale; rewrite map_length; congruence); rewrite dot_vscale; ring).
    assert (K : energy_by_rule ref ms eps phi = energy_by_rule ref ms eps psi + energy_by_rule ref ms eps z -
      Rsum (numbered ms) (fun x => eps (e_attr (snd x)) * (2 * area ms (snd x)) *
        Rsum (re_rule0 ref) (fun q => snd q * (fst (u (snd x)) * dot (h1_x ref ms x (fst q)) z + snd (u (snd x)) * dot (h1_y ref ms x (fst q)) z)))).
    { unfold energy_by_rule. rewrite <- Rsum_plus, <- Rsum_minus. apply Rsum_ext. intros x I. apply numbered_in in I.
      set (e := eps (e_attr (snd x))). set (A := area ms (snd x)). rewrite <- !Rsum_scal, <- Rsum_plus, <- Rsum_minus. apply Rsum_ext. intros q _.
      pose proof (field_gradient psi u x (fst q) Lp Hu I) as G. unfold gradient_in in *. cbn [fst snd] in *. injection G as G1 G2. rewrite !Dz, G1, G2. field. }
    rewrite K, N. assert (0 <= energy_by_rule ref ms eps z); [|lra]. unfold energy_by_rule. apply Rsum_nonneg. intros x I. apply numbered_in in I.
    destruct (jacobian_area ms Tr _ (tri_in ms x I)) as (Ej & Pj). specialize (Pe (e_attr (snd x))).
    apply Rmult_le_pos; [|apply Rsum_nonneg; intros q Iq; apply Rmult_le_pos; [exact (Rlt_le _ _ (proj1 (proj2 (proj2 (ro_rules _ Ro))) q Iq))|]].
    - apply Rmult_le_pos; [lra|]. rewrite <- Ej. lra.
    - pose proof (Rle_0_sqr (fst (gradient_in ref ms z x (fst q)))). pose proof (Rle_0_sqr (snd (gradient_in ref ms z x (fst q)))). unfold Rsqr in *. lra.
  Qed.

  (** *** The displacement *)
  Definition across3 (U : R * R) (e : element R) : R * R := match verts e with [a; b; c] => (across U a b, - across U c a) | _ => (0, 0) end.
  Lemma displacement_coefficients (W : element R -> R * R) : conservative_flux ms (fun e => (fst (W e), snd (W e), 0)) ->
    exists d, List.length d = nn /\ forall x p, triangle ms x -> flux_in ref ms d x p = W (snd x).
  Proof.
    intros Cv. destruct (coefficients ms Tr _ Cv) as (d & Ld & Ed). destruct (lc_fields _ Lc) as (t & k & Lt & Rt & Lk & Uni).
    set (inn := fun x : nat * element R => k (fst (across3 (W (snd x)) (snd x))) (snd (across3 (W (snd x)) (snd x)))).
    set (D := flat_map (fun y => times y t) d ++ flat_map inn (numbered ms)).
    assert (Lt' : forall y, In y d -> List.length (times y t) = mss) by (intros; unfold times; now rewrite map_length).
    assert (LD : List.length D = nn).
    { unfold D. rewrite app_length, (flat_map_constant_length _ _ mss) by exact Lt'. rewrite (flat_map_constant_length _ _ (re_inner_nd ref)) by (intros; apply Lk).
      rewrite Ld. unfold n_nd, nedges, numbered. rewrite combine_length, seq_length. unfold nelems. lia. }
    exists D. split; [exact LD|]. intros x p T. pose proof (tri_in ms x T) as Ie. destruct (elem_corners ms Tr _ Ie) as (a & b & c & C). destruct (side_in ms _ a b c C) as (S0 & S1 & S2).
    assert (Sg : forall y, In y (sides (snd x)) -> signed ref ms y D = times (fl ms d y) t).
    { intros y J. destruct (side_dof ms _ y Ie J) as (Lj & _). unfold signed, side_fields, fl.
      assert (V : values D (seq (edge_dof ms y * mss) mss) = times (nth (edge_dof ms y) d 0) t).
      { unfold D. apply (values_block (fun y => times y t)); [exact Lt'|]. apply nth_error_nth'. unfold nedges in Lj. lia. }
      unfold oriented, sign. destruct (fst y <? snd y)%nat; rewrite ?values_rev, V; unfold times; [|rewrite <- map_rev, Rt]; rewrite !map_map; apply map_ext; intros q; cbn [n1 nopp RNum]; ring. }
    assert (Vi : values D (inner_fields ref ms (fst x)) = inn x).
    { unfold D, inner_fields. rewrite seq_add, values_shift by (rewrite (flat_map_constant_length _ _ mss) by exact Lt'; unfold nedges; now rewrite Ld).
      rewrite <- (app_nil_r (flat_map inn _)). apply (values_block inn); [intros; apply Lk|]. unfold triangle in T. destruct x as [i e]. cbn [fst snd] in *. clear -T. unfold numbered, nelems.
      assert (K : forall a l j, nth_error l j = Some e -> nth_error (combine (seq a (List.length l)) l) j = Some ((a + j)%nat, e)).
      { intros a l; revert a; induction l as [|y l IH]; intros a [|j] E; try discriminate; cbn in *; [rewrite Nat.add_0_r; now injection E as ->|]. rewrite (IH (S a) j E). replace (a + S j)%nat with (S a + j)%nat by lia. reflexivity. }
      exact (K 0%nat _ i T). }
    assert (Fl : forall i j, In (i, j) (sides (snd x)) -> fl ms d (i, j) = across (W (snd x)) i j).
    { intros i j J. rewrite <- (field_flux ms Tr d _ i j Ie J), <- (Ed _ Ie). apply across_flux. }
    pose proof (co_det _ _ _ _ _ C) as Pd.
    unfold flux_in, rav_x, rav_y. rewrite dot_map_nopp, (ned_x_dot ref Ro ms Tr x a b c p D T C LD), (ned_y_dot ref Ro ms Tr x a b c p D T C LD).
    rewrite (nloc_eq ref ms D x a b c C), Vi, (Sg _ S0), (Sg _ S1), (Sg _ S2), (Fl _ _ S0), (Fl _ _ S1), (Fl _ _ S2).
    unfold inn, across3. rewrite (co_nat _ _ _ _ _ C). cbn [fst snd]. set (U := W (snd x)).
    replace (across U b c) with (- across U c a - across U a b) by (unfold across; ring).
    pose proof (Uni p (across U a b) (- across U c a)) as (Ux & Uy). rewrite Ropp_involutive in Ux, Uy. rewrite Ux, Uy.
    unfold tx, ty, across. destruct U as (U1, U2). cbn [fst snd]. unfold det in *. cbn [nsub nmul RNum] in *. f_equal; field; lra.
  Qed.
End Exact.
