(** Exact solutions that first order elements can represent are found (C72). *)
From Coq Require Import Reals Lra Relations Permutation.
From Verif Require Import Prelude StdMap Materials Graph ModelM Parser Matrix Solver Fem Domain Results Driver RSum ListLemmas SpecInput SpecModel SpecSolver SpecDriver SpecCharge SpecField SpecFem
  SpecTriangles SpecDrawing SpecFlux SpecExact Triangles SolverProofs ChargeProofs FemProofs FemCalls FemFacts FemModel FemLaws FemMore TriProofs TriModel TriLocal DrawLocal FluxProofs.
Open Scope R_scope.
Open Scope list_scope.

Lemma permittivity_exists (mats : materials R) ignore t : In t (map d_attr (dielectrics mats)) -> exists er, permittivity mats ignore t er.
Proof.
  unfold permittivity. induction (dielectrics mats) as [|d l IH] using rev_ind; [easy|]. intros I.
  destruct (Z.eq_dec (d_attr d) t) as [Et | Et].
  - eexists. exists l, d, []. split; [reflexivity|]. split; [exact Et|]. split; [easy|reflexivity].
  - rewrite map_app, in_app_iff in I. destruct I as [I | [I | []]]; [|contradiction]. destruct (IH I) as (er & l1 & d' & l2 & -> & E1 & E2 & E3).
    exists er, l1, d', (l2 ++ [d]). split; [now rewrite <- app_assoc|]. split; [exact E1|]. split; [|exact E3].
    rewrite map_app, in_app_iff. intros [J | [J | []]]; [exact (E2 J)|exact (Et J)].
Qed.
Lemma relative_positive abc (m : model R) ignore f : cross_section abc m -> relative_permittivity (mo_mats m) ignore f -> forall t, 0 < f t.
Proof.
  intros Cs (H1 & H2) t. destruct (in_dec Z.eq_dec t (map d_attr (dielectrics (mo_mats m)))) as [I | N]; [|rewrite (H2 t N); lra].
  destruct (permittivity_exists (mo_mats m) ignore t I) as (er & Hp). rewrite (H1 t er Hp). destruct Hp as (l1 & q & l2 & E & _ & _ & ->).
  destruct ignore; [cbn; lra|]. apply (cs_media _ _ Cs). rewrite E. apply in_or_app. right; now left.
Qed.

(** ** Divergence theorem on a triangle, uniform field *)
Lemma divergence_triangle a b c (d1 d2 g1 g2 z0 z1 z2 : R) :
  z1 - z0 = g1 * (fst b - fst a) + g2 * (snd b - snd a) -> z2 - z0 = g1 * (fst c - fst a) + g2 * (snd c - snd a) ->
  det a b c / 2 * (d1 * g1 + d2 * g2) =
  (z0 + z1) / 2 * flux_through (d1, d2, 0) a b + (z1 + z2) / 2 * flux_through (d1, d2, 0) b c + (z2 + z0) / 2 * flux_through (d1, d2, 0) c a.
Proof.
  intros E1 E2. assert (H1 : z1 = z0 + (g1 * (fst b - fst a) + g2 * (snd b - snd a))) by lra.
  assert (H2 : z2 = z0 + (g1 * (fst c - fst a) + g2 * (snd c - snd a))) by lra. rewrite H1, H2.
  unfold flux_through, value, midpoint, det. cbn [fst snd]. cbn [nsub nmul RNum]. field.
Qed.

Section Exact.
  Variable rule1 : list (R * R).
  Variable rule0 rule2 : list (R * R * R).
  Hypothesis Ru : rules_ok rule1 rule0 rule2.
  Variable abc : R * R -> R.
  Variable m : model R.
  Hypothesis Cs : cross_section abc m.
  Notation ms := (mo_mesh m).
  Notation D := (first_order rule1 rule0 rule2 distance ms).
  Notation P v := (m_coord ms (Z.of_nat v)).
  Let Tr : triangulation ms := proj1 (cs_mesh _ _ Cs).

  Lemma directed_corners e a b c : corners ms e a b c -> directed_sides e = [(Z.of_nat a, Z.of_nat b); (Z.of_nat b, Z.of_nat c); (Z.of_nat c, Z.of_nat a)].
  Proof. intros C. unfold directed_sides. now rewrite (co_verts _ _ _ _ _ C). Qed.
  Lemma directed_side e s : In s (directed_sides e) -> side_of e (fst s) (snd s).
  Proof.
    unfold directed_sides. destruct (e_verts e) as [|a [|b [|c [|]]]] eqn:E; try easy. intros I. exists a, b, c. split; [exact E|].
    destruct I as [<- | [<- | [<- | []]]]; auto.
  Qed.
  (** a field without sources has no work against potentials that vanish on the conductors *)
  Lemma no_work eps u outer (chi : element R -> R * R) (z : list R) :
    outline m outer -> exact_field m eps u outer -> potential D z ->
    (forall c w, In c (pecs (mo_mats m)) -> at_boundary ms (p_attr c) w -> at_vertex z w = 0) ->
    (forall e, In e (m_elems ms) -> slope ms z e (chi e)) ->
    Rsum (m_elems ms) (fun e => area ms e * (eps (e_attr e) * fst (u e) * fst (chi e) + eps (e_attr e) * snd (u e) * snd (chi e))) = 0.
  Proof.
    intros (inner & Pe) (Cv & Ho) Lz Hz Hs. destruct (coefficients ms Tr _ Cv) as (d & Ld & Ed).
    pose (G := fun s : Z * Z => (at_vertex z (fst s) + at_vertex z (snd s)) / 2 * fl ms d (Z.to_nat (fst s), Z.to_nat (snd s))).
    transitivity (Rsum (flat_map directed_sides (m_elems ms)) G).
    { rewrite Rsum_flat_map. apply Rsum_ext. intros e I. destruct (elem_corners ms Tr e I) as (a & b & c & C).
      rewrite (directed_corners e a b c C), (area_det ms e a b c C). rewrite !Rsum_cons, Rsum_nil. unfold G. cbn [fst snd]. rewrite !Nat2Z.id.
      destruct (side_in ms e a b c C) as (S0 & S1 & S2).
      rewrite <- (field_flux ms Tr d e a b I S0), <- (field_flux ms Tr d e b c I S1), <- (field_flux ms Tr d e c a I S2), <- (Ed e I). unfold displacement.
      rewrite (divergence_triangle (P a) (P b) (P c) _ _ (fst (chi e)) (snd (chi e)) (at_vertex z (Z.of_nat a)) (at_vertex z (Z.of_nat b)) (at_vertex z (Z.of_nat c))); [ring| |];
        apply (Hs e I); rewrite (co_verts _ _ _ _ _ C); cbn; auto. }
    assert (Own : forall s, In s (inner ++ map (fun s => (snd s, fst s)) inner ++ outer) -> exists e, In e (m_elems ms) /\ side_of e (fst s) (snd s)).
    { intros s Is. apply (Permutation_in s (Permutation_sym Pe)) in Is. apply in_flat_map in Is as (e & I & J). exists e. split; [exact I|now apply directed_side]. }
    rewrite (Rsum_perm _ _ G Pe), !Rsum_app, Rsum_map.
    assert (E1 : Rsum inner (fun s => G (snd s, fst s)) = Rsum inner (fun s => - G s)).
    { apply Rsum_ext. intros s Is. unfold G. cbn [fst snd]. destruct (Own s (in_or_app _ _ _ (or_introl Is))) as (e & I & S).
      destruct (side_corners ms Tr e _ _ I S) as (i & j & -> & -> & _ & N). rewrite !Nat2Z.id, (fl_reverse ms d i j N). field. }
    assert (E2 : Rsum outer G = 0).
    { apply Rsum_zero. intros s Is. destruct (Own s ltac:(rewrite !in_app_iff; auto)) as (e & I & S).
      destruct (Ho s e Is I S) as [((c & Ic & Bc) & (c' & Ic' & Bc')) | Z].
      - unfold G. rewrite (Hz _ _ Ic Bc), (Hz _ _ Ic' Bc'). field.
      - rewrite (Ed e I), (field_flux_any ms Tr d e _ _ I (or_introl S)) in Z. unfold G. rewrite Z. ring. }
    rewrite E1, E2, Rsum_opp. lra.
  Qed.
  Lemma slope_sub phi psi e g h : slope ms phi e g -> slope ms psi e h -> potential D phi -> potential D psi -> In e (m_elems ms) ->
    slope ms (vadd phi (vscale (- 1) psi)) e (fst g - fst h, snd g - snd h).
  Proof.
    intros Sg Sh Lg Lh I v w Iv Iw. cbn [fst snd].
    assert (N : forall v, In v (e_verts e) -> at_vertex (vadd phi (vscale (- 1) psi)) v = at_vertex phi v - at_vertex psi v).
    { intros k Ik. unfold at_vertex, vadd, vscale. set (j := Z.to_nat k).
      assert (Lj : (j < nverts ms)%nat). { apply (vert_lt ms e j I). unfold verts. now apply in_map. }
      unfold potential in Lg, Lh. cbn [di_nH1 first_order] in Lg, Lh.
      rewrite (nth_indep _ 0 (fst (0, -1 * 0) + snd (0, -1 * 0))) by (rewrite map_length, combine_length, map_length; lia).
      rewrite (map_nth (fun p => fst p + snd p)), combine_nth by (rewrite map_length; lia). cbn [fst snd].
      rewrite (map_nth (fun v => -1 * v)). ring. }
    rewrite !N by assumption. specialize (Sg v w Iv Iw). specialize (Sh v w Iv Iw). lra.
  Qed.
  (** such a field has the least energy *)
  Lemma exact_least eps u outer v psi phi W W' : (forall t, 0 < eps t) ->
    outline m outer -> exact_field m eps u outer -> held m v psi -> minus_slope ms psi u -> held m v phi ->
    field_energy ms eps psi W -> field_energy ms eps phi W' -> W <= W'.
  Proof.
    intros Pe Ou Ef Hpsi Hu Hphi FE FE'.
    assert (Lp : potential D psi) by (apply (nodal_length rule1 rule0 rule2 abc m Cs); exact (proj1 Hpsi)).
    assert (Lq : potential D phi) by (apply (nodal_length rule1 rule0 rule2 abc m Cs); exact (proj1 Hphi)).
    destruct FE' as (g & Hg & ->).
    assert (EW : W = Rsum (m_elems ms) (fun e => / 2 * eps (e_attr e) * (fst (u e) * fst (u e) + snd (u e) * snd (u e)) * area ms e)).
    { apply (energy_unique rule1 rule0 rule2 abc m Cs eps psi W _ Lp FE). exists (fun e => (- fst (u e), - snd (u e))). split; [exact Hu|]. apply Rsum_ext. intros e _. cbn [fst snd]. ring. }
    rewrite EW. set (z := vadd phi (vscale (- 1) psi)).
    assert (Lz : potential D z). { unfold potential in *. unfold z, vadd, vscale. rewrite map_length, combine_length, map_length. lia. }
    assert (Hz : forall e, In e (m_elems ms) -> slope ms z e (fst (g e) + fst (u e), snd (g e) + snd (u e))).
    { intros e I. pose proof (slope_sub phi psi e _ _ (Hg e I) (Hu e I) Lq Lp I) as S. cbn [fst snd] in S. unfold Rminus in S. now rewrite !Ropp_involutive in S. }
    assert (Z0 : forall c w, In c (pecs (mo_mats m)) -> at_boundary ms (p_attr c) w -> at_vertex z w = 0).
    { intros c w Ic Bw. destruct (touches_nat rule1 rule0 rule2 abc m Cs _ _ Bw) as (k & -> & Lk & _).
      unfold z, at_vertex, vadd, vscale. rewrite Nat2Z.id. unfold potential in *. cbn [di_nH1 first_order] in Lp, Lq.
      rewrite (nth_indep _ 0 (fst (0, -1 * 0) + snd (0, -1 * 0))) by (rewrite map_length, combine_length, map_length; lia).
      rewrite (map_nth (fun p => fst p + snd p)), combine_nth by (rewrite map_length; lia). cbn [fst snd]. rewrite (map_nth (fun v => -1 * v)).
      pose proof (proj2 Hphi c _ Ic Bw) as E1. pose proof (proj2 Hpsi c _ Ic Bw) as E2. unfold at_vertex in E1, E2. rewrite Nat2Z.id in E1, E2. lra. }
    pose proof (no_work eps u outer _ z Ou Ef Lz Z0 Hz) as N. cbn [fst snd] in N.
    assert (Q : 0 <= Rsum (m_elems ms) (fun e => / 2 * eps (e_attr e) * ((fst (g e) + fst (u e)) * (fst (g e) + fst (u e)) + (snd (g e) + snd (u e)) * (snd (g e) + snd (u e))) * area ms e)).
    { apply Rsum_nonneg. intros e I. destruct (tr_elem ms Tr e I) as (_ & a & b & c & _ & _ & _ & _ & Ar).
      pose proof (Rle_0_sqr (fst (g e) + fst (u e))). pose proof (Rle_0_sqr (snd (g e) + snd (u e))). unfold Rsqr in *. specialize (Pe (e_attr e)).
      apply Rmult_le_pos; [|lra]. apply Rmult_le_pos; [|lra]. lra. }
    assert (Sp : Rsum (m_elems ms) (fun e => / 2 * eps (e_attr e) * (fst (g e) * fst (g e) + snd (g e) * snd (g e)) * area ms e) =
      Rsum (m_elems ms) (fun e => / 2 * eps (e_attr e) * ((fst (g e) + fst (u e)) * (fst (g e) + fst (u e)) + (snd (g e) + snd (u e)) * (snd (g e) + snd (u e))) * area ms e)
      - Rsum (m_elems ms) (fun e => area ms e * (eps (e_attr e) * fst (u e) * (fst (g e) + fst (u e)) + eps (e_attr e) * snd (u e) * (snd (g e) + snd (u e))))
      + Rsum (m_elems ms) (fun e => / 2 * eps (e_attr e) * (fst (u e) * fst (u e) + snd (u e) * snd (u e)) * area ms e)).
    { rewrite <- Rsum_minus, <- Rsum_plus. apply Rsum_ext. intros e _. field. }
    rewrite Sp, N. lra.
  Qed.
End Exact.
