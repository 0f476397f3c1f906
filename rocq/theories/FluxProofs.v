(** The displacement field of first order elements is the conservative field nearest to eps E (C71). *)
From Coq Require Import Reals Lra Relations Permutation.
From Verif Require Import Prelude StdMap Materials Graph ModelM Parser Matrix Solver Fem Domain Results Driver RSum ListLemmas SpecInput SpecModel SpecSolver SpecDriver SpecCharge SpecField SpecFem
  SpecTriangles SpecDrawing SpecFlux Triangles SolverProofs ChargeProofs FemProofs FemCalls FemFacts FemModel FemLaws FemMore TriProofs TriModel TriLocal DrawLocal.
Open Scope R_scope.
Open Scope list_scope.

(** ** One triangle *)
Definition fluxes (F : R * R * R) (a b c : R * R) : R * R * R := (flux_through F a b, flux_through F b c, flux_through F c a).
Lemma corner_x F a b c : 0 < det a b c -> corner_values (fluxes F a b c) (gradsy a b c) = (fst (value F a), fst (value F b), fst (value F c)).
Proof.
  intros Pd. destruct F as [[al be] ga], a as (x0, y0), b as (x1, y1), c as (x2, y2).
  unfold fluxes, flux_through, corner_values, gradsy, value, midpoint, det in *. cbn [fst snd] in *. cbn [nsub nmul RNum] in *.
  apply pair3; field; lra.
Qed.
Lemma corner_y F a b c : 0 < det a b c -> corner_values (fluxes F a b c) (gradsx a b c) = (- snd (value F a), - snd (value F b), - snd (value F c)).
Proof.
  intros Pd. destruct F as [[al be] ga], a as (x0, y0), b as (x1, y1), c as (x2, y2).
  unfold fluxes, flux_through, corner_values, gradsx, value, midpoint, det in *. cbn [fst snd] in *. cbn [nsub nmul RNum] in *.
  apply pair3; field; lra.
Qed.
(** the field with given fluxes *)
Definition field3 (f : R * R * R) (a b c : R * R) : R * R * R :=
  let '(f0, f1, f2) := f in
  (- (f0 * fst c + f1 * fst a + f2 * fst b) / det a b c, - (f0 * snd c + f1 * snd a + f2 * snd b) / det a b c, (f0 + f1 + f2) / det a b c).
Lemma field3_fluxes f a b c : 0 < det a b c -> fluxes (field3 f a b c) a b c = f.
Proof.
  intros Pd. destruct f as [[f0 f1] f2], a as (x0, y0), b as (x1, y1), c as (x2, y2).
  unfold fluxes, field3, flux_through, value, midpoint, det in *. cbn [fst snd] in *. cbn [nsub nmul RNum] in *.
  apply pair3; field; lra.
Qed.
Lemma fluxes_field3 F a b c : 0 < det a b c -> field3 (fluxes F a b c) a b c = F.
Proof.
  intros Pd. destruct F as [[al be] ga], a as (x0, y0), b as (x1, y1), c as (x2, y2).
  unfold fluxes, field3, flux_through, value, midpoint, det in *. cbn [fst snd] in *. cbn [nsub nmul RNum] in *.
  apply pair3; field; lra.
Qed.
Lemma flux_reverse F p q : flux_through F q p = - flux_through F p q.
Proof. destruct F as [[al be] ga]. unfold flux_through, value, midpoint. cbn [fst snd]. field. Qed.
Definition misfit3 (a b c : R * R) (F : R * R * R) (k : R) (u : R * R) : R :=
  det a b c / 2 / 3 * (square_distance F k u (midpoint a b) + square_distance F k u (midpoint b c) + square_distance F k u (midpoint c a)).
Lemma misfit3_forms a b c F k z : 0 < det a b c ->
  misfit3 a b c F k (- comb z (gradsx a b c), - comb z (gradsy a b c)) =
  mass3 a b c (fluxes F a b c) (fluxes F a b c) - 2 * k * mix3 a b c z (fluxes F a b c) +
  k * k * (det a b c / 2 * (comb z (gradsx a b c) * comb z (gradsx a b c) + comb z (gradsy a b c) * comb z (gradsy a b c))).
Proof.
  intros Pd. unfold mass3, mix3. rewrite (corner_x F a b c Pd), (corner_y F a b c Pd). set (gx := comb z (gradsx a b c)). set (gy := comb z (gradsy a b c)).
  clearbody gx gy. destruct F as [[al be] ga]. unfold misfit3, square_distance, value, midpoint, tri, total3. cbn [fst snd].
  set (dd := det a b c) in *. clearbody dd. field.
Qed.

Lemma finite_choice (P : nat -> R -> Prop) n : (forall k, (k < n)%nat -> exists r, P k r) -> exists l, List.length l = n /\ forall k, (k < n)%nat -> P k (nth k l 0).
Proof.
  induction n as [|n IH]; intros H; [exists []; split; [reflexivity|lia]|].
  destruct IH as (l & L & Hl); [intros; apply H; lia|]. destruct (H n ltac:(lia)) as (r & Hr). exists (l ++ [r]). split; [rewrite app_length; cbn; lia|].
  intros k Lk. destruct (Nat.eq_dec k n) as [-> | N].
  - rewrite app_nth2 by lia. now rewrite L, Nat.sub_diag.
  - rewrite app_nth1 by lia. apply Hl. lia.
Qed.

(** ** The mesh *)
Section Flux.
  Variable rule1 : list (R * R).
  Variable rule0 rule2 : list (R * R * R).
  Hypothesis Ru : rules_ok rule1 rule0 rule2.
  Hypothesis Ex : exact_for_quadratics rule2.
  Variable ms : mesh R.
  Hypothesis Tr : triangulation ms.
  Notation D := (first_order rule1 rule0 rule2 distance ms).
  Notation P v := (m_coord ms (Z.of_nat v)).
  Notation ne := (List.length (edges ms)).
  (** the field with the fluxes [d] *)
  Definition field_of (d : list R) (e : element R) : R * R * R :=
    match verts e with [a; b; c] => field3 (fl3 ms d a b c) (P a) (P b) (P c) | _ => (0, 0, 0) end.
  Lemma field_of_corners d e a b c : corners ms e a b c -> field_of d e = field3 (fl3 ms d a b c) (P a) (P b) (P c).
  Proof. intros C. unfold field_of. now rewrite (co_nat _ _ _ _ _ C). Qed.
  Lemma side_corners e v w : In e (m_elems ms) -> side_of e v w -> exists i j, v = Z.of_nat i /\ w = Z.of_nat j /\ In (i, j) (sides e) /\ i <> j.
  Proof.
    intros I (va & vb & vc & E & S). destruct (elem_corners ms Tr e I) as (a & b & c & C). rewrite (co_verts _ _ _ _ _ C) in E. injection E as <- <- <-.
    destruct (side_in ms e a b c C) as (S0 & S1 & S2). destruct (co_distinct _ _ _ _ _ C) as (N1 & N2 & N3).
    destruct S as [S | [S | S]]; injection S as -> ->; [exists a, b | exists b, c | exists c, a]; auto.
  Qed.
  Lemma field_flux d e i j : In e (m_elems ms) -> In (i, j) (sides e) -> flux_through (field_of d e) (P i) (P j) = fl ms d (i, j).
  Proof.
    intros I S. destruct (elem_corners ms Tr e I) as (a & b & c & C). rewrite (field_of_corners d e a b c C).
    pose proof (field3_fluxes (fl3 ms d a b c) (P a) (P b) (P c) (co_det _ _ _ _ _ C)) as E. unfold fluxes in E.
    set (F := field3 _ _ _ _) in *. clearbody F. unfold fl3 in E. injection E as E0 E1 E2.
    rewrite (sides_eq ms e a b c C) in S. destruct S as [S | [S | [S | []]]]; injection S as <- <-; assumption.
  Qed.
  Lemma fl_reverse d i j : i <> j -> fl ms d (j, i) = - fl ms d (i, j).
  Proof.
    intros N. unfold fl, edge_dof, edge, sign. cbn [fst snd]. destruct (Nat.ltb_spec i j), (Nat.ltb_spec j i); try lia; cbn [n1 nopp RNum]; ring.
  Qed.
  Lemma field_flux_any d e v w : In e (m_elems ms) -> joins e v w -> flux_through (field_of d e) (m_coord ms v) (m_coord ms w) = fl ms d (Z.to_nat v, Z.to_nat w).
  Proof.
    intros I [S | S]; destruct (side_corners _ _ _ I S) as (i & j & -> & -> & Is & N); rewrite !Nat2Z.id.
    - now apply field_flux.
    - rewrite flux_reverse, (field_flux d e i j I Is), (fl_reverse d i j N). lra.
  Qed.
  Lemma field_of_conservative d : conservative_flux ms (field_of d).
  Proof. intros e e' v w I I' J J'. now rewrite !(field_flux_any d) by assumption. Qed.
  (** every conservative field has coefficients *)
  Lemma coefficients F : conservative_flux ms F -> exists d, List.length d = ne /\ forall e, In e (m_elems ms) -> F e = field_of d e.
  Proof.
    intros Cf.
    destruct (finite_choice (fun k r => forall e, In e (m_elems ms) -> joins e (Z.of_nat (fst (nth k (edges ms) (0, 0)%nat))) (Z.of_nat (snd (nth k (edges ms) (0, 0)%nat))) ->
        flux_through (F e) (P (fst (nth k (edges ms) (0, 0)%nat))) (P (snd (nth k (edges ms) (0, 0)%nat))) = r) ne) as (d & L & Hd).
    { intros k Lk. assert (Ik : In (nth k (edges ms) (0, 0)%nat) (edges ms)) by (now apply nth_In).
      apply edges_in in Ik as (e & s & Ie & Is & Es). set (x := nth k (edges ms) (0, 0)%nat) in *.
      exists (flux_through (F e) (P (fst x)) (P (snd x))). intros e' Ie' J'. apply Cf; try assumption.
      destruct (elem_corners ms Tr e Ie) as (a & b & c & C). assert (S : side_of e (Z.of_nat (fst s)) (Z.of_nat (snd s))).
      { exists (Z.of_nat a), (Z.of_nat b), (Z.of_nat c). split; [exact (co_verts _ _ _ _ _ C)|]. rewrite (sides_eq ms e a b c C) in Is.
        destruct Is as [<- | [<- | [<- | []]]]; auto. }
      rewrite <- Es. unfold edge. destruct (fst s <? snd s)%nat; [left|right]; exact S. }
    exists d. split; [exact L|]. intros e I. destruct (elem_corners ms Tr e I) as (a & b & c & C).
    rewrite (field_of_corners d e a b c C), <- (fluxes_field3 (F e) _ _ _ (co_det _ _ _ _ _ C)). f_equal.
    assert (G : forall i j, In (i, j) (sides e) -> side_of e (Z.of_nat i) (Z.of_nat j) -> i <> j -> flux_through (F e) (P i) (P j) = fl ms d (i, j)).
    { intros i j Is S N. destruct (side_dof ms e (i, j) I Is) as (Lk & Ek). specialize (Hd _ Lk e I). rewrite Ek in Hd.
      unfold fl. unfold edge, sign in *. cbn [fst snd] in *. destruct (Nat.ltb_spec i j).
      - cbn [fst snd] in Hd. rewrite Hd by (now left). cbn [n1 RNum]. ring.
      - cbn [fst snd] in Hd. rewrite flux_reverse, Hd by (now right). cbn [n1 nopp RNum]. ring. }
    destruct (side_in ms e a b c C) as (S0 & S1 & S2). destruct (co_distinct _ _ _ _ _ C) as (N1 & N2 & N3).
    unfold fluxes, fl3. apply pair3; apply G; auto; exists (Z.of_nat a), (Z.of_nat b), (Z.of_nat c); (split; [exact (co_verts _ _ _ _ _ C)|]); auto.
  Qed.
  Lemma area_det e a b c : corners ms e a b c -> area ms e = det (P a) (P b) (P c) / 2.
  Proof. intros C. unfold area. rewrite (co_verts _ _ _ _ _ C). reflexivity. Qed.
  Lemma misfit_forms d z e k u : In e (m_elems ms) -> List.length d = ne -> potential D z -> slope ms z e (- fst u, - snd u) ->
    misfit ms e (field_of d e) k u = mass_e rule2 ms e d d - 2 * k * mix_e rule2 ms e z d + k * k * (2 * work_e ms e z z / 2).
  Proof.
    intros I L Lz Sl. destruct (elem_corners ms Tr e I) as (a & b & c & C). pose proof (co_det _ _ _ _ _ C) as Pd.
    pose proof (slope_unique rule1 rule0 rule2 ms Tr e z _ I Lz Sl) as Eg. injection Eg as Ex' Ey'.
    rewrite (gx_comb rule1 rule0 rule2 ms e a b c z I C Lz) in Ex'. rewrite (gy_comb rule1 rule0 rule2 ms e a b c z I C Lz) in Ey'.
    rewrite (mass_corners rule1 rule0 rule2 Ex ms Tr e a b c d d I C L L), (mix_corners rule1 rule0 rule2 Ex ms Tr e a b c z d I C Lz L), (work_corners rule1 rule0 rule2 ms e a b c z z I C Lz Lz).
    rewrite (field_of_corners d e a b c C). unfold misfit. rewrite (co_verts _ _ _ _ _ C), (area_det e a b c C).
    assert (Eu : u = (- comb (at3 z a b c) (gradsx (P a) (P b) (P c)), - comb (at3 z a b c) (gradsy (P a) (P b) (P c)))).
    { destruct u as (u1, u2). cbn [fst snd] in *. f_equal; lra. }
    rewrite Eu. pose proof (misfit3_forms (P a) (P b) (P c) (field3 (fl3 ms d a b c) (P a) (P b) (P c)) k (at3 z a b c) Pd) as M.
    rewrite (field3_fluxes _ _ _ _ Pd) in M. unfold misfit3 in M. rewrite M. unfold work3. field.
  Qed.
  Definition inner (d t : list R) : R := Rsum (di_rt D) (fun q => r_weight q * (dot (r_x q) d * dot (r_x q) t + dot (r_y q) d * dot (r_y q) t)).
  Lemma inner_sub d t : List.length d = ne -> List.length t = ne ->
    inner (vadd t (vscale (- 1) d)) (vadd t (vscale (- 1) d)) = inner t t - 2 * inner d t + inner d d.
  Proof.
    intros Ld Lt. unfold inner. replace (2 * Rsum (di_rt D) _) with (Rsum (di_rt D) (fun q => 2 * (r_weight q * (dot (r_x q) d * dot (r_x q) t + dot (r_y q) d * dot (r_y q) t)))) by apply Rsum_scal.
    rewrite <- Rsum_minus, <- Rsum_plus. apply Rsum_ext. intros q _. rewrite !dot_vadd by (unfold vscale; now rewrite map_length, Lt). rewrite !dot_vscale. ring.
  Qed.
  Lemma inner_nonneg d : 0 <= inner d d.
  Proof.
    apply Rsum_nonneg. intros q I. destruct (to_rt D (first_order_tables rule1 rule0 rule2 Ru ms Tr) q I) as (_ & _ & W).
    apply Rmult_le_pos; [lra|]. pose proof (Rle_0_sqr (dot (r_x q) d)). pose proof (Rle_0_sqr (dot (r_y q) d)). unfold Rsqr in *. lra.
  Qed.
  Lemma inner_zero d : List.length d = ne -> inner d d = 0 -> d = repeat 0 ne.
  Proof.
    intros L E. pose proof (first_order_tables rule1 rule0 rule2 Ru ms Tr) as OK. apply (to_rt_basis D OK d L). intros q I.
    destruct (to_rt D OK q I) as (_ & _ & Wq).
    assert (Zq : r_weight q * (dot (r_x q) d * dot (r_x q) d + dot (r_y q) d * dot (r_y q) d) = 0).
    { revert q I Wq. intros q I _. revert q I. apply Rsum_pos_zero; [|exact E]. intros q I. destruct (to_rt D OK q I) as (_ & _ & Wq). apply Rmult_le_pos; [lra|].
      pose proof (Rle_0_sqr (dot (r_x q) d)). pose proof (Rle_0_sqr (dot (r_y q) d)). unfold Rsqr in *. lra. }
    apply Rmult_integral in Zq as [Zq | Zq]; [lra|].
    pose proof (Rle_0_sqr (dot (r_x q) d)) as S1. pose proof (Rle_0_sqr (dot (r_y q) d)) as S2. unfold Rsqr in *.
    split; apply Rsqr_0_uniq; unfold Rsqr; lra.
  Qed.
  Lemma total_forms d z eps u : List.length d = ne -> potential D z -> minus_slope ms z u ->
    total_misfit ms eps u (field_of d) = inner d d - 2 * Rsum (m_elems ms) (fun e => eps (e_attr e) * mix_e rule2 ms e z d) +
      Rsum (m_elems ms) (fun e => eps (e_attr e) * eps (e_attr e) * work_e ms e z z).
  Proof.
    intros L Lz Hu. unfold inner. rewrite (rt_sum rule1 rule0 rule2 ms d d). unfold total_misfit.
    rewrite <- (Rsum_scal (m_elems ms) 2), <- Rsum_minus, <- Rsum_plus. apply Rsum_ext. intros e I.
    rewrite (misfit_forms d z e _ _ I L Lz (Hu e I)). field.
  Qed.
  Lemma vsub_zero (t d : list R) n : List.length t = n -> List.length d = n -> vadd t (vscale (- 1) d) = repeat 0 n -> t = d.
  Proof.
    revert t d; induction n as [|n IH]; intros [|x t] [|y d] Lt Ld E; try discriminate; [reflexivity|].
    cbn in E. injection E as E0 E. f_equal; [cbn in E0; lra|]. apply IH; auto.
  Qed.
  Lemma nearest p z d eps u V : potential D z -> projects D p (map (fun row => - dot row z) (di_gradient D)) d ->
    (forall e, In e (m_elems ms) -> eps_of (si_eps p) (e_attr e) = eps (e_attr e)) -> minus_slope ms z u ->
    conservative_flux ms V -> (exists e, In e (m_elems ms) /\ V e <> field_of d e) ->
    total_misfit ms eps u (field_of d) < total_misfit ms eps u V.
  Proof.
    intros Lz (Ld & Pr) He Hu Cv (e0 & I0 & N0). change (di_nRT D) with ne in *. destruct (coefficients V Cv) as (t & Lt & Et).
    assert (Mi : forall x, List.length x = ne -> inner d x = Rsum (m_elems ms) (fun e => eps (e_attr e) * mix_e rule2 ms e z x)).
    { intros x Lx. specialize (Pr x Lx). rewrite (mix_sum rule1 rule0 rule2 ms Tr (eps_of (si_eps p)) z x Lz) in Pr. unfold inner. rewrite Pr.
      apply Rsum_ext. intros e I. now rewrite He. }
    assert (EV : total_misfit ms eps u V = total_misfit ms eps u (field_of t)).
    { unfold total_misfit. apply Rsum_ext. intros e I. now rewrite Et. }
    rewrite EV, !(total_forms _ z eps u) by assumption. rewrite <- !Mi by assumption.
    pose proof (inner_sub d t Ld Lt) as Q. set (x := vadd t (vscale (- 1) d)) in *.
    assert (Lx : List.length x = ne).
    { unfold x, vadd, vscale. rewrite ?map_length, ?combine_length, ?map_length. rewrite ?combine_length, ?map_length, Lt, Ld. lia. }
    assert (0 < inner x x); [|lra]. destruct (inner_nonneg x) as [Px | Px]; [exact Px|]. exfalso. apply N0. rewrite (Et e0 I0).
    f_equal. apply (vsub_zero t d ne Lt Ld). fold x. now apply inner_zero.
  Qed.
End Flux.
