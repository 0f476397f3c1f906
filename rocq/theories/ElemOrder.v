(** Elements of any order on a mesh that is drawn elsewhere, and elements of a higher order on the same mesh. *)
From Coq Require Import Reals Lra Ranalysis1.
From Verif Require Import Prelude StdMap Materials Graph ModelM Parser Matrix Solver Fem Domain Results Driver RSum LinAlg ListLemmas
  SpecInput SpecModel SpecSolver SpecDriver SpecField SpecFem SpecTriangles SpecElements SpecExtend SpecRedraw Triangles Elements
  SolverProofs FemProofs TriProofs TriModel TriLocal OrderProofs ElemProofs ElemTables ElemModel.
Open Scope R_scope.
Open Scope list_scope.

(** ** Moved meshes *)
Lemma map2_nth (g : R -> R -> R) l l' k : g 0 0 = 0 -> List.length l = List.length l' -> nth k (map2 g l l') 0 = g (nth k l 0) (nth k l' 0).
Proof.
  intros Z. revert l' k; induction l as [|y l IH]; intros [|y' l'] k L; try discriminate; [destruct k; symmetry; exact Z|].
  destruct k as [|k]; [reflexivity|]. cbn [nth]. rewrite <- IH by (now injection L). reflexivity.
Qed.
Section Moved.
  Variable ref : reference R.
  Hypothesis Ro : reference_ok ref.
  Variable ms : mesh R.
  Hypothesis Tr : triangulation ms.
  Variables s c n tx ty : R.
  Hypothesis Ps : 0 < s.
  Hypothesis Un : c * c + n * n = 1.
  Variable f : R * R -> R * R.
  Hypothesis Ef : forall p, f p = (s * (c * fst p - n * snd p) + tx, s * (n * fst p + c * snd p) + ty).
  Notation ms' := (moved f ms).
  Lemma el_shape e : In e (m_elems ms) -> jacobian ms' e = s * s * jacobian ms e /\
    forall l l', List.length l = List.length l' ->
      carried s c n (to_x ms e l l') (to_y ms e l l') (to_x ms' e l l') (to_y ms' e l l') /\
      List.length (to_x ms e l l') = List.length l /\ List.length (to_y ms e l l') = List.length l /\
      List.length (to_x ms' e l l') = List.length l /\ List.length (to_y ms' e l l') = List.length l.
  Proof.
    intros I. destruct (elem_shape ms Tr s c n tx ty Ps Un f Ef e I) as (a & b & d & Ev & Pd & Ej & Ej' & _). split; [rewrite Ej', Ej; reflexivity|].
    intros l l' L. unfold to_x, to_y. rewrite Ev. cbn [map]. change (pos ms' ?k) with (f (pos ms k)). rewrite (det_moved s c n tx ty Un f Ef).
    split; [|rewrite !map2_length by exact L; auto]. set (dd := det (pos ms a) (pos ms b) (pos ms d)) in *. intros k.
    rewrite !map2_nth by (try exact L; cbn [nsub nmul ndiv RNum]; unfold Rdiv; ring). rewrite !Ef. cbn [fst snd]. cbn [nsub nmul ndiv RNum]. split; field; split; lra.
  Qed.
  Lemma h1_carried x p : triangle ms x -> carried s c n (h1_x ref ms x p) (h1_y ref ms x p) (h1_x ref ms' x p) (h1_y ref ms' x p).
  Proof.
    intros T. destruct (el_shape _ (tri_in ms x T)) as (_ & K). destruct (sizes_h1 ref Ro p) as (L1 & L2). destruct (K (re_h1x ref p) (re_h1y ref p)) as (C & M1 & M2 & M3 & M4); [congruence|].
    unfold h1_x, h1_y. change (n_h1 ref ms') with (n_h1 ref ms). change (h1_dofs ref ms' x) with (h1_dofs ref ms x). apply carried_spread; [exact Ps|congruence|congruence|congruence|exact C].
  Qed.
  Lemma ned_carried x p : triangle ms x -> carried s c n (ned_x ref ms x p) (ned_y ref ms x p) (ned_x ref ms' x p) (ned_y ref ms' x p).
  Proof.
    intros T. destruct (el_shape _ (tri_in ms x T)) as (_ & K). destruct (sizes_nd ref Ro p) as (L1 & L2). destruct (K (re_ndx ref p) (re_ndy ref p)) as (C & M1 & M2 & M3 & M4); [congruence|].
    unfold ned_x, ned_y. change (n_nd ref ms') with (n_nd ref ms). change (nd_dofs ref ms' x) with (nd_dofs ref ms x).
    assert (Ls : List.length (nd_signs ref (snd x)) = List.length (re_ndx ref p)).
    { rewrite L1. destruct (elem_corners ms Tr _ (tri_in ms x T)) as (a & b & d & Co). unfold nd_signs. rewrite (sides_eq ms _ a b d Co). cbn [flat_map]. rewrite !app_length, !repeat_length. cbn [List.length]. lia. }
    apply carried_spread; [exact Ps|rewrite !map2_length; congruence|rewrite !map2_length; congruence|rewrite !map2_length; congruence|].
    intros k. rewrite !map2_nth by (try congruence; cbn [nmul RNum]; ring). destruct (C k) as (-> & ->). cbn [nmul RNum]. split; field; lra.
  Qed.
  Lemma rav_carried x p : triangle ms x -> carried s c n (rav_x ref ms x p) (rav_y ref ms x p) (rav_x ref ms' x p) (rav_y ref ms' x p).
  Proof. intros T k. unfold rav_x, rav_y. rewrite !opp_nth. destruct (ned_carried x p T k) as (-> & ->). split; unfold Rdiv; ring. Qed.
  Lemma elements_moved : redrawn_spaces s c n f (elements ref distance ms) (elements ref distance ms').
  Proof.
    constructor; cbn [di_nH1 di_nND di_nRT di_bdrDofs di_gradient di_grad di_rt di_mix di_flux di_abc elements].
    - auto.
    - auto.
    - reflexivity.
    - change (numbered ms') with (numbered ms). apply Forall2_flat. intros x I. apply numbered_in in I. apply Forall2_maps. intros pw _. cbn [g_attr g_weight g_x g_y].
      split; [reflexivity|]. split; [|exact (h1_carried x (fst pw) I)]. rewrite (proj1 (el_shape _ (tri_in ms x I))). cbn [nmul RNum]. ring.
    - change (numbered ms') with (numbered ms). apply Forall2_flat. intros x I. apply numbered_in in I. apply Forall2_maps. intros pw _. cbn [r_weight r_x r_y].
      split; [|exact (rav_carried x (fst pw) I)]. rewrite (proj1 (el_shape _ (tri_in ms x I))). cbn [nmul RNum]. ring.
    - change (numbered ms') with (numbered ms). apply Forall2_flat. intros x I. apply numbered_in in I. apply Forall2_maps. intros pw _. cbn [x_attr x_weight x_ndx x_ndy x_rtx x_rty].
      split; [reflexivity|]. split; [|split; [exact (ned_carried x (fst pw) I)|exact (rav_carried x (fst pw) I)]]. rewrite (proj1 (el_shape _ (tri_in ms x I))). cbn [nmul RNum]. ring.
    - apply Forall2_flat. intros b I. apply Forall2_maps. intros sw _. split; reflexivity.
    - apply Forall2_flat. intros b I. apply Forall2_maps. intros sw _. cbn [b_attr b_weight b_shape b_pos].
      split; [reflexivity|]. split.
      + unfold bdr_len. change (pos ms' ?k) with (f (pos ms k)). rewrite (distance_moved s c n tx ty Ps Un f Ef). cbn [nmul RNum]. ring.
      + split; [reflexivity|]. change (pos ms' ?k) with (f (pos ms k)). exact (along_moved s c n tx ty f Ef _ _ _).
  Qed.
End Moved.

(** ** Higher orders *)
Section Higher.
  Variables ref ref' : reference R.
  Hypothesis Ro : reference_ok ref.
  Hypothesis Ro' : reference_ok ref'.
  Variables Sd In' : list (list R).
  Hypothesis Ex : extends ref ref' Sd In'.
  Variable abc : R * R -> R.
  Variable m : model R.
  Hypothesis Cs : cross_section abc m.
  Notation ms := (mo_mesh m).
  Let Tr : triangulation ms := proj1 (cs_mesh _ _ Cs).
  Notation nv := (nverts ms).
  Notation ne := (nedges ms).
  Notation nh := (n_h1 ref ms).
  Notation nh' := (n_h1 ref' ms).
  Definition raise (phi : list R) : list R :=
    map (fun k => nth k phi 0) (seq 0 nv) ++ flat_map (fun y => applied Sd (on_edge ref ms phi y)) (edges ms) ++ flat_map (fun x => applied In' (loc ref ms phi x)) (numbered ms).
  Lemma sd_length phi y : List.length (applied Sd (on_edge ref ms phi y)) = re_side ref'.
  Proof. unfold applied. rewrite map_length. apply (er_sizes _ _ _ _ Ex). Qed.
  Lemma in_length phi x : List.length (applied In' (loc ref ms phi x)) = re_inner ref'.
  Proof. unfold applied. rewrite map_length. apply (er_sizes _ _ _ _ Ex). Qed.
  Lemma raise_length phi : List.length (raise phi) = nh'.
  Proof.
    unfold raise. rewrite !app_length, map_length, seq_length, (flat_map_constant_length _ _ (re_side ref')) by (intros; apply sd_length).
    rewrite (flat_map_constant_length _ _ (re_inner ref')) by (intros; apply in_length). unfold n_h1, nedges, numbered. rewrite combine_length, seq_length. unfold nelems. lia.
  Qed.
  Lemma raise_vertex phi k : (k < nv)%nat -> nth k (raise phi) 0 = nth k phi 0.
  Proof.
    intros L. unfold raise. rewrite app_nth1 by (rewrite map_length, seq_length; exact L).
    rewrite (nth_indep _ 0 ((fun k => nth k phi 0) 0%nat)) by (rewrite map_length, seq_length; exact L). rewrite (map_nth (fun k => nth k phi 0)), seq_nth by exact L. reflexivity.
  Qed.
  Lemma raise_edge phi i : (i < ne)%nat -> values (raise phi) (seq (nv + i * re_side ref') (re_side ref')) = applied Sd (on_edge ref ms phi (nth i (edges ms) (0, 0)%nat)).
  Proof.
    intros L. unfold raise. rewrite seq_add, values_shift by (rewrite map_length; apply seq_length).
    apply (values_block (fun y => applied Sd (on_edge ref ms phi y))); [intros; apply sd_length|]. now apply nth_error_nth'.
  Qed.
  Lemma raise_inner phi x : triangle ms x -> values (raise phi) (inner_nodes ref' ms (fst x)) = applied In' (loc ref ms phi x).
  Proof.
    intros T. unfold raise, inner_nodes. rewrite <- Nat.add_assoc, seq_add, values_shift by (rewrite map_length; apply seq_length).
    rewrite seq_add, values_shift by (rewrite (flat_map_constant_length _ _ (re_side ref')) by (intros; apply sd_length); reflexivity).
    rewrite <- (app_nil_r (flat_map _ (numbered ms))). apply (values_block (fun x => applied In' (loc ref ms phi x))); [intros; apply in_length|].
    unfold triangle in T. destruct x as [i e]. cbn [fst snd] in *. clear -T. unfold numbered, nelems.
    assert (K : forall a l j, nth_error l j = Some e -> nth_error (combine (seq a (List.length l)) l) j = Some ((a + j)%nat, e)).
    { intros a l; revert a; induction l as [|y l IH]; intros a [|j] E; try discriminate; cbn in *; [rewrite Nat.add_0_r; now injection E as ->|]. rewrite (IH (S a) j E). replace (a + S j)%nat with (S a + j)%nat by lia. reflexivity. }
    exact (K 0%nat _ i T).
  Qed.
  Lemma raise_side phi e y : In e (m_elems ms) -> In y (sides e) -> values (raise phi) (side_nodes ref' ms y) = applied Sd (on_edge ref ms phi y).
  Proof.
    intros I J. destruct (elem_corners ms Tr e I) as (a & b & c & C). pose proof (sides_diff ms e a b c y C J) as N.
    destruct (side_dof ms e y I J) as (Ld & En). pose proof (raise_edge phi (edge_dof ms y) Ld) as E. rewrite En in E.
    unfold side_nodes, oriented. unfold edge in *. destruct (Nat.ltb_spec (fst y) (snd y)) as [Lt|Lt].
    - rewrite E. destruct y; reflexivity.
    - rewrite values_rev, E. set (y' := (snd y, fst y)).
      assert (On : on_edge ref ms phi y' = nth (snd y) phi 0 :: nth (fst y) phi 0 :: rev (values phi (side_nodes ref ms y))).
      { assert (Ed : edge_dof ms y' = edge_dof ms y).
        { rewrite <- (edge_dof_edge ms y). unfold edge. now rewrite (proj2 (Nat.ltb_ge (fst y) (snd y))) by lia. }
        unfold on_edge, side_nodes, oriented. rewrite Ed. unfold y'. cbn [fst snd].
        rewrite (proj2 (Nat.ltb_lt (snd y) (fst y))) by lia. rewrite (proj2 (Nat.ltb_ge (fst y) (snd y))) by lia.
        rewrite values_rev, rev_involutive. reflexivity. }
      rewrite On, (er_reverse _ _ _ _ Ex) by (rewrite values_length; apply side_nodes_length). rewrite rev_involutive. reflexivity.
  Qed.
  Lemma raise_loc phi x a b c : triangle ms x -> corners ms (snd x) a b c ->
    loc ref' ms (raise phi) x = local (nth a phi 0) (nth b phi 0) (nth c phi 0) (applied Sd (on_edge ref ms phi (a, b))) (applied Sd (on_edge ref ms phi (b, c))) (applied Sd (on_edge ref ms phi (c, a))) (applied In' (loc ref ms phi x)).
  Proof.
    intros T C. pose proof (tri_in ms x T) as I. destruct (side_in ms _ a b c C) as (S0 & S1 & S2). rewrite (loc_eq ref' ms _ x a b c C).
    destruct (corners_lt ms _ a b c I C) as (La & Lb & Lc). rewrite !raise_vertex by assumption. rewrite (raise_side phi _ _ I S0), (raise_side phi _ _ I S1), (raise_side phi _ _ I S2), (raise_inner phi x T). reflexivity.
  Qed.
  Lemma raise_local phi x p : triangle ms x -> dot (re_h1 ref' p) (loc ref' ms (raise phi) x) = dot (re_h1 ref p) (loc ref ms phi x).
  Proof.
    intros T. destruct (elem_corners ms Tr _ (tri_in ms x T)) as (a & b & c & C). rewrite (raise_loc phi x a b c T C). rewrite (loc_eq ref ms phi x a b c C).
    exact (er_value _ _ _ _ Ex p _ _ _ _ _ _ _ (loc_sized ref ms phi x (a, b) (b, c) (c, a))).
  Qed.
  Lemma raise_gradient phi x p : triangle ms x -> List.length phi = nh ->
    dot (re_h1x ref' p) (loc ref' ms (raise phi) x) = dot (re_h1x ref p) (loc ref ms phi x) /\ dot (re_h1y ref' p) (loc ref' ms (raise phi) x) = dot (re_h1y ref p) (loc ref ms phi x).
  Proof.
    intros T L.
    assert (K : forall u, dot (re_h1x ref' p) (loc ref' ms (raise phi) x) * fst u + dot (re_h1y ref' p) (loc ref' ms (raise phi) x) * snd u =
                dot (re_h1x ref p) (loc ref ms phi x) * fst u + dot (re_h1y ref p) (loc ref ms phi x) * snd u).
    { intros u. pose proof (ro_derivative _ Ro (loc ref ms phi x) p u (loc_length ref ms Tr phi x T)) as D1. pose proof (ro_derivative _ Ro' (loc ref' ms (raise phi) x) p u (loc_length ref' ms Tr _ x T)) as D2.
      apply (uniqueness_limite (fun t => dot (re_h1 ref (fst p + t * fst u, snd p + t * snd u)) (loc ref ms phi x)) 0); [|exact D1].
      intros eps He. destruct (D2 eps He) as (de & Hd). exists de. intros h Nh Lh. specialize (Hd h Nh Lh). rewrite !raise_local in Hd by exact T. exact Hd. }
    split; [specialize (K (1, 0))|specialize (K (0, 1))]; cbn [fst snd] in K; lra.
  Qed.
  Lemma raise_value phi x p : triangle ms x -> List.length phi = nh -> value_in ref' ms (raise phi) x p = value_in ref ms phi x p.
  Proof. intros T L. rewrite (value_loc ref' ms Tr (raise phi) x p T (raise_length phi)), (value_loc ref ms Tr phi x p T L). now apply raise_local. Qed.
  Lemma raise_energy phi f : List.length phi = nh ->
    Rsum (di_grad (elements ref' distance ms)) (fun q => g_weight q * f (g_attr q) * grad2 q (raise phi) (raise phi)) =
    Rsum (di_grad (elements ref distance ms)) (fun q => g_weight q * f (g_attr q) * grad2 q phi phi).
  Proof.
    intros L. cbn [di_grad elements]. rewrite !Rsum_flat_map. apply Rsum_ext. intros x I. apply numbered_in in I. destruct (elem_corners ms Tr _ (tri_in ms x I)) as (a & b & c & C).
    unfold el_grad_points. rewrite !Rsum_map. cbn [g_attr g_weight]. unfold grad2. cbn [g_x g_y].
    set (J := jacobian ms (snd x)). set (e := f (e_attr (snd x))).
    pose proof (er_rules _ _ _ _ Ex (loc ref ms phi x) (loc ref ms phi x)) as Q.
    assert (Ll : List.length (loc ref ms phi x) = List.length (re_h1 ref (0, 0))) by (rewrite (loc_length ref ms Tr phi x I); symmetry; apply (proj1 (ro_sizes _ Ro) (0, 0))).
    set (X := fun q : R * R * R => dot (re_h1x ref (fst q)) (loc ref ms phi x)). set (Y := fun q : R * R * R => dot (re_h1y ref (fst q)) (loc ref ms phi x)).
    assert (Qxx : Rsum (re_rule0 ref') (fun q => snd q * (X q * X q)) = Rsum (re_rule0 ref) (fun q => snd q * (X q * X q))) by exact (Q (re_h1x ref) (re_h1x ref) Ll Ll (or_introl eq_refl) (or_introl eq_refl)).
    assert (Qxy : Rsum (re_rule0 ref') (fun q => snd q * (X q * Y q)) = Rsum (re_rule0 ref) (fun q => snd q * (X q * Y q))) by exact (Q (re_h1x ref) (re_h1y ref) Ll Ll (or_introl eq_refl) (or_intror eq_refl)).
    assert (Qyy : Rsum (re_rule0 ref') (fun q => snd q * (Y q * Y q)) = Rsum (re_rule0 ref) (fun q => snd q * (Y q * Y q))) by exact (Q (re_h1y ref) (re_h1y ref) Ll Ll (or_intror eq_refl) (or_intror eq_refl)). clear Q.
    assert (Tq : exists u v w, forall q, tx ms a b c (X q) (Y q) * tx ms a b c (X q) (Y q) + ty ms a b c (X q) (Y q) * ty ms a b c (X q) (Y q) = u * (X q * X q) + v * (X q * Y q) + w * (Y q * Y q)).
    { unfold tx, ty. pose proof (co_det _ _ _ _ _ C) as Pd. set (bx := fst (m_coord ms (Z.of_nat b)) - fst (m_coord ms (Z.of_nat a))). set (by' := snd (m_coord ms (Z.of_nat b)) - snd (m_coord ms (Z.of_nat a))).
      set (cx := fst (m_coord ms (Z.of_nat c)) - fst (m_coord ms (Z.of_nat a))). set (cy := snd (m_coord ms (Z.of_nat c)) - snd (m_coord ms (Z.of_nat a))). set (dd := det _ _ _) in *.
      exists ((cy * cy + cx * cx) / (dd * dd)), (- 2 * (cy * by' + bx * cx) / (dd * dd)), ((by' * by' + bx * bx) / (dd * dd)). intros q. field. lra. }
    destruct Tq as (u & v & w & Tq).
    assert (K : forall rule, Rsum rule (fun q : R * R * R => snd q * J * e * (u * (X q * X q) + v * (X q * Y q) + w * (Y q * Y q))) =
      J * e * (u * Rsum rule (fun q => snd q * (X q * X q)) + v * Rsum rule (fun q => snd q * (X q * Y q)) + w * Rsum rule (fun q => snd q * (Y q * Y q)))).
    { intros rule. rewrite <- !Rsum_scal, <- !Rsum_plus, <- Rsum_scal. apply Rsum_ext. intros q _. ring. }
    transitivity (Rsum (re_rule0 ref') (fun q => snd q * J * e * (u * (X q * X q) + v * (X q * Y q) + w * (Y q * Y q)))).
    - apply Rsum_ext. intros q _. cbn [nmul RNum]. f_equal. rewrite (h1_x_dot ref' Ro' ms Tr x a b c (fst q) (raise phi) I C (raise_length phi)), (h1_y_dot ref' Ro' ms Tr x a b c (fst q) (raise phi) I C (raise_length phi)).
      destruct (raise_gradient phi x (fst q) I L) as (-> & ->). apply Tq.
    - rewrite K, Qxx, Qxy, Qyy, <- K. apply Rsum_ext. intros q _. cbn [nmul RNum]. f_equal.
      rewrite (h1_x_dot ref Ro ms Tr x a b c (fst q) phi I C L), (h1_y_dot ref Ro ms Tr x a b c (fst q) phi I C L). symmetry. apply Tq.
  Qed.
  Theorem higher_richer ts : richer abc (elements ref distance ms) (elements ref' distance ms) ts raise.
  Proof.
    constructor.
    - intros phi _. apply raise_length.
    - intros phi f L. now apply raise_energy.
    - intros phi t x L _ H k B. pose proof (el_on_lt ref' abc m Cs _ _ B) as Lk. apply (el_on ref' abc m) in B as (b & Ib & Ea & J). rewrite (nth_error_nth' (raise phi) 0) by (rewrite raise_length; exact Lk). f_equal.
      refine (proj1 (held_dofs ref' Ro' ms Tr (raise phi) x b Ib (raise_length phi)) _ k J). intros s Hs. destruct (bdr_side abc m Cs b Ib) as (v1 & v2 & y & E & T & S). destruct (S s) as (p & Sp).
      rewrite (bdr_values ref' m b v1 v2 (raise phi) Ib E). destruct (value_on_side ref' Ro' ms Tr (raise phi) y v1 v2 s p T (raise_length phi) Sp) as (<- & _). rewrite raise_value by assumption.
      destruct (value_on_side ref Ro ms Tr phi y v1 v2 s p T L Sp) as (-> & _). rewrite <- (bdr_values ref m b v1 v2 phi Ib E).
      refine (proj2 (held_dofs ref Ro ms Tr phi x b Ib L) _ s Hs). intros j Jj. assert (B : on_boundary (discretize abc (elements ref distance ms)) t j) by (apply (el_on ref abc m); eauto).
      specialize (H j B). rewrite (nth_error_nth' phi 0) in H by (rewrite L; exact (el_on_lt ref abc m Cs _ _ B)). now injection H.
  Qed.
End Higher.
