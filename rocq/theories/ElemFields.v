(** Fields of finite elements of any order on the sides of the triangles. *)
From Coq Require Import Reals Lra.
From Verif Require Import Prelude ModelM Matrix Solver Fem RSum ListLemmas SpecSolver SpecDriver SpecFem SpecTriangles SpecElements Triangles Elements SolverProofs FemProofs TriProofs ElemProofs ElemTables SpecCharge ChargeProofs.
Open Scope R_scope.
Open Scope list_scope.

Section Sides.
  Variable ref : reference R.
  Hypothesis Ro : reference_ok ref.
  Variable ms : mesh R.
  Hypothesis Tr : triangulation ms.
  Notation nn := (n_nd ref ms).

  Lemma field_on_side d x v w s p : triangle ms x -> List.length d = nn -> on_side (snd x) v w s p ->
    along_side ms (field_in ref ms d x p) v w = dot (re_flux ref s) (signed ref ms (Z.to_nat v, Z.to_nat w) d) /\ Z.to_nat v <> Z.to_nat w.
  Proof.
    intros T L (a & b & c & E & H). destruct (elem_corners ms Tr _ (tri_in ms x T)) as (a1 & b1 & c1 & C). pose proof (co_verts _ _ _ _ _ C) as Ev. rewrite E in Ev. injection Ev as -> -> ->.
    pose proof (co_det _ _ _ _ _ C) as Pd. destruct (co_distinct _ _ _ _ _ C) as (N1 & N2 & N3).
    destruct (ro_tangent _ Ro s _ _ _ _ (signed_sized ref ms d x (a1, b1) (b1, c1) (c1, a1))) as (T1 & T2 & T3). rewrite <- (nloc_eq ref ms d x a1 b1 c1 C) in T1, T2, T3.
    assert (K : forall u v', along_side ms (tx ms a1 b1 c1 u v', ty ms a1 b1 c1 u v') (Z.of_nat a1) (Z.of_nat b1) = u /\
                along_side ms (tx ms a1 b1 c1 u v', ty ms a1 b1 c1 u v') (Z.of_nat b1) (Z.of_nat c1) = v' - u /\
                along_side ms (tx ms a1 b1 c1 u v', ty ms a1 b1 c1 u v') (Z.of_nat c1) (Z.of_nat a1) = - v').
    { intros u v'. unfold along_side, tx, ty, det in *. unfold pos in *. cbn [fst snd nsub nmul RNum] in *. repeat split; field; lra. }
    unfold field_in. rewrite (ned_x_dot ref Ro ms Tr x a1 b1 c1 p d T C L), (ned_y_dot ref Ro ms Tr x a1 b1 c1 p d T C L).
    destruct (K (dot (re_ndx ref p) (nloc ref ms d x)) (dot (re_ndy ref p) (nloc ref ms d x))) as (K1 & K2 & K3).
    destruct H as [([= -> ->] & ->)|[([= -> ->] & ->)|([= -> ->] & ->)]]; rewrite !Nat2Z.id; (split; [|auto]).
    - rewrite K1. exact T1.
    - rewrite K2. exact T2.
    - rewrite K3. exact T3.
  Qed.
  Lemma edge_dof_swap u w : u <> w -> edge_dof ms (w, u) = edge_dof ms (u, w).
  Proof.
    intros N. unfold edge_dof. f_equal. unfold edge. cbn [fst snd]. destruct (Nat.ltb_spec u w), (Nat.ltb_spec w u); try lia; reflexivity.
  Qed.
  Lemma signed_reverse d u w s : u <> w -> dot (re_flux ref (1 - s)) (signed ref ms (w, u) d) = - dot (re_flux ref s) (signed ref ms (u, w) d).
  Proof.
    intros N. rewrite <- (ro_flux_reverse _ Ro s (signed ref ms (u, w) d)).
    2:{ unfold signed. rewrite map_length, values_length. apply side_fields_length. }
    rewrite <- dot_opp_r. f_equal. unfold signed, side_fields, oriented, sign. rewrite (edge_dof_swap u w N). cbn [fst snd].
    destruct (Nat.ltb_spec u w), (Nat.ltb_spec w u); try lia; rewrite ?values_rev, ?map_rev, ?rev_involutive, ?map_map; try apply f_equal; apply map_ext; intros y; cbn [n1 nopp RNum]; ring.
  Qed.
  Lemma along_reverse f v w : along_side ms f w v = - along_side ms f v w.
  Proof. unfold along_side. ring. Qed.
  Theorem fields_side_continuous d : List.length d = nn -> side_continuous ms (field_in ref ms d) (along_side ms).
  Proof.
    intros L x x' v w s p p' T T' S S'. destruct (field_on_side d x v w s p T L S) as (-> & N). destruct S' as [S'|S'].
    - now destruct (field_on_side d x' v w s p' T' L S') as (-> & _).
    - rewrite <- (Ropp_involutive (along_side ms (field_in ref ms d x' p') v w)), <- along_reverse. destruct (field_on_side d x' w v (1 - s) p' T' L S') as (-> & _).
      rewrite signed_reverse by exact N. ring.
  Qed.
  Lemma dot_map_nopp (l z : list R) : dot (map nopp l) z = - dot l z.
  Proof. revert z; induction l as [|y l IH]; intros [|z0 z]; cbn [map dot]; cbn [n0 nadd nmul nopp RNum] in *; try ring. rewrite IH. ring. Qed.
  Lemma across_along d x p v w : across_side ms (flux_in ref ms d x p) v w = along_side ms (field_in ref ms d x p) v w.
  Proof. unfold across_side, along_side, flux_in, field_in, rav_x, rav_y. cbn [fst snd]. rewrite dot_map_nopp. ring. Qed.
  Theorem fluxes_side_continuous d : List.length d = nn -> side_continuous ms (flux_in ref ms d) (across_side ms).
  Proof.
    intros L x x' v w s p p' T T' S S'. rewrite !across_along. exact (fields_side_continuous d L x x' v w s p p' T T' S S').
  Qed.
  (** The charge on a boundary: minus the flow of D out of the domain *)
  Lemma outflow_dot d b s j : In b (m_bdr ms) -> List.length d = nn -> outflow ref ms d b s j -> j = dot (re_flux ref s) (signed ref ms (ends b) d).
  Proof.
    intros I L (v & w & x & p & E & T & S & ->). rewrite across_along. destruct (field_on_side d x v w s p T L S) as (-> & _). f_equal. unfold ends, verts. rewrite E. reflexivity.
  Qed.
  Lemma outflow_exists d b s : In b (m_bdr ms) -> exists j, outflow ref ms d b s j.
  Proof.
    intros I. destruct (tr_bdr ms Tr b I) as (_ & v & w & e & E & Ie & (a & b' & c & Ee & S)). destruct (in_tri ms e Ie) as (i & T).
    destruct S as [S|[S|S]]; (eexists; exists v, w, (i, e); eexists; split; [exact E|]; split; [exact T|]; split; [exists a, b', c; split; [exact Ee|]|reflexivity]); [left|right; left|right; right]; split; eauto.
  Qed.
  Lemma side_fields_ok b : In b (m_bdr ms) -> NoDup (side_fields ref ms (ends b)) /\ Forall (fun k => k < nn)%nat (side_fields ref ms (ends b)).
  Proof.
    intros I. destruct (bdr_ends ms Tr b I) as (v & w & e & Ie & Ev & En & Is & N & _). destruct (side_dof ms e (ends b) Ie) as (Ld & _); [now rewrite En|].
    split; [apply oriented_nodup, seq_NoDup|]. apply Forall_forall. intros k J. apply in_side_fields in J. unfold n_nd, nedges. nia.
  Qed.
  Lemma flux_point_dot d b (sw : R * R) : In b (m_bdr ms) -> List.length d = nn ->
    dot (spread nn (side_fields ref ms (ends b)) (map (fun u => snd sw * sign (ends b) * u) (re_flux ref (fst sw)))) d = snd sw * dot (re_flux ref (fst sw)) (signed ref ms (ends b) d).
  Proof.
    intros I L. destruct (side_fields_ok b I) as (N & F). rewrite spread_dot by assumption. unfold signed. generalize (values d (side_fields ref ms (ends b))). generalize (re_flux ref (fst sw)).
    induction l as [|y l IH]; intros [|z0 z]; cbn [map dot]; cbn [n0 nadd nmul RNum] in *; try ring. rewrite IH. ring.
  Qed.
  Theorem charge_outflow abc s t f : List.length (s_d s) = nn -> (forall b r, In b (m_bdr ms) -> outflow ref ms (s_d s) b r (f b r)) ->
    getChargeInBoundary (discretize abc (elements ref distance ms)) s t =
    - Rsum (filter (fun b => (e_attr b =? t)%Z) (m_bdr ms)) (fun b => Rsum (re_rule1 ref) (fun q => snd q * f b (fst q))).
  Proof.
    intros L H. unfold getChargeInBoundary. rewrite flux_form_Rsum. cbn [fe_flux discretize di_flux elements]. rewrite Rsum_flat_map.
    assert (K : forall l, incl l (m_bdr ms) -> Rsum l (fun b => Rsum (el_flux_points ref ms b) (fun q => (if (q_attr q =? t)%Z then - (1) else 0) * flux_at (s_d s) q)) =
                - Rsum (filter (fun b => (e_attr b =? t)%Z) l) (fun b => Rsum (re_rule1 ref) (fun q => snd q * f b (fst q)))).
    2:{ apply K. apply incl_refl. }
    induction l as [|b l IH]; intros Inc; [cbn [filter]; rewrite !Rsum_nil; ring|]. rewrite Rsum_cons, IH by (intros y J; apply Inc; now right).
    assert (Ib : In b (m_bdr ms)) by (apply Inc; now left).
    assert (Eb : Rsum (el_flux_points ref ms b) (fun q => (if (q_attr q =? t)%Z then - (1) else 0) * flux_at (s_d s) q) =
                 (if (e_attr b =? t)%Z then - (1) else 0) * Rsum (re_rule1 ref) (fun q => snd q * f b (fst q))).
    { unfold el_flux_points. rewrite Rsum_map, <- Rsum_scal. apply Rsum_ext. intros q J. unfold flux_at. cbn [q_attr q_w]. f_equal. rewrite flux_point_dot by assumption.
      f_equal. symmetry. exact (outflow_dot _ _ _ _ Ib L (H b (fst q) Ib)). }
    rewrite Eb. cbn [filter]. destruct (e_attr b =? t)%Z; [rewrite Rsum_cons|]; ring.
  Qed.
End Sides.
