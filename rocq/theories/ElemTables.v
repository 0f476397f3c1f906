(** The discretization built from a reference element: tables, constants, connectedness, quadrature;
    continuity of potentials and fluxes. *)
From Coq Require Import Reals Lra Relations Ranalysis1.
From Verif Require Import Prelude ModelM Matrix Solver Fem RSum ListLemmas SpecSolver SpecFem SpecTriangles SpecElements Triangles Elements SolverProofs TriProofs ElemProofs.
Open Scope R_scope.
Open Scope list_scope.

Lemma nth_repeat_lt (c : R) n k : (k < n)%nat -> nth k (repeat c n) 0 = c.
Proof. revert k; induction n as [|n IH]; intros [|k] L; cbn; auto; try lia. apply IH. lia. Qed.
Lemma in_nth_val (z : list R) ks k : In k ks -> exists j, (j < List.length ks)%nat /\ nth j (values z ks) 0 = nth k z 0 /\ nth_error ks j = Some k.
Proof.
  intros I. apply In_nth_error in I as (j & E). exists j. assert (L : (j < List.length ks)%nat) by (apply nth_error_Some; congruence).
  split; [exact L|]. split; [|exact E]. unfold values. set (f := fun k => nth k z 0). rewrite (nth_indep _ 0 (f 0%nat)) by (now rewrite map_length). rewrite map_nth.
  now rewrite (nth_error_nth _ _ _ E).
Qed.
Lemma some_or_none {A} (Q : A -> Prop) (l : list A) : (forall q, Q q \/ ~ Q q) -> (exists q, In q l /\ Q q) \/ forall q, In q l -> ~ Q q.
Proof.
  intros Dc. induction l as [|q l IH]; [right; easy|]. destruct (Dc q) as [H|H]; [left; exists q; split; [now left|exact H]|].
  destruct IH as [(r & I & H')|N]; [left; exists r; split; [now right|exact H']|]. right. intros r [<-|I]; auto.
Qed.

Section Tables.
  Variable ref : reference R.
  Hypothesis Ro : reference_ok ref.
  Variable ms : mesh R.
  Hypothesis Tr : triangulation ms.
  Notation D := (elements ref distance ms).
  Notation nv := (nverts ms).
  Notation ns := (re_side ref).
  Notation ni := (re_inner ref).
  Notation mss := (re_side_nd ref).
  Notation mi := (re_inner_nd ref).
  Notation nh := (n_h1 ref ms).
  Notation nn := (n_nd ref ms).
  Notation nl := (3 + (ns + (ns + (ns + ni))))%nat.
  Notation ml := (mss + (mss + (mss + mi)))%nat.
  Notation P v := (m_coord ms (Z.of_nat v)).

  (** ** Points *)
  Lemma el_in_grad q : In q (di_grad D) <-> exists x pw, triangle ms x /\ In pw (re_rule0 ref) /\
    q = {| g_attr := e_attr (snd x); g_weight := snd pw * jacobian ms (snd x); g_x := h1_x ref ms x (fst pw); g_y := h1_y ref ms x (fst pw) |}.
  Proof.
    cbn [di_grad elements]. rewrite in_flat_map. unfold el_grad_points. split.
    - intros (x & I & J). apply numbered_in in I. apply in_map_iff in J as (pw & <- & J). exists x, pw. auto.
    - intros (x & pw & I & J & ->). apply numbered_in in I. exists x. split; [exact I|]. apply in_map_iff. exists pw. auto.
  Qed.
  Lemma el_in_rt q : In q (di_rt D) <-> exists x pw, triangle ms x /\ In pw (re_rule2 ref) /\
    q = {| r_weight := snd pw * jacobian ms (snd x); r_x := rav_x ref ms x (fst pw); r_y := rav_y ref ms x (fst pw) |}.
  Proof.
    cbn [di_rt elements]. rewrite in_flat_map. unfold el_rt_points. split.
    - intros (x & I & J). apply numbered_in in I. apply in_map_iff in J as (pw & <- & J). exists x, pw. auto.
    - intros (x & pw & I & J & ->). apply numbered_in in I. exists x. split; [exact I|]. apply in_map_iff. exists pw. auto.
  Qed.
  Lemma el_in_surf q : In q (di_abc D) <-> exists b sw, In b (m_bdr ms) /\ In sw (re_rule1 ref) /\
    q = {| b_attr := e_attr b; b_pos := along (pos ms (fst (ends b))) (pos ms (snd (ends b))) (fst sw);
           b_weight := snd sw * bdr_len distance ms b; b_shape := spread nh (bdr_dofs ref ms b) (re_seg ref (fst sw)) |}.
  Proof.
    cbn [di_abc elements]. rewrite in_flat_map. unfold el_surf_points. split.
    - intros (b & I & J). apply in_map_iff in J as (sw & <- & J). exists b, sw. auto.
    - intros (b & sw & I & J & ->). exists b. split; [exact I|]. apply in_map_iff. exists sw. auto.
  Qed.
  Lemma el_elem_tag e : In e (m_elems ms) -> (0 < e_attr e <= di_domMax D)%Z.
  Proof.
    intros I. split; [exact (proj1 (tr_elem ms Tr e I))|]. cbn [di_domMax elements]. apply (proj2 (zmax_list_ge _ _)). now apply in_map.
  Qed.
  Lemma el_bdr_tag b : In b (m_bdr ms) -> (0 < e_attr b <= di_bdrMax D)%Z.
  Proof.
    intros I. split; [exact (proj1 (tr_bdr ms Tr b I))|]. cbn [di_bdrMax elements]. apply (proj2 (zmax_list_ge _ _)). now apply in_map.
  Qed.
  (** ** Boundary elements *)
  Lemma bdr_dofs_eq b v w : verts b = [v; w] -> ends b = (v, w) -> bdr_dofs ref ms b = v :: w :: side_nodes ref ms (v, w).
  Proof. intros E1 E2. unfold bdr_dofs. rewrite E1, E2. reflexivity. Qed.
  Lemma bdr_dofs_ok b : In b (m_bdr ms) -> NoDup (bdr_dofs ref ms b) /\ Forall (fun k => k < nh)%nat (bdr_dofs ref ms b).
  Proof.
    intros I. destruct (bdr_ends ms Tr b I) as (v & w & e & Ie & Ev & En & Is & N & Lv & Lw & _). rewrite (bdr_dofs_eq b v w Ev En).
    destruct (side_dof ms e _ Ie Is) as (Ld & _). split.
    - constructor; [|constructor].
      + intros [E|J]; [congruence|]. apply in_side_nodes in J. lia.
      + intros J. apply in_side_nodes in J. lia.
      + apply oriented_nodup, seq_NoDup.
    - constructor; [unfold n_h1; lia|]. constructor; [unfold n_h1; lia|]. apply Forall_forall. intros k J. apply in_side_nodes in J. unfold n_h1, nedges. nia.
  Qed.
  Lemma shape_dot b s z : In b (m_bdr ms) -> List.length z = nh -> dot (spread nh (bdr_dofs ref ms b) (re_seg ref s)) z = dot (re_seg ref s) (values z (bdr_dofs ref ms b)).
  Proof. intros I L. destruct (bdr_dofs_ok b I) as (N & F). now apply spread_dot. Qed.
  Lemma bdr_dofs_length b : In b (m_bdr ms) -> List.length (bdr_dofs ref ms b) = (2 + ns)%nat.
  Proof.
    intros I. destruct (bdr_ends ms Tr b I) as (v & w & e & _ & Ev & En & _). rewrite (bdr_dofs_eq b v w Ev En). cbn [List.length]. now rewrite side_nodes_length.
  Qed.
  (** segments have the constants *)
  Lemma seg_constant s c : dot (re_seg ref s) (repeat c (2 + ns)) = c.
  Proof.
    assert (E1 : dot (re_seg ref s) (repeat 1 (2 + ns)) = 1).
    { destruct (ro_trace _ Ro s 1 1 1 (repeat 1 ns) (repeat 1 ns) (repeat 1 ns) (repeat 1 ni)) as (E & _); [repeat split; apply repeat_length|].
      change (repeat 1 (2 + ns)) with (1 :: 1 :: repeat 1 ns). rewrite <- E. unfold local. rewrite <- !repeat_split. apply (proj1 (ro_constant _ Ro (s, 0))). }
    rewrite <- (Rmult_1_r c) at 2. rewrite <- E1. generalize (2 + ns)%nat as m. intros m. generalize (re_seg ref s) as l. intros l. clear.
    revert m; induction l as [|x l IH]; intros [|m]; cbn [repeat dot]; cbn [nadd nmul n0 RNum]; rewrite ?IH; ring.
  Qed.

  (** ** Elements *)
  Lemma local_repeat c : local c c c (repeat c ns) (repeat c ns) (repeat c ns) (repeat c ni) = repeat c nl.
  Proof. unfold local. rewrite <- !repeat_split. reflexivity. Qed.
  Lemma loc_constant c x : triangle ms x -> loc ref ms (repeat c nh) x = repeat c nl.
  Proof.
    intros T. unfold loc. rewrite repeat_values; [|apply (h1_dofs_ok ref ms Tr x T)]. now rewrite (h1_dofs_length ref ms Tr x T).
  Qed.
  Lemma loc_zero z x : triangle ms x -> List.length z = nh ->
    (forall pw, In pw (re_rule0 ref) -> dot (h1_x ref ms x (fst pw)) z = 0 /\ dot (h1_y ref ms x (fst pw)) z = 0) ->
    exists c, forall k, In k (h1_dofs ref ms x) -> nth k z 0 = c.
  Proof.
    intros T L Z. destruct (elem_corners ms Tr _ (tri_in ms x T)) as (a & b & c & C).
    destruct (ro_flat _ Ro (loc ref ms z x) (loc_length ref ms Tr z x T)) as (c0 & E).
    { intros q J. destruct (Z q J) as (X & Y). rewrite (h1_x_dot ref Ro ms Tr x a b c _ z T C L) in X. rewrite (h1_y_dot ref Ro ms Tr x a b c _ z T C L) in Y.
      exact (proj1 (t_zero ms a b c _ _ (co_det _ _ _ _ _ C)) (conj X Y)). }
    exists c0. intros k J. destruct (in_nth_val z _ k J) as (j & Lj & <- & _). fold (loc ref ms z x). rewrite E. apply nth_repeat_lt.
    now rewrite (h1_dofs_length ref ms Tr x T) in Lj.
  Qed.
  Lemma field_zero d x : triangle ms x -> List.length d = nn ->
    (forall pw, In pw (re_rule2 ref) -> dot (ned_x ref ms x (fst pw)) d = 0 /\ dot (ned_y ref ms x (fst pw)) d = 0) ->
    forall k, In k (nd_dofs ref ms x) -> nth k d 0 = 0.
  Proof.
    intros T L Z. destruct (elem_corners ms Tr _ (tri_in ms x T)) as (a & b & c & C).
    assert (E : nloc ref ms d x = repeat 0 ml).
    { apply (ro_field _ Ro); [exact (nloc_length ref ms Tr d x T)|]. intros q J. destruct (Z q J) as (X & Y).
      rewrite (ned_x_dot ref Ro ms Tr x a b c _ d T C L) in X. rewrite (ned_y_dot ref Ro ms Tr x a b c _ d T C L) in Y.
      exact (proj1 (t_zero ms a b c _ _ (co_det _ _ _ _ _ C)) (conj X Y)). }
    assert (E0 : forall y, In y (nloc ref ms d x) -> y = 0) by (rewrite E; intros y J; now apply repeat_spec in J).
    rewrite (nloc_eq ref ms d x a b c C) in E0. rewrite (nd_dofs_eq ref ms x a b c C).
    assert (Sg : forall s, (forall y, In y (signed ref ms s d) -> y = 0) -> forall k, In k (side_fields ref ms s) -> nth k d 0 = 0).
    { intros s H k J. assert (Q : sign (T:=R) s * nth k d 0 = 0).
      { apply H. unfold signed. apply in_map_iff. exists (nth k d 0). split; [reflexivity|]. unfold values. apply in_map_iff. eauto. }
      apply Rmult_integral in Q as [Q|Q]; [|exact Q]. pose proof (sign_square s) as S. rewrite Q in S. lra. }
    intros k J. rewrite !in_app_iff in J. destruct J as [J|[J|[J|J]]].
    - apply (Sg (a, b)); [|exact J]. intros y I. apply E0. rewrite !in_app_iff. auto.
    - apply (Sg (b, c)); [|exact J]. intros y I. apply E0. rewrite !in_app_iff. auto.
    - apply (Sg (c, a)); [|exact J]. intros y I. apply E0. rewrite !in_app_iff. auto.
    - apply E0. rewrite !in_app_iff. do 3 right. unfold values. apply in_map_iff. eauto.
  Qed.
  Lemma jac_pos x : triangle ms x -> 0 < jacobian ms (snd x).
  Proof. intros T. exact (proj2 (jacobian_area ms Tr _ (tri_in ms x T))). Qed.
  Lemma two_dofs x k : triangle ms x -> exists k', In k' (h1_dofs ref ms x) /\ k' <> k.
  Proof.
    intros T. destruct (elem_corners ms Tr _ (tri_in ms x T)) as (a & b & c & C). rewrite (h1_dofs_eq ref ms x a b c C). destruct (co_distinct _ _ _ _ _ C) as (N & _).
    destruct (Nat.eq_dec a k) as [->|Na]; [exists b; split; [cbn; auto|congruence]|exists a; split; [cbn; auto|exact Na]].
  Qed.
  Theorem elements_tables : tables_ok D.
  Proof.
    constructor.
    - intros b I. cbn [di_bdrDofs elements] in I. apply in_map_iff in I as (y & <- & I). cbn [fst snd]. split; [exact (el_bdr_tag y I)|].
      intros k J. cbn [di_nH1 elements]. exact (proj1 (Forall_forall _ _) (proj2 (bdr_dofs_ok y I)) k J).
    - intros q I. apply el_in_grad in I as (x & pw & T & J & ->). cbn [g_x g_y g_weight g_attr di_nH1 elements]. unfold h1_x, h1_y. rewrite !spread_length.
      split; [reflexivity|]. split; [reflexivity|]. split; [|exact (el_elem_tag _ (tri_in ms x T))].
      apply Rmult_lt_0_compat; [exact (proj1 (proj2 (proj2 (ro_rules _ Ro))) pw J)|exact (jac_pos x T)].
    - intros q I. apply el_in_surf in I as (b & sw & I & J & ->). cbn [b_shape b_weight b_attr di_nH1 elements]. rewrite spread_length.
      split; [reflexivity|]. split; [|exact (el_bdr_tag b I)]. apply Rmult_lt_0_compat; [exact (proj2 (proj1 (ro_rules _ Ro) sw J))|].
      destruct (bdr_ends ms Tr b I) as (v & w & e & _ & _ & E & _ & _ & _ & _ & Np). unfold bdr_len. rewrite E. cbn [fst snd]. now apply distance_pos.
    - intros q I. apply el_in_surf in I as (b & sw & I & J & ->). cbn [b_shape di_nH1 elements]. apply spread_length.
    - intros k L. cbn [di_nH1 elements] in L. destruct (h1_dof_in ref ms Tr k L) as (x & T & J).
      destruct (some_or_none (fun pw : R * R * R => nth k (h1_x ref ms x (fst pw)) 0 <> 0 \/ nth k (h1_y ref ms x (fst pw)) 0 <> 0) (re_rule0 ref)) as [(pw & Ip & H)|N].
      { intros pw. destruct (Req_dec (nth k (h1_x ref ms x (fst pw)) 0) 0), (Req_dec (nth k (h1_y ref ms x (fst pw)) 0) 0); tauto. }
      + eexists. split; [apply el_in_grad; exists x, pw; split; [exact T|]; split; [exact Ip|reflexivity]|]. exact H.
      + exfalso. destruct (loc_zero (basis nh k) x T (basis_length nh k)) as (c & Hc).
        { intros pw Ip. specialize (N pw Ip). rewrite !dot_basis by (exact L || apply spread_length).
          destruct (Req_dec (nth k (h1_x ref ms x (fst pw)) 0) 0), (Req_dec (nth k (h1_y ref ms x (fst pw)) 0) 0); tauto. }
        destruct (two_dofs x k T) as (k' & J' & Nk). pose proof (proj1 (Forall_forall _ _) (proj2 (h1_dofs_ok ref ms Tr x T))) as B.
        pose proof (Hc k J) as E1. pose proof (Hc k' J') as E2. rewrite basis_nth in E1, E2 by auto. rewrite Nat.eqb_refl in E1. rewrite (proj2 (Nat.eqb_neq k' k) Nk) in E2. lra.
    - cbn [di_gradient di_nND di_nH1 elements]. split.
      + pose proof (mgrad_length ref Ro ms Tr (repeat 0 nh) (repeat_length 0 nh)) as E. unfold mgrad in E. rewrite map_length in E. exact E.
      + intros r I. apply in_app_iff in I as [I|I]; apply in_flat_map in I as (y & _ & I); unfold side_rows, inner_rows in I; apply in_map_iff in I as (u & <- & _); apply spread_length.
    - intros q I. apply el_in_rt in I as (x & pw & T & J & ->). cbn [r_x r_y r_weight di_nRT elements]. unfold rav_x, rav_y, ned_x, ned_y. rewrite map_length, !spread_length.
      split; [reflexivity|]. split; [reflexivity|]. apply Rmult_lt_0_compat; [exact (proj2 (proj2 (proj2 (ro_rules _ Ro))) pw J)|exact (jac_pos x T)].
    - cbn [di_nRT elements]. intros d L Z. apply (nth_ext d _ 0 0); [now rewrite repeat_length|]. intros k Lk. rewrite nth_repeat. rewrite L in Lk.
      destruct (nd_dof_in ref ms k Lk) as (x & T & J). apply (field_zero d x T L); [|exact J]. intros pw Ip.
      specialize (Z _ (proj2 (el_in_rt _) (ex_intro _ x (ex_intro _ pw (conj T (conj Ip eq_refl)))))). cbn [r_x r_y] in Z. destruct Z as (Z1 & Z2).
      unfold rav_x in Z1. unfold rav_y in Z2. rewrite dot_opp_l in Z2. split; [lra|exact Z1].
    - intros q I. cbn [di_mix elements] in I. apply in_flat_map in I as (x & I & J). apply numbered_in in I. unfold el_mix_points in J. apply in_map_iff in J as (pw & <- & J).
      exact (el_elem_tag _ (tri_in ms x I)).
  Qed.
  Theorem elements_constants : constants_ok D.
  Proof.
    constructor.
    - intros q I. apply el_in_grad in I as (x & pw & T & J & ->). cbn [g_x g_y di_nH1 elements]. destruct (elem_corners ms Tr _ (tri_in ms x T)) as (a & b & c & C).
      rewrite (h1_x_dot ref Ro ms Tr x a b c _ _ T C (repeat_length 1 nh)), (h1_y_dot ref Ro ms Tr x a b c _ _ T C (repeat_length 1 nh)), (loc_constant 1 x T).
      destruct (ro_constant _ Ro (fst pw)) as (_ & -> & ->). unfold tx, ty, Rdiv. split; ring.
    - cbn [di_nH1 elements]. intros r I. assert (Z : mgrad ref ms (repeat 1 nh) = repeat 0 nn).
      { pose proof (mgrad_length ref Ro ms Tr _ (repeat_length 1 nh)) as L. apply (nth_ext _ _ 0 0); [now rewrite repeat_length|]. intros k Lk. rewrite nth_repeat. rewrite L in Lk.
        destruct (nd_dof_in ref ms k Lk) as (x & T & J). apply (field_zero _ x T L); [|exact J]. intros pw _.
        destruct (field_of_mgrad ref Ro ms Tr x (fst pw) _ T (repeat_length 1 nh)) as (-> & ->). destruct (elem_corners ms Tr _ (tri_in ms x T)) as (a & b & c & C).
        rewrite (h1_x_dot ref Ro ms Tr x a b c _ _ T C (repeat_length 1 nh)), (h1_y_dot ref Ro ms Tr x a b c _ _ T C (repeat_length 1 nh)), (loc_constant 1 x T).
        destruct (ro_constant _ Ro (fst pw)) as (_ & -> & ->). unfold tx, ty, Rdiv. split; ring. }
      assert (Q : In (- dot r (repeat 1 nh)) (mgrad ref ms (repeat 1 nh))) by (unfold mgrad; apply in_map_iff; exists r; auto).
      rewrite Z in Q. apply repeat_spec in Q. lra.
    - intros q I. apply el_in_surf in I as (b & sw & I & J & ->). cbn [b_shape di_nH1 elements]. rewrite (shape_dot b _ _ I (repeat_length 1 nh)).
      rewrite repeat_values by apply (bdr_dofs_ok b I). rewrite (bdr_dofs_length b I). apply seg_constant.
  Qed.
  Theorem elements_connected : connected ms -> forall z, potential D z -> flat D z -> exists c, z = repeat c (di_nH1 D).
  Proof.
    intros Co z L F. unfold potential in L. cbn [di_nH1 elements] in L |- *.
    assert (Fx : forall x, triangle ms x -> exists c, forall k, In k (h1_dofs ref ms x) -> nth k z 0 = c).
    { intros x T. apply (loc_zero z x T L). intros pw J. apply (F _ (proj2 (el_in_grad _) (ex_intro _ x (ex_intro _ pw (conj T (conj J eq_refl)))))). }
    destruct (Nat.eq_dec nh 0) as [E0|N0]; [exists 0; rewrite E0 in *; now destruct z|]. exists (nth 0 z 0).
    assert (V : forall x, triangle ms x -> forall v k, In v (e_verts (snd x)) -> In k (h1_dofs ref ms x) -> nth k z 0 = at_vertex z v).
    { intros x T v k Iv J. destruct (Fx x T) as (c & Hc). destruct (elem_corners ms Tr _ (tri_in ms x T)) as (a1 & b1 & c1 & C). rewrite (Hc k J). symmetry. unfold at_vertex. apply Hc.
      rewrite (h1_dofs_eq ref ms x a1 b1 c1 C). rewrite (co_verts _ _ _ _ _ C) in Iv. destruct Iv as [<-|[<-|[<-|[]]]]; rewrite Nat2Z.id; cbn; auto. }
    assert (VV : forall v w, vertex ms v -> vertex ms w -> at_vertex z v = at_vertex z w).
    { intros v w Hv Hw. specialize (Co v w Hv Hw). clear Hv Hw. induction Co as [v w (e & I & Iv & Iw)|v|u v w _ IH1 _ IH2]; [|reflexivity|congruence].
      destruct (in_tri ms e I) as (i & T). destruct (elem_corners ms Tr e I) as (a1 & b1 & c1 & C).
      assert (J : In a1 (h1_dofs ref ms (i, e))) by (rewrite (h1_dofs_eq ref ms (i, e) a1 b1 c1 C); now left).
      now rewrite <- (V _ T v a1 Iv J), <- (V _ T w a1 Iw J). }
    assert (K : forall k, (k < nh)%nat -> exists v, vertex ms v /\ nth k z 0 = at_vertex z v).
    { intros k Lk. destruct (h1_dof_in ref ms Tr k Lk) as (x & T & J). destruct (elem_corners ms Tr _ (tri_in ms x T)) as (a1 & b1 & c1 & C).
      assert (Ia : In (Z.of_nat a1) (e_verts (snd x))) by (rewrite (co_verts _ _ _ _ _ C); now left).
      exists (Z.of_nat a1). split; [exists (snd x); split; [exact (tri_in ms x T)|exact Ia]|exact (V x T _ k Ia J)]. }
    apply (nth_ext z _ 0 0); [now rewrite repeat_length|]. intros k Lk. rewrite nth_repeat_lt by lia. rewrite L in Lk.
    destruct (K k Lk) as (v & Hv & ->). destruct (K 0%nat ltac:(lia)) as (w & Hw & ->). exact (VV v w Hv Hw).
  Qed.
  (** ** Energy *)
  Lemma grad_square x z (q : R * R * R) : triangle ms x -> List.length z = nh ->
    exists al be ga de, 0 < de /\ forall q : R * R * R,
      let u := dot (re_h1x ref (fst q)) (loc ref ms z x) in let v := dot (re_h1y ref (fst q)) (loc ref ms z x) in
      dot (h1_x ref ms x (fst q)) z * dot (h1_x ref ms x (fst q)) z + dot (h1_y ref ms x (fst q)) z * dot (h1_y ref ms x (fst q)) z = (al * (u * u) + be * (u * v) + ga * (v * v)) / de.
  Proof.
    intros T L. destruct (elem_corners ms Tr _ (tri_in ms x T)) as (a & b & c & C). pose proof (co_det _ _ _ _ _ C) as Pd. set (de := det (P a) (P b) (P c)) in *.
    set (bx := fst (P b) - fst (P a)). set (by' := snd (P b) - snd (P a)). set (cx := fst (P c) - fst (P a)). set (cy := snd (P c) - snd (P a)).
    exists (cy * cy + cx * cx), (- 2 * (cy * by' + cx * bx)), (by' * by' + bx * bx), (de * de). split; [now apply Rmult_lt_0_compat|]. intros q' u v.
    rewrite (h1_x_dot ref Ro ms Tr x a b c _ z T C L), (h1_y_dot ref Ro ms Tr x a b c _ z T C L). fold u v. unfold tx, ty. fold de bx by' cx cy. field. lra.
  Qed.
  Lemma rules_agree x z : triangle ms x -> List.length z = nh ->
    Rsum (re_rule0 ref) (fun q => snd q * (dot (h1_x ref ms x (fst q)) z * dot (h1_x ref ms x (fst q)) z + dot (h1_y ref ms x (fst q)) z * dot (h1_y ref ms x (fst q)) z)) =
    Rsum (re_rule2 ref) (fun q => snd q * (dot (h1_x ref ms x (fst q)) z * dot (h1_x ref ms x (fst q)) z + dot (h1_y ref ms x (fst q)) z * dot (h1_y ref ms x (fst q)) z)).
  Proof.
    intros T L. destruct (grad_square x z (0, 0, 0) T L) as (al & be & ga & de & Pd & E). set (l := loc ref ms z x) in *. cbn zeta in E.
    assert (K : forall rule, Rsum rule (fun q => snd q * (dot (h1_x ref ms x (fst q)) z * dot (h1_x ref ms x (fst q)) z + dot (h1_y ref ms x (fst q)) z * dot (h1_y ref ms x (fst q)) z)) =
      al / de * Rsum rule (fun q => snd q * (dot (re_h1x ref (fst q)) l * dot (re_h1x ref (fst q)) l)) + be / de * Rsum rule (fun q => snd q * (dot (re_h1x ref (fst q)) l * dot (re_h1y ref (fst q)) l))
      + ga / de * Rsum rule (fun q => snd q * (dot (re_h1y ref (fst q)) l * dot (re_h1y ref (fst q)) l))).
    { intros rule. rewrite <- !Rsum_scal, <- !Rsum_plus. apply Rsum_ext. intros q _. rewrite E. field. lra. }
    rewrite !K. pose proof (loc_length ref ms Tr z x T) as Ll. rewrite !(ro_quadrature _ Ro l l) by auto. reflexivity.
  Qed.
  Theorem elements_quadrature : same_quadrature D.
  Proof.
    split.
    - intros y I. cbn [di_energy elements] in I. apply in_flat_map in I as (x & I & J). apply numbered_in in I. unfold el_energy_points in J. apply in_map_iff in J as (pw & <- & J).
      exact (el_elem_tag _ (tri_in ms x I)).
    - intros phi f L. cbn zeta. unfold potential in L. cbn [di_nH1 elements] in L. fold (mgrad ref ms phi). cbn [di_energy di_grad elements]. rewrite !Rsum_flat_map. apply Rsum_ext. intros x I.
      apply numbered_in in I. unfold el_energy_points, el_grad_points. rewrite !Rsum_map. cbn [y_attr y_weight y_x y_y g_attr g_weight]. unfold grad2. cbn [g_x g_y].
      set (k := jacobian ms (snd x) * f (e_attr (snd x))).
      transitivity (k * Rsum (re_rule2 ref) (fun q => snd q * (dot (h1_x ref ms x (fst q)) phi * dot (h1_x ref ms x (fst q)) phi + dot (h1_y ref ms x (fst q)) phi * dot (h1_y ref ms x (fst q)) phi))).
      { rewrite <- Rsum_scal. apply Rsum_ext. intros pw J. destruct (field_of_mgrad ref Ro ms Tr x (fst pw) phi I L) as (-> & ->). unfold k. cbn [nmul RNum]. ring. }
      rewrite <- (rules_agree x phi I L), <- Rsum_scal. apply Rsum_ext. intros pw J. unfold k. cbn [nmul RNum]. ring.
  Qed.

  (** ** Potentials and fields as functions *)
  Lemma value_loc phi x p : triangle ms x -> List.length phi = nh -> value_in ref ms phi x p = dot (re_h1 ref p) (loc ref ms phi x).
  Proof. intros T L. destruct (h1_dofs_ok ref ms Tr x T) as (N & F). unfold value_in. now rewrite spread_dot. Qed.
  Lemma value_side phi x a b c s : triangle ms x -> corners ms (snd x) a b c -> List.length phi = nh ->
    value_in ref ms phi x (s, 0) = dot (re_seg ref s) (on_edge ref ms phi (a, b)) /\
    value_in ref ms phi x (1 - s, s) = dot (re_seg ref s) (on_edge ref ms phi (b, c)) /\
    value_in ref ms phi x (0, 1 - s) = dot (re_seg ref s) (on_edge ref ms phi (c, a)).
  Proof.
    intros T C L. rewrite !(value_loc phi x) by assumption. rewrite (loc_eq ref ms phi x a b c C).
    exact (ro_trace _ Ro s _ _ _ _ _ _ _ (loc_sized ref ms phi x (a, b) (b, c) (c, a))).
  Qed.
  Lemma on_edge_reverse phi u w s : u <> w -> dot (re_seg ref (1 - s)) (on_edge ref ms phi (w, u)) = dot (re_seg ref s) (on_edge ref ms phi (u, w)).
  Proof.
    intros N. assert (Ed : edge_dof ms (w, u) = edge_dof ms (u, w)).
    { rewrite <- (edge_dof_edge ms (w, u)), <- (edge_dof_edge ms (u, w)). f_equal. unfold edge. cbn [fst snd]. destruct (Nat.ltb_spec w u), (Nat.ltb_spec u w); auto; lia. }
    assert (E : values phi (side_nodes ref ms (w, u)) = rev (values phi (side_nodes ref ms (u, w)))).
    { unfold side_nodes, oriented. rewrite Ed. cbn [fst snd]. destruct (Nat.ltb_spec w u) as [L1|L1], (Nat.ltb_spec u w) as [L2|L2]; try lia; rewrite ?values_rev, ?rev_involutive; reflexivity. }
    unfold on_edge. cbn [fst snd]. rewrite E. apply (ro_reverse _ Ro). rewrite values_length. apply side_nodes_length.
  Qed.
  (** the value on a side depends on the side only *)
  Lemma value_on_side phi x v w s p : triangle ms x -> List.length phi = nh -> on_side (snd x) v w s p ->
    value_in ref ms phi x p = dot (re_seg ref s) (on_edge ref ms phi (Z.to_nat v, Z.to_nat w)) /\ Z.to_nat v <> Z.to_nat w.
  Proof.
    intros T L (a & b & c & E & H). destruct (elem_corners ms Tr _ (tri_in ms x T)) as (a1 & b1 & c1 & C). pose proof (co_verts _ _ _ _ _ C) as Ev. rewrite E in Ev. injection Ev as -> -> ->.
    destruct (value_side phi x a1 b1 c1 s T C L) as (V1 & V2 & V3). destruct (co_distinct _ _ _ _ _ C) as (N1 & N2 & N3).
    destruct H as [([= -> ->] & ->)|[([= -> ->] & ->)|([= -> ->] & ->)]]; rewrite !Nat2Z.id; auto.
  Qed.
  Theorem elements_continuous phi : List.length phi = nh -> continuous ref ms phi.
  Proof.
    intros L x x' v w s p p' T T' S S'. destruct (value_on_side phi x v w s p T L S) as (-> & N). destruct S' as [S'|S'].
    - now destruct (value_on_side phi x' v w s p' T' L S') as (-> & _).
    - destruct (value_on_side phi x' w v (1 - s) p' T' L S') as (-> & _). symmetry. now apply on_edge_reverse.
  Qed.
  Theorem elements_gradient phi x p : triangle ms x -> List.length phi = nh -> is_gradient ref ms phi x p (gradient_in ref ms phi x p).
  Proof.
    intros T L u q q0. destruct (elem_corners ms Tr _ (tri_in ms x T)) as (a & b & c & C). pose proof (co_det _ _ _ _ _ C) as Pd.
    assert (Ef : forall t, value_in ref ms phi x (fst p + t * fst u, snd p + t * snd u) = dot (re_h1 ref (fst p + t * fst u, snd p + t * snd u)) (loc ref ms phi x)) by (intros t; now apply value_loc).
    assert (Dv := ro_derivative _ Ro (loc ref ms phi x) p u (loc_length ref ms Tr phi x T)).
    assert (Eg : fst (gradient_in ref ms phi x p) * (fst q - fst q0) + snd (gradient_in ref ms phi x p) * (snd q - snd q0) =
                 dot (re_h1x ref p) (loc ref ms phi x) * fst u + dot (re_h1y ref p) (loc ref ms phi x) * snd u).
    { unfold gradient_in. cbn [fst snd]. rewrite (h1_x_dot ref Ro ms Tr x a b c p phi T C L), (h1_y_dot ref Ro ms Tr x a b c p phi T C L).
      unfold q, q0, place. rewrite (co_verts _ _ _ _ _ C). cbn [fst snd]. unfold tx, ty. set (U := dot (re_h1x ref p) _). set (V := dot (re_h1y ref p) _).
      unfold det in *. cbn [nsub nmul RNum] in *. field. lra. }
    rewrite Eg. intros eps He. destruct (Dv eps He) as (de & Hd). exists de. intros h Nh Lh. rewrite !Ef. exact (Hd h Nh Lh).
  Qed.
  (** ** Conductors *)
  Lemma held_dofs z c b : In b (m_bdr ms) -> List.length z = nh ->
    (forall s, 0 <= s <= 1 -> dot (re_seg ref s) (values z (bdr_dofs ref ms b)) = c) <-> forall k, In k (bdr_dofs ref ms b) -> nth k z 0 = c.
  Proof.
    intros I L. pose proof (bdr_dofs_length b I) as Lb. split.
    - intros H k J. set (l := values z (bdr_dofs ref ms b)) in *. assert (Ll : List.length l = (2 + ns)%nat) by (unfold l; now rewrite values_length).
      assert (Z : map (fun y => y - c) l = repeat 0 (2 + ns)).
      { apply (ro_segment _ Ro); [now rewrite map_length|]. intros s Hs. specialize (H s Hs). pose proof (seg_constant s c) as K.
        assert (Q : forall (r l : list R) m, List.length l = m -> dot r (map (fun y => y - c) l) = dot r l - dot r (repeat c m)).
        { clear. induction r as [|u r IH]; intros [|y l] [|m] E; try discriminate; cbn [map repeat dot]; cbn [nadd nmul n0 RNum]; try ring. rewrite (IH l m) by (now injection E). ring. }
        rewrite (Q _ l _ Ll), H, K. ring. }
      destruct (in_nth_val z _ k J) as (j & Lj & <- & _). fold l. assert (Qj : nth j (map (fun y => y - c) l) (0 - c) = nth j l 0 - c) by (apply (map_nth (fun y => y - c))).
      rewrite Z in Qj. rewrite (nth_indep _ _ 0) in Qj by (rewrite repeat_length; lia). rewrite nth_repeat in Qj. lra.
    - intros H s _. assert (E : values z (bdr_dofs ref ms b) = repeat c (2 + ns)).
      { rewrite <- Lb. clear -H. induction (bdr_dofs ref ms b) as [|k l IH]; [reflexivity|]. unfold values in *. cbn [map List.length repeat]. rewrite (H k (or_introl eq_refl)). f_equal. apply IH. intros j J. apply H. now right. }
      rewrite E. apply seg_constant.
  Qed.
End Tables.
