(** Energy of closed problems at any order (C74, C75), first order spaces of a mesh drawn elsewhere (C70). *)
From Coq Require Import Reals Lra Permutation.
From Verif Require Import Prelude StdMap Materials Graph ModelM Parser Matrix Solver Fem Domain Results Driver RSum LinAlg ListLemmas
  SpecSolver SpecCharge SpecModel SpecDriver SpecMatrix SpecField SpecFem SpecRedraw SpecTriangles SpecDrawing Triangles DriverProofs CallProofs DriverFacts
  SolverProofs ChargeProofs FieldProofs FemProofs FemCalls FemFacts FemModel FemLaws FemDriver FemMatrix FemMore TriProofs TriLocal TriModel SpecEnergy EnergyProofs.
Open Scope R_scope.
Open Scope list_scope.

Section Least.
  Variable abc : R * R -> R.
  Variable D : discretization R.
  Variable dbg : bool.
  Variable m : model R.
  Hypothesis W : well_posed (discretize abc D) m.
  Hypothesis Rm : regular_model abc D m.
  Lemma has_prescribed ignore v p psi : conductor_problem (mo_mats m) ignore v p -> potential D psi ->
    (prescribed abc D p psi <-> has_potentials abc D m v psi).
  Proof.
    intros Cp Lp. unfold prescribed, has_potentials. split.
    - intros H. split; [exact Lp|]. intros c k I B Mx. apply (H (p_attr c) (v (p_attr c)) k); [apply (cp_dir _ _ _ _ Cp); eauto|exact B|].
      intros t' v' I' B'. apply (cp_dir _ _ _ _ Cp) in I' as ((c' & I' & <-) & _). exact (Mx c' I' B').
    - intros (_ & H) t x k I B Mx. apply (cp_dir _ _ _ _ Cp) in I as ((c & I & <-) & ->). apply (H c k I B).
      intros c' I' B'. apply (Mx (p_attr c') (v (p_attr c')) ); [apply (cp_dir _ _ _ _ Cp); eauto|exact B'].
  Qed.
  Lemma least_energy ignore v p : openBoundaries (mo_mats m) = [] -> same_quadrature D -> conductor_problem (mo_mats m) ignore v p ->
    exists s0 s, mkSolver (discretize abc D) dbg p = Ok s0 /\ Solve (discretize abc D) s0 = Ok s /\
      has_potentials abc D m v (s_phi s) /\ getTotalEnergy (discretize abc D) s = Ok (/ 2 * work abc D p (s_phi s) (s_phi s)) /\
      forall psi, has_potentials abc D m v psi -> / 2 * work abc D p (s_phi s) (s_phi s) <= / 2 * work abc D p psi psi.
  Proof.
    intros Eo Sq Cp. destruct (model_problem abc D m W Rm ignore v p Cp) as (Hp & An).
    destruct (computes_exists abc D (rm_tables _ _ _ Rm) dbg p Hp) as (x & Cx). pose proof Cx as (s0 & E0 & Ex).
    unfold solved_fields in Ex. apply bind_ok in Ex as (s & Es & Ex).
    assert (Ep : s_params s = p).
    { transitivity (s_params s0).
      - clear -Es. unfold Solve in Es. apply bind_ok in Es as (phi0 & _ & Es). apply bind_ok in Es as (ess & _ & [= <-]). reflexivity.
      - clear -E0. unfold mkSolver in E0. apply bind_ok in E0 as (? & _ & E0). apply bind_ok in E0 as (? & _ & E0).
        apply bind_ok in E0 as (? & _ & E0). apply bind_ok in E0 as (? & _ & [= <-]). reflexivity. }
    assert (Exs : x = getSolution s) by (now injection Ex). subst x.
    destruct (minimal abc D (rm_tables _ _ _ Rm) dbg p _ Hp An Cx) as (sigma & Sd & L & Pr & Mi & _). cbn [getSolution so_phi] in *.
    assert (En : forall psi, energy abc D p sigma psi = / 2 * work abc D p psi psi).
    { intros psi. unfold energy. rewrite (no_source abc D p sigma psi Sd (cp_neu _ _ _ _ Cp)). ring. }
    exists s0, s. split; [exact E0|]. split; [exact Es|]. split; [now apply (has_prescribed ignore v p)|]. split.
    { pose proof (energy_work abc D dbg m W Rm ignore v s Eo Sq) as Q. rewrite Ep in Q. exact (Q Cp Cx). }
    intros psi Hq. destruct (list_eq_dec Req_EM_T psi (s_phi s)) as [-> | N]; [lra|].
    rewrite <- !En. apply Rlt_le, Mi; [exact (proj1 Hq)|now apply (has_prescribed ignore v p); [|exact (proj1 Hq)|]|exact N].
  Qed.
  Lemma closed_work ignore v p f psi : conductor_problem (mo_mats m) ignore v p -> relative_permittivity (mo_mats m) ignore f -> openBoundaries (mo_mats m) = [] ->
    work abc D p psi psi = Rsum (di_grad D) (fun q => g_weight q * f (g_attr q) * grad2 q psi psi).
  Proof.
    intros Cp He Eo. unfold work. assert (Op : open_points D p = []).
    { unfold open_points. assert (E : si_open p = []).
      { pose proof (cp_open _ _ _ _ Cp) as Q. rewrite Eo in Q. now apply Permutation_sym, Permutation_nil in Q. }
      rewrite E. clear. induction (di_abc D); cbn; auto. }
    rewrite Op, Rsum_nil, Rplus_0_r. apply Rsum_ext. intros q _. now rewrite (eps_of_relative m ignore v p f Cp He).
  Qed.
End Least.

(** ** First order spaces of a mesh drawn elsewhere *)
Definition moved (f : R * R -> R * R) (ms : mesh R) : mesh R :=
  {| m_elems := m_elems ms; m_bdr := m_bdr ms; m_coord := fun v => f (m_coord ms v) |}.
Lemma spread_nth n ks (xs : list R) k : nth k (spread n ks xs) 0 = if (k <? n)%nat then scatter ks xs k else 0.
Proof.
  unfold spread. destruct (Nat.ltb_spec k n) as [L | L].
  - rewrite (nth_indep _ 0 (scatter ks xs 0%nat)) by (rewrite map_length, seq_length; exact L). rewrite map_nth, seq_nth by exact L. reflexivity.
  - apply nth_overflow. rewrite map_length, seq_length. exact L.
Qed.
Lemma spread_combined n ks (xs ys zs : list R) a b : List.length xs = List.length zs -> List.length ys = List.length zs ->
  (forall i, nth i zs 0 = a * nth i xs 0 + b * nth i ys 0) ->
  forall k, nth k (spread n ks zs) 0 = a * nth k (spread n ks xs) 0 + b * nth k (spread n ks ys) 0.
Proof.
  intros L1 L2 H k. rewrite !spread_nth. destruct (k <? n)%nat; [|ring]. revert xs ys zs L1 L2 H.
  induction ks as [|i ks IH]; intros xs ys zs L1 L2 H; [cbn; ring|].
  destruct xs as [|x xs], ys as [|y ys], zs as [|z zs]; try discriminate; [cbn; ring|]. cbn. destruct (i =? k)%nat; [exact (H 0%nat)|].
  apply IH; [now injection L1|now injection L2|]. intros j. exact (H (S j)).
Qed.
Lemma carried_spread s c n N ks (xs ys xs' ys' : list R) : 0 < s -> List.length xs = List.length xs' -> List.length ys = List.length xs' -> List.length ys' = List.length xs' ->
  carried s c n xs ys xs' ys' -> carried s c n (spread N ks xs) (spread N ks ys) (spread N ks xs') (spread N ks ys').
Proof.
  intros Ps L1 L2 L3 H k. split.
  - rewrite (spread_combined N ks xs ys xs' (c / s) (- n / s) L1 L2); [field; lra|]. intros i. destruct (H i) as (-> & _). field. lra.
  - rewrite (spread_combined N ks xs ys ys' (n / s) (c / s)); [field; lra|congruence|congruence|]. intros i. destruct (H i) as (_ & ->). field. lra.
Qed.
Lemma Forall2_flat {A B} (P : B -> B -> Prop) (l : list A) (f g : A -> list B) : (forall a, In a l -> Forall2 P (f a) (g a)) -> Forall2 P (flat_map f l) (flat_map g l).
Proof. induction l as [|a l IH]; intros H; cbn; [constructor|]. apply Forall2_app; [apply H; now left|]. apply IH. intros; apply H; now right. Qed.
Lemma Forall2_maps {A B} (P : B -> B -> Prop) (l : list A) (f g : A -> B) : (forall a, In a l -> P (f a) (g a)) -> Forall2 P (map f l) (map g l).
Proof. induction l as [|a l IH]; intros H; cbn; constructor; [apply H; now left|]. apply IH. intros; apply H; now right. Qed.

Section MovedMesh.
  Variables (rule1 : list (R * R)) (rule0 rule2 : list (R * R * R)).
  Variable ms : mesh R.
  Hypothesis Tr : triangulation ms.
  Variables s c n tx ty : R.
  Hypothesis Ps : 0 < s.
  Hypothesis Un : c * c + n * n = 1.
  Variable f : R * R -> R * R.
  Hypothesis Ef : forall p, f p = (s * (c * fst p - n * snd p) + tx, s * (n * fst p + c * snd p) + ty).
  Notation ms' := (moved f ms).
  Lemma elem_shape e : In e (m_elems ms) -> exists a b d, verts e = [a; b; d] /\ 0 < det (pos ms a) (pos ms b) (pos ms d) /\
    jacobian ms e = det (pos ms a) (pos ms b) (pos ms d) /\ jacobian ms' e = s * s * det (pos ms a) (pos ms b) (pos ms d) /\
    carried s c n (grads_x ms e) (grads_y ms e) (grads_x ms' e) (grads_y ms' e) /\
    (exists x0 x1 x2, grads_x ms e = [x0; x1; x2]) /\ (exists x0 x1 x2, grads_y ms e = [x0; x1; x2]) /\
    (exists x0 x1 x2, grads_x ms' e = [x0; x1; x2]) /\ (exists x0 x1 x2, grads_y ms' e = [x0; x1; x2]).
  Proof.
    intros I. destruct (tr_elem _ Tr e I) as (_ & a & b & d & Ev & Pa & Pb & Pd & Ar).
    exists (Z.to_nat a), (Z.to_nat b), (Z.to_nat d). unfold verts. rewrite Ev. split; [reflexivity|].
    assert (Dp : 0 < det (pos ms (Z.to_nat a)) (pos ms (Z.to_nat b)) (pos ms (Z.to_nat d))).
    { unfold area in Ar. rewrite Ev in Ar. unfold det, pos. rewrite !Z2Nat.id by assumption. cbn [nsub nmul RNum]. lra. }
    split; [exact Dp|]. unfold jacobian, grads_x, grads_y, verts. rewrite Ev. cbn [map].
    assert (Pm : forall k, pos ms' k = f (pos ms k)) by reflexivity. rewrite !Pm.
    rewrite (det_moved s c n tx ty Un f Ef).
    split; [reflexivity|]. split; [reflexivity|]. split; [|repeat split; eauto].
    destruct (grads_moved s c n tx ty Ps Un f Ef _ _ _ Dp) as (Gx & Gy). unfold gradsx, gradsy in Gx, Gy. cbn [fst snd] in Gx, Gy.
    rewrite (det_moved s c n tx ty Un f Ef) in Gx, Gy.
    set (dd := det (pos ms (Z.to_nat a)) (pos ms (Z.to_nat b)) (pos ms (Z.to_nat d))) in *.
    injection Gx as X0 X1 X2. injection Gy as Y0 Y1 Y2. cbn [nsub nmul ndiv RNum].
    intros [|[|[|k]]]; cbn [nth]; [split; assumption|split; assumption|split; assumption|].
    destruct k; cbn [nth]; split; unfold Rdiv; ring.
  Qed.
  Lemma nd_carried e p : In e (m_elems ms) -> carried s c n (nd_x ms e p) (nd_y ms e p) (nd_x ms' e p) (nd_y ms' e p).
  Proof.
    intros I. destruct (elem_shape e I) as (a & b & d & Ev & _ & _ & _ & Cg & (x0 & x1 & x2 & Ex) & (y0 & y1 & y2 & Ey) & (z0 & z1 & z2 & Ez) & (w0 & w1 & w2 & Ew)).
    unfold nd_x, nd_y. change (edges ms') with (edges ms). change (edge_dofs ms' e) with (edge_dofs ms e).
    rewrite Ex, Ey, Ez, Ew in *. unfold whitney, sides. rewrite Ev. unfold bary.
    pose proof (Cg 0%nat) as (X0 & Y0). pose proof (Cg 1%nat) as (X1 & Y1). pose proof (Cg 2%nat) as (X2 & Y2). cbn [nth] in *.
    apply carried_spread; try reflexivity; try exact Ps.
    intros [|[|[|k]]]; cbn [nth]; cbn [nsub nmul nadd n1 RNum].
    - rewrite X0, X1, Y0, Y1. split; field; lra.
    - rewrite X1, X2, Y1, Y2. split; field; lra.
    - rewrite X0, X2, Y0, Y2. split; field; lra.
    - destruct k; cbn [nth]; split; unfold Rdiv; ring.
  Qed.
  Lemma opp_nth (l : list R) k : nth k (map nopp l) 0 = - nth k l 0.
  Proof. rewrite <- (map_nth Ropp). f_equal. ring. Qed.
  Lemma rt_carried e p : In e (m_elems ms) -> carried s c n (rt_x ms e p) (rt_y ms e p) (rt_x ms' e p) (rt_y ms' e p).
  Proof.
    intros I k. unfold rt_x, rt_y. rewrite !opp_nth. destruct (nd_carried e p I k) as (-> & ->). split; unfold Rdiv; ring.
  Qed.
  Lemma first_order_moved : redrawn_spaces s c n f (first_order rule1 rule0 rule2 distance ms) (first_order rule1 rule0 rule2 distance ms').
  Proof.
    constructor; cbn [di_nH1 di_nND di_nRT di_bdrDofs di_gradient di_grad di_rt di_mix di_flux di_abc first_order].
    - auto.
    - auto.
    - reflexivity.
    - apply Forall2_flat. intros e I. apply Forall2_maps. intros pw _. cbn [g_attr g_weight g_x g_y].
      destruct (elem_shape e I) as (a & b & d & Ev & _ & Ej & Ej' & Cg & (x0 & x1 & x2 & Ex) & (y0 & y1 & y2 & Ey) & (z0 & z1 & z2 & Ez) & (w0 & w1 & w2 & Ew)).
      split; [reflexivity|]. rewrite Ej, Ej'. split; [cbn [nmul RNum]; ring|]. change (nverts ms') with (nverts ms).
      apply carried_spread; [exact Ps|rewrite Ex, Ez; reflexivity|rewrite Ey, Ez; reflexivity|rewrite Ew, Ez; reflexivity|exact Cg].
    - apply Forall2_flat. intros e I. apply Forall2_maps. intros pw _. cbn [r_weight r_x r_y].
      destruct (elem_shape e I) as (a & b & d & Ev & _ & Ej & Ej' & _). rewrite Ej, Ej'. split; [cbn [nmul RNum]; ring|]. exact (rt_carried e (fst pw) I).
    - apply Forall2_flat. intros e I. apply Forall2_maps. intros pw _. cbn [x_attr x_weight x_ndx x_ndy x_rtx x_rty].
      destruct (elem_shape e I) as (a & b & d & Ev & _ & Ej & Ej' & _). rewrite Ej, Ej'. split; [reflexivity|]. split; [cbn [nmul RNum]; ring|].
      split; [exact (nd_carried e (fst pw) I)|exact (rt_carried e (fst pw) I)].
    - apply Forall2_flat. intros b I. apply Forall2_maps. intros sw _. split; reflexivity.
    - apply Forall2_flat. intros b I. apply Forall2_maps. intros sw _. cbn [b_attr b_weight b_shape b_pos].
      split; [reflexivity|]. split.
      + unfold bdr_len. change (pos ms' ?k) with (f (pos ms k)). rewrite (distance_moved s c n tx ty Ps Un f Ef). cbn [nmul RNum]. ring.
      + split; [reflexivity|]. change (pos ms' ?k) with (f (pos ms k)). exact (along_moved s c n tx ty f Ef _ _ _).
  Qed.
End MovedMesh.

(** ** A finer mesh has a richer space *)
Section Finer.
  Variables (rule1 : list (R * R)) (rule0 rule2 : list (R * R * R)) (abc : R * R -> R).
  Hypothesis Ru : rules_ok rule1 rule0 rule2.
  Notation disc ms := (first_order rule1 rule0 rule2 distance ms).
  Lemma grad_energy m f phi : cross_section abc m -> potential (disc (mo_mesh m)) phi ->
    field_energy (mo_mesh m) f phi (/ 2 * Rsum (di_grad (disc (mo_mesh m))) (fun q => g_weight q * f (g_attr q) * grad2 q phi phi)).
  Proof.
    intros Cs L. set (ms := mo_mesh m) in *. pose proof (proj1 (cs_mesh _ _ Cs)) as Tr. fold ms in Tr.
    exists (fun e => (gx ms e phi, gy ms e phi)). split; [intros e I; exact (slope_grad rule1 rule0 rule2 ms Tr e phi I L)|].
    cbn [di_grad first_order]. rewrite Rsum_flat_map, <- Rsum_scal. apply Rsum_ext. intros e I.
    unfold grad_points. rewrite Rsum_map. cbn [g_attr g_weight fst snd].
    transitivity (/ 2 * Rsum rule0 (fun pw => snd pw * (jacobian ms e * f (e_attr e) * (gx ms e phi * gx ms e phi + gy ms e phi * gy ms e phi)))).
    { f_equal. apply Rsum_ext. intros pw J. unfold grad2. cbn [g_x g_y]. fold (gx ms e phi) (gy ms e phi). cbn [nmul RNum]. ring. }
    rewrite (Rsum_scal_r rule0 _ snd), (proj2 (ru_gradient _ _ _ Ru)), (proj1 (jacobian_area ms Tr e I)). field.
  Qed.
  Lemma refines_richer m m' ts parts shares : cross_section abc m -> cross_section abc m' -> refines (mo_mesh m) (mo_mesh m') ts parts shares ->
    exists P, richer abc (disc (mo_mesh m)) (disc (mo_mesh m')) ts P.
  Proof.
    intros Cs Cs' Re. pose proof (proj1 (cs_mesh _ _ Cs)) as Tr. pose proof (proj1 (cs_mesh _ _ Cs')) as Tr'.
    set (P := fun phi => map (fun k => Rsum (shares (Z.of_nat k)) (fun q => snd q * at_vertex phi (fst q))) (seq 0 (nverts (mo_mesh m')))).
    assert (Lp : forall phi, potential (disc (mo_mesh m')) (P phi)) by (intros phi; unfold potential, P; now rewrite map_length, seq_length).
    assert (Np : forall phi, nodal (mo_mesh m') (P phi)) by (intros phi; apply (nodal_length rule1 rule0 rule2 abc m' Cs'), Lp).
    assert (Vp : forall phi v, vertex (mo_mesh m') v -> at_vertex (P phi) v = Rsum (shares v) (fun q => snd q * at_vertex phi (fst q))).
    { intros phi v Hv. pose proof (proj1 (Np phi v) Hv) as L. unfold P in L. rewrite map_length, seq_length in L.
      unfold at_vertex at 1. unfold P. rewrite (nth_indep _ 0 ((fun k => Rsum (shares (Z.of_nat k)) (fun q => snd q * at_vertex phi (fst q))) 0%nat)) by (rewrite map_length, seq_length; lia).
      rewrite (map_nth (fun k => Rsum (shares (Z.of_nat k)) (fun q => snd q * at_vertex phi (fst q)))), seq_nth by lia. cbn [Nat.add]. now rewrite Z2Nat.id by lia. }
    exists P. constructor.
    - intros phi _. apply Lp.
    - intros phi f L.
      pose proof (refined_energy _ _ _ _ _ f phi (P phi) _ Re Tr Tr' (Np phi) (Vp phi) (grad_energy m f phi Cs L)) as E1.
      pose proof (energy_unique rule1 rule0 rule2 abc m' Cs' f (P phi) _ _ (Lp phi) (grad_energy m' f (P phi) Cs' (Lp phi)) E1) as E2.
      apply (Rmult_eq_reg_l (/ 2)); [exact E2|lra].
    - intros phi t x L It H k B. apply (on_touches rule1 rule0 rule2 abc m' Cs') in B. 
      assert (Vk : vertex (mo_mesh m') (Z.of_nat k)).
      { destruct B as (b & Ib & _ & Jb). destruct (tr_bdr _ Tr' b Ib) as (_ & a & c' & e & Ev & Ie & (x1 & x2 & x3 & Ee & S)).
        exists e. split; [exact Ie|]. rewrite Ee. rewrite Ev in Jb. destruct S as [S | [S | S]]; injection S as -> ->; cbn in Jb |- *; tauto. }
      assert (Lk : (k < List.length (P phi))%nat) by (pose proof (proj1 (Np phi _) Vk); lia).
      rewrite (nth_error_nth' _ 0 Lk). f_equal. transitivity (at_vertex (P phi) (Z.of_nat k)); [unfold at_vertex; now rewrite Nat2Z.id|].
      rewrite (Vp phi _ Vk), (Rsum_ext _ _ (fun q => snd q * x)).
      + rewrite Rsum_scal_r, (proj1 (re_point _ _ _ _ _ Re _ Vk)). ring.
      + intros q Iq. f_equal. pose proof (re_boundary _ _ _ _ _ Re t _ It B (fst q) (in_map fst _ _ Iq)) as Bq.
        assert (P0 : (0 <= fst q)%Z).
        { destruct Bq as (b & Ib & _ & Jb). destruct (tr_bdr _ Tr b Ib) as (_ & a & c' & e & Ev & Ie & (x1 & x2 & x3 & Ee & S)).
          destruct (tr_elem _ Tr e Ie) as (_ & y1 & y2 & y3 & Ey & Q1 & Q2 & Q3 & _). rewrite Ee in Ey. injection Ey as -> -> ->. rewrite Ev in Jb.
          destruct S as [S | [S | S]]; injection S as -> ->; cbn in Jb; destruct Jb as [<- | [<- | []]]; assumption. }
        rewrite <- (Z2Nat.id (fst q) P0) in Bq. apply (on_touches rule1 rule0 rule2 abc m Cs) in Bq. specialize (H _ Bq).
        unfold at_vertex. now apply nth_error_nth.
  Qed.
End Finer.
