(** Models drawn on triangles, with elements of any order, meet the assumptions of the theorems about fields. *)
From Coq Require Import Reals Lra Relations Permutation.
From Verif Require Import Prelude StdMap Materials Graph ModelM Parser Matrix Solver Fem Domain Results Driver RSum ListLemmas SpecInput SpecModel SpecSolver SpecDriver SpecCharge SpecField SpecFem
  SpecTriangles SpecElements Triangles Elements SolverProofs FemCalls FemFacts FemModel FemLaws FemMore TriProofs TriModel ElemProofs ElemTables.
Open Scope R_scope.
Open Scope list_scope.

Section Model.
  Variable ref : reference R.
  Hypothesis Ro : reference_ok ref.
  Variable abc : R * R -> R.
  Variable m : model R.
  Hypothesis Cs : cross_section abc m.
  Notation ms := (mo_mesh m).
  Notation mats := (mo_mats m).
  Notation D := (elements ref distance ms).
  Notation F := (discretize abc D).
  Notation nv := (nverts ms).
  Notation nh := (n_h1 ref ms).
  Let Tr : triangulation ms := proj1 (cs_mesh _ _ Cs).

  (** ** Boundaries *)
  Lemma el_on t k : on_boundary F t k <-> exists b, In b (m_bdr ms) /\ e_attr b = t /\ In k (bdr_dofs ref ms b).
  Proof.
    unfold on_boundary. cbn [fe_bdrDofs discretize di_bdrDofs elements]. split.
    - intros (x & I & E & J). apply in_map_iff in I as (b & <- & I). cbn [fst snd] in E, J. exists b. auto.
    - intros (b & I & E & J). exists (e_attr b, bdr_dofs ref ms b). split; [apply in_map_iff; eauto|]. auto.
  Qed.
  Lemma el_on_lt t k : on_boundary F t k -> (k < nh)%nat.
  Proof. intros B. apply el_on in B as (b & I & _ & J). exact (proj1 (Forall_forall _ _) (proj2 (bdr_dofs_ok ref ms Tr b I)) k J). Qed.
  (** boundaries that share a degree of freedom share a vertex *)
  Lemma el_share t t' k : on_boundary F t k -> on_boundary F t' k -> exists v, at_boundary ms t v /\ at_boundary ms t' v.
  Proof.
    intros B B'. apply el_on in B as (b & I & E & J). apply el_on in B' as (b' & I' & E' & J').
    destruct (bdr_ends ms Tr b I) as (v & w & e & Ie & Ev & En & Is & N & Lv & Lw & _). destruct (bdr_ends ms Tr b' I') as (v' & w' & e' & Ie' & Ev' & En' & Is' & N' & Lv' & Lw' & _).
    assert (At : forall u, In u (verts b) -> at_boundary ms t (Z.of_nat u)) by (intros u Iu; exists b; split; [exact I|]; split; [exact E|]; rewrite (bdr_verts abc m Cs b I); now apply in_map).
    assert (At' : forall u, In u (verts b') -> at_boundary ms t' (Z.of_nat u)) by (intros u Iu; exists b'; split; [exact I'|]; split; [exact E'|]; rewrite (bdr_verts abc m Cs b' I'); now apply in_map).
    rewrite (bdr_dofs_eq ref ms b v w Ev En) in J. rewrite (bdr_dofs_eq ref ms b' v' w' Ev' En') in J'. rewrite Ev in At. rewrite Ev' in At'.
    assert (Hv : forall u x y, (u < nv)%nat -> In u (x :: y :: side_nodes ref ms (x, y)) -> In u [x; y]).
    { intros u x y Lu [H|[H|H]]; [now left|now right; left|]. apply in_side_nodes in H. lia. }
    destruct (Nat.lt_ge_cases k nv) as [Lk|Lk].
    - exists (Z.of_nat k). split; [apply At; now apply (Hv k v w)|apply At'; now apply (Hv k v' w')].
    - assert (S : In k (side_nodes ref ms (v, w))) by (destruct J as [<-|[<-|J]]; [lia|lia|exact J]).
      assert (S' : In k (side_nodes ref ms (v', w'))) by (destruct J' as [<-|[<-|J']]; [lia|lia|exact J']).
      apply in_side_nodes in S. apply in_side_nodes in S'. assert (Ed : edge_dof ms (v, w) = edge_dof ms (v', w')) by (apply (blocks_apart _ _ (re_side ref) (k - nv)); lia).
      apply index_inj in Ed; [|exact (side_edge ms e _ Ie Is)|exact (side_edge ms e' _ Ie' Is')].
      exists (Z.of_nat v). split; [apply At; now left|apply At'].
      unfold edge in Ed. cbn [fst snd] in Ed. destruct (v <? w)%nat, (v' <? w')%nat; injection Ed as -> ->; cbn; auto.
  Qed.
  Lemma el_vertex t v : at_boundary ms t v -> exists k, (k < nh)%nat /\ on_boundary F t k.
  Proof.
    intros (b & I & E & _). destruct (bdr_ends ms Tr b I) as (x & w & e & _ & Ev & En & _).
    assert (B : on_boundary F t x) by (apply el_on; exists b; split; [exact I|]; split; [exact E|]; rewrite (bdr_dofs_eq ref ms b x w Ev En); now left).
    exists x. split; [exact (el_on_lt _ _ B)|exact B].
  Qed.
  Lemma el_apart c c' k : In c (pecs mats) -> In c' (pecs mats) -> on_boundary F (p_attr c) k -> on_boundary F (p_attr c') k -> p_attr c = p_attr c'.
  Proof. intros I I' B B'. destruct (el_share _ _ k B B') as (v & A & A'). exact (cs_apart _ _ Cs c c' v I I' A A'). Qed.
  Lemma el_surf_on_line q : In q (di_abc D) -> on_line ms (b_attr q) (b_pos q).
  Proof.
    intros I. apply el_in_surf in I as (b & sw & I & J & ->). cbn [b_attr b_pos].
    destruct (bdr_ends ms Tr b I) as (v & w & e & _ & Ev & En & _). pose proof (bdr_verts abc m Cs b I) as E. rewrite Ev in E. cbn [map] in E.
    exists b, (Z.of_nat v), (Z.of_nat w), (fst sw). split; [exact I|]. split; [reflexivity|]. split; [exact E|].
    split; [exact (proj1 (proj1 (ro_rules _ Ro) sw J))|]. rewrite En. reflexivity.
  Qed.
  Lemma el_open_line o : In o (openBoundaries mats) -> exists q, In q (di_abc D) /\ b_attr q = o_attr o.
  Proof.
    intros I. destruct (cs_open _ _ Cs o I) as ((p & b & v & w & s & Ib & E & _) & _).
    destruct (ro_rules _ Ro) as (_ & S & _). destruct (re_rule1 ref) as [|sw r1] eqn:Er; [cbn in S; lra|].
    assert (J : In sw (re_rule1 ref)) by (rewrite Er; now left).
    eexists. split; [apply el_in_surf; exists b, sw; split; [exact Ib|]; split; [exact J|reflexivity]|]. exact E.
  Qed.
  Theorem elements_posed : well_posed F m.
  Proof.
    constructor.
    - exact (cs_names _ _ Cs).
    - apply Forall_forall. intros c I. destruct (cs_conductors _ _ Cs) as (_ & _ & H). destruct (H c I) as (v & b & Ib & <- & _).
      exact (proj1 (tr_bdr ms Tr b Ib)).
    - apply Forall_forall. intros o I. destruct (cs_open _ _ Cs o I) as ((p & b & v & w & s & Ib & <- & _) & _).
      exact (proj1 (tr_bdr ms Tr b Ib)).
    - apply Forall_forall. intros d I. destruct (cs_media _ _ Cs d I) as (_ & e & Ie & <-). exact (el_elem_tag ref ms Tr e Ie).
    - apply discretize_ok. apply (elements_tables ref Ro ms Tr).
  Qed.
  Theorem elements_regular : regular_model abc D m.
  Proof.
    destruct (cs_conductors _ _ Cs) as (N & ND & H). constructor.
    - apply (elements_tables ref Ro ms Tr).
    - intros d I. exact (proj1 (cs_media _ _ Cs d I)).
    - exact N.
    - exact ND.
    - intros q (I & o & Io & E). apply (proj2 (cs_open _ _ Cs o Io)). rewrite E. now apply el_surf_on_line.
    - intros z L Fl Z _. destruct (elements_connected ref Ro ms Tr (proj2 (cs_mesh _ _ Cs)) z L Fl) as (c0 & ->).
      destruct (pecs mats) as [|c l] eqn:Ep; [easy|]. destruct (H c (or_introl eq_refl)) as (v & T). destruct (el_vertex _ _ T) as (k & Lk & B).
      specialize (Z c k (or_introl eq_refl) B). cbn [di_nH1 elements] in Z |- *.
      rewrite (nth_error_nth' (repeat c0 nh) 0) in Z by (rewrite repeat_length; exact Lk). rewrite nth_repeat_lt in Z by exact Lk. injection Z as ->. reflexivity.
  Qed.
  Theorem elements_connected_model : connected_mesh abc D m.
  Proof.
    constructor.
    - exact (elements_connected ref Ro ms Tr (proj2 (cs_mesh _ _ Cs))).
    - intros c I. destruct (cs_conductors _ _ Cs) as (_ & _ & H). destruct (H c I) as (v & T). destruct (el_vertex _ _ T) as (k & Lk & B).
      exists k. split; [exact B|]. intros c' I' B'. rewrite (el_apart c c' k I I' B B'). lia.
    - exact el_open_line.
  Qed.
  (** ** Potentials of the conductors, at the degrees of freedom and along the lines *)
  Lemma bdr_side b : In b (m_bdr ms) -> exists v1 v2 x, e_verts b = [v1; v2] /\ triangle ms x /\ forall s, exists p, on_side (snd x) v1 v2 s p.
  Proof.
    intros I. destruct (tr_bdr ms Tr b I) as (_ & v & w & e & E & Ie & (a & b' & c & Ee & S)). destruct (in_tri ms e Ie) as (i & T).
    exists v, w, (i, e). split; [exact E|]. split; [exact T|]. intros s. cbn [snd]. unfold on_side.
    destruct S as [S|[S|S]]; eexists; exists a, b', c; (split; [exact Ee|]); [left|right; left|right; right]; split; eauto.
  Qed.
  Lemma bdr_values b v1 v2 phi : In b (m_bdr ms) -> e_verts b = [v1; v2] -> values phi (bdr_dofs ref ms b) = on_edge ref ms phi (Z.to_nat v1, Z.to_nat v2).
  Proof. intros I E. unfold bdr_dofs, ends, verts. rewrite E. reflexivity. Qed.
  Lemma held_along_iff v phi : held_along ref ms mats v phi <-> has_potentials abc D m v phi.
  Proof.
    unfold held_along, has_potentials, potential. cbn [di_nH1 elements].
    assert (K : List.length phi = nh -> (forall c b, In c (pecs mats) -> In b (m_bdr ms) -> e_attr b = p_attr c ->
       ((forall x v1 v2 s p, e_verts b = [v1; v2] -> triangle ms x -> 0 <= s <= 1 -> on_side (snd x) v1 v2 s p -> value_in ref ms phi x p = v (p_attr c)) <->
        forall k, In k (bdr_dofs ref ms b) -> nth k phi 0 = v (p_attr c)))).
    { intros L c b Ic Ib Ea. rewrite <- (held_dofs ref Ro ms Tr phi (v (p_attr c)) b Ib L). destruct (bdr_side b Ib) as (v1 & v2 & x & E & T & S). split.
      - intros H s Hs. destruct (S s) as (p & Sp). rewrite (bdr_values b v1 v2 phi Ib E). destruct (value_on_side ref Ro ms Tr phi x v1 v2 s p T L Sp) as (<- & _). exact (H x v1 v2 s p E T Hs Sp).
      - intros H y w1 w2 s p E' T' Hs Sp. destruct (value_on_side ref Ro ms Tr phi y w1 w2 s p T' L Sp) as (-> & _). rewrite <- (bdr_values b w1 w2 phi Ib E'). exact (H s Hs). }
    split; intros (L & H); (split; [exact L|]).
    - intros c k Ic B _. pose proof (el_on_lt _ _ B) as Lk. apply el_on in B as (b & Ib & Ea & J). rewrite (nth_error_nth' phi 0) by lia. f_equal.
      apply (proj1 (K L c b Ic Ib Ea)); [|exact J]. intros x v1 v2 s p E T Hs Sp. exact (H c b x v1 v2 s p Ic Ib Ea E T Hs Sp).
    - intros c b x v1 v2 s p Ic Ib Ea E T Hs Sp. refine (proj2 (K L c b Ic Ib Ea) _ x v1 v2 s p E T Hs Sp). intros k J.
      assert (B : on_boundary F (p_attr c) k) by (apply el_on; eauto). specialize (H c k Ic B). rewrite (nth_error_nth' phi 0) in H by (rewrite L; exact (el_on_lt _ _ B)).
      assert (Q : Some (nth k phi 0) = Some (v (p_attr c))); [|now injection Q]. apply H. intros c' I' B'. rewrite (el_apart c c' k Ic I' B B'). lia.
  Qed.
  (** ** Energy *)
  Lemma el_work_energy ignore v p f phi : conductor_problem mats ignore v p -> relative_permittivity mats ignore f -> openBoundaries mats = [] ->
    potential D phi -> / 2 * work abc D p phi phi = energy_by_rule ref ms f phi.
  Proof.
    intros Cp Hf Eo L. unfold work, energy_by_rule. rewrite (no_open m ignore v p D Eo Cp), Rsum_nil, Rplus_0_r. cbn [di_grad elements]. rewrite Rsum_flat_map, <- Rsum_scal. apply Rsum_ext. intros x I.
    apply numbered_in in I. unfold el_grad_points. rewrite Rsum_map. cbn [g_attr g_weight fst snd]. rewrite <- !Rsum_scal. apply Rsum_ext. intros q J.
    rewrite (eps_of_relative m ignore v p f Cp Hf). unfold grad2, gradient_in. cbn [g_x g_y fst snd].
    rewrite <- (proj1 (jacobian_area ms Tr _ (tri_in ms x I))). cbn [nmul RNum]. ring.
  Qed.
End Model.
