(** Models drawn on triangles meet the assumptions of the theorems about fields. *)
From Coq Require Import Reals Lra Relations Permutation.
From Verif Require Import Prelude StdMap Materials Graph ModelM Parser Matrix Solver Fem Domain Results Driver RSum ListLemmas SpecInput SpecModel SpecSolver SpecDriver SpecCharge SpecField SpecFem
  SpecTriangles Triangles SolverProofs FemCalls FemFacts FemModel FemLaws FemMore TriProofs.
Open Scope R_scope.
Open Scope list_scope.

Section Model.
  Variable rule1 : list (R * R).
  Variable rule0 rule2 : list (R * R * R).
  Hypothesis Ru : rules_ok rule1 rule0 rule2.
  Variable abc : R * R -> R.
  Variable m : model R.
  Hypothesis Cs : cross_section abc m.
  Notation ms := (mo_mesh m).
  Notation mats := (mo_mats m).
  Notation D := (first_order rule1 rule0 rule2 distance ms).
  Notation F := (discretize abc D).
  Notation n := (nverts ms).
  Let Tr : triangulation ms := proj1 (cs_mesh _ _ Cs).

  Lemma nodal_length phi : nodal ms phi <-> potential D phi.
  Proof.
    assert (V : forall k, (k < n)%nat <-> vertex ms (Z.of_nat k)).
    { intros k. split.
      - intros L. destruct (lt_vert ms Tr k L) as (e & I & J). exists e. split; [exact I|]. destruct (elem_corners ms Tr e I) as (a & b & c & C).
        rewrite (co_verts _ _ _ _ _ C). destruct (in_verts_corners ms e a b c k C J) as [-> | [-> | ->]]; cbn; auto.
      - intros (e & I & J). apply (vert_lt ms e k I). unfold verts. apply in_map_iff. exists (Z.of_nat k). split; [lia|exact J]. }
    assert (V0 : forall v, vertex ms v -> (0 <= v)%Z).
    { intros v (e & I & J). destruct (elem_corners ms Tr e I) as (a & b & c & C). rewrite (co_verts _ _ _ _ _ C) in J.
      destruct J as [<-|[<-|[<-|[]]]]; lia. }
    unfold potential. cbn [di_nH1 first_order]. split.
    - intros H. destruct (Nat.lt_trichotomy (List.length phi) n) as [L|[E|L]]; [exfalso|exact E|exfalso].
      + apply V, H in L. lia.
      + assert (W : vertex ms (Z.of_nat n)) by (apply H; lia). apply V in W. lia.
    - intros E v. split.
      + intros W. pose proof (V0 v W) as P. rewrite <- (Z2Nat.id v P) in W. apply V in W. lia.
      + intros L. rewrite <- (Z2Nat.id v) by lia. apply V. lia.
  Qed.
  (** ** Boundaries *)
  Lemma bdr_verts b : In b (m_bdr ms) -> e_verts b = map Z.of_nat (verts b).
  Proof.
    intros I. destruct (tr_bdr ms Tr b I) as (_ & v & w & e & E & Ie & (x & y & z & Ee & S)).
    destruct (elem_corners ms Tr e Ie) as (a1 & b1 & c1 & C). pose proof (co_verts _ _ _ _ _ C) as Ev. rewrite Ee in Ev. injection Ev as -> -> ->.
    unfold verts. rewrite E. cbn [map]. destruct S as [[= -> ->]|[[= -> ->]|[= -> ->]]]; rewrite !Nat2Z.id; reflexivity.
  Qed.
  Lemma on_touches t k : on_boundary F t k <-> at_boundary ms t (Z.of_nat k).
  Proof.
    unfold on_boundary, at_boundary. cbn [fe_bdrDofs discretize di_bdrDofs first_order]. split.
    - intros (x & I & E & J). apply in_map_iff in I as (b & <- & I). cbn [fst snd] in E, J. exists b. split; [exact I|]. split; [exact E|].
      rewrite (bdr_verts b I). now apply in_map.
    - intros (b & I & E & J). exists (e_attr b, verts b). split; [apply in_map_iff; eauto|]. split; [exact E|]. cbn [snd].
      rewrite (bdr_verts b I) in J. apply in_map_iff in J as (k' & E' & J). apply Nat2Z.inj in E' as ->. exact J.
  Qed.
  Lemma touches_nat t v : at_boundary ms t v -> exists k, v = Z.of_nat k /\ (k < n)%nat /\ on_boundary F t k.
  Proof.
    intros H. pose proof H as (b & I & E & J). rewrite (bdr_verts b I) in J. apply in_map_iff in J as (k & <- & J).
    exists k. split; [reflexivity|]. split; [|now apply on_touches].
    destruct (bdr_ends ms Tr b I) as (x & y & e & _ & Ev & _ & _ & _ & Lx & Ly & _). rewrite Ev in J. destruct J as [<-|[<-|[]]]; assumption.
  Qed.
  Lemma nth_at phi k x : (k < List.length phi)%nat -> (nth_error phi k = Some x <-> at_vertex phi (Z.of_nat k) = x).
  Proof.
    intros L. unfold at_vertex. rewrite Nat2Z.id, (nth_error_nth' phi 0 L). split; [now intros [= E]|now intros ->].
  Qed.
  Lemma held_iff v phi : held m v phi <-> has_potentials abc D m v phi.
  Proof.
    unfold held, has_potentials. rewrite nodal_length. split; intros (L & H); (split; [exact L|]).
    - intros c k I B _. apply (nth_at phi k); [|apply H; [exact I|now apply on_touches]].
      apply on_touches in B. destruct (touches_nat _ _ B) as (k' & E & Lk & _). apply Nat2Z.inj in E as <-. unfold potential in L. cbn [di_nH1 first_order] in L. lia.
    - intros c w I T. destruct (touches_nat _ _ T) as (k & -> & Lk & B). apply nth_at; [unfold potential in L; cbn [di_nH1 first_order] in L; lia|].
      apply H; [exact I|exact B|]. intros c' I' B'. apply on_touches in B'. rewrite (cs_apart _ _ Cs c c' _ I I' T B'). lia.
  Qed.
  Lemma surf_on_line q : In q (di_abc D) -> on_line ms (b_attr q) (b_pos q).
  Proof.
    intros I. apply (in_surf rule1 rule0 rule2) in I as (b & sw & I & J & ->). cbn [b_attr b_pos].
    destruct (bdr_ends ms Tr b I) as (v & w & e & _ & Ev & En & _). pose proof (bdr_verts b I) as E. rewrite Ev in E. cbn [map] in E.
    exists b, (Z.of_nat v), (Z.of_nat w), (fst sw). split; [exact I|]. split; [reflexivity|]. split; [exact E|].
    split; [exact (proj1 (proj1 (ru_segment _ _ _ Ru) sw J))|]. rewrite En. reflexivity.
  Qed.
  Lemma open_line o : In o (openBoundaries mats) -> exists q, In q (di_abc D) /\ b_attr q = o_attr o.
  Proof.
    intros I. destruct (cs_open _ _ Cs o I) as ((p & b & v & w & s & Ib & E & _) & _).
    destruct (ru_segment _ _ _ Ru) as (_ & S). destruct rule1 as [|sw r1] eqn:Er; [cbn in S; lra|]. rewrite <- Er in *.
    assert (J : In sw rule1) by (rewrite Er; now left).
    eexists. split; [apply (in_surf rule1 rule0 rule2); exists b, sw; split; [exact Ib|]; split; [exact J|reflexivity]|]. exact E.
  Qed.
  Theorem cross_section_posed : well_posed F m.
  Proof.
    constructor.
    - exact (cs_names _ _ Cs).
    - apply Forall_forall. intros c I. destruct (cs_conductors _ _ Cs) as (_ & _ & H). destruct (H c I) as (v & b & Ib & <- & _).
      exact (proj1 (tr_bdr ms Tr b Ib)).
    - apply Forall_forall. intros o I. destruct (cs_open _ _ Cs o I) as ((p & b & v & w & s & Ib & <- & _) & _).
      exact (proj1 (tr_bdr ms Tr b Ib)).
    - apply Forall_forall. intros d I. destruct (cs_media _ _ Cs d I) as (_ & e & Ie & <-). exact (elem_tag rule1 rule0 rule2 ms Tr e Ie).
    - apply discretize_ok. apply (first_order_tables rule1 rule0 rule2 Ru ms Tr).
  Qed.
  Theorem cross_section_regular : regular_model abc D m.
  Proof.
    destruct (cs_conductors _ _ Cs) as (N & ND & H). constructor.
    - apply (first_order_tables rule1 rule0 rule2 Ru ms Tr).
    - intros d I. exact (proj1 (cs_media _ _ Cs d I)).
    - exact N.
    - exact ND.
    - intros q (I & o & Io & E). apply (proj2 (cs_open _ _ Cs o Io)). rewrite E. now apply surf_on_line.
    - intros z L Fl Z _. destruct (first_order_connected rule1 rule0 rule2 Ru ms Tr (proj2 (cs_mesh _ _ Cs)) z L Fl) as (c0 & ->).
      destruct (pecs mats) as [|c l] eqn:Ep; [easy|]. destruct (H c (or_introl eq_refl)) as (v & T). destruct (touches_nat _ _ T) as (k & -> & Lk & B).
      specialize (Z c k (or_introl eq_refl) B). cbn [di_nH1 first_order] in Z |- *.
      rewrite (nth_error_nth' (repeat c0 n) 0) in Z by (rewrite repeat_length; exact Lk). rewrite nth_constant in Z by exact Lk. injection Z as ->. reflexivity.
  Qed.
  Theorem cross_section_connected : connected_mesh abc D m.
  Proof.
    constructor.
    - exact (first_order_connected rule1 rule0 rule2 Ru ms Tr (proj2 (cs_mesh _ _ Cs))).
    - intros c I. destruct (cs_conductors _ _ Cs) as (_ & _ & H). destruct (H c I) as (v & T). destruct (touches_nat _ _ T) as (k & -> & Lk & B).
      exists k. split; [exact B|]. intros c' I' B'. apply on_touches in B'. rewrite (cs_apart _ _ Cs c c' _ I I' T B'). lia.
    - exact open_line.
  Qed.

  (** ** Energy *)
  Lemma eps_of_relative ignore v p f : conductor_problem mats ignore v p -> relative_permittivity mats ignore f -> forall t, eps_of (si_eps p) t = f t.
  Proof.
    intros Cp (H1 & H2) t. unfold eps_of. destruct (find _ (si_eps p)) as [[t' er]|] eqn:E.
    - apply find_some in E as (I & E). cbn [fst snd] in *. apply Z.eqb_eq in E as ->. apply (cp_eps _ _ _ _ Cp) in I. symmetry. now apply H1.
    - symmetry. apply H2. intros I. 
      assert (exists er, permittivity mats ignore t er) as (er & Hp).
      { clear -I. unfold permittivity. induction (dielectrics mats) as [|d l IH] using rev_ind; [easy|].
        destruct (Z.eq_dec (d_attr d) t) as [Et|Et].
        - eexists. exists l, d, []. split; [reflexivity|]. split; [exact Et|]. split; [easy|reflexivity].
        - rewrite map_app, in_app_iff in I. destruct I as [I|[I|[]]]; [|contradiction]. destruct (IH I) as (er & l1 & d' & l2 & -> & E1 & E2 & E3).
          exists er, l1, d', (l2 ++ [d]). split; [now rewrite <- app_assoc|]. split; [exact E1|]. split; [|exact E3].
          rewrite map_app, in_app_iff. intros [J|[J|[]]]; [exact (E2 J)|exact (Et J)]. }
      apply (cp_eps _ _ _ _ Cp) in Hp. apply (find_none _ _ E) in Hp. cbn in Hp. rewrite Z.eqb_refl in Hp. discriminate.
  Qed.
  Lemma work_energy ignore v p f phi : conductor_problem mats ignore v p -> relative_permittivity mats ignore f -> openBoundaries mats = [] ->
    potential D phi -> field_energy ms f phi (/ 2 * work abc D p phi phi).
  Proof.
    intros Cp Hf Eo L. exists (fun e => (gx ms e phi, gy ms e phi)). split; [intros e I; exact (slope_grad rule1 rule0 rule2 ms Tr e phi I L)|].
    unfold work. rewrite (no_open m ignore v p D Eo Cp), Rsum_nil, Rplus_0_r. cbn [di_grad first_order]. rewrite Rsum_flat_map, <- Rsum_scal. apply Rsum_ext. intros e I.
    unfold grad_points. rewrite Rsum_map. cbn [g_attr g_weight fst snd].
    transitivity (/ 2 * Rsum rule0 (fun pw => snd pw * (jacobian ms e * f (e_attr e) * (gx ms e phi * gx ms e phi + gy ms e phi * gy ms e phi)))).
    { f_equal. apply Rsum_ext. intros pw J. rewrite (eps_of_relative ignore v p f Cp Hf). unfold grad2. cbn [g_x g_y]. fold (gx ms e phi) (gy ms e phi). cbn [nmul RNum]. ring. }
    rewrite (Rsum_scal_r rule0 _ snd), (proj2 (ru_gradient _ _ _ Ru)), (proj1 (jacobian_area ms Tr e I)). field.
  Qed.
  Lemma energy_unique f phi W W' : potential D phi -> field_energy ms f phi W -> field_energy ms f phi W' -> W = W'.
  Proof.
    intros L (g & S & ->) (g' & S' & ->). apply Rsum_ext. intros e I.
    rewrite (slope_unique rule1 rule0 rule2 ms Tr e phi (g e) I L (S e I)), (slope_unique rule1 rule0 rule2 ms Tr e phi (g' e) I L (S' e I)). reflexivity.
  Qed.
End Model.
