(** Drivers built for two drawings of the same cross section (C70). *)
From Coq Require Import Reals Lra Relations Permutation.
From Verif Require Import Prelude StdMap Materials Graph ModelM Parser Matrix Multipole Solver Fem Domain Results Driver RSum ListLemmas SpecGraph SpecInput SpecModel SpecSolver SpecDriver SpecMatrix SpecCharge SpecField SpecFem
  SpecTriangles SpecDrawing Triangles OpennessProofs FemMatrix FemMore TriProofs TriModel Drawing Iso.
Open Scope R_scope.
Open Scope list_scope.

Lemma NoDup_map_in {A B} (f : A -> B) l : (forall x y, In x l -> In y l -> f x = f y -> x = y) -> NoDup l -> NoDup (map f l).
Proof.
  intros H N. induction N as [|a l Ni N IH]; [constructor|]. cbn [map]. constructor.
  - intros I. apply in_map_iff in I as (b & E & I). apply H in E; [subst; contradiction|now right|now left].
  - apply IH. intros. apply H; auto; now right.
Qed.
Section Openness.
  Variable m m' : model R.
  Variable f : R * R -> R * R.
  Variable sigma : Z -> Z.
  Notation ms := (mo_mesh m).
  Notation ms' := (mo_mesh m').
  Hypothesis Tr : triangulation ms.
  Hypothesis Tr' : triangulation ms'.
  Hypothesis Rd : redrawn f sigma ms ms'.
  Hypothesis Em : mo_mats m' = mo_mats m.
  Lemma bdr_segment (mo : mesh R) : triangulation mo -> forall e, In e (m_bdr mo) -> is_segment e /\ vertex mo (fst (seg_of e)) /\ vertex mo (snd (seg_of e)).
  Proof.
    intros T e I. destruct (tr_bdr mo T e I) as (_ & v & w & e0 & E & Ie & (a & b & c & Ee & S)).
    destruct (elem_corners mo T e0 Ie) as (a1 & b1 & c1 & C). pose proof (co_verts _ _ _ _ _ C) as Ev. rewrite Ee in Ev. injection Ev as -> -> ->.
    destruct (co_distinct _ _ _ _ _ C) as (N1 & N2 & N3). unfold is_segment, seg_of, vertex. rewrite E. cbn [nth fst snd].
    destruct S as [[= -> ->] | [[= -> ->] | [= -> ->]]]; (split; [do 2 eexists; split; [reflexivity|lia]|]);
      (split; exists e0; (split; [exact Ie|]); rewrite Ee; cbn; auto).
  Qed.
  Definition sigma2 (x : Z * Z) : Z * Z := (sigma (fst x), sigma (snd x)).
  Lemma segments_map a (l1 l2 : list (element R)) : Forall is_segment l1 ->
    Forall2 (fun b b' : element R => e_attr b' = e_attr b /\ e_verts b' = map sigma (e_verts b)) l1 l2 ->
    map sigma2 (map seg_of (filter (fun e => (e_attr e =? a)%Z) l1)) = map seg_of (filter (fun e => (e_attr e =? a)%Z) l2).
  Proof.
    intros G F. induction F as [|b b' l1 l2 (E1 & E2) F IH]; [reflexivity|]. inversion G as [|? ? (x & y & Ex & _) G']; subst. cbn [filter]. rewrite E1.
    destruct (e_attr b =? a)%Z; [|apply IH; assumption]. cbn [map]. f_equal; [|apply IH; assumption].
    unfold seg_of, sigma2. rewrite E2, Ex. reflexivity.
  Qed.
  Lemma segments_moved a : Permutation (map sigma2 (segments_with ms a)) (segments_with ms' a).
  Proof.
    destruct (rd_bdr _ _ _ _ Rd) as (l & Pl & F). unfold segments_with. rewrite (segments_map a (m_bdr ms) l); [|apply Forall_forall; intros e I; now apply (bdr_segment ms Tr)|exact F].
    apply Permutation_map. clear -Pl. induction Pl; cbn; auto.
    - destruct (e_attr x =? a)%Z; auto.
    - destruct (e_attr y =? a)%Z, (e_attr x =? a)%Z; auto. constructor.
    - eapply Permutation_trans; eauto.
  Qed.
  Lemma segment_vertex a x : In x (segments_with ms a) -> vertex ms (fst x) /\ vertex ms (snd x).
  Proof.
    intros I. unfold segments_with in I. apply in_map_iff in I as (e & <- & I). apply filter_In in I as (I & _).
    exact (proj2 (bdr_segment ms Tr e I)).
  Qed.
  Lemma openness_moved dbg op : (forall o, In o (openBoundaries (mo_mats m)) -> NoDup (map fst (segments_with ms (o_attr o)))) ->
    determineOpenness dbg m = Ok op -> determineOpenness dbg m' = Ok op.
  Proof.
    intros ND E. destruct (openBoundaries (mo_mats m)) as [|o0 l0] eqn:Eob.
    { unfold determineOpenness in *. rewrite Em, Eob in *. exact E. }
    set (obs := openBoundaries (mo_mats m)). fold obs in Eob. rewrite <- Eob in ND.
    assert (NE : obs <> []) by (rewrite Eob; discriminate).
    assert (Dbg : dbg = true -> List.length obs = 1%nat).
    { intros ->. unfold determineOpenness in E. fold obs in E. rewrite Eob in E |- *. destruct l0; [reflexivity|discriminate]. }
    assert (ND' : forall o, In o obs -> NoDup (map fst (segments_with ms' (o_attr o)))).
    { intros o I. apply (Permutation_NoDup (Permutation_map fst (segments_moved (o_attr o)))). rewrite map_map. cbn [sigma2 fst].
      rewrite <- (map_map fst sigma). specialize (ND o I). apply NoDup_map_in; [|exact ND].
      intros x y Ix Iy. apply in_map_iff in Ix as (x0 & <- & Ix). apply in_map_iff in Iy as (y0 & <- & Iy). apply (rd_names _ _ _ _ Rd); now apply (segment_vertex (o_attr o)). }
    destruct (openness_spec dbg m _ eq_refl NE Dbg (fun e I => proj1 (bdr_segment ms Tr e I)) ND) as (r1 & E1 & O1 & H1).
    destruct (openness_spec dbg m' obs ltac:(now rewrite Em) NE Dbg (fun e I => proj1 (bdr_segment ms' Tr' e I)) ND') as (r2 & E2 & O2 & H2).
    rewrite E in E1. injection E1 as <-. rewrite E2. f_equal.
    assert (G : forall a, segments_close (segments_with ms a) <-> segments_close (segments_with ms' a)).
    { intros a. pose proof (segments_moved a) as P. split; intros C x I.
      - apply (Permutation_in _ (Permutation_sym P)) in I. apply in_map_iff in I as (y & <- & I). destruct (C y I) as (t & It & Et).
        exists (sigma2 t). split; [apply (Permutation_in _ P); now apply in_map|]. cbn [sigma2 fst snd]. now rewrite Et.
      - destruct (C (sigma2 x)) as (t & It & Et); [apply (Permutation_in _ P); now apply in_map|].
        apply (Permutation_in _ (Permutation_sym P)) in It. apply in_map_iff in It as (y & <- & It). exists y. split; [exact It|].
        cbn [sigma2 fst snd] in Et. apply (rd_names _ _ _ _ Rd); [apply (segment_vertex a y It)|apply (segment_vertex a x I)|exact Et]. }
    assert (Q : r2 = Open <-> op = Open).
    { rewrite H1, H2. fold obs. split; intros (o & Io & C); exists o; (split; [exact Io|]); now apply G. }
    destruct Q as [Q1 Q2]. destruct O1 as [-> | ->], O2 as [-> | ->]; auto; symmetry; auto.
  Qed.
End Openness.
