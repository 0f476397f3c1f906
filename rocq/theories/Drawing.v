(** The same cross section drawn elsewhere: correspondence of potentials and fluxes (C70). *)
From Coq Require Import Reals Lra Relations Permutation.
From Verif Require Import Prelude StdMap Materials Graph ModelM Parser Matrix Solver Fem Domain Results Driver RSum ListLemmas SpecInput SpecModel SpecSolver SpecDriver SpecCharge SpecField SpecFem
  SpecTriangles SpecDrawing SpecOpen Triangles SolverProofs ChargeProofs FemCalls FemFacts FemModel FemLaws FemMore TriProofs TriModel OpenProofs TriLocal DrawLocal Iso FemDriver.
Open Scope R_scope.
Open Scope list_scope.

Lemma Forall2_in_l {A B} (P : A -> B -> Prop) l l' x : Forall2 P l l' -> In x l -> exists y, In y l' /\ P x y.
Proof. intros F. induction F as [|a b l l' H F IH]; intros I; [easy|]. destruct I as [-> | I]; [exists b; cbn; auto|]. destruct (IH I) as (y & J & Q). exists y; cbn; auto. Qed.
Lemma Forall2_in_r {A B} (P : A -> B -> Prop) l l' y : Forall2 P l l' -> In y l' -> exists x, In x l /\ P x y.
Proof. intros F. induction F as [|a b l l' H F IH]; intros I; [easy|]. destruct I as [-> | I]; [exists a; cbn; auto|]. destruct (IH I) as (x & J & Q). exists x; cbn; auto. Qed.
Lemma turned3 x y z l : turned [x; y; z] l -> l = [x; y; z] \/ l = [y; z; x] \/ l = [z; x; y].
Proof.
  intros (l1 & l2 & E & ->). destruct l1 as [|u l1]; [cbn in E; subst; now rewrite app_nil_r; left|].
  injection E as <- E. destruct l1 as [|u l1]; [cbn in E; subst; auto|]. injection E as <- E.
  destruct l1 as [|u l1]; [cbn in E; subst; auto|]. injection E as <- E. destruct l1; [cbn in E; subst; auto|discriminate].
Qed.
Lemma turned_in l l' v : turned l l' -> In v l <-> In v l'.
Proof. intros (l1 & l2 & -> & ->). rewrite !in_app_iff. tauto. Qed.

Lemma Rsum_alike {A B} (P : A -> B -> Prop) l l' (f : A -> R) (g : B -> R) : Forall2 P l l' ->
  (forall a b, In a l -> In b l' -> P a b -> f a = g b) -> Rsum l f = Rsum l' g.
Proof.
  intros Fo. induction Fo as [|a b l l' H Fo IH]; intros E; [reflexivity|]. rewrite !Rsum_cons, (E a b (or_introl eq_refl) (or_introl eq_refl) H), IH; auto.
  intros. apply E; auto; now right.
Qed.
Section Two.
  Variable rule1 : list (R * R).
  Variable rule0 rule2 : list (R * R * R).
  Hypothesis Ru : rules_ok rule1 rule0 rule2.
  Hypothesis Ex : exact_for_quadratics rule2.
  Variable abc abc' : R * R -> R.
  Variable m m' : model R.
  Hypothesis Cs : cross_section abc m.
  Hypothesis Cs' : cross_section abc' m'.
  Notation ms := (mo_mesh m).
  Notation ms' := (mo_mesh m').
  Notation D := (first_order rule1 rule0 rule2 distance ms).
  Notation D' := (first_order rule1 rule0 rule2 distance ms').
  Notation n := (nverts ms).
  Notation n' := (nverts ms').
  Notation P v := (m_coord ms (Z.of_nat v)).
  Notation P' v := (m_coord ms' (Z.of_nat v)).
  Let Tr : triangulation ms := proj1 (cs_mesh _ _ Cs).
  Let Tr' : triangulation ms' := proj1 (cs_mesh _ _ Cs').
  Variable s : R.
  Variable f : R * R -> R * R.
  Variable sigma : Z -> Z.
  Hypothesis Sim : similarity s f.
  Hypothesis Rd : redrawn f sigma ms ms'.

  (** ** Vertices *)
  Lemma vert_iff (mo : mesh R) : triangulation mo -> forall v, vertex mo v <-> (0 <= v < Z.of_nat (nverts mo))%Z.
  Proof.
    intros T v. split.
    - intros (e & I & J). destruct (elem_corners mo T e I) as (a & b & c & C). destruct (corners_lt mo e a b c I C) as (La & Lb & Lc).
      rewrite (co_verts _ _ _ _ _ C) in J. destruct J as [<- | [<- | [<- | []]]]; lia.
    - intros L. destruct (lt_vert mo T (Z.to_nat v) ltac:(lia)) as (e & I & J). exists e. split; [exact I|]. destruct (elem_corners mo T e I) as (a & b & c & C).
      rewrite (co_verts _ _ _ _ _ C). destruct (in_verts_corners mo e a b c _ C J) as [E | [E | E]]; cbn; lia.
  Qed.
  Definition sg (k : nat) : nat := Z.to_nat (sigma (Z.of_nat k)).
  Definition tau (k' : nat) : nat := match find (fun k => (sg k =? k')%nat) (seq 0 n) with Some k => k | None => 0%nat end.
  Lemma sigma_vertex v : vertex ms v -> vertex ms' (sigma v).
  Proof.
    intros (e & I & J). destruct (rd_elems _ _ _ _ Rd) as (l & Pl & F). destruct (Forall2_in_l _ _ _ e F I) as (e' & I' & _ & T).
    exists e'. split; [exact (Permutation_in _ Pl I')|]. apply (turned_in _ _ _ T). now apply in_map.
  Qed.
  Lemma vertex_sigma v' : vertex ms' v' -> exists v, vertex ms v /\ sigma v = v'.
  Proof.
    intros (e' & I' & J'). destruct (rd_elems _ _ _ _ Rd) as (l & Pl & F).
    destruct (Forall2_in_r _ _ _ e' F (Permutation_in _ (Permutation_sym Pl) I')) as (e & I & _ & T).
    apply (turned_in _ _ _ T) in J'. apply in_map_iff in J' as (v & <- & J). exists v. split; [|reflexivity]. exists e. auto.
  Qed.
  Lemma sg_lt k : (k < n)%nat -> (sg k < n')%nat /\ Z.of_nat (sg k) = sigma (Z.of_nat k) /\ P' (sg k) = f (P k).
  Proof.
    intros L. assert (V : vertex ms (Z.of_nat k)) by (apply (vert_iff ms Tr); lia).
    pose proof (proj1 (vert_iff ms' Tr' _) (sigma_vertex _ V)) as B. unfold sg.
    split; [lia|]. rewrite Z2Nat.id by lia. split; [reflexivity|]. exact (rd_coord _ _ _ _ Rd _ V).
  Qed.
  Lemma sg_inj j k : (j < n)%nat -> (k < n)%nat -> sg j = sg k -> j = k.
  Proof.
    intros Lj Lk E. destruct (sg_lt j Lj) as (_ & E1 & _). destruct (sg_lt k Lk) as (_ & E2 & _).
    apply Nat2Z.inj, (rd_names _ _ _ _ Rd); [apply (vert_iff ms Tr); lia|apply (vert_iff ms Tr); lia|]. rewrite <- E1, <- E2. now rewrite E.
  Qed.
  Lemma sg_onto k' : (k' < n')%nat -> exists k, (k < n)%nat /\ sg k = k'.
  Proof.
    intros L. destruct (vertex_sigma (Z.of_nat k')) as (v & V & E); [apply (vert_iff ms' Tr'); lia|].
    apply (vert_iff ms Tr) in V. exists (Z.to_nat v). split; [lia|]. unfold sg. rewrite Z2Nat.id by lia. rewrite E. lia.
  Qed.
  Lemma tau_sg k : (k < n)%nat -> tau (sg k) = k.
  Proof.
    intros L. unfold tau. destruct (find _ _) as [j|] eqn:E.
    - apply find_some in E as (I & Q). apply in_seq in I. apply Nat.eqb_eq in Q. apply sg_inj; lia.
    - pose proof (find_none _ _ E k) as Q. cbn in Q. rewrite Nat.eqb_refl in Q. discriminate Q. apply in_seq. lia.
  Qed.
  Lemma sg_tau k' : (k' < n')%nat -> (tau k' < n)%nat /\ sg (tau k') = k'.
  Proof. intros L. destruct (sg_onto k' L) as (k & Lk & <-). now rewrite tau_sg. Qed.
  Definition sg2 (x : nat * nat) : nat * nat := (sg (fst x), sg (snd x)).
  Definition tau2 (x : nat * nat) : nat * nat := (tau (fst x), tau (snd x)).

  (** ** Potentials *)
  Definition tp (y : list R) : list R := map (fun k => nth (sg k) y 0) (seq 0 n).
  Definition up (z : list R) : list R := map (fun k => nth (tau k) z 0) (seq 0 n').
  Lemma nth_seq_map (g : nat -> R) k l : (k < l)%nat -> nth k (map g (seq 0 l)) 0 = g k.
  Proof. intros L. rewrite (nth_indep _ 0 (g 0%nat)) by (now rewrite map_length, seq_length). rewrite map_nth, seq_nth; auto. Qed.
  Lemma tp_nth y k : (k < n)%nat -> nth k (tp y) 0 = nth (sg k) y 0.
  Proof. intros L. unfold tp. now rewrite nth_seq_map. Qed.
  Lemma up_nth z k : (k < n)%nat -> nth (sg k) (up z) 0 = nth k z 0.
  Proof. intros L. unfold up. rewrite nth_seq_map by (apply sg_lt; exact L). now rewrite tau_sg. Qed.
  Lemma tp_pot y : potential D' y -> potential D (tp y).
  Proof. intros _. unfold potential, tp. now rewrite map_length, seq_length. Qed.
  Lemma up_pot z : potential D z -> potential D' (up z).
  Proof. intros _. unfold potential, up. now rewrite map_length, seq_length. Qed.

  (** ** Elements *)
  Definition alike (e e' : element R) : Prop := e_attr e' = e_attr e /\ turned (map sigma (e_verts e)) (e_verts e').
  Lemma alike_corners e e' a b c : In e (m_elems ms) -> In e' (m_elems ms') -> alike e e' -> corners ms e a b c ->
    corners ms' e' (sg a) (sg b) (sg c) \/ corners ms' e' (sg b) (sg c) (sg a) \/ corners ms' e' (sg c) (sg a) (sg b).
  Proof.
    intros I I' (_ & T) C. destruct (corners_lt ms e a b c I C) as (La & Lb & Lc). rewrite (co_verts _ _ _ _ _ C) in T. cbn [map] in T.
    rewrite <- (proj1 (proj2 (sg_lt a La))), <- (proj1 (proj2 (sg_lt b Lb))), <- (proj1 (proj2 (sg_lt c Lc))) in T.
    destruct (elem_corners ms' Tr' e' I') as (p & q & r & C'). pose proof (co_verts _ _ _ _ _ C') as Ev.
    destruct (turned3 _ _ _ _ T) as [E | [E | E]]; rewrite E in Ev; injection Ev as E1 E2 E3; apply Nat2Z.inj in E1, E2, E3; subst p q r; auto.
  Qed.
  Lemma sum_elems (g g' : element R -> R) : (forall e e', In e (m_elems ms) -> In e' (m_elems ms') -> alike e e' -> g e = g' e') ->
    Rsum (m_elems ms) g = Rsum (m_elems ms') g'.
  Proof.
    intros H. destruct (rd_elems _ _ _ _ Rd) as (l & Pl & F). rewrite <- (Rsum_perm l (m_elems ms') g' Pl).
    apply (Rsum_alike _ _ _ _ _ F). intros e e' I I'. apply H; [exact I|exact (Permutation_in _ Pl I')].
  Qed.
  Definition alike_bdr (b b' : element R) : Prop := e_attr b' = e_attr b /\ e_verts b' = map sigma (e_verts b).
  Lemma sum_bdr (g g' : element R -> R) : (forall b b', In b (m_bdr ms) -> In b' (m_bdr ms') -> alike_bdr b b' -> g b = g' b') ->
    Rsum (m_bdr ms) g = Rsum (m_bdr ms') g'.
  Proof.
    intros H. destruct (rd_bdr _ _ _ _ Rd) as (l & Pl & F). rewrite <- (Rsum_perm l (m_bdr ms') g' Pl).
    apply (Rsum_alike _ _ _ _ _ F). intros e e' I I'. apply H; [exact I|exact (Permutation_in _ Pl I')].
  Qed.
  Lemma bdr_alike_ends b b' : In b (m_bdr ms) -> In b' (m_bdr ms') -> alike_bdr b b' -> ends b' = sg2 (ends b) /\ (fst (ends b) < n)%nat /\ (snd (ends b) < n)%nat.
  Proof.
    intros I I' (_ & E). destruct (bdr_ends ms Tr b I) as (v & w & e & _ & Ev & En & _ & _ & Lv & Lw & _).
    rewrite (bdr_verts abc m Cs b I), Ev in E. unfold ends at 1. unfold verts. rewrite E. cbn [map]. rewrite En. cbn [fst snd].
    split; [reflexivity|]. auto.
  Qed.

  (** ** Fluxes *)
  Definition td (d : list R) : list R := map (fun x => fl ms' d (sg2 x)) (edges ms).
  Definition dt (t : list R) : list R := map (fun x => fl ms t (tau2 x)) (edges ms').
  Lemma td_length d : List.length (td d) = di_nRT D.
  Proof. unfold td. now rewrite map_length. Qed.
  Lemma dt_length t : List.length (dt t) = di_nRT D'.
  Proof. unfold dt. now rewrite map_length. Qed.
  Lemma fl_swap (mo : mesh R) d (x : nat * nat) : fst x <> snd x -> fl mo d (snd x, fst x) = - fl mo d x.
  Proof.
    intros N. unfold fl, edge_dof, edge, sign. cbn [fst snd].
    destruct (Nat.ltb_spec (fst x) (snd x)), (Nat.ltb_spec (snd x) (fst x)); try lia; cbn [n1 nopp RNum]; rewrite <- ?surjective_pairing; ring.
  Qed.
  Lemma nth_map_edges (g : nat * nat -> R) (l : list (nat * nat)) k : (k < List.length l)%nat -> nth k (map g l) 0 = g (nth k l (0, 0)%nat).
  Proof. intros L. rewrite (nth_indep _ 0 (g (0, 0)%nat)) by (now rewrite map_length). apply map_nth. Qed.
  Lemma side_ok (mo : mesh R) e x : triangulation mo -> In e (m_elems mo) -> In x (sides e) -> fst x <> snd x /\ (fst x < nverts mo)%nat /\ (snd x < nverts mo)%nat.
  Proof.
    intros T I J. destruct (elem_corners mo T e I) as (a & b & c & C). rewrite (sides_eq mo e a b c C) in J.
    destruct (co_distinct _ _ _ _ _ C) as (N1 & N2 & N3). destruct (corners_lt mo e a b c I C) as (La & Lb & Lc).
    destruct J as [<- | [<- | [<- | []]]]; cbn [fst snd]; auto.
  Qed.
  Lemma td_fl d e x : In e (m_elems ms) -> In x (sides e) -> fl ms (td d) x = fl ms' d (sg2 x).
  Proof.
    intros I J. destruct (side_ok ms e x Tr I J) as (N & L1 & L2). destruct (side_dof ms e x I J) as (L & E).
    unfold fl at 1. unfold td. rewrite (nth_map_edges _ (edges ms) _ L), E. destruct (edge_order x N) as (_ & [(-> & ->) | (-> & ->)]); [ring|].
    change (sg2 (snd x, fst x)) with (snd (sg2 x), fst (sg2 x)). rewrite fl_swap; [ring|]. unfold sg2. cbn [fst snd]. intros Q. apply N. now apply sg_inj.
  Qed.
  Lemma dt_fl t e' x' : In e' (m_elems ms') -> In x' (sides e') -> fl ms' (dt t) x' = fl ms t (tau2 x').
  Proof.
    intros I J. destruct (side_ok ms' e' x' Tr' I J) as (N & L1 & L2). destruct (side_dof ms' e' x' I J) as (L & E).
    unfold fl at 1. unfold dt. rewrite (nth_map_edges _ (edges ms') _ L), E. destruct (edge_order x' N) as (_ & [(-> & ->) | (-> & ->)]); [ring|].
    change (tau2 (snd x', fst x')) with (snd (tau2 x'), fst (tau2 x')). rewrite fl_swap; [ring|]. unfold tau2. cbn [fst snd]. intros Q. apply N.
    destruct (sg_tau _ L1) as (_ & <-). destruct (sg_tau _ L2) as (_ & <-). now rewrite Q.
  Qed.
  Lemma tau2_sg2 a b : (a < n)%nat -> (b < n)%nat -> tau2 (sg a, sg b) = (a, b).
  Proof. intros La Lb. unfold tau2. cbn [fst snd]. now rewrite !tau_sg. Qed.

  (** ** Forms *)
  Lemma at3_tp y a b c : (a < n)%nat -> (b < n)%nat -> (c < n)%nat -> at3 (tp y) a b c = at3 y (sg a) (sg b) (sg c).
  Proof. intros. unfold at3. now rewrite !tp_nth. Qed.
  Lemma at3_up z a b c : (a < n)%nat -> (b < n)%nat -> (c < n)%nat -> at3 (up z) (sg a) (sg b) (sg c) = at3 z a b c.
  Proof. intros. unfold at3. now rewrite !up_nth. Qed.
  Lemma at3_turn y a b c : at3 y b c a = turn3 (at3 y a b c). Proof. reflexivity. Qed.
  Lemma fl3_turn (mo : mesh R) d a b c : fl3 mo d b c a = turn3 (fl3 mo d a b c). Proof. reflexivity. Qed.
  Lemma fl3_td d e a b c : In e (m_elems ms) -> corners ms e a b c -> fl3 ms (td d) a b c = fl3 ms' d (sg a) (sg b) (sg c).
  Proof. intros I C. destruct (side_in ms e a b c C) as (S0 & S1 & S2). unfold fl3. now rewrite !(td_fl d e) by assumption. Qed.
  Lemma fl3_dt t e e' a b c : In e (m_elems ms) -> In e' (m_elems ms') -> alike e e' -> corners ms e a b c -> fl3 ms' (dt t) (sg a) (sg b) (sg c) = fl3 ms t a b c.
  Proof.
    intros I I' A C. destruct (corners_lt ms e a b c I C) as (La & Lb & Lc).
    assert (S : In (sg a, sg b) (sides e') /\ In (sg b, sg c) (sides e') /\ In (sg c, sg a) (sides e')).
    { destruct (alike_corners e e' a b c I I' A C) as [C' | [C' | C']]; destruct (side_in ms' e' _ _ _ C') as (S0 & S1 & S2); auto. }
    destruct S as (S0 & S1 & S2). unfold fl3. rewrite !(dt_fl t e') by assumption. now rewrite !tau2_sg2 by assumption.
  Qed.
  Lemma corner_image e a b c : In e (m_elems ms) -> corners ms e a b c -> P' (sg a) = f (P a) /\ P' (sg b) = f (P b) /\ P' (sg c) = f (P c).
  Proof. intros I C. destruct (corners_lt ms e a b c I C) as (La & Lb & Lc). split; [|split]; apply sg_lt; assumption. Qed.
  Lemma work_alike e e' y z : In e (m_elems ms) -> In e' (m_elems ms') -> alike e e' -> potential D' y -> potential D z ->
    work_e ms e (tp y) z = work_e ms' e' y (up z).
  Proof.
    intros I I' A Ly Lz. destruct (elem_corners ms Tr e I) as (a & b & c & C). destruct (corners_lt ms e a b c I C) as (La & Lb & Lc).
    destruct (corner_image e a b c I C) as (Pa & Pb & Pc).
    rewrite (work_corners rule1 rule0 rule2 ms e a b c _ _ I C (tp_pot y Ly) Lz).
    destruct Sim as (Ps & c0 & n0 & tx & ty & Un & Ef).
    transitivity (work3 (P' (sg a)) (P' (sg b)) (P' (sg c)) (at3 y (sg a) (sg b) (sg c)) (at3 (up z) (sg a) (sg b) (sg c))).
    - rewrite at3_tp, at3_up, Pa, Pb, Pc by assumption. symmetry. exact (work3_moved s c0 n0 tx ty Ps Un f Ef _ _ _ _ _ (co_det _ _ _ _ _ C)).
    - pose proof (up_pot z Lz) as Lu.
      destruct (alike_corners e e' a b c I I' A C) as [C' | [C' | C']]; rewrite (work_corners rule1 rule0 rule2 ms' e' _ _ _ _ _ I' C' Ly Lu).
      + reflexivity.
      + rewrite !(at3_turn _ (sg a)). symmetry. apply work3_turn.
      + rewrite <- work3_turn, <- work3_turn. rewrite <- !at3_turn. reflexivity.
  Qed.
  Lemma mass_alike e e' d t : In e (m_elems ms) -> In e' (m_elems ms') -> alike e e' -> List.length d = di_nRT D' -> List.length t = di_nRT D ->
    mass_e rule2 ms e (td d) t = mass_e rule2 ms' e' d (dt t).
  Proof.
    intros I I' A Ld Lt. destruct (elem_corners ms Tr e I) as (a & b & c & C).
    destruct (corner_image e a b c I C) as (Pa & Pb & Pc).
    rewrite (mass_corners rule1 rule0 rule2 Ex ms Tr e a b c _ _ I C (td_length d) Lt).
    destruct Sim as (Ps & c0 & n0 & tx & ty & Un & Ef).
    transitivity (mass3 (P' (sg a)) (P' (sg b)) (P' (sg c)) (fl3 ms' d (sg a) (sg b) (sg c)) (fl3 ms' (dt t) (sg a) (sg b) (sg c))).
    - rewrite (fl3_td d e a b c I C), (fl3_dt t e e' a b c I I' A C), Pa, Pb, Pc. symmetry. exact (mass3_moved s c0 n0 tx ty Ps Un f Ef _ _ _ _ _ (co_det _ _ _ _ _ C)).
    - pose proof (dt_length t) as Lu.
      destruct (alike_corners e e' a b c I I' A C) as [C' | [C' | C']]; rewrite (mass_corners rule1 rule0 rule2 Ex ms' Tr' e' _ _ _ _ _ I' C' Ld Lu).
      + reflexivity.
      + rewrite !(fl3_turn _ _ (sg a)). symmetry. apply mass3_turn.
      + rewrite <- mass3_turn, <- mass3_turn. rewrite <- !fl3_turn. reflexivity.
  Qed.
  Lemma mix_alike e e' y t : In e (m_elems ms) -> In e' (m_elems ms') -> alike e e' -> potential D' y -> List.length t = di_nRT D ->
    mix_e rule2 ms e (tp y) t = mix_e rule2 ms' e' y (dt t).
  Proof.
    intros I I' A Ly Lt. destruct (elem_corners ms Tr e I) as (a & b & c & C). destruct (corners_lt ms e a b c I C) as (La & Lb & Lc).
    destruct (corner_image e a b c I C) as (Pa & Pb & Pc).
    rewrite (mix_corners rule1 rule0 rule2 Ex ms Tr e a b c _ _ I C (tp_pot y Ly) Lt).
    destruct Sim as (Ps & c0 & n0 & tx & ty & Un & Ef).
    transitivity (mix3 (P' (sg a)) (P' (sg b)) (P' (sg c)) (at3 y (sg a) (sg b) (sg c)) (fl3 ms' (dt t) (sg a) (sg b) (sg c))).
    - rewrite at3_tp, (fl3_dt t e e' a b c I I' A C), Pa, Pb, Pc by assumption. symmetry. exact (mix3_moved s c0 n0 tx ty Ps Un f Ef _ _ _ _ _ (co_det _ _ _ _ _ C)).
    - pose proof (dt_length t) as Lu.
      destruct (alike_corners e e' a b c I I' A C) as [C' | [C' | C']]; rewrite (mix_corners rule1 rule0 rule2 Ex ms' Tr' e' _ _ _ _ _ I' C' Ly Lu).
      + reflexivity.
      + rewrite (at3_turn _ (sg a)), (fl3_turn _ _ (sg a)). symmetry. apply mix3_turn.
      + rewrite <- mix3_turn, <- mix3_turn. rewrite <- !at3_turn, <- !fl3_turn. reflexivity.
  Qed.
  Variable opens : Z -> Prop.
  Hypothesis Habc : forall t p, opens t -> on_line ms t p -> s * abc' (f p) = abc p.
  Lemma abc_alike b b' y z : In b (m_bdr ms) -> In b' (m_bdr ms') -> alike_bdr b b' -> opens (e_attr b) ->
    abc_b rule1 ms abc b (tp y) z = abc_b rule1 ms' abc' b' y (up z).
  Proof.
    intros I I' A Op. destruct (bdr_alike_ends b b' I I' A) as (En & L1 & L2).
    destruct Sim as (Ps & c0 & n0 & tx & ty & Un & Ef).
    unfold abc_b, bdr_len. rewrite En. unfold sg2. cbn [fst snd]. rewrite !pos_P, !up_nth, !tp_nth by assumption.
    rewrite (proj2 (proj2 (sg_lt _ L1))), (proj2 (proj2 (sg_lt _ L2))), (distance_moved s c0 n0 tx ty Ps Un f Ef).
    apply Rsum_ext. intros q Iq. rewrite (along_moved s c0 n0 tx ty f Ef).
    rewrite <- (Habc (e_attr b) _ Op).
    - ring.
    - destruct (bdr_ends ms Tr b I) as (v & w & e & _ & Ev & E & _). pose proof (bdr_verts abc m Cs b I) as Ev'. rewrite Ev in Ev'. cbn [map] in Ev'.
      exists b, (Z.of_nat v), (Z.of_nat w), (fst q). split; [exact I|]. split; [reflexivity|]. split; [exact Ev'|].
      split; [exact (proj1 (proj1 (ru_segment _ _ _ Ru) q Iq))|]. rewrite E. reflexivity.
  Qed.
  Lemma work_moved p y z : (forall t, In t (si_open p) -> opens t) -> potential D' y -> potential D z -> work abc D p (tp y) z = work abc' D' p y (up z).
  Proof.
    intros Op Ly Lz. unfold work. rewrite (grad_sum rule1 rule0 rule2 Ru ms), (grad_sum rule1 rule0 rule2 Ru ms').
    rewrite (open_sum rule1 rule0 rule2 ms Tr abc p _ _ (tp_pot y Ly) Lz), (open_sum rule1 rule0 rule2 ms' Tr' abc' p _ _ Ly (up_pot z Lz)). f_equal.
    - apply sum_elems. intros e e' I I' A. rewrite (proj1 A), (work_alike e e' y z I I' A Ly Lz). reflexivity.
    - apply sum_bdr. intros b b' I I' A. rewrite (proj1 A). destruct (zmem (e_attr b) (si_open p)) eqn:E; [|reflexivity].
      apply abc_alike; [assumption|assumption|assumption|]. apply Op. now apply zmem_in.
  Qed.
  Lemma project_moved p y d : potential D' y -> projects D' p (map (fun row => - dot row y) (di_gradient D')) d ->
    projects D p (map (fun row => - dot row (tp y)) (di_gradient D)) (td d).
  Proof.
    intros Ly (Ld & H). split; [apply td_length|]. intros t Lt. specialize (H (dt t) (dt_length t)).
    rewrite (rt_sum rule1 rule0 rule2 ms'), (mix_sum rule1 rule0 rule2 ms' Tr' (eps_of (si_eps p)) y _ Ly) in H.
    rewrite (rt_sum rule1 rule0 rule2 ms), (mix_sum rule1 rule0 rule2 ms Tr (eps_of (si_eps p)) _ _ (tp_pot y Ly)).
    transitivity (Rsum (m_elems ms') (fun e => mass_e rule2 ms' e d (dt t))).
    - apply sum_elems. intros e e' I I' A. exact (mass_alike e e' d t I I' A Ld Lt).
    - rewrite H. symmetry. apply sum_elems. intros e e' I I' A. rewrite (proj1 A), (mix_alike e e' y t I I' A Ly Lt). reflexivity.
  Qed.
  Lemma flux_moved d t : List.length d = di_nRT D' ->
    Rsum (di_flux D) (fun q => if (q_attr q =? t)%Z then dot (q_w q) (td d) else 0) = Rsum (di_flux D') (fun q => if (q_attr q =? t)%Z then dot (q_w q) d else 0).
  Proof.
    intros Ld. rewrite (flux_sum rule1 rule0 rule2 Ru ms Tr _ t (td_length d)), (flux_sum rule1 rule0 rule2 Ru ms' Tr' d t Ld).
    apply sum_bdr. intros b b' I I' A. rewrite (proj1 A). destruct (e_attr b =? t)%Z; [|reflexivity].
    destruct (bdr_alike_ends b b' I I' A) as (-> & _). destruct (bdr_ends ms Tr b I) as (v & w & e & Ie & _ & E & Is & _).
    rewrite E. exact (td_fl d e (v, w) Ie Is).
  Qed.
  Lemma flux_points_moved (g g' : Z -> R * R -> R) d : List.length d = di_nRT D' -> (forall t p, g t p = g' t (f p)) ->
    Rsum (di_flux D) (fun q => g (q_attr q) (q_pos q) * dot (q_w q) (td d)) = Rsum (di_flux D') (fun q => g' (q_attr q) (q_pos q) * dot (q_w q) d).
  Proof.
    intros Ld Hg. rewrite (flux_points_sum rule1 rule0 rule2 ms Tr _ g (td_length d)), (flux_points_sum rule1 rule0 rule2 ms' Tr' d g' Ld).
    destruct Sim as (Ps & c0 & n0 & tx & ty & Un & Ef).
    apply sum_bdr. intros b b' I I' A. destruct (bdr_alike_ends b b' I I' A) as (En & L1 & L2). rewrite (proj1 A). rewrite En.
    assert (Q : fl ms (td d) (ends b) = fl ms' d (sg2 (ends b))).
    { destruct (bdr_ends ms Tr b I) as (v & w & e & Ie & _ & E & Is & _). rewrite E. exact (td_fl d e (v, w) Ie Is). }
    rewrite Q. f_equal. apply Rsum_ext. intros sw _. f_equal. unfold sg2. cbn [fst snd].
    rewrite (proj2 (proj2 (sg_lt _ L1))), (proj2 (proj2 (sg_lt _ L2))), (along_moved s c0 n0 tx ty f Ef). apply Hg.
  Qed.
  Lemma bdr_moved t k : (k < n)%nat -> (on_boundary (discretize abc D) t k <-> on_boundary (discretize abc' D') t (sg k)).
  Proof.
    intros L. rewrite (on_touches rule1 rule0 rule2 abc m Cs t k), (on_touches rule1 rule0 rule2 abc' m' Cs' t (sg k)).
    destruct (sg_lt k L) as (_ & -> & _). destruct (rd_bdr _ _ _ _ Rd) as (l & Pl & F). split.
    - intros (b & I & E & J). destruct (Forall2_in_l _ _ _ b F I) as (b' & I' & E' & V). exists b'. split; [exact (Permutation_in _ Pl I')|].
      split; [congruence|]. rewrite V. now apply in_map.
    - intros (b' & I' & E' & J). destruct (Forall2_in_r _ _ _ b' F (Permutation_in _ (Permutation_sym Pl) I')) as (b & I & E & V). exists b. split; [exact I|].
      split; [congruence|]. rewrite V in J. apply in_map_iff in J as (v & Q & Jv). rewrite (bdr_verts abc m Cs b I) in Jv |- *. apply in_map_iff in Jv as (j & <- & Jj).
      assert (Lj : (j < n)%nat).
      { destruct (bdr_ends ms Tr b I) as (x & y & e & _ & Ev & _ & _ & _ & Lx & Ly & _). rewrite Ev in Jj. destruct Jj as [<- | [<- | []]]; assumption. }
      assert (j = k). { apply sg_inj; try assumption. unfold sg. now rewrite Q. } subst j. now apply in_map.
  Qed.
  Lemma bdr_lt t k : on_boundary (discretize abc D) t k -> (k < n)%nat.
  Proof.
    intros B. apply (on_touches rule1 rule0 rule2 abc m Cs) in B. destruct (touches_nat rule1 rule0 rule2 abc m Cs _ _ B) as (k' & E & L & _). apply Nat2Z.inj in E as ->. exact L.
  Qed.
  Lemma bdr_lt' t k : on_boundary (discretize abc' D') t k -> (k < n')%nat.
  Proof.
    intros B. apply (on_touches rule1 rule0 rule2 abc' m' Cs') in B. destruct (touches_nat rule1 rule0 rule2 abc' m' Cs' _ _ B) as (k' & E & L & _). apply Nat2Z.inj in E as ->. exact L.
  Qed.

  (** ** Charges *)
  Hypothesis Em : mo_mats m' = mo_mats m.
  Hypothesis Hopen : forall o, In o (openBoundaries (mo_mats m)) -> opens (o_attr o).
  Lemma fields_moved dbg dbg' ignore v x y : model_fields abc D dbg m ignore v x -> model_fields abc' D' dbg' m' ignore v y ->
    so_phi x = tp (so_phi y) /\ so_d x = td (so_d y) /\ List.length (so_d y) = di_nRT D'.
  Proof.
    apply (iso_fields abc abc' D D' dbg dbg' m m' (cross_section_posed rule1 rule0 rule2 Ru abc m Cs) (cross_section_posed rule1 rule0 rule2 Ru abc' m' Cs')
      (cross_section_regular rule1 rule0 rule2 Ru abc m Cs) (cross_section_regular rule1 rule0 rule2 Ru abc' m' Cs') Em tp up td tp_pot up_pot).
    - intros i w p y0 z Cp Ly Lz. apply work_moved; [|exact Ly|exact Lz]. intros t0 I.
      apply (Permutation_in _ (cp_open _ _ _ _ Cp)) in I. apply in_map_iff in I as (o & <- & Io). now apply Hopen.
    - intros t0 k y0 z B Ly. pose proof (bdr_lt t0 k B) as L. exists (sg k). split; [now apply bdr_moved|]. split.
      + intros t' B'. now apply bdr_moved.
      + intros E. unfold tp. rewrite nth_error_map. rewrite (nth_error_nth' (seq 0 n) 0%nat) by (now rewrite seq_length). rewrite seq_nth by exact L. cbn [option_map plus].
        f_equal. now apply nth_error_nth.
    - intros t0 k' z B Lz. pose proof (bdr_lt' t0 k' B) as L. destruct (sg_tau k' L) as (Lt & Et). exists (tau k').
      split; [apply bdr_moved; [exact Lt|now rewrite Et]|].
      intros E. unfold up. rewrite nth_error_map. rewrite (nth_error_nth' (seq 0 n') 0%nat) by (now rewrite seq_length). rewrite seq_nth by exact L. cbn [option_map plus].
      f_equal. now apply nth_error_nth.
    - exact project_moved.
  Qed.
  Lemma charge_moved dbg dbg' ignore v x y t q : model_fields abc D dbg m ignore v x -> model_fields abc' D' dbg' m' ignore v y ->
    charge_on (discretize abc D) x t q -> charge_on (discretize abc' D') y t q.
  Proof.
    intros Hx Hy C. destruct (fields_moved dbg dbg' ignore v x y Hx Hy) as (_ & Ed & Ld).
    rewrite (charge_on_fun abc D x t q _ C (chargeF abc D x t)).
    assert (G : forall abc A d, flux_form (discretize abc A) (fun q => if (q_attr q =? t)%Z then - 1 else 0) d =
                              - Rsum (di_flux A) (fun q => if (q_attr q =? t)%Z then dot (q_w q) d else 0)).
    { intros abc0 A d. rewrite flux_form_Rsum, <- Rsum_opp. change (fe_flux (discretize abc0 A)) with (di_flux A). apply Rsum_ext. intros a _.
      unfold flux_at. destruct (q_attr a =? t)%Z; ring. }
    rewrite (G abc), Ed, (flux_moved _ t Ld), <- (G abc'). exact (chargeF abc' D' y t).
  Qed.

  (** ** Averages *)
  Hypothesis El : exact_for_linear rule1 rule2.
  Lemma mean_moved e e' y : In e (m_elems ms) -> In e' (m_elems ms') -> alike e e' -> mean (tp y) e = mean y e'.
  Proof.
    intros I I' A. destruct (elem_corners ms Tr e I) as (a & b & c & C). destruct (corners_lt ms e a b c I C) as (La & Lb & Lc).
    unfold mean. rewrite (co_verts _ _ _ _ _ C). unfold at_vertex.
    destruct (alike_corners e e' a b c I I' A C) as [C' | [C' | C']]; rewrite (co_verts _ _ _ _ _ C'); unfold Rsum; cbn [map fold_right List.length];
      rewrite !Nat2Z.id, !tp_nth by assumption; f_equal; ring.
  Qed.
  Lemma area_moved e e' : In e (m_elems ms) -> In e' (m_elems ms') -> alike e e' -> area ms' e' = s * s * area ms e.
  Proof.
    intros I I' A. destruct (elem_corners ms Tr e I) as (a & b & c & C). destruct (corner_image e a b c I C) as (Ea & Eb & Ec).
    destruct Sim as (Ps & c0 & n0 & tx & ty & Un & Ef). rewrite Ef in Ea, Eb, Ec.
    assert (G : forall x y z : R * R, let h := fun p : R * R => (s * (c0 * fst p - n0 * snd p) + tx, s * (n0 * fst p + c0 * snd p) + ty) in
      (fst (h y) - fst (h x)) * (snd (h z) - snd (h x)) - (fst (h z) - fst (h x)) * (snd (h y) - snd (h x)) =
      s * s * ((fst y - fst x) * (snd z - snd x) - (fst z - fst x) * (snd y - snd x))).
    { intros x y z h. unfold h. cbn [fst snd].
      transitivity (s * s * (c0 * c0 + n0 * n0) * ((fst y - fst x) * (snd z - snd x) - (fst z - fst x) * (snd y - snd x))); [ring|rewrite Un; ring]. }
    unfold area. rewrite (co_verts _ _ _ _ _ C).
    destruct (alike_corners e e' a b c I I' A C) as [C' | [C' | C']]; rewrite (co_verts _ _ _ _ _ C'), Ea, Eb, Ec; rewrite (G _ _ _); field.
  Qed.
  Lemma domain_average_moved z z' t : potential D' (s_phi z') -> s_phi z = tp (s_phi z') -> (exists e, In e (m_elems ms) /\ e_attr e = t) ->
    getAveragePotentialInDomain (discretize abc' D') z' t = getAveragePotentialInDomain (discretize abc D) z t.
  Proof.
    intros Ly Ez He. destruct Sim as (Ps & _).
    assert (He' : exists e', In e' (m_elems ms') /\ e_attr e' = t).
    { destruct He as (e & I & E). destruct (rd_elems _ _ _ _ Rd) as (l & Pl & F). destruct (Forall2_in_l _ _ _ e F I) as (e' & I' & E' & _).
      exists e'. split; [exact (Permutation_in _ Pl I')|congruence]. }
    assert (Lz : potential D (s_phi z)) by (rewrite Ez; now apply tp_pot).
    destruct (domain_average rule1 rule0 rule2 El ms Tr abc z t Lz He) as (P1 & ->).
    destruct (domain_average rule1 rule0 rule2 El ms' Tr' abc' z' t Ly He') as (P2 & ->).
    unfold tagged in *. rewrite !Rsum_filter in *.
    assert (S1 : s * s * Rsum (m_elems ms) (fun e => if (e_attr e =? t)%Z then area ms e else 0) = Rsum (m_elems ms') (fun e => if (e_attr e =? t)%Z then area ms' e else 0)).
    { rewrite <- Rsum_scal. apply sum_elems. intros e e' I I' A. rewrite (proj1 A), (area_moved e e' I I' A). destruct (_ =? _)%Z; ring. }
    assert (S2 : s * s * Rsum (m_elems ms) (fun e => if (e_attr e =? t)%Z then area ms e * mean (s_phi z) e else 0) =
                 Rsum (m_elems ms') (fun e => if (e_attr e =? t)%Z then area ms' e * mean (s_phi z') e else 0)).
    { rewrite <- Rsum_scal. apply sum_elems. intros e e' I I' A. rewrite (proj1 A), (area_moved e e' I I' A), Ez, (mean_moved e e' _ I I' A). destruct (_ =? _)%Z; ring. }
    rewrite <- S1, <- S2. field. lra.
  Qed.
  Lemma boundary_average_moved z z' t : potential D' (s_phi z') -> s_phi z = tp (s_phi z') -> (exists e, In e (m_bdr ms) /\ e_attr e = t) ->
    getAveragePotentialInBoundary (discretize abc' D') z' t = getAveragePotentialInBoundary (discretize abc D) z t.
  Proof.
    intros Ly Ez He. destruct Sim as (Ps & c0 & n0 & tx & ty & Un & Ef).
    assert (He' : exists e', In e' (m_bdr ms') /\ e_attr e' = t).
    { destruct He as (e & I & E). destruct (rd_bdr _ _ _ _ Rd) as (l & Pl & F). destruct (Forall2_in_l _ _ _ e F I) as (e' & I' & E' & _).
      exists e'. split; [exact (Permutation_in _ Pl I')|congruence]. }
    assert (Lz : potential D (s_phi z)) by (rewrite Ez; now apply tp_pot).
    destruct (boundary_average rule1 rule0 rule2 El ms Tr abc z t Lz He) as (P1 & ->).
    destruct (boundary_average rule1 rule0 rule2 El ms' Tr' abc' z' t Ly He') as (P2 & ->).
    unfold tagged in *. rewrite !Rsum_filter in *.
    assert (G : forall b b', In b (m_bdr ms) -> In b' (m_bdr ms') -> alike_bdr b b' ->
      segment_length ms' b' = s * segment_length ms b /\ mean (s_phi z') b' = mean (s_phi z) b).
    { intros b b' I I' A. destruct (bdr_alike_ends b b' I I' A) as (_ & L1 & L2). destruct (bdr_ends ms Tr b I) as (v & w & e & Ie & Vb & Eb & _ & _ & Lv & Lw & _).
      pose proof (bdr_verts abc m Cs b I) as Ev. rewrite Vb in Ev. cbn [map] in Ev. pose proof (proj2 A) as Ev'. rewrite Ev in Ev'. cbn [map] in Ev'.
      rewrite <- (proj1 (proj2 (sg_lt v Lv))), <- (proj1 (proj2 (sg_lt w Lw))) in Ev'. unfold segment_length, mean. rewrite Ev, Ev'. split.
      - rewrite (proj2 (proj2 (sg_lt v Lv))), (proj2 (proj2 (sg_lt w Lw))). apply (distance_moved s c0 n0 tx ty Ps Un f Ef).
      - unfold at_vertex, Rsum. cbn [map fold_right List.length]. rewrite !Nat2Z.id, Ez, !tp_nth by assumption. reflexivity. }
    assert (S1 : s * Rsum (m_bdr ms) (fun e => if (e_attr e =? t)%Z then segment_length ms e else 0) = Rsum (m_bdr ms') (fun e => if (e_attr e =? t)%Z then segment_length ms' e else 0)).
    { rewrite <- Rsum_scal. apply sum_bdr. intros e e' I I' A. rewrite (proj1 A). destruct (G e e' I I' A) as (-> & _). destruct (_ =? _)%Z; ring. }
    assert (S2 : s * Rsum (m_bdr ms) (fun e => if (e_attr e =? t)%Z then segment_length ms e * mean (s_phi z) e else 0) =
                 Rsum (m_bdr ms') (fun e => if (e_attr e =? t)%Z then segment_length ms' e * mean (s_phi z') e else 0)).
    { rewrite <- Rsum_scal. apply sum_bdr. intros e e' I I' A. rewrite (proj1 A). destruct (G e e' I I' A) as (-> & ->). destruct (_ =? _)%Z; ring. }
    rewrite <- S1, <- S2. field. lra.
  Qed.
End Two.
