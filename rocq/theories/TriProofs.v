(** The first order discretization of a triangulation has the properties assumed of tables. *)
From Coq Require Import Reals Lra Relations.
From Verif Require Import Prelude ModelM Matrix Solver Fem RSum ListLemmas SpecSolver SpecFem SpecTriangles Triangles SolverProofs.
Open Scope R_scope.
Open Scope list_scope.

(** ** Scattered vectors *)
Definition values (z : list R) (ks : list nat) : list R := map (fun k => nth k z 0) ks.
Lemma scatter_out ks (xs : list R) k : ~ In k ks -> scatter ks xs k = 0.
Proof.
  revert xs; induction ks as [|i ks IH]; intros [|x xs] N; cbn; auto.
  destruct (Nat.eqb_spec i k) as [->|_]; [destruct N; now left|]. apply IH. intros I; apply N; now right.
Qed.
Lemma spread_length {T} `{Num T} n ks (xs : list T) : List.length (spread n ks xs) = n.
Proof. unfold spread. now rewrite map_length, seq_length. Qed.
Lemma spread_dot n ks (xs : list R) z : NoDup ks -> Forall (fun k => k < n)%nat ks -> List.length z = n ->
  dot (spread n ks xs) z = dot xs (values z ks).
Proof.
  intros ND Fo L. rewrite (dot_Sum (spread n ks xs) z n (spread_length n ks xs) L).
  rewrite (Sum_ext n _ (fun k => scatter ks xs k * nth k z 0)).
  2:{ intros k Lk. unfold spread. rewrite (nth_indep _ 0 (scatter ks xs 0%nat)) by (rewrite map_length, seq_length; lia).
      rewrite map_nth, seq_nth by lia. reflexivity. }
  revert xs; induction ks as [|i ks IH]; intros xs.
  - unfold values. cbn [map]. rewrite Sum_zero; [destruct xs; reflexivity|]. intros k _. destruct xs; cbn; ring.
  - inversion_clear ND as [|? ? N ND']. inversion_clear Fo as [|? ? Li Fo']. destruct xs as [|x xs].
    + rewrite Sum_zero; [reflexivity|]. intros; cbn; ring.
    + change (values z (i :: ks)) with (nth i z 0 :: values z ks). cbn [dot]. rewrite <- (IH ND' Fo' xs).
      change (nadd (nmul x (nth i z 0)) ?b) with (x * nth i z 0 + b).
      rewrite (Sum_split n i) by exact Li. cbn [scatter]. rewrite Nat.eqb_refl. f_equal.
      rewrite (Sum_split n i (fun k => scatter ks xs k * nth k z 0)) by exact Li. rewrite (scatter_out ks xs i N).
      rewrite Rmult_0_l, Rplus_0_l. apply Sum_ext. intros k _. rewrite (Nat.eqb_sym i k). destruct (Nat.eqb_spec k i); reflexivity.
Qed.
Lemma spread_nth n ks (xs : list R) k : (k < n)%nat -> nth k (spread n ks xs) 0 = scatter ks xs k.
Proof.
  intros L. unfold spread. rewrite (nth_indep _ 0 (scatter ks xs 0%nat)) by (rewrite map_length, seq_length; lia).
  rewrite map_nth, seq_nth by lia. reflexivity.
Qed.
Lemma Rsum_flat_map {A B} (f : A -> list B) l g : Rsum (flat_map f l) g = Rsum l (fun a => Rsum (f a) g).
Proof. induction l as [|a l IH]; [reflexivity|]. cbn [flat_map]. now rewrite Rsum_app, IH. Qed.
Lemma repeat_values c n ks : Forall (fun k => k < n)%nat ks -> values (repeat c n) ks = repeat c (List.length ks).
Proof.
  induction ks as [|k ks IH]; intros F; [reflexivity|]. inversion_clear F as [|? ? L F']. unfold values in *. cbn [map List.length repeat]. rewrite IH by auto.
  f_equal. clear - L. revert k L. induction n as [|n IHn]; intros [|k] L; cbn; auto; try lia. apply IHn. lia.
Qed.

Section Tri.
  Variable rule1 : list (R * R).
  Variable rule0 rule2 : list (R * R * R).
  Hypothesis Ru : rules_ok rule1 rule0 rule2.
  Variable ms : mesh R.
  Hypothesis Tr : triangulation ms.
  Notation D := (first_order rule1 rule0 rule2 distance ms).
  Notation n := (nverts ms).
  Notation P v := (m_coord ms (Z.of_nat v)).

  (** ** Vertices *)
  Record corners (e : element R) (a b c : nat) : Prop := {
    co_verts : e_verts e = [Z.of_nat a; Z.of_nat b; Z.of_nat c];
    co_nat : verts e = [a; b; c];
    co_det : 0 < det (P a) (P b) (P c);
    co_distinct : a <> b /\ b <> c /\ c <> a }.
  Lemma elem_corners e : In e (m_elems ms) -> exists a b c, corners e a b c.
  Proof.
    intros I. destruct (tr_elem ms Tr e I) as (_ & a & b & c & E & Pa & Pb & Pc & A).
    exists (Z.to_nat a), (Z.to_nat b), (Z.to_nat c).
    assert (Pd : 0 < det (P (Z.to_nat a)) (P (Z.to_nat b)) (P (Z.to_nat c))).
    { unfold area in A. rewrite E in A. unfold det. rewrite !Z2Nat.id by assumption. cbn [nsub nmul RNum]. lra. }
    constructor.
    - now rewrite !Z2Nat.id.
    - unfold verts. now rewrite E.
    - exact Pd.
    - unfold det in Pd. cbn [nsub nmul RNum] in Pd.
      repeat split; intros Q; rewrite Q in Pd; lra.
  Qed.
  Lemma max_fold l k0 : fold_left (fun n v => Nat.max n (S v)) l k0 = Nat.max k0 (fold_left (fun n v => Nat.max n (S v)) l 0%nat).
  Proof.
    revert k0; induction l as [|v l IH]; intros k0; [cbn; lia|]. cbn [fold_left].
    rewrite (IH (Nat.max k0 (S v))), (IH (Nat.max 0 (S v))). lia.
  Qed.
  Lemma max_in l v : In v l -> (v < fold_left (fun n v => Nat.max n (S v)) l 0)%nat.
  Proof.
    induction l as [|w l IH]; [easy|]. intros [->|I]; cbn [fold_left]; rewrite max_fold; [lia|]. specialize (IH I). lia.
  Qed.
  Lemma max_reached l k : (k < fold_left (fun n v => Nat.max n (S v)) l 0)%nat -> exists v, In v l /\ (k <= v)%nat.
  Proof.
    induction l as [|w l IH]; [cbn; lia|]. cbn [fold_left]. rewrite max_fold. intros L.
    destruct (Nat.le_gt_cases k w) as [Lw|Lw]; [exists w; split; [now left|lia]|].
    destruct IH as (v & I & Lv); [lia|]. exists v. split; [now right|exact Lv].
  Qed.
  Lemma vert_lt e k : In e (m_elems ms) -> In k (verts e) -> (k < n)%nat.
  Proof. intros I J. apply max_in. apply in_flat_map. eauto. Qed.
  Lemma corners_lt e a b c : In e (m_elems ms) -> corners e a b c -> (a < n /\ b < n /\ c < n)%nat.
  Proof.
    intros I C. pose proof (co_nat _ _ _ _ C) as E.
    repeat split; apply (vert_lt e); auto; rewrite E; cbn; auto.
  Qed.
  Lemma lt_vert k : (k < n)%nat -> exists e, In e (m_elems ms) /\ In k (verts e).
  Proof.
    intros L. unfold nverts in L. apply max_reached in L as (v & I & Lv). apply in_flat_map in I as (e & Ie & Iv).
    destruct (elem_corners e Ie) as (a & b & c & C).
    assert (V : vertex ms (Z.of_nat v)).
    { exists e. split; [exact Ie|]. rewrite (co_verts _ _ _ _ C). rewrite (co_nat _ _ _ _ C) in Iv.
      destruct Iv as [<-|[<-|[<-|[]]]]; cbn; auto. }
    destruct (tr_numbers ms Tr (Z.of_nat k) _ V) as (e' & Ie' & Ik); [lia|].
    exists e'. split; [exact Ie'|]. unfold verts. apply in_map_iff. exists (Z.of_nat k). split; [lia|exact Ik].
  Qed.
  Lemma corners_nodup e a b c : corners e a b c -> NoDup [a; b; c].
  Proof. intros C. destruct (co_distinct _ _ _ _ C) as (N1 & N2 & N3). repeat constructor; cbn; intuition congruence. Qed.

  (** ** Gradients *)
  Definition gx (e : element R) (z : list R) : R := dot (spread n (verts e) (grads_x ms e)) z.
  Definition gy (e : element R) (z : list R) : R := dot (spread n (verts e) (grads_y ms e)) z.
  Lemma pos_P v : pos ms v = P v. Proof. reflexivity. Qed.
  Lemma gx_eq e a b c z : In e (m_elems ms) -> corners e a b c -> potential D z ->
    gx e z = (nth a z 0 * (snd (P b) - snd (P c)) + nth b z 0 * (snd (P c) - snd (P a)) + nth c z 0 * (snd (P a) - snd (P b))) / det (P a) (P b) (P c).
  Proof.
    intros I C L. destruct (corners_lt e a b c I C) as (La & Lb & Lc). unfold gx, grads_x. rewrite (co_nat _ _ _ _ C). cbn [map].
    rewrite spread_dot; [|exact (corners_nodup e a b c C)|repeat constructor; assumption|exact L].
    unfold values. cbn [map dot]. rewrite !pos_P. cbn [nadd nsub nmul ndiv n0 RNum]. pose proof (co_det _ _ _ _ C). field. lra.
  Qed.
  Lemma gy_eq e a b c z : In e (m_elems ms) -> corners e a b c -> potential D z ->
    gy e z = (nth a z 0 * (fst (P c) - fst (P b)) + nth b z 0 * (fst (P a) - fst (P c)) + nth c z 0 * (fst (P b) - fst (P a))) / det (P a) (P b) (P c).
  Proof.
    intros I C L. destruct (corners_lt e a b c I C) as (La & Lb & Lc). unfold gy, grads_y. rewrite (co_nat _ _ _ _ C). cbn [map].
    rewrite spread_dot; [|exact (corners_nodup e a b c C)|repeat constructor; assumption|exact L].
    unfold values. cbn [map dot]. rewrite !pos_P. cbn [nadd nsub nmul ndiv n0 RNum]. pose proof (co_det _ _ _ _ C). field. lra.
  Qed.
  (** (gx, gy) is the gradient of the linear function *)
  Lemma slope_grad e z : In e (m_elems ms) -> potential D z -> slope ms z e (gx e z, gy e z).
  Proof.
    intros I L v w Iv Iw. destruct (elem_corners e I) as (a & b & c & C). rewrite (co_verts _ _ _ _ C) in Iv, Iw.
    unfold at_vertex. cbn [fst snd].
    rewrite (gx_eq e a b c z I C L), (gy_eq e a b c z I C L). pose proof (co_det _ _ _ _ C) as Pd. unfold det in *. cbn [nsub nmul RNum] in *.
    destruct Iv as [<-|[<-|[<-|[]]]], Iw as [<-|[<-|[<-|[]]]]; rewrite ?Nat2Z.id; field; lra.
  Qed.
  Lemma slope_unique e z g : In e (m_elems ms) -> potential D z -> slope ms z e g -> g = (gx e z, gy e z).
  Proof.
    intros I L S. destruct (elem_corners e I) as (a & b & c & C). pose proof (co_det _ _ _ _ C) as Pd.
    pose proof (slope_grad e z I L) as S'. rewrite (surjective_pairing g).
    assert (Va : In (Z.of_nat a) (e_verts e)) by (rewrite (co_verts _ _ _ _ C); cbn; auto).
    assert (Vb : In (Z.of_nat b) (e_verts e)) by (rewrite (co_verts _ _ _ _ C); cbn; auto).
    assert (Vc : In (Z.of_nat c) (e_verts e)) by (rewrite (co_verts _ _ _ _ C); cbn; auto).
    pose proof (S _ _ Va Vb) as E1. pose proof (S _ _ Va Vc) as E2. pose proof (S' _ _ Va Vb) as F1. pose proof (S' _ _ Va Vc) as F2.
    rewrite E1 in F1. rewrite E2 in F2. unfold det in Pd. cbn [nsub nmul RNum fst snd] in Pd, F1, F2.
    set (dx := fst g - gx e z). set (dy := snd g - gy e z).
    assert (G1 : dx * (fst (P b) - fst (P a)) + dy * (snd (P b) - snd (P a)) = 0) by (unfold dx, dy; lra).
    assert (G2 : dx * (fst (P c) - fst (P a)) + dy * (snd (P c) - snd (P a)) = 0) by (unfold dx, dy; lra).
    set (bx := fst (P b) - fst (P a)) in *. set (by' := snd (P b) - snd (P a)) in *.
    set (cx := fst (P c) - fst (P a)) in *. set (cy := snd (P c) - snd (P a)) in *.
    assert (X : dx * (bx * cy - cx * by') = 0).
    { replace (dx * (bx * cy - cx * by')) with ((dx * bx + dy * by') * cy - (dx * cx + dy * cy) * by') by ring. rewrite G1, G2. ring. }
    assert (Y : dy * (bx * cy - cx * by') = 0).
    { replace (dy * (bx * cy - cx * by')) with ((dx * cx + dy * cy) * bx - (dx * bx + dy * by') * cx) by ring. rewrite G1, G2. ring. }
    apply Rmult_integral in X, Y. f_equal; unfold dx, dy in *; destruct X, Y; lra.
  Qed.
  Lemma grad_in e : In e (m_elems ms) -> exists q, In q rule0 /\ In q rule0.
  Proof.
    intros _. destruct (ru_gradient _ _ _ Ru) as (_ & S). destruct rule0 as [|q l]; [cbn in S; lra|]. exists q. split; now left.
  Qed.
  Lemma in_grad q : In q (di_grad D) <-> exists e pw, In e (m_elems ms) /\ In pw rule0 /\
    q = {| g_attr := e_attr e; g_weight := snd pw * jacobian ms e; g_x := spread n (verts e) (grads_x ms e); g_y := spread n (verts e) (grads_y ms e) |}.
  Proof.
    cbn [di_grad first_order]. rewrite in_flat_map. unfold grad_points. split.
    - intros (e & I & J). apply in_map_iff in J as (pw & <- & J). exists e, pw. auto.
    - intros (e & pw & I & J & ->). exists e. split; [exact I|]. apply in_map_iff. exists pw. auto.
  Qed.
  Lemma flat_iff z : potential D z -> (flat D z <-> forall e, In e (m_elems ms) -> gx e z = 0 /\ gy e z = 0).
  Proof.
    intros L. split.
    - intros F e I. destruct (grad_in e I) as (pw & J & _). apply (F _ (proj2 (in_grad _) (ex_intro _ e (ex_intro _ pw (conj I (conj J eq_refl)))))).
    - intros G q Iq. apply in_grad in Iq as (e & pw & I & J & ->). exact (G e I).
  Qed.
  (** a flat potential is constant on every element *)
  Lemma flat_elem z e v w : potential D z -> flat D z -> In e (m_elems ms) -> In v (e_verts e) -> In w (e_verts e) -> at_vertex z v = at_vertex z w.
  Proof.
    intros L F I Iv Iw. destruct (proj1 (flat_iff z L) F e I) as (X & Y).
    pose proof (slope_grad e z I L v w Iv Iw) as S. rewrite X, Y in S. cbn in S. lra.
  Qed.
  Lemma jacobian_area e : In e (m_elems ms) -> jacobian ms e = 2 * area ms e /\ 0 < jacobian ms e.
  Proof.
    intros I. destruct (elem_corners e I) as (a & b & c & C). unfold jacobian, area. rewrite (co_nat _ _ _ _ C), (co_verts _ _ _ _ C). cbn [map]. rewrite !pos_P.
    split; [|exact (co_det _ _ _ _ C)]. unfold det. cbn [nsub nmul RNum]. field.
  Qed.

  (** ** Edges *)
  Lemma edge_eqb_spec x y : edge_eqb x y = true <-> x = y.
  Proof.
    destruct x as [x1 x2], y as [y1 y2]. unfold edge_eqb. cbn [fst snd]. rewrite Bool.andb_true_iff, !Nat.eqb_eq. split; [intros (-> & ->); reflexivity|now intros [= -> ->]].
  Qed.
  Lemma existsb_edge x l : existsb (edge_eqb x) l = true <-> In x l.
  Proof.
    rewrite existsb_exists. split; [intros (y & I & E); apply edge_eqb_spec in E as ->; exact I|]. intros I. exists x. split; [exact I|now apply edge_eqb_spec].
  Qed.
  Lemma distinct_in l seen x : In x (distinct_edges l seen) <-> In x l \/ In x seen.
  Proof.
    revert seen; induction l as [|y l IH]; intros seen; cbn [distinct_edges].
    - rewrite <- in_rev. cbn. tauto.
    - rewrite IH. destruct (existsb (edge_eqb y) seen) eqn:E.
      + apply existsb_edge in E. cbn. split; [tauto|]. intros [[<-|I]|I]; auto.
      + cbn. tauto.
  Qed.
  Lemma distinct_nodup l seen : NoDup seen -> NoDup (distinct_edges l seen).
  Proof.
    revert seen; induction l as [|y l IH]; intros seen N; cbn [distinct_edges]; [now apply NoDup_rev|].
    apply IH. destruct (existsb (edge_eqb y) seen) eqn:E; [exact N|]. constructor; [|exact N].
    intros I. apply existsb_edge in I. congruence.
  Qed.
  Lemma edges_nodup : NoDup (edges ms).
  Proof. apply distinct_nodup. constructor. Qed.
  Lemma edges_in x : In x (edges ms) <-> exists e s, In e (m_elems ms) /\ In s (sides e) /\ edge s = x.
  Proof.
    unfold edges. rewrite distinct_in, in_map_iff. cbn [In]. split.
    - intros [(s & <- & I)|[]]. apply in_flat_map in I as (e & Ie & Is). eauto.
    - intros (e & s & Ie & Is & <-). left. exists s. split; [reflexivity|]. apply in_flat_map. eauto.
  Qed.
  Lemma index_nth x l d : In x l -> (index_of x l < List.length l)%nat /\ nth (index_of x l) l d = x.
  Proof.
    induction l as [|y l IH]; [easy|]. intros I. cbn [index_of]. destruct (edge_eqb x y) eqn:E.
    - apply edge_eqb_spec in E as ->. cbn. split; [lia|reflexivity].
    - destruct I as [->|I]; [rewrite (proj2 (edge_eqb_spec x x) eq_refl) in E; discriminate|]. destruct (IH I) as (L & N). cbn. split; [lia|exact N].
  Qed.
  Lemma index_inj x y l : In x l -> In y l -> index_of x l = index_of y l -> x = y.
  Proof. intros I J E. rewrite <- (proj2 (index_nth x l x I)), <- (proj2 (index_nth y l x J)). now rewrite E. Qed.
  Lemma index_of_nth l k d : NoDup l -> (k < List.length l)%nat -> index_of (nth k l d) l = k.
  Proof.
    revert k; induction l as [|y l IH]; intros k N L; [cbn in L; lia|]. inversion_clear N as [|? ? Ny N'].
    destruct k as [|k]; cbn [nth index_of].
    - now rewrite (proj2 (edge_eqb_spec y y) eq_refl).
    - destruct (edge_eqb (nth k l d) y) eqn:E.
      + apply edge_eqb_spec in E. destruct Ny. rewrite <- E. apply nth_In. cbn in L; lia.
      + f_equal. apply IH; [exact N'|cbn in L; lia].
  Qed.
  Lemma sides_eq e a b c : corners e a b c -> sides e = [(a, b); (b, c); (c, a)].
  Proof. intros C. unfold sides. now rewrite (co_nat _ _ _ _ C). Qed.
  Lemma side_edge e s : In e (m_elems ms) -> In s (sides e) -> In (edge s) (edges ms).
  Proof. intros I J. apply edges_in. eauto. Qed.
  Notation ne := (List.length (edges ms)).
  Lemma side_dof e s : In e (m_elems ms) -> In s (sides e) -> (edge_dof ms s < ne)%nat /\ nth (edge_dof ms s) (edges ms) (0, 0)%nat = edge s.
  Proof. intros I J. apply index_nth. exact (side_edge e s I J). Qed.
  Lemma edge_dofs_ok e : In e (m_elems ms) -> NoDup (edge_dofs ms e) /\ Forall (fun k => k < ne)%nat (edge_dofs ms e).
  Proof.
    intros I. destruct (elem_corners e I) as (a & b & c & C). destruct (co_distinct _ _ _ _ C) as (N1 & N2 & N3). pose proof (sides_eq e a b c C) as S.
    split.
    - unfold edge_dofs. rewrite S. cbn [map].
      assert (Ia : In (edge (a, b)) (edges ms)) by (apply (side_edge e); [exact I|rewrite S; cbn; auto]).
      assert (Ib : In (edge (b, c)) (edges ms)) by (apply (side_edge e); [exact I|rewrite S; cbn; auto]).
      assert (Ic : In (edge (c, a)) (edges ms)) by (apply (side_edge e); [exact I|rewrite S; cbn; auto]).
      assert (E1 : edge (a, b) <> edge (b, c)) by (unfold edge; cbn [fst snd]; destruct (a <? b)%nat, (b <? c)%nat; intros Q; injection Q; congruence).
      assert (E2 : edge (b, c) <> edge (c, a)) by (unfold edge; cbn [fst snd]; destruct (b <? c)%nat, (c <? a)%nat; intros Q; injection Q; congruence).
      assert (E3 : edge (c, a) <> edge (a, b)) by (unfold edge; cbn [fst snd]; destruct (c <? a)%nat, (a <? b)%nat; intros Q; injection Q; congruence).
      unfold edge_dof. repeat constructor; cbn [In].
      + intros [E|[E|[]]]; apply index_inj in E; auto; try congruence.
      + intros [E|[]]; apply index_inj in E; auto; try congruence.
      + easy.
    - apply Forall_forall. intros k J. unfold edge_dofs in J. apply in_map_iff in J as (s & <- & J). exact (proj1 (side_dof e s I J)).
  Qed.
  Lemma sign_square s : sign (T:=R) s * sign (T:=R) s = 1.
  Proof. unfold sign. destruct (fst s <? snd s)%nat; cbn [n1 nopp RNum]; ring. Qed.

  (** ** Minus the gradient, as a field of the Nedelec space *)
  Definition minus_grad (z : list R) : list R := map (fun row => - dot row z) (di_gradient D).
  Lemma edge_order s : fst s <> snd s -> (fst (edge s) < snd (edge s))%nat /\ (edge s = s /\ sign (T:=R) s = 1 \/ edge s = (snd s, fst s) /\ sign (T:=R) s = - 1).
  Proof.
    intros N. unfold edge, sign. destruct (Nat.ltb_spec (fst s) (snd s)) as [L|L]; cbn [fst snd n1 nopp RNum].
    - split; [exact L|]. left. split; [reflexivity|reflexivity].
    - split; [lia|]. right. split; reflexivity.
  Qed.
  Lemma edges_lt x : In x (edges ms) -> (fst x < snd x /\ snd x < n)%nat.
  Proof.
    intros I. apply edges_in in I as (e & s & Ie & Is & <-). destruct (elem_corners e Ie) as (a & b & c & C).
    rewrite (sides_eq e a b c C) in Is. destruct (co_distinct _ _ _ _ C) as (N1 & N2 & N3). destruct (corners_lt e a b c Ie C) as (La & Lb & Lc).
    assert (fst s <> snd s /\ (fst s < n /\ snd s < n)%nat) as (N & L1 & L2).
    { destruct Is as [<-|[<-|[<-|[]]]]; cbn; auto. }
    unfold edge. destruct (Nat.ltb_spec (fst s) (snd s)); cbn [fst snd]; lia.
  Qed.
  Lemma gradient_row x z : In x (edges ms) -> potential D z -> dot (spread n [fst x; snd x] [nopp n1; n1]) z = nth (snd x) z 0 - nth (fst x) z 0.
  Proof.
    intros I L. destruct (edges_lt x I) as (L1 & L2). rewrite spread_dot; [|repeat constructor; cbn; lia|repeat constructor; lia|exact L].
    unfold values. cbn [map dot]. cbn [nadd nmul nopp n0 n1 RNum]. ring.
  Qed.
  Lemma minus_grad_length z : List.length (minus_grad z) = ne.
  Proof. unfold minus_grad. cbn [di_gradient first_order]. now rewrite !map_length. Qed.
  Lemma minus_grad_nth k z : (k < ne)%nat -> potential D z ->
    nth k (minus_grad z) 0 = - (nth (snd (nth k (edges ms) (0, 0)%nat)) z 0 - nth (fst (nth k (edges ms) (0, 0)%nat)) z 0).
  Proof.
    intros L P. unfold minus_grad. cbn [di_gradient first_order]. rewrite map_map.
    set (f := fun x : nat * nat => - dot (spread n [fst x; snd x] [nopp n1; n1]) z).
    rewrite (nth_indep _ 0 (f (0, 0)%nat)) by (now rewrite map_length). rewrite map_nth. unfold f.
    rewrite gradient_row; [reflexivity|now apply nth_In|exact P].
  Qed.
  Lemma minus_grad_side e s z : In e (m_elems ms) -> In s (sides e) -> fst s <> snd s -> potential D z ->
    nth (edge_dof ms s) (minus_grad z) 0 = - (sign (T:=R) s * (nth (snd s) z 0 - nth (fst s) z 0)).
  Proof.
    intros I J N L. destruct (side_dof e s I J) as (Ld & E). rewrite (minus_grad_nth _ z Ld L), E.
    destruct (edge_order s N) as (_ & [(-> & ->)|(-> & ->)]); cbn [fst snd]; ring.
  Qed.
  Lemma bary_sum p : nth 0 (bary (T:=R) p) 0 + nth 1 (bary (T:=R) p) 0 + nth 2 (bary (T:=R) p) 0 = 1.
  Proof. unfold bary. cbn [nth nsub n1 RNum]. ring. Qed.
  Lemma nd_dot_x e a b c p d : In e (m_elems ms) -> corners e a b c -> List.length d = ne ->
    dot (nd_x ms e p) d = dot (whitney e (bary p) (grads_x ms e)) (values d (edge_dofs ms e)).
  Proof. intros I C L. unfold nd_x. destruct (edge_dofs_ok e I) as (N & F). now apply spread_dot. Qed.
  Lemma nd_dot_y e a b c p d : In e (m_elems ms) -> corners e a b c -> List.length d = ne ->
    dot (nd_y ms e p) d = dot (whitney e (bary p) (grads_y ms e)) (values d (edge_dofs ms e)).
  Proof. intros I C L. unfold nd_y. destruct (edge_dofs_ok e I) as (N & F). now apply spread_dot. Qed.
  (** the field of the Nedelec space with the coefficients [d] *)
  Lemma whitney_dot e a b c p g0 g1 g2 d : In e (m_elems ms) -> corners e a b c ->
    dot (whitney e (bary p) [g0; g1; g2]) (values d (edge_dofs ms e)) =
    sign (T:=R) (a, b) * nth (edge_dof ms (a, b)) d 0 * ((1 - fst p - snd p) * g1 - fst p * g0) +
    sign (T:=R) (b, c) * nth (edge_dof ms (b, c)) d 0 * (fst p * g2 - snd p * g1) +
    sign (T:=R) (c, a) * nth (edge_dof ms (c, a)) d 0 * (snd p * g0 - (1 - fst p - snd p) * g2).
  Proof.
    intros I C. unfold whitney, edge_dofs, values. rewrite (sides_eq e a b c C). cbn [map bary dot]. cbn [nadd nsub nmul n0 n1 RNum]. ring.
  Qed.
  Lemma grads_x_eq e a b c : corners e a b c -> grads_x ms e = [(snd (P b) - snd (P c)) / det (P a) (P b) (P c); (snd (P c) - snd (P a)) / det (P a) (P b) (P c); (snd (P a) - snd (P b)) / det (P a) (P b) (P c)].
  Proof. intros C. unfold grads_x. rewrite (co_nat _ _ _ _ C). reflexivity. Qed.
  Lemma grads_y_eq e a b c : corners e a b c -> grads_y ms e = [(fst (P c) - fst (P b)) / det (P a) (P b) (P c); (fst (P a) - fst (P c)) / det (P a) (P b) (P c); (fst (P b) - fst (P a)) / det (P a) (P b) (P c)].
  Proof. intros C. unfold grads_y. rewrite (co_nat _ _ _ _ C). reflexivity. Qed.
  Lemma side_in e a b c : corners e a b c -> In (a, b) (sides e) /\ In (b, c) (sides e) /\ In (c, a) (sides e).
  Proof. intros C. rewrite (sides_eq e a b c C). repeat split; cbn; auto. Qed.
  Lemma whitney_grad e a b c p g0 g1 g2 z : In e (m_elems ms) -> corners e a b c -> potential D z -> g0 + g1 + g2 = 0 ->
    dot (whitney e (bary p) [g0; g1; g2]) (values (minus_grad z) (edge_dofs ms e)) = - (nth a z 0 * g0 + nth b z 0 * g1 + nth c z 0 * g2).
  Proof.
    intros I C L G. rewrite (whitney_dot e a b c p g0 g1 g2 _ I C). destruct (side_in e a b c C) as (S0 & S1 & S2).
    destruct (co_distinct _ _ _ _ C) as (N1 & N2 & N3).
    rewrite (minus_grad_side e (a, b) z I S0 N1 L), (minus_grad_side e (b, c) z I S1 N2 L), (minus_grad_side e (c, a) z I S2 N3 L). cbn [fst snd].
    pose proof (sign_square (a, b)) as Q1. pose proof (sign_square (b, c)) as Q2. pose proof (sign_square (c, a)) as Q3.
    set (x := sign (a, b)) in *. set (y := sign (b, c)) in *. set (w := sign (c, a)) in *.
    replace g2 with (- g0 - g1) by lra.
    transitivity (- ((x * x) * (nth b z 0 - nth a z 0) * ((1 - fst p - snd p) * g1 - fst p * g0)
      + (y * y) * (nth c z 0 - nth b z 0) * (fst p * (- g0 - g1) - snd p * g1)
      + (w * w) * (nth a z 0 - nth c z 0) * (snd p * g0 - (1 - fst p - snd p) * (- g0 - g1)))); [ring|].
    rewrite Q1, Q2, Q3. ring.
  Qed.
  Lemma nd_minus_grad e p z : In e (m_elems ms) -> potential D z ->
    dot (nd_x ms e p) (minus_grad z) = - gx e z /\ dot (nd_y ms e p) (minus_grad z) = - gy e z.
  Proof.
    intros I L. destruct (elem_corners e I) as (a & b & c & C). pose proof (co_det _ _ _ _ C) as Pd.
    rewrite (nd_dot_x e a b c p _ I C (minus_grad_length z)), (nd_dot_y e a b c p _ I C (minus_grad_length z)).
    rewrite (grads_x_eq e a b c C), (grads_y_eq e a b c C), (gx_eq e a b c z I C L), (gy_eq e a b c z I C L).
    split; (rewrite (whitney_grad e a b c p _ _ _ z I C L); [field; lra|field; lra]).
  Qed.

  (** ** The tables are those of a discretization *)
  Lemma distance_pos p q : p <> q -> 0 < distance p q.
  Proof.
    intros N. unfold distance. apply sqrt_lt_R0. destruct p as [px py], q as [qx qy]. cbn [fst snd].
    pose proof (Rle_0_sqr (qx - px)) as X. pose proof (Rle_0_sqr (qy - py)) as Y. unfold Rsqr in X, Y.
    destruct (Req_dec ((qx - px) * (qx - px) + (qy - py) * (qy - py)) 0) as [E|E]; [|lra].
    exfalso. apply N. assert (E1 : (qx - px) * (qx - px) = 0) by lra. assert (E2 : (qy - py) * (qy - py) = 0) by lra.
    apply Rmult_integral in E1, E2. f_equal; destruct E1, E2; lra.
  Qed.
  (** the ends of a boundary element *)
  Lemma bdr_ends b : In b (m_bdr ms) -> exists v w e, In e (m_elems ms) /\ verts b = [v; w] /\ ends b = (v, w) /\ In (v, w) (sides e) /\
    v <> w /\ (v < n)%nat /\ (w < n)%nat /\ P v <> P w.
  Proof.
    intros I. destruct (tr_bdr ms Tr b I) as (_ & v & w & e & E & Ie & (a & b' & c & Ee & S)).
    destruct (elem_corners e Ie) as (a1 & b1 & c1 & C). destruct (corners_lt e a1 b1 c1 Ie C) as (La & Lb & Lc).
    pose proof (co_verts _ _ _ _ C) as Ev. rewrite Ee in Ev. injection Ev as -> -> ->.
    destruct (co_distinct _ _ _ _ C) as (N1 & N2 & N3). pose proof (co_det _ _ _ _ C) as Pd. unfold det in Pd. cbn [nsub nmul RNum] in Pd.
    exists (Z.to_nat v), (Z.to_nat w), e. split; [exact Ie|]. rewrite (sides_eq e a1 b1 c1 C).
    assert (Vb : verts b = [Z.to_nat v; Z.to_nat w]) by (unfold verts; now rewrite E). split; [exact Vb|].
    unfold ends. rewrite Vb. split; [reflexivity|].
    destruct S as [[= -> ->]|[[= -> ->]|[= -> ->]]]; rewrite !Nat2Z.id; (split; [cbn; auto|]); (split; [lia|]); (split; [lia|]); (split; [lia|]);
      intros Q; rewrite Q in Pd; lra.
  Qed.

  Lemma in_surf q : In q (di_abc D) <-> exists b sw, In b (m_bdr ms) /\ In sw rule1 /\
    q = {| b_attr := e_attr b; b_pos := along (pos ms (fst (ends b))) (pos ms (snd (ends b))) (fst sw);
           b_weight := snd sw * bdr_len distance ms b; b_shape := spread n (verts b) [1 - fst sw; fst sw] |}.
  Proof.
    cbn [di_abc first_order]. rewrite in_flat_map. unfold surf_points. split.
    - intros (b & I & J). apply in_map_iff in J as (sw & <- & J). exists b, sw. auto.
    - intros (b & sw & I & J & ->). exists b. split; [exact I|]. apply in_map_iff. exists sw. auto.
  Qed.
  Lemma in_rt q : In q (di_rt D) <-> exists e pw, In e (m_elems ms) /\ In pw rule2 /\
    q = {| r_weight := snd pw * jacobian ms e; r_x := rt_x ms e (fst pw); r_y := rt_y ms e (fst pw) |}.
  Proof.
    cbn [di_rt first_order]. rewrite in_flat_map. unfold rt_points. split.
    - intros (e & I & J). apply in_map_iff in J as (pw & <- & J). exists e, pw. auto.
    - intros (e & pw & I & J & ->). exists e. split; [exact I|]. apply in_map_iff. exists pw. auto.
  Qed.
  Lemma elem_tag e : In e (m_elems ms) -> (0 < e_attr e <= di_domMax D)%Z.
  Proof.
    intros I. split; [exact (proj1 (tr_elem ms Tr e I))|]. cbn [di_domMax first_order]. apply (proj2 (zmax_list_ge _ _)). now apply in_map.
  Qed.
  Lemma bdr_tag b : In b (m_bdr ms) -> (0 < e_attr b <= di_bdrMax D)%Z.
  Proof.
    intros I. split; [exact (proj1 (tr_bdr ms Tr b I))|]. cbn [di_bdrMax first_order]. apply (proj2 (zmax_list_ge _ _)). now apply in_map.
  Qed.
  Lemma in_verts_corners e a b c k : corners e a b c -> In k (verts e) -> k = a \/ k = b \/ k = c.
  Proof. intros C I. rewrite (co_nat _ _ _ _ C) in I. cbn in I. intuition. Qed.
  Lemma scatter3 (a b c : nat) (x y w : R) : a <> b -> b <> c -> c <> a ->
    scatter [a; b; c] [x; y; w] a = x /\ scatter [a; b; c] [x; y; w] b = y /\ scatter [a; b; c] [x; y; w] c = w.
  Proof.
    intros N1 N2 N3. cbn [scatter]. rewrite !Nat.eqb_refl.
    rewrite (proj2 (Nat.eqb_neq a b)), (proj2 (Nat.eqb_neq a c)), (proj2 (Nat.eqb_neq b c)); auto.
  Qed.
  (** no basis function is flat on an element around its vertex *)
  Lemma basis_not_flat e k : In e (m_elems ms) -> In k (verts e) ->
    nth k (spread n (verts e) (grads_x ms e)) 0 <> 0 \/ nth k (spread n (verts e) (grads_y ms e)) 0 <> 0.
  Proof.
    intros I J. destruct (elem_corners e I) as (a & b & c & C). pose proof (vert_lt e k I J) as Lk.
    rewrite !spread_nth by exact Lk. rewrite (grads_x_eq e a b c C), (grads_y_eq e a b c C), (co_nat _ _ _ _ C).
    destruct (co_distinct _ _ _ _ C) as (N1 & N2 & N3). pose proof (co_det _ _ _ _ C) as Pd.
    assert (NZ : forall x y d, 0 < d -> (x <> 0 \/ y <> 0) -> x / d <> 0 \/ y / d <> 0).
    { intros x y d Q [X|X]; [left|right]; unfold Rdiv; apply Rmult_integral_contrapositive_currified; auto; apply Rinv_neq_0_compat; lra. }
    destruct (in_verts_corners e a b c k C J) as [-> | [-> | ->]].
    - rewrite (proj1 (scatter3 a b c _ _ _ N1 N2 N3)), (proj1 (scatter3 a b c _ _ _ N1 N2 N3)). apply NZ; [exact Pd|].
      unfold det in Pd. cbn [nsub nmul RNum] in Pd. destruct (Req_dec (snd (P b) - snd (P c)) 0) as [E|E]; [|now left]. right. intros E'.
      assert (snd (P b) = snd (P c)) as Q by lra. assert (fst (P b) = fst (P c)) as Q' by lra. rewrite Q, Q' in Pd. lra.
    - rewrite (proj1 (proj2 (scatter3 a b c _ _ _ N1 N2 N3))), (proj1 (proj2 (scatter3 a b c _ _ _ N1 N2 N3))). apply NZ; [exact Pd|].
      unfold det in Pd. cbn [nsub nmul RNum] in Pd. destruct (Req_dec (snd (P c) - snd (P a)) 0) as [E|E]; [|now left]. right. intros E'.
      assert (snd (P a) = snd (P c)) as Q by lra. assert (fst (P a) = fst (P c)) as Q' by lra. rewrite Q, Q' in Pd. lra.
    - rewrite (proj2 (proj2 (scatter3 a b c _ _ _ N1 N2 N3))), (proj2 (proj2 (scatter3 a b c _ _ _ N1 N2 N3))). apply NZ; [exact Pd|].
      unfold det in Pd. cbn [nsub nmul RNum] in Pd. destruct (Req_dec (snd (P a) - snd (P b)) 0) as [E|E]; [|now left]. right. intros E'.
      assert (snd (P a) = snd (P b)) as Q by lra. assert (fst (P a) = fst (P b)) as Q' by lra. rewrite Q, Q' in Pd. lra.
  Qed.
  Lemma dot_opp_l (l z : list R) : dot (map nopp l) z = - dot l z.
  Proof.
    revert z; induction l as [|x l IH]; intros [|y z]; cbn [map dot]; cbn [nadd nmul nopp n0 RNum]; rewrite ?IH; ring.
  Qed.
  (** a Raviart-Thomas field that vanishes at two points of a triangle is zero on its sides *)
  Lemma rt_elem_zero e d a b c : In e (m_elems ms) -> corners e a b c -> List.length d = ne ->
    (forall pw, In pw rule2 -> dot (nd_x ms e (fst pw)) d = 0 /\ dot (nd_y ms e (fst pw)) d = 0) ->
    nth (edge_dof ms (a, b)) d 0 = 0 /\ nth (edge_dof ms (b, c)) d 0 = 0 /\ nth (edge_dof ms (c, a)) d 0 = 0.
  Proof.
    intros I C L Z. pose proof (co_det _ _ _ _ C) as Pd.
    set (A := sign (T:=R) (a, b) * nth (edge_dof ms (a, b)) d 0).
    set (B := sign (T:=R) (b, c) * nth (edge_dof ms (b, c)) d 0).
    set (G := sign (T:=R) (c, a) * nth (edge_dof ms (c, a)) d 0).
    assert (V : forall pw, In pw rule2 -> G = (A + B + G) * fst (fst pw) /\ B = (A + B + G) * (1 - fst (fst pw) - snd (fst pw))).
    { intros pw J. destruct (Z pw J) as (X & Y). rewrite (nd_dot_x e a b c _ _ I C L), (grads_x_eq e a b c C), (whitney_dot e a b c _ _ _ _ _ I C) in X.
      rewrite (nd_dot_y e a b c _ _ I C L), (grads_y_eq e a b c C), (whitney_dot e a b c _ _ _ _ _ I C) in Y.
      fold A B G in X, Y. set (p := fst (fst pw)) in *. set (q := snd (fst pw)) in *.
      set (de := det (P a) (P b) (P c)) in *.
      assert (Ed : de = (fst (P b) - fst (P a)) * (snd (P c) - snd (P a)) - (fst (P c) - fst (P a)) * (snd (P b) - snd (P a))) by reflexivity.
      assert (X' : (G - (A + B + G) * p) * (snd (P b) - snd (P c)) + ((A + B + G) * (1 - p - q) - B) * (snd (P c) - snd (P a)) = 0).
      { apply (Rmult_eq_reg_r (/ de)); [|apply Rinv_neq_0_compat; lra]. rewrite Rmult_0_l, <- X. field. lra. }
      assert (Y' : (G - (A + B + G) * p) * (fst (P c) - fst (P b)) + ((A + B + G) * (1 - p - q) - B) * (fst (P a) - fst (P c)) = 0).
      { apply (Rmult_eq_reg_r (/ de)); [|apply Rinv_neq_0_compat; lra]. rewrite Rmult_0_l, <- Y. field. lra. }
      set (U := G - (A + B + G) * p) in *. set (W := (A + B + G) * (1 - p - q) - B) in *.
      assert (HU : U * de = 0).
      { rewrite Ed. replace (U * ((fst (P b) - fst (P a)) * (snd (P c) - snd (P a)) - (fst (P c) - fst (P a)) * (snd (P b) - snd (P a))))
          with ((U * (snd (P b) - snd (P c)) + W * (snd (P c) - snd (P a))) * (fst (P a) - fst (P c)) - (U * (fst (P c) - fst (P b)) + W * (fst (P a) - fst (P c))) * (snd (P c) - snd (P a)))  by ring.
        rewrite X', Y'. ring. }
      assert (HW : W * de = 0).
      { rewrite Ed. replace (W * ((fst (P b) - fst (P a)) * (snd (P c) - snd (P a)) - (fst (P c) - fst (P a)) * (snd (P b) - snd (P a))))
          with ((U * (snd (P b) - snd (P c)) + W * (snd (P c) - snd (P a))) * (fst (P b) - fst (P c)) + (U * (fst (P c) - fst (P b)) + W * (fst (P a) - fst (P c))) * (snd (P b) - snd (P c))) by ring.
        rewrite X', Y'. ring. }
      apply Rmult_integral in HU, HW. destruct HU as [HU|HU]; [|lra]. destruct HW as [HW|HW]; [|lra]. unfold U in HU. unfold W in HW. lra. }
    destruct (ru_vector _ _ _ Ru) as (_ & _ & p & q & Ip & Iq & Npq). destruct (V p Ip) as (V1 & V2). destruct (V q Iq) as (V3 & V4).
    assert (S0 : A + B + G = 0).
    { destruct (Req_dec (A + B + G) 0) as [E|E]; [exact E|]. exfalso. apply Npq.
      assert (E1 : fst (fst p) = fst (fst q)) by (apply (Rmult_eq_reg_l (A + B + G)); [lra|exact E]).
      assert (E2 : 1 - fst (fst p) - snd (fst p) = 1 - fst (fst q) - snd (fst q)) by (apply (Rmult_eq_reg_l (A + B + G)); [lra|exact E]).
      rewrite (surjective_pairing (fst p)), (surjective_pairing (fst q)). f_equal; lra. }
    rewrite S0 in V1, V2. assert (A0 : A = 0) by lra. assert (B0 : B = 0) by lra. assert (G0 : G = 0) by lra.
    assert (K : forall s x, sign (T:=R) s * x = 0 -> x = 0).
    { intros s x E. apply Rmult_integral in E as [E|E]; [|exact E]. pose proof (sign_square s) as Q. rewrite E in Q. lra. }
    exact (conj (K _ _ A0) (conj (K _ _ B0) (K _ _ G0))).
  Qed.
  Theorem first_order_tables : tables_ok D.
  Proof.
    constructor.
    - intros b I. cbn [di_bdrDofs first_order] in I. apply in_map_iff in I as (x & <- & I). cbn [fst snd]. split; [exact (bdr_tag x I)|].
      destruct (bdr_ends x I) as (v & w & e & _ & E & _ & _ & _ & Lv & Lw & _). rewrite E. intros k [<-|[<-|[]]]; assumption.
    - intros q I. apply in_grad in I as (e & pw & I & J & ->). cbn [g_x g_y g_weight g_attr di_nH1 first_order]. rewrite !spread_length.
      split; [reflexivity|]. split; [reflexivity|]. split; [|exact (elem_tag e I)].
      apply Rmult_lt_0_compat; [exact (proj1 (ru_gradient _ _ _ Ru) pw J)|exact (proj2 (jacobian_area e I))].
    - intros q I. apply in_surf in I as (b & sw & I & J & ->). cbn [b_shape b_weight b_attr di_nH1 first_order]. rewrite spread_length.
      split; [reflexivity|]. split; [|exact (bdr_tag b I)]. apply Rmult_lt_0_compat; [exact (proj2 (proj1 (ru_segment _ _ _ Ru) sw J))|].
      destruct (bdr_ends b I) as (v & w & e & _ & _ & E & _ & _ & _ & _ & Np). unfold bdr_len. rewrite E. cbn [fst snd]. now apply distance_pos.
    - intros q I. apply in_surf in I as (b & sw & I & J & ->). cbn [b_shape di_nH1 first_order]. apply spread_length.
    - intros k L. destruct (lt_vert k L) as (e & I & J). destruct (grad_in e I) as (pw & K & _).
      exists {| g_attr := e_attr e; g_weight := snd pw * jacobian ms e; g_x := spread n (verts e) (grads_x ms e); g_y := spread n (verts e) (grads_y ms e) |}.
      split; [apply in_grad; eauto|]. exact (basis_not_flat e k I J).
    - cbn [di_gradient di_nND di_nH1 first_order]. rewrite map_length. split; [reflexivity|]. intros r I. apply in_map_iff in I as (x & <- & _). apply spread_length.
    - intros q I. apply in_rt in I as (e & pw & I & J & ->). cbn [r_x r_y r_weight di_nRT first_order]. unfold rt_x, rt_y, nd_x, nd_y. rewrite map_length, !spread_length.
      split; [reflexivity|]. split; [reflexivity|]. apply Rmult_lt_0_compat; [exact (proj1 (ru_vector _ _ _ Ru) pw J)|exact (proj2 (jacobian_area e I))].
    - cbn [di_nRT first_order]. intros d L Z. apply (nth_ext d _ 0 0); [now rewrite repeat_length|]. intros k Lk. rewrite nth_repeat.
      assert (Lk' : (k < ne)%nat) by lia. pose proof (nth_In (edges ms) (0, 0)%nat Lk') as Ix. apply edges_in in Ix as (e & s & Ie & Is & Es).
      assert (Ek : edge_dof ms s = k) by (unfold edge_dof; rewrite Es; now apply index_of_nth; [apply edges_nodup|]).
      destruct (elem_corners e Ie) as (a & b & c & C). destruct (rt_elem_zero e d a b c Ie C L) as (Z1 & Z2 & Z3).
      { intros pw J. specialize (Z _ (proj2 (in_rt _) (ex_intro _ e (ex_intro _ pw (conj Ie (conj J eq_refl)))))). cbn [r_x r_y] in Z. destruct Z as (Z1 & Z2).
        unfold rt_x in Z1. unfold rt_y in Z2. rewrite dot_opp_l in Z2. split; [lra|exact Z1]. }
      rewrite (sides_eq e a b c C) in Is. rewrite <- Ek. destruct Is as [<-|[<-|[<-|[]]]]; assumption.
    - intros q I. cbn [di_mix first_order] in I. apply in_flat_map in I as (e & I & J). unfold mix_points in J. apply in_map_iff in J as (pw & <- & J). exact (elem_tag e I).
  Qed.
  Lemma constant_potential c : potential D (repeat c n).
  Proof. apply repeat_length. Qed.
  Lemma nth_constant c k : (k < n)%nat -> nth k (repeat c n) 0 = c.
  Proof.
    intros L. assert (E : values (repeat c n) [k] = [c]) by (apply (repeat_values c n [k]); now repeat constructor). unfold values in E. cbn [map] in E. now injection E.
  Qed.
  Theorem first_order_constants : constants_ok D.
  Proof.
    constructor.
    - cbn [di_nH1 first_order]. apply (flat_iff _ (constant_potential 1)). intros e I. destruct (elem_corners e I) as (a & b & c & C).
      destruct (corners_lt e a b c I C) as (La & Lb & Lc). pose proof (co_det _ _ _ _ C) as Pd.
      rewrite (gx_eq e a b c _ I C (constant_potential 1)), (gy_eq e a b c _ I C (constant_potential 1)).
      rewrite !nth_constant by assumption. split; field; lra.
    - cbn [di_gradient di_nH1 first_order]. intros r I. apply in_map_iff in I as (x & <- & I). rewrite (gradient_row x _ I (constant_potential 1)).
      destruct (edges_lt x I) as (L1 & L2). rewrite !nth_constant by lia. lra.
    - intros q I. apply in_surf in I as (b & sw & I & J & ->). cbn [b_shape di_nH1 first_order].
      destruct (bdr_ends b I) as (v & w & e & _ & E & _ & _ & N & Lv & Lw & _). rewrite E.
      rewrite spread_dot; [|repeat constructor; cbn; intuition congruence|repeat constructor; assumption|apply constant_potential].
      unfold values. cbn [map dot]. rewrite !nth_constant by assumption. cbn [nadd nmul n0 RNum]. ring.
  Qed.
  Theorem first_order_connected : connected ms -> forall z, potential D z -> flat D z -> exists c, z = repeat c (di_nH1 D).
  Proof.
    intros Co z L F. destruct z as [|c z'] eqn:Ez; [exists 0; unfold potential in L; cbn in L; cbn [di_nH1 first_order]; now rewrite <- L|].
    rewrite <- Ez in *. exists c. cbn [di_nH1 first_order]. unfold potential in L. cbn [di_nH1 first_order] in L. apply (nth_ext z _ 0 0); [now rewrite repeat_length|].
    intros k Lk. rewrite L in Lk. rewrite nth_constant by exact Lk.
    assert (V : forall k, (k < n)%nat -> vertex ms (Z.of_nat k)).
    { intros j Lj. destruct (lt_vert j Lj) as (e & I & J). exists e. split; [exact I|]. destruct (elem_corners e I) as (x & y & w & C).
      rewrite (co_verts _ _ _ _ C). destruct (in_verts_corners e x y w j C J) as [-> | [-> | ->]]; cbn; auto. }
    assert (L0 : (0 < n)%nat) by lia. specialize (Co _ _ (V k Lk) (V 0%nat L0)).
    assert (E : at_vertex z (Z.of_nat k) = at_vertex z (Z.of_nat 0)).
    { induction Co as [v w (e & I & Iv & Iw)|v|u v w _ IH1 _ IH2]; [|reflexivity|congruence].
      exact (flat_elem z e v w L F I Iv Iw). }
    unfold at_vertex in E. rewrite !Nat2Z.id in E. rewrite E, Ez. reflexivity.
  Qed.
  Theorem first_order_quadrature : same_quadrature D.
  Proof.
    split.
    - intros y I. cbn [di_energy first_order] in I. apply in_flat_map in I as (e & I & J). unfold energy_points in J. apply in_map_iff in J as (pw & <- & J). exact (elem_tag e I).
    - intros phi f L. cbn zeta. fold (minus_grad phi). cbn [di_energy di_grad first_order]. rewrite !Rsum_flat_map. apply Rsum_ext. intros e I.
      unfold energy_points, grad_points. rewrite !Rsum_map. cbn [y_attr y_weight y_x y_y g_attr g_weight].
      transitivity (Rsum rule2 (fun pw => snd pw * (jacobian ms e * f (e_attr e) * (gx e phi * gx e phi + gy e phi * gy e phi)))).
      { apply Rsum_ext. intros pw J. destruct (nd_minus_grad e (fst pw) phi I L) as (-> & ->). cbn [nmul RNum]. ring. }
      transitivity (Rsum rule0 (fun pw => snd pw * (jacobian ms e * f (e_attr e) * (gx e phi * gx e phi + gy e phi * gy e phi)))).
      { rewrite (Rsum_scal_r rule2 _ snd), (Rsum_scal_r rule0 _ snd), (proj2 (ru_gradient _ _ _ Ru)), (proj1 (proj2 (ru_vector _ _ _ Ru))). reflexivity. }
      apply Rsum_ext. intros pw J. unfold grad2. cbn [g_x g_y]. fold (gx e phi) (gy e phi). cbn [nmul RNum]. ring.
  Qed.
End Tri.
