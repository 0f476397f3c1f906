(** A mesh with rational coordinates, checked by computation. *)
From Coq Require Import QArith Qreals Reals Lra Lia Relations.
From Verif Require Import Prelude ModelM SpecTriangles Transfer.
Open Scope R_scope.
Open Scope list_scope.

Section Check.
  Variable ms : mesh Q.
  Definition area_Q (a b c : Z) : Q :=
    let p := m_coord ms in
    nsub (nmul (nsub (fst (p b)) (fst (p a))) (nsub (snd (p c)) (snd (p a)))) (nmul (nsub (fst (p c)) (fst (p a))) (nsub (snd (p b)) (snd (p a)))).
  Definition elem_check (e : element Q) : bool :=
    ((0 <? e_attr e)%Z && match e_verts e with
     | [a; b; c] => (0 <=? a)%Z && (0 <=? b)%Z && (0 <=? c)%Z && negb (Qle_bool (area_Q a b c) 0)
     | _ => false end)%bool.
  Definition has (v : Z) (e : element Q) : bool := existsb (Z.eqb v) (e_verts e).
  Definition verts_Q : list Z := flat_map e_verts (m_elems ms).
  Definition numbers_check (n : nat) : bool :=
    (forallb (fun v => (v <? Z.of_nat n)%Z) verts_Q && forallb (fun k => existsb (Z.eqb (Z.of_nat k)) verts_Q) (seq 0 n))%bool.
  Definition side_check (v w : Z) (e : element Q) : bool :=
    match e_verts e with [a; b; c] =>
      (((v =? a) && (w =? b)) || ((v =? b) && (w =? c)) || ((v =? c) && (w =? a)))%Z%bool | _ => false end.
  Definition bdr_check (b : element Q) : bool :=
    ((0 <? e_attr b)%Z && match e_verts b with [v; w] => existsb (side_check v w) (m_elems ms) | _ => false end)%bool.
  Definition connected_check (n : nat) : bool :=
    forallb (fun k => existsb (fun e => has (Z.of_nat k) e && existsb (fun u => (0 <=? u)%Z && (u <? Z.of_nat k)%Z) (e_verts e))%bool (m_elems ms)) (seq 1 (n - 1)).
  Definition mesh_check (n : nat) : bool := (forallb elem_check (m_elems ms) && numbers_check n && forallb bdr_check (m_bdr ms) && connected_check n)%bool.
  Notation ms' := (mesh_R ms).
  Variable n : nat.
  Hypothesis C : mesh_check n = true.
  Lemma checks : (forall e, In e (m_elems ms) -> elem_check e = true) /\ numbers_check n = true /\ (forall b, In b (m_bdr ms) -> bdr_check b = true) /\ connected_check n = true.
  Proof.
    pose proof C as H. unfold mesh_check in H. apply andb_prop in H as (H & H4). apply andb_prop in H as (H & H3). apply andb_prop in H as (H1 & H2).
    rewrite forallb_forall in H1, H3. auto.
  Qed.
  Lemma vertex_R v : vertex ms' v <-> In v verts_Q.
  Proof.
    unfold vertex, verts_Q. rewrite in_flat_map. split.
    - intros (e & I & J). cbn [mesh_R m_elems] in I. apply in_map_iff in I as (q & <- & I). exists q. auto.
    - intros (e & I & J). exists (element_R e). split; [cbn [mesh_R m_elems]; now apply in_map|exact J].
  Qed.
  Lemma vertices_R v : vertex ms' v <-> (0 <= v < Z.of_nat n)%Z.
  Proof.
    rewrite vertex_R. destruct checks as (He & H & _). unfold numbers_check in H. apply andb_prop in H as (H1 & H2). rewrite forallb_forall in H1, H2. split.
    - intros I. pose proof (H1 v I) as L. apply Z.ltb_lt in L. split; [|exact L].
      unfold verts_Q in I. apply in_flat_map in I as (e & I & J). apply He in I. unfold elem_check in I. apply andb_prop in I as (_ & I).
      destruct (e_verts e) as [|a [|b [|c [|? ?]]]]; try discriminate. apply andb_prop in I as (I & _). apply andb_prop in I as (I & I3). apply andb_prop in I as (I1 & I2).
      apply Z.leb_le in I1, I2, I3. destruct J as [<- | [<- | [<- | []]]]; assumption.
    - intros L. specialize (H2 (Z.to_nat v)). rewrite in_seq in H2. specialize (H2 ltac:(lia)). apply existsb_exists in H2 as (w & I & E).
      apply Z.eqb_eq in E. rewrite Z2Nat.id in E by lia. congruence.
  Qed.
  Lemma area_R a b c : Q2R (area_Q a b c) = (fst (m_coord ms' b) - fst (m_coord ms' a)) * (snd (m_coord ms' c) - snd (m_coord ms' a)) -
    (fst (m_coord ms' c) - fst (m_coord ms' a)) * (snd (m_coord ms' b) - snd (m_coord ms' a)).
  Proof. unfold area_Q. rewrite !sub_R, !mul_R, !sub_R. reflexivity. Qed.
  Lemma checked_triangulation : triangulation ms'.
  Proof.
    destruct checks as (He & Hn & Hb & _). constructor.
    - intros e I. cbn [mesh_R m_elems] in I. apply in_map_iff in I as (q & <- & I). apply He in I. unfold elem_check in I. cbn [e_attr element_R e_verts].
      apply andb_prop in I as (I1 & I2). apply Z.ltb_lt in I1. split; [exact I1|].
      destruct (e_verts q) as [|a [|b [|c [|? ?]]]] eqn:Ev; try discriminate. apply andb_prop in I2 as (I & I5). apply andb_prop in I as (I & I4). apply andb_prop in I as (I2 & I3).
      apply Z.leb_le in I2, I3, I4. exists a, b, c. repeat (split; [auto|]).
      assert (P : 0 < Q2R (area_Q a b c)).
      { rewrite <- zero_R. apply Qlt_Rlt. apply Qnot_le_lt. intros L. apply Qle_bool_iff in L. rewrite L in I5. discriminate. }
      rewrite area_R in P. unfold area. cbn [e_verts element_R]. rewrite Ev. cbn [map]. lra.
    - intros v w Hw L. apply vertices_R in Hw. apply vertices_R. lia.
    - intros b I. cbn [mesh_R m_bdr] in I. apply in_map_iff in I as (q & <- & I). apply Hb in I. unfold bdr_check in I. cbn [e_attr element_R e_verts].
      apply andb_prop in I as (I1 & I2). apply Z.ltb_lt in I1. split; [exact I1|].
      destruct (e_verts q) as [|v [|w [|? ?]]] eqn:Ev; try discriminate. apply existsb_exists in I2 as (e & Ie & S).
      exists v, w, (element_R e). split; [reflexivity|]. split; [cbn [mesh_R m_elems]; now apply in_map|].
      unfold side_check in S. destruct (e_verts e) as [|a [|b [|c [|? ?]]]] eqn:Ee; try discriminate.
      unfold side_of. exists a, b, c. cbn [e_verts element_R]. split; [exact Ee|]. cbn [In].
      apply Bool.orb_prop in S as [S | S]; [apply Bool.orb_prop in S as [S | S]|]; apply andb_prop in S as (S1 & S2); apply Z.eqb_eq in S1, S2; subst; auto.
  Qed.
  Lemma checked_connected : connected ms'.
  Proof.
    destruct checks as (_ & _ & _ & Hc). unfold connected_check in Hc. rewrite forallb_forall in Hc.
    set (step := fun v w : Z => exists e, In e (m_elems ms') /\ In v (e_verts e) /\ In w (e_verts e)).
    assert (Sym : forall v w, step v w -> step w v) by (intros v w (e & I & J & K); exists e; auto).
    assert (Z0 : forall k v, (0 <= v < Z.of_nat n)%Z -> (v < Z.of_nat k)%Z -> clos_refl_trans Z step v 0%Z /\ clos_refl_trans Z step 0%Z v).
    { induction k as [|k IH]; intros v L Lk; [lia|]. destruct (Z.eq_dec v 0) as [-> | Ne]; [split; apply rt_refl|].
      specialize (Hc (Z.to_nat v)). rewrite in_seq in Hc. specialize (Hc ltac:(lia)). apply existsb_exists in Hc as (e & Ie & H).
      rewrite Z2Nat.id in H by lia. apply andb_prop in H as (H1 & H2). apply existsb_exists in H1 as (v' & J & E). apply Z.eqb_eq in E. subst v'.
      apply existsb_exists in H2 as (u & K & E). apply andb_prop in E as (E1 & E2). apply Z.leb_le in E1. apply Z.ltb_lt in E2.
      destruct (IH u ltac:(lia) ltac:(lia)) as (R1 & R2).
      assert (S : step v u) by (exists (element_R e); split; [cbn [mesh_R m_elems]; now apply in_map|split; assumption]).
      split; [apply (rt_trans _ _ v u); [now apply rt_step|exact R1]|apply (rt_trans _ _ 0%Z u); [exact R2|apply rt_step; auto]]. }
    intros v w Hv Hw. apply vertices_R in Hv, Hw. apply (rt_trans _ _ v 0%Z w).
    - apply (Z0 (S (Z.to_nat v)) v Hv). lia.
    - apply (Z0 (S (Z.to_nat w)) w Hw). lia.
  Qed.
End Check.
