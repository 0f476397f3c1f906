(** The check of Certificate.v in integers: table entries times [B], potentials times [N], D times [B N]. No fractions
    are reduced, so that fields of elements of order 3 can be checked. *)
From Coq Require Import QArith Qreals Lia.
From Verif Require Import Prelude ModelM Matrix Solver Fem Certificate.
Open Scope Z_scope.
Open Scope list_scope.

Definition scale (B : Z) (q : Q) : Z := Qnum q * (B / Zpos (Qden q)).
Definition fits (B : Z) (q : Q) : bool := B mod Zpos (Qden q) =? 0.
(** [z] is [K] times [q] *)
Definition rel (K : Z) (q : Q) (z : Z) : Prop := (q * inject_Z K == inject_Z z)%Q.
Lemma scale_rel B q : fits B q = true -> rel B q (scale B q).
Proof.
  unfold fits, rel, scale. intros H. apply Z.eqb_eq in H. pose proof (Z.div_mod B (Zpos (Qden q)) ltac:(discriminate)) as E. rewrite H, Z.add_0_r in E.
  unfold Qeq. cbn [Qmult inject_Z Qnum Qden]. rewrite Pos.mul_1_r, Z.mul_1_r. rewrite E at 1. ring.
Qed.
Lemma mul_rel A B x y a b : rel A x a -> rel B y b -> rel (A * B) (nmul x y) (a * b).
Proof. unfold rel. intros H1 H2. cbn [nmul QNum]. rewrite Qred_correct, !inject_Z_mult, <- H1, <- H2. ring. Qed.
Lemma add_rel A x y a b : rel A x a -> rel A y b -> rel A (nadd x y) (a + b).
Proof. unfold rel. intros H1 H2. cbn [nadd QNum]. rewrite Qred_correct, inject_Z_plus, <- H1, <- H2. ring. Qed.
Lemma opp_rel A x a : rel A x a -> rel A (nopp x) (- a).
Proof. unfold rel. intros H1. cbn [nopp QNum]. rewrite inject_Z_opp, <- H1. ring. Qed.
Lemma rel_zero A : rel A 0%Q 0.
Proof. unfold rel. apply Qmult_0_l. Qed.
Lemma rel_vanishes A x : A <> 0 -> rel A x 0 -> Qeq_bool x 0 = true.
Proof.
  intros N H. apply Qeq_bool_iff. unfold rel, Qeq in *. cbn [Qmult inject_Z Qnum Qden] in *. rewrite Z.mul_1_r in *. rewrite Z.mul_0_l in H |- *.
  apply Z.mul_eq_0 in H. tauto.
Qed.

(** ** Vectors *)
Notation vrel K := (Forall2 (rel K)).
Definition zvec (B : Z) (l : list Q) : list Z := map (scale B) l.
Definition vfits (B : Z) (l : list Q) : bool := forallb (fits B) l.
Lemma zvec_rel B l : vfits B l = true -> vrel B l (zvec B l).
Proof.
  induction l as [|x l IH]; intros H; [constructor|]. cbn [vfits forallb] in H. apply andb_prop in H as (H1 & H2). cbn [zvec map]. constructor; [now apply scale_rel|now apply IH].
Qed.
Fixpoint zdot (a x : list Z) : Z := match a, x with u :: a', v :: x' => u * v + zdot a' x' | _, _ => 0 end.
Lemma dot_rel A B a x az xz : vrel A a az -> vrel B x xz -> rel (A * B) (dot a x) (zdot az xz).
Proof.
  intros H. revert x xz. induction H as [|u uz a az Hu _ IH]; intros x xz H; [apply rel_zero|]. destruct H as [|v vz x xz Hv Hx]; [apply rel_zero|].
  cbn [dot zdot]. apply add_rel; [now apply mul_rel|now apply IH].
Qed.
Definition zaxpy (c : Z) (v acc : list Z) : list Z := map (fun p => fst p * c + snd p) (combine v acc).
Lemma axpy_rel A B c v acc cz vz az : rel A c cz -> vrel B v vz -> vrel (A * B) acc az -> vrel (A * B) (axpy c v acc) (zaxpy cz vz az).
Proof.
  intros Hc H. revert acc az. unfold axpy, zaxpy. induction H as [|u uz v vz Hu _ IH]; intros acc az Ha; [constructor|]. destruct Ha as [|w wz acc az Hw Ha]; [constructor|].
  cbn [combine map fst snd]. constructor; [|now apply IH]. apply add_rel; [|exact Hw]. rewrite (Z.mul_comm uz cz). now apply mul_rel.
Qed.
Definition zlincomb (n : nat) (l : list (Z * list Z)) : list Z := fold_right (fun cv acc => zaxpy (fst cv) (snd cv) acc) (repeat 0 n) l.
Definition prel (A B : Z) (p : Q * list Q) (z : Z * list Z) : Prop := rel A (fst p) (fst z) /\ vrel B (snd p) (snd z).
Lemma lincomb_rel A B n l lz : Forall2 (prel A B) l lz -> vrel (A * B) (lincomb n l) (zlincomb n lz).
Proof.
  induction 1 as [|p z l lz (H1 & H2) _ IH]; cbn [lincomb zlincomb fold_right].
  - induction n as [|n IH]; cbn [repeat]; [constructor|]. constructor; [apply rel_zero|exact IH].
  - now apply axpy_rel.
Qed.
Definition zvanish (P : nat -> bool) (n : nat) (r : list Z) : bool := forallb (fun k => P k || (nth k r 0 =? 0)) (seq 0 n).
Lemma vanish_rel K P n r rz : K <> 0 -> vrel K r rz -> zvanish P n rz = true -> vanish P n r = true.
Proof.
  intros N H V. unfold vanish, zvanish in *. rewrite forallb_forall in V |- *. intros k I. specialize (V k I). apply Bool.orb_true_iff in V as [V | V]; rewrite ?V; [reflexivity|].
  apply Bool.orb_true_iff. right. apply Z.eqb_eq in V.
  clear I. assert (R : rel K (nth k r 0%Q) (nth k rz 0)).
  { clear V. revert k. induction H as [|x z r rz Hx _ IH]; intros [|k]; cbn [nth]; try apply rel_zero; [exact Hx|apply IH]. }
  rewrite V in R. now apply (rel_vanishes K).
Qed.
Lemma flat_rel {A} (K L : Z) (f : A -> list (Q * list Q)) (g : A -> list (Z * list Z)) (l : list A) : (forall x, In x l -> Forall2 (prel K L) (f x) (g x)) -> Forall2 (prel K L) (flat_map f l) (flat_map g l).
Proof. induction l as [|x l IH]; intros H; [constructor|]. cbn [flat_map]. apply Forall2_app; [apply H; now left|apply IH; intros y I; apply H; now right]. Qed.

Section Fast.
  Variables B N : Z.
  Variable D : discretization Q.
  Variable eps : Z -> Q.
  Variable held : nat -> bool.
  Variables phi d : list Q.
  Definition zphi_pairs (P : list Z) : list (Z * list Z) :=
    flat_map (fun q => let w := scale B (nmul (g_weight q) (eps (g_attr q))) in let x := zvec B (g_x q) in let y := zvec B (g_y q) in [(w * zdot x P, x); (w * zdot y P, y)]) (di_grad D).
  Definition zfield (P : list Z) : list Z := map (fun row => - zdot (zvec B row) P) (di_gradient D).
  Definition zd_pairs (E d : list Z) : list (Z * list Z) :=
    flat_map (fun q => let w := scale B (r_weight q) in let x := zvec B (r_x q) in let y := zvec B (r_y q) in [(w * zdot x d, x); (w * zdot y d, y)]) (di_rt D) ++
    flat_map (fun q => let w := scale B (nmul (x_weight q) (eps (x_attr q))) in
                       [(- (w * zdot (zvec B (x_ndx q)) E), zvec B (x_rtx q)); (- (w * zdot (zvec B (x_ndy q)) E), zvec B (x_rty q))]) (di_mix D).
  Definition tables_fit : bool :=
    (forallb (fun q => fits B (nmul (g_weight q) (eps (g_attr q))) && vfits B (g_x q) && vfits B (g_y q)) (di_grad D) &&
     forallb (fun q => fits B (r_weight q) && vfits B (r_x q) && vfits B (r_y q)) (di_rt D) &&
     forallb (fun q => fits B (nmul (x_weight q) (eps (x_attr q))) && vfits B (x_ndx q) && vfits B (x_ndy q) && vfits B (x_rtx q) && vfits B (x_rty q)) (di_mix D) &&
     forallb (vfits B) (di_gradient D))%bool.
  Definition fast : bool :=
    ((0 <? B) && (0 <? N) && vectors_fit D && (List.length phi =? di_nH1 D)%nat && (List.length d =? di_nRT D)%nat && tables_fit && vfits N phi && vfits (B * N) d &&
     (let P := zvec N phi in zvanish held (di_nH1 D) (zlincomb (di_nH1 D) (zphi_pairs P)) &&
      zvanish (fun _ => false) (di_nRT D) (zlincomb (di_nRT D) (zd_pairs (zfield P) (zvec (B * N) d)))))%bool.

  Theorem fast_certified abc : fast = true -> certified D eps abc (fun _ => false) held phi d = true.
  Proof.
    intros H. unfold fast in H. apply andb_prop in H as (H & HV). apply andb_prop in HV as (V1 & V2). apply andb_prop in H as (H & Fd). apply andb_prop in H as (H & Fp). apply andb_prop in H as (H & Ft).
    apply andb_prop in H as (H & Ld). apply andb_prop in H as (H & Lp). apply andb_prop in H as (H & Vf). apply andb_prop in H as (PB & PN).
    apply Z.ltb_lt in PB, PN. unfold tables_fit in Ft. apply andb_prop in Ft as (Ft & F4). apply andb_prop in Ft as (Ft & F3). apply andb_prop in Ft as (F1 & F2).
    rewrite forallb_forall in F1, F2, F3, F4. apply zvec_rel in Fp, Fd.
    unfold certified. rewrite Vf, Lp, Ld. cbn [andb].
    assert (Re : vrel (B * N) (field_Q D phi) (zfield (zvec N phi))).
    { unfold field_Q, zfield. clear - F4 Fp. induction (di_gradient D) as [|row l IH]; cbn [map]; [constructor|]. constructor.
      - apply opp_rel, dot_rel; [|exact Fp]. apply zvec_rel, F4. now left.
      - apply IH. intros x I. apply F4. now right. }
    apply andb_true_intro. split.
    - refine (vanish_rel _ _ _ _ _ _ _ V1). 2:{ apply (lincomb_rel (B * (B * N)) B). unfold phi_pairs, zphi_pairs.
        replace (filter _ (di_abc D)) with (@nil (surf_point Q)) by (clear; induction (di_abc D); auto). cbn [map]. rewrite app_nil_r.
        apply flat_rel. intros q I. apply F1 in I. apply andb_prop in I as (I & Iy). apply andb_prop in I as (Iw & Ix). apply zvec_rel in Ix, Iy. apply scale_rel in Iw.
        repeat constructor; cbn [fst snd]; try assumption; apply mul_rel; try assumption; apply dot_rel; assumption. }
      clear - PB PN. assert (0 < B * N) by now apply Z.mul_pos_pos. assert (0 < B * (B * N)) by now apply Z.mul_pos_pos. assert (0 < B * (B * N) * B) by now apply Z.mul_pos_pos. lia.
    - refine (vanish_rel _ _ _ _ _ _ _ V2). 2:{ apply (lincomb_rel (B * (B * (B * N))) B). unfold d_pairs, zd_pairs. apply Forall2_app; apply flat_rel; intros q I.
        + apply F2 in I. apply andb_prop in I as (I & Iy). apply andb_prop in I as (Iw & Ix). apply zvec_rel in Ix, Iy. apply scale_rel in Iw.
          repeat constructor; cbn [fst snd]; try assumption; apply mul_rel; try assumption; apply dot_rel; assumption.
        + apply F3 in I. apply andb_prop in I as (I & I5). apply andb_prop in I as (I & I4). apply andb_prop in I as (I & I3). apply andb_prop in I as (Iw & I2). apply zvec_rel in I2, I3, I4, I5. apply scale_rel in Iw.
          repeat constructor; cbn [fst snd]; try assumption; apply opp_rel, mul_rel; try assumption; apply dot_rel; assumption. }
      clear - PB PN. assert (0 < B * N) by now apply Z.mul_pos_pos. assert (0 < B * (B * N)) by now apply Z.mul_pos_pos. assert (0 < B * (B * (B * N))) by now apply Z.mul_pos_pos. assert (0 < B * (B * (B * N)) * B) by now apply Z.mul_pos_pos. lia.
  Qed.
End Fast.
