(** Proofs about integration planes and box averages (C46-C48). *)
From Coq Require Import Reals List Sorted Lra.
From Verif Require Import Prelude StdMap Json ModelM Matrix Results ListLemmas RSum SpecResults SpecBox.
Open Scope R_scope.
Open Scope list_scope.

#[global] Instance ROrdLaws : @OrdLaws R (num_ord (T := R)).
Proof.
  split; cbn [oltb num_ord nltb RNum]; unfold Rltb; intros;
    repeat match goal with |- context [Rlt_dec ?x ?y] => destruct (Rlt_dec x y)
                         | H : context [Rlt_dec ?x ?y] |- _ => destruct (Rlt_dec x y) end;
    try discriminate; try reflexivity; try lra.
Qed.
Lemma Rltb_lt x y : Rltb x y = true <-> x < y.
Proof. unfold Rltb. destruct Rlt_dec; split; intros; try discriminate; auto; contradiction. Qed.
Lemma Rltb_ge x y : Rltb x y = false <-> y <= x.
Proof. unfold Rltb. destruct Rlt_dec; split; intros; try discriminate; auto; lra. Qed.
Lemma Rleb_le x y : Rleb x y = true <-> x <= y.
Proof. unfold Rleb. destruct Rle_dec; split; intros; try discriminate; auto; contradiction. Qed.

Lemma rset_sorted (l : list R) : StronglySorted Rlt (rset l).
Proof.
  unfold rset. pose proof (@sof_sorted R num_ord ROrdLaws l) as S. unfold ssorted in S.
  induction S as [|x s S IH F]; constructor; auto. eapply Forall_impl; [|exact F].
  intros y E. unfold olt in E. cbn in E. now apply Rltb_lt.
Qed.
Lemma in_rset x (l : list R) : In x (rset l) <-> In x l.
Proof. unfold rset. apply (@in_sof R num_ord ROrdLaws). Qed.

(** Sorted lists *)
Lemma sorted_adjacent l a b : StronglySorted Rlt l -> adjacent l a b ->
  In a l /\ In b l /\ a < b /\ forall x, In x l -> x <= a \/ b <= x.
Proof.
  intros S (l1 & l2 & ->). assert (Ia : In a (l1 ++ a :: b :: l2)) by (apply in_or_app; cbn; auto).
  assert (Ib : In b (l1 ++ a :: b :: l2)) by (apply in_or_app; cbn; auto). split; [auto|]. split; [auto|]. clear Ia Ib.
  induction l1 as [|y l1 IH]; cbn in *.
  - inversion S as [|? ? S1 F]; subst. inversion S1 as [|? ? S2 F2]; subst. inversion F as [|? ? H1 H2]; subst.
    split; [auto|]. intros x [<-|[<-|I]]; [left; lra|right; lra|]. rewrite Forall_forall in F2. right. apply Rlt_le. auto.
  - inversion S as [|? ? S1 F]; subst. destruct (IH S1) as [L G]. split; auto. intros x [<-|I]; auto.
    left. rewrite Forall_forall in F. apply Rlt_le, F. apply in_or_app; cbn; auto.
Qed.
Lemma in_consecutive l (a b : R) : In (a, b) (consecutive l) <-> adjacent l a b.
Proof.
  split.
  - induction l as [|x l IH]; [intros []|]. destruct l as [|y l]; [intros []|]. cbn [consecutive]. intros [E|I].
    + injection E as -> ->. exists [], l. reflexivity.
    + destruct (IH I) as (l1 & l2 & E). exists (x :: l1), l2. cbn. now rewrite E.
  - intros (l1 & l2 & ->). induction l1 as [|x l1 IH]; cbn [app consecutive]; [now left|].
    destruct l1 as [|y l1]; cbn [app consecutive] in *; right; auto.
Qed.
(** Neighbours in a sorted list are adjacent. *)
Lemma neighbours_adjacent l a b : StronglySorted Rlt l -> (neighbours l a b <-> adjacent l a b).
Proof.
  intros S. split; [|intros A; apply sorted_adjacent; auto].
  intros (Ia & Ib & L & G). apply in_split in Ia as (l1 & l2 & ->).
  destruct l2 as [|y l2].
  - exfalso. apply in_app_or in Ib as [I|[E|[]]]; [|lra].
    assert (X : forall z, In z l1 -> z < a).
    { clear -S. induction l1 as [|y l1 IH]; cbn in *; [intros ? []|]. inversion S as [|? ? S1 F]; subst.
      intros z [<-|I]; auto. rewrite Forall_forall in F. apply F. apply in_or_app; cbn; auto. }
    specialize (X b I). lra.
  - exists l1, l2. f_equal. f_equal. f_equal.
    destruct (sorted_adjacent (l1 ++ a :: y :: l2) a y S (ex_intro _ l1 (ex_intro _ l2 eq_refl))) as (_ & Iy & Ly & Gy).
    destruct (Gy b Ib) as [X|X]; [lra|]. destruct (G y Iy) as [Y|Y]; lra.
Qed.
Lemma sorted_first l x : StronglySorted Rlt l -> In x l -> (forall y, In y l -> x <= y) -> exists r, l = x :: r.
Proof.
  intros S I M. destruct l as [|y l]; [destruct I|]. exists l. f_equal. destruct I as [E|I]; auto.
  inversion S as [|? ? S1 F]; subst. rewrite Forall_forall in F. pose proof (F x I). pose proof (M y (or_introl eq_refl)). lra.
Qed.
Lemma sorted_last l x : StronglySorted Rlt l -> In x l -> (forall y, In y l -> y <= x) -> exists r, l = r ++ [x].
Proof.
  intros S I M. apply in_split in I as (l1 & l2 & ->). exists l1. f_equal. f_equal.
  destruct l2 as [|y l2]; auto. exfalso.
  destruct (sorted_adjacent _ x y S (ex_intro _ l1 (ex_intro _ l2 eq_refl))) as (_ & Iy & L & _). specialize (M y Iy). lra.
Qed.
Lemma sorted_next l a b : StronglySorted Rlt l -> In a l -> In b l -> a < b -> exists c, adjacent l a c /\ c <= b.
Proof.
  intros S Ia Ib L. apply in_split in Ia as (l1 & l2 & ->). destruct l2 as [|c l2].
  - exfalso. destruct (in_app_or _ _ _ Ib) as [I|[E|[]]]; [|lra].
    assert (X : forall z, In z l1 -> z < a).
    { clear -S. induction l1 as [|y l1 IH]; cbn in *; [intros ? []|]. inversion S as [|? ? S1 F]; subst.
      intros z [<-|I]; auto. rewrite Forall_forall in F. apply F. apply in_or_app; cbn; auto. }
    specialize (X b I). lra.
  - exists c. assert (A : adjacent (l1 ++ a :: c :: l2) a c) by (exists l1, l2; auto). split; auto.
    destruct (sorted_adjacent _ _ _ S A) as (_ & _ & _ & G). destruct (G b Ib); lra.
Qed.
Lemma sorted_cover l x : StronglySorted Rlt l ->
  forall lo hi r r', l = lo :: r -> l = r' ++ [hi] -> lo < hi -> lo <= x <= hi -> exists a b, adjacent l a b /\ a <= x <= b.
Proof.
  induction l as [|y l IH]; intros S lo hi r r' E1 E2 L B; [discriminate|]. injection E1 as -> <-.
  destruct l as [|z l].
  - destruct r' as [|? [|? ?]]; try discriminate. injection E2 as ->. lra.
  - destruct (Rle_dec x z) as [X|X].
    + exists lo, z. split; [exists [], l; auto|]. lra.
    + inversion S as [|? ? S1 F]; subst. destruct r' as [|w r']; [discriminate|]. injection E2 as -> E2.
      assert (Lz : z < hi) by lra.
      destruct (IH S1 z hi l r' eq_refl E2 Lz ltac:(lra)) as (a & b & (l1 & l2 & A) & Bx).
      exists a, b. split; auto. exists (w :: l1), l2. cbn. now rewrite A.
Qed.

(** The planes of one axis *)
Lemma in_samples (a b x : R) : In x (samples a b) <-> equispaced a b x.
Proof.
  unfold samples, equispaced, SAMPLING_POINTS. rewrite in_app_iff, in_map_iff.
  cbn [nofZ nadd nmul nsub ndiv RNum]. change (Z.of_nat 100) with 100%Z.
  assert (P : forall k, a + IZR (Z.of_nat k) * ((b - a) / 100) = a + INR k * ((b - a) / 100)) by (intros; now rewrite INR_IZR_INZ).
  assert (Q : INR 100 = 100) by (rewrite INR_IZR_INZ; reflexivity).
  split.
  - intros [(k & <- & I)|[<-|[]]].
    + apply in_seq in I. exists k. split; [lia|]. apply P.
    + exists 100%nat. split; [lia|]. rewrite Q. field.
  - intros (k & L & ->). destruct (Nat.eq_dec k 100) as [->|N].
    + right. left. rewrite Q. field.
    + left. exists k. split; [apply P|]. apply in_seq. lia.
Qed.
Lemma INR_le_100 k : (k <= 100)%nat -> 0 <= INR k <= 100.
Proof.
  intros L. split; [apply pos_INR|]. replace 100 with (INR 100) by (rewrite INR_IZR_INZ; reflexivity). now apply le_INR.
Qed.
Lemma equispaced_bounds a b x : a < b -> equispaced a b x -> a <= x <= b.
Proof.
  intros L (k & K & ->). apply INR_le_100 in K. destruct K as [K1 K2].
  assert (S : 0 < (b - a) / 100) by lra. split; [nra|].
  assert (INR k * ((b - a) / 100) <= 100 * ((b - a) / 100)) by nra. lra.
Qed.
Section Axis.
  Variables omin omax imin imax : R.
  Hypothesis (L : omin < omax) (L1 : omin <= imin) (L2 : imin <= imax) (L3 : imax <= omax).
  Let faces := [omin; omax; imin; imax].
  Let planes := axis_planes omin omax imin imax.
  Lemma faces_bounds x : In x faces -> omin <= x <= omax.
  Proof. cbn. intuition lra. Qed.
  Lemma neighbours_rset a b : neighbours (rset faces) a b <-> neighbours faces a b.
  Proof.
    unfold neighbours. rewrite !in_rset. split; intros (A & B & C & D); repeat split; auto; intros x I; apply D; now apply in_rset + apply in_rset in I.
  Qed.
  Lemma in_planes x : In x planes <-> exists a b, neighbours faces a b /\ equispaced a b x.
  Proof.
    unfold planes, axis_planes. rewrite in_rset, in_flat_map. split.
    - intros ((a & b) & I & J). cbn [fst snd] in J. exists a, b. split; [|now apply in_samples].
      apply neighbours_rset, (neighbours_adjacent _ _ _ (rset_sorted _)), in_consecutive. exact I.
    - intros (a & b & N & E). exists (a, b). split; [|now apply in_samples].
      apply in_consecutive, (neighbours_adjacent _ _ _ (rset_sorted _)), neighbours_rset. exact N.
  Qed.
  Lemma planes_sorted : StronglySorted Rlt planes. Proof. apply rset_sorted. Qed.
  Lemma face_next a : In a faces -> a < omax -> exists b, neighbours faces a b.
  Proof.
    intros I La. destruct (sorted_next (rset faces) a omax (rset_sorted _)) as (b & A & _); auto.
    1,2: apply in_rset; cbn; auto.
    exists b. apply neighbours_rset, (neighbours_adjacent _ _ _ (rset_sorted _)), A.
  Qed.
  Lemma planes_bounds x : In x planes -> omin <= x <= omax.
  Proof.
    intros I. apply in_planes in I as (a & b & (Ia & Ib & Lab & _) & E). apply equispaced_bounds in E; auto.
    apply faces_bounds in Ia, Ib. lra.
  Qed.
  Lemma face_in_planes x : In x faces -> In x planes.
  Proof.
    intros I. destruct (Rlt_dec x omax) as [X|X].
    - destruct (face_next x I X) as (b & N). apply in_planes. exists x, b. split; auto. exists 0%nat. split; [lia|]. cbn. lra.
    - assert (x = omax) by (apply faces_bounds in I; lra). subst.
      (* the neighbour before omax *)
      assert (P : exists a, neighbours faces a omax).
      { assert (M : exists a, In a [omin; imin; imax] /\ a < omax /\ forall y, In y [omin; imin; imax] -> y <= a \/ omax <= y).
        { destruct (Rlt_dec imax omax) as [A|A]; [exists imax; cbn; intuition lra|].
          destruct (Rlt_dec imin omax) as [B|B]; [exists imin; cbn; intuition lra|].
          exists omin; cbn; intuition lra. }
        destruct M as (a & Ia & La & G). exists a. repeat split; auto; cbn in *; try tauto.
        intros y [<-|[<-|Iy]]; [apply G; auto|right; lra|apply G; auto]. }
      destruct P as (a & N). apply in_planes. exists a, omax. split; auto. exists 100%nat. split; [lia|].
      rewrite INR_IZR_INZ. change (IZR (Z.of_nat 100)) with 100. field.
  Qed.
  Lemma planes_subdivide : subdivides planes omin omax imin imax.
  Proof.
    split.
    - apply planes_sorted.
    - apply sorted_first; [apply planes_sorted|apply face_in_planes; cbn; auto|]. intros y I. now apply planes_bounds.
    - apply sorted_last; [apply planes_sorted|apply face_in_planes; cbn; auto|]. intros y I. now apply planes_bounds.
    - apply face_in_planes; cbn; auto.
    - apply face_in_planes; cbn; auto.
    - intros a b A. destruct (sorted_adjacent _ _ _ planes_sorted A) as (Ia & Ib & Lab & G).
      pose proof (planes_bounds b Ib) as Bb.
      assert (X : exists u v k, neighbours faces u v /\ (k < 100)%nat /\ a = u + INR k * ((v - u) / 100)).
      { apply in_planes in Ia as (u & v & N & k & K & E). destruct (Nat.eq_dec k 100) as [->|NK].
        - assert (a = v) by (rewrite E, INR_IZR_INZ; change (IZR (Z.of_nat 100)) with 100; field). subst v.
          destruct N as (_ & Ia & _). destruct (face_next a Ia ltac:(lra)) as (w & N).
          exists a, w, 0%nat. split; auto. split; [lia|]. cbn. lra.
        - exists u, v, k. split; auto. split; [lia|auto]. }
      destruct X as (u & v & k & N & K & E).
      assert (I' : In (a + (v - u) / 100) planes).
      { apply in_planes. exists u, v. split; auto. exists (S k). split; [lia|]. rewrite S_INR, E. lra. }
      destruct N as (Iu & Iv & Luv & _). apply faces_bounds in Iu, Iv. destruct (G _ I'); lra.
  Qed.
End Axis.

(** Sums over consecutive planes telescope. *)
Lemma telescope (g : R -> R) l : forall lo hi r r', l = lo :: r -> l = r' ++ [hi] ->
  Rsum (consecutive l) (fun ab => g (snd ab) - g (fst ab)) = g hi - g lo.
Proof.
  induction l as [|x l IH]; intros lo hi r r' E1 E2; [discriminate|]. injection E1 as -> <-.
  destruct l as [|y l].
  - destruct r' as [|? [|? ?]]; try discriminate. injection E2 as ->. cbn. lra.
  - destruct r' as [|w r']; [discriminate|]. injection E2 as -> E2. change (consecutive (w :: y :: l)) with ((w, y) :: consecutive (y :: l)).
    rewrite Rsum_cons. cbn [fst snd]. rewrite (IH y hi l r' eq_refl E2). lra.
Qed.
Definition clamp (u v x : R) : R := Rmax u (Rmin v x).
Lemma consecutive_nodup l : StronglySorted Rlt l -> NoDup (consecutive l).
Proof.
  induction 1 as [|x l S IH F]; [constructor|]. destruct l as [|y l]; [constructor|].
  change (consecutive (x :: y :: l)) with ((x, y) :: consecutive (y :: l)). constructor; auto. intros I. apply in_consecutive in I.
  destruct (sorted_adjacent _ _ _ S I) as (Ix & _). rewrite Forall_forall in F. specialize (F x Ix). lra.
Qed.
