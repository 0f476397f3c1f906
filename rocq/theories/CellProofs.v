(** The cells over which getAveragePotential integrates (C47). *)
From Coq Require Import Reals List Sorted Lra.
From Verif Require Import Prelude StdMap Json ModelM Matrix Results ListLemmas RSum SpecResults SpecBox BoxProofs.
Open Scope R_scope.
Open Scope list_scope.

Definition cell (x y : R * R) : box R := {| b_min := (fst x, fst y); b_max := (snd x, snd y) |}.
Definition all_cells (xs ys : list R) : list (box R) :=
  flat_map (fun x => map (cell x) (consecutive ys)) (consecutive xs).
Definition outer_cells (xs ys : list R) (inner : box R) : list (box R) :=
  filter (fun c => negb (isWithinBox inner (middle c))) (all_cells xs ys).

Lemma in_all_cells xs ys c : In c (all_cells xs ys) <->
  adjacent xs (left c) (right c) /\ adjacent ys (bottom c) (top c).
Proof.
  unfold all_cells. rewrite in_flat_map. split.
  - intros ((a & b) & I & J). apply in_map_iff in J as ((u & v) & <- & J). apply in_consecutive in I, J. split; auto.
  - intros [A B]. apply in_consecutive in A, B. eexists. split; [exact A|]. apply in_map_iff. eexists. split; [|exact B].
    destruct c as [[? ?] [? ?]]; reflexivity.
Qed.
Lemma NoDup_app_intro {A} (l1 l2 : list A) : NoDup l1 -> NoDup l2 -> (forall x, In x l1 -> In x l2 -> False) -> NoDup (l1 ++ l2).
Proof.
  induction 1 as [|x l N Nl IH]; intros N2 D; cbn; auto. constructor.
  - rewrite in_app_iff. intros [I|I]; auto. apply (D x); cbn; auto.
  - apply IH; auto. intros y I. apply D. now right.
Qed.
Lemma all_cells_nodup xs ys : StronglySorted Rlt xs -> StronglySorted Rlt ys -> NoDup (all_cells xs ys).
Proof.
  intros Sx Sy. unfold all_cells. pose proof (consecutive_nodup xs Sx) as Nx. pose proof (consecutive_nodup ys Sy) as Ny.
  induction Nx as [|x l N Nl IH]; [constructor|]. cbn [flat_map]. apply NoDup_app_intro; auto.
  - apply FinFun.Injective_map_NoDup; auto. intros [a b] [c d] E. injection E as -> ->. reflexivity.
  - intros c I J. apply in_map_iff in I as (y & <- & _). apply in_flat_map in J as (x' & Ix' & J).
    apply in_map_iff in J as (y' & E & _). injection E as E1 _ E3 _. destruct x as [a b], x' as [a' b']. cbn in *; subst. auto.
Qed.
Lemma within_iff b p : isWithinBox b p = true <-> in_box b p.
Proof.
  unfold isWithinBox, in_box, left, right, bottom, top. cbn [nleb RNum]. rewrite !andb_true_iff, !Rleb_le. tauto.
Qed.

(** Intervals between planes that contain the faces u, v lie in [u, v] or meet it in an end at most. *)
Lemma interval_inside l u v a b x : StronglySorted Rlt l -> In u l -> In v l -> adjacent l a b ->
  a < x < b -> u <= x <= v -> u <= a /\ b <= v.
Proof.
  intros S Iu Iv A B W. destruct (sorted_adjacent _ _ _ S A) as (_ & _ & _ & G). destruct (G u Iu), (G v Iv); lra.
Qed.
Lemma interval_unique l a b c d x : StronglySorted Rlt l -> adjacent l a b -> adjacent l c d ->
  a < x < b -> c < x < d -> a = c /\ b = d.
Proof.
  intros S A B Xa Xc. destruct (sorted_adjacent _ _ _ S A) as (Ia & Ib & La & Ga).
  destruct (sorted_adjacent _ _ _ S B) as (Ic & Id & Lc & Gc).
  destruct (Ga c Ic), (Ga d Id), (Gc a Ia), (Gc b Ib); lra.
Qed.
Lemma middle_interior c : proper c -> interior c (middle c).
Proof. unfold proper, interior, middle; cbn. lra. Qed.

Section Cells.
  Variables inner outer : box R.
  Hypothesis (Po : proper outer) (Oi : ordered inner) (Co : contained inner outer).
  Variables xs ys : list R.
  Hypothesis (Sx : subdivides xs (left outer) (right outer) (left inner) (right inner)).
  Hypothesis (Sy : subdivides ys (bottom outer) (top outer) (bottom inner) (top inner)).

  Lemma cell_proper c : In c (all_cells xs ys) -> proper c.
  Proof.
    intros I. apply in_all_cells in I as [A B]. split.
    - now apply (sorted_adjacent _ _ _ (sd_increasing _ _ _ _ _ Sx)) in A.
    - now apply (sorted_adjacent _ _ _ (sd_increasing _ _ _ _ _ Sy)) in B.
  Qed.
  (** A cell with its middle in the inner box lies in it. *)
  Lemma cell_inside c p : In c (all_cells xs ys) -> interior c p -> in_box inner p -> contained c inner.
  Proof.
    intros I [X Y] [U V]. apply in_all_cells in I as [A B].
    pose proof (interval_inside _ _ _ _ _ _ (sd_increasing _ _ _ _ _ Sx) (sd_left _ _ _ _ _ Sx) (sd_right _ _ _ _ _ Sx) A X U).
    pose proof (interval_inside _ _ _ _ _ _ (sd_increasing _ _ _ _ _ Sy) (sd_left _ _ _ _ _ Sy) (sd_right _ _ _ _ _ Sy) B Y V).
    unfold contained. tauto.
  Qed.
  Lemma in_outer_cells c : In c (outer_cells xs ys inner) <-> In c (all_cells xs ys) /\ ~ in_box inner (middle c).
  Proof.
    unfold outer_cells. rewrite filter_In. rewrite <- within_iff. destruct isWithinBox; cbn; intuition congruence.
  Qed.
  Lemma bounds_of_planes l lo hi u v x : subdivides l lo hi u v -> In x l -> lo <= x <= hi.
  Proof.
    intros [S (r & E1) (r' & E2) _ _ _] I. split.
    - subst l. destruct I as [->|I]; [lra|]. inversion S as [|? ? S1 F]; subst. rewrite Forall_forall in F. apply Rlt_le. auto.
    - rewrite E2 in I, S. apply in_app_or in I as [I|[->|[]]]; [|lra]. clear -S I. induction r' as [|y r' IH]; [destruct I|].
      cbn in S. inversion S as [|? ? S1 F]; subst. destruct I as [->|I]; auto. rewrite Forall_forall in F. apply Rlt_le, F, in_or_app.
      cbn; auto.
  Qed.
  Lemma cells_tile : tiles (outer_cells xs ys inner) inner outer.
  Proof.
    pose proof (sd_increasing _ _ _ _ _ Sx) as Ix. pose proof (sd_increasing _ _ _ _ _ Sy) as Iy.
    split.
    - intros c I. apply in_outer_cells in I as [I _]. now apply cell_proper.
    - intros c I. apply in_outer_cells in I as [I _]. apply in_all_cells in I as [A B].
      apply (sorted_adjacent _ _ _ Ix) in A as (A1 & A2 & _). apply (sorted_adjacent _ _ _ Iy) in B as (B1 & B2 & _).
      apply (bounds_of_planes _ _ _ _ _ _ Sx) in A1, A2. apply (bounds_of_planes _ _ _ _ _ _ Sy) in B1, B2.
      unfold contained. tauto.
    - intros c p I Ip W. apply in_outer_cells in I as [I N]. apply N. pose proof (cell_inside c p I Ip W) as C.
      pose proof (middle_interior c (cell_proper c I)) as M. unfold contained, interior, in_box in *. lra.
    - apply NoDup_filter, all_cells_nodup; auto.
    - intros c d p Ic Id [Pc Pc'] [Pd Pd']. apply in_outer_cells in Ic as [Ic _]. apply in_outer_cells in Id as [Id _].
      apply in_all_cells in Ic as [Ac Bc]. apply in_all_cells in Id as [Ad Bd].
      destruct (interval_unique _ _ _ _ _ _ Ix Ac Ad Pc Pd) as [E1 E2].
      destruct (interval_unique _ _ _ _ _ _ Iy Bc Bd Pc' Pd') as [E3 E4].
      destruct c as [[? ?] [? ?]], d as [[? ?] [? ?]]; cbn in *; subst; reflexivity.
    - intros p [Bx By].
      destruct (sd_first _ _ _ _ _ Sx) as (r & E1), (sd_last _ _ _ _ _ Sx) as (r' & E2).
      destruct (sorted_cover xs (fst p) Ix _ _ _ _ E1 E2 (proj1 Po) Bx) as (a & b & A & Ba).
      destruct (sd_first _ _ _ _ _ Sy) as (s & F1), (sd_last _ _ _ _ _ Sy) as (s' & F2).
      destruct (sorted_cover ys (snd p) Iy _ _ _ _ F1 F2 (proj2 Po) By) as (c & d & C & Bc).
      set (k := cell (a, b) (c, d)). assert (Ik : In k (all_cells xs ys)) by (apply in_all_cells; split; auto).
      assert (Pk : in_box k p) by (unfold k, in_box; cbn; tauto).
      destruct (isWithinBox inner (middle k)) eqn:W.
      + left. apply within_iff in W. pose proof (cell_inside k _ Ik (middle_interior k (cell_proper k Ik)) W) as K.
        unfold contained, in_box in *. lra.
      + right. exists k. split; auto. unfold outer_cells. apply filter_In. split; auto. now rewrite W.
    - intros c I. apply in_outer_cells in I as [I _]. apply in_all_cells in I as [A B]. split.
      + apply (sd_steps _ _ _ _ _ Sx _ _ A).
      + apply (sd_steps _ _ _ _ _ Sy _ _ B).
  Qed.
  (** Their areas add up. *)
  Lemma clamp_in u v x : u <= x <= v -> clamp u v x = x.
  Proof. intros B. unfold clamp. rewrite Rmin_right by lra. apply Rmax_right. lra. Qed.
  Lemma clamp_low u v x : u <= v -> x <= u -> clamp u v x = u.
  Proof. intros B X. unfold clamp. rewrite Rmin_right by lra. apply Rmax_left. lra. Qed.
  Lemma clamp_high u v x : u <= v -> v <= x -> clamp u v x = v.
  Proof. intros B X. unfold clamp. rewrite Rmin_left by lra. apply Rmax_right. lra. Qed.
  Lemma clamp_step l lo hi u v a b : subdivides l lo hi u v -> u <= v -> adjacent l a b ->
    (u <= a /\ b <= v /\ clamp u v b - clamp u v a = b - a) \/
    (~ (u <= (a + b) / 2 <= v) /\ clamp u v b - clamp u v a = 0).
  Proof.
    intros S L A. destruct (sorted_adjacent _ _ _ (sd_increasing _ _ _ _ _ S) A) as (_ & _ & Lab & G).
    destruct (G u (sd_left _ _ _ _ _ S)) as [U|U], (G v (sd_right _ _ _ _ _ S)) as [V|V].
    - right. split; [lra|]. rewrite !clamp_high by lra. lra.
    - left. split; auto. split; auto. rewrite !clamp_in by lra. reflexivity.
    - exfalso. lra.
    - right. split; [lra|]. rewrite !clamp_low by lra. lra.
  Qed.
  Lemma cell_area_split c : In c (all_cells xs ys) ->
    (if isWithinBox inner (middle c) then 0 else area c) =
    area c - (clamp (left inner) (right inner) (right c) - clamp (left inner) (right inner) (left c)) *
             (clamp (bottom inner) (top inner) (top c) - clamp (bottom inner) (top inner) (bottom c)).
  Proof.
    intros I. pose proof (cell_proper c I) as P. apply in_all_cells in I as [A B].
    destruct (clamp_step _ _ _ _ _ _ _ Sx (proj1 Oi) A) as [(X1 & X2 & X3)|[X1 X3]];
    destruct (clamp_step _ _ _ _ _ _ _ Sy (proj2 Oi) B) as [(Y1 & Y2 & Y3)|[Y1 Y3]]; rewrite X3, Y3.
    1: assert (W : isWithinBox inner (middle c) = true)
        by (apply within_iff; unfold in_box, middle; cbn [fst snd]; destruct P; lra).
    2-4: assert (W : isWithinBox inner (middle c) = false)
        by (apply not_true_iff_false; rewrite within_iff; unfold in_box, middle; cbn [fst snd]; tauto).
    all: rewrite W; unfold area; ring.
  Qed.
  Lemma total_Rsum l f : total l f = Rsum l f.
  Proof. induction l as [|x l IH]; [reflexivity|]. rewrite Rsum_cons, <- IH. reflexivity. Qed.
  Lemma Rsum_filter {A} (P : A -> bool) l (f : A -> R) : Rsum (filter P l) f = Rsum l (fun x => if P x then f x else 0).
  Proof.
    induction l as [|x l IH]; [reflexivity|]. cbn [filter]. rewrite Rsum_cons. destruct (P x); rewrite ?Rsum_cons, IH; lra.
  Qed.
  Lemma Rsum_cells (f : box R -> R) :
    Rsum (all_cells xs ys) f = Rsum (consecutive xs) (fun x => Rsum (consecutive ys) (fun y => f (cell x y))).
  Proof.
    unfold all_cells. induction (consecutive xs) as [|x l IH]; [reflexivity|]. cbn [flat_map].
    rewrite Rsum_app, Rsum_cons, IH, Rsum_map. reflexivity.
  Qed.
  Lemma cells_product (g h : R -> R) :
    Rsum (all_cells xs ys) (fun c => (g (right c) - g (left c)) * (h (top c) - h (bottom c))) =
    (g (right outer) - g (left outer)) * (h (top outer) - h (bottom outer)).
  Proof.
    destruct (sd_first _ _ _ _ _ Sx) as (r & E1), (sd_last _ _ _ _ _ Sx) as (r' & E2).
    destruct (sd_first _ _ _ _ _ Sy) as (s & F1), (sd_last _ _ _ _ _ Sy) as (s' & F2).
    rewrite Rsum_cells. unfold right, left, top, bottom; cbn [b_min b_max fst snd cell].
    rewrite (Rsum_ext _ _ (fun x => (g (snd x) - g (fst x)) * (h (top outer) - h (bottom outer)))).
    - rewrite Rsum_scal_r, (telescope g xs _ _ _ _ E1 E2). reflexivity.
    - intros x _. rewrite Rsum_scal. now rewrite (telescope h ys _ _ _ _ F1 F2).
  Qed.
  Lemma total_area : total (outer_cells xs ys inner) area = area outer - area inner.
  Proof.
    rewrite total_Rsum. unfold outer_cells. rewrite Rsum_filter.
    rewrite (Rsum_ext _ _ (fun c => (right c - left c) * (top c - bottom c) -
      (clamp (left inner) (right inner) (right c) - clamp (left inner) (right inner) (left c)) *
      (clamp (bottom inner) (top inner) (top c) - clamp (bottom inner) (top inner) (bottom c)))).
    - rewrite Rsum_minus, (cells_product (fun x => x) (fun x => x)), cells_product.
      destruct Oi as [O1 O2], Co as (C1 & C2 & C3 & C4).
      rewrite (clamp_high (left inner) (right inner) (right outer)), (clamp_low (left inner) (right inner) (left outer)) by lra.
      rewrite (clamp_high (bottom inner) (top inner) (top outer)), (clamp_low (bottom inner) (top inner) (bottom outer)) by lra.
      reflexivity.
    - intros c I. pose proof (cell_area_split c I) as E. unfold area at 2 in E. rewrite <- E. destruct isWithinBox; reflexivity.
  Qed.

  (** The loops of getAveragePotential. *)
  Variable expansion : R * R -> list (R * R) -> R * R -> outcome R.
  Lemma inner_loop f x phi : (forall y, In y (consecutive ys) -> isWithinBox inner (middle (cell x y)) = false ->
        expansion (middle (cell x y)) (fr_ab f) (fr_center f) = Ok (phi (middle (cell x y)))) ->
    forall acc, foldM (cell_step expansion f inner x) (consecutive ys) acc =
      Ok (acc + Rsum (consecutive ys) (fun y => if isWithinBox inner (middle (cell x y)) then 0 else area (cell x y) * phi (middle (cell x y)))).
  Proof.
    induction (consecutive ys) as [|y l IH]; intros E acc; cbn [foldM].
    - rewrite Rsum_nil. f_equal. lra.
    - unfold cell_step at 1. cbn [nmul nadd nsub RNum]. rewrite Rsum_cons.
      assert (M : (half * (fst x + snd x), half * (fst y + snd y)) = middle (cell x y)).
      { unfold middle, left, right, bottom, top, half; cbn [b_min b_max fst snd cell]. rewrite lit_half. f_equal; field. }
      rewrite M. destruct (isWithinBox inner (middle (cell x y))) eqn:W.
      + cbn [bind]. rewrite IH; [f_equal; lra|]. intros y' I. apply E. now right.
      + rewrite E; [|now left|auto]. cbn [bind]. rewrite IH; [|intros y' I; apply E; now right].
        f_equal. unfold area at 2, left, right, top, bottom. cbn [b_min b_max fst snd cell]. lra.
  Qed.
  Lemma outer_loop f phi : (forall c, In c (outer_cells xs ys inner) -> expansion (middle c) (fr_ab f) (fr_center f) = Ok (phi (middle c))) ->
    foldM (fun acc x => foldM (cell_step expansion f inner x) (consecutive ys) acc) (consecutive xs) 0 =
      Ok (total (outer_cells xs ys inner) (fun c => area c * phi (middle c))).
  Proof.
    intros E.
    assert (G : forall l acc, (forall x, In x l -> In x (consecutive xs)) ->
      foldM (fun acc x => foldM (cell_step expansion f inner x) (consecutive ys) acc) l acc =
      Ok (acc + Rsum l (fun x => Rsum (consecutive ys) (fun y => if isWithinBox inner (middle (cell x y)) then 0 else area (cell x y) * phi (middle (cell x y)))))).
    { induction l as [|x l IH]; intros acc Hl; cbn [foldM].
      - rewrite Rsum_nil. f_equal. lra.
      - rewrite (inner_loop f x phi).
        + cbn [bind]. rewrite IH by (intros; apply Hl; now right). rewrite Rsum_cons. f_equal. lra.
        + intros y I W. apply E. unfold outer_cells. apply filter_In. split; [|now rewrite W].
          unfold all_cells. apply in_flat_map. exists x. split; [apply Hl; now left|]. now apply in_map. }
    rewrite G by auto. f_equal. rewrite Rplus_0_l, total_Rsum. unfold outer_cells. rewrite Rsum_filter, Rsum_cells.
    apply Rsum_ext. intros x _. apply Rsum_ext. intros y _. destruct isWithinBox; reflexivity.
  Qed.
End Cells.

Lemma outside_ok_iff a b c d : outside_ok (T := R) a b c d = true <-> a <= c /\ d <= b.
Proof.
  unfold outside_ok. cbn [nltb RNum]. rewrite negb_true_iff, orb_false_iff, !Rltb_ge. tauto.
Qed.
Lemma planes_ok (outer inner : box R) : contained inner outer ->
  buildIntegrationPlanesForBox outer inner =
    Ok (axis_planes (left outer) (right outer) (left inner) (right inner),
        axis_planes (bottom outer) (top outer) (bottom inner) (top inner)).
Proof.
  intros (A & B & C & D). unfold buildIntegrationPlanesForBox.
  rewrite (proj2 (outside_ok_iff _ _ _ _)) by (split; [exact A|exact B]).
  rewrite (proj2 (outside_ok_iff _ _ _ _)) by (split; [exact C|exact D]). reflexivity.
Qed.
Lemma planes_throw (outer inner : box R) : ~ contained inner outer ->
  buildIntegrationPlanesForBox outer inner = Throw (RuntimeError "Integration box has to be larger than the  inner region.").
Proof.
  intros N. unfold buildIntegrationPlanesForBox.
  destruct (outside_ok (fst (b_min outer)) _ _ _ && _) eqn:E; [|reflexivity].
  exfalso. apply N. apply andb_true_iff in E as [E1 E2]. apply outside_ok_iff in E1, E2. unfold contained, left, right, top, bottom. tauto.
Qed.
