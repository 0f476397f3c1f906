(** C84: the rounding errors of the numbers that are reported. *)
From Coq Require Import Reals Lra Lia Floats.
From Verif Require Import Prelude StdMap Materials ModelM Parser Matrix Solver Results Driver SpecInput SpecModel SpecMatrix SpecDriver SpecInner SpecDouble
  RSum ListLemmas MatrixCalls DoubleFacts Rounding RoundAverage Toy.
Open Scope R_scope.
Open Scope list_scope.

(** ** The reduction to C *)
(** Open and semi-open problems: each entry is a number, and differs from the exact value for the same
    generalized matrix by at most 16 N^2 k^2 u A: A is the sum of the absolute values of its N x N
    entries, k the ratio of A to the absolute value of the total, u = 2^-53. *)
Theorem C84_reduction :
  forall (g : matrix float) (o : openness), o <> Closed -> nc g = nr g -> numbers g ->
    let G := values g in
    let n := INR (nr g) in
    total G <> 0 -> moderate (magnitude G) -> 4 * (n * n) * cancellation G * roundoff <= 1 ->
    forall i j, (S i < nr g)%nat -> (S j < nr g)%nat ->
      is_number (ent (getCFromGeneralizedC g o) i j) /\
      Rabs (double_value (ent (getCFromGeneralizedC g o) i j) - neutral_capacitance G i j) <=
        16 * (n * n) * (cancellation G * cancellation G) * roundoff * magnitude G.
Proof.
  intros g o No Sq Nu G n HT Md Sm i j Li Lj. destruct o; [| |now destruct No]; cbn [getCFromGeneralizedC ent]; exact (reduction_entry g Sq Nu HT Md Sm i j Li Lj).
Qed.
Print Assumptions C84_reduction.
(** The same for the C matrix that a Driver returns. *)
Theorem C84_capacitances_of_open_problems :
  forall (dbg : bool) femlib moment (d : driver float) (o : openness) (g C : matrix float) w w',
    determineOpenness dbg (dr_model d) = Ok o -> o <> Closed ->
    reply dbg femlib moment (CallGeneralizedC false) d = (Ok (VMatrix g), w') ->
    reply dbg femlib moment CallC d = (Ok (VMatrix C), w) ->
    let G := values g in
    let n := INR (nr g) in
    numbers g -> total G <> 0 -> moderate (magnitude G) -> 4 * (n * n) * cancellation G * roundoff <= 1 ->
    S (nr C) = nr g /\ nc C = nr C /\ nc g = nr g /\
    forall i j, (i < nr C)%nat -> (j < nc C)%nat ->
      is_number (ent C i j) /\
      Rabs (double_value (ent C i j) - neutral_capacitance G i j) <=
        16 * (n * n) * (cancellation G * cancellation G) * roundoff * magnitude G.
Proof.
  intros dbg femlib moment d o g C w w' Eo No Eg EC G n Nu HT Md Sm. destruct (C_inv _ _ _ _ _ _ EC) as (g' & op & Eg' & Eo' & ->).
  rewrite Eo in Eo'. injection Eo' as <-. pose proof (eq_trans (eq_sym Eg) Eg') as K. injection K as <- <-.
  assert (Sq : nc g = nr g) by (symmetry; apply (gc_run _ _ _ _ _ _ _ Eg)).
  assert (Z : nr g <> 0%nat). { intros Z. apply HT. unfold total. change (nr G) with (nr g). rewrite Z. reflexivity. }
  assert (D : nr (getCFromGeneralizedC g o) = (nr g - 1)%nat /\ nc (getCFromGeneralizedC g o) = (nc g - 1)%nat) by (destruct o; auto). destruct D as (-> & ->).
  rewrite Sq. split; [lia|]. split; [reflexivity|]. split; [reflexivity|]. intros i j Li Lj. apply C84_reduction; auto; lia.
Qed.
Print Assumptions C84_capacitances_of_open_problems.
(** Closed problems: no rounding at all. *)
Theorem C84_capacitances_of_closed_problems :
  forall (dbg : bool) femlib moment (d : driver float) (C : matrix float) w,
    determineOpenness dbg (dr_model d) = Ok Closed ->
    reply dbg femlib moment CallC d = (Ok (VMatrix C), w) ->
    exists g, reply dbg femlib moment (CallGeneralizedC false) d = (Ok (VMatrix g), w) /\
      forall i j, ent C i j = ent g (S i) (S j).
Proof.
  intros dbg femlib moment d C w Eo EC. destruct (C_inv _ _ _ _ _ _ EC) as (g & op & Eg & Eo' & ->).
  rewrite Eo in Eo'. injection Eo' as <-. exists g. split; [exact Eg|]. reflexivity.
Qed.
Print Assumptions C84_capacitances_of_closed_problems.

Lemma PUL_parts {T} {N : Num T} dbg femlib moment (d : driver T) (p : pul T) w :
  reply dbg femlib moment CallPUL d = (Ok (VPul p), w) ->
  exists C L w1 w2, reply dbg femlib moment CallC d = (Ok (VMatrix C), w1) /\
    reply dbg femlib moment CallL (left_by dbg femlib moment CallC d) = (Ok (VMatrix L), w2) /\
    p = {| pul_L := mscale MU0_SI L; pul_C := mscale EPSILON0_SI C |}.
Proof.
  intros E. unfold reply, left_by, call in *. unfold getPULMTL, buildPULParametersForModel, cbind in *.
  destruct (getCMatrix dbg femlib d) as [[[C0| |] d1] wc]; [|discriminate|discriminate].
  destruct (getLMatrix dbg femlib d1) as [[[L0| |] d2] wl] eqn:EL; [|discriminate|discriminate]. cbn in E. injection E as <- _.
  exists C0, L0. do 2 eexists. split; [reflexivity|]. split; [cbn; rewrite EL; reflexivity|reflexivity].
Qed.
(** ** Units *)
(** Per unit length: two roundings, whatever the matrices are (zero, or neither huge nor minute). *)
Theorem C84_units :
  forall (dbg : bool) femlib moment (d : driver float) (p : pul float) w,
    reply dbg femlib moment CallPUL d = (Ok (VPul p), w) ->
    exists C L w1 w2, reply dbg femlib moment CallC d = (Ok (VMatrix C), w1) /\
      reply dbg femlib moment CallL (left_by dbg femlib moment CallC d) = (Ok (VMatrix L), w2) /\
      nr (pul_C p) = nr C /\ nc (pul_C p) = nc C /\ nr (pul_L p) = nr L /\ nc (pul_L p) = nc L /\
      (forall i j, is_number (ent C i j) -> zero_or_moderate (double_value (ent C i j)) ->
         within 2 (ent (pul_C p) i j) (eps0 * double_value (ent C i j))) /\
      (forall i j, is_number (ent L i j) -> zero_or_moderate (double_value (ent L i j)) ->
         within 2 (ent (pul_L p) i j) (mu0 * double_value (ent L i j))).
Proof.
  intros dbg femlib moment d p w E. destruct (PUL_parts _ _ _ _ _ _ E) as (C & L & w1 & w2 & EC & EL & ->).
  exists C, L, w1, w2. split; [exact EC|]. split; [exact EL|]. cbn [pul_C pul_L mscale nr nc].
  repeat (split; [reflexivity|]). split; intros i j N M.
  - exact (scaled_entry (EPSILON0_SI (T := float)) eps0 (ent C i j) eps0_double eps0_range N M).
  - exact (scaled_entry (MU0_SI (T := float)) mu0 (ent L i j) mu0_double mu0_range N M).
Qed.
Print Assumptions C84_units.

(** ** Inductances *)
(** Two conductors: the inductance is the inverse of the capacitance without dielectrics. *)
Lemma one_by_one (g : matrix float) (L : matrix float) :
  nr g = 1%nat -> nc g = 1%nat -> invert g = Ok L -> ent L 0 0 = (1 / ent g 0 0)%float.
Proof.
  intros R C. unfold invert, mapM, solve_system, row_list. rewrite R, C. cbn [seq map app mapM].
  cbn [gauss pick_pivot]. unfold hd0. cbn [hd tl map].
  destruct (neqb (ent g 0 0) n0); [discriminate|]. cbn [firstn dot gauss last bind]. intros E. injection E as <-. cbn [ent nth]. unfold unit_vec, last, dot, firstn. cbn [Nat.eqb]. reflexivity.
Qed.
Lemma left_model {T} {N : Num T} dbg femlib moment (d : driver T) : dr_model (left_by dbg femlib moment CallC d) = dr_model d.
Proof.
  unfold left_by, call, getCMatrix, cbind.
  pose proof (k_gc dbg femlib (dr_model d) (dr_opts d) false d (conj eq_refl eq_refl)) as K.
  destruct (getGeneralizedCMatrix dbg femlib false d) as [[[g| |] d1] w1]; cbn in *; destruct K as [[K _] _]; [|exact K..].
  destruct (determineOpenness dbg (dr_model d1)); exact K.
Qed.
Theorem C84_inductance_of_two_conductors :
  forall (dbg : bool) femlib moment (d : driver float) (p : pul float) w,
    determineOpenness dbg (dr_model d) = Ok Closed ->
    reply dbg femlib moment CallPUL d = (Ok (VPul p), w) ->
    exists g wg,
      reply dbg femlib moment (CallGeneralizedC true) (left_by dbg femlib moment CallC d) = (Ok (VMatrix g), wg) /\
      (nr g = 2%nat -> is_number (ent g 1 1) -> moderate (Rabs (double_value (ent g 1 1))) ->
       nr (pul_L p) = 1%nat /\ nc (pul_L p) = 1%nat /\
       within 3 (ent (pul_L p) 0 0) (mu0 / double_value (ent g 1 1))).
Proof.
  intros dbg femlib moment d p w Eo E. destruct (PUL_parts _ _ _ _ _ _ E) as (C & L & w1 & w2 & EC & EL & ->).
  destruct (L_inv _ _ _ _ _ _ EL) as (g & op & Eg & Eo' & Ei).
  rewrite left_model in Eo'. rewrite Eo in Eo'. injection Eo' as <-. exists g, w2. split; [exact Eg|].
  intros R2 Ng Mg. assert (C2 : nc g = 2%nat) by (rewrite <- R2; symmetry; apply (gc_run _ _ _ _ _ _ _ Eg)).
  assert (S1 : nr (getCFromGeneralizedC g Closed) = 1%nat) by (cbn; lia). assert (S2 : nc (getCFromGeneralizedC g Closed) = 1%nat) by (cbn; lia).
  assert (D : nr L = 1%nat /\ nc L = 1%nat).
  { unfold invert in Ei. apply bind_ok in Ei as (cols & _ & Ei). injection Ei as <-. cbn [nr nc]. auto. }
  destruct D as (D1 & D2). cbn [pul_L mscale nr nc ent]. split; [exact D1|]. split; [exact D2|].
  rewrite (one_by_one _ _ S1 S2 Ei). cbn [getCFromGeneralizedC ent]. exact (inverse_times_mu0 _ Ng Mg).
Qed.
Print Assumptions C84_inductance_of_two_conductors.
Lemma roundings_3 : roundings 3 <= 4 * roundoff.
Proof.
  unfold roundings. pose proof roundoff_small. pose proof roundoff_pos. cbn [pow]. set (u := roundoff) in *.
  assert (u * u <= u / 8) by nra. assert (u * u * u <= u / 64) by nra. nra.
Qed.
Lemma inverse_near (L : float) (x c E : R) : within 3 L (mu0 / x) -> c <> 0 -> Rabs (x - c) <= E -> 2 * E <= Rabs c ->
  Rabs (double_value L - mu0 / c) <= mu0 / Rabs c * (2 * E / Rabs c + 8 * roundoff).
Proof.
  intros (_ & W) Nc Hx HE. pose proof (Rabs_pos_lt _ Nc) as Pc. pose proof mu0_range as (M & _). pose proof roundings_3 as R3. pose proof roundoff_pos as U.
  assert (Pm : 0 < mu0). { pose proof (Rinv_0_lt_compat (2 ^ 100) ltac:(apply pow_lt; lra)). lra. }
  assert (Hh : Rabs c / 2 <= Rabs x). { pose proof (Rabs_triang_inv c (c - x)) as K. replace (c - (c - x)) with x in K by ring. rewrite (Rabs_minus_sym x c) in Hx. lra. }
  assert (Px : 0 < Rabs x) by lra. assert (Nx : x <> 0) by (intros ->; rewrite Rabs_R0 in Px; lra).
  assert (I2 : / Rabs x <= 2 * / Rabs c). { replace (2 * / Rabs c) with (/ (Rabs c / 2)) by (field; lra). apply Rinv_le_contravar; lra. }
  pose proof (Rinv_0_lt_compat _ Pc) as Ic. pose proof (Rinv_0_lt_compat _ Px) as Ix. pose proof (Rabs_pos (x - c)) as P0.
  assert (A1 : Rabs (mu0 / x) <= 2 * (mu0 * / Rabs c)).
  { unfold Rdiv. rewrite Rabs_mult, Rabs_inv, (Rabs_right mu0) by lra. replace (2 * (mu0 * / Rabs c)) with (mu0 * (2 * / Rabs c)) by ring. apply Rmult_le_compat_l; lra. }
  assert (A2 : Rabs (mu0 / x - mu0 / c) <= mu0 * / Rabs c * (2 * E * / Rabs c)).
  { replace (mu0 / x - mu0 / c) with (mu0 * / c * ((c - x) * / x)) by (field; auto). rewrite !Rabs_mult, !Rabs_inv, (Rabs_right mu0) by lra.
    apply Rmult_le_compat_l; [apply Rmult_le_pos; lra|]. rewrite Rabs_minus_sym. replace (2 * E * / Rabs c) with (E * (2 * / Rabs c)) by ring. apply Rmult_le_compat; lra. }
  replace (double_value L - mu0 / c) with ((double_value L - mu0 / x) + (mu0 / x - mu0 / c)) by ring.
  eapply Rle_trans; [apply Rabs_triang|].
  assert (A3 : roundings 3 * Rabs (mu0 / x) <= 4 * roundoff * (2 * (mu0 * / Rabs c))).
  { apply Rmult_le_compat; [apply roundings_pos|apply Rabs_pos|exact R3|exact A1]. }
  unfold Rdiv. replace (mu0 * / Rabs c * (2 * E * / Rabs c + 8 * roundoff)) with (mu0 * / Rabs c * (2 * E * / Rabs c) + 4 * roundoff * (2 * (mu0 * / Rabs c))) by ring. unfold Rdiv in *. lra.
Qed.
(** The same in open and semi-open problems, where the capacitance comes from the reduction. *)
Theorem C84_inductance_of_two_conductors_in_open_problems :
  forall (dbg : bool) femlib moment (d : driver float) (o : openness) (p : pul float) w,
    determineOpenness dbg (dr_model d) = Ok o -> o <> Closed ->
    reply dbg femlib moment CallPUL d = (Ok (VPul p), w) ->
    exists g wg,
      reply dbg femlib moment (CallGeneralizedC true) (left_by dbg femlib moment CallC d) = (Ok (VMatrix g), wg) /\
      (let G := values g in
       let c := neutral_capacitance G 0 0 in
       let error := 64 * (cancellation G * cancellation G) * roundoff * magnitude G in
       nr g = 2%nat -> numbers g -> total G <> 0 -> moderate (magnitude G) -> 16 * cancellation G * roundoff <= 1 ->
       moderate (Rabs c / 2) -> moderate (2 * Rabs c) -> 2 * error <= Rabs c ->
       nr (pul_L p) = 1%nat /\ nc (pul_L p) = 1%nat /\ is_number (ent (pul_L p) 0 0) /\
       Rabs (double_value (ent (pul_L p) 0 0) - mu0 / c) <= mu0 / Rabs c * (2 * error / Rabs c + 8 * roundoff)).
Proof.
  intros dbg femlib moment d o p w Eo No E. destruct (PUL_parts _ _ _ _ _ _ E) as (C & L & w1 & w2 & EC & EL & ->).
  destruct (L_inv _ _ _ _ _ _ EL) as (g & op & Eg & Eo' & Ei).
  rewrite left_model in Eo'. rewrite Eo in Eo'. injection Eo' as <-. exists g, w2. split; [exact Eg|].
  intros G c error R2 Nu HT Md Sm M1 M2 HE. assert (C2 : nc g = nr g) by (symmetry; apply (gc_run _ _ _ _ _ _ _ Eg)).
  destruct (C84_reduction g o No C2 Nu HT Md) with (i := 0%nat) (j := 0%nat) as (Nc & Hc); [rewrite R2; fold G; cbn [INR]; lra|lia|lia|].
  fold G c in Hc. set (x := ent (getCFromGeneralizedC g o) 0 0) in *.
  assert (He : Rabs (double_value x - c) <= error). { eapply Rle_trans; [exact Hc|]. rewrite R2. unfold error. cbn [INR]. apply Req_le. ring. }
  assert (Pc : 0 < Rabs c) by (pose proof (moderate_pos _ M2); lra). assert (Nc0 : c <> 0) by (intros Z; rewrite Z, Rabs_R0 in Pc; lra).
  assert (Mx : moderate (Rabs (double_value x))).
  { destruct M1 as (M1 & _), M2 as (_ & M2). pose proof (Rabs_triang_inv c (c - double_value x)) as K1. replace (c - (c - double_value x)) with (double_value x) in K1 by ring.
    pose proof (Rabs_triang c (double_value x - c)) as K2. replace (c + (double_value x - c)) with (double_value x) in K2 by ring.
    rewrite (Rabs_minus_sym c) in K1. split; lra. }
  assert (S : nr (getCFromGeneralizedC g o) = 1%nat /\ nc (getCFromGeneralizedC g o) = 1%nat) by (destruct o; cbn; split; lia). destruct S as (S1 & S2).
  assert (D : nr L = 1%nat /\ nc L = 1%nat).
  { unfold invert in Ei. apply bind_ok in Ei as (cols & _ & Ei). injection Ei as <-. cbn [nr nc]. auto. }
  destruct D as (D1 & D2). cbn [pul_L mscale nr nc ent]. split; [exact D1|]. split; [exact D2|].
  rewrite (one_by_one _ _ S1 S2 Ei). fold x. pose proof (inverse_times_mu0 x Nc Mx) as W. split; [exact (proj1 W)|].
  exact (inverse_near _ _ _ _ W Nc0 He HE).
Qed.
Print Assumptions C84_inductance_of_two_conductors_in_open_problems.

(** ** In-cell parameters *)
(** f: the record of conductor j; Q: its first multipolar coefficient; v: the potential of conductor i. *)
Theorem C84_in_cell_capacitance :
  forall (p : incell float) (i j : Z) (f : fieldrec float) (Q b v : float) rest,
    mget j (ic_electric p) = Some f -> fr_ab f = (Q, b) :: rest -> mget i (fr_pots f) = Some v ->
    is_number Q -> is_number v -> is_number (fr_avg f) ->
    zero_or_moderate (double_value Q) -> moderate (Rabs (double_value v - double_value (fr_avg f))) ->
    exists c, getCapacitanceUsingInnerRegion p i j = Ok c /\
      within 5 c (eps0 * (double_value Q / (double_value v - double_value (fr_avg f)))).
Proof.
  intros p i j f Q b v rest Ef Eq Ev NQ Nv Na MQ MD. unfold getCapacitanceUsingInnerRegion, mat_, monopole. rewrite Ef. cbn [bind]. rewrite Eq. cbn [bind fst]. rewrite Ev. cbn [bind].
  eexists. split; [reflexivity|]. now apply in_cell_C.
Qed.
Print Assumptions C84_in_cell_capacitance.
Theorem C84_in_cell_inductance :
  forall (p : incell float) (i j : Z) (f : fieldrec float) (I b v : float) rest,
    mget j (ic_magnetic p) = Some f -> fr_ab f = (I, b) :: rest -> mget i (fr_pots f) = Some v ->
    is_number I -> is_number v -> is_number (fr_avg f) ->
    moderate (Rabs (double_value I)) -> moderate (Rabs (double_value v - double_value (fr_avg f))) ->
    exists l, getInductanceUsingInnerRegion p i j = Ok l /\
      within 4 l (mu0 * ((double_value v - double_value (fr_avg f)) / double_value I)).
Proof.
  intros p i j f I b v rest Ef Eq Ev NQ Nv Na MQ MD. unfold getInductanceUsingInnerRegion, mat_, monopole. rewrite Ef. cbn [bind]. rewrite Eq. cbn [bind fst]. rewrite Ev. cbn [bind].
  eexists. split; [reflexivity|]. now apply in_cell_L.
Qed.
Print Assumptions C84_in_cell_inductance.
(** [data]: the materials of the inner region with their averages and areas as computed. *)
Theorem C84_inner_region_average :
  forall (m : model float) (F : fem float) (s : solver float) (conductors : bool) (data : list (string * (float * float))) (B : R),
    NoDup (all_names (mo_mats m)) -> In "Vacuum_0"%string (map d_name (dielectrics (mo_mats m))) ->
    inner_materials m conductors (map fst data) ->
    (forall n v a, In (n, (v, a)) data ->
       computed_data F s m n v a /\ is_number v /\ is_number a /\ Rabs (double_value v) <= B /\ 0 <= double_value a) ->
    let areas := Rsum data (fun x => double_value (snd (snd x))) in
    let k := INR (List.length data) in
    moderate B -> moderate areas -> 16 * k * roundoff <= 1 ->
    exists av, getInnerRegionAveragePotential m F s conductors = Ok av /\ is_number av /\
      Rabs (double_value av - Rsum data (fun x => double_value (fst (snd x)) * double_value (snd (snd x))) / areas)
        <= 8 * (k + 1) * roundoff * B.
Proof. exact inner_average_double. Qed.
Print Assumptions C84_inner_region_average.

(** ** Examples *)
Lemma value_of x s m e : Prim2SF x = S754_finite s m (Zneg e) -> double_value x = constant s m e.
Proof. intros E. apply (constant_value _ _ _ _ E). Qed.
Lemma v_half : double_value 0.5%float = 1 / 2.
Proof. rewrite (value_of 0.5%float false 4503599627370496 53) by reflexivity. unfold constant. cbv [Zpower_pos Pos.iter Z.mul Pos.mul]. lra. Qed.
Lemma v_1 : double_value 1%float = 1.
Proof. rewrite (value_of 1%float false 4503599627370496 52) by reflexivity. unfold constant. cbv [Zpower_pos Pos.iter Z.mul Pos.mul]. lra. Qed.
Lemma v_2 : double_value 2%float = 2.
Proof. rewrite (value_of 2%float false 4503599627370496 51) by reflexivity. unfold constant. cbv [Zpower_pos Pos.iter Z.mul Pos.mul]. lra. Qed.
Lemma v_3 : double_value 3%float = 3.
Proof. rewrite (value_of 3%float false 6755399441055744 51) by reflexivity. unfold constant. cbv [Zpower_pos Pos.iter Z.mul Pos.mul]. lra. Qed.
Lemma v_m1 : double_value (-1)%float = -1.
Proof. rewrite (value_of (-1)%float true 4503599627370496 52) by reflexivity. unfold constant. cbv [Zpower_pos Pos.iter Z.mul Pos.mul]. lra. Qed.
Lemma easy_moderate x : / 1024 <= x <= 1024 -> moderate x.
Proof.
  intros (L & H). split.
  - eapply Rle_trans; [|exact L]. apply Rinv_le_contravar; [lra|]. replace 1024 with (2 ^ 10) by (cbn [pow]; lra). apply Rle_pow; [lra|lia].
  - eapply Rle_trans; [exact H|]. replace 1024 with (2 ^ 10) by (cbn [pow]; lra). apply Rle_pow; [lra|lia].
Qed.
(** Three wires. *)
Definition three_wires : matrix float :=
  {| nr := 3; nc := 3; ent := fun i j => if (i =? j)%nat then 3%float else (-1)%float |}.
Example C84_example_reduction :
  let G := values three_wires in
  numbers three_wires /\ total G = 3 /\ magnitude G = 15 /\ moderate (magnitude G) /\
  4 * (INR 3 * INR 3) * cancellation G * roundoff <= 1 /\ neutral_capacitance G 0 0 = 8 / 3 /\ neutral_capacitance G 0 1 = - 4 / 3.
Proof.
  cbv zeta. assert (Et : total (values three_wires) = 3).
  { unfold total, Sum, Rsum. cbn [seq fold_right nr nc values three_wires ent Nat.eqb]. rewrite v_3, v_m1. lra. }
  assert (Em : magnitude (values three_wires) = 15).
  { unfold magnitude, Sum, Rsum. cbn [seq fold_right nr nc values three_wires ent Nat.eqb]. rewrite v_3, v_m1. replace (Rabs (-1)) with 1 by (rewrite Rabs_left; lra). rewrite Rabs_right; lra. }
  split; [|split; [exact Et|split; [exact Em|split; [|split; [|split]]]]].
  - intros i j _ _. cbn. destruct (i =? j)%nat; exact I.
  - rewrite Em. apply easy_moderate. lra.
  - unfold cancellation. rewrite Em, Et, (Rabs_right 3) by lra. pose proof roundoff_small. cbn [INR]. lra.
  - unfold neutral_capacitance. rewrite Et. unfold Sum, Rsum. cbn [seq fold_right nr nc values three_wires ent Nat.eqb]. rewrite v_3, v_m1. lra.
  - unfold neutral_capacitance. rewrite Et. unfold Sum, Rsum. cbn [seq fold_right nr nc values three_wires ent Nat.eqb]. rewrite v_3, v_m1. lra.
Qed.
(** A Driver whose generalized matrix is a matrix of numbers. *)
Example C84_example_driver :
  match mkDriver true toy_lib (toy_model Open 2%float) toy_options tt with
  | ((Ok d, _), _) =>
      match fst (reply true toy_lib (fun _ _ _ _ => 0%float) (CallGeneralizedC false) d), fst (reply true toy_lib (fun _ _ _ _ => 0%float) CallC d) with
      | Ok (VMatrix g), Ok (VMatrix C) => Some (nr g, [ent g 0 0; ent g 0 1; ent g 1 0; ent g 1 1]%float, ent C 0 0)
      | _, _ => None
      end
  | _ => None
  end = Some (2%nat, [4; -2; -2; 4]%float, 3%float).
Proof. vm_compute. reflexivity. Qed.
Definition two_wires : matrix float :=
  {| nr := 2; nc := 2; ent := fun i j => if (i =? j)%nat then 4%float else (-2)%float |}.
Lemma v_4 : double_value 4%float = 4.
Proof. rewrite (value_of 4%float false 4503599627370496 50) by reflexivity. unfold constant. cbv [Zpower_pos Pos.iter Z.mul Pos.mul]. lra. Qed.
Lemma v_m2 : double_value (-2)%float = -2.
Proof. rewrite (value_of (-2)%float true 4503599627370496 51) by reflexivity. unfold constant. cbv [Zpower_pos Pos.iter Z.mul Pos.mul]. lra. Qed.
Example C84_example_hypotheses :
  let G := values two_wires in
  numbers two_wires /\ total G = 4 /\ moderate (magnitude G) /\
  4 * (INR 2 * INR 2) * cancellation G * roundoff <= 1 /\ neutral_capacitance G 0 0 = 3.
Proof.
  cbv zeta. assert (Et : total (values two_wires) = 4).
  { unfold total, Sum, Rsum. cbn [seq fold_right nr nc values two_wires ent Nat.eqb]. rewrite v_4, v_m2. lra. }
  assert (Em : magnitude (values two_wires) = 12).
  { unfold magnitude, Sum, Rsum. cbn [seq fold_right nr nc values two_wires ent Nat.eqb]. rewrite v_4, v_m2. replace (Rabs (-2)) with 2 by (rewrite Rabs_left; lra). rewrite Rabs_right; lra. }
  split; [|split; [exact Et|split; [|split]]].
  - intros i j _ _. cbn. destruct (i =? j)%nat; exact I.
  - rewrite Em. apply easy_moderate. lra.
  - unfold cancellation. rewrite Em, Et, (Rabs_right 4) by lra. pose proof roundoff_small. cbn [INR]. lra.
  - unfold neutral_capacitance. rewrite Et. unfold Sum, Rsum. cbn [seq fold_right nr nc values two_wires ent Nat.eqb]. rewrite v_4, v_m2. lra.
Qed.
(** In-cell parameters of one wire at 1 V, with 3 C/m/eps0, and an average of 1/2 V. *)
Example C84_example_in_cell :
  let f := {| fr_avg := 0.5%float; fr_center := (0%float, 0%float); fr_ab := [(3%float, 0%float)]; fr_pots := [(0%Z, 1%float)] |} in
  let p := {| ic_box := {| b_min := (0%float, 0%float); b_max := (1%float, 1%float) |}; ic_electric := [(0%Z, f)]; ic_magnetic := [(0%Z, f)] |} in
  (exists c, getCapacitanceUsingInnerRegion p 0 0 = Ok c /\ within 5 c (eps0 * 6)) /\
  (exists l, getInductanceUsingInnerRegion p 0 0 = Ok l /\ within 4 l (mu0 / 6)).
Proof.
  cbv zeta. set (f := {| fr_avg := _ |}). set (p := {| ic_box := _ |}).
  assert (M : moderate (Rabs (double_value 1%float - double_value 0.5%float))) by (rewrite v_1, v_half, Rabs_right by lra; apply easy_moderate; lra).
  split.
  - destruct (C84_in_cell_capacitance p 0 0 f 3%float 0%float 1%float [] eq_refl eq_refl eq_refl I I I) as (c & E & W).
    + right. rewrite v_3, Rabs_right by lra. apply easy_moderate. lra.
    + exact M.
    + exists c. split; [exact E|]. change (fr_avg f) with 0.5%float in W. rewrite v_3, v_1, v_half in W. replace (3 / (1 - 1 / 2)) with 6 in W by field. exact W.
  - destruct (C84_in_cell_inductance p 0 0 f 3%float 0%float 1%float [] eq_refl eq_refl eq_refl I I I) as (c & E & W).
    + rewrite v_3, Rabs_right by lra. apply easy_moderate. lra.
    + exact M.
    + exists c. split; [exact E|]. change (fr_avg f) with 0.5%float in W. rewrite v_3, v_1, v_half in W. replace (mu0 / 6) with (mu0 * ((1 - 1 / 2) / 3)) by field. exact W.
Qed.
(** The average over the inner region of the toy. *)
Example C84_example_average :
  let F := toy_lib (toy_mesh Open) 3 in
  let s := {| s_params := {| si_dirichlet := []; si_neumann := []; si_open := []; si_eps := [] |};
              s_ess := []; s_open := []; s_eps := EpsConst 1%float; s_sigma := []; s_elim := None; s_phi := [1; 0]%float; s_e := []; s_d := [] |} in
  let data := [("Vacuum_0", (0.5, 1)); ("Conductor_0", (1, 1)); ("Conductor_1", (0, 1))]%float%string in
  inner_materials (toy_model Open 2%float) true (map fst data) /\
  (forall n v a, In (n, (v, a)) data -> computed_data F s (toy_model Open 2%float) n v a /\ is_number v /\ is_number a /\ Rabs (double_value v) <= 1 /\ 0 <= double_value a) /\
  moderate 1 /\ moderate (Rsum data (fun x => double_value (snd (snd x)))) /\ 16 * INR (List.length data) * roundoff <= 1.
Proof.
  cbv zeta. split; [|split; [|split; [|split]]].
  - split; [cbn; repeat constructor; cbn; intuition discriminate|].
    intros n. cbn. split.
    + intros [<-|[<-|[<-|[]]]]; [left; reflexivity|right; right; auto|right; right; auto].
    + intros [->|[[[<-|[]] _]|[_ [<-|[<-|[]]]]]]; auto.
  - intros n v a [E|[E|[E|[]]]]; injection E as <- <- <-; rewrite v_1.
    + split; [|split; [exact I|split; [exact I|rewrite v_half, Rabs_right; lra]]]. split; [vm_compute; reflexivity|].
      left. exists {| d_name := "Vacuum_0"; d_attr := 3; d_epsr := 2%float |}. split; [cbn; auto|]. split; [reflexivity|]. vm_compute. reflexivity.
    + split; [|split; [exact I|split; [exact I|rewrite Rabs_right; lra]]]. split; [vm_compute; reflexivity|].
      right. exists {| p_name := "Conductor_0"; p_attr := 1; p_area := 1%float |}. split; [cbn; auto|]. split; [reflexivity|]. vm_compute. reflexivity.
    + split; [|split; [exact I|split; [exact I|rewrite (proj2 zero_number), Rabs_R0; lra]]]. split; [vm_compute; reflexivity|].
      right. exists {| p_name := "Conductor_1"; p_attr := 2; p_area := 1%float |}. split; [cbn; auto|]. split; [reflexivity|]. vm_compute. reflexivity.
  - apply easy_moderate. lra.
  - unfold Rsum. cbn [fold_right snd]. rewrite v_1. apply easy_moderate. lra.
  - cbn [List.length INR]. pose proof roundoff_small. lra.
Qed.
(** A Driver that returns parameters per unit length. *)
Example C84_example_units :
  match mkDriver true toy_lib (toy_model Closed 2%float) toy_options tt with
  | ((Ok d, _), _) =>
      match fst (reply true toy_lib (fun _ _ _ _ => 0%float) CallPUL d), fst (reply true toy_lib (fun _ _ _ _ => 0%float) CallC d) with
      | Ok (VPul p), Ok (VMatrix C) => Some (nr (pul_C p), nr (pul_L p), ent C 0 0)
      | _, _ => None
      end
  | _ => None
  end = Some (1%nat, 1%nat, 2%float).
Proof. vm_compute. reflexivity. Qed.
(** A Driver of a closed problem with two conductors whose capacitance without dielectrics is 1. *)
Example C84_example_inductance :
  match mkDriver true toy_lib (toy_model Closed 2%float) toy_options tt with
  | ((Ok d, _), _) =>
      match fst (reply true toy_lib (fun _ _ _ _ => 0%float) CallPUL d),
            fst (reply true toy_lib (fun _ _ _ _ => 0%float) (CallGeneralizedC true) (left_by true toy_lib (fun _ _ _ _ => 0%float) CallC d)) with
      | Ok (VPul p), Ok (VMatrix g) => Some (determineOpenness true (dr_model d), nr g, ent g 1 1, ent (pul_L p) 0 0)%nat
      | _, _ => None
      end
  | _ => None
  end = Some (Ok Closed, 2%nat, 1%float, 1.2566370614359173e-06%float) /\
  is_number 1%float /\ moderate (Rabs (double_value 1%float)).
Proof.
  split; [|split; [exact I|rewrite v_1, Rabs_R1; apply easy_moderate; lra]].
  vm_compute. reflexivity.
Qed.
(** An open problem whose generalized matrix without dielectrics has the rows 2, -1 and -1, 2. *)
Definition two_bare_wires : matrix float :=
  {| nr := 2; nc := 2; ent := fun i j => if (i =? j)%nat then 2%float else (-1)%float |}.
Example C84_example_inductance_open :
  match mkDriver true toy_lib (toy_model Open 2%float) toy_options tt with
  | ((Ok d, _), _) =>
      match fst (reply true toy_lib (fun _ _ _ _ => 0%float) CallPUL d),
            fst (reply true toy_lib (fun _ _ _ _ => 0%float) (CallGeneralizedC true) (left_by true toy_lib (fun _ _ _ _ => 0%float) CallC d)) with
      | Ok (VPul p), Ok (VMatrix g) => Some (determineOpenness true (dr_model d), rows_list g, ent (pul_L p) 0 0)%nat
      | _, _ => None
      end
  | _ => None
  end = Some (Ok Open, rows_list two_bare_wires, 8.3775804095727819e-07%float) /\
  (let G := values two_bare_wires in
   let c := neutral_capacitance G 0 0 in
   let error := 64 * (cancellation G * cancellation G) * roundoff * magnitude G in
   numbers two_bare_wires /\ total G = 2 /\ moderate (magnitude G) /\ 16 * cancellation G * roundoff <= 1 /\
   c = 3 / 2 /\ moderate (Rabs c / 2) /\ moderate (2 * Rabs c) /\ 2 * error <= Rabs c).
Proof.
  split; [vm_compute; reflexivity|]. cbv zeta. set (G := values two_bare_wires).
  assert (Et : total G = 2).
  { unfold total, Sum, Rsum. cbn [seq fold_right nr nc G values two_bare_wires ent Nat.eqb]. rewrite v_2, v_m1. lra. }
  assert (Em : magnitude G = 6).
  { unfold magnitude, Sum, Rsum. cbn [seq fold_right nr nc G values two_bare_wires ent Nat.eqb]. rewrite v_2, v_m1. replace (Rabs (-1)) with 1 by (rewrite Rabs_left; lra). rewrite Rabs_right; lra. }
  assert (Ec : neutral_capacitance G 0 0 = 3 / 2).
  { unfold neutral_capacitance. rewrite Et. unfold Sum, Rsum. cbn [seq fold_right nr nc G values two_bare_wires ent Nat.eqb]. rewrite v_2, v_m1. lra. }
  assert (Ek : cancellation G = 3) by (unfold cancellation; rewrite Em, Et, (Rabs_right 2) by lra; lra).
  assert (U : roundoff <= / 2 ^ 20).
  { unfold roundoff. apply Rinv_le_contravar; [apply pow_lt; lra|]. apply Rle_pow; [lra|lia]. }
  replace (2 ^ 20) with 1048576 in U by (cbn [pow]; lra).
  rewrite Ec, Ek, Em, (Rabs_right (3 / 2)) by lra.
  split; [|split; [exact Et|split; [apply easy_moderate; lra|split; [lra|split; [reflexivity|split; [apply easy_moderate; lra|split; [apply easy_moderate; lra|lra]]]]]]].
  intros i j _ _. cbn. destruct (i =? j)%nat; exact I.
Qed.
