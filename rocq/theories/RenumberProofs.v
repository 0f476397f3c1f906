(** Proofs for C67. *)
From Coq Require Import Reals Lra Permutation.
From Verif Require Import Prelude StdMap Json Materials Graph ModelM Parser Matrix Solver Domain Results Driver
  SpecInput SpecModel SpecSolver SpecDriver SpecMatrix SpecRenumber RSum ListLemmas LinAlg OpennessProofs DriverProofs CallProofs DriverFacts RunProofs MatrixProofs MatrixCalls MatrixFacts FemMatrix FemMore.
Open Scope R_scope.
Open Scope list_scope.

(** ** Permutations of indices *)
Lemma renumbering_lt n s i : renumbering n s -> (i < n)%nat -> (s i < n)%nat.
Proof.
  intros P L. assert (I : In (s i) (map s (seq 0 n))) by (apply in_map, in_seq; lia).
  apply (Permutation_in _ P), in_seq in I. lia.
Qed.
Lemma renumbering_inj n s i j : renumbering n s -> (i < n)%nat -> (j < n)%nat -> s i = s j -> i = j.
Proof.
  intros P Li Lj E. assert (ND : NoDup (map s (seq 0 n))) by (eapply Permutation_NoDup; [apply Permutation_sym, P|apply seq_NoDup]).
  assert (G : forall l, NoDup (map s l) -> In i l -> In j l -> i = j).
  { clear -E. induction l as [|x l IH]; [easy|]. cbn [map]. intros ND [->|Ii] [->|Ij]; inversion ND as [|? ? N ND']; subst; auto.
    - destruct N. rewrite E. now apply in_map.
    - destruct N. rewrite <- E. now apply in_map. }
  apply (G _ ND); apply in_seq; lia.
Qed.
Lemma Sum_renumber n s f : renumbering n s -> Sum n (fun k => f (s k)) = Sum n f.
Proof. intros P. unfold Sum. rewrite <- (Rsum_map s (seq 0 n) f). now apply Rsum_perm. Qed.
Lemma without_reference_ok n s : renumbering (S n) s -> s 0%nat = 0%nat -> renumbering n (without_reference s).
Proof.
  intros P Z. unfold renumbering in *. change (seq 0 (S n)) with (0%nat :: seq 1 n) in P. cbn [map] in P. rewrite Z in P. apply Permutation_cons_inv in P.
  rewrite <- seq_shift in P. rewrite map_map in P.
  apply (Permutation_map (fun x => (x - 1)%nat)) in P. rewrite !map_map in P.
  unfold without_reference. eapply Permutation_trans; [exact P|].
  rewrite (map_ext _ (fun x => x)) by (intros; lia). now rewrite map_id.
Qed.
Lemma without_reference_S n s i : renumbering (S n) s -> s 0%nat = 0%nat -> (i < n)%nat -> S (without_reference s i) = s (S i).
Proof.
  intros P Z L. unfold without_reference. destruct (s (S i)) as [|k] eqn:E; [|lia].
  assert (S i = 0)%nat; [|lia]. apply (renumbering_inj (S n) s); [exact P|lia|lia|congruence].
Qed.

(** ** Matrices *)
Definition permuted (s : nat -> nat) (a : matrix R) : matrix R := {| nr := nr a; nc := nc a; ent := fun i j => ent a (s i) (s j) |}.
Lemma permuted_product n s a b c : renumbering n s -> product_is n a b c -> product_is n (permuted s a) (permuted s b) c.
Proof.
  intros P H i j Li Lj. cbn [permuted ent].
  rewrite (Sum_renumber n s (fun k => ent a (s i) k * ent b k (s j)) P), (H (s i) (s j)) by (eapply renumbering_lt; eassumption).
  destruct (Nat.eqb_spec (s i) (s j)) as [E|E], (Nat.eqb_spec i j) as [E'|E']; auto; [|congruence].
  destruct E'. now apply (renumbering_inj n s).
Qed.
Lemma permuted_inverse n s a a' l l' : renumbering n s -> square n a -> square n a' ->
  (forall i j, (i < n)%nat -> (j < n)%nat -> ent a' (s i) (s j) = ent a i j) ->
  product_is n a l 1 -> product_is n l a 1 -> product_is n a' l' 1 ->
  forall i j, (i < n)%nat -> (j < n)%nat -> ent l' (s i) (s j) = ent l i j.
Proof.
  intros P Sa Sa' E P1 P2 P3 i j Li Lj. symmetry.
  apply (inverse_ext n a (permuted s a') l (permuted s l')); auto.
  - intros; cbn; now rewrite E.
  - now apply permuted_product.
Qed.
Lemma permuted_floats n s C C' : renumbering n s -> square n C -> square n C' ->
  (forall i j, (i < n)%nat -> (j < n)%nat -> ent C' (s i) (s j) = ent C i j) ->
  forall i V, (i < n)%nat -> floats C' (s i) V -> floats C i (fun k => V (s k)).
Proof.
  intros P [S1 S2] [S1' S2'] E i V Li [V1 V2]. split; [exact V1|]. intros k Lk Nk. rewrite S1 in Lk.
  rewrite <- (V2 (s k)).
  - unfold charge. rewrite S2, S2'. rewrite <- (Sum_renumber n s (fun j => ent C' (s k) j * V j) P).
    apply Sum_ext. intros j Lj. now rewrite E.
  - rewrite S1'. now apply (renumbering_lt n).
  - intros Es. apply Nk. now apply (renumbering_inj n s).
Qed.
Lemma permuted_reduction n s (g g' : matrix R) op : renumbering (S n) s -> s 0%nat = 0%nat -> square (S n) g -> square (S n) g' ->
  (forall i j, (i < S n)%nat -> (j < S n)%nat -> ent g' (s i) (s j) = ent g i j) ->
  forall i j, (i < n)%nat -> (j < n)%nat ->
    ent (getCFromGeneralizedC g' op) (without_reference s i) (without_reference s j) = ent (getCFromGeneralizedC g op) i j.
Proof.
  intros P Z Sg Sg' E i j Li Lj.
  pose proof (without_reference_S n s i P Z Li) as Ei. pose proof (without_reference_S n s j P Z Lj) as Ej.
  assert (Rs : rowsum g' n (without_reference s i) = rowsum g n i).
  { unfold rowsum. rewrite Ei, <- (Sum_renumber (S n) s (fun k => ent g' (s (S i)) k) P). apply Sum_ext. intros k Lk. apply E; lia. }
  assert (Cs : colsum g' n (without_reference s j) = colsum g n j).
  { unfold colsum. rewrite Ej, <- (Sum_renumber (S n) s (fun k => ent g' k (s (S j))) P). apply Sum_ext. intros k Lk. apply E; lia. }
  assert (Ts : total g' = total g).
  { unfold total. destruct Sg as [-> ->], Sg' as [-> ->].
    rewrite <- (Sum_renumber (S n) s (fun k => Sum (S n) (fun r => ent g' k r)) P). apply Sum_ext. intros k Lk.
    rewrite <- (Sum_renumber (S n) s (fun r => ent g' (s k) r) P). apply Sum_ext. intros r Lr. apply E; lia. }
  assert (Ee : ent g' (S (without_reference s i)) (S (without_reference s j)) = ent g (S i) (S j)).
  { rewrite Ei, Ej. apply E; lia. }
  destruct op.
  - rewrite (reduced_open g' n Sg' Open), (reduced_open g n Sg Open) by discriminate. now rewrite Rs, Cs, Ts, Ee.
  - rewrite (reduced_open g' n Sg' SemiOpen), (reduced_open g n Sg SemiOpen) by discriminate. now rewrite Rs, Cs, Ts, Ee.
  - rewrite !reduced_closed. exact Ee.
Qed.

(** ** The generalized matrix in terms of the unit solutions *)
Section Gc.
  Variable dbg : bool.
  Variable femlib : mesh R -> Z -> fem R.
  Variable moment : R * R -> nat -> nat -> R * R -> R.
  Variables (m : model R) (o : driver_options) (d0 : driver R) (ops : list dop) (conds : list (pec R)).
  Notation F := (femlib (mo_mesh m) (o_order o)).
  Notation Reply op := (reply dbg femlib moment op (after dbg femlib moment ops d0)).
  Hypothesis W : well_posed F m.
  Hypothesis B : built dbg femlib m o d0.
  Hypothesis O : in_order (mo_mats m) conds.
  Lemma gc_units ignore g w : Reply (CallGeneralizedC ignore) = (Ok (VMatrix g), w) ->
    exists us, Forall2 (fun p u => unit_solution F dbg (mo_mats m) ignore (p_attr p) u) conds us /\
    square (List.length conds) g /\
    forall i j p q x y a b, nth_error conds i = Some p -> nth_error conds j = Some q ->
      unit_solution F dbg (mo_mats m) ignore (p_attr p) x -> unit_solution F dbg (mo_mats m) ignore (p_attr q) y ->
      charge_on F x (p_attr q) a -> charge_on F y (p_attr p) b -> ent g i j = (a + b) / 2.
  Proof.
    intros E. destruct (built_solid dbg femlib _ _ _ W B) as (conds' & O' & _ & S).
    rewrite (in_order_unique _ _ _ O' O) in S.
    apply (after_solid dbg femlib moment m o conds d0 ops) in S; [|apply Forall_forall; intros; right; exact Rmul0].
    destruct (solid_holds dbg femlib m o conds ignore _ S) as (us & _ & _ & Fu).
    exists us. split.
    { clear -Fu. induction Fu as [|? ? ? ? [H _]]; constructor; auto. }
    destruct (determineOpenness dbg m) as [op| |] eqn:Eo.
    - assert (N1 : List.length conds = 1%nat -> op <> Closed).
      { intros L1 ->. destruct (gc_single dbg femlib m o conds O ignore _ S Eo L1) as [msg Es].
        unfold reply, call in E. rewrite (cbind_throw _ _ _ _ _ _ Es) in E. discriminate. }
      destruct (generalized_matrix dbg femlib moment m o d0 ops conds ignore op W B O Eo N1) as (g' & w' & E' & S1 & S2 & V).
      rewrite E' in E. injection E as <- <-. split; [split; assumption|]. exact V.
    - exfalso. unfold reply, call, getGeneralizedCMatrix, cbind, cget, clift in E.
      rewrite (D_model dbg femlib moment Rmul0 m o d0 ops W B) in E. rewrite Eo in E.
      destruct (idToAttr_PEC _); discriminate.
    - exfalso. unfold reply, call, getGeneralizedCMatrix, cbind, cget, clift in E.
      rewrite (D_model dbg femlib moment Rmul0 m o d0 ops W B) in E. rewrite Eo in E.
      destruct (idToAttr_PEC _); discriminate.
  Qed.
End Gc.

Section Renumber.
  Variable dbg : bool.
  Variable femlib : mesh R -> Z -> fem R.
  Variable moment : R * R -> nat -> nat -> R * R -> R.
  Variables (s : nat -> nat) (m m' : model R) (o o' : driver_options) (d d' : driver R) (ops ops' : list dop) (conds conds' : list (pec R)).
  Hypothesis Rn : renumbered s m m' conds conds'.
  Hypothesis Oo : o_order o' = o_order o.
  Hypothesis W : well_posed (femlib (mo_mesh m) (o_order o)) m.
  Hypothesis W' : well_posed (femlib (mo_mesh m) (o_order o)) m'.
  Hypothesis B : built dbg femlib m o d.
  Hypothesis B' : built dbg femlib m' o' d'.
  Notation F := (femlib (mo_mesh m) (o_order o)).
  Notation Reply op := (reply dbg femlib moment op (after dbg femlib moment ops d)).
  Notation Reply' op := (reply dbg femlib moment op (after dbg femlib moment ops' d')).
  Let O := proj1 (rn_orders _ _ _ _ _ Rn).
  Let O' := proj2 (rn_orders _ _ _ _ _ Rn).

  Lemma loop_ext (ms : mesh R) l l' : map o_attr l' = map o_attr l -> openness_loop ms l' = openness_loop ms l.
  Proof.
    revert l'; induction l as [|x l IH]; intros [|y l'] E; try discriminate E; [reflexivity|]. injection E as E1 E2.
    cbn [openness_loop]. rewrite E1, (IH _ E2). reflexivity.
  Qed.
  Lemma same_openness : determineOpenness dbg m' = determineOpenness dbg m.
  Proof.
    unfold determineOpenness. rewrite (rn_mesh _ _ _ _ _ Rn). pose proof (rn_open _ _ _ _ _ Rn) as E.
    assert (L : List.length (openBoundaries (mo_mats m')) = List.length (openBoundaries (mo_mats m))).
    { apply (f_equal (@List.length Z)) in E. now rewrite !map_length in E. }
    rewrite L, (loop_ext _ _ _ E). reflexivity.
  Qed.
  Lemma same_permittivity ignore t x : permittivity (mo_mats m) ignore t x -> permittivity (mo_mats m') ignore t x.
  Proof.
    intros (l1 & q & l2 & E & Et & N & ->). pose proof (rn_media _ _ _ _ _ Rn) as M. rewrite E, map_app in M. cbn [map] in M.
    apply map_eq_app in M as (k1 & k2 & E' & M1 & M2). destruct k2 as [|q' k2]; [discriminate M2|]. cbn [map] in M2. injection M2 as Ea Ee M2.
    exists k1, q', k2. split; [exact E'|]. split; [congruence|]. split; [|destruct ignore; congruence].
    intros I. apply N. apply (f_equal (map fst)) in M2. rewrite !map_map in M2. cbn [fst] in M2. exact (eq_ind _ (fun l => In t l) I _ M2).
  Qed.
  Lemma has_conductor t : (exists q, In q (pecs (mo_mats m)) /\ p_attr q = t) -> exists q, In q (pecs (mo_mats m')) /\ p_attr q = t.
  Proof.
    intros (q & I & Et). apply (Permutation_in _ (Permutation_sym (proj1 O))) in I. apply In_nth_error in I as (i & Ei).
    destruct (rn_tags _ _ _ _ _ Rn i q Ei) as (q' & Eq' & Ea). exists q'. split; [|congruence].
    apply (Permutation_in _ (proj1 O')). eapply nth_error_In; exact Eq'.
  Qed.
  Lemma has_conductor' t : (exists q, In q (pecs (mo_mats m')) /\ p_attr q = t) -> exists q, In q (pecs (mo_mats m)) /\ p_attr q = t.
  Proof.
    intros (q & I & Et). apply (Permutation_in _ (Permutation_sym (proj1 O'))) in I. apply In_nth_error in I as (k & Ek).
    assert (L : (k < List.length conds)%nat) by (rewrite <- (rn_length _ _ _ _ _ Rn); apply nth_error_Some; congruence).
    assert (Ik : In k (map s (seq 0 (List.length conds)))).
    { eapply Permutation_in; [apply Permutation_sym, (rn_bijective _ _ _ _ _ Rn)|]. apply in_seq. lia. }
    apply in_map_iff in Ik as (i & Es & Ii). apply in_seq in Ii.
    destruct (nth_error conds i) as [p|] eqn:Ep; [|apply nth_error_None in Ep; lia].
    destruct (rn_tags _ _ _ _ _ Rn i p Ep) as (q' & Eq' & Ea). rewrite Es in Eq'. assert (q' = q) by congruence. subst q'.
    exists p. split; [|congruence]. apply (Permutation_in _ (proj1 O)). eapply nth_error_In; exact Ep.
  Qed.
  Lemma same_unit ignore t x : (forall t x, permittivity (mo_mats m') ignore t x -> permittivity (mo_mats m) ignore t x) ->
    unit_solution F dbg (mo_mats m) ignore t x -> unit_solution F dbg (mo_mats m') ignore t x.
  Proof.
    intros Pm (p & z & [C1 C2 C3 C4 C5] & E & S). exists p, z. split; [|split; assumption]. split; auto.
    - intros t' x'. rewrite C2. split; intros [H1 H2]; split; auto; [now apply has_conductor|now apply has_conductor'].
    - now rewrite (rn_open _ _ _ _ _ Rn).
    - intros t' x'. rewrite C5. split; [apply same_permittivity|apply Pm].
  Qed.
End Renumber.
Lemma same_permittivity' s m m' conds conds' ignore t x : renumbered s m m' conds conds' ->
  permittivity (mo_mats m') ignore t x -> permittivity (mo_mats m) ignore t x.
Proof.
  intros Rn (l1 & q & l2 & E & Et & N & ->). pose proof (rn_media _ _ _ _ _ Rn) as M. rewrite E, map_app in M. cbn [map] in M.
  symmetry in M. apply map_eq_app in M as (k1 & k2 & E' & M1 & M2). destruct k2 as [|q' k2]; [discriminate M2|]. cbn [map] in M2. injection M2 as Ea Ee M2.
  exists k1, q', k2. split; [exact E'|]. split; [congruence|]. split; [|destruct ignore; congruence].
  intros I. apply N. apply (f_equal (map fst)) in M2. rewrite !map_map in M2. cbn [fst] in M2. exact (eq_ind _ (fun l => In t l) I _ M2).
Qed.

Section Results.
  Variable dbg : bool.
  Variable femlib : mesh R -> Z -> fem R.
  Variable moment : R * R -> nat -> nat -> R * R -> R.
  Variables (s : nat -> nat) (m m' : model R) (o o' : driver_options) (d d' : driver R) (ops ops' : list dop) (conds conds' : list (pec R)).
  Hypothesis Rn : renumbered s m m' conds conds'.
  Hypothesis Oo : o_order o' = o_order o.
  Hypothesis W : well_posed (femlib (mo_mesh m) (o_order o)) m.
  Hypothesis W0 : well_posed (femlib (mo_mesh m) (o_order o)) m'.
  Hypothesis B : built dbg femlib m o d.
  Hypothesis B' : built dbg femlib m' o' d'.
  Notation F := (femlib (mo_mesh m) (o_order o)).
  Notation N := (List.length conds).
  Notation Reply op := (reply dbg femlib moment op (after dbg femlib moment ops d)).
  Notation Reply' op := (reply dbg femlib moment op (after dbg femlib moment ops' d')).
  Let O := proj1 (rn_orders _ _ _ _ _ Rn).
  Let O' := proj2 (rn_orders _ _ _ _ _ Rn).
  Let EF : femlib (mo_mesh m') (o_order o') = F.
  Proof. now rewrite (rn_mesh _ _ _ _ _ Rn), Oo. Qed.
  Let W' : well_posed (femlib (mo_mesh m') (o_order o')) m'.
  Proof. rewrite EF. exact W0. Qed.
  Let Pn := rn_bijective _ _ _ _ _ Rn.

  Lemma renumbered_g ignore g g' w w' : Reply (CallGeneralizedC ignore) = (Ok (VMatrix g), w) -> Reply' (CallGeneralizedC ignore) = (Ok (VMatrix g'), w') ->
    square N g /\ square N g' /\ forall i j, (i < N)%nat -> (j < N)%nat -> ent g' (s i) (s j) = ent g i j.
  Proof.
    intros E E'. destruct (gc_units dbg femlib moment m o d ops conds W B O _ _ _ E) as (us & Fu & Sg & G).
    destruct (gc_units dbg femlib moment m' o' d' ops' conds' W' B' O' _ _ _ E') as (_ & _ & Sg' & G').
    rewrite EF in G'. rewrite (rn_length _ _ _ _ _ Rn) in Sg'. split; [exact Sg|]. split; [exact Sg'|]. intros i j Li Lj.
    assert (L : List.length us = N) by (apply Forall2_length in Fu; auto).
    destruct (nth_error conds i) as [p|] eqn:Ep; [|apply nth_error_None in Ep; lia].
    destruct (nth_error conds j) as [q|] eqn:Eq; [|apply nth_error_None in Eq; lia].
    destruct (nth_error us i) as [x|] eqn:Ex; [|apply nth_error_None in Ex; lia].
    destruct (nth_error us j) as [y|] eqn:Ey; [|apply nth_error_None in Ey; lia].
    destruct (Forall2_nth_r _ _ _ i x Fu Ex) as (p1 & Ep1 & Ux). assert (p1 = p) by congruence. subst p1.
    destruct (Forall2_nth_r _ _ _ j y Fu Ey) as (q1 & Eq1 & Uy). assert (q1 = q) by congruence. subst q1.
    destruct (rn_tags _ _ _ _ _ Rn i p Ep) as (p' & Ep' & Eap). destruct (rn_tags _ _ _ _ _ Rn j q Eq) as (q' & Eq' & Eaq).
    assert (Cx : forall x t, charge_on F x t (flux_form F (fun q => if (q_attr q =? t)%Z then - 1 else 0) (so_d x))) by (intros ? ? ? <-; reflexivity).
    rewrite (G i j p q x y _ _ Ep Eq Ux Uy (Cx x (p_attr q)) (Cx y (p_attr p))).
    assert (Pm : forall t z, permittivity (mo_mats m') ignore t z -> permittivity (mo_mats m) ignore t z) by (intros t z; eapply same_permittivity'; exact Rn).
    apply (G' (s i) (s j) p' q' x y); rewrite ?Eap, ?Eaq; auto; eapply same_unit; eassumption.
  Qed.
  Lemma renumbered_pul p p' w w' n : s 0%nat = 0%nat -> N = S n -> Reply CallPUL = (Ok (VPul p), w) -> Reply' CallPUL = (Ok (VPul p'), w') ->
    square n (pul_C p) /\ square n (pul_C p') /\ square n (pul_L p) /\ square n (pul_L p') /\
    forall i j, (i < n)%nat -> (j < n)%nat ->
      ent (pul_C p') (without_reference s i) (without_reference s j) = ent (pul_C p) i j /\
      ent (pul_L p') (without_reference s i) (without_reference s j) = ent (pul_L p) i j.
  Proof.
    intros Z Ln E E'.
    destruct (PUL_inv dbg femlib moment Rmul0 m o d ops W B p w E) as (C & L & w1 & w2 & EC & EL & ->).
    destruct (PUL_inv dbg femlib moment Rmul0 m' o' d' ops' W' B' p' w' E') as (C' & L' & w1' & w2' & EC' & EL' & ->).
    pose proof (D_model dbg femlib moment Rmul0 m o d ops W B) as Dm. pose proof (D_model dbg femlib moment Rmul0 m' o' d' ops' W' B') as Dm'.
    destruct (C_inv _ _ _ _ _ _ EC) as (ge & op & Ee & Eo & ->). rewrite Dm in Eo.
    destruct (L_inv _ _ _ _ _ _ EL) as (gm & op1 & Em1 & Eo1 & Inv). rewrite Dm, Eo in Eo1. injection Eo1 as <-.
    assert (Eo' : determineOpenness dbg m' = Ok op) by (rewrite <- Eo; eapply same_openness; exact Rn).
    destruct (C_inv _ _ _ _ _ _ EC') as (ge' & op1 & Ee' & Eo1 & ->). rewrite Dm', Eo' in Eo1. injection Eo1 as <-.
    destruct (L_inv _ _ _ _ _ _ EL') as (gm' & op1 & Em1' & Eo1 & Inv'). rewrite Dm', Eo' in Eo1. injection Eo1 as <-.
    destruct (renumbered_g _ _ _ _ _ Ee Ee') as (Se & Se' & Ge). destruct (renumbered_g _ _ _ _ _ Em1 Em1') as (Sm & Sm' & Gm).
    pose proof Pn as P. rewrite Ln in *. pose proof (without_reference_ok n s P Z) as Pt.
    pose proof (reduced_size ge n Se op) as Re. pose proof (reduced_size gm n Sm op) as Rem.
    pose proof (reduced_size ge' n Se' op) as Re'. pose proof (reduced_size gm' n Sm' op) as Rem'.
    destruct (invert_product _ n Rem L Inv) as (Sl & P1 & P2). destruct (invert_product _ n Rem' L' Inv') as (Sl' & P1' & P2').
    split; [exact Re|]. split; [exact Re'|]. split; [exact Sl|]. split; [exact Sl'|].
    intros i j Li Lj. cbn [pul_L pul_C mscale ent nmul RNum]. split; f_equal.
    - apply permuted_reduction with (n := n); auto.
    - apply (permuted_inverse n (without_reference s) (getCFromGeneralizedC gm op) (getCFromGeneralizedC gm' op) L L' Pt Rem Rem'); auto.
      intros a b La Lb. apply permuted_reduction with (n := n); auto.
  Qed.
  Lemma renumbered_floating op e f e' f' w w' : (2 <= N)%nat -> determineOpenness dbg m = Ok op ->
    Reply CallFloating = (Ok (VMatrices e f), w) -> Reply' CallFloating = (Ok (VMatrices e' f'), w') ->
    (op = Open -> forall i j, (i < N)%nat -> (j < N)%nat -> ent e' (s i) (s j) = ent e i j /\ ent f' (s i) (s j) = ent f i j) /\
    (op = Closed -> s 0%nat = 0%nat -> forall i j, (S i < N)%nat -> (S j < N)%nat ->
       ent e' (without_reference s i) (without_reference s j) = ent e i j /\ ent f' (without_reference s i) (without_reference s j) = ent f i j).
  Proof.
    intros L2 Eo E E'. assert (Eo' : determineOpenness dbg m' = Ok op) by (rewrite <- Eo; eapply same_openness; exact Rn).
    assert (L2' : (2 <= List.length conds')%nat) by now rewrite (rn_length _ _ _ _ _ Rn).
    assert (N1 : N = 1%nat -> op <> Closed) by lia. assert (N1' : List.length conds' = 1%nat -> op <> Closed) by lia.
    destruct (generalized_matrix dbg femlib moment m o d ops conds false op W B O Eo N1) as (ge & we & Ee & _).
    destruct (generalized_matrix dbg femlib moment m o d ops conds true op W B O Eo N1) as (gm & wm & Em & _).
    destruct (generalized_matrix dbg femlib moment m' o' d' ops' conds' false op W' B' O' Eo' N1') as (ge' & we' & Ee' & _).
    destruct (generalized_matrix dbg femlib moment m' o' d' ops' conds' true op W' B' O' Eo' N1') as (gm' & wm' & Em' & _).
    destruct (renumbered_g _ _ _ _ _ Ee Ee') as (Se & Se' & Ge). destruct (renumbered_g _ _ _ _ _ Em Em') as (Sm & Sm' & Gm).
    assert (K : op <> SemiOpen -> forall g g' x x', (g, x) = (ge, e) \/ (g, x) = (gm, f) -> (g', x') = (ge', e') \/ (g', x') = (gm', f') ->
       (square (nr (match op with Closed => grounded g | _ => g end)) x /\ forall i, (i < nr (match op with Closed => grounded g | _ => g end))%nat ->
          floats (match op with Closed => grounded g | _ => g end) i (ent x i) /\ forall V, floats (match op with Closed => grounded g | _ => g end) i V -> forall j, (j < nr (match op with Closed => grounded g | _ => g end))%nat -> V j = ent x i j) /\
       (square (nr (match op with Closed => grounded g' | _ => g' end)) x' /\ forall i, (i < nr (match op with Closed => grounded g' | _ => g' end))%nat ->
          floats (match op with Closed => grounded g' | _ => g' end) i (ent x' i) /\ forall V, floats (match op with Closed => grounded g' | _ => g' end) i V -> forall j, (j < nr (match op with Closed => grounded g' | _ => g' end))%nat -> V j = ent x' i j)).
    { intros Ns g g' x x' H1 H2. split.
      - apply (floating_potentials dbg femlib moment m o d ops conds W B O op ge gm we wm e f w L2 Eo Ns Ee Em E).
        destruct H1 as [[= -> ->]|[= -> ->]]; auto.
      - apply (floating_potentials dbg femlib moment m' o' d' ops' conds' W' B' O' op ge' gm' we' wm' e' f' w' L2' Eo' Ns Ee' Em' E').
        destruct H2 as [[= -> ->]|[= -> ->]]; auto. }
    (* the rows of both matrices are the floating potentials *)
    assert (U : forall n t (C C' x x' : matrix R), renumbering n t -> square n C -> square n C' ->
       (forall i j, (i < n)%nat -> (j < n)%nat -> ent C' (t i) (t j) = ent C i j) ->
       (forall i, (i < n)%nat -> floats C i (ent x i) /\ forall V, floats C i V -> forall j, (j < n)%nat -> V j = ent x i j) ->
       (forall i, (i < n)%nat -> floats C' i (ent x' i)) ->
       forall i j, (i < n)%nat -> (j < n)%nat -> ent x' (t i) (t j) = ent x i j).
    { intros n t C C' x x' Pt Sc Sc' Ec Hx Hx' i j Li Lj.
      assert (Lt : (t i < n)%nat) by now apply (renumbering_lt n t).
      pose proof (permuted_floats n t C C' Pt Sc Sc' Ec i (ent x' (t i)) Li (Hx' (t i) Lt)) as Fl.
      exact (proj2 (Hx i Li) _ Fl j Lj). }
    split.
    - intros ->. intros i j Li Lj.
      destruct (K ltac:(discriminate) ge ge' e e' (or_introl eq_refl) (or_introl eq_refl)) as ((_ & A1) & (_ & A2)).
      destruct (K ltac:(discriminate) gm gm' f f' (or_intror eq_refl) (or_intror eq_refl)) as ((_ & A3) & (_ & A4)).
      destruct Se as [Se1 Se2], Se' as [Se1' Se2'], Sm as [Sm1 Sm2], Sm' as [Sm1' Sm2'].
      rewrite Se1 in A1. rewrite Se1' in A2. rewrite Sm1 in A3. rewrite Sm1' in A4.
      split; [apply (U N s ge ge')|apply (U N s gm gm')]; auto; try (split; assumption); intros a La; [apply A2|apply A4]; exact La.
    - intros -> Z i j Li Lj. assert (exists n, N = S n) as (n & En) by (exists (N - 1)%nat; lia). pose proof Pn as P. rewrite En in P, Li, Lj, Se, Se', Ge, Sm, Sm', Gm. pose proof (without_reference_ok n s P Z) as Pt.
      destruct (K ltac:(discriminate) ge ge' e e' (or_introl eq_refl) (or_introl eq_refl)) as ((_ & A1) & (_ & A2)).
      destruct (K ltac:(discriminate) gm gm' f f' (or_intror eq_refl) (or_intror eq_refl)) as ((_ & A3) & (_ & A4)).
      destruct Se as [Se1 Se2], Se' as [Se1' Se2'], Sm as [Sm1 Sm2], Sm' as [Sm1' Sm2'].
      cbn [grounded nr] in A1, A2, A3, A4. rewrite Se1 in A1. rewrite Se1' in A2. rewrite Sm1 in A3. rewrite Sm1' in A4.
      replace (S n - 1)%nat with n in * by lia.
      assert (G : forall g g' : matrix R, (forall i j, (i < S n)%nat -> (j < S n)%nat -> ent g' (s i) (s j) = ent g i j) ->
        forall a b, (a < n)%nat -> (b < n)%nat -> ent (grounded g') (without_reference s a) (without_reference s b) = ent (grounded g) a b).
      { intros g g' Eg a b La Lb. cbn [grounded ent]. rewrite !(without_reference_S n s) by auto. apply Eg; lia. }
      assert (Sq : forall g : matrix R, nr g = S n -> nc g = S n -> square n (grounded g)) by (intros g G1 G2; split; cbn; rewrite ?G1, ?G2; lia).
      split; [apply (U n (without_reference s) (grounded ge) (grounded ge'))|apply (U n (without_reference s) (grounded gm) (grounded gm'))]; auto; try lia;
        try (intros a La; [apply A2|apply A4]; exact La).
      all: intros a La; first [apply A2|apply A4]; exact La.
  Qed.
End Results.
