(** In-cell parameters of a turned drawing (C70). *)
From Coq Require Import Reals Lra Relations Permutation.
From Verif Require Import Prelude StdMap Json Materials Graph ModelM Parser Matrix Multipole Solver Fem Domain Results Driver RSum ListLemmas LinAlg SpecGraph SpecInput SpecModel SpecSolver SpecDriver SpecMatrix
  SpecCharge SpecField SpecFem SpecInner SpecInCell SpecTriangles SpecOpen SpecRenumber SpecMultipole SpecDrawing Triangles ModelProofs SolverProofs ChargeProofs MultipoleProofs FemCalls FemFacts FemModel FemMatrix FemMore TriProofs TriModel
  Drawing DrawDriver Iso DriverProofs CallProofs DriverFacts MatrixProofs MatrixCalls MatrixFacts FieldProofs InCellOk RunProofs RenumberProofs RenumberCell.
Open Scope R_scope.
Open Scope list_scope.

Lemma fold_left_same {A B} (g h : A -> B -> A) l a : (forall x y, g x y = h x y) -> fold_left g l a = fold_left h l a.
Proof. intros H. revert a. induction l as [|y l IH]; intros a; [reflexivity|]. cbn [fold_left]. now rewrite H, IH. Qed.
Lemma Ok_inj {A} (x y : A) : Ok x = Ok y -> x = y. Proof. now intros [= ->]. Qed.
(** ** Turning *)
Lemma turn_similarity th : similarity 1 (turn th).
Proof.
  split; [lra|]. exists (cos th), (sin th), 0, 0. split.
  - pose proof (sin2_cos2 th) as H. unfold Rsqr in H. lra.
  - intros p. unfold turn. f_equal; ring.
Qed.
Lemma turn_cmul th z : turn th z = cmul (cos th, sin th) z.
Proof. unfold turn, cmul. cbn [fst snd]. f_equal; ring. Qed.
Lemma turn_csub th z w : csub (turn th z) (turn th w) = turn th (csub z w).
Proof. unfold turn, csub. cbn [fst snd]. f_equal; ring. Qed.
Lemma turn_cpow th z n : cpow (turn th z) n = turn (INR n * th) (cpow z n).
Proof.
  induction n as [|n IH].
  - cbn [cpow INR]. unfold turn, cone. rewrite Rmult_0_l, cos_0, sin_0. cbn [fst snd]. f_equal; ring.
  - cbn [cpow]. rewrite IH, S_INR. replace ((INR n + 1) * th) with (th + INR n * th) by ring. rewrite !turn_cmul. unfold cmul. cbn [fst snd].
    rewrite cos_plus, sin_plus. f_equal; ring.
Qed.
Lemma turn_moment th p c n : (0 < n)%nat ->
  (momentComponent (turn th p) n 0 (turn th c), momentComponent (turn th p) n 1 (turn th c)) =
  turn (INR n * th) (momentComponent p n 0 c, momentComponent p n 1 c).
Proof.
  intros L. destruct (moment_pow (turn th p) n (turn th c) L) as (-> & ->). destruct (moment_pow p n c L) as (-> & ->).
  rewrite turn_csub, turn_cpow. unfold turn. cbn [fst snd]. unfold Rdiv. f_equal; ring.
Qed.
Lemma turn_cabs th z : cabs (turn th z) = cabs z.
Proof.
  unfold cabs, cabs2, turn. cbn [fst snd]. f_equal. pose proof (sin2_cos2 th) as H. unfold Rsqr in H.
  transitivity ((sin th * sin th + cos th * cos th) * (fst z * fst z + snd z * snd z)); [ring|rewrite H; ring].
Qed.
Lemma turn_cinv th z : cinv (turn th z) = turn (- th) (cinv z).
Proof.
  unfold cinv. assert (E : cabs2 (turn th z) = cabs2 z).
  { unfold cabs2, turn. cbn [fst snd]. pose proof (sin2_cos2 th) as H. unfold Rsqr in H.
    transitivity ((sin th * sin th + cos th * cos th) * (fst z * fst z + snd z * snd z)); [ring|rewrite H; ring]. }
  rewrite E. unfold turn. rewrite cos_neg, sin_neg. cbn [fst snd]. unfold Rdiv. f_equal; ring.
Qed.
Lemma turn_neq th p c : p <> c -> turn th p <> turn th c.
Proof.
  intros N E. apply N. assert (E' : turn (- th) (turn th p) = turn (- th) (turn th c)) by now rewrite E.
  assert (G : forall q, turn (- th) (turn th q) = q).
  { intros [x y]. unfold turn. rewrite cos_neg, sin_neg. cbn [fst snd]. pose proof (sin2_cos2 th) as H. unfold Rsqr in H. f_equal.
    - transitivity ((sin th * sin th + cos th * cos th) * x); [ring|rewrite H; ring].
    - transitivity ((sin th * sin th + cos th * cos th) * y); [ring|rewrite H; ring]. }
  now rewrite !G in E'.
Qed.
Lemma turn_series th k ab z : series k (turn_multipoles th k ab) (turn th z) = series k ab z.
Proof.
  revert k. induction ab as [|c ab IH]; intros k; [reflexivity|]. cbn [turn_multipoles series]. rewrite IH. f_equal.
  destruct k as [|k].
  - rewrite turn_cabs. cbn [INR]. unfold turn. rewrite Rmult_0_l, cos_0, sin_0. cbn [fst snd]. f_equal. ring.
  - rewrite turn_cinv, turn_cpow, !turn_cmul. replace (INR (S k) * - th) with (- (INR (S k) * th)) by ring. rewrite cos_neg, sin_neg.
    set (a := INR (S k) * th). pose proof (sin2_cos2 a) as H. unfold Rsqr in H. unfold cmul. cbn [fst snd]. set (w := cpow (cinv z) (S k)).
    transitivity ((sin a * sin a + cos a * cos a) * (fst c * fst w - snd c * snd w)); [ring|rewrite H; ring].
Qed.
Lemma turned_expansion th fr fr' p : turned_field th fr fr' -> p <> fr_center fr ->
  multipolarExpansion (turn th p) (fr_ab fr') (fr_center fr') = multipolarExpansion p (fr_ab fr) (fr_center fr).
Proof.
  intros [_ Ec Ea _] N. rewrite Ec, Ea. rewrite !expansion_series by (auto using turn_neq). now rewrite turn_csub, turn_series.
Qed.
Lemma turn_multipoles_map th (g g' : nat -> R * R) k l : (forall n, In n (seq k l) -> g' n = turn (INR n * th) (g n)) ->
  map g' (seq k l) = turn_multipoles th k (map g (seq k l)).
Proof.
  revert k. induction l as [|l IH]; intros k H; [reflexivity|]. cbn [seq map turn_multipoles]. rewrite (H k) by (cbn; auto). f_equal. apply IH. intros n I. apply H. now right.
Qed.

(** The reconstructed field is the field with the potentials [V] *)
Lemma reconstructed_field abc D dbg moment m conds : well_posed (discretize abc D) m -> regular_model abc D m -> in_order (mo_mats m) conds ->
  forall V v ignore k x fr, (forall j q, nth_error conds j = Some q -> v (p_attr q) = V j) -> reconstruction (discretize abc D) dbg moment m k ignore conds V x fr ->
  model_fields abc D dbg m ignore v x.
Proof.
  intros W Rm O V v ignore k x fr Hv Rx. destruct (model_fields_exist abc D dbg m W Rm ignore v) as (x' & Fx).
  destruct (rc_units _ _ _ _ _ _ _ _ _ _ Rx) as (us & Fu & Cx).
  assert (Cx' : combines us V x') by exact (conductor_combination abc D dbg m W Rm ignore conds us V v x' O Fu Hv Fx).
  rewrite (combines_unique abc D us V x x' Cx Cx' (rc_sized _ _ _ _ _ _ _ _ _ _ Rx)); [exact Fx|].
  apply (fields_sized abc D dbg m W ignore _ x' Fx).
Qed.

Section Turned.
  Variables (rule1 : list (R * R)) (rule0 rule2 : list (R * R * R)) (abc abc' : R * R -> R) (dbg : bool) (m m' : model R) (o o' : driver_options) (d d' : driver R) (conds : list (pec R)).
  Hypothesis Td : triangle_driver rule1 rule0 rule2 abc dbg m o d conds.
  Hypothesis Td' : triangle_driver rule1 rule0 rule2 abc' dbg m' o' d' conds.
  Hypothesis Ex : exact_for_quadratics rule2.
  Hypothesis El : exact_for_linear rule1 rule2.
  Variables (th : R) (sigma : Z -> Z).
  Notation f := (turn th).
  Hypothesis Sd : same_drawing 1 f sigma m m'.
  Hypothesis Ab : absorbs_alike 1 f abc abc' m.
  Hypothesis Ar : same_areas (mo_mesh m) (mo_mesh m').
  Hypothesis Vac : In "Vacuum_0"%string (map d_name (dielectrics (mo_mats m))).
  Notation D := (first_order rule1 rule0 rule2 distance (mo_mesh m)).
  Notation D' := (first_order rule1 rule0 rule2 distance (mo_mesh m')).
  Notation F := (discretize abc D).
  Notation F' := (discretize abc' D').
  Let Ru := td_rules _ _ _ _ _ _ _ _ _ Td.
  Let Cs := td_section _ _ _ _ _ _ _ _ _ Td.
  Let Cs' := td_section _ _ _ _ _ _ _ _ _ Td'.
  Let Sim := proj1 Sd.
  Let Rd := proj1 (proj2 Sd).
  Let Em : mo_mats m' = mo_mats m := proj2 (proj2 Sd).
  Let W : well_posed F m := cross_section_posed rule1 rule0 rule2 Ru abc m Cs.
  Let W' : well_posed F' m' := cross_section_posed rule1 rule0 rule2 Ru abc' m' Cs'.
  Notation tp := (tp m sigma).
  Notation td := (td m m' sigma).

  Lemma turned_fields ignore v x y : model_fields abc D dbg m ignore v x -> model_fields abc' D' dbg m' ignore v y ->
    so_phi x = tp (so_phi y) /\ so_d x = td (so_d y) /\ List.length (so_d y) = di_nRT D'.
  Proof.
    apply (fields_moved rule1 rule0 rule2 Ru Ex abc abc' m m' Cs Cs' 1 f sigma Sim Rd (fun t => exists o, In o (openBoundaries (mo_mats m)) /\ o_attr o = t)).
    - intros t' p (ob & Io & <-) L. exact (Ab ob p Io L).
    - exact Em.
    - intros ob Io. eauto.
  Qed.
  Section Solvers.
    Variables (z z' : solver R) (ignore : bool) (v v' : Z -> R).
    Hypothesis Cz : conductor_problem (mo_mats m) ignore v (s_params z).
    Hypothesis Cz' : conductor_problem (mo_mats m') ignore v' (s_params z').
    Hypothesis Lz' : potential D' (s_phi z').
    Hypothesis Ez : s_phi z = tp (s_phi z').
    Hypothesis Ed : s_d z = td (s_d z').
    Hypothesis Ld : List.length (s_d z') = di_nRT D'.
    Lemma turned_flux (g g' : Z -> R * R -> R) : (forall t p, g t p = g' t (f p)) ->
      flux_form F (fun q => g (q_attr q) (q_pos q)) (s_d z) = flux_form F' (fun q => g' (q_attr q) (q_pos q)) (s_d z').
    Proof.
      intros H. rewrite !flux_form_Rsum, Ed. unfold flux_at. change (fe_flux F) with (di_flux D). change (fe_flux F') with (di_flux D').
      exact (flux_points_moved rule1 rule0 rule2 abc abc' m m' Cs Cs' 1 f sigma Sim Rd g g' (s_d z') Ld H).
    Qed.
    Lemma turned_charged : chargedBoundaries z' = chargedBoundaries z.
    Proof.
      unfold chargedBoundaries. rewrite (cp_neu _ _ _ _ Cz), (cp_neu _ _ _ _ Cz'). f_equal. pose proof Cz' as C2. rewrite Em in C2.
      assert (E : map (fun tx => (fst tx, 0)) (si_dirichlet (s_params z')) = map (fun tx => (fst tx, 0)) (si_dirichlet (s_params z))).
      { assert (Ms : forall l : list (Z * R), msorted l -> msorted (map (fun tx => (fst tx, 0)) l)).
        { intros l. unfold msorted. now rewrite map_map. }
        apply msorted_in_ext; [apply Ms, C2|apply Ms, Cz|]. intros t x. rewrite !in_map_iff. split; intros ([t1 x1] & E & I); cbn in E; injection E as <- <-.
        - apply (cp_dir _ _ _ _ C2) in I as (I & _). exists (t1, v t1). split; [reflexivity|]. apply (cp_dir _ _ _ _ Cz). auto.
        - apply (cp_dir _ _ _ _ Cz) in I as (I & _). exists (t1, v' t1). split; [reflexivity|]. apply (cp_dir _ _ _ _ C2). auto. }
      apply (f_equal (map fst)) in E. rewrite !map_map in E. cbn [fst] in E. exact E.
    Qed.
    Lemma turned_charge t : getChargeInBoundary F' z' t = getChargeInBoundary F z t.
    Proof. symmetry. unfold getChargeInBoundary. apply (turned_flux (fun a _ => if (a =? t)%Z then nopp n1 else n0) (fun a _ => if (a =? t)%Z then nopp n1 else n0)). reflexivity. Qed.
    Lemma turned_total : getTotalCharge F' z' = getTotalCharge F z.
    Proof. symmetry. unfold getTotalCharge. apply (turned_flux (fun _ _ => n1) (fun _ _ => n1)). reflexivity. Qed.
    Lemma turned_moment n c :
      (getChargeMomentComponent F' momentComponent z' n 0 (f c), getChargeMomentComponent F' momentComponent z' n 1 (f c)) =
      turn (INR n * th) (getChargeMomentComponent F momentComponent z n 0 c, getChargeMomentComponent F momentComponent z n 1 c).
    Proof.
      destruct n as [|n].
      - unfold getChargeMomentComponent. rewrite turned_charged. cbn [INR]. unfold turn. rewrite Rmult_0_l, cos_0, sin_0. cbn [fst snd n0 RNum]. f_equal; [|ring].
        rewrite (fold_left_same _ (fun q b => nadd q (getChargeInBoundary F z b))); [ring|]. intros q b. now rewrite turned_charge.
      - unfold getChargeMomentComponent. rewrite turned_charged. set (cb := chargedBoundaries z). clearbody cb.
        set (k := S n). assert (Lk : (0 < k)%nat) by (unfold k; lia). clearbody k.
        assert (G : forall x y : R,
          flux_form F' (fun q => if zmem (q_attr q) cb then - (x * momentComponent (q_pos q) k 0 (f c) + y * momentComponent (q_pos q) k 1 (f c)) else 0) (s_d z') =
          x * flux_form F' (fun q => if zmem (q_attr q) cb then nopp n1 * momentComponent (q_pos q) k 0 (f c) else n0)%num (s_d z') +
          y * flux_form F' (fun q => if zmem (q_attr q) cb then nopp n1 * momentComponent (q_pos q) k 1 (f c) else n0)%num (s_d z')).
        { intros x y. rewrite !flux_form_Rsum, <- !Rsum_scal, <- Rsum_plus. apply Rsum_ext. intros q _. cbn [nmul nopp n1 n0 RNum]. destruct (zmem _ _); ring. }
        assert (H : forall i, (i = 0 \/ i = 1)%nat -> flux_form F (fun q => if zmem (q_attr q) cb then nopp n1 * momentComponent (q_pos q) k i c else n0)%num (s_d z) =
          flux_form F' (fun q => if zmem (q_attr q) cb then - ((if (i =? 0)%nat then cos (INR k * th) else - sin (INR k * th)) * momentComponent (q_pos q) k 0 (f c) +
                                                              (if (i =? 0)%nat then sin (INR k * th) else cos (INR k * th)) * momentComponent (q_pos q) k 1 (f c)) else 0) (s_d z')).
        { intros i Hi. refine (turned_flux (fun a p => if zmem a cb then nopp n1 * momentComponent p k i c else n0)%num
            (fun a p => if zmem a cb then - ((if (i =? 0)%nat then cos (INR k * th) else - sin (INR k * th)) * momentComponent p k 0 (f c) +
                                              (if (i =? 0)%nat then sin (INR k * th) else cos (INR k * th)) * momentComponent p k 1 (f c)) else 0) _).
          intros t p. pose proof (turn_moment th p c k Lk) as T. 
          assert (T1 : momentComponent (f p) k 0 (f c) = cos (INR k * th) * momentComponent p k 0 c - sin (INR k * th) * momentComponent p k 1 c) by exact (f_equal fst T).
          assert (T2 : momentComponent (f p) k 1 (f c) = sin (INR k * th) * momentComponent p k 0 c + cos (INR k * th) * momentComponent p k 1 c) by exact (f_equal snd T).
          clear T. rewrite T1, T2.
          set (A := momentComponent p k 0 c). set (B := momentComponent p k 1 c). pose proof (sin2_cos2 (INR k * th)) as S1. unfold Rsqr in S1.
          cbn [nmul nopp n1 n0 RNum]. destruct (zmem t cb); [|reflexivity]. destruct Hi as [-> | ->]; cbn [Nat.eqb]; fold A B.
          - transitivity (- ((sin (INR k * th) * sin (INR k * th) + cos (INR k * th) * cos (INR k * th)) * A)); [rewrite S1; ring|ring].
          - transitivity (- ((sin (INR k * th) * sin (INR k * th) + cos (INR k * th) * cos (INR k * th)) * B)); [rewrite S1; ring|ring]. }
        pose proof (H 0%nat (or_introl eq_refl)) as H0. pose proof (H 1%nat (or_intror eq_refl)) as H1. cbn [Nat.eqb] in H0, H1. rewrite G in H0, H1.
        rewrite H0, H1. clear H0 H1 G H.
        set (A := flux_form F' (fun q => if zmem (q_attr q) cb then nopp n1 * momentComponent (q_pos q) k 0 (f c) else n0)%num (s_d z')).
        set (B := flux_form F' (fun q => if zmem (q_attr q) cb then nopp n1 * momentComponent (q_pos q) k 1 (f c) else n0)%num (s_d z')). clearbody A B.
        pose proof (sin2_cos2 (INR k * th)) as S1. unfold Rsqr in S1. unfold turn. cbn [fst snd]. f_equal.
        + transitivity ((sin (INR k * th) * sin (INR k * th) + cos (INR k * th) * cos (INR k * th)) * A); [rewrite S1; ring|ring].
        + transitivity ((sin (INR k * th) * sin (INR k * th) + cos (INR k * th) * cos (INR k * th)) * B); [rewrite S1; ring|ring].
    Qed.
    Lemma turned_center c : getCenterOfCharge F momentComponent z = Ok c -> getCenterOfCharge F' momentComponent z' = Ok (f c).
    Proof.
      unfold getCenterOfCharge.
      assert (Po : Permutation (si_open (s_params z')) (si_open (s_params z))).
      { eapply Permutation_trans; [apply Cz'|]. rewrite Em. apply Permutation_sym, Cz. }
      destruct (si_open (s_params z)) as [|t [|? ?]] eqn:E; try discriminate.
      apply Permutation_sym, Permutation_length_1_inv in Po. rewrite Po. intros H. apply Ok_inj in H. rewrite <- H. f_equal.
      rewrite turned_total, turned_charge. pose proof (turned_moment 1 (0, 0)) as T.
      replace (f (0, 0)) with ((0, 0) : R * R) in T by (unfold turn; cbn [fst snd]; f_equal; ring).
      cbn [INR] in T. rewrite Rmult_1_l in T. assert (T1 := f_equal fst T). assert (T2 := f_equal snd T). cbn [fst snd] in T1, T2. clear T.
      change ((n0, n0) : R * R) with ((0, 0) : R * R). rewrite T1, T2. unfold turn. cbn [fst snd ndiv nsub RNum]. unfold Rdiv. f_equal; ring.
    Qed.
    Lemma turned_coefficients k ab : getMultipolarCoefficients F momentComponent z k = Ok ab -> getMultipolarCoefficients F' momentComponent z' k = Ok (turn_multipoles th 0 ab).
    Proof.
      intros E. unfold getMultipolarCoefficients in *. apply bind_ok in E as (c & E1 & E). rewrite (turned_center c E1). cbn [bind].
      apply Ok_inj in E. rewrite <- E. f_equal. apply turn_multipoles_map. intros n _. apply turned_moment.
    Qed.
    Lemma turned_average : getInnerRegionAveragePotential m' F' z' true = getInnerRegionAveragePotential m F z true.
    Proof.
      pose proof (td_conductors _ _ _ _ _ _ _ _ _ Td) as O. pose proof (td_conductors _ _ _ _ _ _ _ _ _ Td') as O'.
      rewrite (inner_data_ok F z m conds (wp_names _ _ W) O Vac), (inner_data_ok F' z' m' conds (wp_names _ _ W') O' ltac:(now rewrite Em)).
      assert (E : inner_data F' z' m' conds = inner_data F z m conds).
      { unfold inner_data, media_of. rewrite Em. apply (f_equal2 (@app _)).
        - apply map_ext_in. intros y I. apply filter_In in I as (I & _). apply in_map_iff in I as (q & <- & I). cbn [fst snd].
          rewrite (Ar (d_attr q)), (domain_average_moved rule1 rule0 rule2 abc abc' m m' Cs Cs' 1 f sigma Sim Rd El z z' (d_attr q) Lz' Ez); [reflexivity|].
          exact (proj2 (cs_media _ _ Cs q I)).
        - apply map_ext_in. intros q I.
          rewrite (boundary_average_moved rule1 rule0 rule2 abc abc' m m' Cs Cs' 1 f sigma Sim Rd El z z' (p_attr q) Lz' Ez); [reflexivity|].
          apply (Permutation_in _ (proj1 O)) in I. destruct (proj2 (proj2 (cs_conductors _ _ Cs)) q I) as (w & b & Ib & Eb & _). eauto. }
      now rewrite E.
    Qed.
  End Solvers.

  (** ** The Drivers *)
  Notation femlib := (galerkin abc (linear_elements rule1 rule0 rule2)).
  Notation femlib' := (galerkin abc' (linear_elements rule1 rule0 rule2)).
  Notation N := (List.length conds).
  Variables (ops ops' : list dop).
  Hypothesis Si : open_lines_simple m.
  Hypothesis Om : o_multipolarExpansionOrder o' = o_multipolarExpansionOrder o.
  Notation Reply op := (reply dbg femlib momentComponent op (after dbg femlib momentComponent ops d)).
  Notation Reply' op := (reply dbg femlib' momentComponent op (after dbg femlib' momentComponent ops' d')).
  Let B := td_built _ _ _ _ _ _ _ _ _ Td.
  Let B' := td_built _ _ _ _ _ _ _ _ _ Td'.
  Let O := td_conductors _ _ _ _ _ _ _ _ _ Td.
  Let O' := td_conductors _ _ _ _ _ _ _ _ _ Td'.
  Let Rm : regular_model abc D m := cross_section_regular rule1 rule0 rule2 Ru abc m Cs.
  Let Rm' : regular_model abc' D' m' := cross_section_regular rule1 rule0 rule2 Ru abc' m' Cs'.

  Lemma turned_openness op : determineOpenness dbg m = Ok op -> determineOpenness dbg m' = Ok op.
  Proof. exact (openness_moved m m' f sigma (proj1 (cs_mesh _ _ Cs)) (proj1 (cs_mesh _ _ Cs')) Rd Em dbg op Si). Qed.
  Lemma turned_g ignore g g' w w' : Reply (CallGeneralizedC ignore) = (Ok (VMatrix g), w) -> Reply' (CallGeneralizedC ignore) = (Ok (VMatrix g'), w') ->
    square N g /\ square N g' /\ forall i j, (i < N)%nat -> (j < N)%nat -> ent g' i j = ent g i j.
  Proof.
    intros E E'.
    assert (Ch : forall ignore v x y t q, model_fields abc D dbg m ignore v x -> model_fields abc' D' dbg m' ignore v y -> charge_on F x t q -> charge_on F' y t q).
    { intros ig v x y t q.
      apply (charge_moved rule1 rule0 rule2 Ru Ex abc abc' m m' Cs Cs' 1 f sigma Sim Rd (fun t => exists o, In o (openBoundaries (mo_mats m)) /\ o_attr o = t)).
      - intros t' p (ob & Io & <-) L. exact (Ab ob p Io L).
      - exact Em.
      - intros ob Io. eauto. }
    destruct (iso_g abc abc' (linear_elements rule1 rule0 rule2) (linear_elements rule1 rule0 rule2) dbg momentComponent m m' o o' d d' ops ops' conds Em W W' Rm Rm' B B' O Ch ignore g g' w w' E E') as (S1 & S2 & G).
    split; [exact S1|]. split; [exact S2|]. intros i j Li Lj. symmetry. exact (G i j Li Lj).
  Qed.
  Lemma turned_floating e e0 w : determineOpenness dbg m = Ok Open -> Reply CallFloating = (Ok (VMatrices e e0), w) ->
    exists e' f' w', Reply' CallFloating = (Ok (VMatrices e' f'), w').
  Proof.
    intros Eo E. pose proof (turned_openness _ Eo) as Eo'.
    assert (Lp : List.length (pecs (mo_mats m)) = N) by (destruct O as [P _]; symmetry; now apply Permutation_length).
    assert (Lp' : List.length (pecs (mo_mats m')) = N) by (now rewrite Em).
    destruct (Nat.eq_dec N 1) as [L1 | L1].
    - pose proof (D_model dbg femlib' momentComponent Rmul0 m' o' d' ops' W' B') as Dm'.
      assert (Pc : List.length (nameToAttr_PEC (mo_mats m')) = 1%nat).
      { rewrite pec_count; [lia|]. destruct (nodup_all_names _ (wp_names _ _ W')) as (X & _). exact X. }
      unfold reply, call, getFloatingPotentials, getFloatingPotentialsMatrix, cbind, cget, cret.
      rewrite Dm', Pc. cbn. rewrite Dm', Pc. cbn. do 3 eexists. reflexivity.
    - destruct (generalized_matrix dbg femlib momentComponent m o d ops conds false Open W B O Eo ltac:(discriminate)) as (ge & we & Ee & _).
      destruct (generalized_matrix dbg femlib momentComponent m o d ops conds true Open W B O Eo ltac:(discriminate)) as (gm & wm & Emm & _).
      destruct (generalized_matrix dbg femlib' momentComponent m' o' d' ops' conds false Open W' B' O' Eo' ltac:(discriminate)) as (ge' & we' & Ee' & _).
      destruct (generalized_matrix dbg femlib' momentComponent m' o' d' ops' conds true Open W' B' O' Eo' ltac:(discriminate)) as (gm' & wm' & Emm' & _).
      destruct (turned_g _ _ _ _ _ Ee Ee') as (Se & Se' & Ge). destruct (turned_g _ _ _ _ _ Emm Emm') as (Sm & Sm' & Gm).
      pose proof (reply_floating dbg femlib momentComponent Rmul0 m o d ops W B ge gm we wm Open ltac:(rewrite Lp; exact L1) Eo ltac:(discriminate) Ee Emm) as Q.
      rewrite E in Q. cbn [fst] in Q. symmetry in Q. apply bind_ok in Q as (x & Qx & Q). apply bind_ok in Q as (y & Qy & _).
      assert (Id : renumbering N (fun i => i)) by (unfold renumbering; rewrite map_id; apply Permutation_refl).
      assert (Hx : is_ok (floating_matrix ge')).
      { apply (RenumberCell.floating_iff N ge' Se'). apply (permuted_determined N (fun i => i) ge ge' Id Se Se' Ge). apply (RenumberCell.floating_iff N ge Se). eexists; exact Qx. }
      assert (Hy : is_ok (floating_matrix gm')).
      { apply (RenumberCell.floating_iff N gm' Sm'). apply (permuted_determined N (fun i => i) gm gm' Id Sm Sm' Gm). apply (RenumberCell.floating_iff N gm Sm). eexists; exact Qy. }
      destruct Hx as (x' & Hx), Hy as (y' & Hy).
      pose proof (reply_floating dbg femlib' momentComponent Rmul0 m' o' d' ops' W' B' ge' gm' we' wm' Open ltac:(rewrite Lp'; exact L1) Eo' ltac:(discriminate) Ee' Emm') as Q'.
      cbv iota in Q'. rewrite Hx, Hy in Q'. cbn [bind] in Q'. destruct (Reply' CallFloating) as [r w']. cbn [fst] in Q'. subst r. eauto.
  Qed.
  Lemma turned_reconstruction ignore V V' k x x' fr fr' :
    reconstruction F dbg momentComponent m k ignore conds V x fr -> reconstruction F' dbg momentComponent m' k ignore conds V' x' fr' ->
    (forall j, (j < N)%nat -> V' j = V j) -> turned_field th fr fr'.
  Proof.
    intros Rx Rx' EV. destruct (by_tag conds V (order_tags abc D m Rm conds O)) as (v & Hv).
    assert (Hv' : forall j q, nth_error conds j = Some q -> v (p_attr q) = V' j).
    { intros j q Ej. rewrite (Hv j q Ej), EV; [reflexivity|]. apply nth_error_Some. congruence. }
    pose proof (reconstructed_field abc D dbg momentComponent m conds W Rm O V v ignore k x fr Hv Rx) as Fx.
    pose proof (reconstructed_field abc' D' dbg momentComponent m' conds W' Rm' O' V' v ignore k x' fr' Hv' Rx') as Fx'.
    destruct (turned_fields ignore v x x' Fx Fx') as (Ep & Ed & Ld).
    destruct (rc_values _ _ _ _ _ _ _ _ _ _ Rx) as (z & u & Ez & Cz & Ea & Ecc & Eab).
    destruct (rc_values _ _ _ _ _ _ _ _ _ _ Rx') as (z' & u' & Ez' & Cz' & Ea' & Ecc' & Eab').
    rewrite <- Ez, <- Ez' in Ep, Ed. rewrite <- Ez' in Ld. cbn [getSolution so_phi so_d] in Ep, Ed, Ld.
    assert (Lz' : potential D' (s_phi z')).
    { pose proof (rc_sized _ _ _ _ _ _ _ _ _ _ Rx') as (L & _). rewrite <- Ez' in L. exact L. }
    split.
    - pose proof (turned_average z z' Lz' Ep) as Q. pose proof (eq_trans (eq_sym Ea') (eq_trans Q Ea)) as K. exact (Ok_inj _ _ K).
    - pose proof (turned_center z z' ignore u u' Cz Cz' Ed Ld _ Ecc) as Q. exact (Ok_inj _ _ (eq_trans (eq_sym Ecc') Q)).
    - pose proof (turned_coefficients z z' ignore u u' Cz Cz' Ed Ld k _ Eab) as Q. exact (Ok_inj _ _ (eq_trans (eq_sym Eab') Q)).
    - rewrite (rc_potentials _ _ _ _ _ _ _ _ _ _ Rx), (rc_potentials _ _ _ _ _ _ _ _ _ _ Rx'). apply map_ext_in. intros j I. apply in_seq in I. rewrite EV by lia. reflexivity.
  Qed.
  Lemma turned_incell p w : Reply CallInCell = (Ok (VInCell p), w) ->
    exists p' w', Reply' CallInCell = (Ok (VInCell p'), w') /\
    forall (ignore : bool) i fr, In (Z.of_nat i, fr) (fields_of p ignore) ->
      exists fr', In (Z.of_nat i, fr') (fields_of p' ignore) /\ turned_field th fr fr'.
  Proof.
    intros E.
    assert (Exi : exists p w, Reply CallInCell = (Ok (VInCell p), w)) by eauto.
    apply (reply_incell_iff dbg femlib momentComponent m o d ops W B) in Exi as (Eo & Nm & One & e & e0 & wf & Ef).
    pose proof (turned_openness _ Eo) as Eo'. destruct (turned_floating e e0 wf Eo Ef) as (e' & f' & wf' & Ef').
    assert (Exi' : exists p w, Reply' CallInCell = (Ok (VInCell p), w)).
    { apply (reply_incell_iff dbg femlib' momentComponent m' o' d' ops' W' B'). split; [exact Eo'|]. rewrite Em. split; [exact Nm|]. split; [exact One|eauto]. }
    destruct Exi' as (p' & w' & E'). exists p', w'. split; [exact E'|].
    intros ignore i fr I.
    destruct (incell_fields dbg femlib momentComponent m o d ops conds W B O p w E) as (_ & H).
    destruct (incell_fields dbg femlib' momentComponent m' o' d' ops' conds W' B' O' p' w' E') as (_ & H').
    destruct (H ignore) as (K & g & wg & V & Eg & Sg & Hi). destruct (H' ignore) as (K' & g' & wg' & V' & Eg' & Sg' & Hi').
    destruct (Hi i fr I) as (Li & Fl & x & Rx).
    assert (J : exists fr', In (Z.of_nat i, fr') (fields_of p' ignore)).
    { assert (J : In (Z.of_nat i) (map fst (fields_of p' ignore))) by (rewrite K'; apply in_map, in_seq; lia).
      apply in_map_iff in J as ([k fr'] & Ek & J). cbn in Ek. subst k. eauto. }
    destruct J as (fr' & J). exists fr'. split; [exact J|].
    destruct (Hi' i fr' J) as (_ & Fl' & x' & Rx'). rewrite Om in Rx'.
    apply (turned_reconstruction ignore (V i) (V' i) _ x x' fr fr' Rx Rx').
    destruct (turned_g _ _ _ _ _ Eg Eg') as (_ & _ & Gg).
    assert (Fp : floats g i (V' i)) by (apply (floats_ext N g g' i (V' i) Sg Sg'); [intros; symmetry; auto|exact Fl']).
    apply (unique_field o o' conds Om g i (V i) (V' i) Sg); auto.
    destruct (Nat.eq_dec N 1) as [L1 | L1]; [right; exact L1|left].
    assert (Lp : List.length (pecs (mo_mats m)) = N) by (destruct O as [P _]; symmetry; now apply Permutation_length).
    destruct (generalized_matrix dbg femlib momentComponent m o d ops conds false Open W B O Eo ltac:(discriminate)) as (ge & we & Ee & _).
    destruct (generalized_matrix dbg femlib momentComponent m o d ops conds true Open W B O Eo ltac:(discriminate)) as (gm & wm & Emm & _).
    pose proof (reply_floating dbg femlib momentComponent Rmul0 m o d ops W B ge gm we wm Open ltac:(rewrite Lp; exact L1) Eo ltac:(discriminate) Ee Emm) as Q.
    rewrite Ef in Q. cbn [fst] in Q. symmetry in Q. apply bind_ok in Q as (y & Qy & Q). apply bind_ok in Q as (y2 & Qy2 & _).
    destruct ignore.
    - pose proof (eq_trans (eq_sym Emm) Eg) as Q0. injection Q0 as -> _. eexists; exact Qy2.
    - pose proof (eq_trans (eq_sym Ee) Eg) as Q0. injection Q0 as -> _. eexists; exact Qy.
  Qed.
End Turned.
