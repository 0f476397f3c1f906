(** Properties C70, C74 and C75 for finite elements of any order, given by the values of their basis
    functions at quadrature points (C57). *)
From Coq Require Import Reals Lra Relations Permutation.
From Verif Require Import Prelude StdMap Materials Graph ModelM Parser Matrix Multipole Solver Fem Domain Results Driver RSum ListLemmas SpecGraph SpecInput SpecModel SpecSolver SpecDriver SpecMatrix SpecCharge SpecField SpecFem
  SpecTriangles SpecDrawing SpecEnergy SpecRedraw Triangles SolverProofs FemProofs FemFacts FemModel FemMatrix FemMore FemRedraw TriProofs TriModel Drawing DrawDriver Iso DriverProofs CallProofs DriverFacts MatrixCalls EnergyProofs OrderProofs Toy Kite Hexagon
  PropsTriangles PropsDrawing PropsEnergy.
Open Scope R_scope.
Open Scope list_scope.

(** ** C70 *)
(** The same cross section drawn elsewhere, turned, in another unit of length has the same generalized
    matrix, ... *)
Theorem C70_generalized_matrix_at_any_order :
  forall (abc abc' : R * R -> R) disc disc' (dbg : bool) moment (m m' : model R) (o o' : driver_options) (d d' : driver R) (ops ops' : list dop)
         (conds : list (pec R)) (ignore : bool) s c n f (op : openness) (g : matrix R) w,
    galerkin_driver abc disc dbg m o d conds -> galerkin_driver abc' disc' dbg m' o' d' conds ->
    redrawn_spaces s c n f (disc (mo_mesh m) (o_order o)) (disc' (mo_mesh m') (o_order o')) -> mo_mats m' = mo_mats m ->
    absorbs_as_before s f abc abc' (disc (mo_mesh m) (o_order o)) m ->
    determineOpenness dbg m = Ok op -> determineOpenness dbg m' = Ok op ->
    reply dbg (galerkin abc disc) moment (CallGeneralizedC ignore) (after dbg (galerkin abc disc) moment ops d) = (Ok (VMatrix g), w) ->
    exists g' w', reply dbg (galerkin abc' disc') moment (CallGeneralizedC ignore) (after dbg (galerkin abc' disc') moment ops' d') = (Ok (VMatrix g'), w') /\
      let k := List.length conds in square k g /\ square k g' /\ forall i j, (i < k)%nat -> (j < k)%nat -> ent g' i j = ent g i j.
Proof.
  intros abc abc' disc disc' dbg moment m m' o o' d d' ops ops' conds ignore s c n f op g w [W Rm B O] [W' Rm' B' O'] Rs Em Ab Eo Eo' E.
  pose proof (redrawn_charges abc abc' _ _ s c n f Rs dbg dbg m m' W W' Rm Rm' Em Ab) as Ch.
  destruct (gc_openness abc _ dbg moment m o d ops conds W B O ignore g w E) as (op1 & Eo1 & N1). rewrite Eo in Eo1. injection Eo1 as <-.
  destruct (generalized_matrix dbg (galerkin abc' disc') moment m' o' d' ops' conds ignore op W' B' O' Eo' N1) as (g' & w' & E' & _).
  exists g', w'. split; [exact E'|].
  destruct (iso_g abc abc' _ _ dbg moment m m' o o' d d' ops ops' conds Em W W' Rm Rm' B B' O Ch ignore g g' w w' E E') as (S1 & S2 & G).
  split; [exact S1|]. split; [exact S2|]. intros i j Li Lj. symmetry. exact (G i j Li Lj).
Qed.
Print Assumptions C70_generalized_matrix_at_any_order.
(** ... the same parameters per unit length ... *)
Theorem C70_PUL_parameters_at_any_order :
  forall (abc abc' : R * R -> R) disc disc' (dbg : bool) moment (m m' : model R) (o o' : driver_options) (d d' : driver R) (ops ops' : list dop)
         (conds : list (pec R)) s c n f (op : openness) (p : pul R) w (k : nat),
    galerkin_driver abc disc dbg m o d conds -> galerkin_driver abc' disc' dbg m' o' d' conds ->
    redrawn_spaces s c n f (disc (mo_mesh m) (o_order o)) (disc' (mo_mesh m') (o_order o')) -> mo_mats m' = mo_mats m ->
    absorbs_as_before s f abc abc' (disc (mo_mesh m) (o_order o)) m ->
    determineOpenness dbg m = Ok op -> determineOpenness dbg m' = Ok op -> List.length conds = S k ->
    reply dbg (galerkin abc disc) moment CallPUL (after dbg (galerkin abc disc) moment ops d) = (Ok (VPul p), w) ->
    exists p' w', reply dbg (galerkin abc' disc') moment CallPUL (after dbg (galerkin abc' disc') moment ops' d') = (Ok (VPul p'), w') /\
      square k (pul_C p) /\ square k (pul_L p) /\ square k (pul_C p') /\ square k (pul_L p') /\
      forall i j, (i < k)%nat -> (j < k)%nat -> ent (pul_C p') i j = ent (pul_C p) i j /\ ent (pul_L p') i j = ent (pul_L p) i j.
Proof.
  intros abc abc' disc disc' dbg moment m m' o o' d d' ops ops' conds s c n f op p w k [W Rm B O] [W' Rm' B' O'] Rs Em Ab Eo Eo' Ln E.
  pose proof (redrawn_charges abc abc' _ _ s c n f Rs dbg dbg m m' W W' Rm Rm' Em Ab) as Ch.
  destruct (PUL_inv dbg (galerkin abc disc) moment Rmul0 m o d ops W B p w E) as (C & L & w1 & w2 & EC & _ & _).
  destruct (C_inv _ _ _ _ _ _ EC) as (ge & _ & Eg & _).
  destruct (gc_openness abc _ dbg moment m o d ops conds W B O false ge w1 Eg) as (op1 & Eo1 & N1). rewrite Eo in Eo1. injection Eo1 as <-.
  destruct (iso_pul_exists abc abc' _ _ dbg moment m m' o o' d d' ops ops' conds Em W W' Rm Rm' B B' O Ch op p w k Eo Eo' Ln ltac:(intros; apply N1; lia) E) as (p' & w' & E').
  exists p', w'. split; [exact E'|].
  destruct (iso_pul abc abc' _ _ dbg moment m m' o o' d d' ops ops' conds Em W W' Rm Rm' B B' O Ch op p p' w w' k Eo Eo' Ln E E') as (S1 & S2 & S3 & S4 & G).
  repeat (split; [assumption|]). intros i j Li Lj. destruct (G i j Li Lj) as (-> & ->). auto.
Qed.
Print Assumptions C70_PUL_parameters_at_any_order.
(** ... and the same potentials of floating conductors. *)
Theorem C70_floating_potentials_at_any_order :
  forall (abc abc' : R * R -> R) disc disc' (dbg : bool) moment (m m' : model R) (o o' : driver_options) (d d' : driver R) (ops ops' : list dop)
         (conds : list (pec R)) s c n f (op : openness) (e f0 e' f0' : matrix R) w w',
    galerkin_driver abc disc dbg m o d conds -> galerkin_driver abc' disc' dbg m' o' d' conds ->
    redrawn_spaces s c n f (disc (mo_mesh m) (o_order o)) (disc' (mo_mesh m') (o_order o')) -> mo_mats m' = mo_mats m ->
    absorbs_as_before s f abc abc' (disc (mo_mesh m) (o_order o)) m ->
    determineOpenness dbg m = Ok op -> determineOpenness dbg m' = Ok op -> op <> SemiOpen -> (2 <= List.length conds)%nat ->
    reply dbg (galerkin abc disc) moment CallFloating (after dbg (galerkin abc disc) moment ops d) = (Ok (VMatrices e f0), w) ->
    reply dbg (galerkin abc' disc') moment CallFloating (after dbg (galerkin abc' disc') moment ops' d') = (Ok (VMatrices e' f0'), w') ->
    let k := match op with Closed => (List.length conds - 1)%nat | _ => List.length conds end in
    square k e /\ square k f0 /\ square k e' /\ square k f0' /\
    forall i j, (i < k)%nat -> (j < k)%nat -> ent e' i j = ent e i j /\ ent f0' i j = ent f0 i j.
Proof.
  intros abc abc' disc disc' dbg moment m m' o o' d d' ops ops' conds s c n f op e f0 e' f0' w w' [W Rm B O] [W' Rm' B' O'] Rs Em Ab Eo Eo' Ns L2 E E' k.
  pose proof (redrawn_charges abc abc' _ _ s c n f Rs dbg dbg m m' W W' Rm Rm' Em Ab) as Ch.
  destruct (iso_floating abc abc' _ _ dbg moment m m' o o' d d' ops ops' conds Em W W' Rm Rm' B B' O Ch op e f0 e' f0' w w' L2 Eo Eo' Ns E E') as (S1 & S2 & S3 & S4 & G).
  repeat (split; [assumption|]). intros i j Li Lj. destruct (G i j Li Lj) as (-> & ->). auto.
Qed.
Print Assumptions C70_floating_potentials_at_any_order.
(** The spaces of order 1 of any triangle mesh meet this when the mesh is moved by a similarity. *)
Theorem C70_first_order_spaces_are_redrawn :
  forall rule1 rule0 rule2 (ms : mesh R) (s c n tx ty : R) (f : R * R -> R * R),
    triangulation ms -> 0 < s -> c * c + n * n = 1 ->
    (forall p, f p = (s * (c * fst p - n * snd p) + tx, s * (n * fst p + c * snd p) + ty)) ->
    redrawn_spaces s c n f (first_order rule1 rule0 rule2 distance ms)
      (first_order rule1 rule0 rule2 distance {| m_elems := m_elems ms; m_bdr := m_bdr ms; m_coord := fun v => f (m_coord ms v) |}).
Proof. intros rule1 rule0 rule2 ms s c n tx ty f Tr Ps Un Ef. exact (first_order_moved rule1 rule0 rule2 ms Tr s c n tx ty Ps Un f Ef). Qed.
Print Assumptions C70_first_order_spaces_are_redrawn.

(** ** C74 *)
(** Raising permittivities never lowers the energy. *)
Theorem C74_energy_grows_with_the_permittivity_at_any_order :
  forall (abc : R * R -> R) (D : discretization R) (dbg : bool) (m m' : model R) (ignore ignore' : bool) (v : Z -> R) (p p' : solver_inputs R) (eps eps' : Z -> R),
    let F := discretize abc D in
    well_posed F m -> regular_model abc D m -> well_posed F m' -> regular_model abc D m' -> same_quadrature D ->
    openBoundaries (mo_mats m) = [] -> openBoundaries (mo_mats m') = [] ->
    conductor_problem (mo_mats m) ignore v p -> conductor_problem (mo_mats m') ignore' v p' ->
    relative_permittivity (mo_mats m) ignore eps -> relative_permittivity (mo_mats m') ignore' eps' ->
    (forall c, In c (pecs (mo_mats m')) <-> In c (pecs (mo_mats m))) ->
    (forall q, In q (di_grad D) -> eps (g_attr q) <= eps' (g_attr q)) ->
    exists s0 s W s0' s' W',
      mkSolver F dbg p = Ok s0 /\ Solve F s0 = Ok s /\ getTotalEnergy F s = Ok W /\
      mkSolver F dbg p' = Ok s0' /\ Solve F s0' = Ok s' /\ getTotalEnergy F s' = Ok W' /\ W <= W'.
Proof.
  intros abc D dbg m m' ignore ignore' v p p' eps eps' F Wp Rm Wp' Rm' Sq Eo Eo' Cp Cp' He He' Ec Le.
  destruct (least_energy abc D dbg m Wp Rm ignore v p Eo Sq Cp) as (s0 & s & E0 & Es & Hs & Te & Mi).
  destruct (least_energy abc D dbg m' Wp' Rm' ignore' v p' Eo' Sq Cp') as (s0' & s' & E0' & Es' & Hs' & Te' & _).
  eexists s0, s, _, s0', s', _. repeat (split; [eassumption|]).
  assert (Hm : has_potentials abc D m v (s_phi s')).
  { destruct Hs' as (L & H). split; [exact L|]. intros c k Ic B Mx. apply (H c k); [now apply Ec|exact B|]. intros c' Ic' B'. apply Mx; [now apply Ec|exact B']. }
  eapply Rle_trans; [exact (Mi _ Hm)|]. apply Rmult_le_compat_l; [lra|].
  rewrite (closed_work abc D m ignore v p eps _ Cp He Eo), (closed_work abc D m' ignore' v p' eps' _ Cp' He' Eo'). apply Rsum_le. intros q I.
  destruct (to_grad _ (rm_tables _ _ _ Rm) q I) as (_ & _ & Pw & _). specialize (Le q I).
  assert (0 <= grad2 q (s_phi s') (s_phi s')) by (unfold grad2; nra). apply Rmult_le_compat_r; [assumption|]. apply Rmult_le_compat_l; lra.
Qed.
Print Assumptions C74_energy_grows_with_the_permittivity_at_any_order.

(** ** C75 *)
(** A richer space of potentials (a finer mesh, a higher order) never raises the energy. *)
Theorem C75_richer_spaces_do_not_raise_the_energy :
  forall (abc : R * R -> R) (D D' : discretization R) (dbg : bool) (m m' : model R) (ignore : bool) (v : Z -> R) (p : solver_inputs R) (P : list R -> list R),
    let F := discretize abc D in let F' := discretize abc D' in
    well_posed F m -> regular_model abc D m -> well_posed F' m' -> regular_model abc D' m' -> same_quadrature D -> same_quadrature D' ->
    mo_mats m' = mo_mats m -> openBoundaries (mo_mats m) = [] -> conductor_problem (mo_mats m) ignore v p ->
    apart abc D m -> richer abc D D' (map p_attr (pecs (mo_mats m))) P ->
    exists s0 s W s0' s' W',
      mkSolver F dbg p = Ok s0 /\ Solve F s0 = Ok s /\ getTotalEnergy F s = Ok W /\
      mkSolver F' dbg p = Ok s0' /\ Solve F' s0' = Ok s' /\ getTotalEnergy F' s' = Ok W' /\ W' <= W.
Proof.
  intros abc D D' dbg m m' ignore v p P F F' Wp Rm Wp' Rm' Sq Sq' Em Eo Cp Ap [Rp Re Rb].
  assert (Cp' : conductor_problem (mo_mats m') ignore v p) by now rewrite Em. assert (Eo' : openBoundaries (mo_mats m') = []) by now rewrite Em.
  destruct (least_energy abc D dbg m Wp Rm ignore v p Eo Sq Cp) as (s0 & s & E0 & Es & (L & Hs) & Te & _).
  destruct (least_energy abc D' dbg m' Wp' Rm' ignore v p Eo' Sq' Cp') as (s0' & s' & E0' & Es' & Hs' & Te' & Mi).
  eexists s0, s, _, s0', s', _. repeat (split; [eassumption|]).
  assert (Hm : has_potentials abc D' m' v (P (s_phi s))).
  { split; [now apply Rp|]. rewrite Em. intros c k Ic B _. apply (Rb (s_phi s) (p_attr c)); [exact L|now apply in_map| |exact B].
    intros k0 B0. apply (Hs c k0 Ic B0). intros c' Ic' B'. rewrite (Ap c c' k0 Ic Ic' B0 B'). lia. }
  eapply Rle_trans; [exact (Mi _ Hm)|]. right. f_equal. unfold work.
  assert (Op : forall D0 : discretization R, open_points D0 p = []).
  { intros D0. unfold open_points. assert (E : si_open p = []).
    { pose proof (cp_open _ _ _ _ Cp) as Q. rewrite Eo in Q. now apply Permutation_sym, Permutation_nil in Q. }
    rewrite E. clear. induction (di_abc D0); cbn; auto. }
  rewrite !Op, !Rsum_nil, !Rplus_0_r. exact (Re (s_phi s) _ L).
Qed.
Print Assumptions C75_richer_spaces_do_not_raise_the_energy.
(** First order spaces of a refined triangle mesh are richer than those of the mesh. *)
Theorem C75_refined_meshes_have_richer_spaces :
  forall rule1 rule0 rule2 (abc : R * R -> R) (m m' : model R) (ts : list Z) (parts : list (element R * list (element R))) (shares : Z -> list (Z * R)),
    rules_ok rule1 rule0 rule2 -> cross_section abc m -> cross_section abc m' -> refines (mo_mesh m) (mo_mesh m') ts parts shares ->
    exists P, richer abc (first_order rule1 rule0 rule2 distance (mo_mesh m)) (first_order rule1 rule0 rule2 distance (mo_mesh m')) ts P.
Proof. intros rule1 rule0 rule2 abc m m' ts parts shares Ru Cs Cs' Re. exact (refines_richer rule1 rule0 rule2 abc Ru m m' ts parts shares Cs Cs' Re). Qed.
Print Assumptions C75_refined_meshes_have_richer_spaces.
