(** Properties C70, C74 and C75 on triangle meshes with elements of any order. *)
From Coq Require Import Reals Lra Relations Permutation FunctionalExtensionality.
From Verif Require Import Prelude StdMap Materials Graph ModelM Parser Matrix Multipole Solver Fem Domain Results Driver RSum ListLemmas SpecGraph SpecInput SpecModel SpecSolver SpecDriver SpecMatrix SpecCharge SpecField SpecFem
  SpecTriangles SpecElements SpecExtend SpecDrawing SpecEnergy SpecRedraw Triangles Elements RefElements SolverProofs DriverProofs FemProofs FemFacts FemModel FemMatrix TriProofs TriModel OrderProofs
  ElemProofs ElemTables ElemModel ElemOrder RefProofs RefOrder Boole Toy Kite PropsTriangles PropsDrawing PropsEnergy PropsOrder PropsElements.
Open Scope R_scope.
Open Scope list_scope.

(** ** C70 *)
(** Elements of any order on a mesh moved by a similarity are those of the mesh, redrawn. *)
Theorem C70_elements_are_redrawn :
  forall (ref : reference R) (ms : mesh R) (s c n tx ty : R) (f : R * R -> R * R),
    reference_ok ref -> triangulation ms -> 0 < s -> c * c + n * n = 1 ->
    (forall p, f p = (s * (c * fst p - n * snd p) + tx, s * (n * fst p + c * snd p) + ty)) ->
    redrawn_spaces s c n f (elements ref distance ms)
      (elements ref distance {| m_elems := m_elems ms; m_bdr := m_bdr ms; m_coord := fun v => f (m_coord ms v) |}).
Proof. intros ref ms s c n tx ty f Ro Tr Ps Un Ef. exact (elements_moved ref Ro ms Tr s c n tx ty Ps Un f Ef). Qed.
Print Assumptions C70_elements_are_redrawn.
(** A closed cross section drawn elsewhere, turned, in another unit of length has the same parameters per unit length at any order. *)
Theorem C70_PUL_parameters_of_elements :
  forall (ref : Z -> reference R) (abc abc' : R * R -> R) (dbg : bool) moment (m m' : model R) (o o' : driver_options) (d d' : driver R) (ops ops' : list dop)
         (conds : list (pec R)) (s c n tx ty : R) (p : pul R) w (k : nat),
    let f := fun q : R * R => (s * (c * fst q - n * snd q) + tx, s * (n * fst q + c * snd q) + ty) in
    let femlib := galerkin abc (elements_of ref) in let femlib' := galerkin abc' (elements_of ref) in
    element_driver ref abc dbg m o d conds -> element_driver ref abc' dbg m' o' d' conds -> o_order o' = o_order o ->
    0 < s -> c * c + n * n = 1 ->
    mo_mesh m' = {| m_elems := m_elems (mo_mesh m); m_bdr := m_bdr (mo_mesh m); m_coord := fun v => f (m_coord (mo_mesh m) v) |} -> mo_mats m' = mo_mats m ->
    determineOpenness dbg m = Ok Closed -> determineOpenness dbg m' = Ok Closed -> List.length conds = S k ->
    reply dbg femlib moment CallPUL (after dbg femlib moment ops d) = (Ok (VPul p), w) ->
    exists p' w', reply dbg femlib' moment CallPUL (after dbg femlib' moment ops' d') = (Ok (VPul p'), w') /\
      square k (pul_C p) /\ square k (pul_L p) /\ square k (pul_C p') /\ square k (pul_L p') /\
      forall i j, (i < k)%nat -> (j < k)%nat -> ent (pul_C p') i j = ent (pul_C p) i j /\ ent (pul_L p') i j = ent (pul_L p) i j.
Proof.
  intros ref abc abc' dbg moment m m' o o' d d' ops ops' conds s c n tx ty p w k f femlib femlib' Td Td' Eo Ps Un Em Ea Cl Cl' Lk E.
  destruct (element_facts _ _ _ _ _ _ _ Td) as (G & _). destruct (element_facts _ _ _ _ _ _ _ Td') as (G' & _).
  refine (C70_PUL_parameters_at_any_order abc abc' _ _ dbg moment m m' o o' d d' ops ops' conds s c n f Closed p w k G G' _ Ea _ Cl Cl' Lk E).
  - unfold elements_of. rewrite Em, Eo. destruct Td as [Ro Cs _ _].
    exact (C70_elements_are_redrawn _ (mo_mesh m) s c n tx ty f Ro (proj1 (cs_mesh _ _ Cs)) Ps Un (fun _ => eq_refl)).
  - intros q A. exfalso. destruct A as (_ & ob & A & _). rewrite (closed_model dbg m Cl) in A. destruct A.
Qed.
Print Assumptions C70_PUL_parameters_of_elements.

(** ** C62 *)
(** A closed cross section drawn in another unit of length is a cross section, ... *)
Lemma in_unit_section abc (m m' : model R) s : 0 < s -> mo_mats m' = mo_mats m -> openBoundaries (mo_mats m) = [] ->
  mo_mesh m' = {| m_elems := m_elems (mo_mesh m); m_bdr := m_bdr (mo_mesh m); m_coord := fun v => (s * fst (m_coord (mo_mesh m) v), s * snd (m_coord (mo_mesh m) v)) |} ->
  cross_section abc m -> cross_section abc m'.
Proof.
  intros Ps Ea Eo Em [(Tr & Cn) Na Co Ap Me Op].
  assert (Ar : forall e, area (mo_mesh m') e = s * s * area (mo_mesh m) e).
  { intros e. unfold area. rewrite Em. cbn [m_coord fst snd]. destruct (e_verts e) as [|a [|b [|c [|? ?]]]]; field. }
  assert (Ee : m_elems (mo_mesh m') = m_elems (mo_mesh m)) by (rewrite Em; reflexivity).
  assert (Eb : m_bdr (mo_mesh m') = m_bdr (mo_mesh m)) by (rewrite Em; reflexivity).
  constructor; rewrite ?Ea; unfold at_boundary in *; rewrite ?Eb; auto.
  - destruct Tr as [T1 T2 T3]. split.
    + constructor; unfold vertex in *; rewrite ?Ee, ?Eb; auto. intros e I. destruct (T1 e I) as (P & a & b & c & E & A & B & C & Pa). split; [exact P|]. exists a, b, c. rewrite Ar. repeat (split; [assumption|]).
      apply Rmult_lt_0_compat; [now apply Rmult_lt_0_compat|exact Pa].
    + unfold SpecTriangles.connected, vertex in *. rewrite !Ee. exact Cn.
  - intros d I. rewrite Ee. now apply Me.
  - rewrite Eo. intros o [].
Qed.
(** ... its Driver is built, and its parameters per unit length are the same, at any order. *)
Theorem C62_closed_problems_of_elements :
  forall (ref : Z -> reference R) (abc : R * R -> R) (dbg : bool) moment (m m' : model R) (o : driver_options) (d : driver R) (ops : list dop)
         (conds : list (pec R)) (s : R) (p : pul R) w (k : nat),
    let femlib := galerkin abc (elements_of ref) in
    element_driver ref abc dbg m o d conds -> determineOpenness dbg m = Ok Closed -> List.length conds = S k -> 0 < s ->
    mo_mats m' = mo_mats m ->
    mo_mesh m' = {| m_elems := m_elems (mo_mesh m); m_bdr := m_bdr (mo_mesh m); m_coord := fun v => (s * fst (m_coord (mo_mesh m) v), s * snd (m_coord (mo_mesh m) v)) |} ->
    reply dbg femlib moment CallPUL (after dbg femlib moment ops d) = (Ok (VPul p), w) ->
    exists d', element_driver ref abc dbg m' o d' conds /\
      forall ops', exists p' w', reply dbg femlib moment CallPUL (after dbg femlib moment ops' d') = (Ok (VPul p'), w') /\
        square k (pul_C p) /\ square k (pul_L p) /\ square k (pul_C p') /\ square k (pul_L p') /\
        forall i j, (i < k)%nat -> (j < k)%nat -> ent (pul_C p') i j = ent (pul_C p) i j /\ ent (pul_L p') i j = ent (pul_L p) i j.
Proof.
  intros ref abc dbg moment m m' o d ops conds s p w k femlib Td Cl Lk Ps Ea Em E. pose proof (closed_model dbg m Cl) as Eo.
  destruct Td as [Ro Cs B O]. pose proof (in_unit_section abc m m' s Ps Ea Eo Em Cs) as Cs'.
  assert (O' : in_order (mo_mats m') conds) by (rewrite Ea; exact O).
  destruct (mkDriver_ok dbg femlib m' o (elements_posed _ Ro abc m' Cs') conds O') as (d' & E' & _); [intros ->; discriminate Lk|].
  assert (Td' : element_driver ref abc dbg m' o d' conds) by (constructor; [exact Ro|exact Cs'|eexists; exact E'|exact O']).
  exists d'. split; [exact Td'|]. intros ops'.
  assert (Cl' : determineOpenness dbg m' = Ok Closed) by (unfold determineOpenness; rewrite Ea, Eo; destruct dbg; reflexivity).
  refine (C70_PUL_parameters_of_elements ref abc abc dbg moment m m' o o d d' ops ops' conds s 1 0 0 0 p w k (Build_element_driver _ _ _ _ _ _ _ Ro Cs B O) Td' eq_refl Ps _ _ Ea Cl Cl' Lk E); [lra|].
  rewrite Em. f_equal. apply FunctionalExtensionality.functional_extensionality. intros v. f_equal; ring.
Qed.
Print Assumptions C62_closed_problems_of_elements.

(** ** C74 *)
(** Raising permittivities never lowers the energy. *)
Theorem C74_energy_grows_with_the_permittivity_of_elements :
  forall (ref : reference R) (abc : R * R -> R) (dbg : bool) (m m' : model R) (ignore ignore' : bool) (v : Z -> R) (p p' : solver_inputs R) (eps eps' : Z -> R),
    reference_ok ref -> cross_section abc m -> cross_section abc m' ->
    openBoundaries (mo_mats m) = [] -> openBoundaries (mo_mats m') = [] ->
    conductor_problem (mo_mats m) ignore v p -> conductor_problem (mo_mats m') ignore' v p' ->
    relative_permittivity (mo_mats m) ignore eps -> relative_permittivity (mo_mats m') ignore' eps' ->
    mo_mesh m' = mo_mesh m -> (forall c, In c (pecs (mo_mats m')) <-> In c (pecs (mo_mats m))) ->
    (forall e, In e (m_elems (mo_mesh m)) -> eps (e_attr e) <= eps' (e_attr e)) ->
    let F := discretize abc (elements ref distance (mo_mesh m)) in
    exists s0 s W s0' s' W',
      mkSolver F dbg p = Ok s0 /\ Solve F s0 = Ok s /\ getTotalEnergy F s = Ok W /\
      mkSolver F dbg p' = Ok s0' /\ Solve F s0' = Ok s' /\ getTotalEnergy F s' = Ok W' /\ W <= W'.
Proof.
  intros ref abc dbg m m' ignore ignore' v p p' eps eps' Ro Cs Cs' Eo Eo' Cp Cp' He He' Em Ec Le F.
  pose proof (elements_posed ref Ro abc m' Cs') as Wp'. pose proof (elements_regular ref Ro abc m' Cs') as Rm'. rewrite Em in Wp', Rm'.
  refine (C74_energy_grows_with_the_permittivity_at_any_order abc (elements ref distance (mo_mesh m)) dbg m m' ignore ignore' v p p' eps eps'
    (elements_posed ref Ro abc m Cs) (elements_regular ref Ro abc m Cs) Wp' Rm' (elements_quadrature ref Ro (mo_mesh m) (proj1 (cs_mesh _ _ Cs))) Eo Eo' Cp Cp' He He' Ec _).
  intros q I. cbn [di_grad elements] in I. apply in_flat_map in I as (x & Ix & J). apply numbered_in in Ix. unfold el_grad_points in J. apply in_map_iff in J as (pw & <- & _). exact (Le _ (tri_in _ x Ix)).
Qed.
Print Assumptions C74_energy_grows_with_the_permittivity_of_elements.

(** ** C75 *)
(** The spaces of elements that extend others contain theirs, ... *)
Theorem C75_extensions_have_richer_spaces :
  forall (ref ref' : reference R) (S I : list (list R)) (abc : R * R -> R) (m : model R) (ts : list Z),
    reference_ok ref -> reference_ok ref' -> extends ref ref' S I -> cross_section abc m ->
    exists P, richer abc (elements ref distance (mo_mesh m)) (elements ref' distance (mo_mesh m)) ts P /\
      forall phi x q, List.length phi = n_h1 ref (mo_mesh m) -> triangle (mo_mesh m) x ->
        value_in ref' (mo_mesh m) (P phi) x q = value_in ref (mo_mesh m) phi x q.
Proof.
  intros ref ref' S I abc m ts Ro Ro' Ex Cs. exists (raise ref S I m). split; [exact (higher_richer ref ref' Ro Ro' S I Ex abc m Cs ts)|].
  intros phi x q L T. exact (raise_value ref ref' S I Ex abc m Cs phi x q T L).
Qed.
Print Assumptions C75_extensions_have_richer_spaces.
(** ... so that with any of the orders 1, 2, 3 a higher order never raises the energy. *)
Theorem C75_higher_orders_do_not_raise_the_energy :
  forall (rule1 rule1' : list (R * R)) (rule0 rule2 rule0' rule2' : list (R * R * R)) (k k' : nat) (abc : R * R -> R) (dbg : bool) (m : model R) (ignore : bool) (v : Z -> R) (p : solver_inputs R),
    (1 <= k <= k')%nat -> (k' <= 3)%nat -> rules_of_order k rule1 rule0 rule2 -> rules_of_order k' rule1' rule0' rule2' ->
    cross_section abc m -> openBoundaries (mo_mats m) = [] -> conductor_problem (mo_mats m) ignore v p ->
    let F := discretize abc (elements (reference_of rule1 rule0 rule2 (Z.of_nat k)) distance (mo_mesh m)) in
    let F' := discretize abc (elements (reference_of rule1' rule0' rule2' (Z.of_nat k')) distance (mo_mesh m)) in
    exists s0 s W s0' s' W',
      mkSolver F dbg p = Ok s0 /\ Solve F s0 = Ok s /\ getTotalEnergy F s = Ok W /\
      mkSolver F' dbg p = Ok s0' /\ Solve F' s0' = Ok s' /\ getTotalEnergy F' s' = Ok W' /\ W' <= W.
Proof.
  intros rule1 rule1' rule0 rule2 rule0' rule2' k k' abc dbg m ignore v p (L1 & L2) L3 Rk Rk' Cs Eo Cp F F'.
  pose proof (C85_reference_elements k _ _ _ ltac:(lia) Rk) as Ro. pose proof (C85_reference_elements k' _ _ _ ltac:(lia) Rk') as Ro'.
  destruct (C75_extensions_have_richer_spaces _ _ _ _ abc m (map p_attr (pecs (mo_mats m))) Ro Ro' (orders_extend k k' _ _ _ _ _ _ L1 L2 L3 Rk Rk') Cs) as (P & Ri & _).
  pose proof (proj1 (cs_mesh _ _ Cs)) as Tr.
  exact (C75_richer_spaces_do_not_raise_the_energy abc _ _ dbg m m ignore v p P (elements_posed _ Ro abc m Cs) (elements_regular _ Ro abc m Cs) (elements_posed _ Ro' abc m Cs) (elements_regular _ Ro' abc m Cs)
    (elements_quadrature _ Ro _ Tr) (elements_quadrature _ Ro' _ Tr) eq_refl Eo Cp (el_apart _ abc m Cs) Ri).
Qed.
Print Assumptions C75_higher_orders_do_not_raise_the_energy.

(** ** The hypotheses are met *)
Example C75_orders_example : forall (abc : R * R -> R) (v : Z -> R) (k k' : nat), (1 <= k <= k')%nat -> (k' <= 3)%nat ->
  rules_of_order k (boole (T:=R)) boole_rule boole_rule /\ rules_of_order k' (boole (T:=R)) boole_rule boole_rule /\
  cross_section abc (kite_model 2) /\ openBoundaries (mo_mats (kite_model 2)) = [] /\ exists p, conductor_problem (mo_mats (kite_model 2)) false v p.
Proof.
  intros abc v k k' L1 L2. assert (P2 : 0 < 2) by lra. split; [apply boole_rules; lia|]. split; [apply boole_rules; lia|]. split; [exact (kite_section abc 2 P2)|]. split; [reflexivity|].
  destruct (problem_exists abc (kite_disc distance kite_mesh 1) (kite_model 2) (kite_posed abc 2 P2) false v) as (p & Cp); now exists p.
Qed.
(** A closed cross section that is moved is one. *)
Lemma moved_cross_section abc abc' (m m' : model R) s c n tx ty : let f := fun q : R * R => (s * (c * fst q - n * snd q) + tx, s * (n * fst q + c * snd q) + ty) in
  cross_section abc m -> 0 < s -> c * c + n * n = 1 -> openBoundaries (mo_mats m) = [] ->
  mo_mesh m' = {| m_elems := m_elems (mo_mesh m); m_bdr := m_bdr (mo_mesh m); m_coord := fun v => f (m_coord (mo_mesh m) v) |} -> mo_mats m' = mo_mats m ->
  cross_section abc' m'.
Proof.
  intros f [([Te Tn Tb] & Co) Na Cd Ap Me _] Ps Un Eo Em Ea. constructor; rewrite ?Ea, ?Em.
  - split; [constructor|exact Co].
    + intros e I. destruct (Te e I) as (Pa & a & b & d & Ev & P0 & P1 & P2 & Ar). split; [exact Pa|]. exists a, b, d. repeat (split; [assumption|]).
      unfold area in *. rewrite Ev in *. cbn [m_coord]. unfold f. cbn [fst snd].
      match goal with |- 0 < ?x => replace x with (s * s * (c * c + n * n) * (((fst (m_coord (mo_mesh m) b) - fst (m_coord (mo_mesh m) a)) * (snd (m_coord (mo_mesh m) d) - snd (m_coord (mo_mesh m) a)) - (fst (m_coord (mo_mesh m) d) - fst (m_coord (mo_mesh m) a)) * (snd (m_coord (mo_mesh m) b) - snd (m_coord (mo_mesh m) a))) / 2)) by field end.
      rewrite Un. apply Rmult_lt_0_compat; [|exact Ar]. rewrite Rmult_1_r. now apply Rmult_lt_0_compat.
    + exact Tn.
    + exact Tb.
  - exact Na.
  - exact Cd.
  - exact Ap.
  - exact Me.
  - intros o I. rewrite Eo in I. destruct I.
Qed.
(** The quadrilateral, turned by the angle with cosine 3/5, in other units and elsewhere *)
Example C70_elements_example : forall abc abc' dbg (k : nat), (1 <= k <= 3)%nat -> exists m' d d',
  element_driver boole_elements abc dbg (kite_model 2) (kite_order (Z.of_nat k)) d toy_conds /\ element_driver boole_elements abc' dbg m' (kite_order (Z.of_nat k)) d' toy_conds /\
  mo_mesh m' = {| m_elems := m_elems kite_mesh; m_bdr := m_bdr kite_mesh;
                  m_coord := fun v => (fun q : R * R => (10 * (3 / 5 * fst q - 4 / 5 * snd q) + 7, 10 * (4 / 5 * fst q + 3 / 5 * snd q) + 1)) (m_coord kite_mesh v) |} /\
  mo_mats m' = mo_mats (kite_model 2) /\ 3 / 5 * (3 / 5) + 4 / 5 * (4 / 5) = 1 /\ determineOpenness dbg (kite_model 2) = Ok Closed /\ determineOpenness dbg m' = Ok Closed.
Proof.
  intros abc abc' dbg k L. assert (P2 : 0 < 2) by lra. assert (P10 : 0 < 10) by lra. assert (Un : 3 / 5 * (3 / 5) + 4 / 5 * (4 / 5) = 1) by field.
  destruct (kite_element_driver abc dbg 2 k P2 L) as (d & B).
  set (m' := {| mo_mesh := {| m_elems := m_elems kite_mesh; m_bdr := m_bdr kite_mesh;
                  m_coord := fun v => (fun q : R * R => (10 * (3 / 5 * fst q - 4 / 5 * snd q) + 7, 10 * (4 / 5 * fst q + 3 / 5 * snd q) + 1)) (m_coord kite_mesh v) |}; mo_mats := mo_mats (kite_model 2); mo_ground := mo_ground (kite_model 2) |}).
  assert (Cs : cross_section abc' m') by exact (moved_cross_section abc abc' (kite_model 2) m' 10 (3 / 5) (4 / 5) 7 1 (kite_section abc 2 P2) P10 Un eq_refl eq_refl eq_refl).
  pose proof (C85_reference_elements k _ _ _ L (boole_rules k L)) as Ro.
  destruct (mkDriver_ok dbg (galerkin abc' (elements_of boole_elements)) m' (kite_order (Z.of_nat k)) (elements_posed _ Ro abc' _ Cs) toy_conds) as (d' & E & _).
  - apply toy_order.
  - discriminate.
  - exists m', d, d'. split; [exact B|]. split; [constructor; [exact Ro|exact Cs|eexists; exact E|apply toy_order]|].
    split; [reflexivity|]. split; [reflexivity|]. split; [exact Un|]. split; destruct dbg; reflexivity.
Qed.
