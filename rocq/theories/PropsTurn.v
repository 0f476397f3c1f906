(** Property C70: in-cell parameters of a drawing turned about the origin. *)
From Coq Require Import QArith Reals Lra Relations Permutation.
From Verif Require Import Prelude StdMap Json Materials Graph ModelM Parser Matrix Multipole Solver Fem Domain Results Driver RSum ListLemmas SpecGraph SpecInput SpecModel SpecSolver SpecDriver SpecMatrix SpecCharge SpecField SpecFem
  SpecTriangles SpecOpen SpecDrawing Triangles FemModel FemMatrix FemMore TriProofs TriModel DriverProofs CallProofs DriverFacts Toy Kite Transfer Bars DrawCell PropsDrawing.
Open Scope R_scope.
Open Scope list_scope.

(** Where a drawing has in-cell parameters, so has the turned one. Conductor by conductor, with and
    without the dielectrics: the same potentials, the same average over the inner region, the centre
    of charge turned with the drawing, the multipolar coefficients of order n turned by n times the
    angle. (The box is always drawn along the axes: it does not turn; see C51 for what it is.) *)
Theorem C70_in_cell_parameters_turn_with_the_drawing :
  forall rule1 rule0 rule2 (abc abc' : R * R -> R) (dbg : bool) (m m' : model R) (o o' : driver_options) (d d' : driver R) (ops ops' : list dop)
         (conds : list (pec R)) (th : R) (sigma : Z -> Z) (p : incell R) w,
    let femlib := galerkin abc (linear_elements rule1 rule0 rule2) in let femlib' := galerkin abc' (linear_elements rule1 rule0 rule2) in
    triangle_driver rule1 rule0 rule2 abc dbg m o d conds -> triangle_driver rule1 rule0 rule2 abc' dbg m' o' d' conds ->
    exact_for_quadratics rule2 -> exact_for_linear rule1 rule2 ->
    same_drawing 1 (turn th) sigma m m' -> absorbs_alike 1 (turn th) abc abc' m -> same_areas (mo_mesh m) (mo_mesh m') ->
    open_lines_simple m -> In "Vacuum_0"%string (map d_name (dielectrics (mo_mats m))) ->
    o_multipolarExpansionOrder o' = o_multipolarExpansionOrder o ->
    reply dbg femlib momentComponent CallInCell (after dbg femlib momentComponent ops d) = (Ok (VInCell p), w) ->
    exists p' w', reply dbg femlib' momentComponent CallInCell (after dbg femlib' momentComponent ops' d') = (Ok (VInCell p'), w') /\
      forall (ignore : bool) i fr, In (Z.of_nat i, fr) (fields_of p ignore) ->
        exists fr', In (Z.of_nat i, fr') (fields_of p' ignore) /\ turned_field th fr fr'.
Proof.
  intros rule1 rule0 rule2 abc abc' dbg m m' o o' d d' ops ops' conds th sigma p w femlib femlib' Td Td' Ex El Sd Ab Ar Si V Om E.
  exact (turned_incell rule1 rule0 rule2 abc abc' dbg m m' o o' d d' conds Td Td' Ex El th sigma Sd Ab Ar V ops ops' Si Om p w E).
Qed.
Print Assumptions C70_in_cell_parameters_turn_with_the_drawing.
(** Turned fields have the same expansion: at the turned point, the same potential. *)
Theorem C70_turned_fields_have_the_same_expansion :
  forall (th : R) (fr fr' : fieldrec R) (q : R * R), turned_field th fr fr' -> q <> fr_center fr ->
    multipolarExpansion (turn th q) (fr_ab fr') (fr_center fr') = multipolarExpansion q (fr_ab fr) (fr_center fr).
Proof. exact turned_expansion. Qed.
Print Assumptions C70_turned_fields_have_the_same_expansion.
(** The absorbing coefficient of the program allows it. *)
Theorem C70_in_cell_parameters_of_the_program_turn :
  forall rule1 rule0 rule2 (dbg : bool) (m m' : model R) (o o' : driver_options) (d d' : driver R) (ops ops' : list dop)
         (conds : list (pec R)) (th : R) (sigma : Z -> Z) (p : incell R) w,
    let femlib := galerkin firstOrderABC (linear_elements rule1 rule0 rule2) in
    triangle_driver rule1 rule0 rule2 firstOrderABC dbg m o d conds -> triangle_driver rule1 rule0 rule2 firstOrderABC dbg m' o' d' conds ->
    exact_for_quadratics rule2 -> exact_for_linear rule1 rule2 ->
    same_drawing 1 (turn th) sigma m m' -> same_areas (mo_mesh m) (mo_mesh m') ->
    open_lines_simple m -> In "Vacuum_0"%string (map d_name (dielectrics (mo_mats m))) ->
    o_multipolarExpansionOrder o' = o_multipolarExpansionOrder o ->
    reply dbg femlib momentComponent CallInCell (after dbg femlib momentComponent ops d) = (Ok (VInCell p), w) ->
    exists p' w', reply dbg femlib momentComponent CallInCell (after dbg femlib momentComponent ops' d') = (Ok (VInCell p'), w') /\
      forall (ignore : bool) i fr, In (Z.of_nat i, fr) (fields_of p ignore) ->
        exists fr', In (Z.of_nat i, fr') (fields_of p' ignore) /\
          fr_pots fr' = fr_pots fr /\ fr_avg fr' = fr_avg fr /\ fr_center fr' = turn th (fr_center fr) /\
          forall q, q <> fr_center fr -> multipolarExpansion (turn th q) (fr_ab fr') (fr_center fr') = multipolarExpansion q (fr_ab fr) (fr_center fr).
Proof.
  intros rule1 rule0 rule2 dbg m m' o o' d d' ops ops' conds th sigma p w femlib Td Td' Ex El Sd Ar Si V Om E.
  assert (Z0 : turn th (0, 0) = (0, 0)) by (unfold turn; cbn [fst snd]; f_equal; ring).
  destruct (C70_in_cell_parameters_turn_with_the_drawing rule1 rule0 rule2 firstOrderABC firstOrderABC dbg m m' o o' d d' ops ops' conds th sigma p w
    Td Td' Ex El Sd (turned_alike (turn th) m (proj1 Sd) Z0) Ar Si V Om E) as (p' & w' & E' & H).
  exists p', w'. split; [exact E'|]. intros ignore i fr I. destruct (H ignore i fr I) as (fr' & J & T). exists fr'. split; [exact J|].
  split; [apply T|]. split; [apply T|]. split; [apply T|]. intros q N. exact (turned_expansion th fr fr' q T N).
Qed.
Print Assumptions C70_in_cell_parameters_of_the_program_turn.

(** Any cross section can be turned: its image is a cross section. *)
Definition turned_model (th : R) (m : model R) : model R :=
  {| mo_mats := mo_mats m;
     mo_mesh := {| m_elems := m_elems (mo_mesh m); m_bdr := m_bdr (mo_mesh m); m_coord := fun v => turn th (m_coord (mo_mesh m) v) |};
     mo_ground := mo_ground m |}.
Lemma turned_section th (abc abc' : R * R -> R) m : (forall p, abc' (turn th p) = abc p) -> cross_section abc m -> cross_section abc' (turned_model th m).
Proof.
  intros Ea [[Tr Co] Na Cc Ap Me Op].
  assert (Ar : forall e, area (mo_mesh (turned_model th m)) e = area (mo_mesh m) e).
  { intros e. unfold area. destruct (e_verts e) as [|a [|b [|c [|? ?]]]]; try reflexivity. cbn [mo_mesh turned_model m_coord]. unfold turn. cbn [fst snd].
    pose proof (sin2_cos2 th) as H. unfold Rsqr in H. f_equal.
    set (A := m_coord (mo_mesh m) a). set (B := m_coord (mo_mesh m) b). set (C := m_coord (mo_mesh m) c).
    transitivity ((sin th * sin th + cos th * cos th) * ((fst B - fst A) * (snd C - snd A) - (fst C - fst A) * (snd B - snd A))); [ring|rewrite H; ring]. }
  assert (Ln : forall t p, on_line (mo_mesh (turned_model th m)) t p -> exists q, on_line (mo_mesh m) t q /\ p = turn th q).
  { intros t p (b & v & w & s & I & Et & Ev & Ls & ->). eexists. split; [exists b, v, w, s; repeat (split; [eassumption|]); reflexivity|].
    cbn [mo_mesh turned_model m_coord]. unfold turn. cbn [fst snd]. f_equal; ring. }
  constructor; try assumption.
  - split; [|exact Co]. destruct Tr as [T1 T2 T3]. constructor; [|exact T2|exact T3].
    intros e I. destruct (T1 e I) as (Pe & a & b & c & Ev & La & Lb & Lc & Pa). split; [exact Pe|]. exists a, b, c. rewrite Ar. auto.
  - intros ob Io. destruct (Op ob Io) as ((q & Lq) & Pq). split.
    + destruct Lq as (b & v & w & s & I & Et & Ev & Ls & _). eexists. exists b, v, w, s. repeat (split; [eassumption|]). reflexivity.
    + intros p Lp. destruct (Ln _ _ Lp) as (r & Lr & ->). rewrite Ea. now apply Pq.
Qed.
Lemma turned_drawing th m : same_drawing 1 (turn th) (fun v => v) m (turned_model th m).
Proof.
  split; [apply turn_similarity|]. split; [|reflexivity]. constructor.
  - exists (m_elems (mo_mesh m)). split; [apply Permutation_refl|]. induction (m_elems (mo_mesh m)); constructor; auto. split; [reflexivity|]. rewrite map_id. exists [], (e_verts a). rewrite app_nil_r. auto.
  - exists (m_bdr (mo_mesh m)). split; [apply Permutation_refl|]. induction (m_bdr (mo_mesh m)); constructor; auto. split; [reflexivity|]. now rewrite map_id.
  - auto.
  - reflexivity.
Qed.
Lemma kite_linear : exact_for_linear (segment_rule (T:=R)) three_point_rule.
Proof. constructor; repeat split; unfold Rsum, segment_rule, three_point_rule, c6, c3, c2; cbn [fold_right map fst snd nadd nmul ndiv n0 n1 RNum]; field. Qed.
Lemma bars_simple : open_lines_simple bars_model.
Proof.
  intros o [<- | []]. change (segments_with (mo_mesh bars_model) 4) with [(0, 1); (1, 2); (2, 3); (3, 0)]%Z. cbn [map fst].
  repeat constructor; cbn; intuition lia.
Qed.
(** The two bars turned by any angle *)
Example C70_example_in_cell : forall (th : R) (dbg : bool) ops,
  let femlib := galerkin quarter (linear_elements segment_rule one_point_rule three_point_rule) in
  exists d d' p w,
    triangle_driver segment_rule one_point_rule three_point_rule quarter dbg bars_model kite_options d toy_conds /\
    triangle_driver segment_rule one_point_rule three_point_rule quarter dbg (turned_model th bars_model) kite_options d' toy_conds /\
    exact_for_quadratics (three_point_rule (T:=R)) /\ exact_for_linear (segment_rule (T:=R)) three_point_rule /\
    same_drawing 1 (turn th) (fun v => v) bars_model (turned_model th bars_model) /\ absorbs_alike 1 (turn th) quarter quarter bars_model /\
    same_areas (mo_mesh bars_model) (mo_mesh (turned_model th bars_model)) /\ open_lines_simple bars_model /\
    In "Vacuum_0"%string (map d_name (dielectrics (mo_mats bars_model))) /\
    reply dbg femlib momentComponent CallInCell (after dbg femlib momentComponent ops d) = (Ok (VInCell p), w).
Proof.
  intros th dbg ops femlib. destruct (bars_driver dbg) as (d & B). destruct (bars_incell dbg momentComponent ops d B) as (p & w & E).
  assert (Cs : cross_section quarter (turned_model th bars_model)) by (apply (turned_section th quarter quarter); [reflexivity|exact bars_section]).
  destruct (mkDriver_ok dbg (galerkin quarter (kite_disc distance)) (turned_model th bars_model) kite_options (cross_section_posed _ _ _ kite_rules quarter _ Cs) toy_conds bars_order) as (d' & B' & _); [discriminate|].
  exists d, d', p, w.
  split; [constructor; [exact kite_rules|exact bars_section|reflexivity|exact B|exact bars_order]|].
  split; [constructor; [exact kite_rules|exact Cs|reflexivity|eexists; exact B'|exact bars_order]|].
  split; [exact kite_exact|]. split; [exact kite_linear|]. split; [apply turned_drawing|]. split; [intros ? ? _ _; unfold quarter; lra|].
  split; [intros t; reflexivity|]. split; [exact bars_simple|]. split; [left; reflexivity|exact E].
Qed.
