(** Property C70: the same cross section drawn elsewhere, turned, in other units, with other vertex
    numbers and other orders of the elements, has the same parameters. *)
From Coq Require Import Reals Lra Relations Permutation.
From Verif Require Import Prelude StdMap Materials Graph ModelM Parser Matrix Multipole Solver Fem Domain Results Driver RSum ListLemmas SpecGraph SpecInput SpecModel SpecSolver SpecDriver SpecMatrix SpecCharge SpecField SpecFem
  SpecTriangles SpecDrawing Triangles FemModel FemMatrix FemMore TriProofs TriModel Drawing DrawDriver Iso DriverProofs CallProofs DriverFacts MatrixCalls Toy Kite Sail PropsTriangles.
Open Scope R_scope.
Open Scope list_scope.

Lemma kite_exact : exact_for_quadratics (three_point_rule (T:=R)).
Proof. constructor; unfold Rsum, three_point_rule, c6, c3, c2; cbn [fold_right map fst snd nadd nmul ndiv n0 n1 RNum]; field. Qed.
Section Facts.
  Variables (rule1 : list (R * R)) (rule0 rule2 : list (R * R * R)) (abc abc' : R * R -> R) (dbg : bool) (m m' : model R) (o o' : driver_options) (d d' : driver R) (conds : list (pec R)).
  Hypothesis Td : triangle_driver rule1 rule0 rule2 abc dbg m o d conds.
  Hypothesis Td' : triangle_driver rule1 rule0 rule2 abc' dbg m' o' d' conds.
  Hypothesis Ex : exact_for_quadratics rule2.
  Variables (s : R) (f : R * R -> R * R) (sigma : Z -> Z).
  Hypothesis Sd : same_drawing s f sigma m m'.
  Hypothesis Ab : absorbs_alike s f abc abc' m.
  Lemma drawing_charges : forall ignore v x y t q, model_fields abc (linear_elements rule1 rule0 rule2 (mo_mesh m) (o_order o)) dbg m ignore v x ->
    model_fields abc' (linear_elements rule1 rule0 rule2 (mo_mesh m') (o_order o')) dbg m' ignore v y ->
    charge_on (discretize abc (linear_elements rule1 rule0 rule2 (mo_mesh m) (o_order o))) x t q ->
    charge_on (discretize abc' (linear_elements rule1 rule0 rule2 (mo_mesh m') (o_order o'))) y t q.
  Proof.
    destruct Sd as (Sim & Rd & Em). intros ignore v x y t q.
    apply (charge_moved rule1 rule0 rule2 (td_rules _ _ _ _ _ _ _ _ _ Td) Ex abc abc' m m' (td_section _ _ _ _ _ _ _ _ _ Td) (td_section _ _ _ _ _ _ _ _ _ Td')
      s f sigma Sim Rd (fun t => exists o, In o (openBoundaries (mo_mats m)) /\ o_attr o = t)).
    - intros t' p (ob & Io & <-) L. exact (Ab ob p Io L).
    - exact Em.
    - intros ob Io. eauto.
  Qed.
End Facts.

(** The generalized capacitance matrix is the same ... *)
Theorem C70_generalized_matrix_does_not_depend_on_the_drawing :
  forall rule1 rule0 rule2 (abc abc' : R * R -> R) (dbg : bool) moment (m m' : model R) (o o' : driver_options) (d d' : driver R) (ops ops' : list dop)
         (conds : list (pec R)) (ignore : bool) s f sigma (g : matrix R) w,
    let femlib := galerkin abc (linear_elements rule1 rule0 rule2) in let femlib' := galerkin abc' (linear_elements rule1 rule0 rule2) in
    triangle_driver rule1 rule0 rule2 abc dbg m o d conds -> triangle_driver rule1 rule0 rule2 abc' dbg m' o' d' conds ->
    exact_for_quadratics rule2 -> same_drawing s f sigma m m' -> absorbs_alike s f abc abc' m -> open_lines_simple m ->
    reply dbg femlib moment (CallGeneralizedC ignore) (after dbg femlib moment ops d) = (Ok (VMatrix g), w) ->
    exists g' w', reply dbg femlib' moment (CallGeneralizedC ignore) (after dbg femlib' moment ops' d') = (Ok (VMatrix g'), w') /\
      let n := List.length conds in square n g /\ square n g' /\ forall i j, (i < n)%nat -> (j < n)%nat -> ent g' i j = ent g i j.
Proof.
  intros rule1 rule0 rule2 abc abc' dbg moment m m' o o' d d' ops ops' conds ignore s f sigma g w femlib femlib' Td Td' Ex Sd Ab Si E.
  pose proof (drawing_charges _ _ _ _ _ _ _ _ _ _ _ _ _ Td Td' Ex _ _ _ Sd Ab) as Ch. pose proof Sd as (_ & Rd & Em).
  destruct (triangle_facts _ _ _ _ _ _ _ _ _ Td) as ([W Rm B O] & _). destruct (triangle_facts _ _ _ _ _ _ _ _ _ Td') as ([W' Rm' B' O'] & _).
  destruct (gc_openness abc _ dbg moment m o d ops conds W B O ignore g w E) as (op & Eo & N1).
  assert (Eo' : determineOpenness dbg m' = Ok op).
  { exact (openness_moved m m' f sigma (proj1 (cs_mesh _ _ (td_section _ _ _ _ _ _ _ _ _ Td))) (proj1 (cs_mesh _ _ (td_section _ _ _ _ _ _ _ _ _ Td'))) Rd Em dbg op Si Eo). }
  destruct (generalized_matrix dbg femlib' moment m' o' d' ops' conds ignore op W' B' O' Eo' N1) as (g' & w' & E' & _).
  exists g', w'. split; [exact E'|].
  destruct (iso_g abc abc' _ _ dbg moment m m' o o' d d' ops ops' conds Em W W' Rm Rm' B B' O Ch ignore g g' w w' E E') as (S1 & S2 & G).
  split; [exact S1|]. split; [exact S2|]. intros i j Li Lj. symmetry. exact (G i j Li Lj).
Qed.
Print Assumptions C70_generalized_matrix_does_not_depend_on_the_drawing.
(** ... and so are the parameters per unit length ... *)
Theorem C70_PUL_parameters_do_not_depend_on_the_drawing :
  forall rule1 rule0 rule2 (abc abc' : R * R -> R) (dbg : bool) moment (m m' : model R) (o o' : driver_options) (d d' : driver R) (ops ops' : list dop)
         (conds : list (pec R)) s f sigma (p : pul R) w (n : nat),
    let femlib := galerkin abc (linear_elements rule1 rule0 rule2) in let femlib' := galerkin abc' (linear_elements rule1 rule0 rule2) in
    triangle_driver rule1 rule0 rule2 abc dbg m o d conds -> triangle_driver rule1 rule0 rule2 abc' dbg m' o' d' conds ->
    exact_for_quadratics rule2 -> same_drawing s f sigma m m' -> absorbs_alike s f abc abc' m -> open_lines_simple m -> List.length conds = S n ->
    reply dbg femlib moment CallPUL (after dbg femlib moment ops d) = (Ok (VPul p), w) ->
    exists p' w', reply dbg femlib' moment CallPUL (after dbg femlib' moment ops' d') = (Ok (VPul p'), w') /\
      square n (pul_C p) /\ square n (pul_L p) /\ square n (pul_C p') /\ square n (pul_L p') /\
      forall i j, (i < n)%nat -> (j < n)%nat -> ent (pul_C p') i j = ent (pul_C p) i j /\ ent (pul_L p') i j = ent (pul_L p) i j.
Proof.
  intros rule1 rule0 rule2 abc abc' dbg moment m m' o o' d d' ops ops' conds s f sigma p w n femlib femlib' Td Td' Ex Sd Ab Si Ln E.
  pose proof (drawing_charges _ _ _ _ _ _ _ _ _ _ _ _ _ Td Td' Ex _ _ _ Sd Ab) as Ch. pose proof Sd as (_ & Rd & Em).
  destruct (triangle_facts _ _ _ _ _ _ _ _ _ Td) as ([W Rm B O] & _). destruct (triangle_facts _ _ _ _ _ _ _ _ _ Td') as ([W' Rm' B' O'] & _).
  destruct (PUL_inv dbg femlib moment Rmul0 m o d ops W B p w E) as (C & L & w1 & w2 & EC & _ & _).
  destruct (C_inv _ _ _ _ _ _ EC) as (ge & _ & Eg & _).
  destruct (gc_openness abc _ dbg moment m o d ops conds W B O false ge w1 Eg) as (op & Eo & N1).
  assert (Eo' : determineOpenness dbg m' = Ok op).
  { exact (openness_moved m m' f sigma (proj1 (cs_mesh _ _ (td_section _ _ _ _ _ _ _ _ _ Td))) (proj1 (cs_mesh _ _ (td_section _ _ _ _ _ _ _ _ _ Td'))) Rd Em dbg op Si Eo). }
  destruct (iso_pul_exists abc abc' _ _ dbg moment m m' o o' d d' ops ops' conds Em W W' Rm Rm' B B' O Ch op p w n Eo Eo' Ln ltac:(intros; apply N1; lia) E) as (p' & w' & E').
  exists p', w'. split; [exact E'|].
  destruct (iso_pul abc abc' _ _ dbg moment m m' o o' d d' ops ops' conds Em W W' Rm Rm' B B' O Ch op p p' w w' n Eo Eo' Ln E E') as (S1 & S2 & S3 & S4 & G).
  repeat (split; [assumption|]). intros i j Li Lj. destruct (G i j Li Lj) as (-> & ->). auto.
Qed.
Print Assumptions C70_PUL_parameters_do_not_depend_on_the_drawing.
(** ... and the potentials of floating conductors. *)
Theorem C70_floating_potentials_do_not_depend_on_the_drawing :
  forall rule1 rule0 rule2 (abc abc' : R * R -> R) (dbg : bool) moment (m m' : model R) (o o' : driver_options) (d d' : driver R) (ops ops' : list dop)
         (conds : list (pec R)) s f sigma (op : openness) (e f0 e' f0' : matrix R) w w',
    let femlib := galerkin abc (linear_elements rule1 rule0 rule2) in let femlib' := galerkin abc' (linear_elements rule1 rule0 rule2) in
    triangle_driver rule1 rule0 rule2 abc dbg m o d conds -> triangle_driver rule1 rule0 rule2 abc' dbg m' o' d' conds ->
    exact_for_quadratics rule2 -> same_drawing s f sigma m m' -> absorbs_alike s f abc abc' m -> open_lines_simple m ->
    determineOpenness dbg m = Ok op -> op <> SemiOpen -> (2 <= List.length conds)%nat ->
    reply dbg femlib moment CallFloating (after dbg femlib moment ops d) = (Ok (VMatrices e f0), w) ->
    reply dbg femlib' moment CallFloating (after dbg femlib' moment ops' d') = (Ok (VMatrices e' f0'), w') ->
    let n := match op with Closed => (List.length conds - 1)%nat | _ => List.length conds end in
    square n e /\ square n f0 /\ square n e' /\ square n f0' /\
    forall i j, (i < n)%nat -> (j < n)%nat -> ent e' i j = ent e i j /\ ent f0' i j = ent f0 i j.
Proof.
  intros rule1 rule0 rule2 abc abc' dbg moment m m' o o' d d' ops ops' conds s f sigma op e f0 e' f0' w w' femlib femlib' Td Td' Ex Sd Ab Si Eo Ns L2 E E' n.
  pose proof (drawing_charges _ _ _ _ _ _ _ _ _ _ _ _ _ Td Td' Ex _ _ _ Sd Ab) as Ch. pose proof Sd as (_ & Rd & Em).
  destruct (triangle_facts _ _ _ _ _ _ _ _ _ Td) as ([W Rm B O] & _). destruct (triangle_facts _ _ _ _ _ _ _ _ _ Td') as ([W' Rm' B' O'] & _).
  assert (Eo' : determineOpenness dbg m' = Ok op).
  { exact (openness_moved m m' f sigma (proj1 (cs_mesh _ _ (td_section _ _ _ _ _ _ _ _ _ Td))) (proj1 (cs_mesh _ _ (td_section _ _ _ _ _ _ _ _ _ Td'))) Rd Em dbg op Si Eo). }
  destruct (iso_floating abc abc' _ _ dbg moment m m' o o' d d' ops ops' conds Em W W' Rm Rm' B B' O Ch op e f0 e' f0' w w' L2 Eo Eo' Ns E E') as (S1 & S2 & S3 & S4 & G).
  repeat (split; [assumption|]). intros i j Li Lj. destruct (G i j Li Lj) as (-> & ->). auto.
Qed.
Print Assumptions C70_floating_potentials_do_not_depend_on_the_drawing.

(** In closed problems the absorbing coefficient plays no part. *)
Lemma closed_alike s f (abc abc' : R * R -> R) (m : model R) : openBoundaries (mo_mats m) = [] -> absorbs_alike s f abc abc' m /\ open_lines_simple m.
Proof. intros E. split; intros o; rewrite E; easy. Qed.
Theorem C70_closed_problems_do_not_depend_on_the_drawing :
  forall rule1 rule0 rule2 (abc : R * R -> R) (dbg : bool) moment (m m' : model R) (o o' : driver_options) (d d' : driver R) (ops ops' : list dop)
         (conds : list (pec R)) s f sigma (p : pul R) w (n : nat),
    let femlib := galerkin abc (linear_elements rule1 rule0 rule2) in
    triangle_driver rule1 rule0 rule2 abc dbg m o d conds -> triangle_driver rule1 rule0 rule2 abc dbg m' o' d' conds ->
    exact_for_quadratics rule2 -> same_drawing s f sigma m m' -> openBoundaries (mo_mats m) = [] -> List.length conds = S n ->
    reply dbg femlib moment CallPUL (after dbg femlib moment ops d) = (Ok (VPul p), w) ->
    exists p' w', reply dbg femlib moment CallPUL (after dbg femlib moment ops' d') = (Ok (VPul p'), w') /\
      square n (pul_C p) /\ square n (pul_L p) /\ square n (pul_C p') /\ square n (pul_L p') /\
      forall i j, (i < n)%nat -> (j < n)%nat -> ent (pul_C p') i j = ent (pul_C p) i j /\ ent (pul_L p') i j = ent (pul_L p) i j.
Proof.
  intros rule1 rule0 rule2 abc dbg moment m m' o o' d d' ops ops' conds s f sigma p w n femlib Td Td' Ex Sd Cl Ln E.
  destruct (closed_alike s f abc abc m Cl) as (Ab & Si).
  exact (C70_PUL_parameters_do_not_depend_on_the_drawing rule1 rule0 rule2 abc abc dbg moment m m' o o' d d' ops ops' conds s f sigma p w n Td Td' Ex Sd Ab Si Ln E).
Qed.
Print Assumptions C70_closed_problems_do_not_depend_on_the_drawing.
(** The coefficient of the program, -1/(r ln r), allows turning about the origin: *)
Lemma turned_alike f (m : model R) : similarity 1 f -> f (0, 0) = (0, 0) -> absorbs_alike 1 f firstOrderABC firstOrderABC m.
Proof.
  intros (_ & c & n & tx & ty & Un & Ef) E0 o p _ _. rewrite Rmult_1_l. pose proof (Ef (0, 0)) as E. rewrite E0 in E. cbn [fst snd] in E.
  assert (Hx : tx = 0). { assert (0 = 1 * (c * 0 - n * 0) + tx) by congruence. lra. }
  assert (Hy : ty = 0). { assert (0 = 1 * (n * 0 + c * 0) + ty) by congruence. lra. }
  unfold firstOrderABC. replace (norm2 (f p)) with (norm2 p); [reflexivity|]. unfold norm2. rewrite Ef, Hx, Hy. cbn [fst snd]. f_equal.
  transitivity ((c * c + n * n) * (fst p * fst p + snd p * snd p)); [rewrite Un; ring|ring].
Qed.
Theorem C70_open_problems_may_be_turned_about_the_origin :
  forall rule1 rule0 rule2 (dbg : bool) moment (m m' : model R) (o o' : driver_options) (d d' : driver R) (ops ops' : list dop)
         (conds : list (pec R)) f sigma (p : pul R) w (n : nat),
    let femlib := galerkin firstOrderABC (linear_elements rule1 rule0 rule2) in
    triangle_driver rule1 rule0 rule2 firstOrderABC dbg m o d conds -> triangle_driver rule1 rule0 rule2 firstOrderABC dbg m' o' d' conds ->
    exact_for_quadratics rule2 -> same_drawing 1 f sigma m m' -> f (0, 0) = (0, 0) -> open_lines_simple m -> List.length conds = S n ->
    reply dbg femlib moment CallPUL (after dbg femlib moment ops d) = (Ok (VPul p), w) ->
    exists p' w', reply dbg femlib moment CallPUL (after dbg femlib moment ops' d') = (Ok (VPul p'), w') /\
      square n (pul_C p) /\ square n (pul_L p) /\ square n (pul_C p') /\ square n (pul_L p') /\
      forall i j, (i < n)%nat -> (j < n)%nat -> ent (pul_C p') i j = ent (pul_C p) i j /\ ent (pul_L p') i j = ent (pul_L p) i j.
Proof.
  intros rule1 rule0 rule2 dbg moment m m' o o' d d' ops ops' conds f sigma p w n femlib Td Td' Ex Sd E0 Si Ln E.
  exact (C70_PUL_parameters_do_not_depend_on_the_drawing rule1 rule0 rule2 firstOrderABC firstOrderABC dbg moment m m' o o' d d' ops ops' conds 1 f sigma p w n
           Td Td' Ex Sd (turned_alike f m (proj1 Sd) E0) Si Ln E).
Qed.
Print Assumptions C70_open_problems_may_be_turned_about_the_origin.
(** ... but not moving: the distance is taken from the origin of the drawing, wherever the conductors
    are. *)
Theorem C70_open_problems_may_be_moved_refuted :
  ~ (forall rule1 rule0 rule2 (dbg : bool) moment (m m' : model R) (o : driver_options) (d d' : driver R)
            (conds : list (pec R)) (ignore : bool) f (sigma : Z -> Z) (g g' : matrix R) w w',
       triangle_driver rule1 rule0 rule2 firstOrderABC dbg m o d conds -> triangle_driver rule1 rule0 rule2 firstOrderABC dbg m' o d' conds ->
       exact_for_quadratics rule2 -> same_drawing 1 f sigma m m' -> open_lines_simple m ->
       reply dbg (galerkin firstOrderABC (linear_elements rule1 rule0 rule2)) moment (CallGeneralizedC ignore) d = (Ok (VMatrix g), w) ->
       reply dbg (galerkin firstOrderABC (linear_elements rule1 rule0 rule2)) moment (CallGeneralizedC ignore) d' = (Ok (VMatrix g'), w') ->
       forall i j, (i < List.length conds)%nat -> (j < List.length conds)%nat -> ent g' i j = ent g i j).
Proof.
  intros H. set (moment := fun (_ : R * R) (_ _ : nat) (_ : R * R) => 0).
  assert (H8 : 0 < 1 / 8 <= 1 / 2) by lra. assert (H2 : 0 < 1 / 2 <= 1 / 2) by lra.
  destruct (sail_driver (1 / 8) H8 true) as (d & B). destruct (sail_driver (1 / 2) H2 true) as (d' & B').
  destruct (sail_g (1 / 8) H8 true moment false d B) as (g & w & E & _ & G). destruct (sail_g (1 / 2) H2 true moment false d' B') as (g' & w' & E' & _ & G').
  assert (Td : forall t (Ht : 0 < t <= 1 / 2) d, built true (galerkin firstOrderABC (kite_disc distance)) (sail_model t) kite_options d ->
    triangle_driver segment_rule one_point_rule three_point_rule firstOrderABC true (sail_model t) kite_options d sail_conds).
  { intros t Ht d1 B1. constructor; [exact kite_rules|exact (sail_section t Ht)|reflexivity|exact B1|apply sail_order]. }
  assert (Q : ent g' 0 0 = ent g 0 0).
  { apply (H segment_rule one_point_rule three_point_rule true moment (sail_model (1 / 8)) (sail_model (1 / 2)) kite_options d d' sail_conds false
      (fun p => (1 * (1 * fst p - 0 * snd p) + 3 / 8, 1 * (0 * fst p + 1 * snd p) + 0)) (fun v => v) g g' w w'
      (Td _ H8 d B) (Td _ H2 d' B') kite_exact); [| |exact E|exact E'|cbn; lia|cbn; lia].
    - split; [|split; [|reflexivity]].
      + split; [lra|]. exists 1, 0, (3 / 8), 0. split; [lra|reflexivity].
      + constructor.
        * exists (m_elems (sail_mesh (1 / 2))). split; [apply Permutation_refl|]. repeat constructor. exists [], [0; 1; 2]%Z. auto.
        * exists (m_bdr (sail_mesh (1 / 2))). split; [apply Permutation_refl|]. repeat constructor.
        * auto.
        * intros v V. apply sail_vertex in V. cbn. destruct (v =? 0)%Z, (v =? 1)%Z; cbn [fst snd]; f_equal; lra.
    - intros o [<- | []]. cbn. repeat constructor. easy. }
  rewrite G, G' in Q. apply kappa_differs. pose proof (kappa_pos (1 / 8) H8) as P8. pose proof (kappa_pos (1 / 2) H2) as P2.
  set (a := kappa (1 / 2)) in *. set (b := kappa (1 / 8)) in *. clearbody a b.
  assert (Qa : 2 * a / (16 + a) * ((16 + a) * (16 + b)) = 2 * b / (16 + b) * ((16 + a) * (16 + b))) by (now rewrite Q).
  replace (2 * a / (16 + a) * ((16 + a) * (16 + b))) with (2 * a * (16 + b)) in Qa by (field; lra).
  replace (2 * b / (16 + b) * ((16 + a) * (16 + b))) with (2 * b * (16 + a)) in Qa by (field; lra). lra.
Qed.
Print Assumptions C70_open_problems_may_be_moved_refuted.

(** A concrete case: the quadrilateral of Kite.v turned by a right angle, doubled, moved, its vertices
    numbered backwards, its elements listed in another order. *)
Definition quarter_turn (p : R * R) : R * R := (2 * (0 * fst p - 1 * snd p) + 5, 2 * (1 * fst p + 0 * snd p) + 7).
Definition moved_mesh : mesh R :=
  {| m_elems := [{| e_attr := 3; e_verts := [3; 1; 0]%Z; e_vol := 1 |}; {| e_attr := 3; e_verts := [2; 1; 3]%Z; e_vol := 1 |}];
     m_bdr := [{| e_attr := 1; e_verts := [1; 0]%Z; e_vol := 1 |}; {| e_attr := 2; e_verts := [3; 2]%Z; e_vol := 1 |}];
     m_coord := fun v => quarter_turn (m_coord kite_mesh (3 - v)) |}.
Definition moved_model (er : R) : model R := {| mo_mats := toy_mats Closed er; mo_mesh := moved_mesh; mo_ground := 0 |}.
Lemma moved_vertex v : vertex moved_mesh v <-> (0 <= v <= 3)%Z.
Proof.
  split.
  - intros (e & [<- | [<- | []]] & J); cbn in J; lia.
  - intros L. assert (v = 2 \/ v <> 2)%Z as [-> | N] by lia; [eexists; split; [right; left; reflexivity|cbn; auto]|].
    eexists; split; [left; reflexivity|]. cbn. lia.
Qed.
Lemma moved_at t v : at_boundary moved_mesh t v <-> (t = 2%Z /\ (v = 3 \/ v = 2)%Z) \/ (t = 1%Z /\ (v = 1 \/ v = 0)%Z).
Proof.
  unfold at_boundary. split.
  - intros (b & [<- | [<- | []]] & <- & J); cbn in *; lia.
  - intros [(-> & J) | (-> & J)]; [eexists; split; [right; left; reflexivity|]|eexists; split; [left; reflexivity|]]; cbn; lia.
Qed.
Lemma moved_section abc er : 0 < er -> cross_section abc (moved_model er).
Proof.
  intros Per. constructor.
  - split.
    + constructor.
      * cbn. intros e [<- | [<- | []]]; cbn; (split; [lia|]); do 3 eexists; (split; [reflexivity|]); repeat (split; [lia|]); cbn; lra.
      * intros v w Hw L. apply moved_vertex. apply moved_vertex in Hw. lia.
      * cbn. intros b [<- | [<- | []]]; cbn; (split; [lia|]).
        -- exists 1%Z, 0%Z. eexists. split; [reflexivity|]. split; [left; reflexivity|]. exists 3%Z, 1%Z, 0%Z. cbn. auto.
        -- exists 3%Z, 2%Z. eexists. split; [reflexivity|]. split; [right; left; reflexivity|]. exists 2%Z, 1%Z, 3%Z. cbn. auto.
    + assert (H : forall v, (0 <= v <= 3)%Z -> exists e, In e (m_elems moved_mesh) /\ In v (e_verts e) /\ In 3%Z (e_verts e)).
      { intros v L. assert (v = 2 \/ v <> 2)%Z as [-> | N] by lia; [eexists; split; [right; left; reflexivity|cbn; auto]|].
        eexists; split; [left; reflexivity|]. cbn. split; [lia|auto]. }
      intros v w Hv Hw. apply moved_vertex in Hv, Hw. destruct (H v Hv) as (e & I & J & K). destruct (H w Hw) as (e' & I' & J' & K').
      apply (rt_trans _ _ v 3%Z w); apply rt_step; eauto.
  - apply toy_names.
  - split; [discriminate|]. split; [repeat constructor; cbn; intuition lia|]. cbn. intros c [<- | [<- | []]]; cbn; [exists 3%Z|exists 1%Z]; apply moved_at; lia.
  - cbn. intros c c' v _ _ B B'. apply moved_at in B, B'. lia.
  - cbn. intros d [<- | []]. cbn. split; [exact Per|]. eexists. split; [left; reflexivity|]. reflexivity.
  - intros o [].
Qed.
Lemma moved_drawing er : same_drawing 2 quarter_turn (fun v => 3 - v)%Z (kite_model er) (moved_model er).
Proof.
  split; [|split; [|reflexivity]].
  - split; [lra|]. exists 0, 1, 5, 7. split; [lra|reflexivity].
  - constructor.
    + exists (rev (m_elems moved_mesh)). split; [apply perm_swap|]. cbn. repeat apply Forall2_cons; [| |apply Forall2_nil]; cbn; (split; [reflexivity|]).
      * exists [3]%Z, [2; 1]%Z. auto.
      * exists [], [3; 1; 0]%Z. auto.
    + exists (rev (m_bdr moved_mesh)). split; [apply perm_swap|]. cbn. repeat apply Forall2_cons; [| |apply Forall2_nil]; cbn; auto.
    + intros v w _ _. lia.
    + intros v V. apply kite_vertex in V. cbn [m_coord mo_mesh moved_model moved_mesh kite_model]. now replace (3 - (3 - v))%Z with v by lia.
Qed.
(** Both drawings give the capacitance -27/83 eps0 er of C61. *)
Example C70_example : forall (abc : R * R -> R) (er : R) (dbg : bool) moment, 0 < er ->
  let femlib := galerkin abc (linear_elements segment_rule one_point_rule three_point_rule) in
  exists d d' p p' w w',
    triangle_driver segment_rule one_point_rule three_point_rule abc dbg (kite_model er) kite_options d toy_conds /\
    triangle_driver segment_rule one_point_rule three_point_rule abc dbg (moved_model er) kite_options d' toy_conds /\
    reply dbg femlib moment CallPUL d = (Ok (VPul p), w) /\ reply dbg femlib moment CallPUL d' = (Ok (VPul p'), w') /\
    ent (pul_C p) 0 0 = - (27 / 83) * er * eps0 /\ ent (pul_C p') 0 0 = - (27 / 83) * er * eps0.
Proof.
  intros abc er dbg moment P femlib. destruct (kite_pul abc er P dbg moment) as (d & p & C & w & w1 & B & E & _ & _ & _ & S & G).
  destruct (mkDriver_ok dbg femlib (moved_model er) kite_options (cross_section_posed _ _ _ kite_rules abc _ (moved_section abc er P)) toy_conds) as (d' & B' & _).
  { apply toy_order. } { discriminate. }
  pose proof (kite_td er P abc dbg d B) as Td.
  assert (Td' : triangle_driver segment_rule one_point_rule three_point_rule abc dbg (moved_model er) kite_options d' toy_conds).
  { constructor; [exact kite_rules|exact (moved_section abc er P)|reflexivity|eexists; exact B'|apply toy_order]. }
  destruct (C70_closed_problems_do_not_depend_on_the_drawing _ _ _ abc dbg moment (kite_model er) (moved_model er) kite_options kite_options d d' [] [] toy_conds 2 quarter_turn _ p w 1
    Td Td' kite_exact (moved_drawing er) eq_refl eq_refl E) as (p' & w' & E' & _ & _ & _ & _ & Q).
  exists d, d', p, p', w, w'. split; [exact Td|]. split; [exact Td'|]. split; [exact E|]. split; [exact E'|]. split; [exact G|].
  rewrite (proj1 (Q 0%nat 0%nat ltac:(lia) ltac:(lia))). exact G.
Qed.
