(** Property C30: the fields reconstructed by getInCellPotentials. *)
From Coq Require Import QArith Reals Lra.
From Verif Require Import Prelude StdMap Json Materials Graph ModelM Parser Matrix Solver Domain Results Driver
  SpecInput SpecModel SpecSolver SpecDriver SpecMatrix SpecResults SpecField RSum DriverProofs DriverFacts FieldProofs Toy
  PropsResults Fem Triangles SpecFem SpecTriangles Kite Bars.
Open Scope R_scope.
Open Scope list_scope.

(** ** C30 *)
(** There is one field per conductor, with and without dielectrics. That of conductor i is the
    combination of the unit solutions with the floating potentials V_i of the generalized matrix g
    (floats g i V: V_i = 1 and no other conductor has charge in g), these are the stored
    potentials, and the average, centre and multipolar coefficients are those of that combination
    (reconstruction, SpecField.v). *)
Theorem C30_reconstructed_fields :
  forall (dbg : bool) femlib moment (m : model R) (o : driver_options) (d : driver R) (ops : list dop)
         (conds : list (pec R)) (p : incell R) w,
    well_posed (femlib (mo_mesh m) (o_order o)) m -> built dbg femlib m o d -> in_order (mo_mats m) conds ->
    reply dbg femlib moment CallInCell (after dbg femlib moment ops d) = (Ok (VInCell p), w) ->
    determineOpenness dbg m = Ok Open /\ forall ignore : bool,
    map fst (fields_of p ignore) = map Z.of_nat (seq 0 (List.length conds)) /\
    exists g wg V,
      reply dbg femlib moment (CallGeneralizedC ignore) (after dbg femlib moment ops d) = (Ok (VMatrix g), wg) /\
      square (List.length conds) g /\
      forall i fr, In (Z.of_nat i, fr) (fields_of p ignore) ->
        (i < List.length conds)%nat /\ floats g i (V i) /\
        exists x, reconstruction (femlib (mo_mesh m) (o_order o)) dbg moment m (o_multipolarExpansionOrder o) ignore conds (V i) x fr.
Proof. intros. eapply incell_fields; eassumption. Qed.
Print Assumptions C30_reconstructed_fields.

(** When the raw charges are symmetric, the other conductors have no charge in that field and
    the monopolar coefficient is the charge of conductor i. *)
Theorem C30_charge_only_on_the_prescribed_conductor_partial :
  forall (dbg : bool) femlib moment (m : model R) (o : driver_options) (d : driver R) (ops : list dop)
         (conds : list (pec R)) (p : incell R) w (ignore : bool) (i : nat) (pi : pec R) (fr : fieldrec R),
    well_posed (femlib (mo_mesh m) (o_order o)) m -> built dbg femlib m o d -> in_order (mo_mats m) conds ->
    reply dbg femlib moment CallInCell (after dbg femlib moment ops d) = (Ok (VInCell p), w) ->
    reciprocal (femlib (mo_mesh m) (o_order o)) dbg m ignore conds ->
    nth_error conds i = Some pi -> In (Z.of_nat i, fr) (fields_of p ignore) ->
    exists V x,
      reconstruction (femlib (mo_mesh m) (o_order o)) dbg moment m (o_multipolarExpansionOrder o) ignore conds V x fr /\
      V i = 1 /\
      (forall k pk, k <> i -> nth_error conds k = Some pk ->
         charge_on (femlib (mo_mesh m) (o_order o)) x (p_attr pk) 0) /\
      exists Q rest, fr_ab fr = (Q, 0) :: rest /\ charge_on (femlib (mo_mesh m) (o_order o)) x (p_attr pi) Q.
Proof.
  intros dbg femlib moment m o d ops conds p w ignore i pi fr W B O E Rc Ei I.
  destruct (incell_fields dbg femlib moment m o d ops conds W B O p w E) as (Eo & H).
  destruct (H ignore) as (_ & g & wg & V & Eg & _ & Hi). destruct (Hi i fr I) as (_ & Fl & x & Rx).
  exists (V i), x. split; [exact Rx|]. split; [apply Fl|].
  exact (only_one_charge dbg femlib moment m o d ops conds W B O ignore (V i) g wg _ i pi x fr Ei Eg Eo Fl Rc Rx).
Qed.
Print Assumptions C30_charge_only_on_the_prescribed_conductor_partial.

(** In general (meshes of triangles are not reciprocal) the charge on another conductor k is half
    of what the raw charges q (q j k: on k with 1 V on j) lack to be symmetric, weighted with the
    stored potentials, and the monopolar coefficient is the charge of all the conductors. *)
Theorem C30_charges_of_the_conductors :
  forall (dbg : bool) femlib moment (m : model R) (o : driver_options) (d : driver R) (ops : list dop)
         (conds : list (pec R)) (p : incell R) w (ignore : bool) (i : nat) (pi : pec R) (fr : fieldrec R) (q : nat -> nat -> R),
    let n := List.length conds in
    well_posed (femlib (mo_mesh m) (o_order o)) m -> built dbg femlib m o d -> in_order (mo_mats m) conds ->
    NoDup (map p_attr (pecs (mo_mats m))) ->
    reply dbg femlib moment CallInCell (after dbg femlib moment ops d) = (Ok (VInCell p), w) ->
    unit_charges (femlib (mo_mesh m) (o_order o)) dbg m ignore conds q ->
    nth_error conds i = Some pi -> In (Z.of_nat i, fr) (fields_of p ignore) ->
    exists V x Q rest,
      reconstruction (femlib (mo_mesh m) (o_order o)) dbg moment m (o_multipolarExpansionOrder o) ignore conds V x fr /\
      V i = 1 /\
      (forall k pk, nth_error conds k = Some pk -> charge_on (femlib (mo_mesh m) (o_order o)) x (p_attr pk) (Q k)) /\
      (forall k, (k < n)%nat -> k <> i -> Q k = Sum n (fun j => V j * ((q j k - q k j) / 2))) /\
      fr_ab fr = (Sum n Q, 0) :: rest.
Proof.
  intros dbg femlib moment m o d ops conds p w ignore i pi fr q n W B O ND E Hq Ei I.
  destruct (incell_fields dbg femlib moment m o d ops conds W B O p w E) as (Eo & H).
  destruct (H ignore) as (_ & g & wg & V & Eg & _ & Hi). destruct (Hi i fr I) as (_ & Fl & x & Rx).
  destruct (charges_of_a_field dbg femlib moment m o d ops conds W B O ignore (V i) g wg _ i pi x fr q Ei Eg Eo Fl Hq Rx) as (H1 & H2 & H3).
  destruct (H3 ND) as (rest & H4).
  exists (V i), x, (fun k => Sum n (fun j => V i j * q j k)), rest. split; [exact Rx|]. split; [apply Fl|]. split; [exact H1|].
  split; [intros k Lk Nk; exact (H2 k Nk Lk)|exact H4].
Qed.
Print Assumptions C30_charges_of_the_conductors.

(** Two bars of different size inside an open boundary: a solver given the potentials stored with
    the field of conductor 0 finds a charge of more than 1/50 on the other conductor (it should
    float), and less charge on conductor 0 than the monopolar coefficient says. *)
Theorem C30_charge_only_on_the_prescribed_conductor_refuted :
  forall (dbg : bool) moment, exists (d : driver R) (p : incell R) w (fr : fieldrec R) (V : nat -> R) (x : solution R) (Q0 Q1 a0 : R) rest,
    let D := kite_disc distance (mo_mesh bars_model) 1 in
    cross_section quarter bars_model /\
    built dbg (galerkin quarter (kite_disc distance)) bars_model kite_options d /\
    reply dbg (galerkin quarter (kite_disc distance)) moment CallInCell d = (Ok (VInCell p), w) /\
    In (0%Z, fr) (ic_electric p) /\ fr_pots fr = [(0%Z, V 0%nat); (1%Z, V 1%nat)] /\ V 0%nat = 1 /\ fr_ab fr = (a0, 0) :: rest /\
    model_fields quarter D dbg bars_model false (fun t => if (t =? 1)%Z then V 0%nat else V 1%nat) x /\
    charge_on (discretize quarter D) x 1 Q0 /\ charge_on (discretize quarter D) x 2 Q1 /\
    1 / 50 < Q1 /\ Q0 < a0.
Proof.
  intros dbg moment. destruct (bars_driver dbg) as (d & B). destruct (bars_incell dbg moment [] d B) as (p & w & E).
  assert (I : exists fr, In (0%Z, fr) (ic_electric p)).
  { destruct (C30_reconstructed_fields dbg _ moment bars_model kite_options d [] toy_conds p w bars_posed B bars_order E) as (_ & H).
    destruct (H false) as (K & _). cbn [fields_of] in K. destruct (ic_electric p) as [|[k fr] l]; [discriminate|]. cbn in K. injection K as -> _. exists fr. now left. }
  destruct I as (fr & I).
  destruct (bars_floats dbg moment d B p w fr E I) as (V & x & Q0 & Q1 & a0 & rest & Ep & V0 & Eab & Fx & C0 & C1 & L1 & L2).
  exists d, p, w, fr, V, x, Q0, Q1, a0, rest. cbv zeta.
  exact (conj bars_section (conj B (conj E (conj I (conj Ep (conj V0 (conj Eab (conj Fx (conj C0 (conj C1 (conj L1 L2))))))))))).
Qed.
Print Assumptions C30_charge_only_on_the_prescribed_conductor_refuted.

(** ** C43, for the results of a Driver *)
Theorem C43_results_of_a_driver_survive :
  forall (dbg : bool) femlib moment (m : model R) (o : driver_options) (d : driver R) (ops : list dop) (p : incell R) w,
    well_posed (femlib (mo_mesh m) (o_order o)) m -> built dbg femlib m o d ->
    reply dbg femlib moment CallInCell (after dbg femlib moment ops d) = (Ok (VInCell p), w) ->
    numbered_incell p /\ incellFromJSON (incellToJSON p) = Ok p.
Proof.
  intros dbg femlib moment m o d ops p w W B E.
  destruct (CallProofs.built_finished dbg femlib m o d W B) as (conds & O & _).
  destruct (incell_fields dbg femlib moment m o d ops conds W B O p w E) as (_ & H).
  assert (N : numbered_incell p).
  { assert (G : forall ignore, numbered_fields (fields_of p ignore)).
    { intros ignore. destruct (H ignore) as (K & g & wg & V & _ & _ & Hi). split.
      - unfold numbered_map. rewrite <- (map_length fst), K, map_length, seq_length. reflexivity.
      - intros k f I. assert (Ik : In k (map fst (fields_of p ignore))) by (apply in_map_iff; exists (k, f); auto).
        rewrite K in Ik. apply in_map_iff in Ik as (i & <- & _). destruct (Hi i f I) as (_ & _ & x & Rx).
        unfold numbered_map. rewrite (rc_potentials _ _ _ _ _ _ _ _ _ _ Rx), map_map, map_length, seq_length. reflexivity. }
    split; [exact (G false)|exact (G true)]. }
  split; [exact N|]. apply (C43_json_round_trip R _ p N).
Qed.
Print Assumptions C43_results_of_a_driver_survive.

(** Toy problem with relative permittivity 2: each field has charge 3 (electric) or 3/2 (magnetic)
    on its conductor, the other one floats at 1/2. *)
Example C30_example :
  match mkDriver true toy_lib (toy_model Open 2%Q) toy_options tt with
  | ((Ok d, _), _) =>
      match fst (reply true toy_lib (fun _ _ _ _ => 0%Q) CallInCell d) with
      | Ok (VInCell p) => Some (map (fun kf => (fst kf, fr_pots (snd kf), map fst (fr_ab (snd kf)))) (ic_electric p ++ ic_magnetic p))
      | _ => None end
  | _ => None
  end = Some [(0%Z, [(0%Z, 1%Q); (1%Z, (1#2)%Q)], [3%Q; 0%Q]); (1%Z, [(0%Z, (1#2)%Q); (1%Z, 1%Q)], [3%Q; 0%Q]);
              (0%Z, [(0%Z, 1%Q); (1%Z, (1#2)%Q)], [(3#2)%Q; 0%Q]); (1%Z, [(0%Z, (1#2)%Q); (1%Z, 1%Q)], [(3#2)%Q; 0%Q])].
Proof. vm_compute. reflexivity. Qed.

(** ... and its raw charges are symmetric. *)
Lemma toy_unit dbg ignore t x : unit_solution (toy_lib (mo_mesh (toy_model Open 2)) 3) dbg (mo_mats (toy_model Open 2)) ignore t x ->
  exists c : R, c = (if ignore then 1 else 2) /\
    so_d x = [c * (unit_potential t 1%Z + 1 * unit_potential t 1%Z - unit_potential t 2%Z);
              c * (unit_potential t 2%Z + 1 * unit_potential t 2%Z - unit_potential t 1%Z)].
Proof.
  intros (p & s & [[S1 S2] D N Op Ep] & Es & Ex). exists (if ignore then 1 else 2). split; [reflexivity|].
  assert (E1 : si_dirichlet p = [(1%Z, unit_potential t 1%Z); (2%Z, unit_potential t 2%Z)]).
  { apply msorted_in_ext; [exact S1|repeat constructor|]. intros k v. rewrite D. cbn. split.
    - intros [(q & [<-|[<-|[]]] & <-) ->]; cbn; auto.
    - intros [[= <- <-]|[[= <- <-]|[]]]; (split; [|reflexivity]); eauto. }
  assert (E2 : si_eps p = [(3%Z, if ignore then 1 else 2)]).
  { apply msorted_in_ext; [exact S2|repeat constructor|]. intros k v. rewrite Ep. unfold permittivity. cbn. split.
    - intros ([|? [|? l1]] & q & l2 & El & <- & _ & ->); cbn in El; try discriminate. injection El as <- _. auto.
    - intros [[= <- <-]|[]]. exists [], {| d_name := "Vacuum_0"; d_attr := 3; d_epsr := 2 |}, []. cbn. auto. }
  assert (E3 : si_open p = [4%Z]).
  { cbn in Op. now apply Permutation.Permutation_sym, Permutation.Permutation_length_1_inv in Op. }
  unfold mkSolver in Es. rewrite E1, E2, E3, N in Es. destruct dbg; cbn in Es; injection Es as <-;
    unfold solved_fields, Solve in Ex; cbn in Ex; rewrite E1 in Ex; cbn in Ex; injection Ex as <-; cbn; rewrite Rmult_1_l; reflexivity.
Qed.
Example C30_example_symmetric : forall dbg ignore,
  reciprocal (toy_lib (mo_mesh (toy_model Open 2)) 3) dbg (toy_model Open 2) ignore toy_conds.
Proof.
  intros dbg ignore i j p q x y a b Nij Ei Ej Ux Uy Ca Cb.
  destruct (toy_unit _ _ _ _ Ux) as (c & -> & Dx). destruct (toy_unit _ _ _ _ Uy) as (c & -> & Dy).
  assert (Ea : forall z t v, charge_on (toy_lib (mo_mesh (toy_model Open 2)) 3) z t v ->
    v = flux_form (toy_lib (mo_mesh (toy_model Open 2)) 3) (fun q => if (q_attr q =? t)%Z then - 1 else 0) (so_d z)).
  { intros z t v H.
    pose (s := {| s_params := {| si_dirichlet := []; si_neumann := []; si_open := []; si_eps := [] |}; s_ess := []; s_open := [];
                  s_eps := EpsConst 1; s_sigma := []; s_elim := None; s_phi := so_phi z; s_e := so_e z; s_d := so_d z |} : solver R).
    rewrite <- (H s); [reflexivity|]. destruct z; reflexivity. }
  apply Ea in Ca, Cb. subst a b. rewrite Dx, Dy.
  destruct i as [|[|i]], j as [|[|j]]; try congruence; cbn in Ei, Ej; try (destruct i; discriminate); try (destruct j; discriminate);
    injection Ei as <-; injection Ej as <-; cbn; unfold unit_potential; cbn; destruct ignore; lra.
Qed.
(** The raw charges of the toy problem: C30_charges_of_the_conductors applies to it. *)
Example C30_example_charges : forall dbg (ignore : bool),
  unit_charges (toy_lib (mo_mesh (toy_model Open 2)) 3) dbg (toy_model Open 2) ignore toy_conds
    (fun j k => (if ignore then 1 else 2) * (if (j =? k)%nat then 2 else - 1)) /\
  NoDup (map p_attr (pecs (mo_mats (toy_model (T:=R) Open 2)))).
Proof.
  intros dbg ignore. split; [|cbn; repeat constructor; cbn; intuition lia].
  intros j k pj pk u Ej Ek Uu. destruct (toy_unit _ _ _ _ Uu) as (c & -> & Du). intros s <-.
  change (s_d s = [(if ignore then 1 else 2) * (unit_potential (p_attr pj) 1%Z + 1 * unit_potential (p_attr pj) 1%Z - unit_potential (p_attr pj) 2%Z);
                   (if ignore then 1 else 2) * (unit_potential (p_attr pj) 2%Z + 1 * unit_potential (p_attr pj) 2%Z - unit_potential (p_attr pj) 1%Z)]) in Du.
  unfold getChargeInBoundary. cbn. rewrite Du.
  destruct j as [|[|j]], k as [|[|k]]; cbn in Ej, Ek; try (destruct j; discriminate); try (destruct k; discriminate);
    injection Ej as <-; injection Ek as <-; cbn; unfold unit_potential; cbn; destruct ignore; lra.
Qed.
