(** Properties C02, C08, C21-C23, C31, C32, C50, C53: the Driver. *)
From Coq Require Import Reals Lra QArith Permutation Floats.
From Verif Require Import Prelude StdMap Json Materials Graph ModelM Parser Matrix Solver Domain Results Driver
  SpecInput SpecModel SpecSolver SpecDriver SpecInner RSum DriverProofs CallProofs RunProofs DriverFacts Toy.
Open Scope string_scope.
Open Scope list_scope.

(** ** C02 *)
(** [ids] are the numbers of the conductors of the model, in any order. *)
Theorem C02_conductors_0_to_n_are_accepted :
  forall (T : Type) (N : Num T) (m : model T) (ids : list Z) (dbg : bool) femlib (o : driver_options),
    well_posed (femlib (mo_mesh m) (o_order o)) m -> conductor_ids (mo_mats m) ids ->
    ids <> [] -> numbered_from_zero ids ->
    exists d, built dbg femlib m o d /\ dr_model d = m /\ dr_opts d = o /\
      forall ignore, List.length (sp_solutions (problem d ignore)) = List.length ids /\
                     forall i, In i ids -> is_ok (get_solution (problem d ignore) i).
Proof. exact @accepted_and_built. Qed.
Print Assumptions C02_conductors_0_to_n_are_accepted.
(** Otherwise it throws, whatever the finite element library would do (so before solving), and
    writes nothing. *)
Theorem C02_others_are_rejected_before_solving :
  forall (T : Type) (N : Num T) (m : model T) (ids : list Z),
    NoDup (map p_name (pecs (mo_mats m))) -> conductor_ids (mo_mats m) ids ->
    ~ (ids <> [] /\ numbered_from_zero ids) ->
    exists msg, forall dbg femlib o, mkDriver dbg femlib m o tt = ((Throw (RuntimeError msg), tt), []).
Proof. exact @rejected_before_solving. Qed.
Print Assumptions C02_others_are_rejected_before_solving.
Example C02_example_accepted :
  conductor_ids (toy_mats Open 2%R) [1; 0]%Z /\ numbered_from_zero [1; 0]%Z /\
  exists d, built true toy_lib (toy_model Open 2%R) toy_options d.
Proof.
  assert (C : conductor_ids (toy_mats Open 2%R) [1; 0]%Z) by (repeat constructor).
  assert (N : numbered_from_zero [1; 0]%Z) by apply perm_swap.
  split; [exact C|]. split; [exact N|].
  destruct (C02_conductors_0_to_n_are_accepted R _ (toy_model Open 2%R) [1; 0]%Z true toy_lib toy_options
              (toy_posed _ _ _) C ltac:(discriminate) N) as (d & B & _). eauto.
Qed.
Definition missing_one : model R :=
  {| mo_mats := {| pecs := [{| p_name := "Conductor_0"; p_attr := 1; p_area := 0%R |};
                            {| p_name := "Conductor_2"; p_attr := 2; p_area := 0%R |}];
                   openBoundaries := []; dielectrics := [] |};
     mo_mesh := toy_mesh Closed; mo_ground := 0 |}.
Example C02_example_rejected :
  NoDup (map p_name (pecs (mo_mats missing_one))) /\ conductor_ids (mo_mats missing_one) [0; 2]%Z /\
  ~ ([0; 2]%Z <> [] /\ numbered_from_zero [0; 2]%Z).
Proof.
  split; [|split].
  - repeat constructor; cbn; intuition discriminate.
  - repeat constructor.
  - intros [_ P]. apply (Permutation_in 2%Z) in P; [|cbn; auto]. cbn in P. intuition discriminate.
Qed.

(** ** C21 *)
Theorem C21_inputs_reflect_the_materials :
  forall (T : Type) (N : Num T) (m : model T) (ignore : bool),
    NoDup (all_names (mo_mats m)) ->
    exists p, buildSolverInputsFromModel m ignore = Ok p /\
      conductor_problem (mo_mats m) ignore (fun _ => n0) p.
Proof. exact @inputs_of_model. Qed.
Print Assumptions C21_inputs_reflect_the_materials.
Example C21_example :
  NoDup (all_names (toy_mats Open 2%Q)) /\
  buildSolverInputsFromModel (toy_model Open 2%Q) false =
    Ok {| si_dirichlet := [(1%Z, 0%Q); (2%Z, 0%Q)]; si_neumann := []; si_open := [4%Z]; si_eps := [(3%Z, 2%Q)] |}.
Proof. split; [apply toy_names|reflexivity]. Qed.

(** ** C22 *)
(** After any history of calls (in real arithmetic). *)
Theorem C22_one_unit_excitation_per_conductor :
  forall (dbg : bool) femlib moment (m : model R) (o : driver_options) (d : driver R) (ops : list dop)
         (conds : list (pec R)) (ignore : bool) (i : nat) (p : pec R),
    well_posed (femlib (mo_mesh m) (o_order o)) m -> built dbg femlib m o d -> in_order (mo_mats m) conds ->
    nth_error conds i = Some p ->
    exists x, nth_error (sp_solutions (problem (after dbg femlib moment ops d) ignore)) i = Some (Some x) /\
      unit_solution (femlib (mo_mesh m) (o_order o)) dbg (mo_mats m) ignore (p_attr p) x.
Proof.
  intros. eapply solution_of_conductor; eauto.
  apply Forall_forall. intros; right; exact Rmul0.
Qed.
Print Assumptions C22_one_unit_excitation_per_conductor.
(** In any arithmetic, when built and after calls that do not reconstruct fields. *)
Theorem C22_one_unit_excitation_per_conductor_any_arithmetic :
  forall (T : Type) (N : Num T) (dbg : bool) femlib moment (m : model T) (o : driver_options) (d : driver T)
         (ops : list dop) (conds : list (pec T)) (ignore : bool) (i : nat) (p : pec T),
    well_posed (femlib (mo_mesh m) (o_order o)) m -> built dbg femlib m o d -> in_order (mo_mats m) conds ->
    Forall matrix_call ops -> nth_error conds i = Some p ->
    exists x, nth_error (sp_solutions (problem (after dbg femlib moment ops d) ignore)) i = Some (Some x) /\
      unit_solution (femlib (mo_mesh m) (o_order o)) dbg (mo_mats m) ignore (p_attr p) x.
Proof.
  intros T N dbg femlib moment m o d ops conds ignore i p W B O Fo E.
  eapply solution_of_conductor; eauto. eapply Forall_impl; [|exact Fo]. auto.
Qed.
Print Assumptions C22_one_unit_excitation_per_conductor_any_arithmetic.
(** The degrees of freedom prescribed are those on conductors: 1 on the conductor excited
    (unless a conductor with a larger tag touches there), 0 elsewhere. *)
Theorem C22_prescribed_degrees_of_freedom :
  forall (T : Type) (N : Num T) (F : fem T) (dbg : bool) (m : model T) (ignore : bool) (t : Z) (x : solution T),
    well_posed F m -> (exists q, In q (pecs (mo_mats m)) /\ p_attr q = t) ->
    unit_solution F dbg (mo_mats m) ignore t x ->
    exists eps opn ess phi0 sig,
      so_phi x = fe_phi F eps opn ess ess phi0 sig /\ so_e x = fe_e F (so_phi x) /\ so_d x = fe_d F eps (so_e x) /\
      (forall k, In k ess <-> exists q, In q (pecs (mo_mats m)) /\ on_boundary F (p_attr q) k) /\
      List.length phi0 = fe_nH1 F /\
      forall k, (k < fe_nH1 F)%nat ->
        ((on_boundary F t k /\ forall q, In q (pecs (mo_mats m)) -> on_boundary F (p_attr q) k -> (p_attr q <= t)%Z) ->
           nth_error phi0 k = Some n1) /\
        (~ (on_boundary F t k /\ forall q, In q (pecs (mo_mats m)) -> on_boundary F (p_attr q) k -> (p_attr q <= t)%Z) ->
           nth_error phi0 k = Some n0).
Proof. exact @unit_solution_prescribes. Qed.
Print Assumptions C22_prescribed_degrees_of_freedom.
Example C22_example :
  exists d x0 x1, built true toy_lib (toy_model Open 2%Q) toy_options d /\
    in_order (toy_mats Open 2%Q) toy_conds /\
    sp_solutions (problem d false) = [Some x0; Some x1] /\
    so_phi x0 = [1%Q; 0%Q] /\ so_phi x1 = [0%Q; 1%Q] /\ so_d x0 = [4%Q; (-2)%Q].
Proof.
  do 3 eexists. split; [eexists; vm_compute; reflexivity|].
  split; [apply toy_order|]. split; [reflexivity|]. repeat split; reflexivity.
Qed.

(** ** C23 *)
(** [x], [y]: the fields with 1 V on conductor i, respectively j; [a] and [b]: the charges they
    put on the other of the two. *)
Theorem C23_entries_are_mean_charges :
  forall (dbg : bool) femlib moment (m : model R) (o : driver_options) (d : driver R) (ops : list dop)
         (conds : list (pec R)) (ignore : bool) (op : openness),
    let F := femlib (mo_mesh m) (o_order o) in
    well_posed F m -> built dbg femlib m o d -> in_order (mo_mats m) conds ->
    determineOpenness dbg m = Ok op -> (List.length conds = 1%nat -> op <> Closed) ->
    exists C w, reply dbg femlib moment (CallGeneralizedC ignore) (after dbg femlib moment ops d) = (Ok (VMatrix C), w) /\
      nr C = List.length conds /\ nc C = List.length conds /\
      forall i j p q x y a b, nth_error conds i = Some p -> nth_error conds j = Some q ->
        unit_solution F dbg (mo_mats m) ignore (p_attr p) x -> unit_solution F dbg (mo_mats m) ignore (p_attr q) y ->
        charge_on F x (p_attr q) a -> charge_on F y (p_attr p) b ->
        ent C i j = ((a + b) / 2)%R.
Proof. exact generalized_matrix. Qed.
Print Assumptions C23_entries_are_mean_charges.
(** Exactly symmetric in any arithmetic. *)
Theorem C23_symmetric :
  forall (T : Type) (N : Num T) (dbg : bool) femlib moment (d : driver T) (ignore : bool) (C : matrix T) w (i j : nat),
    reply dbg femlib moment (CallGeneralizedC ignore) d = (Ok (VMatrix C), w) -> ent C i j = ent C j i.
Proof. exact @gc_symmetric. Qed.
Print Assumptions C23_symmetric.
Definition toy_moment {T} `{Num T} : T * T -> nat -> nat -> T * T -> T := fun _ _ _ _ => n0.
Example C23_example :
  exists d C w, built true toy_lib (toy_model Open 2%Q) toy_options d /\
    determineOpenness true (toy_model Open 2%Q) = Ok Open /\
    reply true toy_lib toy_moment (CallGeneralizedC false) d = (Ok (VMatrix C), w) /\
    rows_list C = [[4%Q; (-2)%Q]; [(-2)%Q; 4%Q]].
Proof. do 3 eexists. split; [eexists; vm_compute; reflexivity|]. repeat split; vm_compute; reflexivity. Qed.

(** ** C31 *)
(** The answer to a call and the files it writes, after any history, are those of the driver as
    it was built, with the export folder set last. In real arithmetic. *)
Theorem C31_history_is_irrelevant :
  forall (dbg : bool) femlib moment (m : model R) (o : driver_options) (d : driver R) (ops : list dop) (op : dop),
    well_posed (femlib (mo_mesh m) (o_order o)) m -> built dbg femlib m o d ->
    reply dbg femlib moment op (after dbg femlib moment ops d) =
    reply dbg femlib moment op (in_folder d (last_folder ops (o_exportFolder o))).
Proof.
  intros. apply history_irrelevant with (ok := fun _ => True) (m := m); auto.
  - intros; right; exact Rmul0.
  - now apply Forall_forall.
Qed.
Print Assumptions C31_history_is_irrelevant.
(** Bit for bit in floating point (and in any other arithmetic) for the calls that do not
    reconstruct fields; for these the solver is cleared by multiplying it by zero, which is only
    right for finite values. *)
Theorem C31_history_is_irrelevant_any_arithmetic :
  forall (T : Type) (N : Num T) (dbg : bool) femlib moment (m : model T) (o : driver_options) (d : driver T)
         (ops : list dop) (op : dop),
    well_posed (femlib (mo_mesh m) (o_order o)) m -> built dbg femlib m o d ->
    Forall matrix_call ops -> matrix_call op ->
    reply dbg femlib moment op (after dbg femlib moment ops d) =
    reply dbg femlib moment op (in_folder d (last_folder ops (o_exportFolder o))).
Proof. intros. apply history_irrelevant with (ok := matrix_call) (m := m); auto. Qed.
Print Assumptions C31_history_is_irrelevant_any_arithmetic.
Example C31_example :
  exists d C w, built true toy_lib (toy_model Closed 2%float) toy_options d /\
    reply true toy_lib toy_moment CallC (after true toy_lib toy_moment [CallPUL; CallGeneralizedC true] d) =
      (Ok (VMatrix C), w) /\ rows_list C = [[2%float]].
Proof. do 3 eexists. split; [eexists; vm_compute; reflexivity|]. split; vm_compute; reflexivity. Qed.

(** ** C32 *)
Theorem C32_single_conductor_closed_throws :
  forall (T : Type) (N : Num T) (dbg : bool) femlib moment (d : driver T) (p : pec T) (op : dop),
    in_order (mo_mats (dr_model d)) [p] -> determineOpenness dbg (dr_model d) = Ok Closed ->
    (exists b, op = CallGeneralizedC b) \/ op = CallC \/ op = CallL \/ op = CallPUL \/ op = CallRun ->
    exists msg, call dbg femlib moment op d = ((Throw (RuntimeError msg), d), []).
Proof. exact @single_closed. Qed.
Print Assumptions C32_single_conductor_closed_throws.
Theorem C32_incell_not_open_throws :
  forall (T : Type) (N : Num T) (dbg : bool) femlib moment (d : driver T) (op : openness),
    determineOpenness dbg (dr_model d) = Ok op -> op <> Open ->
    exists msg, call dbg femlib moment CallInCell d = ((Throw (RuntimeError msg), d), []).
Proof. exact @incell_not_open. Qed.
Print Assumptions C32_incell_not_open_throws.
Theorem C32_floating_potentials_semiopen_throws :
  forall (T : Type) (N : Num T) (dbg : bool) femlib moment (d : driver T),
    NoDup (map p_name (pecs (mo_mats (dr_model d)))) -> (2 <= List.length (pecs (mo_mats (dr_model d))))%nat ->
    determineOpenness dbg (dr_model d) = Ok SemiOpen ->
    exists msg, call dbg femlib moment CallFloating d = ((Throw (RuntimeError msg), d), []).
Proof. exact @floating_semiopen. Qed.
Print Assumptions C32_floating_potentials_semiopen_throws.
Theorem C32_run_semiopen_throws :
  forall (T : Type) (N : Num T) (dbg : bool) femlib moment (d : driver T),
    determineOpenness dbg (dr_model d) = Ok SemiOpen ->
    exists msg, call dbg femlib moment CallRun d = ((Throw (RuntimeError msg), d), []).
Proof. exact @run_semiopen. Qed.
Print Assumptions C32_run_semiopen_throws.
Definition lonely : model Q :=
  {| mo_mats := {| pecs := [{| p_name := "Conductor_0"; p_attr := 1; p_area := 0%Q |}];
                   openBoundaries := []; dielectrics := [] |};
     mo_mesh := toy_mesh Closed; mo_ground := 0 |}.
Example C32_example :
  (exists d p, built true toy_lib lonely toy_options d /\ in_order (mo_mats (dr_model d)) [p] /\
     determineOpenness true (dr_model d) = Ok Closed) /\
  (exists d, built true toy_lib (toy_model SemiOpen 2%Q) toy_options d /\
     determineOpenness true (dr_model d) = Ok SemiOpen /\ List.length (pecs (mo_mats (dr_model d))) = 2%nat).
Proof.
  split.
  - do 2 eexists. split; [eexists; vm_compute; reflexivity|]. split; [|reflexivity].
    split; [cbn; apply Permutation_refl|]. intros [|[|i]] p E; cbn in E; try discriminate. injection E as <-. reflexivity.
  - eexists. split; [eexists; vm_compute; reflexivity|]. split; reflexivity.
Qed.

(** ** C08 *)
(** [filter is_result w]: the result files among the files written (the others are field
    exports). *)
Theorem C08_closed_problems_write_the_pul_matrices :
  forall (T : Type) (N : Num T) (dbg : bool) femlib moment (d : driver T) r w,
    reply dbg femlib moment CallRun d = (r, w) -> determineOpenness dbg (dr_model d) = Ok Closed ->
    (exists p w', reply dbg femlib moment CallPUL d = (Ok (VPul p), w') /\ r = Ok VUnit /\
       filter is_result w = [EvJson (o_exportFolder (dr_opts d) ++ "pulmtln.out.json")%string (pulToJSON p)]) \/
    (r <> Ok VUnit /\ filter is_result w = []).
Proof. intros T N dbg femlib moment d r w E O. exact (run_writes dbg femlib moment d r w Closed E O). Qed.
Print Assumptions C08_closed_problems_write_the_pul_matrices.
Theorem C08_open_problems_write_the_incell_potentials :
  forall (T : Type) (N : Num T) (dbg : bool) femlib moment (d : driver T) r w,
    reply dbg femlib moment CallRun d = (r, w) -> determineOpenness dbg (dr_model d) = Ok Open ->
    (exists p w', reply dbg femlib moment CallInCell d = (Ok (VInCell p), w') /\ r = Ok VUnit /\
       filter is_result w = [EvJson (o_exportFolder (dr_opts d) ++ "inCellPotentials.out.json")%string (incellToJSON p)]) \/
    (r <> Ok VUnit /\ filter is_result w = []).
Proof. intros T N dbg femlib moment d r w E O. exact (run_writes dbg femlib moment d r w Open E O). Qed.
Print Assumptions C08_open_problems_write_the_incell_potentials.
Theorem C08_semiopen_problems_throw :
  forall (T : Type) (N : Num T) (dbg : bool) femlib moment (d : driver T) r w,
    reply dbg femlib moment CallRun d = (r, w) -> determineOpenness dbg (dr_model d) = Ok SemiOpen ->
    is_throw r /\ w = [].
Proof. intros T N dbg femlib moment d r w E O. exact (run_writes dbg femlib moment d r w SemiOpen E O). Qed.
Print Assumptions C08_semiopen_problems_throw.
Theorem C08_no_other_call_writes_a_result :
  forall (T : Type) (N : Num T) (dbg : bool) femlib moment (op : dop) (d : driver T),
    op <> CallRun -> filter is_result (snd (reply dbg femlib moment op d)) = [].
Proof. exact @other_calls_write_nothing. Qed.
Print Assumptions C08_no_other_call_writes_a_result.
(** In the folder, if and only if it is given with a slash at its end (or is empty, the working
    folder). *)
Theorem C08_the_file_is_in_the_folder_partial :
  forall (folder : string),
    (file_in folder (folder ++ "pulmtln.out.json") <-> folder = ""%string \/ exists f, folder = (f ++ "/")%string) /\
    (file_in folder (folder ++ "inCellPotentials.out.json") <-> folder = ""%string \/ exists f, folder = (f ++ "/")%string).
Proof.
  intros folder. split; split.
  1, 3: intros (name & _ & _ & [[_ E]|E]); [exact E|]; apply string_app_inj_l in E; discriminate E.
  all: intros E; eexists; (split; [|split; [|left; split; [reflexivity|exact E]]]); discriminate || reflexivity.
Qed.
Print Assumptions C08_the_file_is_in_the_folder_partial.
(** Without it the file lands beside the folder. *)
Theorem C08_folder_without_slash_refuted :
  exists (d : driver Q) w path j,
    built true toy_lib (toy_model Closed 2%Q) (with_folder toy_options "out") d /\
    o_exportFolder (dr_opts d) = "out"%string /\
    reply true toy_lib toy_moment CallRun d = (Ok VUnit, w) /\
    filter is_result w = [EvJson path j] /\ path = "outpulmtln.out.json"%string /\ ~ file_in "out" path.
Proof.
  do 4 eexists. split; [eexists; vm_compute; reflexivity|]. split; [reflexivity|].
  split; [vm_compute; reflexivity|]. split; [vm_compute; reflexivity|]. split; [reflexivity|].
  intros (name & _ & _ & [[_ [E|[f E]]]|E]); try discriminate E.
  destruct f as [|a [|b [|c [|e f]]]]; cbn in E; discriminate E.
Qed.
Print Assumptions C08_folder_without_slash_refuted.
(** Run on the closed example: five files, one of them a result. *)
Example C08_example :
  match mkDriver true toy_lib (toy_model Closed 2%Q) toy_options tt with
  | ((Ok d, _), _) =>
      let '(r, w) := reply true toy_lib toy_moment CallRun d in
      match r with Ok VUnit => Some (List.length w, List.length (filter is_result w)) | _ => None end
  | _ => None
  end = Some (5, 1)%nat.
Proof. vm_compute. reflexivity. Qed.

(** ** C53 *)
(** Names with an underscore, as the documented Conductor_N. *)
Theorem C53_export_names_differ :
  forall (T : Type) (mats : materials T) (conds : list (pec T)) (folder : string) (x y : export),
    in_order mats conds -> (forall p, In p conds -> after_underscore (p_name p) <> None) ->
    In (x_conductor x) (map p_name conds) -> In (x_conductor y) (map p_name conds) ->
    export_path folder x = export_path folder y -> x = y.
Proof. exact @export_paths_differ. Qed.
Print Assumptions C53_export_names_differ.
Example C53_example :
  in_order (toy_mats Open 2%Q) toy_conds /\
  (forall p, In p (toy_conds (T := Q)) -> after_underscore (p_name p) <> None) /\
  In "Conductor_1"%string (map p_name (toy_conds (T := Q))).
Proof. split; [apply toy_order|]. split; [intros p [<-|[<-|[]]]; discriminate|cbn; auto]. Qed.
(** These are the names under which the solutions are exported: per conductor, first with and then
    without dielectrics, with the unit solution of that conductor in it. *)
Theorem C53_construction_exports_under_these_names :
  forall (T : Type) (N : Num T) (dbg : bool) femlib (m : model T) (o : driver_options) (conds : list (pec T)),
    well_posed (femlib (mo_mesh m) (o_order o)) m -> in_order (mo_mats m) conds -> conds <> [] ->
    exists d us, mkDriver dbg femlib m o tt =
      ((Ok d, tt), flat_map (fun ignore => flat_map (fun pu : pec T * solution T =>
         (if o_exportParaView o then [saved (o_exportFolder o)
             {| x_visit := false; x_conductor := p_name (fst pu); x_floating := false; x_ignore := ignore |} (contents (snd pu))] else []) ++
         (if o_exportVisIt o then [saved (o_exportFolder o)
             {| x_visit := true; x_conductor := p_name (fst pu); x_floating := false; x_ignore := ignore |} (contents (snd pu))] else []))
           (combine conds (us ignore)))
         [false; true]) /\
      forall ignore, Forall2 (fun p u => unit_solution (femlib (mo_mesh m) (o_order o)) dbg (mo_mats m) ignore (p_attr p) u) conds (us ignore).
Proof.
  intros T N dbg femlib m o conds W O Ne.
  destruct (mkDriver_ok dbg femlib m o W conds O Ne) as (d & E & _ & _ & Fi). exists d, (fun ig => stored (problem d ig)). split.
  - rewrite E. f_equal.
    assert (App : forall s : string, (s ++ "")%string = s) by (induction s; cbn; congruence).
    cbn [flat_map]. rewrite app_nil_r.
    assert (G : forall ig us, exports o ig conds us = flat_map (fun pu : pec T * solution T =>
         (if o_exportParaView o then [saved (o_exportFolder o)
             {| x_visit := false; x_conductor := p_name (fst pu); x_floating := false; x_ignore := ig |} (contents (snd pu))] else []) ++
         (if o_exportVisIt o then [saved (o_exportFolder o)
             {| x_visit := true; x_conductor := p_name (fst pu); x_floating := false; x_ignore := ig |} (contents (snd pu))] else [])) (combine conds us)).
    { intros ig us. unfold exports. apply flat_map_ext. intros p. unfold export_fields, saved, export_path. cbn [x_visit x_conductor x_floating x_ignore].
      now rewrite App. }
    now rewrite !G.
  - intros ig. destruct (Fi ig) as ((us & Eu & Fu) & _). rewrite (stored_some _ _ Eu). clear -Fu. induction Fu as [|p u l l' (A & _) _ IH]; constructor; assumption.
Qed.
Print Assumptions C53_construction_exports_under_these_names.
(** Accepted names without an underscore can collide: "1" is read as conductor 1 and
    "1_no_dielectrics" as conductor 0. *)
Theorem C53_names_without_underscore_collide :
  exists (mats : materials Q) (conds : list (pec Q)) (x y : export),
    in_order mats conds /\ NoDup (map p_name conds) /\
    In (x_conductor x) (map p_name conds) /\ In (x_conductor y) (map p_name conds) /\ x <> y /\
    export_path "./" x = export_path "./" y.
Proof.
  exists {| pecs := [{| p_name := "1_no_dielectrics"; p_attr := 1; p_area := 0%Q |};
                     {| p_name := "1"; p_attr := 2; p_area := 0%Q |}]; openBoundaries := []; dielectrics := [] |}.
  exists [{| p_name := "1_no_dielectrics"; p_attr := 1; p_area := 0%Q |};
          {| p_name := "1"; p_attr := 2; p_area := 0%Q |}].
  exists {| x_visit := false; x_conductor := "1_no_dielectrics"; x_floating := false; x_ignore := false |}.
  exists {| x_visit := false; x_conductor := "1"; x_floating := false; x_ignore := true |}.
  split; [split; [apply Permutation_refl|]|].
  { intros [|[|i]] p E; cbn in E; try (injection E as <-; reflexivity). destruct i; discriminate. }
  split; [repeat constructor; cbn; intuition discriminate|].
  split; [cbn; auto|]. split; [cbn; auto|]. split; [discriminate|reflexivity].
Qed.
Print Assumptions C53_names_without_underscore_collide.

(** ** C50 *)
(** [data]: the materials of the inner region with their averages and areas. *)
Theorem C50_inner_region_average :
  forall (m : model R) (F : fem R) (s : solver R) (conductors : bool) (data : list (string * (R * R))),
    NoDup (all_names (mo_mats m)) -> In "Vacuum_0"%string (map d_name (dielectrics (mo_mats m))) ->
    inner_materials m conductors (map fst data) ->
    (forall n v a, In (n, (v, a)) data -> material_data F s m n v a) ->
    getInnerRegionAveragePotential m F s conductors =
      Ok (Rsum data (fun x => fst (snd x) * snd (snd x)) / Rsum data (fun x => snd (snd x)))%R.
Proof. exact inner_average. Qed.
Print Assumptions C50_inner_region_average.
Theorem C50_average_is_between :
  forall (m : model R) (F : fem R) (s : solver R) (conductors : bool) (data : list (string * (R * R))) (lo hi v : R),
    NoDup (all_names (mo_mats m)) -> In "Vacuum_0"%string (map d_name (dielectrics (mo_mats m))) ->
    inner_materials m conductors (map fst data) ->
    (forall n v a, In (n, (v, a)) data -> material_data F s m n v a /\ (lo <= v <= hi)%R /\ (0 <= a)%R) ->
    (0 < Rsum data (fun x => snd (snd x)))%R ->
    getInnerRegionAveragePotential m F s conductors = Ok v -> (lo <= v <= hi)%R.
Proof. exact inner_average_between. Qed.
Print Assumptions C50_average_is_between.
Example C50_example :
  let F := toy_lib (toy_mesh Open) 3 in
  let s := {| s_params := {| si_dirichlet := []; si_neumann := []; si_open := []; si_eps := [] |};
              s_ess := []; s_open := []; s_eps := EpsConst 1%R; s_sigma := []; s_elim := None; s_phi := [1; 0]%R; s_e := []; s_d := [] |} in
  let data := [("Vacuum_0", (1 / 2, 1)); ("Conductor_0", (1, 1)); ("Conductor_1", (0, 1))]%R%string in
  inner_materials (toy_model Open 2%R) true (map fst data) /\
  (forall n v a, In (n, (v, a)) data -> material_data F s (toy_model Open 2%R) n v a) /\
  Rsum data (fun x => snd (snd x)) = 3%R.
Proof.
  split; [|split].
  - split; [cbn; repeat constructor; cbn; intuition discriminate|].
    intros n. cbn. split.
    + intros [<-|[<-|[<-|[]]]]; [left; reflexivity|right; right; auto|right; right; auto].
    + intros [->|[[[<-|[]] _]|[_ [<-|[<-|[]]]]]]; auto.
  - intros n v a [E|[E|[E|[]]]]; injection E as <- <- <-.
    + left. exists {| d_name := "Vacuum_0"; d_attr := 3; d_epsr := 2%R |}. split; [cbn; auto|]. split; [reflexivity|].
      split; [|cbn; lra]. unfold getAveragePotentialInDomain, h1_form. cbn. lra.
    + right. exists {| p_name := "Conductor_0"; p_attr := 1; p_area := 1%R |}. split; [cbn; auto|]. split; [reflexivity|].
      split; [|reflexivity]. unfold getAveragePotentialInBoundary, h1_form. cbn. lra.
    + right. exists {| p_name := "Conductor_1"; p_attr := 2; p_area := 1%R |}. split; [cbn; auto|]. split; [reflexivity|].
      split; [|reflexivity]. unfold getAveragePotentialInBoundary, h1_form. cbn. lra.
  - unfold Rsum. cbn. lra.
Qed.
