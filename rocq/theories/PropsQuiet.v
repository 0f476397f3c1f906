(** Property C83: exports and messages do not change the numbers. *)
From Coq Require Import QArith Reals Permutation.
From Verif Require Import Prelude StdMap Json Materials Graph ModelM Parser Matrix Solver Domain Results Driver
  SpecInput SpecModel SpecSolver SpecDriver SpecQuiet ListLemmas QuietProofs DriverFacts Toy PropsDriver.

Lemma json_contents_app {T} (a b : list (event T)) : json_contents (a ++ b) = json_contents a ++ json_contents b.
Proof. unfold json_contents. apply flat_map_app. Qed.
Lemma same_call_related (RO : driver_options -> driver_options -> Prop) c c' :
  (forall f f' o o', RO o o' -> RO (with_folder o f) (with_folder o' f')) -> same_call c c' -> folders_related RO c c'.
Proof.
  intros Hf [x|f f'].
  - destruct x; try (left; split; [reflexivity|intros f; discriminate]). right. exists folder, folder. auto.
  - right. exists f, f'. auto.
Qed.
Lemma call_related (RO : driver_options -> driver_options -> Prop) c :
  (forall f o o', RO o o' -> RO (with_folder o f) (with_folder o' f)) -> folders_related RO c c.
Proof. intros Hf. destruct c; try (left; split; [reflexivity|intros f; discriminate]). right. exists folder, folder. auto. Qed.
Lemma calls_related (RO : driver_options -> driver_options -> Prop) ops :
  (forall f o o', RO o o' -> RO (with_folder o f) (with_folder o' f)) -> Forall2 (folders_related RO) ops ops.
Proof. intros Hf. induction ops; constructor; auto. now apply call_related. Qed.

(** ** C83 *)
(** Two Drivers of the same model whose options agree in the order of the elements and of the
    expansions; the same calls, the folders of setExportFolder apart: every call gives the same result,
    or fails in the same way, and the JSON files have the same contents. In any arithmetic. *)
Theorem C83_export_options_do_not_change_results :
  forall (T : Type) (N : Num T) (dbg : bool) femlib moment (m : model T) (o o' : driver_options) (d d' : driver T)
         (ops ops' : list dop) (c c' : dop),
    same_numbers o o' -> built dbg femlib m o d -> built dbg femlib m o' d' ->
    Forall2 same_call ops ops' -> same_call c c' ->
    fst (reply dbg femlib moment c (after dbg femlib moment ops d)) =
    fst (reply dbg femlib moment c' (after dbg femlib moment ops' d')) /\
    json_contents (snd (reply dbg femlib moment c (after dbg femlib moment ops d))) =
    json_contents (snd (reply dbg femlib moment c' (after dbg femlib moment ops' d'))).
Proof.
  intros T N dbg femlib moment m o o' d d' ops ops' c c' Ho B B' F Fc.
  assert (Hf : forall f f' o o', same_numbers o o' -> same_numbers (with_folder o f) (with_folder o' f')) by (intros f f' a b [A1 A2]; now split).
  eapply (quiet_replies dbg femlib moment (fun w w' => json_contents w = json_contents w') eq_refl) with (RO := same_numbers); eauto.
  - intros a a' b b' E1 E2. now rewrite !json_contents_app, E1, E2.
  - intros a b s n i _. unfold exportFieldSolutions. rewrite !json_contents_app.
    destruct (o_exportParaView a), (o_exportParaView b), (o_exportVisIt a), (o_exportVisIt b); reflexivity.
  - induction F; constructor; auto. now apply same_call_related.
  - now apply same_call_related.
Qed.
Print Assumptions C83_export_options_do_not_change_results.

Theorem C83_construction :
  forall (T : Type) (N : Num T) (dbg : bool) femlib (m : model T) (o o' : driver_options),
    same_numbers o o' ->
    end_alike (fst (fst (mkDriver dbg femlib m o tt))) (fst (fst (mkDriver dbg femlib m o' tt))).
Proof.
  intros T N dbg femlib m o o' Ho.
  eapply (quiet_construction dbg femlib (fun _ _ => True) I) with (RO := same_numbers); eauto.
Qed.
Print Assumptions C83_construction.

(** A kind of export that is switched off is never written ... *)
Definition paraview_off (o o' : driver_options) : Prop := o' = o /\ o_exportParaView o = false.
Definition visit_off (o o' : driver_options) : Prop := o' = o /\ o_exportVisIt o = false.
Theorem C83_switched_off :
  forall (T : Type) (N : Num T) (dbg : bool) femlib moment (m : model T) (o : driver_options),
    (o_exportParaView o = false ->
       filter is_paraview (snd (mkDriver dbg femlib m o tt)) = [] /\
       forall d ops c, built dbg femlib m o d ->
         filter is_paraview (snd (reply dbg femlib moment c (after dbg femlib moment ops d))) = []) /\
    (o_exportVisIt o = false ->
       filter is_visit (snd (mkDriver dbg femlib m o tt)) = [] /\
       forall d ops c, built dbg femlib m o d ->
         filter is_visit (snd (reply dbg femlib moment c (after dbg femlib moment ops d))) = []).
Proof.
  intros T N dbg femlib moment m o. split; intros Off.
  - assert (Hf : forall f o o', paraview_off o o' -> paraview_off (with_folder o f) (with_folder o' f)) by (intros f a b [-> A2]; now split).
    assert (Ha : forall a a' b b' : list (event T), filter is_paraview a = [] -> filter is_paraview b = [] ->
      filter is_paraview (a ++ b) = []) by (intros a a' b b' E1 E2; now rewrite filter_app, E1, E2).
    assert (He : forall o o' (s : solver T) n i, paraview_off o o' -> filter is_paraview (exportFieldSolutions o s n i) = []).
    { intros a b s n i [_ E]. unfold exportFieldSolutions. rewrite E. destruct (o_exportVisIt a); reflexivity. }
    assert (Hn : forall o o', paraview_off o o' -> same_numbers o o') by (intros a b [-> _]; now split).
    split.
    + refine (proj2 (quiet_construction dbg femlib (fun w _ => filter is_paraview w = []) _ _ paraview_off _ _ m o o _)); eauto; now split.
    + intros d ops c B.
      refine (proj2 (quiet_replies dbg femlib moment (fun w _ => filter is_paraview w = []) _ _ paraview_off _ _ _ m o o d d ops ops c c _ _ _ _ _)); eauto.
      * now split.
      * now apply calls_related.
      * now apply call_related.
  - assert (Hf : forall f o o', visit_off o o' -> visit_off (with_folder o f) (with_folder o' f)) by (intros f a b [-> A2]; now split).
    assert (Ha : forall a a' b b' : list (event T), filter is_visit a = [] -> filter is_visit b = [] ->
      filter is_visit (a ++ b) = []) by (intros a a' b b' E1 E2; now rewrite filter_app, E1, E2).
    assert (He : forall o o' (s : solver T) n i, visit_off o o' -> filter is_visit (exportFieldSolutions o s n i) = []).
    { intros a b s n i [_ E]. unfold exportFieldSolutions. rewrite E. destruct (o_exportParaView a); reflexivity. }
    assert (Hn : forall o o', visit_off o o' -> same_numbers o o') by (intros a b [-> _]; now split).
    split.
    + refine (proj2 (quiet_construction dbg femlib (fun w _ => filter is_visit w = []) _ _ visit_off _ _ m o o _)); eauto; now split.
    + intros d ops c B.
      refine (proj2 (quiet_replies dbg femlib moment (fun w _ => filter is_visit w = []) _ _ visit_off _ _ _ m o o d d ops ops c c _ _ _ _ _)); eauto.
      * now split.
      * now apply calls_related.
      * now apply call_related.
Qed.
Print Assumptions C83_switched_off.

(** ... and does not depend on the other switch. *)
Definition paraview_alike (o o' : driver_options) : Prop :=
  same_numbers o o' /\ o_exportFolder o' = o_exportFolder o /\ o_exportParaView o' = o_exportParaView o.
Definition visit_alike (o o' : driver_options) : Prop :=
  same_numbers o o' /\ o_exportFolder o' = o_exportFolder o /\ o_exportVisIt o' = o_exportVisIt o.
Theorem C83_switches_are_independent :
  forall (T : Type) (N : Num T) (dbg : bool) femlib moment (m : model T) (o o' : driver_options) (d d' : driver T)
         (ops : list dop) (c : dop),
    same_numbers o o' -> o_exportFolder o' = o_exportFolder o ->
    built dbg femlib m o d -> built dbg femlib m o' d' ->
    (o_exportParaView o' = o_exportParaView o ->
       filter is_paraview (snd (mkDriver dbg femlib m o tt)) = filter is_paraview (snd (mkDriver dbg femlib m o' tt)) /\
       filter is_paraview (snd (reply dbg femlib moment c (after dbg femlib moment ops d))) =
       filter is_paraview (snd (reply dbg femlib moment c (after dbg femlib moment ops d')))) /\
    (o_exportVisIt o' = o_exportVisIt o ->
       filter is_visit (snd (mkDriver dbg femlib m o tt)) = filter is_visit (snd (mkDriver dbg femlib m o' tt)) /\
       filter is_visit (snd (reply dbg femlib moment c (after dbg femlib moment ops d))) =
       filter is_visit (snd (reply dbg femlib moment c (after dbg femlib moment ops d')))).
Proof.
  intros T N dbg femlib moment m o o' d d' ops c Sn Ff B B'. split; intros Sw.
  - assert (Hf : forall f o o', paraview_alike o o' -> paraview_alike (with_folder o f) (with_folder o' f)) by (intros f a b ([A1 A2] & A3 & A4); repeat split; auto).
    assert (Ha : forall a a' b b' : list (event T), filter is_paraview a = filter is_paraview a' -> filter is_paraview b = filter is_paraview b' ->
      filter is_paraview (a ++ b) = filter is_paraview (a' ++ b')) by (intros a a' b b' E1 E2; now rewrite !filter_app, E1, E2).
    assert (He : forall o o' (s : solver T) n i, paraview_alike o o' -> filter is_paraview (exportFieldSolutions o s n i) = filter is_paraview (exportFieldSolutions o' s n i)).
    { intros a b s n i (_ & E1 & E2). unfold exportFieldSolutions. rewrite E1, E2. rewrite !filter_app.
      destruct (o_exportParaView a), (o_exportVisIt a), (o_exportVisIt b); reflexivity. }
    assert (Hn : forall o o', paraview_alike o o' -> same_numbers o o') by (intros a b [A _]; exact A).
    assert (R0 : paraview_alike o o') by (split; auto).
    split.
    + refine (proj2 (quiet_construction dbg femlib (fun w w' => filter is_paraview w = filter is_paraview w') _ _ paraview_alike _ _ m o o' _)); eauto.
    + refine (proj2 (quiet_replies dbg femlib moment (fun w w' => filter is_paraview w = filter is_paraview w') _ _ paraview_alike _ _ _ m o o' d d' ops ops c c _ _ _ _ _)); eauto.
      * now apply calls_related.
      * now apply call_related.
  - assert (Hf : forall f o o', visit_alike o o' -> visit_alike (with_folder o f) (with_folder o' f)) by (intros f a b ([A1 A2] & A3 & A4); repeat split; auto).
    assert (Ha : forall a a' b b' : list (event T), filter is_visit a = filter is_visit a' -> filter is_visit b = filter is_visit b' ->
      filter is_visit (a ++ b) = filter is_visit (a' ++ b')) by (intros a a' b b' E1 E2; now rewrite !filter_app, E1, E2).
    assert (He : forall o o' (s : solver T) n i, visit_alike o o' -> filter is_visit (exportFieldSolutions o s n i) = filter is_visit (exportFieldSolutions o' s n i)).
    { intros a b s n i (_ & E1 & E2). unfold exportFieldSolutions. rewrite E1, E2. rewrite !filter_app.
      destruct (o_exportVisIt a), (o_exportParaView a), (o_exportParaView b); reflexivity. }
    assert (Hn : forall o o', visit_alike o o' -> same_numbers o o') by (intros a b [A _]; exact A).
    assert (R0 : visit_alike o o') by (split; auto).
    split.
    + refine (proj2 (quiet_construction dbg femlib (fun w w' => filter is_visit w = filter is_visit w') _ _ visit_alike _ _ m o o' _)); eauto.
    + refine (proj2 (quiet_replies dbg femlib moment (fun w w' => filter is_visit w = filter is_visit w') _ _ visit_alike _ _ _ m o o' d d' ops ops c c _ _ _ _ _)); eauto.
      * now apply calls_related.
      * now apply call_related.
Qed.
Print Assumptions C83_switches_are_independent.

(** The toy problem with and without exports. *)
Definition quiet_options : driver_options :=
  {| o_order := o_order toy_options; o_printIterations := true; o_multipolarExpansionOrder := o_multipolarExpansionOrder toy_options;
     o_exportParaView := false; o_exportVisIt := false; o_exportFolder := "elsewhere" |}.
Definition closed_toy : model Q := toy_model Closed 2%Q.
Example C83_example :
  same_numbers toy_options quiet_options /\ Forall2 same_call [CallSetFolder "a"; CallPUL] [CallSetFolder "b"; CallPUL] /\
  (exists d d', built true toy_lib closed_toy toy_options d /\ built true toy_lib closed_toy quiet_options d') /\
  snd (mkDriver true toy_lib closed_toy quiet_options tt) = [] /\
  map (fun e => match e with EvParaView n _ => n | _ => "" end) (snd (mkDriver true toy_lib closed_toy toy_options tt)) =
  ["out//ParaView/Conductor_0"; "out//ParaView/Conductor_1";
   "out//ParaView/Conductor_0_no_dielectrics"; "out//ParaView/Conductor_1_no_dielectrics"]%string.
Proof.
  split; [now split|]. split; [repeat constructor|]. split; [|split; vm_compute; reflexivity].
  destruct (C02_conductors_0_to_n_are_accepted Q _ closed_toy [1; 0]%Z true toy_lib toy_options
              (toy_posed _ _ _) ltac:(repeat constructor) ltac:(discriminate) ltac:(apply perm_swap)) as (d & B & _).
  destruct (C02_conductors_0_to_n_are_accepted Q _ closed_toy [1; 0]%Z true toy_lib quiet_options
              (toy_posed _ _ _) ltac:(repeat constructor) ltac:(discriminate) ltac:(apply perm_swap)) as (d' & B' & _).
  now exists d, d'.
Qed.
