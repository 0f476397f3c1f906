(** Proofs about unsupported configurations, files written and export names (C08, C32, C53). *)
From Verif Require Import Prelude StdMap Json Materials Graph ModelM Parser Matrix Solver Domain Results Driver
  SpecInput SpecModel SpecSolver SpecDriver ListLemmas ModelProofs DriverProofs NamesProofs.
From Coq Require Import Permutation.
Open Scope string_scope. Open Scope list_scope.

Section Unsupported.
  Context {T : Type} `{Num T}.
  Variable dbg : bool.
  Variable femlib : mesh T -> Z -> fem T.
  Variable moment : T * T -> nat -> nat -> T * T -> T.

  Lemma single_closed_gc d p ignore : in_order (mo_mats (dr_model d)) [p] ->
    determineOpenness dbg (dr_model d) = Ok Closed ->
    exists msg, getGeneralizedCMatrix dbg femlib ignore d = ((Throw (RuntimeError msg), d), []).
  Proof.
    intros O Eo. unfold getGeneralizedCMatrix. rewrite cbind_get.
    rewrite (cbind_lift _ _ _ _ (in_order_conductors _ _ O)), (cbind_lift _ _ _ _ Eo). cbn. eexists; reflexivity.
  Qed.
  Lemma single_closed d p op : in_order (mo_mats (dr_model d)) [p] -> determineOpenness dbg (dr_model d) = Ok Closed ->
    (exists b, op = CallGeneralizedC b) \/ op = CallC \/ op = CallL \/ op = CallPUL \/ op = CallRun ->
    exists msg, call dbg femlib moment op d = ((Throw (RuntimeError msg), d), []).
  Proof.
    intros O Eo Hop. 
    destruct (single_closed_gc d p false O Eo) as (m1 & E1). destruct (single_closed_gc d p true O Eo) as (m2 & E2).
    assert (EC : getCMatrix dbg femlib d = ((Throw (RuntimeError m1), d), [])).
    { unfold getCMatrix. now rewrite (cbind_throw _ _ _ _ _ _ E1). }
    assert (EL : getLMatrix dbg femlib d = ((Throw (RuntimeError m2), d), [])).
    { unfold getLMatrix. now rewrite (cbind_throw _ _ _ _ _ _ E2). }
    assert (EP : getPULMTL dbg femlib d = ((Throw (RuntimeError m1), d), [])).
    { unfold getPULMTL, buildPULParametersForModel. now rewrite (cbind_throw _ _ _ _ _ _ EC). }
    destruct Hop as [(b & ->)|[->|[->|[->| ->]]]]; cbn [call].
    - destruct (single_closed_gc d p b O Eo) as (m3 & E3). exists m3. now rewrite (cbind_throw _ _ _ _ _ _ E3).
    - exists m1. now rewrite (cbind_throw _ _ _ _ _ _ EC).
    - exists m2. now rewrite (cbind_throw _ _ _ _ _ _ EL).
    - exists m1. now rewrite (cbind_throw _ _ _ _ _ _ EP).
    - exists m1. assert (ER : run dbg femlib moment d = ((Throw (RuntimeError m1), d), [])).
      { unfold run. rewrite cbind_get, (cbind_lift _ _ _ _ Eo). unfold getPULMTL in EP.
        now rewrite (cbind_throw _ _ _ _ _ _ EP). }
      now rewrite (cbind_throw _ _ _ _ _ _ ER).
  Qed.
  Lemma incell_not_open d op : determineOpenness dbg (dr_model d) = Ok op -> op <> Open ->
    exists msg, call dbg femlib moment CallInCell d = ((Throw (RuntimeError msg), d), []).
  Proof.
    intros Eo N. cbn [call]. eexists. apply cbind_throw. unfold getInCellPotentials.
    rewrite cbind_get, (cbind_lift _ _ _ _ Eo). destruct op; [congruence| |]; reflexivity.
  Qed.
  Lemma pec_count (m : materials T) : NoDup (map p_name (pecs m)) ->
    List.length (nameToAttr_PEC m) = List.length (pecs m).
  Proof.
    intros ND. unfold nameToAttr_PEC.
    assert (ND' : NoDup (map fst (map (fun p : pec T => (p_name p, p_attr p)) (pecs m)))) by (rewrite map_map; exact ND).
    rewrite (Permutation_length (mset_all_permutation _ ND')). apply map_length.
  Qed.
  Lemma floating_semiopen d : NoDup (map p_name (pecs (mo_mats (dr_model d)))) ->
    (2 <= List.length (pecs (mo_mats (dr_model d))))%nat ->
    determineOpenness dbg (dr_model d) = Ok SemiOpen ->
    exists msg, call dbg femlib moment CallFloating d = ((Throw (RuntimeError msg), d), []).
  Proof.
    intros ND L Eo. cbn [call]. eexists. apply cbind_throw. unfold getFloatingPotentials. apply cbind_throw.
    unfold getFloatingPotentialsMatrix. rewrite cbind_get, (pec_count _ ND).
    destruct (Nat.eqb_spec (List.length (pecs (mo_mats (dr_model d)))) 1); [lia|].
    rewrite (cbind_lift _ _ _ _ Eo). reflexivity.
  Qed.
  Lemma run_semiopen d : determineOpenness dbg (dr_model d) = Ok SemiOpen ->
    exists msg, call dbg femlib moment CallRun d = ((Throw (RuntimeError msg), d), []).
  Proof.
    intros Eo. cbn [call]. eexists. apply cbind_throw. unfold run. rewrite cbind_get, (cbind_lift _ _ _ _ Eo). reflexivity.
  Qed.

  (** ** C08: only run writes result files *)
  Definition quiet {S A} (m : cmd T S A) : Prop := forall s, Forall (fun e => is_result e = false) (snd (m s)).
  Lemma q_ret {S A} (a : A) : quiet (S := S) (cret a). Proof. intros s. constructor. Qed.
  Lemma q_lift {S A} (x : outcome A) : quiet (S := S) (clift x). Proof. intros s. constructor. Qed.
  Lemma q_get {S} : quiet (S := S) cget. Proof. intros s. constructor. Qed.
  Lemma q_put {S} (x : S) : quiet (cput x). Proof. intros s. constructor. Qed.
  Lemma q_export {S} o s0 n i : quiet (S := S) (cemit (exportFieldSolutions o s0 n i)).
  Proof. intros s. cbn. unfold exportFieldSolutions. destruct (o_exportParaView o), (o_exportVisIt o); repeat constructor. Qed.
  Lemma q_bind {S A B} (m : cmd T S A) (f : A -> cmd T S B) : quiet m -> (forall a, quiet (f a)) -> quiet (cbind m f).
  Proof.
    intros Qm Qf s. unfold cbind. specialize (Qm s). destruct (m s) as [[r s1] w]. cbn in Qm.
    destruct r as [a|e|u]; cbn; auto. specialize (Qf a s1). destruct (f a s1) as [[r2 s2] w2]. cbn in *.
    now apply Forall_app.
  Qed.
  Lemma q_fold {S A B} (f : B -> A -> cmd T S B) l b : (forall b x, quiet (f b x)) -> quiet (cfold f l b).
  Proof. intros Qf; revert b; induction l as [|x l IH]; intros b; cbn; [apply q_ret|]. apply q_bind; auto. Qed.
  Ltac quiet_tac :=
    repeat first [apply q_ret | apply q_lift | apply q_get | apply q_put | apply q_export
                 | apply q_bind; [|intros ?] | apply q_fold; intros ? ?].
  Lemma q_gc ignore : quiet (getGeneralizedCMatrix dbg femlib ignore).
  Proof.
    unfold getGeneralizedCMatrix. apply q_bind; [apply q_get|intros d]. do 2 (apply q_bind; [apply q_lift|intros ?]).
    destruct (_ && _)%bool; [apply q_lift|]. apply q_bind; [|intros; apply q_ret]. apply q_fold. intros. unfold row_step. quiet_tac.
  Qed.
  Lemma q_pul : quiet (getPULMTL dbg femlib).
  Proof.
    unfold getPULMTL, buildPULParametersForModel, getCMatrix, getLMatrix. repeat first [apply q_gc | apply q_lift | apply q_ret | apply q_get | apply q_bind; [|intros ?]].
  Qed.
  Lemma q_fpm ignore : quiet (getFloatingPotentialsMatrix dbg femlib ignore).
  Proof.
    unfold getFloatingPotentialsMatrix. apply q_bind; [apply q_get|intros d]. destruct (_ =? 1)%nat; [apply q_ret|].
    apply q_bind; [apply q_lift|intros o]. apply q_bind; [|intros; apply q_lift].
    destruct o; [apply q_gc|apply q_lift|]. apply q_bind; [apply q_gc|intros; apply q_ret].
  Qed.
  Lemma q_fieldparams ignore : quiet (getFieldParameters dbg femlib moment ignore).
  Proof.
    unfold getFieldParameters. apply q_bind; [apply q_fpm|intros fp]. quiet_tac.
  Qed.
  Lemma q_incell : quiet (getInCellPotentials dbg femlib moment).
  Proof.
    unfold getInCellPotentials. apply q_bind; [apply q_get|intros d]. apply q_bind; [apply q_lift|intros o].
    destruct (negb _); [apply q_lift|]. apply q_bind; [apply q_lift|intros b].
    apply q_bind; [apply q_fieldparams|intros]. apply q_bind; [apply q_fieldparams|intros]. apply q_ret.
  Qed.
  Lemma q_mkDriver m o : quiet (mkDriver dbg femlib m o).
  Proof.
    unfold mkDriver, solveForAllConductors. quiet_tac.
  Qed.
  Lemma q_bydomains : quiet (getPULMTLByDomains dbg femlib).
  Proof.
    unfold getPULMTLByDomains. quiet_tac. intros s. 
    assert (Q : quiet (sub_pul dbg femlib (dr_model a) (dr_opts a) (snd x))).
    { unfold sub_pul. apply q_bind; [apply q_lift|intros]. apply q_bind; [apply q_mkDriver|intros sd].
      intros u. pose proof (q_pul sd) as Q. destruct (getPULMTL dbg femlib sd) as [[r d'] w]. exact Q. }
    specialize (Q tt). destruct (sub_pul dbg femlib (dr_model a) (dr_opts a) (snd x) tt) as [[r u] w]. exact Q.
  Qed.
  Lemma quiet_filter w : Forall (fun e : event T => is_result e = false) w -> filter is_result w = [].
  Proof. induction 1 as [|e w E F IH]; [reflexivity|]. cbn. now rewrite E. Qed.
  Lemma other_calls_write_nothing op d : op <> CallRun -> filter is_result (snd (reply dbg femlib moment op d)) = [].
  Proof.
    intros N. assert (Q : quiet (call dbg femlib moment op)).
    { destruct op; cbn [call]; try congruence; apply q_bind; try (intros; apply q_ret).
      - apply q_gc.
      - unfold getCMatrix. apply q_bind; [apply q_gc|intros]. quiet_tac.
      - unfold getLMatrix. apply q_bind; [apply q_gc|intros]. quiet_tac.
      - apply q_pul.
      - unfold getFloatingPotentials. apply q_bind; [apply q_fpm|intros]. apply q_bind; [apply q_fpm|intros; apply q_ret].
      - apply q_incell.
      - apply q_bydomains.
      - unfold setExportFolder. quiet_tac. }
    apply quiet_filter. specialize (Q d). unfold reply. destruct (call dbg femlib moment op d) as [[r d'] w]. exact Q.
  Qed.
  Lemma run_writes d r w o : reply dbg femlib moment CallRun d = (r, w) -> determineOpenness dbg (dr_model d) = Ok o ->
    match o with
    | Closed => (exists p w', reply dbg femlib moment CallPUL d = (Ok (VPul p), w') /\ r = Ok VUnit /\
                   filter is_result w = [EvJson (o_exportFolder (dr_opts d) ++ "pulmtln.out.json")%string (pulToJSON p)]) \/
                (r <> Ok VUnit /\ filter is_result w = [])
    | Open => (exists p w', reply dbg femlib moment CallInCell d = (Ok (VInCell p), w') /\ r = Ok VUnit /\
                   filter is_result w = [EvJson (o_exportFolder (dr_opts d) ++ "inCellPotentials.out.json")%string (incellToJSON p)]) \/
              (r <> Ok VUnit /\ filter is_result w = [])
    | SemiOpen => is_throw r /\ w = []
    end.
  Proof.
    intros E Eo. unfold reply in E. cbn [call] in E. unfold cbind at 1 in E.
    unfold run in E. rewrite cbind_get, (cbind_lift _ _ _ _ Eo) in E. destruct o.
    - unfold reply. cbn [call]. unfold cbind at 1. unfold cbind in E at 1.
      pose proof (q_incell d) as Q. destruct (getInCellPotentials dbg femlib moment d) as [[r1 d1] w1]. cbn in Q.
      apply quiet_filter in Q. destruct r1 as [p|e|u]; cbn in E; injection E as <- <-.
      + left. exists p, (w1 ++ []). split; [reflexivity|split; [reflexivity|]]. rewrite !filter_app, Q. reflexivity.
      + right. split; [discriminate|exact Q].
      + right. split; [discriminate|exact Q].
    - cbn in E. injection E as <- <-. split; [eexists; reflexivity|reflexivity].
    - unfold reply. cbn [call]. unfold cbind at 1. unfold cbind in E at 1.
      pose proof (q_pul d) as Q. unfold getPULMTL in *. destruct (buildPULParametersForModel dbg femlib d) as [[r1 d1] w1]. cbn in Q.
      apply quiet_filter in Q. destruct r1 as [p|e|u]; cbn in E; injection E as <- <-.
      + left. exists p, (w1 ++ []). split; [reflexivity|split; [reflexivity|]]. rewrite !filter_app, Q. reflexivity.
      + right. split; [discriminate|exact Q].
      + right. split; [discriminate|exact Q].
  Qed.
End Unsupported.

(** ** C53 *)
Lemma string_app_assoc (a b c : string) : ((a ++ b) ++ c = a ++ (b ++ c))%string.
Proof. induction a as [|x a IH]; [reflexivity|]. cbn. now rewrite IH. Qed.
Lemma string_app_inj_l (a b c : string) : (a ++ b = a ++ c)%string -> b = c.
Proof. induction a as [|x a IH]; cbn; [auto|]. intros [= E]. auto. Qed.
Lemma after_underscore_app' p r s : after_underscore p = Some r -> after_underscore (p ++ s)%string = Some (r ++ s)%string.
Proof.
  revert r; induction p as [|c p IH]; intros r; cbn; [discriminate|].
  destruct (Ascii.eqb c "_"); [|apply IH]. now intros [= ->].
Qed.
Lemma read_digits_app acc x s : starts_with_digit s = false -> read_digits acc (x ++ s)%string = read_digits acc x.
Proof.
  intros Hs; revert acc; induction x as [|c x IH]; intros acc; cbn; [now apply read_digits_rest|].
  destruct (is_digit c); auto.
Qed.
Lemma skip_ws_app x s : skip_ws x <> EmptyString -> skip_ws (x ++ s)%string = (skip_ws x ++ s)%string.
Proof. induction x as [|c x IH]; cbn; [congruence|]. destruct (is_space c); auto. Qed.
Lemma stream_int_app x s z : starts_with_digit s = false -> stream_int x = Some z -> stream_int (x ++ s)%string = Some z.
Proof.
  intros Hs E. unfold stream_int in *. destruct (skip_ws x) as [|c r] eqn:Ex; [discriminate|].
  rewrite skip_ws_app by congruence. rewrite Ex. change ((String c r ++ s)%string) with (String c (r ++ s)%string). cbn iota beta.
  destruct (Ascii.eqb c "-"); [now rewrite read_digits_app|].
  destruct (Ascii.eqb c "+"); [now rewrite read_digits_app|].
  change (String c (r ++ s)%string) with (String c r ++ s)%string. now rewrite read_digits_app.
Qed.
Lemma id_of_suffixed name s r z : after_underscore name = Some r -> starts_with_digit s = false ->
  getMaterialIdFromName name = Ok z -> getMaterialIdFromName (name ++ s)%string = Ok z.
Proof.
  intros Eu Hs E. unfold getMaterialIdFromName, id_suffix in *. rewrite (after_underscore_app' _ _ _ Eu). rewrite Eu in E.
  destruct (stream_int r) as [y|] eqn:Er; [|discriminate]. injection E as ->. now rewrite (stream_int_app _ _ _ Hs Er).
Qed.
Lemma export_suffix fl ig : starts_with_digit
  ((if fl : bool then "_prescribed_and_others_floating" else "") ++ (if ig : bool then "_no_dielectrics" else ""))%string = false.
Proof. destruct fl, ig; reflexivity. Qed.
Lemma export_paths_differ {T} (mats : materials T) conds folder x y :
  in_order mats conds -> (forall p, In p conds -> after_underscore (p_name p) <> None) ->
  In (x_conductor x) (map p_name conds) -> In (x_conductor y) (map p_name conds) ->
  export_path folder x = export_path folder y -> x = y.
Proof.
  intros O U Ix Iy E. unfold export_path, export_name in E. apply string_app_inj_l in E.
  cbn in E. injection E as E.
  destruct x as [vx cx fx ix], y as [vy cy fy iy]. cbn [x_visit x_conductor x_floating x_ignore] in *.
  assert (V : vx = vy) by (destruct vx, vy; auto; discriminate). subst vy.
  assert (E2 : ((cx ++ ((if fx then "_prescribed_and_others_floating" else "") ++ (if ix then "_no_dielectrics" else ""))) =
                (cy ++ ((if fy then "_prescribed_and_others_floating" else "") ++ (if iy then "_no_dielectrics" else ""))))%string).
  { rewrite <- !string_app_assoc. destruct vx; cbn in E; injection E as E; exact E. }
  clear E. apply in_map_iff in Ix as (p & <- & Ip), Iy as (q & <- & Iq).
  apply In_nth_error in Ip as [i Ei]. apply In_nth_error in Iq as [j Ej].
  pose proof (proj2 O _ _ Ei) as Gi. pose proof (proj2 O _ _ Ej) as Gj.
  destruct (after_underscore (p_name p)) as [rp|] eqn:Up; [|exfalso; apply (U p); [eapply nth_error_In; eauto|exact Up]].
  destruct (after_underscore (p_name q)) as [rq|] eqn:Uq; [|exfalso; apply (U q); [eapply nth_error_In; eauto|exact Uq]].
  apply (id_of_suffixed _ _ _ _ Up (export_suffix fx ix)) in Gi.
  apply (id_of_suffixed _ _ _ _ Uq (export_suffix fy iy)) in Gj.
  rewrite E2 in Gi. assert (i = j) by (rewrite Gi in Gj; injection Gj; lia). subst j.
  assert (p = q) by congruence. subst q. apply string_app_inj_l in E2.
  destruct fx, fy, ix, iy; try reflexivity; discriminate.
Qed.
