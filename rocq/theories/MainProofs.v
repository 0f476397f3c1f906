(** Proofs about the command line program and the files it writes (C08, C53, C65, C66). *)
From Verif Require Import Prelude StdMap Json Materials Graph ModelM Parser Matrix Solver Domain Results Driver Main
  SpecInput SpecModel SpecSolver SpecDriver SpecMain ListLemmas ModelProofs DriverProofs NamesProofs OptionsProofs RunProofs.
Open Scope list_scope.

Section Exports.
  Context {T : Type} `{Num T}.
  Variable dbg : bool.
  Variable femlib : mesh T -> Z -> fem T.
  Variable moment : T * T -> nat -> nat -> T * T -> T.

  (** Commands that keep model and options and only export fields of these conductors. *)
  Section Keep.
    Variable m : model T.
    Variable o : driver_options.
    Let names := map p_name (pecs (mo_mats m)).
    Definition own (e : event T) : Prop := is_result e = true \/ field_export (o_exportFolder o) names e.
    Definition same (d : driver T) : Prop := dr_model d = m /\ dr_opts d = o.
    Definition keeps {A} (c : cmd T (driver T) A) : Prop :=
      forall d, same d -> let '((_, d'), w) := c d in same d' /\ Forall own w.
    Lemma k_ret {A} (a : A) : keeps (cret a). Proof. intros d S. cbn. auto. Qed.
    Lemma k_lift {A} (x : outcome A) : keeps (clift x). Proof. intros d S. cbn. auto. Qed.
    Lemma k_bind {A B} (c : cmd T (driver T) A) (f : A -> cmd T (driver T) B) :
      keeps c -> (forall a, keeps (f a)) -> keeps (cbind c f).
    Proof.
      intros K F d S. unfold cbind. specialize (K d S). destruct (c d) as [[r d1] w1]. destruct K as [S1 W1].
      destruct r as [a|e|u]; auto. specialize (F a d1 S1). destruct (f a d1) as [[r2 d2] w2]. destruct F as [S2 W2].
      split; [auto|]. now apply Forall_app.
    Qed.
    Lemma k_get {B} (f : driver T -> cmd T (driver T) B) : (forall d, same d -> keeps (f d)) -> keeps (cbind cget f).
    Proof.
      intros F d S. unfold cbind, cget. specialize (F d S d S). destruct (f d d) as [[r d1] w1]. exact F.
    Qed.
    Lemma k_get_ret : keeps cget. Proof. intros d S. cbn. auto. Qed.
    Lemma k_put d : same d -> keeps (cput d). Proof. intros S d' _. cbn. auto. Qed.
    Lemma k_fold {A B} (f : B -> A -> cmd T (driver T) B) l b : (forall b x, keeps (f b x)) -> keeps (cfold f l b).
    Proof. intros F; revert b; induction l as [|x l IH]; intros b; cbn; [apply k_ret|]. apply k_bind; auto. Qed.
    Lemma k_lift_bind {A B} (x : outcome A) (f : A -> cmd T (driver T) B) : (forall a, x = Ok a -> keeps (f a)) -> keeps (cbind (clift x) f).
    Proof.
      intros F d S. unfold cbind, clift. destruct x as [a|e|u]; [|cbn; auto|cbn; auto].
      specialize (F a eq_refl d S). destruct (f a d) as [[r d1] w1]. exact F.
    Qed.
    Lemma pec_by_id_in (mats : materials T) i p : get_PEC_by_id mats i = Ok p -> In p (pecs mats).
    Proof.
      unfold get_PEC_by_id. generalize (pecs mats) as l. induction l as [|q l IH]; cbn; [discriminate|].
      destruct (getMaterialIdFromName (p_name q)) as [z|e|u]; cbn; try discriminate.
      destruct (z =? i)%Z; [intros E; injection E as <-; now left|]. intros E. right. now apply IH.
    Qed.
    Lemma k_export (s : solver T) (p : pec T) fl ignore : In p (pecs (mo_mats m)) ->
      keeps (cemit (exportFieldSolutions o s (p_name p ++ (if fl : bool then "_prescribed_and_others_floating" else "")) ignore)).
    Proof.
      intros I d S. cbn. split; [exact S|]. unfold exportFieldSolutions.
      assert (N : In (p_name p) names) by now apply in_map.
      apply Forall_app. split; [destruct (o_exportParaView o)|destruct (o_exportVisIt o)]; constructor; auto; right.
      - exists {| x_visit := false; x_conductor := p_name p; x_floating := fl; x_ignore := ignore |}. eexists. split; [exact N|reflexivity].
      - exists {| x_visit := true; x_conductor := p_name p; x_floating := fl; x_ignore := ignore |}. eexists. split; [exact N|reflexivity].
    Qed.
    Lemma k_export' (sl : solver T) (p : pec T) ignore : In p (pecs (mo_mats m)) -> keeps (cemit (exportFieldSolutions o sl (p_name p) ignore)).
    Proof.
      intros I. pose proof (k_export sl p false ignore I) as K. cbn in K.
      assert (App : forall s : string, (s ++ "")%string = s) by (induction s; cbn; congruence). now rewrite App in K.
    Qed.
    Lemma k_set d ignore s : same d -> same (set_solver d ignore s). Proof. intros [E1 E2]. split; assumption. Qed.
    Lemma k_gc ignore : keeps (getGeneralizedCMatrix dbg femlib ignore).
    Proof.
      unfold getGeneralizedCMatrix. apply k_get. intros d [Em Eo]. do 2 (apply k_bind; [apply k_lift|intros ?]).
      destruct (_ && _)%bool; [apply k_lift|]. apply k_bind; [|intros; apply k_ret]. apply k_fold. intros b x. unfold row_step.
      apply k_get. intros d' S'. do 2 (apply k_bind; [apply k_lift|intros ?]).
      apply k_bind; [apply k_put; now apply k_set|intros _].
      apply k_bind; [apply k_lift|intros C']. apply k_lift_bind. intros p Ep. destruct S' as [Em' Eo']. rewrite Em' in Ep.
      apply k_bind; [rewrite Eo'; apply k_export'; eapply pec_by_id_in; exact Ep|intros; apply k_ret].
    Qed.
    Lemma k_c : keeps (getCMatrix dbg femlib).
    Proof.
      unfold getCMatrix. apply k_bind; [apply k_gc|intros]. apply k_get. intros. apply k_bind; [apply k_lift|intros]. apply k_ret.
    Qed.
    Lemma k_l : keeps (getLMatrix dbg femlib).
    Proof.
      unfold getLMatrix. apply k_bind; [apply k_gc|intros]. apply k_get. intros. apply k_bind; [apply k_lift|intros]. apply k_lift.
    Qed.
    Lemma k_pul : keeps (getPULMTL dbg femlib).
    Proof.
      unfold getPULMTL, buildPULParametersForModel. apply k_bind; [apply k_c|intros]. apply k_bind; [apply k_l|intros]. apply k_ret.
    Qed.
    Lemma k_fpm ignore : keeps (getFloatingPotentialsMatrix dbg femlib ignore).
    Proof.
      unfold getFloatingPotentialsMatrix. apply k_get. intros d S. destruct (_ =? 1)%nat; [apply k_ret|].
      apply k_bind; [apply k_lift|intros op]. apply k_bind; [|intros; apply k_lift].
      destruct op; [apply k_gc|apply k_lift|]. apply k_bind; [apply k_gc|intros; apply k_ret].
    Qed.
    Lemma k_fp : keeps (getFloatingPotentials dbg femlib).
    Proof.
      unfold getFloatingPotentials. apply k_bind; [apply k_fpm|intros]. apply k_bind; [apply k_fpm|intros]. apply k_ret.
    Qed.
    Lemma k_fieldparams ignore : keeps (getFieldParameters dbg femlib moment ignore).
    Proof.
      unfold getFieldParameters. apply k_bind; [apply k_fpm|intros fp]. apply k_get. intros d S.
      apply k_bind; [apply k_lift|intros conds]. apply k_fold. intros b x. unfold field_step.
      apply k_get. intros d' S'. apply k_bind; [apply k_lift|intros s]. apply k_bind; [apply k_put; now apply k_set|intros _].
      apply k_lift_bind. intros p Ep. destruct S' as [Em' Eo']. rewrite Em' in Ep.
      apply k_bind; [rewrite Eo'; apply (k_export s p true); eapply pec_by_id_in; exact Ep|intros _].
      do 4 (apply k_bind; [apply k_lift|intros ?]). apply k_ret.
    Qed.
    Lemma k_incell : keeps (getInCellPotentials dbg femlib moment).
    Proof.
      unfold getInCellPotentials. apply k_get. intros d S. apply k_bind; [apply k_lift|intros op].
      destruct (negb _); [apply k_lift|]. apply k_bind; [apply k_lift|intros b].
      apply k_bind; [apply k_fieldparams|intros]. apply k_bind; [apply k_fieldparams|intros]. apply k_ret.
    Qed.
    Lemma k_json path j : keeps (cemit [EvJson path j]).
    Proof. intros d S. cbn. split; [exact S|]. constructor; [now left|constructor]. Qed.
    Lemma k_run : keeps (run dbg femlib moment).
    Proof.
      unfold run. apply k_get. intros d S. apply k_bind; [apply k_lift|intros op]. destruct op.
      - apply k_bind; [apply k_incell|intros; apply k_json].
      - apply k_lift.
      - apply k_bind; [apply k_pul|intros; apply k_json].
    Qed.
    Lemma k_call op : op <> CallByDomains -> (forall f, op <> CallSetFolder f) -> keeps (call dbg femlib moment op).
    Proof.
      intros N1 N2. destruct op; cbn [call]; try congruence; apply k_bind; try (intros; apply k_ret).
      - apply k_gc. - apply k_c. - apply k_l. - apply k_pul. - apply k_fp. - apply k_incell. - apply k_run.
    Qed.
  End Keep.

  Lemma call_exports op (d : driver T) : op <> CallByDomains ->
    Forall (fun e => is_result e = true \/ field_export (o_exportFolder (dr_opts d)) (map p_name (pecs (mo_mats (dr_model d)))) e)
           (snd (reply dbg femlib moment op d)).
  Proof.
    intros Nd. destruct (match op with CallSetFolder _ => true | _ => false end) eqn:Es.
    { destruct op; try discriminate Es. cbn. constructor. }
    pose proof (k_call (dr_model d) (dr_opts d) op Nd ltac:(intros f ->; discriminate Es) d (conj eq_refl eq_refl)) as K.
    unfold reply. destruct (call dbg femlib moment op d) as [[r d'] w]. exact (proj2 K).
  Qed.
  (** Construction *)
  Definition ukeeps {A} (m : model T) (o : driver_options) (c : cmd T unit A) : Prop := Forall (own m o) (snd (c tt)).
  Lemma u_bind {A B} m o (c : cmd T unit A) (f : A -> cmd T unit B) : ukeeps m o c -> (forall a, ukeeps m o (f a)) -> ukeeps m o (cbind c f).
  Proof.
    intros K F. unfold ukeeps, cbind in *. destruct (c tt) as [[r []] w1]. destruct r as [a|e|u]; auto.
    specialize (F a). destruct (f a tt) as [[r2 d2] w2]. cbn in *. now apply Forall_app.
  Qed.
  Lemma u_lift_bind {A B} m o (x : outcome A) (f : A -> cmd T unit B) : (forall a, x = Ok a -> ukeeps m o (f a)) -> ukeeps m o (cbind (clift x) f).
  Proof.
    intros F. unfold ukeeps, cbind, clift. destruct x as [a|e|u]; try constructor.
    specialize (F a eq_refl). unfold ukeeps in F. destruct (f a tt) as [[r d1] w1]. exact F.
  Qed.
  Lemma u_ret {A} m o (a : A) : ukeeps m o (cret a). Proof. constructor. Qed.
  Lemma u_fold {A B} m o (f : B -> A -> cmd T unit B) l b : (forall b x, ukeeps m o (f b x)) -> ukeeps m o (cfold f l b).
  Proof. intros F; revert b; induction l as [|x l IH]; intros b; cbn; [apply u_ret|]. apply u_bind; auto. Qed.
  Lemma u_all m o ignore : ukeeps m o (solveForAllConductors dbg femlib m o ignore).
  Proof.
    unfold solveForAllConductors. do 3 (apply u_lift_bind; intros ? _). apply u_fold. intros b x. unfold solve_step.
    apply u_lift_bind; intros s2 _. apply u_lift_bind; intros p Ep. apply u_bind.
    - pose proof (k_export' m o s2 p ignore (pec_by_id_in _ _ _ Ep)) as K. unfold ukeeps. cbn [cemit snd].
      assert (W : forall d : driver T, same m o d -> Forall (own m o) (exportFieldSolutions o s2 (p_name p) ignore)).
      { intros d S. specialize (K d S). cbn in K. tauto. }
      apply (W {| dr_model := m; dr_opts := o; dr_el := b; dr_mag := b |}). split; reflexivity.
    - intros _. apply u_lift_bind; intros sols _. apply u_ret.
  Qed.
  Lemma mkDriver_exports m o : Forall (own m o) (snd (mkDriver dbg femlib m o tt)).
  Proof.
    change (ukeeps m o (mkDriver dbg femlib m o)). unfold mkDriver. apply u_lift_bind; intros ? _.
    do 2 (apply u_bind; [apply u_all|intros ?]). apply u_ret.
  Qed.
  Lemma mkDriver_keeps m o d w : mkDriver dbg femlib m o tt = ((Ok d, tt), w) -> dr_model d = m /\ dr_opts d = o.
  Proof.
    unfold mkDriver. unfold cbind at 1, clift. destruct (checkConductors m); try discriminate.
    unfold cbind. destruct (solveForAllConductors dbg femlib m o false tt) as [[[e|e|e] []] w1]; try discriminate.
    destruct (solveForAllConductors dbg femlib m o true tt) as [[[g|g|g] []] w2]; try discriminate.
    cbn. intros E. injection E as <- _. split; reflexivity.
  Qed.

  (** ** The program *)
  Variable fs : string -> option (option (jtext T)).
  Variable load_mesh : string -> outcome (mesh T).
  Notation prog := (program dbg femlib moment fs load_mesh).

  Lemma prefix_app p s : prefix p (p ++ s)%string = true.
  Proof. induction p as [|c p IH]; cbn; [destruct s; reflexivity|]. destruct (ascii_dec c c); [exact IH|congruence]. Qed.
  Lemma substring_all s n : n = String.length s -> substring 0 n s = s.
  Proof. intros ->. induction s as [|c s IH]; cbn; [reflexivity|]. now rewrite IH. Qed.
  Lemma read_long fn : fn <> ""%string -> read_argument ("--input=" ++ fn) = ArgInput (Some fn).
  Proof.
    intros Ne. unfold read_argument. cbn [String.append]. cbn [String.eqb Ascii.eqb Bool.eqb orb]. rewrite (prefix_app "--input=" fn : prefix _ (String _ _) = true).
    cbn [String.length Nat.sub substring]. replace (String.length fn - 0) with (String.length fn) by lia. rewrite substring_all by reflexivity.
    unfold value_given. destruct (String.eqb_spec fn ""); [contradiction|]. reflexivity.
  Qed.
  Lemma read_short fn : fn <> ""%string -> read_argument ("-i" ++ fn) = ArgInput (Some fn).
  Proof.
    intros Ne. unfold read_argument. cbn [String.append]. destruct fn as [|c r]; [contradiction|].
    cbn [String.eqb Ascii.eqb Bool.eqb orb prefix ascii_dec].
    cbn. destruct (substring 0 _ r) eqn:E; rewrite ?E; f_equal; f_equal; f_equal; rewrite <- (substring_all r _ eq_refl) at 1; now rewrite E || auto.
  Qed.
  Lemma parse_asks_then args fn rest c : asks_for args fn ->
    parse_command_line (args ++ rest) c = match set_input c fn with Some c' => parse_command_line rest c' | None => None end.
  Proof.
    intros (Ne & [[[-> | ->] P]|[-> | ->]]); cbn [app parse_command_line].
    - change (read_argument "-i") with (ArgInput None). cbn iota. rewrite P. destruct (String.eqb_spec fn ""); [contradiction|]. reflexivity.
    - change (read_argument "--input") with (ArgInput None). cbn iota. rewrite P. destruct (String.eqb_spec fn ""); [contradiction|]. reflexivity.
    - now rewrite (read_long fn Ne).
    - now rewrite (read_short fn Ne).
  Qed.
  Lemma parse_asks args fn : asks_for args fn -> parse_command_line args no_options = Some {| c_help := false; c_input := Some fn |}.
  Proof. intros A. rewrite <- (app_nil_r args), (parse_asks_then args fn [] _ A). reflexivity. Qed.
  Lemma asked_twice args args' fn fn' : asks_for args fn -> asks_for args' fn' -> parse_command_line (args ++ args') no_options = None.
  Proof. intros A A'. rewrite (parse_asks_then args fn args' _ A). cbn [set_input no_options c_input]. rewrite <- (app_nil_r args'), (parse_asks_then args' fn' [] _ A'). reflexivity. Qed.
  Lemma prefix_split p s : prefix p s = true -> exists r, s = (p ++ r)%string.
  Proof.
    revert s. induction p as [|c p IH]; intros s; [now exists s|]. destruct s as [|d s]; [discriminate|]. cbn. destruct (ascii_dec c d) as [<-|]; [|discriminate].
    intros E. destruct (IH s E) as (r & ->). now exists r.
  Qed.
  Lemma unknown_argument a : ~ In a ["--help"; "-h"; "--input"; "-i"]%string ->
    (forall f, f <> ""%string -> a <> ("--input=" ++ f)%string /\ a <> ("-i" ++ f)%string) -> read_argument a = ArgOther.
  Proof.
    intros Nk Nf. unfold read_argument.
    destruct (String.eqb_spec a "--help") as [->|]; [exfalso; apply Nk; cbn; auto|]. destruct (String.eqb_spec a "-h") as [->|]; [exfalso; apply Nk; cbn; auto|].
    destruct (String.eqb_spec a "--input") as [->|]; [exfalso; apply Nk; cbn; auto|]. destruct (String.eqb_spec a "-i") as [->|N]; [exfalso; apply Nk; cbn; auto|].
    cbn [orb]. destruct (prefix "--input=" a) eqn:P.
    - apply prefix_split in P as (r & ->). cbn [String.append String.length Nat.sub substring].
      replace (String.length r - 0) with (String.length r) by lia. rewrite substring_all by reflexivity.
      unfold value_given. destruct (String.eqb_spec r "") as [_|Nr]; [reflexivity|]. exfalso. now apply (proj1 (Nf r Nr)).
    - destruct (prefix "-i" a) eqn:Q; [|reflexivity]. apply prefix_split in Q as (r & ->). exfalso.
      destruct r as [|c r]; [now apply N|]. now apply (proj2 (Nf (String c r) ltac:(discriminate))).
  Qed.
  Lemma launched args fn : asks_for args fn ->
    prog args = let '((r, _), w) := launch dbg femlib moment fs load_mesh fn tt in
                (match r with Ok _ => Exit0 | Throw e => Uncaught e | Undef u => Undefined u end, w).
  Proof. intros A. unfold program. rewrite (parse_asks _ _ A). reflexivity. Qed.

  (** The export folder only decides where files are written. *)
  Definition blind {A} (c : cmd T (driver T) A) : Prop :=
    forall d f, fst (c (in_folder d f)) = (fst (fst (c d)), in_folder (snd (fst (c d))) f).
  Lemma b_ret {A} (a : A) : blind (cret a). Proof. intros d f. reflexivity. Qed.
  Lemma b_lift {A} (x : outcome A) : blind (clift x). Proof. intros d f. reflexivity. Qed.
  Lemma b_emit (w : driver T -> list (event T)) : blind (fun d => ((Ok tt, d), w d)). Proof. intros d f. reflexivity. Qed.
  Lemma b_bind {A B} (c : cmd T (driver T) A) (g : A -> cmd T (driver T) B) : blind c -> (forall a, blind (g a)) -> blind (cbind c g).
  Proof.
    intros K G d f. unfold cbind. specialize (K d f). destruct (c (in_folder d f)) as [[r1 d1] w1], (c d) as [[r2 d2] w2].
    cbn in K. injection K as -> ->. destruct r2 as [a|e|u]; cbn; auto. specialize (G a d2 f).
    destruct (g a (in_folder d2 f)) as [[r3 d3] w3], (g a d2) as [[r4 d4] w4]. cbn in *. exact G.
  Qed.
  (** binding of the current state, to a body that does not look at the folder but to emit *)
  Lemma b_get {B} (g : driver T -> cmd T (driver T) B) :
    (forall d f, fst (g (in_folder d f) (in_folder d f)) = (fst (fst (g d d)), in_folder (snd (fst (g d d))) f)) -> blind (cbind cget g).
  Proof.
    intros G d f. unfold cbind, cget. specialize (G d f).
    destruct (g (in_folder d f) (in_folder d f)) as [[r1 d1] w1], (g d d) as [[r2 d2] w2]. exact G.
  Qed.
  Lemma b_fold {A B} (g : B -> A -> cmd T (driver T) B) l b : (forall b x, blind (g b x)) -> blind (cfold g l b).
  Proof. intros F; revert b; induction l as [|x l IH]; intros b; cbn; [apply b_ret|]. apply b_bind; auto. Qed.
  Lemma step_lift {A B} (x : outcome A) (g g' : A -> cmd T (driver T) B) d f :
    (forall a, fst (g a (in_folder d f)) = (fst (fst (g' a d)), in_folder (snd (fst (g' a d))) f)) ->
    fst (cbind (clift x) g (in_folder d f)) = (fst (fst (cbind (clift x) g' d)), in_folder (snd (fst (cbind (clift x) g' d))) f).
  Proof.
    intros G. unfold cbind, clift. destruct x as [a|e|u]; try reflexivity. specialize (G a).
    destruct (g a (in_folder d f)) as [[r1 d1] w1], (g' a d) as [[r2 d2] w2]. exact G.
  Qed.
  Lemma step_put {B} d1 (g g' : unit -> cmd T (driver T) B) d f :
    fst (g tt (in_folder d1 f)) = (fst (fst (g' tt d1)), in_folder (snd (fst (g' tt d1))) f) ->
    fst (cbind (cput (in_folder d1 f)) g (in_folder d f)) = (fst (fst (cbind (cput d1) g' d)), in_folder (snd (fst (cbind (cput d1) g' d))) f).
  Proof.
    intros G. unfold cbind, cput. destruct (g tt (in_folder d1 f)) as [[r1 d2] w1], (g' tt d1) as [[r2 d3] w2]. exact G.
  Qed.
  Lemma step_emit {B} w w' (g g' : unit -> cmd T (driver T) B) d f :
    fst (g tt (in_folder d f)) = (fst (fst (g' tt d)), in_folder (snd (fst (g' tt d))) f) ->
    fst (cbind (cemit w) g (in_folder d f)) = (fst (fst (cbind (cemit w') g' d)), in_folder (snd (fst (cbind (cemit w') g' d))) f).
  Proof.
    intros G. unfold cbind, cemit. destruct (g tt (in_folder d f)) as [[r1 d2] w1], (g' tt d) as [[r2 d3] w2]. exact G.
  Qed.
  Lemma in_folder_set (d : driver T) f ignore s : set_solver (in_folder d f) ignore s = in_folder (set_solver d ignore s) f.
  Proof. reflexivity. Qed.
  Lemma b_gc ignore : blind (getGeneralizedCMatrix dbg femlib ignore).
  Proof.
    unfold getGeneralizedCMatrix. apply b_get. intros d f. cbn [in_folder dr_model].
    apply step_lift. intros conds. apply step_lift. intros op. destruct (_ && _)%bool; [reflexivity|].
    revert d f. change (blind (let! C := cfold (row_step dbg femlib ignore conds) conds (zero_matrix (List.length conds) (List.length conds)) in cret (symmetrize C))).
    apply b_bind; [|intros; apply b_ret]. apply b_fold. intros b x. unfold row_step. apply b_get. intros d f.
    replace (problem (in_folder d f) ignore) with (problem d ignore) by (destruct ignore; reflexivity).
    apply step_lift. intros y. apply step_lift. intros s. rewrite in_folder_set. apply step_put.
    apply step_lift. intros C'. apply step_lift. intros p. apply step_emit. reflexivity.
  Qed.
  Lemma b_c : blind (getCMatrix dbg femlib).
  Proof. unfold getCMatrix. apply b_bind; [apply b_gc|intros g]. apply b_get. intros d f. apply step_lift. reflexivity. Qed.
  Lemma b_l : blind (getLMatrix dbg femlib).
  Proof. unfold getLMatrix. apply b_bind; [apply b_gc|intros g]. apply b_get. intros d f. apply step_lift. reflexivity. Qed.
  Lemma b_pul : blind (getPULMTL dbg femlib).
  Proof. unfold getPULMTL, buildPULParametersForModel. apply b_bind; [apply b_c|intros]. apply b_bind; [apply b_l|intros]. apply b_ret. Qed.
  Lemma b_fpm ignore : blind (getFloatingPotentialsMatrix dbg femlib ignore).
  Proof.
    unfold getFloatingPotentialsMatrix. apply b_get. intros d f. cbn [in_folder dr_model]. destruct (_ =? 1)%nat; [reflexivity|].
    apply step_lift. intros op. revert d f.
    match goal with |- forall d f, fst (?c _) = _ => change (blind c) end.
    apply b_bind; [|intros; apply b_lift]. destruct op; [apply b_gc|apply b_lift|]. apply b_bind; [apply b_gc|intros; apply b_ret].
  Qed.
  Lemma b_fp : blind (getFloatingPotentials dbg femlib).
  Proof. unfold getFloatingPotentials. apply b_bind; [apply b_fpm|intros]. apply b_bind; [apply b_fpm|intros]. apply b_ret. Qed.
  Lemma b_fieldparams ignore : blind (getFieldParameters dbg femlib moment ignore).
  Proof.
    unfold getFieldParameters. apply b_bind; [apply b_fpm|intros fp]. apply b_get. intros d f. cbn [in_folder dr_model].
    apply step_lift. intros conds. revert d f.
    match goal with |- forall d f, fst (?c _) = _ => change (blind c) end.
    apply b_fold. intros b x. unfold field_step. apply b_get. intros d f.
    replace (problem (in_folder d f) ignore) with (problem d ignore) by (destruct ignore; reflexivity).
    apply step_lift. intros s. rewrite in_folder_set. apply step_put.
    apply step_lift. intros p. apply step_emit. do 4 (apply step_lift; intros ?). reflexivity.
  Qed.
  Lemma b_incell : blind (getInCellPotentials dbg femlib moment).
  Proof.
    unfold getInCellPotentials. apply b_get. intros d f. cbn [in_folder dr_model]. apply step_lift. intros op.
    destruct (negb _); [reflexivity|]. apply step_lift. intros b. revert d f.
    match goal with |- forall d f, fst (?c _) = _ => change (blind c) end.
    apply b_bind; [apply b_fieldparams|intros]. apply b_bind; [apply b_fieldparams|intros]. apply b_ret.
  Qed.
  Lemma folder_irrelevant d f op : op = CallPUL \/ op = CallInCell ->
    fst (reply dbg femlib moment op (in_folder d f)) = fst (reply dbg femlib moment op d).
  Proof.
    intros Eop. assert (K : blind (call dbg femlib moment op)).
    { destruct Eop as [-> | ->]; cbn [call]; (apply b_bind; [|intros; apply b_ret]); [apply b_pul|apply b_incell]. }
    specialize (K d f). unfold reply. destruct (call dbg femlib moment op (in_folder d f)) as [[r1 d1] w1].
    destruct (call dbg femlib moment op d) as [[r2 d2] w2]. cbn in *. now injection K as -> _.
  Qed.

  Lemma set_then {A} (c : cmd T (driver T) A) f d : (do! setExportFolder f; c) d = c (in_folder d f).
  Proof.
    unfold setExportFolder, cbind, cget, cput, in_folder.
    destruct (c {| dr_model := dr_model d; dr_opts := with_folder (dr_opts d) f; dr_el := dr_el d; dr_mag := dr_mag d |}) as [[r d1] w]. reflexivity.
  Qed.
  Lemma launch_shape fn r u w : launch dbg femlib moment fs load_mesh fn tt = ((r, u), w) ->
    (exists m o d w1 w2 r2, loadInput fs load_mesh fn = Ok (m, o) /\ mkDriver dbg femlib m o tt = ((Ok d, tt), w1) /\
       reply dbg femlib moment CallRun (in_folder d (input_directory fn)) = (r2, w2) /\ w = w1 ++ w2 /\
       (r = Ok tt <-> r2 = Ok VUnit)) \/
    (exists m o, loadInput fs load_mesh fn = Ok (m, o) /\ w = snd (mkDriver dbg femlib m o tt) /\ r <> Ok tt) \/
    (w = [] /\ r <> Ok tt).
  Proof.
    unfold launch, loadFromFile. unfold cbind at 1. unfold cbind at 1, clift.
    destruct (loadInput fs load_mesh fn) as [[m o]|e|e0]; [|intros E; injection E as <- _ <-; right; right; split; [reflexivity|discriminate]..].
    cbn [fst snd]. destruct (mkDriver dbg femlib m o tt) as [[[d|e|e0] []] w1] eqn:Em.
    2, 3: intros E; injection E as <- _ <-; right; left; exists m, o; rewrite Em; (split; [reflexivity|split; [reflexivity|discriminate]]).
    destruct ((do! setExportFolder (input_directory fn); run dbg femlib moment) d) as [[r1 d1] w2] eqn:Er.
    intros E. injection E as <- _ <-. left. exists m, o, d, w1.
    rewrite set_then in Er.
    unfold reply. cbn [call]. unfold cbind.
    destruct (run dbg femlib moment (in_folder d (input_directory fn))) as [[r3 d3] w3].
    injection Er as <- <- <-. destruct r3 as [[]|e|e0]; cbn; do 2 eexists; (split; [reflexivity|split; [exact Em|split; [reflexivity|]]]).
    - rewrite app_nil_r. split; [reflexivity|]. split; reflexivity.
    - split; [reflexivity|]. split; discriminate.
    - split; [reflexivity|]. split; discriminate.
  Qed.
End Exports.

Section Program.
  Context {T : Type} `{Num T}.
  Variable dbg : bool.
  Variable femlib : mesh T -> Z -> fem T.
  Variable moment : T * T -> nat -> nat -> T * T -> T.
  Variable fs : string -> option (option (jtext T)).
  Variable load_mesh : string -> outcome (mesh T).
  Notation prog := (program dbg femlib moment fs load_mesh).

  Lemma quiet_construction m o : filter is_result (snd (mkDriver dbg femlib m o tt)) = [].
  Proof. apply quiet_filter. apply q_mkDriver. Qed.
  Lemma beside cwd fn name : names_file fn -> absolute fn = false -> components name = [name] ->
    resolve cwd (input_directory fn ++ name) = removelast (resolve cwd fn) ++ [name].
  Proof. intros Hf Ha E. rewrite <- E. exact (mesh_next_to_input cwd fn name Hf Ha). Qed.
  Lemma beside_wrong cwd fn name : names_file fn -> absolute fn = true -> cwd <> [] -> components name = [name] ->
    resolve cwd (input_directory fn ++ name) <> removelast (resolve cwd fn) ++ [name].
  Proof. intros Hf Ha Hc E. rewrite <- E. exact (mesh_of_absolute_input_wrong cwd fn name Hf Ha Hc). Qed.

  Lemma program_result args fn w : asks_for args fn -> prog args = (Exit0, w) ->
    exists m o d, loadInput fs load_mesh fn = Ok (m, o) /\ built dbg femlib m o d /\
      ((exists p, determineOpenness dbg m = Ok Closed /\ fst (reply dbg femlib moment CallPUL d) = Ok (VPul p) /\
          filter is_result w = [EvJson (input_directory fn ++ "pulmtln.out.json")%string (pulToJSON p)]) \/
       (exists p, determineOpenness dbg m = Ok Open /\ fst (reply dbg femlib moment CallInCell d) = Ok (VInCell p) /\
          filter is_result w = [EvJson (input_directory fn ++ "inCellPotentials.out.json")%string (incellToJSON p)])).
  Proof.
    intros A E. rewrite (launched dbg femlib moment fs load_mesh _ _ A) in E.
    destruct (launch dbg femlib moment fs load_mesh fn tt) as [[r u] w'] eqn:El. injection E as Er <-.
    destruct r as [[]|e|e0]; try discriminate Er.
    destruct (launch_shape dbg femlib moment fs load_mesh _ _ _ _ El) as [(m & o & d & w1 & w2 & r2 & L & M & R & -> & I)|[(m & o & _ & _ & C)|[_ C]]]; try congruence.
    exists m, o, d. split; [exact L|]. split; [now exists w1|].
    assert (r2 = Ok VUnit) by now apply I. subst r2.
    destruct (mkDriver_keeps dbg femlib m o d w1 M) as [Em Eo].
    assert (Q1 : filter is_result w1 = []) by (pose proof (quiet_construction m o) as Q; now rewrite M in Q).
    rewrite filter_app, Q1. cbn [app].
    destruct (determineOpenness dbg m) as [op|e|e0] eqn:Eop.
    2, 3: exfalso; unfold reply in R; cbn [call] in R; unfold cbind, run, cget, clift in R; cbn in R; rewrite Em, Eop in R; discriminate R.
    assert (Eop' : determineOpenness dbg (dr_model (in_folder d (input_directory fn))) = Ok op) by (cbn; now rewrite Em).
    pose proof (run_writes dbg femlib moment _ _ _ _ R Eop') as W. destruct op.
    - right. destruct W as [(p & w'' & E1 & _ & E2)|[C _]]; [|congruence]. exists p. split; [reflexivity|]. split; [|exact E2].
      rewrite <- (folder_irrelevant dbg femlib moment d (input_directory fn)) by auto. now rewrite E1.
    - destruct W as [[x W] _]. discriminate W.
    - left. destruct W as [(p & w'' & E1 & _ & E2)|[C _]]; [|congruence]. exists p. split; [reflexivity|]. split; [|exact E2].
      rewrite <- (folder_irrelevant dbg femlib moment d (input_directory fn)) by auto. now rewrite E1.
  Qed.
  Lemma program_failure args e w : prog args = (e, w) -> e <> Exit0 -> filter is_result w = [].
  Proof.
    unfold program. destruct (parse_command_line args no_options) as [[[|] [fn|]]|]; intros E N; try (injection E as <- <-; reflexivity || congruence).
    destruct (launch dbg femlib moment fs load_mesh fn tt) as [[r u] w'] eqn:El. injection E as <- <-.
    destruct (launch_shape dbg femlib moment fs load_mesh _ _ _ _ El) as [(m & o & d & w1 & w2 & r2 & L & M & R & -> & I)|[(m & o & L & -> & C)|[-> C]]].
    - assert (N2 : r2 <> Ok VUnit). { intros E2. apply I in E2. subst r. apply N. reflexivity. }
      assert (Q1 : filter is_result w1 = []) by (pose proof (quiet_construction m o) as Q; now rewrite M in Q).
      rewrite filter_app, Q1. cbn [app]. set (d' := in_folder d (input_directory fn)) in *.
      destruct (determineOpenness dbg (dr_model d')) as [op|ex|ex] eqn:Eop.
      2, 3: unfold reply in R; cbn [call] in R; unfold cbind at 1 in R; unfold run in R; rewrite cbind_get in R; rewrite Eop in R; cbn in R; injection R as _ <-; reflexivity.
      pose proof (run_writes dbg femlib moment _ _ _ _ R Eop) as W. destruct op.
      + destruct W as [(p & w'' & _ & E1 & _)|[_ E2]]; [congruence|exact E2].
      + destruct W as [_ ->]. reflexivity.
      + destruct W as [(p & w'' & _ & E1 & _)|[_ E2]]; [congruence|exact E2].
    - apply quiet_construction.
    - reflexivity.
  Qed.
  Lemma program_exports args fn e w m o : asks_for args fn -> prog args = (e, w) -> loadInput fs load_mesh fn = Ok (m, o) ->
    exists w1 w2, w = w1 ++ w2 /\
      Forall (field_export (o_exportFolder o) (map p_name (pecs (mo_mats m)))) w1 /\
      Forall (fun ev => is_result ev = true \/ field_export (input_directory fn) (map p_name (pecs (mo_mats m))) ev) w2.
  Proof.
    intros A E L. rewrite (launched dbg femlib moment fs load_mesh _ _ A) in E.
    destruct (launch dbg femlib moment fs load_mesh fn tt) as [[r u] w'] eqn:El. injection E as _ <-.
    assert (Cons : Forall (field_export (o_exportFolder o) (map p_name (pecs (mo_mats m)))) (snd (mkDriver dbg femlib m o tt))).
    { pose proof (mkDriver_exports dbg femlib moment m o) as K. pose proof (q_mkDriver dbg femlib m o tt) as Q.
      rewrite Forall_forall in *. intros x I. destruct (K x I) as [C|C]; [|exact C]. rewrite (Q x I) in C. discriminate C. }
    destruct (launch_shape dbg femlib moment fs load_mesh _ _ _ _ El) as [(m' & o' & d & w1 & w2 & r2 & L' & M & R & -> & I)|[(m' & o' & L' & -> & C)|[-> C]]].
    - rewrite L in L'. injection L' as <- <-. exists w1, w2. split; [reflexivity|]. split; [now rewrite M in Cons|].
      pose proof (call_exports dbg femlib moment CallRun (in_folder d (input_directory fn)) ltac:(discriminate)) as K.
      rewrite R in K. cbn [snd] in K. destruct (mkDriver_keeps dbg femlib m o d w1 M) as [Em Eo].
      cbn [in_folder dr_opts dr_model with_folder o_exportFolder] in K. now rewrite Em in K.
    - rewrite L in L'. injection L' as <- <-. exists (snd (mkDriver dbg femlib m o tt)), []. rewrite app_nil_r. auto.
    - exists [], []. auto.
  Qed.
End Program.
