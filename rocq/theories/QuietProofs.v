(** Proofs for C83. *)
From Verif Require Import Prelude StdMap Json Materials Graph ModelM Parser Matrix Solver Domain Results Driver
  SpecDriver SpecQuiet ListLemmas.

Section Sim.
  Context {T : Type}.
  Variable W : list (event T) -> list (event T) -> Prop.
  Hypothesis W_nil : W [] [].
  Hypothesis W_app : forall a a' b b', W a a' -> W b b' -> W (a ++ b) (a' ++ b').
  Definition orel {A A'} (V : A -> A' -> Prop) (x : outcome A) (x' : outcome A') : Prop :=
    match x, x' with
    | Ok a, Ok a' => V a a'
    | Throw e, Throw e' => e = e'
    | Undef u, Undef u' => u = u'
    | _, _ => False
    end.
  Definition sim {S S' A A'} (R : S -> S' -> Prop) (V : A -> A' -> Prop) (m : cmd T S A) (m' : cmd T S' A') : Prop :=
    forall d d', R d d' -> orel V (fst (fst (m d))) (fst (fst (m' d'))) /\ W (snd (m d)) (snd (m' d')) /\
      R (snd (fst (m d))) (snd (fst (m' d'))).
  Section Rules.
  Context {S S' : Type} (R : S -> S' -> Prop).
  Lemma sim_ret {A A'} (V : A -> A' -> Prop) a a' : V a a' -> sim R V (cret a) (cret a').
  Proof. intros v d d' r. cbn. auto. Qed.
  Lemma sim_lift {A} (x : outcome A) : sim R eq (clift x) (clift x).
  Proof. intros d d' r. cbn. split; [destruct x; cbn; auto|auto]. Qed.
  Lemma sim_emit w w' : W w w' -> sim R eq (cemit w) (cemit w').
  Proof. intros Hw d d' r. cbn. auto. Qed.
  Lemma sim_put s s' : R s s' -> sim R eq (cput s) (cput s').
  Proof. intros Hs d d' r. cbn. auto. Qed.
  Lemma sim_bind {A A' B B'} (V : A -> A' -> Prop) (U : B -> B' -> Prop) m m' (f : A -> cmd T S B) (f' : A' -> cmd T S' B') :
    sim R V m m' -> (forall a a', V a a' -> sim R U (f a) (f' a')) -> sim R U (cbind m f) (cbind m' f').
  Proof.
    intros Hm Hf d d' Hr. destruct (Hm d d' Hr) as (E1 & E2 & E3). unfold cbind.
    destruct (m d) as [[r s] w], (m' d') as [[r' s'] w']. cbn in *.
    destruct r as [a|e|u], r' as [a'|e'|u']; cbn in E1; try contradiction; [|cbn; auto|cbn; auto].
    destruct (Hf a a' E1 s s' E3) as (G1 & G2 & G3).
    destruct (f a s) as [[q t] v], (f' a' s') as [[q' t'] v']. cbn in *. auto.
  Qed.
  Lemma sim_eq {A B B'} (U : B -> B' -> Prop) m m' (f : A -> cmd T S B) (f' : A -> cmd T S' B') :
    sim R eq m m' -> (forall a, sim R U (f a) (f' a)) -> sim R U (cbind m f) (cbind m' f').
  Proof. intros Hm Hf. eapply sim_bind; [exact Hm|]. intros a a' <-. apply Hf. Qed.
  Lemma sim_get {B B'} (U : B -> B' -> Prop) (f : S -> cmd T S B) (f' : S' -> cmd T S' B') :
    (forall d d', R d d' -> sim R U (f d) (f' d')) -> sim R U (cbind cget f) (cbind cget f').
  Proof.
    intros Hf d d' Hr. destruct (Hf d d' Hr d d' Hr) as (E1 & E2 & E3). unfold cbind, cget.
    destruct (f d d) as [[q t] v], (f' d' d') as [[q' t'] v']. cbn in *. auto.
  Qed.
  Lemma sim_fold {A B B'} (V : B -> B' -> Prop) (f : B -> A -> cmd T S B) (f' : B' -> A -> cmd T S' B') l b b' :
    (forall b b' x, V b b' -> sim R V (f b x) (f' b' x)) -> V b b' -> sim R V (cfold f l b) (cfold f' l b').
  Proof.
    intros Hf; revert b b'; induction l as [|x l IH]; intros b b' Hb; cbn; [now apply sim_ret|].
    eapply sim_bind; [now apply Hf|]. intros a a' Ha. now apply IH.
  Qed.
  End Rules.
End Sim.

Section Quiet.
  Context {T : Type} `{Num T}.
  Variable dbg : bool.
  Variable femlib : mesh T -> Z -> fem T.
  Variable moment : T * T -> nat -> nat -> T * T -> T.
  Variable W : list (event T) -> list (event T) -> Prop.
  Hypothesis W_nil : W [] [].
  Hypothesis W_app : forall a a' b b', W a a' -> W b b' -> W (a ++ b) (a' ++ b').
  Variable RO : driver_options -> driver_options -> Prop.
  Hypothesis RO_num : forall o o', RO o o' -> same_numbers o o'.
  Hypothesis RO_exports : forall o o' (s : solver T) name ignore, RO o o' ->
    W (exportFieldSolutions o s name ignore) (exportFieldSolutions o' s name ignore).
  Hypothesis RO_json : forall o o' (s : string) j, RO o o' ->
    W [EvJson (o_exportFolder o ++ s) j] [EvJson (o_exportFolder o' ++ s) j].

  Notation RU := (fun (_ _ : unit) => True).
  Lemma sim_solve m o o' ignore : RO o o' -> sim W RU eq (solveForAllConductors dbg femlib m o ignore) (solveForAllConductors dbg femlib m o' ignore).
  Proof.
    intros Ho. pose proof (RO_num _ _ Ho) as [E1 E2]. unfold solveForAllConductors. rewrite E1.
    apply sim_eq; auto using sim_lift. intros base. apply sim_eq; auto using sim_lift. intros s.
    apply sim_eq; auto using sim_lift. intros cs. apply sim_fold; auto. intros b b' x <-. unfold solve_step. rewrite E1.
    apply sim_eq; auto using sim_lift. intros s2. apply sim_eq; auto using sim_lift. intros p.
    apply sim_eq; auto using sim_emit. intros _. apply sim_eq; auto using sim_lift. intros sols. now apply sim_ret.
  Qed.
  (** Drivers of the same model in the same state, with related options *)
  Definition RD (d d' : driver T) : Prop :=
    dr_model d = dr_model d' /\ RO (dr_opts d) (dr_opts d') /\ dr_el d = dr_el d' /\ dr_mag d = dr_mag d'.
  Lemma sim_mkDriver m o o' : RO o o' -> sim W RU RD (mkDriver dbg femlib m o) (mkDriver dbg femlib m o').
  Proof.
    intros Ho. unfold mkDriver. apply sim_eq; auto using sim_lift. intros _.
    eapply sim_bind; [auto|now apply sim_solve|]. intros el el' <-.
    eapply sim_bind; [auto|now apply sim_solve|]. intros mg mg' <-.
    apply sim_ret; auto. repeat split; auto.
  Qed.
  Lemma RD_problem d d' ignore : RD d d' -> problem d' ignore = problem d ignore.
  Proof. intros (_ & _ & E & M). unfold problem. now rewrite E, M. Qed.
  Lemma RD_set d d' ignore s : RD d d' -> RD (set_solver d ignore s) (set_solver d' ignore s).
  Proof. intros (M & O & E & G). unfold set_solver. repeat split; cbn; auto; [rewrite E|rewrite G]; reflexivity. Qed.

  Notation sm := (sim W RD).
  Ltac lift := apply sim_eq; [auto|apply sim_lift; auto|].
  Lemma sim_row ignore cs C ca : sm eq (row_step dbg femlib ignore cs C ca) (row_step dbg femlib ignore cs C ca).
  Proof.
    unfold row_step. apply sim_get. intros d d' Hd. pose proof Hd as (M & O & _). pose proof (RO_num _ _ O) as [E1 E2].
    rewrite (RD_problem d d' ignore Hd), <- M, E1. lift. intros x. lift. intros s.
    apply sim_eq; [auto|apply sim_put; auto; now apply RD_set|]. intros _. lift. intros C'. lift. intros p.
    apply sim_eq; [auto|apply sim_emit; auto|]. intros _. now apply sim_ret.
  Qed.
  Lemma sim_gc ignore : sm eq (getGeneralizedCMatrix dbg femlib ignore) (getGeneralizedCMatrix dbg femlib ignore).
  Proof.
    unfold getGeneralizedCMatrix. apply sim_get. intros d d' (M & _). rewrite <- M. lift. intros cs. lift. intros o.
    destruct (_ && _)%bool; [now apply sim_lift|]. apply sim_eq; [auto| |intros; now apply sim_ret].
    apply sim_fold; auto. intros b b' x <-. apply sim_row.
  Qed.
  Lemma sim_C : sm eq (getCMatrix dbg femlib) (getCMatrix dbg femlib).
  Proof.
    unfold getCMatrix. apply sim_eq; [auto|apply sim_gc|]. intros gC. apply sim_get. intros d d' (M & _). rewrite <- M.
    lift. intros. now apply sim_ret.
  Qed.
  Lemma sim_L : sm eq (getLMatrix dbg femlib) (getLMatrix dbg femlib).
  Proof.
    unfold getLMatrix. apply sim_eq; [auto|apply sim_gc|]. intros gC. apply sim_get. intros d d' (M & _). rewrite <- M.
    lift. intros. now apply sim_lift.
  Qed.
  Lemma sim_PUL : sm eq (getPULMTL dbg femlib) (getPULMTL dbg femlib).
  Proof.
    unfold getPULMTL, buildPULParametersForModel. apply sim_eq; [auto|apply sim_C|]. intros.
    apply sim_eq; [auto|apply sim_L|]. intros. now apply sim_ret.
  Qed.
  Lemma sim_fpm ignore : sm eq (getFloatingPotentialsMatrix dbg femlib ignore) (getFloatingPotentialsMatrix dbg femlib ignore).
  Proof.
    unfold getFloatingPotentialsMatrix. apply sim_get. intros d d' (M & _). rewrite <- M.
    destruct (_ =? 1)%nat; [now apply sim_ret|]. lift. intros o.
    apply sim_eq; [auto| |intros; now apply sim_lift]. destruct o.
    - apply sim_gc.
    - now apply sim_lift.
    - apply sim_eq; [auto|apply sim_gc|]. intros; now apply sim_ret.
  Qed.
  Lemma sim_fp : sm eq (getFloatingPotentials dbg femlib) (getFloatingPotentials dbg femlib).
  Proof.
    unfold getFloatingPotentials. apply sim_eq; [auto|apply sim_fpm|]. intros. apply sim_eq; [auto|apply sim_fpm|].
    intros. now apply sim_ret.
  Qed.
  Lemma sim_field ignore fp cs res ca : sm eq (field_step femlib moment ignore fp cs res ca) (field_step femlib moment ignore fp cs res ca).
  Proof.
    unfold field_step. apply sim_get. intros d d' Hd. pose proof Hd as (M & O & _). pose proof (RO_num _ _ O) as [E1 E2].
    rewrite (RD_problem d d' ignore Hd), <- M, E1, E2. lift. intros s.
    apply sim_eq; [auto|apply sim_put; auto; now apply RD_set|]. intros _. lift. intros p.
    apply sim_eq; [auto|apply sim_emit; auto|]. intros _. do 4 (lift; intros ?). now apply sim_ret.
  Qed.
  Lemma sim_fieldparams ignore : sm eq (getFieldParameters dbg femlib moment ignore) (getFieldParameters dbg femlib moment ignore).
  Proof.
    unfold getFieldParameters. apply sim_eq; [auto|apply sim_fpm|]. intros fp. apply sim_get. intros d d' (M & _). rewrite <- M.
    lift. intros cs. apply sim_fold; auto. intros b b' x <-. apply sim_field.
  Qed.
  Lemma sim_incell : sm eq (getInCellPotentials dbg femlib moment) (getInCellPotentials dbg femlib moment).
  Proof.
    unfold getInCellPotentials. apply sim_get. intros d d' (M & _). rewrite <- M. lift. intros o.
    destruct (negb _); [now apply sim_lift|]. lift. intros b. apply sim_eq; [auto|apply sim_fieldparams|]. intros.
    apply sim_eq; [auto|apply sim_fieldparams|]. intros. now apply sim_ret.
  Qed.
  Lemma sim_run : sm eq (run dbg femlib moment) (run dbg femlib moment).
  Proof.
    unfold run. apply sim_get. intros d d' (M & O & _). rewrite <- M. lift. intros o. destruct o.
    - apply sim_eq; [auto|apply sim_incell|]. intros; apply sim_emit; auto.
    - now apply sim_lift.
    - apply sim_eq; [auto|apply sim_PUL|]. intros; apply sim_emit; auto.
  Qed.
  Lemma sim_sub m o o' dom : RO o o' -> sim W RU eq (sub_pul dbg femlib m o dom) (sub_pul dbg femlib m o' dom).
  Proof.
    intros Ho. unfold sub_pul. lift. intros gm. eapply sim_bind; [auto|now apply sim_mkDriver|]. intros sd sd' Hd u u' _.
    destruct (sim_PUL sd sd' Hd) as (E1 & E2 & E3).
    destruct (getPULMTL dbg femlib sd) as [[r x] w], (getPULMTL dbg femlib sd') as [[r' x'] w']. cbn in *. auto.
  Qed.
  Lemma sim_bydom : sm eq (getPULMTLByDomains dbg femlib) (getPULMTLByDomains dbg femlib).
  Proof.
    unfold getPULMTLByDomains. apply sim_get. intros d d' (M & O & _). rewrite <- M. lift. intros ds.
    apply sim_eq; [auto| |intros; lift; intros; now apply sim_ret].
    apply sim_fold; auto. intros b b' x <- s s' Hs. destruct (sim_sub (dr_model d) _ _ (snd x) O tt tt I) as (E1 & E2 & _).
    destruct (sub_pul dbg femlib (dr_model d) (dr_opts d) (snd x) tt) as [[r u] w],
             (sub_pul dbg femlib (dr_model d) (dr_opts d') (snd x) tt) as [[r' u'] w']. cbn in *.
    split; [|auto]. destruct r, r'; cbn in *; try contradiction; congruence.
  Qed.
  Definition folders_related (c c' : dop) : Prop :=
    c = c' /\ (forall f, c <> CallSetFolder f) \/
    exists f f', c = CallSetFolder f /\ c' = CallSetFolder f' /\ forall o o', RO o o' -> RO (with_folder o f) (with_folder o' f').
  Lemma sim_call c c' : folders_related c c' -> sm eq (call dbg femlib moment c) (call dbg femlib moment c').
  Proof.
    intros [[<- N]|(f & f' & -> & -> & Hf)].
    - destruct c; cbn [call]; try (exfalso; now apply (N folder));
        (apply sim_eq; [auto| |intros; now apply sim_ret]).
      + apply sim_gc.
      + apply sim_C.
      + apply sim_L.
      + apply sim_PUL.
      + apply sim_fp.
      + apply sim_incell.
      + apply sim_run.
      + apply sim_bydom.
    - cbn [call]. apply sim_eq; [auto| |intros; now apply sim_ret]. unfold setExportFolder.
      apply sim_get. intros d d' (M & O & E & G). apply sim_put; auto. repeat split; cbn; auto.
  Qed.
  Lemma sim_after ops ops' : Forall2 folders_related ops ops' -> forall d d', RD d d' ->
    RD (after dbg femlib moment ops d) (after dbg femlib moment ops' d').
  Proof.
    intros F. induction F as [|c c' ops ops' Hc F IH]; intros d d' Hd; [exact Hd|].
    unfold after. cbn [fold_left]. apply IH. unfold left_by.
    destruct (sim_call c c' Hc d d' Hd) as (_ & _ & E3).
    destruct (call dbg femlib moment c d) as [[r x] w], (call dbg femlib moment c' d') as [[r' x'] w']. exact E3.
  Qed.
  Lemma orel_eq {A} (x x' : outcome A) : orel eq x x' -> x = x'.
  Proof. destruct x, x'; cbn; intros E; try contradiction; congruence. Qed.
  Lemma quiet_replies m o o' d d' ops ops' c c' : RO o o' ->
    built dbg femlib m o d -> built dbg femlib m o' d' ->
    Forall2 folders_related ops ops' -> folders_related c c' ->
    fst (reply dbg femlib moment c (after dbg femlib moment ops d)) =
    fst (reply dbg femlib moment c' (after dbg femlib moment ops' d')) /\
    W (snd (reply dbg femlib moment c (after dbg femlib moment ops d)))
      (snd (reply dbg femlib moment c' (after dbg femlib moment ops' d'))).
  Proof.
    intros Ho (w & B) (w' & B') F Fc. destruct (sim_mkDriver m o o' Ho tt tt I) as (E1 & _). rewrite B, B' in E1. cbn in E1.
    pose proof (sim_after ops ops' F d d' E1) as Hd. destruct (sim_call c c' Fc _ _ Hd) as (G1 & G2 & _).
    unfold reply. destruct (call dbg femlib moment c _) as [[r x] v], (call dbg femlib moment c' _) as [[r' x'] v']. cbn in *.
    split; [now apply orel_eq|exact G2].
  Qed.
  Lemma quiet_construction m o o' : RO o o' ->
    end_alike (fst (fst (mkDriver dbg femlib m o tt))) (fst (fst (mkDriver dbg femlib m o' tt))) /\
    W (snd (mkDriver dbg femlib m o tt)) (snd (mkDriver dbg femlib m o' tt)).
  Proof.
    intros Ho. destruct (sim_mkDriver m o o' Ho tt tt I) as (E1 & E2 & _). split; [|exact E2].
    destruct (fst (fst (mkDriver dbg femlib m o tt))), (fst (fst (mkDriver dbg femlib m o' tt))); cbn in *; auto.
  Qed.
End Quiet.
