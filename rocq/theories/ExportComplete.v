(** Which exports a successful call writes (C76). *)
From Verif Require Import Prelude StdMap Json Materials Graph ModelM Parser Matrix Solver Domain Results Driver
  SpecInput SpecModel SpecSolver SpecDriver SpecMain ListLemmas ModelProofs SolverProofs DriverProofs RunProofs MainProofs.
Open Scope list_scope.

Section Complete.
  Context {T : Type} `{Num T}.
  Variable dbg : bool.
  Variable femlib : mesh T -> Z -> fem T.
  Variable moment : T * T -> nat -> nat -> T * T -> T.
  Variable m : model T.
  Variable opts : driver_options.
  Variable conds : list (pec T).
  Hypothesis O : in_order (mo_mats m) conds.
  Definition has (x : export) (w : list (event T)) : Prop := exists fields, In (saved (o_exportFolder opts) x fields) w.
  Definition em {A} (c : cmd T (driver T) A) (P : list (event T) -> Prop) : Prop :=
    forall d, same m opts d -> match c d with ((Ok _, d'), w) => same m opts d' /\ P w | _ => True end.
  Lemma em_first {A B} (c : cmd T (driver T) A) (f : A -> cmd T (driver T) B) x :
    em c (has x) -> (forall a, em (f a) (fun _ => True)) -> em (cbind c f) (has x).
  Proof.
    intros Hc Hf d S. unfold cbind. specialize (Hc d S). destruct (c d) as [[[a|e|e] d1] w1]; auto. destruct Hc as (S1 & fs & I1).
    specialize (Hf a d1 S1). destruct (f a d1) as [[[b|e|e] d2] w2]; auto. destruct Hf as (S2 & _). split; [exact S2|]. exists fs. apply in_or_app. auto.
  Qed.
  Lemma em_next {A B} (c : cmd T (driver T) A) (f : A -> cmd T (driver T) B) x :
    em c (fun _ => True) -> (forall a, em (f a) (has x)) -> em (cbind c f) (has x).
  Proof.
    intros Hc Hf d S. unfold cbind. specialize (Hc d S). destruct (c d) as [[[a|e|e] d1] w1]; auto. destruct Hc as (S1 & _).
    specialize (Hf a d1 S1). destruct (f a d1) as [[[b|e|e] d2] w2]; auto. destruct Hf as (S2 & fs & I2). split; [exact S2|]. exists fs. apply in_or_app. auto.
  Qed.
  Lemma em_get {B} (f : driver T -> cmd T (driver T) B) P : (forall d, same m opts d -> em (f d) P) -> em (cbind cget f) P.
  Proof. intros F d S. rewrite cbind_get. exact (F d S d S). Qed.
  Lemma em_lift {A B} (x : outcome A) (f : A -> cmd T (driver T) B) P : (forall a, x = Ok a -> em (f a) P) -> em (cbind (clift x) f) P.
  Proof. intros F d S. unfold cbind, clift. destruct x as [a|e|u]; auto. specialize (F a eq_refl d S). destruct (f a d) as [[[b|e|e] d2] w2]; auto. Qed.
  Lemma em_keeps {A} (c : cmd T (driver T) A) : keeps m opts c -> em c (fun _ => True).
  Proof. intros K d S. specialize (K d S). destruct (c d) as [[[a|e|e] d'] w]; auto. split; [apply K|exact I]. Qed.
  Lemma em_put d : same m opts d -> em (cput d) (fun _ => True). Proof. intros S d' _. cbn. auto. Qed.
  Lemma em_export (s : solver T) x : (if x_visit x then o_exportVisIt opts else o_exportParaView opts) = true ->
    em (cemit (exportFieldSolutions opts s (x_conductor x ++ (if x_floating x then "_prescribed_and_others_floating" else "")) (x_ignore x))) (has x).
  Proof.
    intros E d S. cbn. split; [exact S|]. exists (contents (getSolution s)). unfold exportFieldSolutions. destruct x as [v c f i]. cbn [x_visit x_conductor x_floating x_ignore] in *.
    apply in_or_app. destruct v; rewrite E; [right|left]; left; reflexivity.
  Qed.
  Variable x : export.
  Hypothesis Wanted : (if x_visit x then o_exportVisIt opts else o_exportParaView opts) = true.
  Variable k : nat.
  Variable p : pec T.
  Hypothesis Ek : nth_error conds k = Some p.
  Hypothesis Ex : x_conductor x = p_name p.
  Lemma em_fold {B} (f : B -> Z * Z -> cmd T (driver T) B) : (forall b ca, keeps m opts (f b ca)) ->
    (forall b, em (f b (Z.of_nat k, p_attr p)) (has x)) -> forall b, em (cfold f (tagged conds) b) (has x).
  Proof.
    intros K F. assert (I : In (Z.of_nat k, p_attr p) (tagged conds)) by (eapply nth_error_In; apply tagged_nth; exact Ek).
    revert I. generalize (tagged conds) as l. induction l as [|ca l IH]; intros I b; [destruct I|]. cbn [cfold].
    destruct I as [-> | I].
    - apply em_first; [apply F|]. intros b'. apply em_keeps, k_fold. exact K.
    - apply em_next; [apply em_keeps, K|]. intros b'. now apply IH.
  Qed.
  Lemma em_gc ignore : x_floating x = false -> x_ignore x = ignore -> em (getGeneralizedCMatrix dbg femlib ignore) (has x).
  Proof.
    intros Xf Xi. unfold getGeneralizedCMatrix. apply em_get. intros d [-> _]. rewrite (in_order_conductors _ _ O). apply em_lift. intros cs [= <-].
    apply em_lift. intros op _. destruct (_ && _)%bool; [intros d' _; exact I|]. apply em_first; [|intros; apply em_keeps, k_ret].
    apply em_fold.
    - intros b ca. unfold row_step. apply k_get. intros d' S'. do 2 (apply k_bind; [apply k_lift|intros ?]).
      apply k_bind; [apply k_put; now apply k_set|intros _].
      apply k_bind; [apply k_lift|intros C']. apply k_lift_bind. intros q Eq. destruct S' as [Em' Eo']. rewrite Em' in Eq.
      apply k_bind; [rewrite Eo'; apply k_export'; eapply pec_by_id_in; exact Eq|intros; apply k_ret].
    - intros b. unfold row_step. apply em_get. intros d' [Em' Eo']. rewrite Em', Eo'. apply em_lift. intros u _. apply em_lift. intros s _.
      apply em_next; [apply em_put; split; assumption|]. intros _. apply em_lift. intros C _. cbn [fst]. rewrite (in_order_get _ _ _ _ O Ek). apply em_lift. intros q [= <-].
      apply em_first; [|intros; apply em_keeps, k_ret]. pose proof (em_export s x Wanted) as H0. rewrite Xf, Xi, Ex in H0. cbn [app] in H0.
      assert (App : forall s : string, (s ++ "")%string = s) by (induction s0; cbn; congruence). now rewrite App in H0.
  Qed.
  Lemma em_fieldparams ignore : x_floating x = true -> x_ignore x = ignore -> em (getFieldParameters dbg femlib moment ignore) (has x).
  Proof.
    intros Xf Xi. unfold getFieldParameters. apply em_next; [apply em_keeps, k_fpm|]. intros fp. apply em_get. intros d [-> _].
    rewrite (in_order_conductors _ _ O). apply em_lift. intros cs [= <-]. apply em_fold.
    - intros b ca. unfold field_step. apply k_get. intros d' S'. apply k_bind; [apply k_lift|intros s]. apply k_bind; [apply k_put; now apply k_set|intros _].
      apply k_lift_bind. intros q Eq. destruct S' as [Em' Eo']. rewrite Em' in Eq.
      apply k_bind; [rewrite Eo'; exact (k_export m opts s q true ignore (pec_by_id_in _ _ _ Eq))|intros _].
      repeat (apply k_bind; [apply k_lift|intros ?]). apply k_ret.
    - intros b. unfold field_step. apply em_get. intros d' [Em' Eo']. rewrite Em', Eo'. apply em_lift. intros s _.
      apply em_next; [apply em_put; split; assumption|]. intros _. cbn [fst]. rewrite (in_order_get _ _ _ _ O Ek). apply em_lift. intros q [= <-].
      apply em_first; [|intros; apply em_keeps; repeat (apply k_bind; [apply k_lift|intros ?]); apply k_ret].
      pose proof (em_export s x Wanted) as H0. rewrite Xf, Xi, Ex in H0. exact H0.
  Qed.
  Lemma em_incell : x_floating x = true -> em (getInCellPotentials dbg femlib moment) (has x).
  Proof.
    intros Xf. unfold getInCellPotentials. apply em_get. intros d [-> _]. apply em_lift. intros op _. destruct (negb _); [intros d' _; exact I|].
    apply em_lift. intros b _. destruct (x_ignore x) eqn:Xi.
    - apply em_next; [apply em_keeps, k_fieldparams|]. intros e. apply em_first; [now apply em_fieldparams|]. intros. apply em_keeps, k_ret.
    - apply em_first; [now apply em_fieldparams|]. intros e. apply em_keeps. apply k_bind; [apply k_fieldparams|]. intros. apply k_ret.
  Qed.
End Complete.
