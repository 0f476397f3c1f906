(** Proofs for C81: whole programs, stack unwinding and the life of a Driver. *)
From Verif Require Import Prelude Lifetime SpecLife LifeProofs.
From Coq Require Import Permutation Lia.

(** ** Programs *)

Lemma run_ok : forall p w sc K sc', inv w sc K -> disciplined sc p sc' ->
  exists w' K', execute w p = Good w' /\ inv w' sc' (K' ++ K) /\
                List.length K' = list_sum (map left_behind p).
Proof.
  induction p as [ | c p IH]; intros w sc K sc' I D.
  - inversion D; subst. exists w, []. split; [reflexivity | split; [exact I | reflexivity] ].
  - inversion D as [ | ? ? sc1 ? ? Al D']; subst.
    destruct (step_ok w sc K c sc1 I Al) as (w1 & K1 & E1 & I1 & L1).
    destruct (IH w1 sc1 (K1 ++ K) sc' I1 D') as (w2 & K2 & E2 & I2 & L2).
    exists w2, (K2 ++ K1). split; [cbn [execute]; rewrite E1; exact E2 | ].
    split; [rewrite <- app_assoc; exact I2 | ].
    rewrite app_length. cbn [map list_sum fold_right]. unfold list_sum in L2 |- *. cbn [map fold_right]. lia.
Qed.

Lemma inv_empty : inv empty_world no_scope [].
Proof.
  exists []. split.
  - split; [apply Permutation_refl | split; [constructor | split; [intros a [] | split; [reflexivity | intros a []] ] ] ].
  - split; [reflexivity | split; [reflexivity | split; [constructor | split; [intros q [] | ] ] ] ].
    cbn. repeat split; constructor.
Qed.

Lemma inv_no_scope : forall w K, inv w no_scope K -> Permutation (h_live (w_heap w)) K.
Proof.
  intros w K (S & (P & _) & Em & Eq & F & _).
  cbn [no_scope sc_meshes sc_solvers sc_solutions] in *.
  unfold all_cells in P. inversion F as [Ews | ]; subst. rewrite <- Ews in P.
  destruct (w_meshes w) as [ | ? ?]; [ | discriminate Em].
  destruct (w_solutions w) as [ | ? ?]; [ | discriminate Eq].
  cbn [map flat_map app] in P. rewrite !app_nil_r in P. exact P.
Qed.
Lemma inv_nodup : forall w sc K, inv w sc K ->
  NoDup (sc_meshes sc) /\ NoDup (names (sc_solvers sc)) /\ NoDup (sc_solutions sc).
Proof. intros w sc K (S & _ & _ & _ & _ & _ & N). exact N. Qed.

Lemma disciplined_app : forall p s1 s2 s3 q, disciplined s1 p s2 -> disciplined s2 q s3 ->
  disciplined s1 (p ++ q) s3.
Proof.
  induction p as [ | c p IH]; intros s1 s2 s3 q D1 D2; inversion D1; subst; [exact D2 | ].
  cbn [app]. econstructor; [eassumption | ]. eapply IH; eassumption.
Qed.
Lemma disciplined_split : forall p s1 s3 q, disciplined s1 (p ++ q) s3 ->
  exists s2, disciplined s1 p s2 /\ disciplined s2 q s3.
Proof.
  induction p as [ | c p IH]; intros s1 s3 q D.
  - exists s1. split; [constructor | exact D].
  - cbn [app] in D. inversion D as [ | ? ? sc1 ? ? Al D']; subst.
    destruct (IH _ _ _ D') as (s2 & D1 & D2). exists s2. split; [econstructor; eassumption | exact D2].
Qed.
Lemma one : forall s c s', allowed s c s' -> disciplined s [c] s'.
Proof. intros s c s' A. econstructor; [exact A | constructor]. Qed.

(** ** Unwinding *)

Lemma without_perm : forall x l, NoDup l -> In x l -> Permutation l (x :: without x l).
Proof.
  intros x l N I. unfold without.
  assert (E : filter (fun y => negb (y =? x)%nat) l = remove Nat.eq_dec x l).
  { clear. induction l as [ | y l IH]; [reflexivity | ]. simpl.
    destruct (Nat.eq_dec x y) as [-> | Ne]; [rewrite Nat.eqb_refl; exact IH | ].
    rewrite (proj2 (Nat.eqb_neq y x)) by congruence. simpl. f_equal. exact IH. }
  rewrite E. apply remove_perm; assumption.
Qed.

Lemma cleanup_ok : forall u sc, NoDup (sc_meshes sc) -> NoDup (names (sc_solvers sc)) ->
  NoDup (sc_solutions sc) -> cleanup sc u -> disciplined sc u no_scope.
Proof.
  induction u as [ | c u IH]; intros [ms ss qs] N1 N2 N3 P; unfold cleanup in P;
    cbn [sc_meshes sc_solvers sc_solutions] in *.
  - apply Permutation_nil in P.
    destruct qs; [ | discriminate P]. destruct ss; [ | discriminate P]. destruct ms; [ | discriminate P].
    constructor.
  - assert (I : In c (map DeleteSolution qs ++ map DeleteSolver (names ss) ++ map DeleteMesh ms))
      by exact (Permutation_in _ P (or_introl eq_refl)).
    apply in_app_or in I. destruct I as [I | I]; [ | apply in_app_or in I; destruct I as [I | I] ];
      apply in_map_iff in I; destruct I as (x & <- & I).
    + econstructor; [apply al_delete_solution, I | ].
      apply IH; cbn [sc_meshes sc_solvers sc_solutions]; try assumption; [apply nodup_without, N3 | ].
      unfold cleanup; cbn [sc_meshes sc_solvers sc_solutions].
      apply (Permutation_cons_inv (a := DeleteSolution x)).
      eapply Permutation_trans; [exact P | ].
      apply (Permutation_app_tail _ (Permutation_map DeleteSolution (without_perm x qs N3 I))).
    + econstructor; [apply al_delete_solver, I | ].
      apply IH; cbn [sc_meshes sc_solvers sc_solutions]; try assumption;
        [rewrite names_drop; apply nodup_without, N2 | ].
      unfold cleanup; cbn [sc_meshes sc_solvers sc_solutions]. rewrite names_drop.
      apply (Permutation_cons_inv (a := DeleteSolver x)).
      eapply Permutation_trans; [exact P | ].
      eapply Permutation_trans; [ | apply Permutation_sym, Permutation_middle].
      apply Permutation_app_head.
      apply (Permutation_app_tail _ (Permutation_map DeleteSolver (without_perm x _ N2 I))).
    + econstructor; [apply al_delete_mesh, I | ].
      assert (En : names (map (orphan x) ss) = names ss) by (apply names_map, fst_orphan).
      apply IH; cbn [sc_meshes sc_solvers sc_solutions]; try assumption;
        [apply nodup_without, N1 | rewrite En; exact N2 | ].
      unfold cleanup; cbn [sc_meshes sc_solvers sc_solutions]. rewrite En.
      apply (Permutation_cons_inv (a := DeleteMesh x)).
      eapply Permutation_trans; [exact P | ].
      eapply Permutation_trans; [do 2 apply Permutation_app_head;
        exact (Permutation_map DeleteMesh (without_perm x _ N1 I)) | ].
      cbn [map]. rewrite app_assoc.
      eapply Permutation_trans; [apply Permutation_sym, Permutation_middle | ].
      rewrite <- app_assoc. apply Permutation_refl.
Qed.

(** ** The blocks of a driver *)

Lemma filled_fresh : forall x ss, ~ In x (names ss) -> map (filled x) ss = ss.
Proof.
  intros x. induction ss as [ | [y v] ss IH]; intro F; [reflexivity | ]. simpl in F |- *.
  unfold filled at 1. simpl. destruct (Nat.eqb_spec y x) as [-> | Ne]; [exfalso; apply F; left; reflexivity | ].
  f_equal. apply IH. intro I. apply F. right. exact I.
Qed.
Lemma filled_again : forall x m ss, NoDup (names ss) -> In (x, (m, true)) ss -> map (filled x) ss = ss.
Proof.
  intros x m. induction ss as [ | [y v] ss IH]; intros N I; [destruct I | ].
  simpl in N. inversion N as [ | ? ? Ny Nl]; subst. simpl. unfold filled at 1. simpl.
  destruct I as [E | I].
  - injection E as -> ->. simpl. rewrite Nat.eqb_refl. f_equal. apply filled_fresh, Ny.
  - destruct (Nat.eqb_spec y x) as [-> | Ne]; [ | f_equal; apply IH; assumption].
    exfalso. apply Ny. apply (in_map fst) in I. exact I.
Qed.

Definition some {A} (l : list A) : bool := match l with [] => false | _ => true end.

Lemma solve_loop : forall x m (export : bool) ms ss sols i qs, ~ In x (names ss) -> NoDup sols ->
  (forall q, In q sols -> ~ In q qs) ->
  disciplined {| sc_meshes := ms; sc_solvers := (x, (Some m, i)) :: ss; sc_solutions := qs |}
    (flat_map (fun q => [SetDirichlet x; SolveS x] ++ (if export then [Get x WriteFields] else []) ++
                        [GetSolution q x]) sols)
    {| sc_meshes := ms; sc_solvers := (x, (Some m, (i || some sols)%bool)) :: ss;
       sc_solutions := rev sols ++ qs |}.
Proof.
  intros x m export ms ss. induction sols as [ | q sols IH]; intros i qs Fx N D.
  - cbn [flat_map rev app some]. rewrite orb_false_r. constructor.
  - inversion N as [ | ? ? Nq Ns]; subst. cbn [flat_map]. rewrite <- app_assoc.
    cbn [some]. rewrite orb_true_r.
    eapply disciplined_app with (s2 := {| sc_meshes := ms; sc_solvers := (x, (Some m, true)) :: ss; sc_solutions := qs |}).
    { econstructor; [apply al_dirichlet; left; reflexivity | ].
      econstructor; [eapply al_solve; left; reflexivity | ].
      cbn [map]. rewrite (filled_fresh x ss Fx). unfold filled; cbn [fst snd]. rewrite Nat.eqb_refl. constructor. }
    rewrite <- app_assoc.
    eapply disciplined_app with (s2 := {| sc_meshes := ms; sc_solvers := (x, (Some m, true)) :: ss; sc_solutions := qs |}).
    { destruct export; [ | constructor]. apply one. eapply al_get. left. reflexivity. }
    cbn [app]. econstructor; [eapply al_get_solution; [left; reflexivity | apply D; left; reflexivity] | ].
    cbn [rev]. rewrite <- app_assoc. cbn [app].
    apply (IH true (q :: qs) Fx Ns). intros q' Iq' [<- | J]; [exact (Nq Iq') | ].
    exact (D q' (or_intror Iq') J).
Qed.

Lemma solve_all_ok : forall x m open export ms ss sols qs, In m ms -> ~ In x (names ss) -> NoDup sols ->
  (forall q, In q sols -> ~ In q qs) ->
  disciplined {| sc_meshes := ms; sc_solvers := ss; sc_solutions := qs |}
    (solve_all x m open export sols)
    {| sc_meshes := ms; sc_solvers := (x, (Some m, some sols)) :: ss; sc_solutions := rev sols ++ qs |}.
Proof.
  intros x m open export ms ss sols qs Im Fx N D. unfold solve_all.
  econstructor; [apply al_new_solver; assumption | ].
  exact (solve_loop x m export ms ss sols false qs Fx N D).
Qed.

(** A repeated block that leaves the scope as it is. *)
Lemma same_loop : forall A (f : A -> list op) l sc, (forall a, In a l -> disciplined sc (f a) sc) ->
  disciplined sc (flat_map f l) sc.
Proof.
  intros A f. induction l as [ | a l IH]; intros sc H; [constructor | ]. cbn [flat_map].
  eapply disciplined_app; [apply H; left; reflexivity | apply IH]. intros b Ib. apply H. right. exact Ib.
Qed.
Lemma same_map : forall A (f : A -> op) l sc, (forall a, In a l -> allowed sc (f a) sc) ->
  disciplined sc (map f l) sc.
Proof.
  intros A f. induction l as [ | a l IH]; intros sc H; [constructor | ]. cbn [map].
  econstructor; [apply H; left; reflexivity | apply IH]. intros b Ib. apply H. right. exact Ib.
Qed.

Lemma matrix_ok : forall x m export ms ss qs sols, NoDup (names ss) ->
  In (x, (Some m, some sols)) ss -> incl sols qs ->
  disciplined {| sc_meshes := ms; sc_solvers := ss; sc_solutions := qs |} (matrix_calls x export sols)
              {| sc_meshes := ms; sc_solvers := ss; sc_solutions := qs |}.
Proof.
  intros x m export ms ss qs sols N I IQ. unfold matrix_calls.
  assert (H : forall q0, In q0 sols -> In (x, (Some m, true)) ss).
  { intros q0 I0. destruct sols; [destruct I0 | exact I]. }
  apply same_loop. intros q Iq. pose proof (H q Iq) as It.
  cbn [app]. econstructor.
  { apply al_set_solution; [ | apply IQ, Iq]. apply (in_map fst) in It. exact It. }
  rewrite (filled_again x (Some m) ss N It).
  eapply disciplined_app.
  - apply (same_map _ (fun _ => Get x ChargeInBoundary)). intros _ _. eapply al_get. exact It.
  - destruct export; [apply one; eapply al_get; exact It | constructor].
Qed.
Lemma field_ok : forall x m export ms ss qs sols,
  In (x, (Some m, some sols)) ss -> incl sols qs ->
  disciplined {| sc_meshes := ms; sc_solvers := ss; sc_solutions := qs |} (field_calls x export sols)
              {| sc_meshes := ms; sc_solvers := ss; sc_solutions := qs |}.
Proof.
  intros x m export ms ss qs sols I IQ. unfold field_calls.
  assert (H : forall q0, In q0 sols -> In (x, (Some m, true)) ss).
  { intros q0 I0. destruct sols; [destruct I0 | exact I]. }
  apply same_loop. intros q Iq. pose proof (H q Iq) as It.
  eapply disciplined_app.
  - apply (same_map _ (fun q => AddSolution x q)). intros q' Iq'. eapply al_add_solution; [exact It | apply IQ, Iq'].
  - eapply disciplined_app; [destruct export; [apply one; eapply al_get; exact It | constructor] | ].
    do 5 (econstructor; [eapply al_get; exact It | ]). constructor.
Qed.

(** ** Construction and destruction *)

Lemma delete_all : forall l ms ss qs, incl l qs -> NoDup l ->
  disciplined {| sc_meshes := ms; sc_solvers := ss; sc_solutions := qs |} (map DeleteSolution l)
    {| sc_meshes := ms; sc_solvers := ss; sc_solutions := filter (fun y => negb (nmem y l)) qs |}.
Proof.
  induction l as [ | x l IH]; intros ms ss qs I N.
  - cbn [map]. replace (filter _ qs) with qs; [constructor | ].
    clear. induction qs as [ | y qs IH]; [reflexivity | ]. simpl. f_equal. exact IH.
  - inversion N as [ | ? ? Nx Nl]; subst. cbn [map].
    econstructor; [apply al_delete_solution, I; left; reflexivity | ].
    replace (filter (fun y => negb (nmem y (x :: l))) qs)
      with (filter (fun y => negb (nmem y l)) (without x qs)).
    + apply IH; [ | exact Nl]. intros y Iy. unfold without. apply filter_In.
      split; [apply I; right; exact Iy | ].
      destruct (Nat.eqb_spec y x) as [-> | _]; [exfalso; exact (Nx Iy) | reflexivity].
    + clear. induction qs as [ | y qs IH]; [reflexivity | ]. simpl.
      unfold nmem at 2. simpl. change (existsb (Nat.eqb y) l) with (nmem y l).
      destruct (Nat.eqb y x); simpl; [exact IH | ].
      destruct (nmem y l); simpl; [exact IH | f_equal; exact IH].
Qed.

Lemma filter_rest : forall (l a qs : list nat), (forall q, In q l -> ~ In q qs) -> incl a l ->
  filter (fun y => negb (nmem y l)) (a ++ qs) = qs.
Proof.
  intros l a qs D I. rewrite filter_app.
  assert (E1 : filter (fun y => negb (nmem y l)) a = []).
  { induction a as [ | y a IH]; [reflexivity | ]. simpl.
    rewrite (proj2 (nmem_in y l) (I y (or_introl eq_refl))). simpl. apply IH.
    intros z Iz. apply I. right. exact Iz. }
  rewrite E1. cbn [app]. clear E1 I. induction qs as [ | y qs IH]; [reflexivity | ]. simpl.
  destruct (nmem y l) eqn:E; simpl.
  - exfalso. apply nmem_in in E. exact (D y E (or_introl eq_refl)).
  - f_equal. apply IH. intros q Iq J. exact (D q Iq (or_intror J)).
Qed.

Definition fresh_names (n : driver_names) (sc : scope) : Prop :=
  ~ In (n_mesh n) (sc_meshes sc) /\ ~ In (n_electric n) (names (sc_solvers sc)) /\
  ~ In (n_magnetic n) (names (sc_solvers sc)) /\ n_electric n <> n_magnetic n /\
  NoDup (n_electric_solutions n) /\ NoDup (n_magnetic_solutions n) /\
  (forall q, In q (n_electric_solutions n) -> ~ In q (sc_solutions sc)) /\
  (forall q, In q (n_magnetic_solutions n) -> ~ In q (n_electric_solutions n) /\ ~ In q (sc_solutions sc)).

Definition with_driver (n : driver_names) (sc : scope) : scope :=
  {| sc_meshes := n_mesh n :: sc_meshes sc;
     sc_solvers := (n_magnetic n, (Some (n_mesh n), some (n_magnetic_solutions n))) ::
                   (n_electric n, (Some (n_mesh n), some (n_electric_solutions n))) :: sc_solvers sc;
     sc_solutions := rev (n_magnetic_solutions n) ++ rev (n_electric_solutions n) ++ sc_solutions sc |}.

Lemma constructor_ok : forall n open export sc, fresh_names n sc ->
  disciplined sc (driver_constructor n open export) (with_driver n sc).
Proof.
  intros n open export [ms ss qs] (F1 & F2 & F3 & F4 & N1 & N2 & D1 & D2).
  cbn [sc_meshes sc_solvers sc_solutions] in *. unfold driver_constructor, with_driver.
  cbn [sc_meshes sc_solvers sc_solutions].
  econstructor; [apply al_new_mesh, F1 | ].
  eapply disciplined_app.
  - apply solve_all_ok; [left; reflexivity | exact F2 | exact N1 | exact D1].
  - apply solve_all_ok; [left; reflexivity | | exact N2 | ].
    + simpl. intros [E | I]; [exact (F4 E) | exact (F3 I)].
    + intros q Iq J. destruct (D2 q Iq) as (A & B). apply in_app_or in J. destruct J as [J | J].
      * apply in_rev in J. exact (A J).
      * exact (B J).
Qed.

(** No solver of the scope uses a mesh that is not there. *)
Definition scoped (sc : scope) : Prop :=
  forall x m i, In (x, (Some m, i)) (sc_solvers sc) -> In m (sc_meshes sc).

Lemma orphan_fresh : forall m ss, (forall x m' i, In (x, (Some m', i)) ss -> m' <> m) -> map (orphan m) ss = ss.
Proof.
  intros m. induction ss as [ | [x [ [m'|] i] ] ss IH]; intro H; [reflexivity | | ]; simpl.
  - rewrite (proj2 (Nat.eqb_neq m' m) (H x m' i (or_introl eq_refl))). f_equal. apply IH.
    intros y m2 j I. apply (H y m2 j). right. exact I.
  - f_equal. apply IH. intros y m2 j I. apply (H y m2 j). right. exact I.
Qed.
Lemma without_fresh : forall x l, ~ In x l -> without x l = l.
Proof.
  intros x. induction l as [ | y l IH]; intro F; [reflexivity | ]. simpl.
  destruct (Nat.eqb_spec y x) as [-> | Ne]; [exfalso; apply F; left; reflexivity | ]. simpl. f_equal.
  apply IH. intro I. apply F. right. exact I.
Qed.

Lemma destructor_ok : forall n sc, fresh_names n sc -> scoped sc ->
  disciplined (with_driver n sc) (driver_destructor n) sc.
Proof.
  intros n [ms ss qs] (F1 & F2 & F3 & F4 & N1 & N2 & D1 & D2) W.
  cbn [sc_meshes sc_solvers sc_solutions] in *. unfold driver_destructor, with_driver, scoped in *.
  cbn [sc_meshes sc_solvers sc_solutions] in *.
  eapply disciplined_app.
  { apply delete_all; [ | exact N2]. intros q Iq. apply in_or_app. left. apply in_rev in Iq. exact Iq. }
  rewrite filter_rest; [ | | intros q Iq; apply in_rev; exact Iq].
  2: { intros q Iq J. destruct (D2 q Iq) as (A & B). apply in_app_or in J. destruct J as [J | J];
       [apply in_rev in J; exact (A J) | exact (B J)]. }
  cbn [app]. econstructor; [apply al_delete_solver; left; reflexivity | ].
  eapply disciplined_app.
  { apply delete_all; [ | exact N1]. intros q Iq. apply in_or_app. left. apply in_rev in Iq. exact Iq. }
  rewrite filter_rest; [ | exact D1 | intros q Iq; apply in_rev; exact Iq].
  assert (E1 : drop_name (n_magnetic n)
     ((n_magnetic n, (Some (n_mesh n), some (n_magnetic_solutions n)))
      :: (n_electric n, (Some (n_mesh n), some (n_electric_solutions n))) :: ss)
     = (n_electric n, (Some (n_mesh n), some (n_electric_solutions n))) :: ss).
  { unfold drop_name; cbn [filter fst]. rewrite Nat.eqb_refl. cbn [negb].
    rewrite (proj2 (Nat.eqb_neq _ _) F4). cbn [negb]. f_equal. exact (drop_fresh _ _ F3). }
  rewrite E1.
  econstructor; [apply al_delete_solver; left; reflexivity | ].
  assert (E2 : drop_name (n_electric n)
     ((n_electric n, (Some (n_mesh n), some (n_electric_solutions n))) :: ss) = ss).
  { unfold drop_name; cbn [filter fst]. rewrite Nat.eqb_refl. cbn [negb]. exact (drop_fresh _ _ F2). }
  rewrite E2.
  econstructor; [apply al_delete_mesh; left; reflexivity | ].
  rewrite orphan_fresh.
  2: { intros x m' i I E. subst m'. exact (F1 (W x _ i I)). }
  assert (E3 : without (n_mesh n) (n_mesh n :: ms) = ms).
  { unfold without; cbn [filter]. rewrite Nat.eqb_refl. cbn [negb]. exact (without_fresh _ _ F1). }
  rewrite E3. constructor.
Qed.

(** ** The calls *)

Lemma with_driver_names : forall n sc, fresh_names n sc -> NoDup (names (sc_solvers sc)) ->
  NoDup (names (sc_solvers (with_driver n sc))).
Proof.
  intros n sc (F1 & F2 & F3 & F4 & _) N. cbn [with_driver sc_solvers names map fst].
  constructor; [intros [E | I]; [exact (F4 E) | exact (F3 I)] | ].
  constructor; assumption.
Qed.
Lemma driver_matrices : forall n export sc, fresh_names n sc -> NoDup (names (sc_solvers sc)) ->
  disciplined (with_driver n sc)
    (matrix_calls (n_electric n) export (n_electric_solutions n) ++
     matrix_calls (n_magnetic n) export (n_magnetic_solutions n)) (with_driver n sc).
Proof.
  intros n export sc F N. pose proof (with_driver_names n sc F N) as N'.
  eapply disciplined_app.
  - eapply matrix_ok; [exact N' | right; left; reflexivity | ].
    intros q Iq. cbn [with_driver sc_solutions]. apply in_or_app. right. apply in_or_app. left.
    apply in_rev in Iq. exact Iq.
  - eapply matrix_ok; [exact N' | left; reflexivity | ].
    intros q Iq. cbn [with_driver sc_solutions]. apply in_or_app. left. apply in_rev in Iq. exact Iq.
Qed.

(** Names from k on are not in use. *)
Definition below (k : nat) (sc : scope) : Prop :=
  (forall m, In m (sc_meshes sc) -> (m < k)%nat) /\ (forall x, In x (names (sc_solvers sc)) -> (x < k)%nat) /\
  (forall q, In q (sc_solutions sc) -> (q < k)%nat).

Lemma sub_fresh : forall k c sc, below k sc ->
  fresh_names (sub_names k c)
    {| sc_meshes := k :: sc_meshes sc; sc_solvers := sc_solvers sc; sc_solutions := sc_solutions sc |}.
Proof.
  intros k c sc (B1 & B2 & B3). unfold fresh_names; cbn [sub_names n_mesh n_electric n_magnetic
    n_electric_solutions n_magnetic_solutions sc_meshes sc_solvers sc_solutions].
  split; [intros [E | I]; [lia | apply B1 in I; lia] | ].
  split; [intro I; apply B2 in I; lia | ]. split; [intro I; apply B2 in I; lia | ].
  split; [lia | ]. split; [apply seq_NoDup | ]. split; [apply seq_NoDup | ].
  split; [intros q Iq J; apply in_seq in Iq; apply B3 in J; lia | ].
  intros q Iq. apply in_seq in Iq. split; [intro J; apply in_seq in J; lia | intro J; apply B3 in J; lia].
Qed.

Lemma by_domains_ok : forall k export l sc, below k sc -> scoped sc -> NoDup (names (sc_solvers sc)) ->
  disciplined sc (by_domains k export l) sc.
Proof.
  intros k export l sc B W N. unfold by_domains. apply same_loop. intros [c open] _.
  cbn [fst snd]. pose proof (sub_fresh k c sc B) as F. destruct sc as [ms ss qs].
  cbn [sc_meshes sc_solvers sc_solutions] in *.
  cbn [app]. econstructor; [apply al_new_mesh; intro I; apply (proj1 B) in I; cbn in I; lia | ].
  eapply disciplined_app; [apply constructor_ok, F | ].
  rewrite app_assoc.
  eapply disciplined_app; [apply driver_matrices; [exact F | exact N] | ].
  eapply disciplined_app.
  - apply destructor_ok; [exact F | ]. unfold scoped in *; cbn [sc_meshes sc_solvers] in *.
    intros x m i I. right. exact (W x m i I).
  - econstructor; [apply al_delete_mesh; left; reflexivity | ].
    rewrite orphan_fresh.
    2: { intros x m' i I E. subst m'. apply (W x k i) in I. apply (proj1 B) in I. lia. }
    assert (E3 : without k (k :: ms) = ms).
    { unfold without; cbn [filter]. rewrite Nat.eqb_refl. cbn [negb]. apply without_fresh.
      intro I. apply (proj1 B) in I. cbn in I. lia. }
    rewrite E3. constructor.
Qed.

Lemma top_fresh : forall c, fresh_names (sub_names 0 c) no_scope.
Proof.
  intro c. unfold fresh_names; cbn [sub_names n_mesh n_electric n_magnetic
    n_electric_solutions n_magnetic_solutions sc_meshes sc_solvers sc_solutions no_scope names map].
  split; [intros [] | ]. split; [intros [] | ]. split; [intros [] | ]. split; [lia | ].
  split; [apply seq_NoDup | ]. split; [apply seq_NoDup | ]. split; [intros q _ [] | ].
  intros q Iq. apply in_seq in Iq. split; [intro J; apply in_seq in J; lia | intros []].
Qed.

Lemma call_ok : forall c export call,
  disciplined (with_driver (sub_names 0 c) no_scope)
    (call_ops (sub_names 0 c) (S (S (c + c))) export call) (with_driver (sub_names 0 c) no_scope).
Proof.
  intros c export call. pose proof (top_fresh c) as F.
  assert (N : NoDup (names (sc_solvers no_scope))) by constructor.
  pose proof (with_driver_names _ _ F N) as N'.
  destruct call as [ | | | l]; cbn [call_ops].
  - apply driver_matrices; assumption.
  - apply driver_matrices; assumption.
  - assert (IE : incl (n_electric_solutions (sub_names 0 c)) (sc_solutions (with_driver (sub_names 0 c) no_scope))).
    { intros q Iq. cbn [with_driver sc_solutions]. apply in_or_app. right. apply in_or_app. left.
      apply in_rev in Iq. exact Iq. }
    assert (IM : incl (n_magnetic_solutions (sub_names 0 c)) (sc_solutions (with_driver (sub_names 0 c) no_scope))).
    { intros q Iq. cbn [with_driver sc_solutions]. apply in_or_app. left. apply in_rev in Iq. exact Iq. }
    eapply disciplined_app; [eapply matrix_ok; [exact N' | right; left; reflexivity | exact IE] | ].
    eapply disciplined_app; [eapply field_ok; [right; left; reflexivity | exact IE] | ].
    eapply disciplined_app; [eapply matrix_ok; [exact N' | left; reflexivity | exact IM] | ].
    eapply field_ok; [left; reflexivity | exact IM].
  - apply by_domains_ok; [ | | exact N'].
    + unfold below. cbn [with_driver sub_names sc_meshes sc_solvers sc_solutions no_scope n_mesh n_electric
        n_magnetic n_electric_solutions n_magnetic_solutions names map fst].
      split; [intros m [<- | [] ]; lia | ]. split; [intros x [<- | [<- | [] ] ]; lia | ].
      intros q Iq. rewrite app_nil_r in Iq. apply in_app_or in Iq.
      destruct Iq as [Iq | Iq]; apply in_rev in Iq; apply in_seq in Iq; lia.
    + intros x m i I. cbn [with_driver sc_solvers no_scope sc_meshes] in I |- *.
      destruct I as [E | [E | [] ] ]; injection E as _ <- _; left; reflexivity.
Qed.

Lemma driver_life_ok : forall c open export calls,
  disciplined no_scope (driver_life c open export calls) no_scope.
Proof.
  intros c open export calls. unfold driver_life.
  eapply disciplined_app; [apply constructor_ok, top_fresh | ].
  eapply disciplined_app; [apply same_loop; intros call _; apply call_ok | ].
  apply destructor_ok; [apply top_fresh | ]. intros x m i [].
Qed.

Lemma driver_never_throws : forall c open export calls, throws_none (driver_life c open export calls).
Proof.
  assert (A : forall p q, throws_none p -> throws_none q -> throws_none (p ++ q)).
  { intros p q HA HB m f I. apply in_app_or in I. destruct I as [I | I]; [exact (HA m f I) | exact (HB m f I)]. }
  assert (FM : forall A (g : A -> list op) l, (forall a, throws_none (g a)) -> throws_none (flat_map g l)).
  { intros B g l H m f I. apply in_flat_map in I. destruct I as (a & _ & Ia). exact (H a m f Ia). }
  assert (MM : forall A (g : A -> op) l, (forall a m f, g a <> FailedSolver m f) -> throws_none (map g l)).
  { intros B g l H m f I. apply in_map_iff in I. destruct I as (a & E & _). exact (H a m f E). }
  assert (ONE : forall c p, (forall m f, c <> FailedSolver m f) -> throws_none p -> throws_none (c :: p)).
  { intros c p H1 H2 m f [E | I]; [exact (H1 m f E) | exact (H2 m f I)]. }
  assert (NIL : throws_none []) by (intros m f []).
  assert (EX : forall (b : bool) x g, throws_none (if b then [Get x g] else [])).
  { intros b x g. destruct b; [apply ONE; [discriminate | exact NIL] | exact NIL]. }
  assert (SA : forall x m o e l, throws_none (solve_all x m o e l)).
  { intros x m o e l. unfold solve_all. apply ONE; [discriminate | ]. apply FM. intro q.
    cbn [app]. do 2 (apply ONE; [discriminate | ]). apply A; [apply EX | apply ONE; [discriminate | exact NIL] ]. }
  assert (DC : forall n o e, throws_none (driver_constructor n o e)).
  { intros n o e. unfold driver_constructor. apply ONE; [discriminate | ]. apply A; apply SA. }
  assert (DD : forall n, throws_none (driver_destructor n)).
  { intro n. unfold driver_destructor. apply A; [apply MM; discriminate | ]. apply ONE; [discriminate | ].
    apply A; [apply MM; discriminate | ]. do 2 (apply ONE; [discriminate | ]). exact NIL. }
  assert (MC : forall x e l, throws_none (matrix_calls x e l)).
  { intros x e l. unfold matrix_calls. apply FM. intro q. apply ONE; [discriminate | ].
    apply A; [apply MM; discriminate | apply EX]. }
  assert (FC : forall x e l, throws_none (field_calls x e l)).
  { intros x e l. unfold field_calls. apply FM. intro q. apply A; [apply MM; discriminate | ].
    apply A; [apply EX | ]. do 5 (apply ONE; [discriminate | ]). exact NIL. }
  intros c open export calls. unfold driver_life. apply A; [apply DC | ]. apply A; [ | apply DD].
  apply FM. intro call. destruct call as [ | | | l]; cbn [call_ops].
  - apply A; apply MC.
  - apply A; apply MC.
  - apply A; [apply MC | ]. apply A; [apply FC | ]. apply A; [apply MC | apply FC].
  - unfold by_domains. apply FM. intro d. apply ONE; [discriminate | ].
    apply A; [apply DC | ]. apply A; [apply MC | ]. apply A; [apply MC | ]. apply A; [apply DD | ].
    apply ONE; [discriminate | exact NIL].
Qed.

Lemma nothing_left_behind : forall p, throws_none p -> list_sum (map left_behind p) = 0%nat.
Proof.
  induction p as [ | c p IH]; intro H; [reflexivity | ].
  unfold list_sum in *. cbn [map fold_right].
  rewrite IH by (intros m f I; apply (H m f); right; exact I).
  destruct c; try reflexivity. exfalso. exact (H m c (or_introl eq_refl)).
Qed.

Lemma execute_app : forall p w q, execute w (p ++ q) =
  match execute w p with Good w' => execute w' q | Bad e => Bad e end.
Proof.
  induction p as [ | c p IH]; intros w q; [reflexivity | ]. cbn [app execute].
  destruct (exec w c) as [w' | e]; [apply IH | reflexivity].
Qed.

(** ** Copies *)

Lemma destroy_dead : forall o h, ~ In (o_phi o) (h_live h) -> destroy o h = Bad DoubleFree.
Proof.
  intros o h N. unfold destroy, mbind at 1, free at 1.
  destruct (nmem (o_phi o) (h_live h)) eqn:E; [exfalso; apply N, nmem_in, E | reflexivity].
Qed.
Lemma solve_dead : forall o h, ~ In (fo_at (o_h1SurfMass o)) (h_live h) -> solve o h = Bad UseAfterFree.
Proof.
  intros o h N. unfold solve, mbind at 1, touch at 1.
  destruct (nmem (fo_at (o_h1SurfMass o)) (h_live h)) eqn:E; [exfalso; apply N, nmem_in, E | reflexivity].
Qed.

Lemma copy_facts : forall w sc K x y, inv w sc K -> In x (names (sc_solvers sc)) ->
  exists o, find_name x (w_solvers w) = Some o /\
    exec w (CopySolver y x) =
      Good {| w_heap := w_heap w; w_meshes := w_meshes w; w_solvers := (y, o) :: w_solvers w;
              w_solutions := w_solutions w |} /\
    exists h', destroy o (w_heap w) = Good (tt, h') /\ (forall a, In a (cells o) -> ~ In a (h_live h')).
Proof.
  intros w sc K x y I Ix. pose proof I as (S & O & Em & Eq & F & Q & N1 & N2 & N3).
  destruct (in_names _ _ Ix) as (v & Iv).
  destruct (solver_object_of _ _ _ _ _ _ F N2 Iv) as (o & Fo & Io & _).
  exists o. split; [exact Fo | split; [unfold exec; rewrite Fo; reflexivity | ] ].
  assert (Nl : NoDup (names (w_solvers w))) by (rewrite (solvers_names _ _ _ _ F); exact N2).
  assert (P : exists R, Permutation (K ++ all_cells w) (cells o ++ R)).
  { unfold all_cells.
    pose proof (Permutation_flat_map (fun p => cells (snd p)) (drop_perm x o _ Nl Fo)) as PP.
    cbn [flat_map snd] in PP. eexists.
    eapply Permutation_trans; [do 2 apply Permutation_app_head; apply Permutation_app_tail; exact PP | ].
    rewrite <- app_assoc. apply Permutation_sym. apply (app_swap (cells o) K (map snd (w_meshes w)) []). }
  destruct P as (R & P). pose proof (owns_perm _ _ _ _ P O) as O1.
  destruct (wp_inv _ _ _ _ (destroy_ok o _ _ _ O1)) as ([] & h' & E & O').
  exists h'. split; [exact E | ]. intros a Ia J.
  pose proof (owns_nodup _ _ _ O1) as ND. destruct O' as (P' & _).
  pose proof (Permutation_in _ P' J) as JR.
  clear - ND Ia JR. induction (cells o) as [ | b l IH]; [destruct Ia | ].
  cbn [app] in ND. inversion ND as [ | ? ? Nb Nl]; subst. destruct Ia as [<- | Ia].
  - apply Nb. apply in_or_app. right. exact JR.
  - exact (IH Ia Nl).
Qed.
