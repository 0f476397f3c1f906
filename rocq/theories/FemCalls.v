(** The fields computed by a new solver, in terms of the weak form (C57-C59). *)
From Coq Require Import Reals Lra.
From Verif Require Import Prelude StdMap Matrix Solver Fem RSum LinAlg ListLemmas SpecSolver SpecCharge SpecField SpecFem
  SolverProofs ChargeProofs FieldProofs FemProofs.
Open Scope R_scope.
Open Scope list_scope.

Lemma solve_phi_length abc (D : discretization R) cf mk ess phi0 sigma :
  List.length (solve_phi abc D cf mk ess phi0 sigma) = di_nH1 D.
Proof.
  unfold solve_phi. destruct (solve_system _ _) as [x|] eqn:E; [|apply repeat_length].
  apply (solve_some (form_matrix (divEpsGrad abc D cf mk) ess) _ x eq_refl E).
Qed.
Lemma resolve_phi_length abc (D : discretization R) cf mk elim ess phi0 sigma :
  List.length (resolve_phi abc D cf mk elim ess phi0 sigma) = di_nH1 D.
Proof.
  unfold resolve_phi. destruct (solve_system _ _) as [x|] eqn:E; [|apply repeat_length].
  apply (solve_some (form_matrix (divEpsGrad abc D cf mk) elim) _ x eq_refl E).
Qed.
Lemma solve_d_length (D : discretization R) cf e : List.length (solve_d D cf e) = di_nRT D.
Proof.
  unfold solve_d. destruct (solve_system _ _) as [x|] eqn:E; [|apply repeat_length].
  apply (solve_some (hDivMass D) _ x eq_refl E).
Qed.
Lemma discretize_ok abc (D : discretization R) : tables_ok D -> fem_ok (discretize abc D).
Proof.
  intros OK. constructor; cbn.
  - apply Forall_forall. intros b I. apply (to_bdr D OK b I).
  - intros. apply resolve_phi_length.
  - intros. unfold solve_e. rewrite map_length. apply (to_gradient D OK).
  - intros. apply solve_d_length.
Qed.

Section Solved.
  Variable abc : R * R -> R.
  Variable D : discretization R.
  Hypothesis OK : tables_ok D.
  Notation F := (discretize abc D).
  Notation n := (di_nH1 D).
  Variable dbg : bool.

  Lemma eps_value p e a : inputs_ok F p -> msorted (si_eps p) -> build_eps F dbg (si_eps p) = Ok e ->
    (0 < a <= di_domMax D)%Z -> coef_at e a = eps_of (si_eps p) a.
  Proof.
    intros Hp S E Ha. unfold build_eps in E. destruct (si_eps p) as [|ae l] eqn:El.
    - injection E as <-. reflexivity.
    - rewrite <- El in *. apply bind_ok in E as (v & Ev & [= <-]).
      destruct (build_eps_fold dbg (si_eps p) (repeat n1 (Z.to_nat (di_domMax D)))) as (v' & E' & L & Nv).
      { eapply Forall_impl; [|exact (io_eps F p Hp)]. cbn. intros b Hb. rewrite repeat_length. lia. }
      change (fe_domMax F) with (di_domMax D) in Ev. rewrite E' in Ev. injection Ev as <-. cbn [coef_at].
      assert (G : nth_error v' (Z.to_nat (a - 1)) = Some (eps_of (si_eps p) a)).
      { rewrite (Nv _ 1).
        - rewrite eps_fold by (now apply msorted_nodup). replace (Z.of_nat (Z.to_nat (a - 1)) + 1)%Z with a by lia. f_equal. apply Rmult_1_l.
        - rewrite nth_error_nth' with (d := 1) by (rewrite repeat_length; lia). f_equal. apply nth_repeat. }
      now apply nth_error_nth.
  Qed.
  Lemma open_marked p m a : inputs_ok F p -> AttrToMarker (di_bdrMax D) (si_open p) = Ok m -> (0 < a <= di_bdrMax D)%Z ->
    marked m a = zmem a (si_open p).
  Proof.
    intros Hp E Ha. destruct (si_open p) as [|b l] eqn:El.
    - injection E as <-. unfold marked. destruct (Z.to_nat (a - 1)); reflexivity.
    - destruct (marker_positive (di_bdrMax D) (b :: l)) as (m' & E' & Lm & _ & Hm); [discriminate|rewrite <- El; apply (io_open F p Hp)|].
      assert (m' = m) by congruence. subst m'. unfold marked.
      assert (Hn : (Z.to_nat (a - 1) < List.length m)%nat) by lia.
      pose proof (nth_error_nth' m false Hn) as En. apply Hm in En.
      replace (Z.of_nat (Z.to_nat (a - 1)) + 1)%Z with a in En by lia.
      destruct (nth (Z.to_nat (a - 1)) m false), (zmem a (b :: l)) eqn:Z; auto.
      + assert (In a (b :: l)) by now apply En. apply zmem_in in H. congruence.
      + apply zmem_in in Z. apply En in Z. discriminate.
  Qed.
  Lemma filter_ext_in' {A} (f g : A -> bool) l : (forall x, In x l -> f x = g x) -> filter f l = filter g l.
  Proof. apply filter_ext_in. Qed.
  Lemma work_same p e m phi psi : inputs_ok F p -> msorted (si_eps p) -> build_eps F dbg (si_eps p) = Ok e ->
    AttrToMarker (di_bdrMax D) (si_open p) = Ok m -> workc abc D e m phi psi = work abc D p phi psi.
  Proof.
    intros Hp S Ee Em. unfold workc, work, open_points. f_equal.
    - apply Rsum_ext. intros q I. rewrite (eps_value p e _ Hp S Ee); [reflexivity|]. apply (to_grad D OK q I).
    - rewrite (filter_ext_in _ (fun q => zmem (b_attr q) (si_open p))); [reflexivity|]. intros q I.
      apply (open_marked p m _ Hp Em). apply (to_abc D OK q I).
  Qed.
  (** a problem and what the solver of it contains *)
  Record solver_of (p : solver_inputs R) (s : solver R) (ess : list nat) (phi0 : list R) : Prop := {
    sf_eps : build_eps F dbg (si_eps p) = Ok (s_eps s);
    sf_open : AttrToMarker (di_bdrMax D) (si_open p) = Ok (s_open s);
    sf_sigma : List.length (s_sigma s) = n /\ forall k, (k < n)%nat -> prescribed_value F (si_neumann p) k (nth k (s_sigma s) 0);
    sf_ess : forall k, In k ess <-> exists t v, In (t, v) (si_dirichlet p) /\ on_boundary F t k;
    sf_phi0 : List.length phi0 = n /\ forall k, (k < n)%nat -> prescribed_value F (si_dirichlet p) k (nth k phi0 0) }.
  Lemma on_bdr_lt t k : on_boundary F t k -> (k < n)%nat.
  Proof. intros (b & I & _ & J). apply (proj2 (to_bdr D OK b I)). exact J. Qed.

  Lemma solver_positive p e q : inputs_ok F p -> msorted (si_eps p) -> build_eps F dbg (si_eps p) = Ok e ->
    (forall t x, In (t, x) (si_eps p) -> 0 < x) -> In q (di_grad D) -> 0 < coef_at e (g_attr q).
  Proof.
    intros Hp S E P I. rewrite (eps_value p e _ Hp S E) by apply (to_grad D OK q I).
    unfold eps_of. destruct (find _ _) as [ae|] eqn:Ef; [|lra]. apply find_some in Ef as [If _]. destruct ae as [t x]. exact (P t x If).
  Qed.
  Section One.
    Variable p : solver_inputs R.
    Hypothesis Hp : problem_ok abc D p.
    Hypothesis An : anchored abc D p.
    Variables (s : solver R) (ess : list nat) (phi0 : list R).
    Hypothesis So : solver_of p s ess phi0.
    Lemma one_pos q : In q (di_grad D) -> 0 < coef_at (s_eps s) (g_attr q).
    Proof.
      apply (solver_positive p); [apply (po_inputs _ _ _ Hp)|apply (po_sorted _ _ _ Hp)|apply (sf_eps _ _ _ _ So)|apply (po_eps _ _ _ Hp)].
    Qed.
    Lemma one_marked q : In q (di_abc D) -> marked (s_open s) (b_attr q) = true -> In q (open_points D p).
    Proof.
      intros I M. unfold open_points. apply filter_In. split; [exact I|].
      rewrite <- (open_marked p (s_open s)); [exact M|apply (po_inputs _ _ _ Hp)|apply (sf_open _ _ _ _ So)|apply (to_abc D OK q I)].
    Qed.
    Lemma one_abc q : In q (di_abc D) -> marked (s_open s) (b_attr q) = true -> 0 < abc (b_pos q).
    Proof. intros I M. apply (po_abc _ _ _ Hp). now apply one_marked. Qed.
    Lemma one_anchored z : List.length z = n -> (forall k, (k < n)%nat -> In k ess -> nth k z 0 = 0) ->
      (forall q, In q (di_grad D) -> dot (g_x q) z = 0 /\ dot (g_y q) z = 0) ->
      (forall q, In q (di_abc D) -> marked (s_open s) (b_attr q) = true -> dot (b_shape q) z = 0) -> z = repeat 0 n.
    Proof.
      intros Lz Zz G1 G2. apply An; auto.
      - intros t v k I B. rewrite <- (Zz k); [apply nth_error_nth0; rewrite Lz|..]; try (eapply on_bdr_lt; exact B).
        apply (sf_ess _ _ _ _ So). eauto.
      - intros q I. unfold open_points in I. apply filter_In in I as [I M]. apply G2; auto.
        rewrite (open_marked p (s_open s)); [exact M|apply (po_inputs _ _ _ Hp)|apply (sf_open _ _ _ _ So)|apply (to_abc D OK q I)].
    Qed.
    Lemma one_solve : weak abc D (s_eps s) (s_open s) ess (s_sigma s) phi0 (solve_phi abc D (s_eps s) (s_open s) ess phi0 (s_sigma s)).
    Proof. apply (solve_weak abc D OK (s_eps s) (s_open s) one_pos one_abc ess one_anchored). Qed.
    Lemma one_unique x y : weak abc D (s_eps s) (s_open s) ess (s_sigma s) phi0 x ->
      weak abc D (s_eps s) (s_open s) ess (s_sigma s) phi0 y -> x = y.
    Proof. apply (weak_unique abc D OK (s_eps s) (s_open s) one_pos one_abc ess one_anchored). Qed.
    Lemma one_work phi psi : workc abc D (s_eps s) (s_open s) phi psi = work abc D p phi psi.
    Proof. apply work_same; [apply (po_inputs _ _ _ Hp)|apply (po_sorted _ _ _ Hp)|apply (sf_eps _ _ _ _ So)|apply (sf_open _ _ _ _ So)]. Qed.
    Lemma one_minimises x psi : weak abc D (s_eps s) (s_open s) ess (s_sigma s) phi0 x -> List.length psi = n ->
      (forall k, (k < n)%nat -> In k ess -> nth k psi 0 = nth k phi0 0) -> psi <> x ->
      energy abc D p (s_sigma s) x < energy abc D p (s_sigma s) psi.
    Proof.
      intros W L E N. pose proof (weak_minimises abc D OK (s_eps s) (s_open s) one_pos one_abc ess one_anchored _ _ x psi W L E N) as M.
      unfold energyc in M. rewrite !one_work in M. exact M.
    Qed.
  End One.

  Lemma computes_inv p x : problem_ok abc D p -> computes abc D dbg p x ->
    exists s ess phi0, mkSolver F dbg p = Ok s /\ solver_of p s ess phi0 /\
      so_phi x = solve_phi abc D (s_eps s) (s_open s) ess phi0 (s_sigma s) /\ so_e x = solve_e D (so_phi x) /\
      so_d x = solve_d D (s_eps s) (so_e x).
  Proof.
    intros Hp (s & Es & Ex). pose proof (discretize_ok abc D OK) as Hf. pose proof (po_inputs _ _ _ Hp) as Hi.
    destruct (Solve_prescribes F dbg p s Hf Hi (proj1 (po_sorted _ _ _ Hp)) (po_dirichlet _ _ _ Hp) Es) as (phi0 & ess & phi & Ef & Ep & He & L0 & H0).
    destruct (mkSolver_ok F dbg p Hi) as (s' & Es' & Ps & _ & Eo & Ee & Esig & Ls & _). assert (s' = s) by congruence. subst s'.
    rewrite Ef in Ex. injection Ex as <-. exists s, ess, phi0. split; [exact Es|]. split; [constructor; auto|].
    - destruct (boundary_values F (si_neumann p)) as (sg & Eg & Lg & Hg); [apply (po_sorted _ _ _ Hp)|apply (io_neu F p Hi)|].
      assert (sg = s_sigma s) by congruence. subst sg. split; [exact Ls|]. intros k L. destruct (Hg k L) as (v & Ev & Pv).
      now rewrite (nth_error_nth _ _ 0 Ev).
    - split; [exact L0|]. intros k L. destruct (H0 k L) as (v & Ev & Pv). now rewrite (nth_error_nth _ _ 0 Ev).
    - cbn. rewrite Ep. cbn [discretize fe_phi]. rewrite resolve_first. auto.
  Qed.
End Solved.
