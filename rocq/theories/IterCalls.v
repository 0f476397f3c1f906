(** What a new solver computes with PCG, in terms of the weak form (C77, C78). *)
From Coq Require Import Reals Lra Lia.
From Verif Require Import Prelude StdMap Matrix Solver Fem Iterative RSum LinAlg ListLemmas SpecSolver SpecDriver SpecCharge SpecField SpecFem SpecIter
  SolverProofs ChargeProofs FieldProofs FemProofs FemCalls FemFacts FemLaws PcgProofs IterProofs.
Open Scope R_scope.
Open Scope list_scope.

Local Opaque pcg iterated_phi reiterated_phi iterated_d.
Lemma Ok_inj' {A} (a b : A) : Ok a = Ok b -> a = b. Proof. now intros [= ->]. Qed.

Section Calls.
  Variable abc : R * R -> R.
  Variable D : discretization R.
  Hypothesis OK : tables_ok D.
  Notation F := (discretize abc D).
  Notation G := (discretize_pcg abc D).
  Notation n := (di_nH1 D).
  Variable dbg : bool.
  Variable p : solver_inputs R.
  Hypothesis Hp : problem_ok abc D p.

  Lemma same_inputs : inputs_ok G p. Proof. destruct (po_inputs _ _ _ Hp) as [H1 H2 H3 H4]. constructor; assumption. Qed.
  Lemma iterates_exists : exists y, iterates abc D dbg p y.
  Proof.
    destruct (mkSolver_ok G dbg p same_inputs) as (s & Es & _).
    destruct (Solve_prescribes G dbg p s (iterated_ok abc D OK) same_inputs (proj1 (po_sorted _ _ _ Hp)) (po_dirichlet _ _ _ Hp) Es) as (phi0 & ess & phi & Ef & _). eexists; exists s; eauto.
  Qed.
  Lemma iterates_inv y : iterates abc D dbg p y ->
    exists s ess phi0, mkSolver F dbg p = Ok s /\ solver_of abc D dbg p s ess phi0 /\
      so_phi y = iterated_phi abc D (s_eps s) (s_open s) ess phi0 (s_sigma s) /\ so_e y = solve_e D (so_phi y) /\
      so_d y = iterated_d D (s_eps s) (so_e y).
  Proof.
    intros (s & Es & Ex). pose proof (iterated_ok abc D OK) as Hf. pose proof same_inputs as Hi.
    destruct (Solve_prescribes G dbg p s Hf Hi (proj1 (po_sorted _ _ _ Hp)) (po_dirichlet _ _ _ Hp) Es) as (phi0 & ess & phi & Ef & Ep & He & L0 & H0).
    destruct (mkSolver_ok G dbg p Hi) as (s' & Es' & Ps & _ & Eo & Ee & Esig & Ls & _). assert (s' = s) by congruence. subst s'.
    rewrite Ef in Ex. apply Ok_inj' in Ex. subst y. exists s, ess, phi0. split; [exact Es|]. split; [constructor; auto|].
    - destruct (boundary_values G (si_neumann p)) as (sg & Eg & Lg & Hg); [apply (po_sorted _ _ _ Hp)|apply (io_neu G p Hi)|].
      assert (sg = s_sigma s) by congruence. subst sg. split; [exact Ls|]. intros k L. destruct (Hg k L) as (v & Ev & Pv).
      now rewrite (nth_error_nth _ _ 0 Ev).
    - split; [exact L0|]. intros k L. destruct (H0 k L) as (v & Ev & Pv). now rewrite (nth_error_nth _ _ 0 Ev).
    - cbn [so_phi so_e so_d]. split; [rewrite Ep; apply (reiterated_first abc D)|]. split; reflexivity.
  Qed.
  Hypothesis An : anchored abc D p.
  Variables (s : solver R) (ess : list nat) (phi0 : list R).
  Hypothesis So : solver_of abc D dbg p s ess phi0.
  Notation xs := (solve_phi abc D (s_eps s) (s_open s) ess phi0 (s_sigma s)).
  Notation y := (iterated_phi abc D (s_eps s) (s_open s) ess phi0 (s_sigma s)).
  Notation z := (start D ess phi0).
  Lemma computes_xs x : computes abc D dbg p x -> so_phi x = xs.
  Proof.
    intros C. destruct (computes_inv abc D OK dbg p x Hp C) as (s' & ess' & phi0' & Es & So' & Ep & _).
    pose proof (one_solve abc D OK dbg p Hp An s' ess' phi0' So') as W. rewrite <- Ep in W. destruct W as (Lx & Ex & Wx).
    assert (Ie : forall k, In k ess <-> In k ess') by (intros k; rewrite (sf_ess _ _ _ _ _ _ _ So k), (sf_ess _ _ _ _ _ _ _ So' k); reflexivity).
    assert (Pr : prescribed abc D p (so_phi x)) by (apply (prescribed_iff abc D OK dbg p s' ess' phi0' _ So' (proj1 (po_sorted _ _ _ Hp)) Lx); exact Ex).
    apply (one_unique abc D OK dbg p Hp An s ess phi0 So); [|exact (one_solve abc D OK dbg p Hp An s ess phi0 So)].
    split; [exact Lx|]. split; [exact (proj1 (prescribed_iff abc D OK dbg p s ess phi0 _ So (proj1 (po_sorted _ _ _ Hp)) Lx) Pr)|].
    intros psi L Z.
    assert (Sg : s_sigma s' = s_sigma s).
    { destruct (sf_sigma _ _ _ _ _ _ _ So) as (L1 & H1). destruct (sf_sigma _ _ _ _ _ _ _ So') as (L2 & H2). apply list_ext; [congruence|]. intros k Lk. rewrite L2 in Lk.
      specialize (H1 k Lk). specialize (H2 k Lk). destruct H1 as [(t & I1 & Le & B & M) | (E1 & M)], H2 as [(t' & I2 & Le' & B' & M') | (E2 & M')].
      - assert (t' = t) as -> by (pose proof (M _ _ I2 Le' B'); pose proof (M' _ _ I1 Le B); lia). pose proof (proj2 (proj2 (po_sorted _ _ _ Hp))) as S.
        apply (mget_in_iff t) in I1; [|exact S]. apply (mget_in_iff t) in I2; [|exact S]. congruence.
      - destruct (M' t _ I1 Le B).
      - destruct (M t' _ I2 Le' B').
      - congruence. }
    rewrite <- Sg. rewrite (one_work abc D OK dbg p Hp s ess phi0 So), <- (one_work abc D OK dbg p Hp s' ess' phi0' So').
    apply Wx; [exact L|]. intros k Lk I. apply Z; [exact Lk|now apply Ie].
  Qed.
  Notation wk := (workc abc D (s_eps s) (s_open s)).
  Notation pos := (one_pos abc D OK dbg p Hp s ess phi0 So).
  Notation ab := (one_abc abc D OK dbg p Hp s ess phi0 So).
  Notation anc := (one_anchored abc D OK dbg p Hp An s ess phi0 So).
  Lemma wk_work phi psi : wk phi psi = work abc D p phi psi. Proof. exact (one_work abc D OK dbg p Hp s ess phi0 So phi psi). Qed.
  Lemma minus_diff (a b : list R) : List.length a = n -> minus a b = diff D a b.
  Proof. intros L. unfold minus, diff, axpy. rewrite L. apply map_ext. intros k. unfold at_. cbn [nadd nmul n0 RNum]. ring. Qed.
  Lemma hat_basis i : hat n i = basis D i.
  Proof.
    apply list_ext; [unfold hat; rewrite length_mapseq; symmetry; apply basis_length|]. unfold hat. rewrite length_mapseq. intros k L.
    rewrite nth_mapseq, basis_nth by exact L. reflexivity.
  Qed.
  Lemma held_ess k : held abc D p k <-> In k ess. Proof. unfold held. symmetry. apply (sf_ess _ _ _ _ _ _ _ So). Qed.
  Lemma held_lt k : held abc D p k -> (k < n)%nat. Proof. intros (t & v & _ & B). exact (on_bdr_lt abc D OK t k B). Qed.
  Lemma zero_extension_start u : zero_extension abc D p u -> u = z.
  Proof.
    intros (L & P & Z). apply list_ext; [rewrite start_length; exact L|]. rewrite L. intros k Lk. rewrite start_nth by exact Lk.
    destruct (nmem k ess) eqn:M.
    - apply nmem_in in M. apply (proj1 (prescribed_iff abc D OK dbg p s ess phi0 u So (proj1 (po_sorted _ _ _ Hp)) L) P k Lk M).
    - apply Z; [exact Lk|]. intros H. apply held_ess, nmem_in in H. congruence.
  Qed.
  Lemma start_extension : zero_extension abc D p z.
  Proof.
    split; [apply start_length|]. split.
    - apply (prescribed_iff abc D OK dbg p s ess phi0 z So (proj1 (po_sorted _ _ _ Hp)) (start_length _ _ _)). intros k L I.
      rewrite start_nth by exact L. apply nmem_in in I. now rewrite I.
    - intros k L N. rewrite start_nth by exact L. destruct (nmem k ess) eqn:M; [|reflexivity]. apply nmem_in, held_ess in M. contradiction.
  Qed.
  Lemma energy_gap psi : List.length psi = n -> (forall k, (k < n)%nat -> In k ess -> nth k psi 0 = nth k phi0 0) ->
    energy abc D p (s_sigma s) psi = energy abc D p (s_sigma s) xs + / 2 * work abc D p (diff D xs psi) (diff D xs psi).
  Proof.
    intros Lp Ep. destruct (one_solve abc D OK dbg p Hp An s ess phi0 So) as (Lx & Ex & Wx). set (x := xs) in *. set (e := diff D x psi).
    assert (Le : List.length e = n) by apply axpy_length.
    assert (E1 : forall k, (k < n)%nat -> nth k psi 0 = nth k x 0 + -1 * nth k e 0) by (intros k L; unfold e, diff; rewrite axpy_nth by exact L; ring).
    assert (Ze : forall k, (k < n)%nat -> In k ess -> nth k e 0 = 0) by (intros k L I; unfold e, diff; rewrite axpy_nth, (Ex k L I), (Ep k L I) by exact L; ring).
    unfold energy. rewrite <- !wk_work.
    rewrite (workc_lin abc D (s_eps s) (s_open s) x e psi psi (-1) Lx Le Lp E1), (workc_sym abc D _ _ x psi), (workc_sym abc D _ _ e psi).
    rewrite (workc_lin abc D _ _ x e x psi (-1) Lx Le Lp E1), (workc_lin abc D _ _ x e e psi (-1) Lx Le Lp E1).
    rewrite (source_lin D (s_sigma s) x e psi (-1) Lx Le Lp E1), (workc_sym abc D _ _ e x), (Wx e Le Ze). lra.
  Qed.
  Lemma y_facts : List.length y = n /\ (forall k, (k < n)%nat -> In k ess -> nth k y 0 = nth k phi0 0) /\
    work abc D p (diff D xs y) (diff D xs y) <= work abc D p (diff D xs z) (diff D xs z).
  Proof. rewrite <- !wk_work. exact (iterated_spec abc D OK (s_eps s) (s_open s) pos ab ess anc phi0 (s_sigma s)). Qed.
  Lemma y_energy : energy abc D p (s_sigma s) xs <= energy abc D p (s_sigma s) y <= energy abc D p (s_sigma s) z.
  Proof.
    destruct y_facts as (Ly & Ey & W). rewrite (energy_gap y Ly Ey), (energy_gap z (start_length _ _ _)).
    - pose proof (workc_nonneg abc D OK (s_eps s) (s_open s) pos ab (diff D xs y)) as P. rewrite wk_work in P. lra.
    - intros k L I. rewrite start_nth by exact L. apply nmem_in in I. now rewrite I.
  Qed.
  Variables (c : R) (w : nat).
  Hypothesis Cd : conditioned n (work abc D p) (vanishing abc D p) c w.
  Lemma cd_cond u : List.length u = n -> (forall k, (k < n)%nat -> In k ess -> nth k u 0 = 0) ->
    Sum n (fun i => wk (basis D i) (basis D i) * (nth i u 0 * nth i u 0)) <= c * wk u u.
  Proof.
    intros L Z. rewrite wk_work. refine (Rle_trans _ _ _ _ (proj1 (proj2 Cd) u _)).
    - right. apply Sum_ext. intros i _. now rewrite hat_basis, wk_work.
    - split; [exact L|]. intros k H. rewrite (nth_error_nth0 u k) by (rewrite L; now apply held_lt). f_equal. apply Z; [now apply held_lt|now apply held_ess].
  Qed.
  Lemma cd_near i : (i < n)%nat -> exists l, (List.length l <= w)%nat /\ forall j, (j < n)%nat -> j <> i -> wk (basis D i) (basis D j) <> 0 -> In j l.
  Proof.
    intros L. destruct (proj2 (proj2 Cd) i L) as (l & Ll & H). exists l. split; [exact Ll|]. intros j Lj N E. apply H; auto. now rewrite !hat_basis, <- wk_work.
  Qed.
  Lemma y_error : work abc D p (diff D xs y) (diff D xs y) <=
    Rmax (kappa c w * @lit R _ 1 12) ((1 - / kappa c w) ^ 500) * work abc D p (diff D xs z) (diff D xs z).
  Proof.
    rewrite <- !wk_work. exact (iterated_error abc D OK (s_eps s) (s_open s) pos ab ess anc phi0 (s_sigma s) c w (proj1 Cd) cd_cond cd_near).
  Qed.
  Lemma y_error_small (free : list nat) : (forall k, (k < n)%nat -> held abc D p k \/ In k free) -> (List.length free <= 500)%nat ->
    work abc D p (diff D xs y) (diff D xs y) <= kappa c w * @lit R _ 1 12 * work abc D p (diff D xs z) (diff D xs z).
  Proof.
    intros Fr Le. rewrite <- !wk_work. apply (iterated_error_small abc D OK (s_eps s) (s_open s) pos ab ess anc phi0 (s_sigma s) c w (proj1 Cd) cd_cond cd_near free); [|exact Le].
    intros i L N. destruct (Fr i L) as [H | H]; [now apply held_ess|contradiction].
  Qed.
End Calls.
