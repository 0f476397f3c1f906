(** Minimal energy and superposition (C57, C58). *)
From Coq Require Import Reals Lra Permutation.
From Verif Require Import Prelude StdMap Matrix Solver Fem RSum LinAlg ListLemmas SpecSolver SpecCharge SpecField SpecFem
  DriverProofs SolverProofs ChargeProofs FieldProofs FemProofs FemCalls.
Open Scope R_scope.
Open Scope list_scope.

Section Facts.
  Variable abc : R * R -> R.
  Variable D : discretization R.
  Hypothesis OK : tables_ok D.
  Notation F := (discretize abc D).
  Notation n := (di_nH1 D).
  Variable dbg : bool.

  Lemma computes_exists p : problem_ok abc D p -> exists x, computes abc D dbg p x.
  Proof.
    intros Hp. destruct (mkSolver_ok F dbg p (po_inputs _ _ _ Hp)) as (s & Es & _).
    destruct (Solve_prescribes F dbg p s (discretize_ok abc D OK) (po_inputs _ _ _ Hp) (proj1 (po_sorted _ _ _ Hp)) (po_dirichlet _ _ _ Hp) Es)
      as (phi0 & ess & phi & Ef & _). eexists; exists s; eauto.
  Qed.
  Lemma bdr_le t k : on_boundary F t k -> (t <= di_bdrMax D)%Z.
  Proof. intros (b & I & <- & _). apply (to_bdr D OK b I). Qed.
  Lemma prescribed_iff p s ess phi0 psi : solver_of abc D dbg p s ess phi0 -> msorted (si_dirichlet p) -> List.length psi = n ->
    (prescribed abc D p psi <-> forall k, (k < n)%nat -> In k ess -> nth k psi 0 = nth k phi0 0).
  Proof.
    intros So S L. split.
    - intros P k Lk I. destruct (proj2 (sf_phi0 _ _ _ _ _ _ _ So) k Lk) as [(t & It & _ & B & M)|(_ & M)].
      + rewrite (nth_error_nth psi k 0 (P t _ k It B (fun t' v' I' B' => M t' v' I' (bdr_le t' k B') B'))). reflexivity.
      + apply (sf_ess _ _ _ _ _ _ _ So) in I as (t & v & I & B). destruct (M t v I (bdr_le t k B) B).
    - intros A t v k It B M. pose proof (on_bdr_lt abc D OK t k B) as Lk.
      assert (I : In k ess) by (apply (sf_ess _ _ _ _ _ _ _ So); eauto).
      rewrite (nth_error_nth0 psi k) by (rewrite L; exact Lk). f_equal. rewrite (A k Lk I).
      destruct (proj2 (sf_phi0 _ _ _ _ _ _ _ So) k Lk) as [(t' & It' & _ & B' & M')|(_ & M')].
      + assert (t' = t) as -> by (pose proof (M _ _ It' B'); pose proof (M' _ _ It (bdr_le t k B) B); lia).
        apply (mget_in_iff t) in It; [|exact S]. apply (mget_in_iff t) in It'; [|exact S]. congruence.
      + destruct (M' t v It (bdr_le t k B) B).
  Qed.
  Lemma minimal p x : problem_ok abc D p -> anchored abc D p -> computes abc D dbg p x ->
    exists sigma, surface_density abc D p sigma /\ potential D (so_phi x) /\ prescribed abc D p (so_phi x) /\
      (forall psi, potential D psi -> prescribed abc D p psi -> psi <> so_phi x ->
         energy abc D p sigma (so_phi x) < energy abc D p sigma psi) /\
      (forall psi, potential D psi -> (forall t v k, In (t, v) (si_dirichlet p) -> on_boundary F t k -> nth_error psi k = Some 0) ->
         work abc D p (so_phi x) psi = source D sigma psi).
  Proof.
    intros Hp An C. destruct (computes_inv abc D OK dbg p x Hp C) as (s & ess & phi0 & Es & So & Ep & _).
    pose proof (one_solve abc D OK dbg p Hp An s ess phi0 So) as W. rewrite <- Ep in W.
    destruct W as (Lx & Ex & Wx). pose proof (proj1 (po_sorted _ _ _ Hp)) as S.
    exists (s_sigma s). split; [exact (sf_sigma _ _ _ _ _ _ _ So)|]. split; [exact Lx|].
    split; [apply (prescribed_iff p s ess phi0 _ So S Lx); exact Ex|]. split.
    - intros psi L P N. apply (one_minimises abc D OK dbg p Hp An s ess phi0 So); auto.
      + split; auto.
      + apply (prescribed_iff p s ess phi0 _ So S L); exact P.
    - intros psi L Z. rewrite <- (one_work abc D OK dbg p Hp s ess phi0 So). apply Wx; [exact L|].
      intros k Lk I. apply (sf_ess _ _ _ _ _ _ _ So) in I as (t & v & I & B).
      apply nth_error_nth. exact (Z t v k I B).
  Qed.

  (** Superposition of prescribed values *)
  Lemma value_of_in l t v : msorted l -> In (t, v) l -> value_of l t = v.
  Proof. intros S I. unfold value_of. apply (mget_in_iff t v l S) in I. now rewrite I. Qed.
  Lemma value_combination ls c l k v (vs : nat -> R) : msorted l -> (forall l', In l' ls -> msorted l') -> combined_values ls c l ->
    prescribed_value F l k v -> (forall j, (j < List.length ls)%nat -> prescribed_value F (nth j ls []) k (vs j)) ->
    v = Sum (List.length ls) (fun j => c j * vs j).
  Proof.
    intros S Ss (Hk & Hv) P Ps. destruct P as [(t & It & Le & B & M)|(-> & M)].
    - rewrite (Hv t v It). apply Sum_ext. intros j Lj. f_equal.
      assert (Ij : In (nth j ls []) ls) by now apply nth_In. pose proof (Hk _ Ij) as Ek.
      assert (G : forall t' v', In (t', v') (nth j ls []) -> exists w, In (t', w) l).
      { intros t' v' I. apply (in_map fst) in I. rewrite Ek in I. apply in_map_iff in I as ([t'' w] & E & I). cbn in E. subst. eauto. }
      assert (T : exists w, In (t, w) (nth j ls [])).
      { apply (in_map fst) in It. rewrite <- Ek in It. apply in_map_iff in It as ([t'' w] & E & I). cbn in E. subst. eauto. }
      destruct (Ps j Lj) as [(t' & It' & Le' & B' & M')|(_ & M')].
      + destruct (G _ _ It') as (w' & Iw'). destruct T as (w & Iw).
        assert (t' = t) as -> by (pose proof (M _ _ Iw' Le' B'); pose proof (M' _ _ Iw Le B); lia).
        apply value_of_in; auto.
      + destruct T as (w & Iw). destruct (M' t w Iw Le B).
    - symmetry. apply Sum_zero. intros j Lj. assert (Ij : In (nth j ls []) ls) by now apply nth_In. pose proof (Hk _ Ij) as Ek.
      destruct (Ps j Lj) as [(t' & It' & Le' & B' & M')|(-> & _)]; [|cbn; lra].
      apply (in_map fst) in It'. rewrite Ek in It'. apply in_map_iff in It' as ([t'' w] & E & I). cbn in E. subst t''. destruct (M t' w I Le' B').
  Qed.
  Lemma combination_exists N c (us : nat -> list R) m : (forall j, (j < N)%nat -> List.length (us j) = m) ->
    exists y, List.length y = m /\ forall k, nth k y 0 = Sum N (fun j => c j * nth k (us j) 0).
  Proof.
    intros L. exists (to_list m (fun k => Sum N (fun j => c j * nth k (us j) 0))). split; [apply to_list_length|].
    intros k. destruct (Nat.lt_ge_cases k m) as [Lk|Lk]; [now apply (vec_to_list m)|].
    rewrite nth_overflow by (rewrite to_list_length; exact Lk). symmetry. apply Sum_zero. intros j Lj.
    rewrite nth_overflow by (rewrite L; auto). lra.
  Qed.
  Lemma workc_combination cf mk N c (us : nat -> list R) y psi : (forall j, (j < N)%nat -> List.length (us j) = n) ->
    List.length y = n -> (forall k, nth k y 0 = Sum N (fun j => c j * nth k (us j) 0)) ->
    workc abc D cf mk y psi = Sum N (fun j => c j * workc abc D cf mk (us j) psi).
  Proof.
    intros L Ly E. unfold workc.
    pose proof (fun a => dot_combination a y n N c us Ly L E) as A.
    rewrite (Sum_ext N _ (fun j => Rsum (di_grad D) (fun q => c j * (g_weight q * coef_at cf (g_attr q) * grad2 q (us j) psi)) +
      Rsum (filter (fun q => marked mk (b_attr q)) (di_abc D)) (fun q => c j * (b_weight q * abc (b_pos q) * (dot (b_shape q) (us j) * dot (b_shape q) psi))))).
    - rewrite Sum_plus, !Sum_Rsum. f_equal; apply Rsum_ext; intros q _.
      + unfold grad2. rewrite !A.
        rewrite (Sum_ext N (fun j => c j * (g_weight q * coef_at cf (g_attr q) * _)) (fun j => g_weight q * coef_at cf (g_attr q) * (c j * dot (g_x q) (us j) * dot (g_x q) psi + c j * dot (g_y q) (us j) * dot (g_y q) psi))) by (intros; ring).
        rewrite Sum_scal, Sum_plus, !Sum_scal_r. reflexivity.
      + rewrite !A. rewrite (Sum_ext N (fun j => c j * (b_weight q * abc (b_pos q) * _)) (fun j => b_weight q * abc (b_pos q) * (c j * dot (b_shape q) (us j) * dot (b_shape q) psi))) by (intros; ring).
        rewrite Sum_scal, Sum_scal_r. reflexivity.
    - intros j _. rewrite !Rsum_scal. ring.
  Qed.
  Lemma source_combination N c (us : nat -> list R) y psi : (forall j, (j < N)%nat -> List.length (us j) = n) ->
    List.length y = n -> (forall k, nth k y 0 = Sum N (fun j => c j * nth k (us j) 0)) ->
    source D y psi = Sum N (fun j => c j * source D (us j) psi).
  Proof.
    intros L Ly E. unfold source. pose proof (fun a => dot_combination a y n N c us Ly L E) as A.
    rewrite (Sum_ext N _ (fun j => Rsum (di_surf D) (fun q => c j * (b_weight q * dot (b_shape q) (us j) * dot (b_shape q) psi)))) by (intros; now rewrite Rsum_scal).
    rewrite Sum_Rsum. apply Rsum_ext. intros q _. rewrite A.
    rewrite (Sum_ext N (fun j => c j * (b_weight q * _ * _)) (fun j => b_weight q * (c j * dot (b_shape q) (us j)) * dot (b_shape q) psi)) by (intros; ring).
    rewrite Sum_scal_r, Sum_scal. reflexivity.
  Qed.
  Lemma solve_e_combination N c (us : nat -> list R) y : (forall j, (j < N)%nat -> List.length (us j) = n) ->
    List.length y = n -> (forall k, nth k y 0 = Sum N (fun j => c j * nth k (us j) 0)) ->
    forall k, nth k (solve_e D y) 0 = Sum N (fun j => c j * nth k (solve_e D (us j)) 0).
  Proof.
    intros L Ly E k. unfold solve_e.
    assert (G : forall x, nth k (map (fun row => dot row x * nopp n1) (di_gradient D)) 0 = - dot (nth k (di_gradient D) []) x).
    { intros x. transitivity (nth k (map (fun row => - dot row x) (di_gradient D)) (- dot [] x)).
      - cbn [dot n0 RNum]. rewrite Ropp_0. f_equal. apply map_ext. intros r. cbn [nmul nopp n1 RNum]. ring.
      - apply (map_nth (fun row => - dot row x)). }
    rewrite G, (dot_combination _ y n N c us Ly L E), <- Sum_opp. apply Sum_ext. intros j _. rewrite G. ring.
  Qed.

  Lemma zmem_perm a l1 l2 : Permutation l1 l2 -> zmem a l1 = zmem a l2.
  Proof.
    intros P. destruct (zmem a l1) eqn:E1, (zmem a l2) eqn:E2; auto.
    - apply zmem_in in E1. apply (Permutation_in _ P), zmem_in in E1. congruence.
    - apply zmem_in in E2. apply (Permutation_in _ (Permutation_sym P)), zmem_in in E2. congruence.
  Qed.
  Lemma open_points_perm p1 p2 : Permutation (si_open p1) (si_open p2) -> open_points D p1 = open_points D p2.
  Proof. intros P. unfold open_points. apply filter_ext. intros q. now apply zmem_perm. Qed.
  Lemma superposition ps c p us x :
    problem_ok abc D p -> Forall (problem_ok abc D) ps -> anchored abc D p ->
    (forall p', In p' ps -> Permutation (si_open p') (si_open p) /\ si_eps p' = si_eps p) ->
    combined_values (map si_dirichlet ps) c (si_dirichlet p) -> combined_values (map si_neumann ps) c (si_neumann p) ->
    Forall2 (computes abc D dbg) ps us -> computes abc D dbg p x -> combines us c x.
  Proof.
    intros Hp Hps An Same Cd Cn Fs Cx.
    assert (LN : List.length us = List.length ps) by (apply Forall2_length in Fs; auto).
    set (N := List.length us).
    destruct (computes_inv abc D OK dbg p x Hp Cx) as (s & ess & phi0 & Es & So & Ep & Ee & Ed).
    pose (d0 := {| so_phi := []; so_e := []; so_d := [] |} : solution R).
    assert (G : forall j, (j < N)%nat -> exists sigj phij, weak abc D (s_eps s) (s_open s) ess sigj phij (so_phi (nth j us d0)) /\
        List.length sigj = n /\ (forall k, (k < n)%nat -> prescribed_value F (nth j (map si_neumann ps) []) k (nth k sigj 0)) /\
        (forall k, (k < n)%nat -> prescribed_value F (nth j (map si_dirichlet ps) []) k (nth k phij 0)) /\
        so_e (nth j us d0) = solve_e D (so_phi (nth j us d0)) /\ so_d (nth j us d0) = solve_d D (s_eps s) (so_e (nth j us d0))).
    { intros j Lj. assert (Ej : exists pj, nth_error ps j = Some pj).
      { destruct (nth_error ps j) as [pj|] eqn:E; [eauto|]. apply nth_error_None in E. unfold N in Lj. lia. }
      destruct Ej as (pj & Ej). assert (Uj : nth_error us j = Some (nth j us d0)) by now apply nth_error_nth'.
      destruct (Forall2_nth _ _ _ j pj Fs Ej) as (u & Eu & Cu). rewrite Uj in Eu. injection Eu as Eu. rewrite <- Eu in Cu. clear u Eu.
      assert (Ipj : In pj ps) by (eapply nth_error_In; exact Ej). rewrite Forall_forall in Hps. pose proof (Hps pj Ipj) as Hj.
      destruct (Same pj Ipj) as [So1 So2].
      destruct (computes_inv abc D OK dbg pj _ Hj Cu) as (sj & essj & phij & Esj & Soj & Epj & Eej & Edj).
      assert (Dj : nth j (map si_dirichlet ps) [] = si_dirichlet pj) by (apply nth_error_nth; now apply map_nth_error).
      assert (Nj : nth j (map si_neumann ps) [] = si_neumann pj) by (apply nth_error_nth; now apply map_nth_error).
      assert (Ee1 : s_eps sj = s_eps s).
      { pose proof (sf_eps _ _ _ _ _ _ _ Soj) as X. pose proof (sf_eps _ _ _ _ _ _ _ So) as Y. rewrite So2 in X. congruence. }
      assert (Eo1 : s_open sj = s_open s).
      { pose proof (sf_open _ _ _ _ _ _ _ Soj) as X. pose proof (sf_open _ _ _ _ _ _ _ So) as Y. 
        rewrite (marker_perm (di_bdrMax D) _ _ So1 (io_open F pj (po_inputs _ _ _ Hj))) in X. congruence. }
      assert (Kj : map fst (si_dirichlet pj) = map fst (si_dirichlet p)) by (apply (proj1 Cd); now apply in_map).
      assert (Ess : forall k, In k essj <-> In k ess).
      { intros k. rewrite (sf_ess _ _ _ _ _ _ _ Soj), (sf_ess _ _ _ _ _ _ _ So). split; intros (t & v & I & B);
          apply (in_map fst) in I; [rewrite Kj in I|rewrite <- Kj in I]; apply in_map_iff in I as ([t' w] & E & I); cbn in E; subst; eauto. }
      assert (Anj : anchored abc D pj).
      { intros z Lz Zz G1 G2. apply An; auto.
        - intros t v k I B. apply (in_map fst) in I. rewrite <- Kj in I. apply in_map_iff in I as ([t' w] & E & I); cbn in E; subst. eauto.
        - intros q I. apply G2. now rewrite (open_points_perm pj p So1). }
      pose proof (one_solve abc D OK dbg pj Hj Anj sj essj phij Soj) as W. rewrite <- Epj, Ee1, Eo1 in W.
      exists (s_sigma sj), phij. rewrite Dj, Nj.
      split; [|split; [apply (sf_sigma _ _ _ _ _ _ _ Soj)|]].
      - destruct W as (L & E1 & W). split; [exact L|]. split; [intros k Lk I; apply E1; auto; now apply Ess|].
        intros psi Lp Zp. apply W; auto. intros k Lk I. apply Zp; auto. now apply Ess.
      - split; [apply (sf_sigma _ _ _ _ _ _ _ Soj)|]. split; [apply (sf_phi0 _ _ _ _ _ _ _ Soj)|]. split; [exact Eej|]. rewrite <- Ee1. exact Edj. }
    assert (H : exists sg ph : nat -> list R, forall j, (j < N)%nat ->
        weak abc D (s_eps s) (s_open s) ess (sg j) (ph j) (so_phi (nth j us d0)) /\
        List.length (sg j) = n /\ (forall k, (k < n)%nat -> prescribed_value F (nth j (map si_neumann ps) []) k (nth k (sg j) 0)) /\
        (forall k, (k < n)%nat -> prescribed_value F (nth j (map si_dirichlet ps) []) k (nth k (ph j) 0)) /\
        so_e (nth j us d0) = solve_e D (so_phi (nth j us d0)) /\ so_d (nth j us d0) = solve_d D (s_eps s) (so_e (nth j us d0))).
    { clearbody N. clear -G. induction N as [|N IH].
      - exists (fun _ => []), (fun _ => []). intros j L. lia.
      - destruct IH as (sg & ph & H); [intros; apply G; lia|].
        destruct (G N) as (sn & pn & Hn); [lia|].
        exists (fun j => if (j =? N)%nat then sn else sg j), (fun j => if (j =? N)%nat then pn else ph j).
        intros j L. destruct (Nat.eqb_spec j N) as [->|Ne]; [exact Hn|]. apply H. lia. }
    clear G. destruct H as (sg & ph & H).
    assert (Lu : forall j, (j < N)%nat -> List.length (so_phi (nth j us d0)) = n) by (intros j L; apply H; auto).
    destruct (combination_exists N c (fun j => so_phi (nth j us d0)) n Lu) as (y & Ly & Ey).
    assert (Lm : List.length (map si_dirichlet ps) = N /\ List.length (map si_neumann ps) = N) by (rewrite !map_length; unfold N; auto).
    rewrite Forall_forall in Hps.
    assert (Sd : forall l', In l' (map si_dirichlet ps) -> msorted l').
    { intros l' I. apply in_map_iff in I as (p' & <- & I). apply (po_sorted _ _ _ (Hps p' I)). }
    assert (Sn : forall l', In l' (map si_neumann ps) -> msorted l').
    { intros l' I. apply in_map_iff in I as (p' & <- & I). apply (po_sorted _ _ _ (Hps p' I)). }
    assert (Eph : so_phi x = y).
    { rewrite Ep. apply (one_unique abc D OK dbg p Hp An s ess phi0 So); [apply (one_solve abc D OK dbg p Hp An s ess phi0 So)|].
      split; [exact Ly|]. split.
      - intros k Lk I. rewrite Ey. symmetry. destruct Lm as [Lm _]. rewrite <- Lm.
        rewrite (value_combination (map si_dirichlet ps) c (si_dirichlet p) k (nth k phi0 0) (fun j => nth k (ph j) 0)).
        + apply Sum_ext. intros j Lj. f_equal. symmetry. rewrite Lm in Lj. destruct (H j Lj) as ((_ & A & _) & _). now apply A.
        + apply (po_sorted _ _ _ Hp).
        + exact Sd.
        + exact Cd.
        + apply (sf_phi0 _ _ _ _ _ _ _ So); auto.
        + intros j Lj. rewrite Lm in Lj. destruct (H j Lj) as (_ & _ & _ & A & _). now apply A.
      - intros psi Lp Zp. rewrite (workc_combination _ _ N c _ y psi Lu Ly Ey).
        rewrite (source_combination N c sg (s_sigma s) psi).
        + apply Sum_ext. intros j Lj. f_equal. destruct (H j Lj) as ((_ & _ & A) & _). now apply A.
        + intros j Lj. apply H; auto.
        + apply (sf_sigma _ _ _ _ _ _ _ So).
        + intros k. destruct (Nat.lt_ge_cases k n) as [Lk|Lk].
          * destruct Lm as [_ Lm]. rewrite <- Lm.
            apply (value_combination (map si_neumann ps) c (si_neumann p) k (nth k (s_sigma s) 0) (fun j => nth k (sg j) 0)); auto.
            { apply (po_sorted _ _ _ Hp). }
            { apply (sf_sigma _ _ _ _ _ _ _ So); auto. }
            { intros j Lj. rewrite Lm in Lj. destruct (H j Lj) as (_ & _ & A & _). now apply A. }
          * rewrite nth_overflow by (rewrite (proj1 (sf_sigma _ _ _ _ _ _ _ So)); exact Lk). symmetry. apply Sum_zero. intros j Lj.
            rewrite nth_overflow; [lra|]. destruct (H j Lj) as (_ & -> & _). exact Lk. }
    assert (EE : forall k, nth k (so_e x) 0 = Sum N (fun j => c j * nth k (so_e (nth j us d0)) 0)).
    { intros k. rewrite Ee, Eph, (solve_e_combination N c _ y Lu Ly Ey). apply Sum_ext. intros j Lj. f_equal.
      destruct (H j Lj) as (_ & _ & _ & _ & -> & _). reflexivity. }
    assert (Le : forall z, List.length (solve_e D z) = di_nND D) by (intros z; unfold solve_e; rewrite map_length; apply (to_gradient D OK)).
    assert (ED : forall k, nth k (so_d x) 0 = Sum N (fun j => c j * nth k (so_d (nth j us d0)) 0)).
    { apply (solve_d_combination D OK (s_eps s) N c (fun j => so_e (nth j us d0)) (fun j => so_d (nth j us d0)) (so_e x) (so_d x) (di_nND D)).
      - rewrite Ee. apply Le.
      - intros j Lj. destruct (H j Lj) as (_ & _ & _ & _ & Ej & Dj). split; [rewrite Ej; apply Le|exact Dj].
      - exact EE.
      - exact Ed. }
    intros k. unfold entry. fold N.
    assert (M : forall (f : solution R -> list R) j, f d0 = [] -> nth j (map f us) [] = f (nth j us d0)).
    { intros f j E. rewrite <- E. apply map_nth. }
    split; [|split].
    - rewrite Eph, Ey. apply Sum_ext. intros j _. now rewrite (M so_phi).
    - rewrite EE. apply Sum_ext. intros j _. now rewrite (M so_e).
    - rewrite ED. apply Sum_ext. intros j _. now rewrite (M so_d).
  Qed.
End Facts.
