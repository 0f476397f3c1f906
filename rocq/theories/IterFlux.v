(** The displacement field and the charges under PCG (C78). *)
From Coq Require Import Reals Lra Lia.
From Verif Require Import Prelude StdMap Matrix Solver Fem Iterative RSum LinAlg ListLemmas SpecSolver SpecDriver SpecCharge SpecField SpecFem SpecIter
  SolverProofs ChargeProofs FieldProofs FemProofs FemCalls FemFacts FemLaws PcgProofs IterProofs IterCalls.
Open Scope R_scope.
Open Scope list_scope.
Local Opaque pcg iterated_phi reiterated_phi iterated_d.

Lemma lit12 : @lit R _ 1 12 = / 10 ^ 12. Proof. unfold lit. cbn [ndiv nofZ RNum]. change (10 ^ 12)%Z with 1000000000000%Z. replace (10 ^ 12) with 1000000000000 by ring. lra. Qed.
Lemma lit24 : @lit R _ 1 24 = / 10 ^ 24. Proof. unfold lit. cbn [ndiv nofZ RNum]. change (10 ^ 24)%Z with 1000000000000000000000000%Z. replace (10 ^ 24) with 1000000000000000000000000 by ring. lra. Qed.

Section Flux.
  Variable abc : R * R -> R.
  Variable D : discretization R.
  Hypothesis OK : tables_ok D.
  Notation F := (discretize abc D).
  Notation n := (di_nH1 D).
  Notation nd := (di_nRT D).
  Variable dbg : bool.
  Variable p : solver_inputs R.
  Hypothesis Hp : problem_ok abc D p.

  Lemma minus_dif (a b : list R) : List.length a = nd -> minus a b = dif D a b.
  Proof. intros L. unfold minus, dif, axpy. rewrite L. apply map_ext. intros k. unfold at_. cbn [nadd nmul n0 RNum]. ring. Qed.
  Lemma minus_nth (a b : list R) k : (k < List.length a)%nat -> nth k (minus a b) 0 = nth k a 0 - nth k b 0.
  Proof. intros L. unfold minus. now rewrite nth_mapseq. Qed.
  Lemma minus_length (a b : list R) : List.length (minus a b) = List.length a. Proof. apply length_mapseq. Qed.
  Lemma projects_solve s e d : build_eps F dbg (si_eps p) = Ok (s_eps s) -> (projects D p e d <-> d = solve_d D (s_eps s) e).
  Proof.
    intros E. rewrite <- (solve_d_spec D OK). apply (projects_iff abc D OK dbg p); [apply (po_inputs _ _ _ Hp)|apply (po_sorted _ _ _ Hp)|exact E].
  Qed.
  Lemma y_gradient y : iterates abc D dbg p y -> is_minus_gradient D y.
  Proof.
    intros I. destruct (iterates_inv abc D OK dbg p Hp y I) as (s & ess & phi0 & _ & _ & _ & Ee & _).
    unfold is_minus_gradient. rewrite Ee. unfold solve_e. apply map_ext. intros r. cbn [nmul nopp n1 RNum]. ring.
  Qed.
  Section Conditioned.
    Variables (c : R) (w : nat).
    Hypothesis Cd : conditioned nd (flux2 D) (fun d => List.length d = nd) c w.
    Lemma fd_cond u : List.length u = nd -> Sum nd (fun i => ent (hDivMass D) i i * (nth i u 0 * nth i u 0)) <= c * flux2 D u u.
    Proof. intros L. refine (Rle_trans _ _ _ _ (proj1 (proj2 Cd) u L)). right. apply Sum_ext. intros i Li. now rewrite (M_ent D i i Li Li). Qed.
    Lemma fd_near i : (i < nd)%nat -> exists l, (List.length l <= w)%nat /\ forall j, (j < nd)%nat -> j <> i -> ent (hDivMass D) i j <> 0 -> In j l.
    Proof.
      intros L. destruct (proj2 (proj2 Cd) i L) as (l & Ll & H). exists l. split; [exact Ll|]. intros j Lj N E. apply H; auto. now rewrite <- (M_ent D i j L Lj).
    Qed.
  End Conditioned.
  Lemma kappa_pos c w : 0 <= c -> 1 <= kappa c w.
  Proof. intros C0. unfold kappa. pose proof (pos_INR w). assert (0 <= INR w * INR w * c) by (apply Rmult_le_pos; [apply Rmult_le_pos; lra|lra]). lra. Qed.
  Lemma iterated_flux y ds : iterates abc D dbg p y -> projects D p (so_e y) ds ->
    List.length (so_d y) = nd /\ flux2 D (minus ds (so_d y)) (minus ds (so_d y)) <= flux2 D ds ds /\
    forall c w, conditioned nd (flux2 D) (fun d => List.length d = nd) c w ->
      flux2 D (minus ds (so_d y)) (minus ds (so_d y)) <= Rmax (reduction c w * flux2 D ds ds) (kappa c w / 10 ^ 24) /\
      ((nd <= 500)%nat -> flux2 D (minus ds (so_d y)) (minus ds (so_d y)) <= kappa c w * Rmax (flux2 D ds ds / 10 ^ 12) (/ 10 ^ 24)).
  Proof.
    intros I P. destruct (iterates_inv abc D OK dbg p Hp y I) as (s & ess & phi0 & _ & So & _ & _ & Ed).
    apply (projects_solve s _ _ (sf_eps _ _ _ _ _ _ _ So)) in P. destruct (iterated_d_spec D OK (s_eps s) (so_e y)) as (L1 & L2).
    assert (Ld : List.length ds = nd) by (rewrite P; apply solve_d_length).
    rewrite (minus_dif _ _ Ld), Ed, P. split; [exact L1|]. split; [exact L2|]. intros c w Cd. rewrite <- lit24.
    pose proof (kappa_pos c w (proj1 Cd)) as K1. rewrite <- P in *. pose proof (flux2_pos D OK ds) as Fp. split.
    - pose proof (iterated_d_error D OK (s_eps s) (so_e y) c w (proj1 Cd) (fd_cond c w Cd) (fd_near c w Cd)) as B. rewrite <- P in B.
      apply (Rle_trans _ _ _ B). unfold reduction, Rdiv. rewrite <- lit12, <- lit24.
      assert (R1 : forall a, a * flux2 D ds ds <= Rmax a ((1 - / kappa c w) ^ 500) * flux2 D ds ds) by (intros a; apply Rmult_le_compat_r; [exact Fp|apply Rmax_l]).
      apply Rmax_lub.
      + rewrite <- RmaxRmult by lra. apply Rmax_lub; [|apply Rmax_r]. rewrite <- Rmult_assoc. apply (Rle_trans _ _ _ (R1 _)), Rmax_l.
      + apply (Rle_trans _ (Rmax (kappa c w * lit 1 12) ((1 - / kappa c w) ^ 500) * flux2 D ds ds)); [apply Rmult_le_compat_r; [exact Fp|apply Rmax_r]|apply Rmax_l].
    - intros Le. pose proof (iterated_d_error_small D OK (s_eps s) (so_e y) c w (proj1 Cd) (fd_cond c w Cd) (fd_near c w Cd) Le) as B. rewrite <- P in B.
      unfold Rdiv. rewrite <- lit12, (Rmult_comm (flux2 D ds ds)). exact B.
  Qed.

  (** ** Charges *)
  Lemma flux2_sum a b t : List.length a = nd -> List.length b = nd -> List.length t = nd -> (forall k, (k < nd)%nat -> nth k t 0 = nth k a 0 + nth k b 0) ->
    flux2 D t t <= 2 * flux2 D a a + 2 * flux2 D b b.
  Proof.
    intros La Lb Lt E. unfold flux2. rewrite <- !Rsum_scal, <- Rsum_plus. apply Rsum_le. intros q I. destruct (to_rt D OK q I) as (_ & _ & W).
    assert (E' : forall k, (k < nd)%nat -> nth k t 0 = nth k a 0 + 1 * nth k b 0) by (intros k L; rewrite (E k L); ring).
    rewrite (dot_lin (r_x q) a b 1 nd La Lb t Lt E'), (dot_lin (r_y q) a b 1 nd La Lb t Lt E').
    pose proof (Rle_0_sqr (dot (r_x q) a - dot (r_x q) b)) as Q1. pose proof (Rle_0_sqr (dot (r_y q) a - dot (r_y q) b)) as Q2. unfold Rsqr in *. nra.
  Qed.
  Lemma projects_diff e1 e2 e3 d1 d2 : List.length e1 = List.length e2 -> List.length e3 = List.length e1 ->
    (forall k, (k < List.length e1)%nat -> nth k e3 0 = nth k e1 0 - nth k e2 0) ->
    projects D p e1 d1 -> projects D p e2 d2 -> projects D p e3 (minus d1 d2).
  Proof.
    intros L12 L31 E (L1 & H1) (L2 & H2). split; [rewrite minus_length; exact L1|]. intros t Lt.
    assert (Em : forall k, (k < nd)%nat -> nth k (minus d1 d2) 0 = nth k d1 0 + -1 * nth k d2 0) by (intros k L; rewrite minus_nth by (rewrite L1; exact L); ring).
    assert (Lm : List.length (minus d1 d2) = nd) by (rewrite minus_length; exact L1).
    assert (Ee : forall k, (k < List.length e1)%nat -> nth k e3 0 = nth k e1 0 + -1 * nth k e2 0) by (intros k L; rewrite (E k L); ring).
    transitivity (Rsum (di_rt D) (fun q => r_weight q * (dot (r_x q) d1 * dot (r_x q) t + dot (r_y q) d1 * dot (r_y q) t)) +
                  -1 * Rsum (di_rt D) (fun q => r_weight q * (dot (r_x q) d2 * dot (r_x q) t + dot (r_y q) d2 * dot (r_y q) t))).
    - rewrite <- Rsum_scal, <- Rsum_plus. apply Rsum_ext. intros q _. rewrite !(fun a => dot_lin a d1 d2 (-1) nd L1 L2 (minus d1 d2) Lm Em). ring.
    - rewrite (H1 t Lt), (H2 t Lt), <- Rsum_scal, <- Rsum_plus. apply Rsum_ext. intros q _.
      rewrite !(fun a => dot_lin a e1 e2 (-1) (List.length e1) eq_refl (eq_sym L12) e3 L31 Ee). ring.
  Qed.
  Lemma flux_out_minus d1 d2 P : List.length d1 = nd -> List.length d2 = nd ->
    flux_out F (minus d1 d2) P = flux_out F d1 P - flux_out F d2 P.
  Proof.
    intros L1 L2. unfold flux_out. transitivity (Rsum (filter (fun q => P (q_attr q)) (fe_flux F)) (flux_at d1) + -1 * Rsum (filter (fun q => P (q_attr q)) (fe_flux F)) (flux_at d2)); [|ring].
    rewrite <- Rsum_scal, <- Rsum_plus. apply Rsum_ext. intros q _. unfold flux_at.
    apply (dot_lin (q_w q) d1 d2 (-1) nd L1 L2); [rewrite minus_length; exact L1|]. intros k L. rewrite minus_nth by (rewrite L1; exact L). ring.
  Qed.
  Lemma charge_of x t q : charge_on F x t q -> q = - flux_out F (so_d x) (fun a => (a =? t)%Z).
  Proof.
    intros H. pose (s := {| s_params := {| si_dirichlet := []; si_neumann := []; si_open := []; si_eps := [] |}; s_ess := []; s_open := [];
                  s_eps := EpsConst 1; s_sigma := []; s_elim := None; s_phi := so_phi x; s_e := so_e x; s_d := so_d x |} : solver R).
    rewrite <- (H s) by (destruct x; reflexivity). apply charge_in_boundary_flux.
  Qed.
  Hypothesis An : anchored abc D p.
  Lemma difference_of_potentials x y : computes abc D dbg p x -> iterates abc D dbg p y ->
    potential D (so_phi x) /\ potential D (so_phi y) /\ vanishing abc D p (minus (so_phi x) (so_phi y)) /\
    projects D p (field_of D (minus (so_phi x) (so_phi y))) (minus (so_d x) (solve_d D match build_eps F dbg (si_eps p) with Ok e => e | _ => EpsConst 1 end (so_e y))).
  Proof.
    intros Cx Iy. destruct (iterates_inv abc D OK dbg p Hp y Iy) as (s & ess & phi0 & Es & So & Ep & _ & _).
    pose proof (computes_xs abc D OK dbg p Hp An s ess phi0 So x Cx) as Ex.
    destruct (y_facts abc D OK dbg p Hp An s ess phi0 So) as (Ly & Ey & _). rewrite <- Ep in Ly, Ey.
    destruct (one_solve abc D OK dbg p Hp An s ess phi0 So) as (Lx & Exx & _). rewrite <- Ex in Lx, Exx.
    split; [exact Lx|]. split; [exact Ly|]. split.
    - split; [unfold potential; rewrite minus_length; exact Lx|]. intros k H. pose proof (held_lt abc D OK p k H) as L.
      rewrite nth_error_nth0 by (rewrite minus_length, Lx; exact L). f_equal. rewrite minus_nth by (rewrite Lx; exact L).
      apply (held_ess abc D dbg p s ess phi0 So) in H. rewrite (Exx k L H), (Ey k L H). ring.
    - rewrite (sf_eps _ _ _ _ _ _ _ So).
      assert (Px : projects D p (so_e x) (so_d x)) by now apply (d_of_e abc D OK dbg p x (so_d x) Hp Cx).
      assert (Py : projects D p (so_e y) (solve_d D (s_eps s) (so_e y))) by now apply (projects_solve s _ _ (sf_eps _ _ _ _ _ _ _ So)).
      pose proof (e_of_phi abc D OK dbg p x Hp Cx) as Gx. pose proof (y_gradient y Iy) as Gy. unfold is_minus_gradient in Gx, Gy.
      refine (projects_diff (so_e x) (so_e y) _ (so_d x) _ _ _ _ Px Py); rewrite ?Gx, ?Gy; unfold field_of; rewrite ?map_length; try reflexivity.
      intros k L. rewrite (nth_indep _ 0 (- dot [] (minus (so_phi x) (so_phi y)))) by (now rewrite map_length).
      rewrite (nth_indep _ 0 (- dot [] (so_phi x))) by (now rewrite map_length). rewrite (nth_indep (map (fun row => - dot row (so_phi y)) (di_gradient D)) 0 (- dot [] (so_phi y))) by (now rewrite map_length).
      rewrite (map_nth (fun row => - dot row (minus (so_phi x) (so_phi y)))), (map_nth (fun row => - dot row (so_phi x))), (map_nth (fun row => - dot row (so_phi y))).
      rewrite (dot_lin (nth k (di_gradient D) []) (so_phi x) (so_phi y) (-1) n Lx Ly (minus (so_phi x) (so_phi y))); [ring|rewrite minus_length; exact Lx|].
      intros j Lj. rewrite minus_nth by (rewrite Lx; exact Lj). ring.
  Qed.
  Lemma iterated_charges x y z ds t q q' c w c' w' m g :
    computes abc D dbg p x -> iterates abc D dbg p y -> zero_extension abc D p z -> projects D p (so_e y) ds ->
    conditioned n (work abc D p) (vanishing abc D p) c w -> conditioned nd (flux2 D) (fun d => List.length d = nd) c' w' ->
    flux_bound abc D p m -> charge_bound abc D t g -> charge_on F x t q -> charge_on (discretize_pcg abc D) y t q' ->
    (q - q') ^ 2 <= 2 * g * (m * reduction c w * work abc D p (minus (so_phi x) z) (minus (so_phi x) z) + Rmax (reduction c' w' * flux2 D ds ds) (kappa c' w' / 10 ^ 24)).
  Proof.
    intros Cx Iy Zz P Cd Cd' (M0 & Hm) (G0 & Hg) Cq Cq'.
    destruct (difference_of_potentials x y Cx Iy) as (Lx & Ly & Vd & Pd).
    destruct (iterates_inv abc D OK dbg p Hp y Iy) as (s & ess & phi0 & Es & So & Ep & _ & Ed).
    rewrite (sf_eps _ _ _ _ _ _ _ So) in Pd. assert (Eds : ds = solve_d D (s_eps s) (so_e y)) by now apply (projects_solve s _ _ (sf_eps _ _ _ _ _ _ _ So)). rewrite <- Eds in Pd.
    pose proof (computes_xs abc D OK dbg p Hp An s ess phi0 So x Cx) as Ex.
    pose proof (zero_extension_start abc D OK dbg p Hp s ess phi0 So z Zz) as Ez.
    pose proof (y_error abc D OK dbg p Hp An s ess phi0 So c w Cd) as Be. rewrite <- Ex, <- Ep, <- Ez in Be.
    rewrite <- !(minus_diff D) in Be by exact Lx.
    pose proof (Hm _ _ Vd Pd) as B1. destruct (iterated_flux y ds Iy P) as (Ldy & _ & B2). destruct (B2 c' w' Cd') as (B3 & _). clear B2.
    assert (Ldx : List.length (so_d x) = nd).
    { destruct (proj2 (d_of_e abc D OK dbg p x (so_d x) Hp Cx) eq_refl) as (L & _). exact L. }
    assert (Lds : List.length ds = nd) by (rewrite Eds; apply solve_d_length).
    assert (Eq : q - q' = - flux_out F (minus (so_d x) (so_d y)) (fun a => (a =? t)%Z)).
    { rewrite (charge_of x t q Cq). assert (Cq2 : charge_on F y t q') by exact Cq'. rewrite (charge_of y t q' Cq2), (flux_out_minus _ _ _ Ldx Ldy). ring. }
    rewrite Eq. replace ((- flux_out F (minus (so_d x) (so_d y)) (fun a => (a =? t)%Z)) ^ 2) with (flux_out F (minus (so_d x) (so_d y)) (fun a => (a =? t)%Z) ^ 2) by ring.
    apply (Rle_trans _ _ _ (Hg _ (eq_trans (minus_length _ _) Ldx))).
    replace (2 * g * (m * reduction c w * work abc D p (minus (so_phi x) z) (minus (so_phi x) z) + Rmax (reduction c' w' * flux2 D ds ds) (kappa c' w' / 10 ^ 24)))
      with (g * (2 * (m * (reduction c w * work abc D p (minus (so_phi x) z) (minus (so_phi x) z))) + 2 * Rmax (reduction c' w' * flux2 D ds ds) (kappa c' w' / 10 ^ 24))) by ring.
    apply Rmult_le_compat_l; [exact G0|].
    apply (Rle_trans _ (2 * flux2 D (minus (so_d x) ds) (minus (so_d x) ds) + 2 * flux2 D (minus ds (so_d y)) (minus ds (so_d y)))).
    - apply flux2_sum; rewrite ?minus_length; auto. intros k L. rewrite !minus_nth by congruence. ring.
    - apply Rplus_le_compat; apply Rmult_le_compat_l; try lra. apply (Rle_trans _ _ _ B1). apply Rmult_le_compat_l; [exact M0|].
      unfold reduction, Rdiv. rewrite <- lit12. exact Be.
  Qed.
End Flux.

(** ** The constants of the bounds exist. *)
Section Constants.
  Variable abc : R * R -> R.
  Variable D : discretization R.
  Hypothesis OK : tables_ok D.
  Notation F := (discretize abc D).
  Notation n := (di_nH1 D).
  Notation nd := (di_nRT D).
  Lemma flux_conditioned : exists c w, conditioned nd (flux2 D) (fun d => List.length d = nd) c w.
  Proof.
    destruct (d_condition D OK) as (c & C0 & H). exists c, nd. split; [exact C0|]. split.
    - intros u L. refine (Rle_trans _ _ _ _ (H u L)). right. apply Sum_ext. intros i Li. now rewrite (M_ent D i i Li Li).
    - intros i _. exists (seq 0 nd). split; [now rewrite seq_length|]. intros j L _ _. apply in_seq. lia.
  Qed.
  Lemma Sum_cauchy N (a : nat -> R) : Sum N a * Sum N a <= INR N * Sum N (fun i => a i * a i).
  Proof.
    apply discriminant. intros t. replace (INR N + 2 * Sum N a * t + Sum N (fun i => a i * a i) * (t * t)) with (Sum N (fun i => (1 + a i * t) * (1 + a i * t))).
    - apply Sum_nonneg. intros i _. apply Rle_0_sqr.
    - assert (One : INR N = Sum N (fun _ => 1)) by (clear; induction N as [|N IH]; [reflexivity|rewrite S_INR, Sum_S, IH; ring]).
      rewrite One, <- Sum_scal, <- !Sum_scal_r, <- !Sum_plus. apply Sum_ext. intros; ring.
  Qed.
  Lemma hat_dot (a : list R) N k : (k < N)%nat -> dot a (hat N k) = nth k a 0.
  Proof.
    intros L. rewrite (dot_sum a _ N) by apply length_mapseq. rewrite (Sum_ext N _ (fun i => if (i =? k)%nat then nth i a 0 else 0)).
    - now apply (Sum_single N k (fun i => nth i a 0)).
    - intros l Ll. unfold hat. rewrite nth_mapseq by exact Ll. destruct (l =? k)%nat; ring.
  Qed.
  Lemma charge_bound_exists t : exists g, charge_bound abc D t g.
  Proof.
    set (P := fun a => (a =? t)%Z). set (f := fun k => flux_out F (hat nd k) P).
    assert (Lin : forall d, List.length d = nd -> flux_out F d P = Sum nd (fun k => nth k d 0 * f k)).
    { intros d L. unfold f, flux_out. rewrite (Sum_ext nd _ (fun k => Rsum (filter (fun q => P (q_attr q)) (fe_flux F)) (fun q => nth k d 0 * flux_at (hat nd k) q))) by (intros; now rewrite Rsum_scal).
      rewrite Sum_Rsum. apply Rsum_ext. intros q _. unfold flux_at. rewrite (dot_sum _ d nd L). apply Sum_ext. intros k Lk. rewrite hat_dot by exact Lk. ring. }
    destruct (injective_solves (hDivMass D) f eq_refl (mass_injective D OK)) as (G & E). destruct (solve_some (hDivMass D) f G eq_refl E) as (LG & H).
    pose proof (proj2 (H G LG) eq_refl) as HG. change (nr (hDivMass D)) with nd in *.
    assert (MG : forall k, (k < nd)%nat -> nth k (mult (hDivMass D) G) 0 = f k) by (intros k L; rewrite (mult_nth (hDivMass D)) by exact L; exact (HG k L)).
    exists (inner nd G (mult (hDivMass D) G)). split; [apply (form_nonneg (hDivMass D) (M_pos D OK))|]. intros d L. fold P.
    rewrite (Lin d L). pose proof (form_schwarz (hDivMass D) (M_sym D) (M_pos D OK) d G) as C. change (nr (hDivMass D)) with nd in C.
    assert (Ei : inner nd d (mult (hDivMass D) G) = Sum nd (fun k => nth k d 0 * f k)) by (rewrite inner_Sum; apply Sum_ext; intros k Lk; now rewrite MG).
    rewrite Ei in C. rewrite (M_form D d d) in C. assert (Ec : cut D d = d) by (apply list_ext; [now rewrite cut_length|]; rewrite cut_length; apply cut_nth). rewrite Ec in C. lra.
  Qed.
  Variable dbg : bool.
  Variable p : solver_inputs R.
  Hypothesis Hp : problem_ok abc D p.
  Hypothesis An : anchored abc D p.
  Lemma work_conditioned : exists c w, conditioned n (work abc D p) (vanishing abc D p) c w.
  Proof.
    destruct (computes_exists abc D OK dbg p Hp) as (x & Cx). destruct (computes_inv abc D OK dbg p x Hp Cx) as (s & ess & phi0 & Es & So & _).
    destruct (condition abc D OK (s_eps s) (s_open s) (one_pos abc D OK dbg p Hp s ess phi0 So) (one_abc abc D OK dbg p Hp s ess phi0 So) ess
      (one_anchored abc D OK dbg p Hp An s ess phi0 So)) as (c & C0 & H).
    exists c, n. split; [exact C0|]. split.
    - intros u (L & V). rewrite <- (wk_work abc D OK dbg p Hp s ess phi0 So). refine (Rle_trans _ _ _ _ (H u L _)).
      + right. apply Sum_ext. intros i Li. now rewrite (hat_basis D), (wk_work abc D OK dbg p Hp s ess phi0 So).
      + intros k Lk I. apply (held_ess abc D dbg p s ess phi0 So) in I. specialize (V k I). rewrite (nth_error_nth0 u k) in V by (rewrite L; exact Lk). congruence.
    - intros i _. exists (seq 0 n). split; [now rewrite seq_length|]. intros j L _ _. apply in_seq. lia.
  Qed.
  Lemma flux_bound_exists : exists m, flux_bound abc D p m.
  Proof.
    destruct work_conditioned as (c & w & C0 & Cd & _).
    destruct (computes_exists abc D OK dbg p Hp) as (x & Cx). destruct (computes_inv abc D OK dbg p x Hp Cx) as (s & ess & phi0 & Es & So & _).
    set (dk := fun k => solve_d D (s_eps s) (field_of D (hat n k))). set (a := fun k => work abc D p (hat n k) (hat n k)).
    assert (A0 : forall k, (k < n)%nat -> 0 < a k).
    { intros k L. unfold a. rewrite (hat_basis D), <- (wk_work abc D OK dbg p Hp s ess phi0 So), <- (K_ent abc D (s_eps s) (s_open s) k k L L).
      apply (K_pos abc D OK (s_eps s) (s_open s) (one_pos abc D OK dbg p Hp s ess phi0 So) (one_abc abc D OK dbg p Hp s ess phi0 So) k L). }
    assert (Wp : forall u, 0 <= work abc D p u u).
    { intros u. rewrite <- (wk_work abc D OK dbg p Hp s ess phi0 So). apply (workc_nonneg abc D OK _ _ (one_pos abc D OK dbg p Hp s ess phi0 So) (one_abc abc D OK dbg p Hp s ess phi0 So)). }
    exists (INR n * Sum n (fun k => c / a k * flux2 D (dk k) (dk k))). split.
    { apply Rmult_le_pos; [apply pos_INR|]. apply Sum_nonneg. intros k L. apply Rmult_le_pos; [|apply (flux2_pos D OK)]. apply Rmult_le_pos; [exact C0|]. left. apply Rinv_0_lt_compat. now apply A0. }
    intros u d (L & V) P. apply (projects_solve abc D OK dbg p Hp s _ _ (sf_eps _ _ _ _ _ _ _ So)) in P.
    assert (Lf : forall v, List.length (field_of D v) = di_nND D) by (intros v; unfold field_of; rewrite map_length; apply (to_gradient D OK)).
    assert (Cb : forall k, nth k d 0 = Sum n (fun j => nth j u 0 * nth k (dk j) 0)).
    { apply (solve_d_combination D OK (s_eps s) n (fun j => nth j u 0) (fun j => field_of D (hat n j)) dk (field_of D u) d (di_nND D)); [apply Lf|split; [apply Lf|reflexivity]| |exact P].
      intros k. destruct (Nat.lt_ge_cases k (di_nND D)) as [Lk | Lk].
      - assert (N : forall v, nth k (field_of D v) 0 = - dot (nth k (di_gradient D) []) v).
        { intros v. rewrite (nth_indep _ 0 (- dot [] v)) by (rewrite Lf; exact Lk). unfold field_of. apply (map_nth (fun row => - dot row v)). }
        rewrite N, (dot_sum _ u n L). rewrite <- (Rmult_1_l (Sum _ _)), Ropp_mult_distr_l, <- Sum_scal. apply Sum_ext. intros j Lj. rewrite N, hat_dot by exact Lj. ring.
      - rewrite nth_overflow by (rewrite Lf; exact Lk). symmetry. apply Sum_zero. intros j _. rewrite (nth_overflow (field_of D (hat n j))) by (rewrite Lf; exact Lk). ring. }
    assert (Ld : List.length d = nd) by (rewrite P; apply solve_d_length).
    assert (Lk : forall k, List.length (dk k) = nd) by (intros k; apply solve_d_length).
    assert (B : flux2 D d d <= INR n * Sum n (fun k => nth k u 0 * nth k u 0 * flux2 D (dk k) (dk k))).
    { unfold flux2 at 1. rewrite (Sum_ext n _ (fun k => Rsum (di_rt D) (fun q => nth k u 0 * nth k u 0 * (r_weight q * (dot (r_x q) (dk k) * dot (r_x q) (dk k) + dot (r_y q) (dk k) * dot (r_y q) (dk k)))))) by (intros; now rewrite Rsum_scal).
      rewrite Sum_Rsum, <- Rsum_scal. apply Rsum_le. intros q I. destruct (to_rt D OK q I) as (_ & _ & W).
      rewrite !(fun a => dot_combination a d nd n (fun j => nth j u 0) dk Ld (fun j _ => Lk j) Cb).
      rewrite (Sum_ext n (fun k => nth k u 0 * nth k u 0 * _) (fun k => r_weight q * ((nth k u 0 * dot (r_x q) (dk k)) * (nth k u 0 * dot (r_x q) (dk k)) + (nth k u 0 * dot (r_y q) (dk k)) * (nth k u 0 * dot (r_y q) (dk k))))) by (intros; ring).
      rewrite Sum_scal, Sum_plus.
      pose proof (Sum_cauchy n (fun k => nth k u 0 * dot (r_x q) (dk k))) as Q1. pose proof (Sum_cauchy n (fun k => nth k u 0 * dot (r_y q) (dk k))) as Q2. cbv beta in Q1, Q2.
      rewrite <- Rmult_assoc, (Rmult_comm (INR n) (r_weight q)), Rmult_assoc. apply Rmult_le_compat_l; lra. }
    apply (Rle_trans _ _ _ B). rewrite Rmult_assoc. apply Rmult_le_compat_l; [apply pos_INR|]. rewrite <- Sum_scal_r. apply Sum_le. intros k Lk'.
    pose proof (flux2_pos D OK (dk k)) as Fp. replace (c / a k * flux2 D (dk k) (dk k) * work abc D p u u) with (c / a k * work abc D p u u * flux2 D (dk k) (dk k)) by ring. apply Rmult_le_compat_r; [exact Fp|].
    pose proof (A0 k Lk') as Ak. apply (Rmult_le_reg_l (a k)); [exact Ak|]. replace (a k * (c / a k * work abc D p u u)) with (c * work abc D p u u) by (field; lra).
    refine (Rle_trans _ _ _ _ (Cd u (conj L V))). fold a.
    rewrite <- (Sum_single n k (fun i => a i * (nth i u 0 * nth i u 0)) Lk'). apply Sum_le. intros i Li. fold (a i).
    destruct (i =? k)%nat; [lra|]. pose proof (A0 i Li). apply Rmult_le_pos; [lra|apply Rle_0_sqr].
  Qed.
End Constants.
