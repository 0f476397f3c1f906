(** Certificates: rational fields that satisfy the equations of a discretization with rational
    tables are the fields the solver computes over R. *)
From Coq Require Import QArith Qreals Reals Lra Lia.
From Verif Require Import Prelude StdMap ModelM Matrix Solver Fem Triangles RSum SpecSolver SpecDriver SpecCharge SpecField SpecFem
  FemProofs FemCalls FemFacts FemLaws FemDriver Transfer.
Open Scope R_scope.
Open Scope list_scope.

(** ** Linear combinations of vectors *)
Definition axpy (c : Q) (v acc : list Q) : list Q := map (fun p => nadd (nmul c (fst p)) (snd p)) (combine v acc).
Definition lincomb (n : nat) (l : list (Q * list Q)) : list Q := fold_right (fun cv acc => axpy (fst cv) (snd cv) acc) (repeat 0%Q n) l.
Lemma axpy_length c v acc : List.length v = List.length acc -> List.length (axpy c v acc) = List.length acc.
Proof. intros L. unfold axpy. rewrite map_length, combine_length. lia. Qed.
Lemma axpy_dot c v acc (t : list R) : List.length v = List.length acc -> 
  dot (map Q2R (axpy c v acc)) t = Q2R c * dot (map Q2R v) t + dot (map Q2R acc) t.
Proof.
  unfold axpy. revert acc t. induction v as [|x v IH]; intros [|a acc] [|y t] L; cbn [combine map dot] in *; try discriminate; cbn [n0 nadd nmul RNum]; try ring.
  injection L as L. rewrite (IH acc t L). cbn [fst snd]. rewrite add_R, mul_R. ring.
Qed.
Lemma lincomb_length n l : (forall cv, In cv l -> List.length (snd cv) = n) -> List.length (lincomb n l) = n.
Proof.
  induction l as [|cv l IH]; intros H; [apply repeat_length|]. cbn [lincomb fold_right]. fold (lincomb n l).
  assert (Ll : List.length (lincomb n l) = n) by (apply IH; intros x I; apply H; now right).
  rewrite axpy_length; rewrite Ll; [reflexivity|]. apply H. now left.
Qed.
Lemma zero_dot n (t : list R) : dot (map Q2R (repeat 0%Q n)) t = 0.
Proof. revert t. induction n as [|n IH]; intros [|y t]; cbn [repeat map dot]; try reflexivity. rewrite IH. cbn [nadd nmul RNum]. rewrite zero_R. ring. Qed.
Lemma lincomb_dot n l (t : list R) : (forall cv, In cv l -> List.length (snd cv) = n) ->
  dot (map Q2R (lincomb n l)) t = Rsum l (fun cv => Q2R (fst cv) * dot (map Q2R (snd cv)) t).
Proof.
  induction l as [|cv l IH]; intros H; [apply zero_dot|]. cbn [lincomb fold_right]. fold (lincomb n l).
  assert (H' : forall x, In x l -> List.length (snd x) = n) by (intros x I; apply H; now right).
  rewrite axpy_dot, Rsum_cons, IH; auto. rewrite lincomb_length; auto. apply H. now left.
Qed.
Lemma dot_vanishes (a x : list R) : (forall k, nth k a 0 = 0 \/ nth k x 0 = 0) -> dot a x = 0.
Proof.
  revert x. induction a as [|u a IH]; intros [|v x] H; cbn [dot]; try reflexivity.
  rewrite IH; [|intros k; exact (H (S k))]. cbn [nadd nmul RNum]. destruct (H 0%nat) as [E | E]; cbn in E; rewrite E; ring.
Qed.

Section Certificate.
  Variable D : discretization Q.
  Variable eps : Z -> Q.
  Variable abcQ : Q * Q -> Q.
  Variable opened : Z -> bool.
  Variable held : nat -> bool.
  Variables phi d : list Q.
  Definition vectors_fit : bool :=
    (forallb (fun q => (List.length (g_x q) =? di_nH1 D) && (List.length (g_y q) =? di_nH1 D))%nat (di_grad D) &&
     forallb (fun q => (List.length (b_shape q) =? di_nH1 D))%nat (di_abc D) &&
     forallb (fun q => (List.length (r_x q) =? di_nRT D) && (List.length (r_y q) =? di_nRT D))%nat (di_rt D) &&
     forallb (fun q => (List.length (x_rtx q) =? di_nRT D) && (List.length (x_rty q) =? di_nRT D))%nat (di_mix D))%bool.
  Definition phi_pairs : list (Q * list Q) :=
    flat_map (fun q => [(nmul (nmul (g_weight q) (eps (g_attr q))) (dot (g_x q) phi), g_x q); (nmul (nmul (g_weight q) (eps (g_attr q))) (dot (g_y q) phi), g_y q)]) (di_grad D) ++
    map (fun q => (nmul (nmul (b_weight q) (abcQ (b_pos q))) (dot (b_shape q) phi), b_shape q)) (filter (fun q => opened (b_attr q)) (di_abc D)).
  Definition field_Q : list Q := map (fun row => nopp (dot row phi)) (di_gradient D).
  Definition d_pairs (e : list Q) : list (Q * list Q) :=
    flat_map (fun q => [(nmul (r_weight q) (dot (r_x q) d), r_x q); (nmul (r_weight q) (dot (r_y q) d), r_y q)]) (di_rt D) ++
    flat_map (fun q => [(nopp (nmul (nmul (x_weight q) (eps (x_attr q))) (dot (x_ndx q) e)), x_rtx q); (nopp (nmul (nmul (x_weight q) (eps (x_attr q))) (dot (x_ndy q) e)), x_rty q)]) (di_mix D).
  Definition vanish (P : nat -> bool) (n : nat) (r : list Q) : bool := forallb (fun k => P k || Qeq_bool (nth k r 0%Q) 0)%bool (seq 0 n).
  Definition certified : bool :=
    (vectors_fit && (List.length phi =? di_nH1 D)%nat && (List.length d =? di_nRT D)%nat &&
     vanish held (di_nH1 D) (lincomb (di_nH1 D) phi_pairs) &&
     vanish (fun _ => false) (di_nRT D) (lincomb (di_nRT D) (d_pairs field_Q)))%bool.

  (** ** Over R *)
  Variable abc : R * R -> R.
  Variable D' : discretization R.
  Hypothesis T1 : di_grad D' = map grad_R (di_grad D).
  Hypothesis T2 : di_abc D' = map surf_R (di_abc D).
  Hypothesis T3 : di_rt D' = map rt_R (di_rt D).
  Hypothesis T4 : di_mix D' = map mix_R (di_mix D).
  Hypothesis T5 : di_gradient D' = map (map Q2R) (di_gradient D).
  Hypothesis T6 : di_nH1 D' = di_nH1 D /\ di_nRT D' = di_nRT D.
  Variable dbg : bool.
  Hypothesis OK : tables_ok D'.
  Variable p : solver_inputs R.
  Hypothesis Hp : problem_ok abc D' p.
  Hypothesis An : anchored abc D' p.
  Hypothesis Neutral : si_neumann p = [].
  Hypothesis He : forall a, eps_of (si_eps p) a = Q2R (eps a).
  Hypothesis Ho : forall a, zmem a (si_open p) = opened a.
  Hypothesis Ha : forall q, abc (pt q) = Q2R (abcQ q).
  Hypothesis Hh : forall k, held k = true -> exists t v, In (t, v) (si_dirichlet p) /\ on_boundary (discretize abc D') t k.
  Hypothesis Pr : prescribed abc D' p (map Q2R phi).
  Hypothesis C : certified = true.

  Lemma fit : (forall q, In q (di_grad D) -> List.length (g_x q) = di_nH1 D /\ List.length (g_y q) = di_nH1 D) /\
    (forall q, In q (di_abc D) -> List.length (b_shape q) = di_nH1 D) /\
    (forall q, In q (di_rt D) -> List.length (r_x q) = di_nRT D /\ List.length (r_y q) = di_nRT D) /\
    (forall q, In q (di_mix D) -> List.length (x_rtx q) = di_nRT D /\ List.length (x_rty q) = di_nRT D).
  Proof.
    pose proof C as H. unfold certified in H. do 4 apply andb_prop in H as (H & _). unfold vectors_fit in H.
    apply andb_prop in H as (H & H4). apply andb_prop in H as (H & H3). apply andb_prop in H as (H1 & H2).
    rewrite forallb_forall in H1, H2, H3, H4.
    split; [|split; [|split]]; intros q I.
    - apply H1, andb_prop in I as (A & B). now apply Nat.eqb_eq in A, B.
    - now apply H2, Nat.eqb_eq in I.
    - apply H3, andb_prop in I as (A & B). now apply Nat.eqb_eq in A, B.
    - apply H4, andb_prop in I as (A & B). now apply Nat.eqb_eq in A, B.
  Qed.
  Lemma fit_len : List.length phi = di_nH1 D /\ List.length d = di_nRT D /\
    vanish held (di_nH1 D) (lincomb (di_nH1 D) phi_pairs) = true /\ vanish (fun _ => false) (di_nRT D) (lincomb (di_nRT D) (d_pairs field_Q)) = true.
  Proof.
    pose proof C as H. unfold certified in H. apply andb_prop in H as (H & H4). apply andb_prop in H as (H & H3). apply andb_prop in H as (H & H2). apply andb_prop in H as (_ & H1).
    apply Nat.eqb_eq in H1, H2. auto.
  Qed.
  Lemma vanish_nth P n r k : vanish P n r = true -> (k < n)%nat -> P k = true \/ nth k (map Q2R r) 0 = 0.
  Proof.
    intros H L. unfold vanish in H. rewrite forallb_forall in H. specialize (H k). rewrite in_seq in H. specialize (H ltac:(lia)).
    apply Bool.orb_prop in H as [H | H]; [now left|right]. apply Qeq_bool_iff in H. rewrite <- zero_R, map_nth. now apply Qeq_eqR.
  Qed.
  Lemma Rsum_pairs {A} (f g : A -> Q * list Q) (l : list A) (h : Q * list Q -> R) :
    Rsum (flat_map (fun q => [f q; g q]) l) h = Rsum l (fun q => h (f q) + h (g q)).
  Proof. induction l as [|q l IH]; [reflexivity|]. cbn [flat_map app]. rewrite !Rsum_cons, IH. ring. Qed.
  Lemma phi_fit cv : In cv phi_pairs -> List.length (snd cv) = di_nH1 D.
  Proof.
    intros I. destruct fit as (F1 & F2 & _). unfold phi_pairs in I. apply in_app_or in I as [I | I].
    - apply in_flat_map in I as (q & I & [<- | [<- | []]]); apply (F1 q I).
    - apply in_map_iff in I as (q & <- & I). apply filter_In in I as (I & _). exact (F2 q I).
  Qed.
  Lemma d_fit e cv : In cv (d_pairs e) -> List.length (snd cv) = di_nRT D.
  Proof.
    intros I. destruct fit as (_ & _ & F3 & F4). unfold d_pairs in I. apply in_app_or in I as [I | I].
    - apply in_flat_map in I as (q & I & [<- | [<- | []]]); apply (F3 q I).
    - apply in_flat_map in I as (q & I & [<- | [<- | []]]); apply (F4 q I).
  Qed.
  Lemma filter_map {A B} (f : A -> B) (P : B -> bool) l : filter P (map f l) = map f (filter (fun x => P (f x)) l).
  Proof. induction l as [|x l IH]; [reflexivity|]. cbn. rewrite IH. destruct (P (f x)); reflexivity. Qed.
  Lemma work_lincomb psi : work abc D' p (map Q2R phi) psi = dot (map Q2R (lincomb (di_nH1 D) phi_pairs)) psi.
  Proof.
    rewrite (lincomb_dot _ _ _ phi_fit). unfold work, phi_pairs. rewrite Rsum_app, Rsum_pairs, Rsum_map. f_equal.
    - rewrite T1, Rsum_map. apply Rsum_ext. intros q _. unfold grad2, grad_R. cbn [g_attr g_weight g_x g_y fst snd].
      rewrite !mul_R, !dot_R, He. ring.
    - unfold open_points. rewrite T2, filter_map, Rsum_map.
      rewrite (filter_ext (fun x => zmem (b_attr (surf_R x)) (si_open p)) (fun q => opened (b_attr q))) by (intros q; apply Ho).
      apply Rsum_ext. intros q _. unfold surf_R. cbn [b_attr b_pos b_weight b_shape fst snd]. rewrite !mul_R, !dot_R, Ha. ring.
  Qed.
  Lemma field_R : map Q2R field_Q = map (fun row => - dot row (map Q2R phi)) (di_gradient D').
  Proof. unfold field_Q. rewrite T5, !map_map. apply map_ext. intros row. rewrite opp_R, dot_R. reflexivity. Qed.
  Lemma flux_lincomb e t : 
    Rsum (di_rt D') (fun q => r_weight q * (dot (r_x q) (map Q2R d) * dot (r_x q) t + dot (r_y q) (map Q2R d) * dot (r_y q) t)) -
    Rsum (di_mix D') (fun q => x_weight q * eps_of (si_eps p) (x_attr q) * (dot (x_ndx q) (map Q2R e) * dot (x_rtx q) t + dot (x_ndy q) (map Q2R e) * dot (x_rty q) t)) =
    dot (map Q2R (lincomb (di_nRT D) (d_pairs e))) t.
  Proof.
    rewrite (lincomb_dot _ _ _ (d_fit e)). unfold d_pairs. rewrite Rsum_app, !Rsum_pairs, T3, T4, !Rsum_map. unfold Rminus. f_equal.
    - apply Rsum_ext. intros q _. unfold rt_R. cbn [r_weight r_x r_y fst snd]. rewrite !mul_R, !dot_R. ring.
    - rewrite <- Rsum_opp. apply Rsum_ext. intros q _. unfold mix_R. cbn [x_attr x_weight x_ndx x_ndy x_rtx x_rty fst snd].
      rewrite !opp_R, !mul_R, !dot_R, He. ring.
  Qed.
  Theorem certificate x : computes abc D' dbg p x -> so_phi x = map Q2R phi /\ so_d x = map Q2R d.
  Proof.
    intros Cx. destruct fit_len as (L1 & L2 & V1 & V2). destruct T6 as (S1 & S2).
    assert (Ep : so_phi x = map Q2R phi).
    { destruct (computes_inv abc D' OK dbg p x Hp Cx) as (s & ess & phi0 & Es & So & Ep & _). rewrite Ep.
      apply (one_unique abc D' OK dbg p Hp An s ess phi0 So); [exact (one_solve abc D' OK dbg p Hp An s ess phi0 So)|].
      assert (Lp : List.length (map Q2R phi) = di_nH1 D') by (rewrite map_length; lia).
      split; [exact Lp|]. split.
      - apply (prescribed_iff abc D' OK dbg p s ess phi0 _ So (proj1 (po_sorted _ _ _ Hp)) Lp). exact Pr.
      - intros psi Lpsi Z. rewrite (one_work abc D' OK dbg p Hp s ess phi0 So), work_lincomb.
        rewrite (no_source abc D' p (s_sigma s) psi (sf_sigma _ _ _ _ _ _ _ So) Neutral).
        apply dot_vanishes. intros k. destruct (Nat.lt_ge_cases k (di_nH1 D)) as [Lk | Lk]; [|right; apply nth_overflow; lia].
        destruct (vanish_nth _ _ _ k V1 Lk) as [H | H]; [right|now left].
        apply Z; [lia|]. apply (sf_ess _ _ _ _ _ _ _ So), Hh, H. }
    split; [exact Ep|]. symmetry. apply (d_of_e abc D' OK dbg p x _ Hp Cx). split; [rewrite map_length; lia|].
    intros t Lt. pose proof (e_of_phi abc D' OK dbg p x Hp Cx) as G. unfold is_minus_gradient in G. rewrite Ep, <- field_R in G. rewrite G.
    apply Rminus_diag_uniq. rewrite flux_lincomb. apply dot_vanishes. intros k.
    destruct (Nat.lt_ge_cases k (di_nRT D)) as [Lk | Lk]; [|right; apply nth_overflow; lia].
    destruct (vanish_nth _ _ _ k V2 Lk) as [H | H]; [discriminate|now left].
  Qed.
End Certificate.

(** Charges *)
Definition charge_Q (D : discretization Q) (d : list Q) (t : Z) : Q :=
  fold_right (fun q s => nadd (nopp (dot (q_w q) d)) s) 0%Q (filter (fun q => (q_attr q =? t)%Z) (di_flux D)).
Lemma charge_R abc (D : discretization Q) (D' : discretization R) x d t : di_flux D' = map flux_R (di_flux D) -> so_d x = map Q2R d ->
  charge_on (discretize abc D') x t (Q2R (charge_Q D d t)).
Proof.
  intros T Ed. replace (Q2R (charge_Q D d t)) with (flux_form (discretize abc D') (fun q => if (q_attr q =? t)%Z then - 1 else 0) (so_d x)); [apply chargeF|].
  rewrite Ed. unfold flux_form, charge_Q. cbn [fe_flux discretize]. rewrite T. cbn [nadd nmul n0 RNum]. rewrite fold_left_sum, Rplus_0_l, Rsum_map. clear T.
  induction (di_flux D) as [|q l IH]; [symmetry; exact zero_R|]. rewrite Rsum_cons, IH. cbn [filter flux_R q_attr q_w].
  destruct (q_attr q =? t)%Z; cbn [fold_right]; [rewrite add_R, opp_R, dot_R|]; ring.
Qed.
