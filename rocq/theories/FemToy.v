(** A discretization used as the concrete case beside the theorems about the fields: the model of
    Toy.v as a chain of two elements of length s, conductor 1 (tag 1) and conductor 2 (tag 2) at the
    ends, the middle node on the open boundary (tag 4), if there is one. *)
From Coq Require Import Reals Lra Permutation.
From Verif Require Import Prelude StdMap Materials Graph ModelM Parser Matrix Multipole Solver Fem Driver RSum LinAlg ListLemmas
  SpecSolver SpecCharge SpecInput SpecModel SpecDriver SpecMatrix SpecField SpecFem DriverProofs CallProofs DriverFacts FemProofs FemCalls FemFacts FemModel FemLaws FemDriver FemMatrix Toy.
Open Scope list_scope.

Definition chain {T} `{Num T} (s : T) : discretization T :=
  let o := n0 in let p := (n1 / s)%num in let q := (nopp n1 / s)%num in let w := (s * s)%num in
  {| di_nH1 := 3; di_nND := 2; di_nRT := 2; di_bdrMax := 4; di_domMax := 3;
     di_bdrDofs := [(1%Z, [0%nat]); (2%Z, [1%nat]); (4%Z, [2%nat])];
     di_grad := [{| g_attr := 3; g_weight := w; g_x := [q; o; p]; g_y := [o; o; o] |};
                 {| g_attr := 3; g_weight := w; g_x := [o; p; q]; g_y := [o; o; o] |}];
     di_abc := [{| b_attr := 4; b_pos := (s / (n1 + n1), o)%num; b_weight := s; b_shape := [o; o; n1] |}];
     di_surf := [{| b_attr := 4; b_pos := (s / (n1 + n1), o)%num; b_weight := s; b_shape := [o; o; n1] |}];
     di_rt := [{| r_weight := w; r_x := [p; o]; r_y := [o; o] |}; {| r_weight := w; r_x := [o; p]; r_y := [o; o] |}];
     di_mix := [{| x_attr := 3; x_weight := w; x_ndx := [p; o]; x_ndy := [o; o]; x_rtx := [p; o]; x_rty := [o; o] |};
                {| x_attr := 3; x_weight := w; x_ndx := [o; p]; x_ndy := [o; o]; x_rtx := [o; p]; x_rty := [o; o] |}];
     di_gradient := [[nopp n1; o; n1]; [o; n1; nopp n1]];
     di_flux := [{| q_attr := 1; q_pos := (o, o); q_w := [nopp n1; o] |}; {| q_attr := 2; q_pos := (s, o); q_w := [o; n1] |};
                 {| q_attr := 4; q_pos := (s / (n1 + n1), o)%num; q_w := [n1; nopp n1] |}];
     di_bdrPhi := [(1%Z, [n1; o; o]); (2%Z, [o; n1; o])]; di_domPhi := [(3%Z, [n1; n1; n1])];
     di_energy := [{| y_attr := 3; y_weight := w; y_x := [p; o]; y_y := [o; o] |};
                   {| y_attr := 3; y_weight := w; y_x := [o; p]; y_y := [o; o] |}] |}.
Definition chain_disc {T} `{Num T} (s : T) : mesh T -> Z -> discretization T := fun _ _ => chain s.

Open Scope R_scope.
Lemma len3 (z : list R) : List.length z = 3%nat -> exists a b c, z = [a; b; c].
Proof. destruct z as [|a [|b [|c [|e z]]]]; try discriminate. eauto. Qed.
Lemma len2 (z : list R) : List.length z = 2%nat -> exists a b, z = [a; b].
Proof. destruct z as [|a [|b [|e z]]]; try discriminate. eauto. Qed.

Section Chain.
  Variable s : R.
  Hypothesis Ps : 0 < s.
  Variable abc : R * R -> R.
  Variable op : openness.
  Variable er : R.
  Hypothesis Per : 0 < er.
  Notation D := (chain s).
  Notation F := (discretize abc D).
  Variable ms : mesh R.
  Notation m := ({| mo_mats := toy_mats op er; mo_mesh := ms; mo_ground := 0 |} : model R).
  Notation mats := (toy_mats op er).
  Lemma div_pos : 0 < 1 / s. Proof. apply Rdiv_lt_0_compat; lra. Qed.
  Lemma chain_flat z0 z1 z2 : flat D [z0; z1; z2] <-> z2 = z0 /\ z1 = z2.
  Proof.
    pose proof div_pos. unfold flat. split.
    - intros H1. destruct (H1 _ (or_introl eq_refl)) as [X _]. destruct (H1 _ (or_intror (or_introl eq_refl))) as [Y _]. cbn in X, Y.
      assert (X' : 1 / s * (z2 - z0) = 0) by (rewrite <- X; field; lra). assert (Y' : 1 / s * (z1 - z2) = 0) by (rewrite <- Y; field; lra).
      apply Rmult_integral in X', Y'. lra.
    - intros [-> ->] q [<-|[<-|[]]]; cbn; split; field; lra.
  Qed.
  Lemma chain_tables : tables_ok D.
  Proof.
    pose proof div_pos as Q. assert (W : 0 < s * s) by nra.
    constructor; cbn.
    - intros b [<-|[<-|[<-|[]]]]; cbn; (split; [lia|]); intros k [<-|[]]; lia.
    - intros q [<-|[<-|[]]]; cbn; repeat split; auto; lia.
    - intros q [<-|[]]; cbn; repeat split; auto; lia.
    - intros q [<-|[]]; reflexivity.
    - intros k L. destruct k as [|[|[|k]]]; try lia.
      + eexists. split; [left; reflexivity|]. cbn. left. unfold Rdiv in *. lra.
      + eexists. split; [right; left; reflexivity|]. cbn. left. lra.
      + eexists. split; [left; reflexivity|]. cbn. left. lra.
    - split; [reflexivity|]. intros r [<-|[<-|[]]]; reflexivity.
    - intros q [<-|[<-|[]]]; cbn; repeat split; auto.
    - intros d L H1. destruct (len2 d L) as (a & b & ->).
      destruct (H1 _ (or_introl eq_refl)) as [X _]. destruct (H1 _ (or_intror (or_introl eq_refl))) as [Y _]. cbn in X, Y.
      assert (X' : 1 / s * a = 0) by lra. assert (Y' : 1 / s * b = 0) by lra. apply Rmult_integral in X', Y'.
      cbn. repeat f_equal; lra.
    - intros q [<-|[<-|[]]]; cbn; lia.
  Qed.
  Lemma chain_posed : well_posed F m.
  Proof.
    constructor; [apply toy_names|..].
    - repeat constructor.
    - destruct op; repeat constructor.
    - repeat constructor; cbn; lia.
    - apply discretize_ok, chain_tables.
  Qed.
  Lemma chain_bdr t k : on_boundary F t k <-> (t = 1%Z /\ k = 0%nat) \/ (t = 2%Z /\ k = 1%nat) \/ (t = 4%Z /\ k = 2%nat).
  Proof.
    unfold on_boundary. cbn. split.
    - intros (b & [<-|[<-|[<-|[]]]] & <- & [<-|[]]); cbn; auto.
    - intros [[-> ->]|[[-> ->]|[-> ->]]]; [exists (1%Z, [0%nat])|exists (2%Z, [1%nat])|exists (4%Z, [2%nat])]; cbn; auto.
  Qed.
  Hypothesis Pabc : 0 < abc (s / 2, 0).
  Lemma chain_regular : regular_model abc D m.
  Proof.
    constructor.
    - apply chain_tables.
    - cbn. intros d [<-|[]]. exact Per.
    - discriminate.
    - cbn. repeat constructor; cbn; intuition lia.
    - intros q ([<-|[]] & _). cbn. exact Pabc.
    - intros z L Fl Hc _. destruct (len3 z L) as (a & b & c & ->). apply chain_flat in Fl as [E1 E2].
      assert (H1 : nth_error [a; b; c] 0 = Some 0).
      { apply (Hc {| p_name := "Conductor_0"; p_attr := 1; p_area := 1 |} 0%nat); [cbn; auto|]. apply chain_bdr; auto. }
      cbn in H1. injection H1 as ->. cbn. repeat f_equal; lra.
  Qed.
  Lemma chain_constants : constants_ok D.
  Proof.
    constructor.
    - change (repeat 1 (di_nH1 D)) with [1; 1; 1]. apply chain_flat. lra.
    - intros r [<-|[<-|[]]]; cbn; lra.
    - intros q [<-|[]]; cbn; lra.
  Qed.
  Lemma chain_connected : connected_mesh abc D m.
  Proof.
    constructor.
    - intros z L Fl. destruct (len3 z L) as (a & b & c & ->). apply chain_flat in Fl as [-> ->]. exists a. reflexivity.
    - cbn. intros c [<-|[<-|[]]]; cbn; [exists 1%nat|exists 0%nat]; (split; [apply chain_bdr; auto|]); intros c' _ B;
        apply chain_bdr in B as [[-> E]|[[-> E]|[-> E]]]; try discriminate; lia.
    - intros ob I. eexists. split; [left; reflexivity|]. cbn in I |- *. destruct op; cbn in I; [destruct I as [<-|[]]; reflexivity|destruct I as [<-|[]]; reflexivity|destruct I].
  Qed.
  Lemma chain_quadrature : same_quadrature D.
  Proof.
    split.
    - cbn. intros y [<-|[<-|[]]]; cbn; lia.
    - intros phi f L. destruct (len3 phi L) as (a & b & c & ->). unfold grad2. cbn. field. lra.
  Qed.
  (** The fields of the chain *)
  Definition stray : R := match op with Closed => 0 | _ => s * abc (s / 2, 0) end.
  Lemma chain_fields dbg ignore v p x : conductor_problem mats ignore v p -> computes abc D dbg p x ->
    let e := if ignore then 1 else er in
    exists c, so_phi x = [v 1%Z; v 2%Z; c] /\ e * ((c - v 1%Z) - (v 2%Z - c)) + stray * c = 0 /\
      so_d x = [e * (v 1%Z - c); e * (c - v 2%Z)] /\
      forall a b, work abc D p [v 1%Z; v 2%Z; c] [a; b; 0] = e * ((v 1%Z - c) * a + (v 2%Z - c) * b).
  Proof.
    intros Cp Cx e. pose proof chain_tables as OK. pose proof chain_posed as W. pose proof chain_regular as Rm.
    destruct (model_problem abc D m W Rm ignore v p Cp) as (Hp & An).
    assert (Ee : si_eps p = [(3%Z, e)]).
    { apply msorted_in_ext; [apply Cp|repeat constructor|]. intros k z. rewrite (cp_eps _ _ _ _ Cp). unfold permittivity. cbn. split.
      - intros ([|? [|? l1]] & q & l2 & El & <- & _ & ->); cbn in El; try discriminate. injection El as <- _. auto.
      - intros [[= <- <-]|[]]. exists [], {| d_name := "Vacuum_0"; d_attr := 3; d_epsr := er |}, []. cbn. auto. }
    assert (Op : Rsum (open_points D p) (fun q => b_weight q * abc (b_pos q) * (dot (b_shape q) (so_phi x) * dot (b_shape q) [0; 0; 1])) =
                 stray * nth 2 (so_phi x) 0 /\ forall a b, Rsum (open_points D p) (fun q => b_weight q * abc (b_pos q) * (dot (b_shape q) (so_phi x) * dot (b_shape q) [a; b; 0])) = 0).
    { assert (L : List.length (so_phi x) = 3%nat).
      { destruct (minimal abc D OK dbg p x Hp An Cx) as (_ & _ & L & _). exact L. }
      destruct (len3 _ L) as (a1 & a2 & a3 & ->).
      unfold open_points, stray. pose proof (cp_open _ _ _ _ Cp) as Q. cbn in Q.
      destruct op; cbn in Q.
      1, 2: apply Permutation_sym, Permutation_length_1_inv in Q; rewrite Q; cbn.
      1, 2: replace (1 + 1) with 2 by ring; set (h := abc _); clearbody h; split; [|intros]; ring.
      apply Permutation_sym, Permutation_nil in Q. rewrite Q. cbn. split; [ring|reflexivity]. }
    destruct (minimal abc D OK dbg p x Hp An Cx) as (_ & _ & L & Pr & _).
    apply (prescribed_model abc D m ignore v p _ Cp L) in Pr as [_ Pr].
    destruct (len3 _ L) as (a1 & a2 & c & Ep).
    assert (E1 : a1 = v 1%Z).
    { assert (Q : nth_error (so_phi x) 0 = Some (v 1%Z)); [|rewrite Ep in Q; cbn in Q; congruence].
      apply (Pr {| p_name := "Conductor_0"; p_attr := 1; p_area := 1 |} 0%nat); [cbn; auto|apply chain_bdr; auto|].
      cbn. intros c' _ B. apply chain_bdr in B as [[-> Ek]|[[-> Ek]|[-> Ek]]]; try discriminate; lia. }
    assert (E2 : a2 = v 2%Z).
    { assert (Q : nth_error (so_phi x) 1 = Some (v 2%Z)); [|rewrite Ep in Q; cbn in Q; congruence].
      apply (Pr {| p_name := "Conductor_1"; p_attr := 2; p_area := 1 |} 1%nat); [cbn; auto|apply chain_bdr; auto|].
      cbn. intros c' _ B. apply chain_bdr in B as [[-> Ek]|[[-> Ek]|[-> Ek]]]; try discriminate; lia. }
    subst a1 a2. exists c. split; [exact Ep|].
    assert (Wk : work abc D p (so_phi x) [0; 0; 1] = 0).
    { apply (computed_weak abc D OK dbg p x _ Hp An Cx (cp_neu _ _ _ _ Cp)); [reflexivity|].
      intros t z k I B. apply (cp_dir _ _ _ _ Cp) in I as [(q & [<-|[<-|[]]] & <-) _]; apply chain_bdr in B as [[Et Ek]|[[Et Ek]|[Et Ek]]]; try discriminate; subst k; reflexivity. }
    unfold work in Wk. rewrite (proj1 Op) in Wk. rewrite Ep, Ee in Wk. cbn in Wk.
    split; [|split].
    - refine (eq_trans _ Wk). unfold grad2, eps_of. cbn. field. lra.
    - symmetry. apply (d_of_e abc D OK dbg p x _ Hp Cx).
      pose proof (e_of_phi abc D OK dbg p x Hp Cx) as G. unfold is_minus_gradient in G. rewrite G, Ep.
      split; [reflexivity|]. intros t Lt. destruct (len2 t Lt) as (t1 & t2 & ->). rewrite Ee. unfold eps_of. cbn. field. lra.
    - intros a b. unfold work. rewrite <- Ep, (proj2 Op), Ep, Ee. unfold grad2, eps_of. cbn. field. lra.
  Qed.
  Lemma chain_charge x t d1 d2 q : so_d x = [d1; d2] -> charge_on F x t q -> (t = 1%Z -> q = d1) /\ (t = 2%Z -> q = - d2).
  Proof.
    intros E C. rewrite (charge_on_fun abc D _ _ _ _ C (chargeF abc D x t)), E. split; intros ->; cbn; ring.
  Qed.
  Lemma chain_gauss dbg ignore : gauss abc D dbg m ignore.
  Proof.
    intros v p x c psi q Cp Cx Ic [Lp Hp] Cq. destruct (chain_fields dbg ignore v p x Cp Cx) as (w & E1 & E2 & E3 & E4).
    destruct (len3 psi Lp) as (a & b & z & ->).
    assert (Pa : a = unit_potential (p_attr c) 1%Z).
    { assert (Q : nth_error [a; b; z] 0 = Some (unit_potential (p_attr c) 1%Z)); [|cbn in Q; congruence].
      apply (Hp {| p_name := "Conductor_0"; p_attr := 1; p_area := 1 |} 0%nat); [cbn; auto|apply chain_bdr; auto|].
      cbn. intros c' _ B. apply chain_bdr in B as [[-> Ek]|[[-> Ek]|[-> Ek]]]; try discriminate; lia. }
    assert (Pb : b = unit_potential (p_attr c) 2%Z).
    { assert (Q : nth_error [a; b; z] 1 = Some (unit_potential (p_attr c) 2%Z)); [|cbn in Q; congruence].
      apply (Hp {| p_name := "Conductor_1"; p_attr := 2; p_area := 1 |} 1%nat); [cbn; auto|apply chain_bdr; auto|].
      cbn. intros c' _ B. apply chain_bdr in B as [[-> Ek]|[[-> Ek]|[-> Ek]]]; try discriminate; lia. }
    destruct (model_problem abc D m chain_posed chain_regular ignore v p Cp) as (Hpp & An).
    assert (Wz : work abc D p (so_phi x) [a; b; z] = work abc D p (so_phi x) [a; b; 0]).
    { assert (Z : work abc D p (so_phi x) [0; 0; z] = 0).
      { apply (computed_weak abc D chain_tables dbg p x _ Hpp An Cx (cp_neu _ _ _ _ Cp)); [reflexivity|].
        intros t y k I B. apply (cp_dir _ _ _ _ Cp) in I as [(r & [<-|[<-|[]]] & <-) _]; apply chain_bdr in B as [[Et Ek]|[[Et Ek]|[Et Ek]]]; try discriminate; subst k; reflexivity. }
      rewrite (work_sym abc D p), (work_combination abc D p 2 (fun _ => 1) (fun j => match j with 0%nat => [a; b; 0] | _ => [0; 0; z] end) [a; b; z]).
      - cbn. rewrite !(work_sym abc D p _ (so_phi x)), Z. lra.
      - intros [|[|j]] L; try lia; reflexivity.
      - reflexivity.
      - intros [|[|[|[|k]]]]; cbn; ring. }
    rewrite Wz, E1, E4, Pa, Pb. unfold unit_potential. destruct (chain_charge x (p_attr c) _ _ q E3 Cq) as [Q1 Q2].
    cbn in Ic. destruct Ic as [<-|[<-|[]]]; cbn in *; [rewrite Q2 by reflexivity|rewrite Q1 by reflexivity]; destruct ignore; ring.
  Qed.
End Chain.

(** The length of the elements is read from the mesh. *)
Definition mesh_scale {T} (ms : mesh T) : T := fst (m_coord ms 1%Z).
Definition toy_disc {T} `{Num T} : mesh T -> Z -> discretization T := fun ms _ => chain (mesh_scale ms).
Definition scaled_mesh (s : R) (op : openness) : mesh R :=
  {| m_elems := m_elems (toy_mesh op); m_bdr := m_bdr (toy_mesh op);
     m_coord := fun v => let p := m_coord (toy_mesh op) v in (s * fst p, s * snd p) |}.
Definition scaled_model (s : R) (op : openness) (er : R) : model R :=
  {| mo_mats := toy_mats op er; mo_mesh := scaled_mesh s op; mo_ground := 0 |}.

Section ToyDriver.
  Variable s : R.
  Hypothesis Ps : 0 < s.
  Variable abc : R * R -> R.
  Hypothesis Pabc : 0 < abc (s / 2, 0).
  Variable op : openness.
  Variable er : R.
  Hypothesis Per : 0 < er.
  Notation m := (scaled_model s op er).
  Lemma disc_scaled k : toy_disc (mo_mesh m) k = chain s.
  Proof. unfold toy_disc, mesh_scale. cbn. now rewrite Rmult_1_r. Qed.
  Lemma toy_driver dbg o : exists d, galerkin_driver abc toy_disc dbg m o d toy_conds.
  Proof.
    assert (W : well_posed (galerkin abc toy_disc (mo_mesh m) (o_order o)) m).
    { unfold galerkin. rewrite disc_scaled. exact (chain_posed s Ps abc op er (scaled_mesh s op)). }
    destruct (mkDriver_ok dbg (galerkin abc toy_disc) m o W toy_conds) as (d & E & _).
    - apply toy_order.
    - discriminate.
    - exists d. constructor.
      + exact W.
      + rewrite disc_scaled. now apply chain_regular.
      + eexists. exact E.
      + apply toy_order.
  Qed.
  Lemma toy_openness_scaled dbg : determineOpenness dbg m = Ok op.
  Proof. destruct op, dbg; reflexivity. Qed.
  Lemma toy_homogeneous k : homogeneous (toy_disc (mo_mesh m) k) m er.
  Proof.
    rewrite disc_scaled. split; [exact Per|]. split; [|split].
    - cbn. intros d [<-|[]]; reflexivity.
    - cbn. intros q [<-|[<-|[]]]; cbn; auto.
    - cbn. intros q [<-|[<-|[]]]; cbn; auto.
  Qed.
  (** everything the theorems about these fields assume *)
  Lemma toy_all dbg k : connected_mesh abc (toy_disc (mo_mesh m) k) m /\ constants_ok (toy_disc (mo_mesh m) k) /\ same_quadrature (toy_disc (mo_mesh m) k) /\
    forall ignore, gauss abc (toy_disc (mo_mesh m) k) dbg m ignore.
  Proof.
    rewrite disc_scaled. split; [now apply chain_connected|]. split; [now apply chain_constants|]. split; [now apply chain_quadrature|].
    intros ignore. now apply chain_gauss.
  Qed.
End ToyDriver.

(** ** The unit of length of an open problem *)
Lemma norm2_pos (x : R) : 0 <= x -> Multipole.norm2 (x, 0) = x.
Proof.
  intros P. unfold Multipole.norm2. cbn. replace (x * x + 0 * 0) with (x * x) by ring. now apply sqrt_square.
Qed.
Lemma abc_at (x : R) : 0 < x < 1 -> Multipole.firstOrderABC (x, 0) = 1 / (x * - ln x) /\ 0 < Multipole.firstOrderABC (x, 0).
Proof.
  intros P. assert (L : ln x < 0) by (rewrite <- ln_1; apply ln_increasing; lra).
  assert (E : Multipole.firstOrderABC (x, 0) = 1 / (x * - ln x)).
  { unfold Multipole.firstOrderABC. rewrite norm2_pos by lra. field. lra. }
  split; [exact E|]. rewrite E. apply Rdiv_lt_0_compat; [lra|]. apply Rmult_lt_0_compat; lra.
Qed.
Lemma chain_rescaled s : 0 < s -> rescaled s (chain 1) (chain s).
Proof.
  intros P.
  assert (Q : shrunk s [-1 / 1; 0; 1 / 1] [-1 / s; 0; 1 / s] /\ shrunk s [0; 1 / 1; -1 / 1] [0; 1 / s; -1 / s] /\ shrunk s [0; 0; 0] [0; 0; 0] /\
    shrunk s [1 / 1; 0] [1 / s; 0] /\ shrunk s [0; 1 / 1] [0; 1 / s] /\ shrunk s [0; 0] [0; 0] /\ s * s = s * s * (1 * 1)).
  { unfold shrunk. cbn [map]. repeat split; [repeat f_equal; field; lra ..|ring]. }
  destruct Q as (Q1 & Q2 & Q3 & Q4 & Q5 & Q6 & Q7).
  constructor; cbn; auto; repeat (apply Forall2_cons; [cbn|]); try apply Forall2_nil; auto 8.
  split; [reflexivity|]. split; [ring|]. split; [reflexivity|]. f_equal; field.
Qed.
(** the first entry of the generalized matrix *)
Lemma toy_entry s abc dbg moment o d g w : 0 < s -> 0 < abc (s / 2, 0) ->
  galerkin_driver abc toy_disc dbg (scaled_model s Open 1) o d toy_conds ->
  reply dbg (galerkin abc toy_disc) moment (CallGeneralizedC false) d = (Ok (VMatrix g), w) ->
  exists c, (2 + s * abc (s / 2, 0)) * c = 1 /\ ent g 0 0 = 1 - c.
Proof.
  intros Ps Pa [W Rm B O] E. assert (Pe : 0 < 1) by lra.
  destruct (gc_entries abc toy_disc dbg moment _ o d [] toy_conds W B O false g w E) as (_ & G).
  destruct (units_exist abc (toy_disc (mo_mesh (scaled_model s Open 1)) (o_order o)) dbg _ W Rm false toy_conds) as (us & Fu).
  inversion Fu as [|p0 u0 l0 us0 U0 Fu0]; subst. 
  pose proof (G (u0 :: us0) 0%nat 0%nat _ _ u0 u0 _ _ Fu eq_refl eq_refl eq_refl eq_refl
                (chargeF _ _ u0 _) (chargeF _ _ u0 _)) as Eg. 
  apply unit_fields in U0. destruct U0 as (p & Cp & Cx). rewrite disc_scaled in Cx, Eg.
  destruct (chain_fields s Ps abc Open 1 Pe (scaled_mesh s Open) Pa dbg false _ p u0 Cp Cx) as (c & E1 & E2 & E3 & _).
  destruct (chain_charge s abc u0 1%Z _ _ _ E3 (chargeF _ _ u0 _)) as [Q _]. specialize (Q eq_refl).
  exists c. unfold stray, unit_potential in *. cbn [Z.eqb Pos.eqb p_attr] in *. split.
  - cbn in E2. lra.
  - rewrite Eg. cbn [toy_conds p_attr]. rewrite Q. cbn. field.
Qed.
Lemma unit_of_length :
  ~ (forall disc (dbg : bool) moment (m m' : model R) (o : driver_options) (d d' : driver R)
            (conds : list (pec R)) (s : R) (g g' : matrix R) w w',
       galerkin_driver Multipole.firstOrderABC disc dbg m o d conds -> galerkin_driver Multipole.firstOrderABC disc dbg m' o d' conds ->
       0 < s -> rescaled s (disc (mo_mesh m) (o_order o)) (disc (mo_mesh m') (o_order o)) -> mo_mats m' = mo_mats m ->
       determineOpenness dbg m = Ok Open -> determineOpenness dbg m' = Ok Open ->
       reply dbg (galerkin Multipole.firstOrderABC disc) moment (CallGeneralizedC false) d = (Ok (VMatrix g), w) ->
       reply dbg (galerkin Multipole.firstOrderABC disc) moment (CallGeneralizedC false) d' = (Ok (VMatrix g'), w') ->
       forall i j, (i < List.length conds)%nat -> (j < List.length conds)%nat -> ent g i j = ent g' i j).
Proof.
  intros H. set (abc := Multipole.firstOrderABC) in *. set (moment := fun (_ : R * R) (_ _ : nat) (_ : R * R) => 0).
  assert (P1 : 0 < 1) by lra. assert (P2 : 0 < / 2) by lra.
  destruct (abc_at (1 / 2)) as [A1 B1]; [lra|]. destruct (abc_at (/ 2 / 2)) as [A2 B2]; [lra|].
  destruct (toy_driver 1 P1 abc B1 Open 1 P1 true toy_options) as (d & G1).
  destruct (toy_driver (/ 2) P2 abc B2 Open 1 P1 true toy_options) as (d' & G2).
  assert (Ex : forall s dd, 0 < s -> galerkin_driver abc toy_disc true (scaled_model s Open 1) toy_options dd toy_conds ->
    exists g w, reply true (galerkin abc toy_disc) moment (CallGeneralizedC false) dd = (Ok (VMatrix g), w)).
  { intros s dd Ps [W _ B O].
    destruct (generalized_matrix true (galerkin abc toy_disc) moment _ toy_options dd [] toy_conds false Open W B O
                (toy_openness_scaled s Open 1 true)) as (g & w & E & _); [discriminate|]. exists g, w. exact E. }
  destruct (Ex _ _ P1 G1) as (g & w & E1). destruct (Ex _ _ P2 G2) as (g' & w' & E2).
  assert (R : rescaled (/ 2) (toy_disc (mo_mesh (scaled_model 1 Open 1)) (o_order toy_options)) (toy_disc (mo_mesh (scaled_model (/ 2) Open 1)) (o_order toy_options))).
  { rewrite !disc_scaled. now apply chain_rescaled. }
  pose proof (H toy_disc true moment _ _ toy_options d d' toy_conds (/ 2) g g' w w' G1 G2 P2 R eq_refl
                (toy_openness_scaled _ _ _ _) (toy_openness_scaled _ _ _ _) E1 E2 0%nat 0%nat ltac:(cbn; lia) ltac:(cbn; lia)) as Eq.
  destruct (toy_entry 1 abc true moment toy_options d g w P1 B1 G1 E1) as (c & Hc & V1).
  destruct (toy_entry (/ 2) abc true moment toy_options d' g' w' P2 B2 G2 E2) as (c' & Hc' & V2).
  assert (c = c') as <- by lra.
  assert (L : 0 < ln 2) by (rewrite <- ln_1; apply ln_increasing; lra).
  assert (L1 : ln (1 / 2) = - ln 2) by (replace (1 / 2) with (/ 2) by field; apply ln_Rinv; lra).
  assert (L2 : ln (/ 2 / 2) = - (2 * ln 2)).
  { replace (/ 2 / 2) with (/ (2 * 2)) by field. rewrite ln_Rinv, ln_mult by lra. ring. }
  unfold abc in Hc, Hc'. rewrite A1, L1 in Hc. rewrite A2, L2 in Hc'.
  assert (Q1 : 1 * (1 / (1 / 2 * - - ln 2)) = 2 / ln 2) by (field; lra).
  assert (Q2 : / 2 * (1 / (/ 2 / 2 * - - (2 * ln 2))) = 1 / ln 2) by (field; lra).
  rewrite Q1 in Hc. rewrite Q2 in Hc'. assert (K : 0 < / ln 2) by now apply Rinv_0_lt_compat.
  unfold Rdiv in Hc, Hc'. assert (Z : / ln 2 * c = 0) by lra. apply Rmult_integral in Z as [Z|Z]; [lra|]. subst c. lra.
Qed.
