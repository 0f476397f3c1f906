(** Proofs about ElectrostaticSolver: markers, boundary values, histories (C33-C35, C54). *)
From Verif Require Import Prelude StdMap Matrix Solver SpecSolver ListLemmas.
From Coq Require Import Permutation Sorted.

(** ** C33 *)
Lemma set_nth_true_length l k : List.length (set_nth_true l k) = List.length l.
Proof. unfold set_nth_true. now rewrite map_length, enum_length. Qed.
Lemma set_nth_true_nth l k i : nth_error (set_nth_true l k) i =
  match nth_error l i with Some b => Some (if (i =? k)%nat then true else b) | None => None end.
Proof.
  unfold set_nth_true. rewrite nth_error_map. destruct (nth_error l i) as [b|] eqn:E.
  - rewrite (nth_error_enum _ _ _ E). reflexivity.
  - assert (L : nth_error (enum l) i = None) by (apply nth_error_None; rewrite enum_length; now apply nth_error_None).
    now rewrite L.
Qed.
Lemma zmax_list_ge l a : (a <= zmax_list a l)%Z /\ forall x, In x l -> (x <= zmax_list a l)%Z.
Proof.
  revert a; induction l as [|y l IH]; intros a; cbn; [split; [lia|tauto]|].
  destruct (IH (Z.max a y)) as [A B]. unfold zmax_list in *. cbn. split; [lia|].
  intros x [<-|I]; [lia|auto].
Qed.
Definition mark_fold (attrs : list Z) (m : list bool) : outcome (list bool) :=
  foldM (fun m attr => if (0 <? attr)%Z then Ok (set_nth_true m (Z.to_nat (attr - 1)))
                       else Throw MfemError) attrs m.
Lemma mark_fold_ok attrs m : Forall (fun a => 0 < a)%Z attrs ->
  exists m', mark_fold attrs m = Ok m' /\ List.length m' = List.length m /\
    forall k b, nth_error m k = Some b ->
      nth_error m' k = Some (zmem (Z.of_nat k + 1) attrs || b)%bool.
Proof.
  intros F; revert m; induction F as [|a l Ha F IH]; intros m.
  - exists m. cbn. auto.
  - unfold mark_fold. cbn [foldM]. destruct (Z.ltb_spec 0 a); [|lia]. cbn [bind].
    destruct (IH (set_nth_true m (Z.to_nat (a - 1)))) as (m' & E & L & N).
    exists m'. split; [exact E|]. rewrite set_nth_true_length in L. split; [exact L|].
    intros k b Hk. specialize (N k (if (k =? Z.to_nat (a - 1))%nat then true else b)).
    rewrite N by (rewrite set_nth_true_nth, Hk; reflexivity). f_equal. cbn.
    destruct (Nat.eqb_spec k (Z.to_nat (a - 1))) as [E1|E1]; destruct (Z.eqb_spec (Z.of_nat k + 1) a) as [E2|E2];
      try lia; cbn; now rewrite ?orb_true_r.
Qed.
Lemma mark_fold_throw attrs m : Exists (fun a => a <= 0)%Z attrs -> mark_fold attrs m = Throw MfemError.
Proof.
  intros F; revert m; induction F as [a l Ha|a l F IH]; intros m; unfold mark_fold; cbn [foldM].
  - destruct (Z.ltb_spec 0 a); [lia|reflexivity].
  - destruct (0 <? a)%Z; [|reflexivity]. cbn [bind]. apply IH.
Qed.
Lemma AttrToMarker_fold bdrMax a r : a :: r <> [-1]%Z ->
  AttrToMarker bdrMax (a :: r) =
  mark_fold (a :: r) (repeat false (Z.to_nat (Z.max (zmax_list a r) bdrMax))).
Proof.
  intros N. unfold AttrToMarker.
  destruct r as [|r0 r]; [|destruct a as [|p|p]; try reflexivity; destruct p; reflexivity].
  destruct a as [|p|p]; try reflexivity. destruct p; try reflexivity. congruence.
Qed.

Lemma marker_positive bdrMax attrs : attrs <> [] -> Forall (fun a => 0 < a)%Z attrs ->
  exists m, AttrToMarker bdrMax attrs = Ok m /\
    (bdrMax <= Z.of_nat (List.length m))%Z /\
    (forall a, In a attrs -> (a <= Z.of_nat (List.length m))%Z) /\
    (forall k b, nth_error m k = Some b -> (b = true <-> In (Z.of_nat k + 1)%Z attrs)).
Proof.
  intros Ne F. destruct attrs as [|a r]; [congruence|].
  rewrite AttrToMarker_fold by (intros [= -> ->]; inversion F; lia).
  destruct (mark_fold_ok (a :: r) (repeat false (Z.to_nat (Z.max (zmax_list a r) bdrMax))) F) as (m & E & L & N).
  rewrite repeat_length in L. exists m. split; [exact E|]. rewrite L.
  destruct (zmax_list_ge r a) as [G1 G2].
  assert (Ha : (0 < a)%Z) by now inversion F.
  split; [lia|]. split.
  - intros x [<-|I]; [lia|]. apply G2 in I. lia.
  - intros k b Hk. assert (Lk : (k < List.length m)%nat) by (apply nth_error_Some; congruence).
    rewrite (N k false) in Hk.
    + injection Hk as <-. rewrite orb_false_r. apply (zmem_in _ (a :: r)).
    + rewrite L in Lk. clear -Lk. revert k Lk; induction (Z.to_nat (Z.max (zmax_list a r) bdrMax)); intros k Lk; [lia|].
      destruct k; cbn; [reflexivity|]. apply IHn. lia.
Qed.
Lemma marker_all bdrMax : (0 < bdrMax)%Z -> AttrToMarker bdrMax [-1]%Z = Ok (repeat true (Z.to_nat bdrMax)).
Proof. intros Hb. cbn. now rewrite Z.max_r by lia. Qed.
Lemma marker_none bdrMax : AttrToMarker bdrMax [] = Ok [].
Proof. reflexivity. Qed.
Lemma marker_abort bdrMax attrs : Exists (fun a => a <= 0)%Z attrs -> attrs <> [-1]%Z ->
  AttrToMarker bdrMax attrs = Throw MfemError.
Proof.
  intros E N. destruct attrs as [|a r]; [inversion E|]. rewrite AttrToMarker_fold by exact N.
  now apply mark_fold_throw.
Qed.

(** Two lists with the same elements give the same marker. *)
Lemma zmax_list_in l a : In (zmax_list a l) (a :: l).
Proof.
  revert a; induction l as [|y l IH]; intros a; [now left|]. unfold zmax_list in *. cbn [fold_left].
  destruct (IH (Z.max a y)) as [E|I]; [|right; now right]. rewrite <- E.
  destruct (Z.max_spec a y) as [[_ ->]|[_ ->]]; [right; now left|now left].
Qed.
Lemma nth_error_ext' {A} (l1 l2 : list A) : (forall i, nth_error l1 i = nth_error l2 i) -> l1 = l2.
Proof.
  revert l2; induction l1 as [|x l1 IH]; intros [|y l2] E; auto.
  - specialize (E 0%nat); discriminate.
  - specialize (E 0%nat); discriminate.
  - pose proof (E 0%nat) as [= ->]. f_equal. apply IH. intros i. apply (E (S i)).
Qed.

Section Dofs.
  Context {T : Type} `{Num T}.
  Variable F : fem T.

  (** A mesh has at least one boundary attribute and they are 1..bdrMax (MFEM). *)
  Definition bdr_attrs_ok : Prop :=
    Forall (fun b => (0 < fst b <= fe_bdrMax F)%Z) (fe_bdrDofs F).

  Definition marked_dofs (attrs : list Z) : list nat :=
    flat_map (fun b => if zmem (fst b) attrs then snd b else []) (fe_bdrDofs F).

  Lemma essential_dofs_fold marker attrs l acc :
    Forall (fun b => (0 < fst b)%Z) l ->
    (forall b : Z * list nat, In b l ->
       nth_error marker (Z.to_nat (fst b - 1)) = Some (zmem (fst b) attrs)) ->
    foldM (fun acc (b : Z * list nat) =>
             let* f := vec_at marker (fst b - 1) in
             Ok (if f then acc ++ snd b else acc)%list) l acc =
    Ok (acc ++ flat_map (fun b => if zmem (fst b) attrs then snd b else []) l)%list.
  Proof.
    intros Fa; revert acc; induction Fa as [|b l Hb Fa IH]; intros acc Hm; cbn [foldM flat_map].
    - now rewrite app_nil_r.
    - unfold vec_at at 1. destruct (Z.ltb_spec (fst b - 1) 0); [lia|].
      rewrite (Hm b) by now left. cbn [bind].
      rewrite IH by (intros; apply Hm; now right).
      destruct (zmem (fst b) attrs); [now rewrite app_assoc|reflexivity].
  Qed.
  Lemma essential_dofs_ok attrs marker : bdr_attrs_ok -> attrs <> [] ->
    Forall (fun a => 0 < a)%Z attrs -> AttrToMarker (fe_bdrMax F) attrs = Ok marker ->
    essential_dofs F marker = Ok (marked_dofs attrs).
  Proof.
    intros Hb Ne Fa E. unfold essential_dofs, marked_dofs.
    destruct (marker_positive (fe_bdrMax F) attrs Ne Fa) as (m & E' & L & _ & N).
    assert (m = marker) by congruence. subst m.
    rewrite essential_dofs_fold with (attrs := attrs); [reflexivity| |].
    - eapply Forall_impl; [|exact Hb]. cbn; intros; lia.
    - intros b I. unfold bdr_attrs_ok in Hb. rewrite Forall_forall in Hb. specialize (Hb b I).
      destruct (nth_error marker (Z.to_nat (fst b - 1))) as [x|] eqn:Ex.
      + f_equal. apply eq_true_iff_eq. rewrite (N _ _ Ex), zmem_in.
        now replace (Z.of_nat (Z.to_nat (fst b - 1)) + 1)%Z with (fst b) by lia.
      + apply nth_error_None in Ex. lia.
  Qed.

  (** ** C35 *)
  Lemma set_dofs_length gf dofs (x : T) : List.length (set_dofs gf dofs x) = List.length gf.
  Proof. unfold set_dofs. now rewrite map_length, enum_length. Qed.
  Lemma set_dofs_nth gf dofs (x : T) k : nth_error (set_dofs gf dofs x) k =
    match nth_error gf k with Some y => Some (if nmem k dofs then x else y) | None => None end.
  Proof.
    unfold set_dofs. rewrite nth_error_map. destruct (nth_error gf k) as [b|] eqn:E.
    - rewrite (nth_error_enum _ _ _ E). reflexivity.
    - assert (L : nth_error (enum gf) k = None) by (apply nth_error_None; rewrite enum_length; now apply nth_error_None).
      now rewrite L.
  Qed.

  (** the value assigned to dof [k] by the list of values (the last one that touches it) *)
  Definition touches (k : nat) (av : Z * T) : bool :=
    (fst av <=? fe_bdrMax F)%Z && nmem k (dofs_of_attr F (fst av)).
  Definition last_value (vals : list (Z * T)) (k : nat) (d : T) : T :=
    fold_left (fun x av => if touches k av then snd av else x) vals d.

  Lemma applyBoundary_ok vals gf : Forall (fun av => 0 < fst av)%Z vals ->
    exists gf', applyBoundaryConstantValues F vals gf = Ok gf' /\ List.length gf' = List.length gf /\
      forall k y, nth_error gf k = Some y -> nth_error gf' k = Some (last_value vals k y).
  Proof.
    intros Fa; revert gf; induction Fa as [|av l Ha Fa IH]; intros gf; [exists gf; auto|].
    unfold applyBoundaryConstantValues in *. cbn [foldM]. unfold last_value in *. cbn [fold_left].
    destruct (fst av <=? fe_bdrMax F)%Z eqn:El.
    - destruct (Z.ltb_spec 0 (fst av)); [|lia]. cbn [bind].
      destruct (IH (set_dofs gf (dofs_of_attr F (fst av)) (snd av))) as (gf' & E & L & N).
      exists gf'. rewrite set_dofs_length in L. repeat split; auto.
      intros k y Hk. assert (Et : touches k av = nmem k (dofs_of_attr F (fst av))) by (unfold touches; now rewrite El).
      rewrite Et. apply N. now rewrite set_dofs_nth, Hk.
    - cbn [bind]. destruct (IH gf) as (gf' & E & L & N). exists gf'. repeat split; auto.
      intros k y Hk. assert (Et : touches k av = false) by (unfold touches; now rewrite El).
      rewrite Et. now apply N.
  Qed.
  (** with sorted tags the last value is the one of the largest tag that touches the dof *)
  Lemma last_value_notouch vals k d : (forall av, In av vals -> touches k av = false) -> last_value vals k d = d.
  Proof.
    unfold last_value. revert d; induction vals as [|av l IH]; intros d Hn; [reflexivity|]. cbn.
    rewrite (Hn av) by now left. apply IH. intros; apply Hn; now right.
  Qed.
  Lemma last_value_max vals k d t v : msorted vals -> In (t, v) vals -> touches k (t, v) = true ->
    (forall t' v', In (t', v') vals -> touches k (t', v') = true -> (t' <= t)%Z) ->
    last_value vals k d = v.
  Proof.
    intros S I Ht Hm. apply in_split in I as (l1 & l2 & ->).
    unfold last_value. rewrite fold_left_app. cbn [fold_left]. rewrite Ht.
    apply (last_value_notouch l2 k v). intros [t' v'] I.
    destruct (touches k (t', v')) eqn:Et; [|reflexivity]. exfalso.
    assert (L : (t' <= t)%Z) by (apply (Hm t' v'); auto; apply in_or_app; right; now right).
    unfold msorted in S. rewrite map_app in S. cbn in S.
    clear -S I L. induction l1 as [|[a b] l1 IH]; cbn in S.
    - inversion S as [|? ? S1 F1]; subst. rewrite Forall_forall in F1.
      apply (in_map fst) in I. specialize (F1 _ I). unfold olt in F1. cbn in F1. lia.
    - inversion S; auto.
  Qed.
End Dofs.

Section Solver.
  Context {T : Type} `{Num T}.
  Variable F : fem T.

  Lemma in_dofs_of_attr t k : In k (dofs_of_attr F t) <-> on_boundary F t k.
  Proof.
    unfold dofs_of_attr, on_boundary. rewrite in_flat_map. split.
    - intros (b & I & J). destruct (Z.eqb_spec (fst b) t); [|destruct J]. eauto.
    - intros (b & I & E & J). exists b; split; auto. now rewrite E, Z.eqb_refl.
  Qed.
  Lemma touches_iff k (av : Z * T) : touches F k av = true <-> (fst av <= fe_bdrMax F)%Z /\ on_boundary F (fst av) k.
  Proof. unfold touches. now rewrite andb_true_iff, Z.leb_le, nmem_in, in_dofs_of_attr. Qed.

  Lemma boundary_values (bc : list (Z * T)) : msorted bc -> Forall (fun av => 0 < fst av)%Z bc ->
    exists phi0, applyBoundaryConstantValues F bc (zeros (fe_nH1 F)) = Ok phi0 /\
      List.length phi0 = fe_nH1 F /\
      forall k, (k < fe_nH1 F)%nat -> exists x, nth_error phi0 k = Some x /\ prescribed_value F bc k x.
  Proof.
    intros S Fa. destruct (applyBoundary_ok F bc (zeros (fe_nH1 F)) Fa) as (phi0 & E & L & N).
    exists phi0. split; [exact E|]. unfold zeros in L. rewrite repeat_length in L. split; [exact L|].
    intros k Lk. assert (Hk : nth_error (zeros (fe_nH1 F)) k = Some n0).
    { unfold zeros. clear -Lk. revert k Lk. induction (fe_nH1 F); intros k Lk; [lia|].
      destruct k; cbn; [reflexivity|]. apply IHn; lia. }
    specialize (N k n0 Hk). exists (last_value F bc k n0). split; [exact N|].
    destruct (existsb (touches F k) bc) eqn:Ex.
    - (* the largest touching tag *)
      assert (M : exists t v, In (t, v) bc /\ touches F k (t, v) = true /\
        forall t' v', In (t', v') bc -> touches F k (t', v') = true -> (t' <= t)%Z).
      { clear -Ex. induction bc as [|[t v] bc IH]; [discriminate|]. cbn [existsb] in Ex.
        destruct (existsb (touches F k) bc) eqn:Eb.
        - destruct IH as (t1 & v1 & I1 & T1 & M1); auto.
          destruct (touches F k (t, v)) eqn:Et; [destruct (Z.leb_spec t t1) as [L|L]|].
          + exists t1, v1. split; [now right|split; auto]. intros t' v' [[= <- <-]|I'] T'; eauto.
          + exists t, v. split; [now left|split; auto]. intros t' v' [[= <- <-]|I'] T'; [lia|].
            specialize (M1 _ _ I' T'). lia.
          + exists t1, v1. split; [now right|split; auto]. intros t' v' [[= <- <-]|I'] T'; eauto; congruence.
        - rewrite orb_false_r in Ex. exists t, v. split; [now left|split; auto].
          intros t' v' [[= <- <-]|I'] T'; [lia|]. exfalso.
          assert (existsb (touches F k) bc = true) by (apply existsb_exists; eauto). congruence. }
      destruct M as (t & v & I & Ht & Hm). left. exists t.
      rewrite (last_value_max F bc k n0 t v S I Ht Hm).
      apply touches_iff in Ht as [H1 H2]. cbn in *. repeat split; auto.
      intros t' x' I' L' O'. apply (Hm t' x'); auto. apply touches_iff; auto.
    - right. assert (Hn : forall av, In av bc -> touches F k av = false).
      { intros av I. destruct (touches F k av) eqn:Et; auto.
        assert (existsb (touches F k) bc = true) by (apply existsb_exists; eauto). congruence. }
      split; [now apply last_value_notouch|]. intros t' x' I' L' O'. specialize (Hn _ I').
      assert (touches F k (t', x') = true) by (apply touches_iff; auto). congruence.
  Qed.

  (** ** Construction *)
  Lemma scale_at_ok (v : list T) k x : (0 <= k < Z.of_nat (List.length v))%Z ->
    exists v', scale_at v k x = Ok v' /\ List.length v' = List.length v /\
      forall i y, nth_error v i = Some y ->
        nth_error v' i = Some (if (Z.of_nat i =? k)%Z then nmul y x else y).
  Proof.
    intros Hk. unfold scale_at. destruct (Z.leb_spec 0 k), (Z.ltb_spec k (Z.of_nat (List.length v))); try lia.
    cbn [andb]. eexists; split; [reflexivity|]. rewrite map_length, enum_length. split; [reflexivity|].
    intros i y E. rewrite nth_error_map, (nth_error_enum _ _ _ E). cbn. f_equal.
    destruct (Nat.eqb_spec i (Z.to_nat k)), (Z.eqb_spec (Z.of_nat i) k); try lia; reflexivity.
  Qed.
  Lemma build_eps_fold dbg perm v : Forall (fun ae => 0 < fst ae <= Z.of_nat (List.length v))%Z perm ->
    exists v', foldM (fun v (ae : Z * T) =>
                do* assert_ dbg (fst ae <=? Z.of_nat (List.length v))%Z;
                scale_at v (fst ae - 1) (snd ae)) perm v = Ok v' /\ List.length v' = List.length v /\
      forall i y, nth_error v i = Some y ->
        nth_error v' i = Some (fold_left (fun y ae => if (fst ae =? Z.of_nat i + 1)%Z then nmul y (snd ae) else y) perm y).
  Proof.
    intros Fa; revert v Fa; induction perm as [|ae perm IH]; intros v Fa; [exists v; auto|].
    inversion Fa as [|? ? Ha Fb]; subst. cbn [foldM].
    assert (A : assert_ dbg (fst ae <=? Z.of_nat (List.length v))%Z = Ok tt).
    { unfold assert_. destruct (Z.leb_spec (fst ae) (Z.of_nat (List.length v))); [|lia].
      now rewrite andb_false_r. }
    rewrite A. cbn [bind].
    destruct (scale_at_ok v (fst ae - 1) (snd ae)) as (v1 & E1 & L1 & N1); [lia|].
    rewrite E1. cbn [bind]. destruct (IH v1) as (v' & E & L & N); [now rewrite L1|].
    exists v'. split; [exact E|]. split; [congruence|]. intros i y Hy. cbn [fold_left].
    apply N1 in Hy. rewrite (N _ _ Hy). f_equal. f_equal.
    destruct (Z.eqb_spec (Z.of_nat i) (fst ae - 1)), (Z.eqb_spec (fst ae) (Z.of_nat i + 1)); try lia; reflexivity.
  Qed.
  Lemma build_eps_ok dbg perm : Forall (fun ae => 0 < fst ae <= fe_domMax F)%Z perm ->
    is_ok (build_eps F dbg perm).
  Proof.
    intros Fa. unfold build_eps. destruct perm as [|ae perm]; [eexists; reflexivity|].
    destruct (build_eps_fold dbg (ae :: perm) (repeat n1 (Z.to_nat (fe_domMax F)))) as (v & E & _).
    - eapply Forall_impl; [|exact Fa]. cbn. intros a Ha. rewrite repeat_length. lia.
    - rewrite E. eexists; reflexivity.
  Qed.
  Lemma marker_total bdrMax attrs : Forall (fun a => 0 < a)%Z attrs -> is_ok (AttrToMarker bdrMax attrs).
  Proof.
    intros Fa. destruct attrs as [|a r]; [eexists; reflexivity|].
    destruct (marker_positive bdrMax (a :: r)) as (m & E & _); [discriminate|exact Fa|]. now exists m.
  Qed.

  Lemma mkSolver_ok dbg p : inputs_ok F p -> exists s, mkSolver F dbg p = Ok s /\
    s_params s = p /\ AttrToMarker (fe_bdrMax F) (map fst (si_dirichlet p)) = Ok (s_ess s) /\
    AttrToMarker (fe_bdrMax F) (si_open p) = Ok (s_open s) /\
    build_eps F dbg (si_eps p) = Ok (s_eps s) /\
    applyBoundaryConstantValues F (si_neumann p) (zeros (fe_nH1 F)) = Ok (s_sigma s) /\
    List.length (s_sigma s) = fe_nH1 F /\
    sized F (getSolution s).
  Proof.
    intros [Hd Hn Ho He]. unfold mkSolver.
    destruct (marker_total (fe_bdrMax F) (map fst (si_dirichlet p))) as [ess Ess].
    { apply Forall_forall. intros a I. apply in_map_iff in I as (av & <- & I). rewrite Forall_forall in Hd. auto. }
    destruct (build_eps_ok dbg _ He) as [eps Eps].
    destruct (marker_total (fe_bdrMax F) (si_open p) Ho) as [opn Opn].
    destruct (applyBoundary_ok F (si_neumann p) (zeros (fe_nH1 F)) Hn) as (sig & Sig & L & _).
    rewrite Ess, Eps, Opn, Sig. cbn [bind]. eexists; split; [reflexivity|]. cbn.
    unfold sized; cbn. unfold zeros in *. rewrite !repeat_length in *. repeat split; auto.
  Qed.

  (** What Solve does. *)
  Definition ess_of (bc : list (Z * T)) : list nat :=
    match bc with [] => [0%nat] | _ => marked_dofs F (map fst bc) end.
  (** the dofs that the next Solve takes as essential *)
  Definition ess_now (s : solver T) : outcome (list nat) :=
    match si_dirichlet (s_params s) with [] => Ok [0%nat] | _ => essential_dofs F (s_ess s) end.
  (** the matrix has been eliminated for them, or not at all *)
  Definition elim_ok (s : solver T) : Prop := match s_elim s with None => True | Some l => (ess_now s = Ok l) end.
  Definition eliminated (s : solver T) (l : list nat) : solver T :=
    {| s_params := s_params s; s_ess := s_ess s; s_open := s_open s; s_eps := s_eps s; s_sigma := s_sigma s;
       s_elim := Some l; s_phi := s_phi s; s_e := s_e s; s_d := s_d s |}.
  Lemma mkSolver_elim dbg p s : mkSolver F dbg p = Ok s -> s_elim s = None.
  Proof. intros E. unfold mkSolver in E. repeat (apply bind_ok in E as (? & _ & E)). injection E as <-. reflexivity. Qed.
  Lemma mkSolver_elim_ok dbg p s : mkSolver F dbg p = Ok s -> elim_ok s.
  Proof. intros E. unfold elim_ok. now rewrite (mkSolver_elim _ _ _ E). Qed.
  Lemma Solve_again s phi0 ess : elim_ok s ->
    applyBoundaryConstantValues F (si_dirichlet (s_params s)) (zeros (fe_nH1 F)) = Ok phi0 -> ess_now s = Ok ess ->
    Solve F s = Ok (set_fields (eliminated s ess)
        (fe_phi F (s_eps s) (s_open s) ess ess phi0 (s_sigma s))
        (fe_e F (fe_phi F (s_eps s) (s_open s) ess ess phi0 (s_sigma s)))
        (fe_d F (s_eps s) (fe_e F (fe_phi F (s_eps s) (s_open s) ess ess phi0 (s_sigma s))))).
  Proof.
    intros He E0 En. unfold Solve. rewrite E0. cbn [bind]. unfold ess_now in En. rewrite En. cbn [bind].
    unfold elim_ok, ess_now in He. rewrite En in He. destruct (s_elim s) as [l|]; [injection He as <-|]; reflexivity.
  Qed.
  Lemma Solve_elim_ok s s' : elim_ok s -> Solve F s = Ok s' -> elim_ok s' /\ s_params s' = s_params s /\ s_ess s' = s_ess s /\ s_open s' = s_open s /\ s_eps s' = s_eps s /\ s_sigma s' = s_sigma s.
  Proof.
    intros He E. pose proof E as E'. unfold Solve in E'. apply bind_ok in E' as (p0 & E0 & E'). apply bind_ok in E' as (es & E1 & _).
    rewrite (Solve_again s p0 es He E0 E1) in E. injection E as <-. cbn. split; auto.
  Qed.
  Lemma Solve_ok s : bdr_attrs_ok F -> elim_ok s ->
    Forall (fun av => 0 < fst av)%Z (si_dirichlet (s_params s)) ->
    AttrToMarker (fe_bdrMax F) (map fst (si_dirichlet (s_params s))) = Ok (s_ess s) ->
    exists phi0, applyBoundaryConstantValues F (si_dirichlet (s_params s)) (zeros (fe_nH1 F)) = Ok phi0 /\
      ess_now s = Ok (ess_of (si_dirichlet (s_params s))) /\
      Solve F s = Ok (set_fields (eliminated s (ess_of (si_dirichlet (s_params s))))
        (fe_phi F (s_eps s) (s_open s) (ess_of (si_dirichlet (s_params s))) (ess_of (si_dirichlet (s_params s))) phi0 (s_sigma s))
        (fe_e F (fe_phi F (s_eps s) (s_open s) (ess_of (si_dirichlet (s_params s))) (ess_of (si_dirichlet (s_params s))) phi0 (s_sigma s)))
        (fe_d F (s_eps s) (fe_e F (fe_phi F (s_eps s) (s_open s) (ess_of (si_dirichlet (s_params s))) (ess_of (si_dirichlet (s_params s))) phi0 (s_sigma s))))).
  Proof.
    intros Hb He Hd Hm. destruct (applyBoundary_ok F _ (zeros (fe_nH1 F)) Hd) as (phi0 & E & _).
    exists phi0. split; [exact E|].
    assert (En : ess_now s = Ok (ess_of (si_dirichlet (s_params s)))); [|split; [exact En|exact (Solve_again s phi0 _ He E En)]].
    unfold ess_now. destruct (si_dirichlet (s_params s)) as [|av l] eqn:Ed; [reflexivity|].
    rewrite (essential_dofs_ok F (map fst (av :: l)) (s_ess s)); auto; [discriminate|].
    apply Forall_forall. intros a I. apply in_map_iff in I as (b & <- & I). rewrite Forall_forall in Hd. auto.
  Qed.
  Lemma in_ess_of bc k : bc <> [] ->
    (In k (ess_of bc) <-> exists t x, In (t, x) bc /\ on_boundary F t k).
  Proof.
    intros Ne. unfold ess_of. destruct bc as [|av l]; [congruence|]. unfold marked_dofs, on_boundary.
    rewrite in_flat_map. split.
    - intros (b & I & J). destruct (zmem (fst b) (map fst (av :: l))) eqn:Z; [|destruct J].
      apply zmem_in, in_map_iff in Z as ([t x] & E & Z). cbn in E; subst t. eauto 10.
    - intros (t & x & I & b & Ib & <- & J). exists b; split; auto.
      assert (Z : zmem (fst b) (map fst (av :: l)) = true) by (apply zmem_in; apply (in_map fst) in I; exact I).
      now rewrite Z.
  Qed.

  (** C35 for Solve *)
  Lemma Solve_prescribes dbg p s : fem_ok F -> inputs_ok F p -> msorted (si_dirichlet p) -> si_dirichlet p <> [] ->
    mkSolver F dbg p = Ok s ->
    exists phi0 ess phi, solved_fields F s = Ok {| so_phi := phi; so_e := fe_e F phi; so_d := fe_d F (s_eps s) (fe_e F phi) |} /\
      phi = fe_phi F (s_eps s) (s_open s) ess ess phi0 (s_sigma s) /\
      (forall k, In k ess <-> exists t x, In (t, x) (si_dirichlet p) /\ on_boundary F t k) /\
      List.length phi0 = fe_nH1 F /\
      (forall k, (k < fe_nH1 F)%nat -> exists x, nth_error phi0 k = Some x /\ prescribed_value F (si_dirichlet p) k x).
  Proof.
    intros Hf Hp S Ne E. destruct (mkSolver_ok dbg p Hp) as (s' & E' & Ps & Es & _). assert (s' = s) by congruence. subst s'.
    rewrite <- Ps in *. destruct (Solve_ok s (fo_bdr F Hf) (mkSolver_elim_ok _ _ _ E)) as (phi0 & E0 & _ & Sv); [apply (io_dir F _ Hp)|exact Es|].
    destruct (boundary_values _ S (io_dir F _ Hp)) as (phi1 & E1 & L1 & N1).
    assert (phi1 = phi0) by congruence. subst phi1.
    exists phi0, (ess_of (si_dirichlet (s_params s))).
    eexists. split; [|split; [reflexivity|]].
    - unfold solved_fields. rewrite Sv. reflexivity.
    - split; [intros k; now apply in_ess_of|]. auto.
  Qed.

  Lemma solved_potential dbg p s phi e d : fem_ok F -> keeps_essential F -> inputs_ok F p ->
    msorted (si_dirichlet p) -> mkSolver F dbg p = Ok s ->
    solved_fields F s = Ok {| so_phi := phi; so_e := e; so_d := d |} ->
    forall t v k, In (t, v) (si_dirichlet p) -> on_boundary F t k -> (k < fe_nH1 F)%nat ->
      (forall t' v', In (t', v') (si_dirichlet p) -> on_boundary F t' k -> (t' <= t)%Z) ->
      nth_error phi k = Some v.
  Proof.
    intros Hf Hk Hp S E Es t v k I O L M.
    destruct (Solve_prescribes dbg p s Hf Hp S) as (phi0 & ess & phi' & Es' & Ep & He & L0 & N0); auto.
    { intros C. rewrite C in I. destruct I. }
    rewrite Es' in Es. injection Es as <- _ _. destruct (N0 k L) as (x & Hx & Px).
    subst phi'. apply Hk with (x := v); auto; [apply He; eauto|]. rewrite Hx. f_equal.
    assert (Lt : (t <= fe_bdrMax F)%Z).
    { destruct O as (b & Ib & <- & _). pose proof (fo_bdr F Hf) as Fb. rewrite Forall_forall in Fb. apply Fb, Ib. }
    destruct Px as [(t2 & I2 & L2 & O2 & M2)|[_ N]]; [|exfalso; apply (N t v); auto].
    assert (t2 = t) by (specialize (M2 _ _ I Lt O); specialize (M _ _ I2 O2); lia). subst t2.
    apply (mget_in_iff t x) in I2; auto. apply (mget_in_iff t v) in I; auto. congruence.
  Qed.

  (** ** C34 *)
  Lemma ess_now_same s1 s2 : s_ess s1 = s_ess s2 -> (si_dirichlet (s_params s1) = [] <-> si_dirichlet (s_params s2) = []) ->
    ess_now s1 = ess_now s2.
  Proof.
    intros E K. unfold ess_now. rewrite E.
    destruct (si_dirichlet (s_params s1)), (si_dirichlet (s_params s2)); try reflexivity.
    - destruct K as [K _]. discriminate (K eq_refl).
    - destruct K as [_ K]. discriminate (K eq_refl).
  Qed.
  Lemma same_solve s1 s2 : s_ess s1 = s_ess s2 -> s_open s1 = s_open s2 -> s_eps s1 = s_eps s2 ->
    s_sigma s1 = s_sigma s2 -> si_dirichlet (s_params s1) = si_dirichlet (s_params s2) -> elim_ok s1 -> elim_ok s2 ->
    solved_fields F s1 = solved_fields F s2.
  Proof.
    intros A B C D E H1 H2.
    assert (En : ess_now s1 = ess_now s2) by (apply ess_now_same; [exact A|rewrite E; tauto]).
    destruct (applyBoundaryConstantValues F (si_dirichlet (s_params s2)) (zeros (fe_nH1 F))) as [phi0| |] eqn:E0.
    - destruct (ess_now s2) as [ess| |] eqn:Es.
      + unfold solved_fields. rewrite (Solve_again s2 phi0 ess H2 E0 Es), (Solve_again s1 phi0 ess H1); [|now rewrite E|exact En].
        cbn. now rewrite B, C, D.
      + unfold solved_fields, Solve. unfold ess_now in En, Es. rewrite En, Es, E, E0. reflexivity.
      + unfold solved_fields, Solve. unfold ess_now in En, Es. rewrite En, Es, E, E0. reflexivity.
    - unfold solved_fields, Solve. rewrite E, E0. reflexivity.
    - unfold solved_fields, Solve. rewrite E, E0. reflexivity.
  Qed.
  (** Two solvers with the same boundaries, permittivities and surface charges, the second with a
      matrix that is as assembled. *)
  Definition alike (s s' : solver T) : Prop :=
    s_ess s = s_ess s' /\ s_open s = s_open s' /\ s_eps s = s_eps s' /\ s_sigma s = s_sigma s' /\ s_elim s' = None.
  (** the matrix was eliminated for conditions that are empty exactly if [b] is *)
  Definition eliminated_as (b : list (Z * T)) (s : solver T) : Prop :=
    exists l, s_elim s = Some l /\ match b with [] => Ok [0%nat] | _ => essential_dofs F (s_ess s) end = Ok l.
  Definition elim_since (ops : list sop) (s0 s : solver T) : Prop :=
    match s_elim s0 with
    | Some l => s_elim s = Some l
    | None => match first_solved ops (si_dirichlet (s_params s0)) with Some b => eliminated_as b s | None => s_elim s = None end
    end.
  Lemma Solve_frame s s' : Solve F s = Ok s' ->
    s_params s' = s_params s /\ s_ess s' = s_ess s /\ s_open s' = s_open s /\ s_eps s' = s_eps s /\ s_sigma s' = s_sigma s /\
    match s_elim s with Some l => s_elim s' = Some l | None => eliminated_as (si_dirichlet (s_params s)) s' end.
  Proof.
    intros E. unfold Solve in E. apply bind_ok in E as (p0 & E0 & E). apply bind_ok in E as (es & E1 & E). injection E as <-. cbn.
    repeat (split; [reflexivity|]). unfold eliminated_as. cbn [s_elim s_ess]. destruct (s_elim s) as [l|]; [reflexivity|]. exists es. auto.
  Qed.
  Lemma srun_alike dbg ops : forall s0 s0' s,
    alike s0 s0' -> srun F dbg s0 ops = Ok s ->
    exists s', srun F dbg s0' (neumann_ops ops) = Ok s' /\ alike s s' /\ s_params s' = s_params s0' /\
      si_dirichlet (s_params s) = last_dirichlet ops (si_dirichlet (s_params s0)) /\ s_ess s = s_ess s0 /\ elim_since ops s0 s.
  Proof.
    induction ops as [|op ops IH]; intros s0 s0' s Al E.
    - injection E as <-. exists s0'. cbn. split; [reflexivity|]. split; [exact Al|]. repeat (split; [reflexivity|]). unfold elim_since. cbn. now destruct (s_elim s0).
    - unfold srun in E. cbn [foldM] in E. apply bind_ok in E as (s1 & E1 & E).
      destruct Al as (A & B & C & D & N). destruct op as [bc|a f| |x]; cbn [sstep] in E1.
      + injection E1 as <-. apply (IH _ s0') in E; [exact E|]. repeat split; auto.
      + unfold setNeumannCondition in E1. destruct ((0 <? a)%Z && (a <=? fe_bdrMax F)%Z)%bool eqn:Ea; [|discriminate]. injection E1 as <-.
        set (sig := fun v => map (fun q : nat * T => if nmem (fst q) (dofs_of_attr F a) then f (fst q) else snd q) (enum v)).
        pose (with_sig := fun s => {| s_params := s_params s; s_ess := s_ess s; s_open := s_open s; s_eps := s_eps s; s_sigma := sig (s_sigma s);
                s_elim := s_elim s; s_phi := s_phi s; s_e := s_e s; s_d := s_d s |} : solver T).
        destruct (IH (with_sig s0) (with_sig s0') s) as (s' & Er & Al & P & Ld); auto.
        * repeat split; auto. cbn. now rewrite D.
        * exists s'. split; [|split; [exact Al|split; [exact P|exact Ld]]].
          unfold neumann_ops, srun in *. cbn [filter foldM sstep]. unfold setNeumannCondition. rewrite Ea. cbn [bind]. exact Er.
      + destruct (Solve_frame _ _ E1) as (P1 & Q1 & Q2 & Q3 & Q4 & Q5).
        apply (IH _ s0') in E; [|repeat split; congruence]. rewrite P1, Q1 in E. destruct E as (s' & Er & Al & P & Ld & Es & El). exists s'.
        split; [exact Er|]. split; [exact Al|]. split; [exact P|]. split; [exact Ld|]. split; [exact Es|].
        unfold elim_since in El |- *. cbn [first_solved]. destruct (s_elim s0) as [l|]; [now rewrite Q5 in El|].
        destruct Q5 as (l & El1 & Hl). rewrite El1 in El. exists l. split; [exact El|]. now rewrite Es, <- Q1.
      + unfold setSolution in E1. apply bind_ok in E1 as (? & _ & E1). apply bind_ok in E1 as (? & _ & E1).
        apply bind_ok in E1 as (? & _ & E1). injection E1 as <-.
        apply (IH _ s0') in E; [exact E|]. repeat split; auto.
  Qed.
  Lemma history_of_conditions dbg p s0 ops s bc : mkSolver F dbg p = Ok s0 ->
    srun F dbg s0 ops = Ok s -> bc = last_dirichlet ops (si_dirichlet p) ->
    (forall b, first_solved ops (si_dirichlet p) = Some b -> (b = [] <-> bc = [])) ->
    map fst bc = map fst (si_dirichlet p) ->
    exists s1, mkSolver F dbg (with_dirichlet p bc) = Ok s1 /\
      solved_fields F s = bind (srun F dbg s1 (neumann_ops ops)) (solved_fields F).
  Proof.
    intros E0 E Eb Fk Ek.
    assert (P0 : s_params s0 = p).
    { unfold mkSolver in E0. repeat (apply bind_ok in E0 as (? & _ & E0)). injection E0 as <-. reflexivity. }
    assert (M : mkSolver F dbg (with_dirichlet p bc) =
      Ok {| s_params := with_dirichlet p bc; s_ess := s_ess s0; s_open := s_open s0; s_eps := s_eps s0;
            s_sigma := s_sigma s0; s_elim := None; s_phi := zeros (fe_nH1 F); s_e := zeros (fe_nND F); s_d := zeros (fe_nRT F) |}).
    { unfold mkSolver in *. cbn [with_dirichlet si_dirichlet si_eps si_open si_neumann]. rewrite Ek.
      apply bind_ok in E0 as (x1 & E1 & E0). apply bind_ok in E0 as (x2 & E2 & E0).
      apply bind_ok in E0 as (x3 & E3 & E0). apply bind_ok in E0 as (x4 & E4 & E0). injection E0 as <-.
      rewrite E1, E2, E3, E4. reflexivity. }
    eexists. split; [exact M|].
    match type of M with _ = Ok ?s1 => destruct (srun_alike dbg ops s0 s1 s) as (s' & Er & (A & B & C & D & N) & P & Ld & Es & El); auto end.
    - repeat split; auto.
    - rewrite Er. cbn [bind]. rewrite P0, <- Eb in Ld. apply same_solve; auto.
      + rewrite P, Ld. reflexivity.
      + unfold elim_since in El. rewrite (mkSolver_elim _ _ _ E0), P0 in El. unfold elim_ok.
        destruct (first_solved ops (si_dirichlet p)) as [b|]; [|now rewrite El]. destruct El as (l & -> & Hl). specialize (Fk b eq_refl).
        unfold ess_now. rewrite Ld. destruct b as [|b0 b]; destruct bc as [|c0 bc]; try exact Hl; exfalso.
        * now discriminate (proj1 Fk eq_refl).
        * now discriminate (proj2 Fk eq_refl).
      + unfold elim_ok. now rewrite N.
  Qed.

  (** ** C54 *)
  Lemma copy_gf_same dbg (tgt src : list T) : List.length tgt = List.length src -> copy_gf dbg tgt src = Ok src.
  Proof.
    intros L. unfold copy_gf, assert_. rewrite L, Nat.eqb_refl, Nat.leb_refl. cbn.
    rewrite andb_false_r. cbn. rewrite <- L, skipn_all, app_nil_r. reflexivity.
  Qed.
  Lemma setSolution_ok dbg s x : sized F (getSolution s) -> sized F x ->
    setSolution dbg s x = Ok (set_fields s (so_phi x) (so_e x) (so_d x)).
  Proof.
    intros (A & B & C) (A' & B' & C'). cbn in *. unfold setSolution.
    rewrite !copy_gf_same by congruence. reflexivity.
  Qed.
  Lemma setSolution_sized dbg s x s' : sized F (getSolution s) -> setSolution dbg s x = Ok s' -> sized F (getSolution s').
  Proof.
    intros (A & B & C) E. unfold setSolution in E.
    apply bind_ok in E as (p & E1 & E). apply bind_ok in E as (e & E2 & E). apply bind_ok in E as (d & E3 & E).
    injection E as <-. unfold sized. cbn in *.
    assert (G : forall t u r : list T, copy_gf dbg t u = Ok r -> List.length r = List.length t).
    { clear. intros t u r E. unfold copy_gf in E. apply bind_ok in E as (_ & _ & E).
      destruct (Nat.leb_spec (List.length u) (List.length t)); [|discriminate]. injection E as <-.
      rewrite app_length, skipn_length. lia. }
    rewrite (G _ _ _ E1), (G _ _ _ E2), (G _ _ _ E3). auto.
  Qed.
  Lemma sstep_sized dbg s op s' : fem_ok F -> sized F (getSolution s) -> sstep F dbg s op = Ok s' ->
    sized F (getSolution s') /\ si_eps (s_params s') = si_eps (s_params s) /\ si_open (s_params s') = si_open (s_params s).
  Proof.
    intros Hf Hs E. destruct op; cbn in E.
    - injection E as <-. auto.
    - unfold setNeumannCondition in E. destruct (_ && _)%bool; [|discriminate]. injection E as <-. auto.
    - unfold Solve in E. apply bind_ok in E as (p & E1 & E). apply bind_ok in E as (e & E2 & E). injection E as <-.
      cbn. repeat split; cbn; apply Hf.
    - pose proof (setSolution_sized _ _ _ _ Hs E) as Hs'. split; auto.
      unfold setSolution in E. apply bind_ok in E as (? & _ & E). apply bind_ok in E as (? & _ & E).
      apply bind_ok in E as (? & _ & E). injection E as <-. auto.
  Qed.
  Lemma srun_sized dbg ops s s' : fem_ok F -> sized F (getSolution s) -> srun F dbg s ops = Ok s' ->
    sized F (getSolution s') /\ si_eps (s_params s') = si_eps (s_params s) /\ si_open (s_params s') = si_open (s_params s).
  Proof.
    intros Hf; revert s; induction ops as [|op ops IH]; intros s Hs E; [injection E as <-; auto|].
    unfold srun in E. cbn [foldM] in E. apply bind_ok in E as (s1 & E1 & E).
    destruct (sstep_sized _ _ _ _ Hf Hs E1) as (A & B & C).
    destruct (IH s1 A E) as (A' & B' & C'). repeat split; try apply A'; congruence.
  Qed.
  Lemma reachable_sized dbg p s0 ops s : fem_ok F -> inputs_ok F p -> mkSolver F dbg p = Ok s0 ->
    srun F dbg s0 ops = Ok s -> sized F (getSolution s).
  Proof.
    intros Hf Hp E0 E. destruct (mkSolver_ok dbg p Hp) as (s1 & E1 & Hs).
    assert (s1 = s0) by congruence. subst s1.
    destruct (srun_sized dbg ops s0 s Hf) as (A & _); auto. apply Hs.
  Qed.
  Lemma snapshot_restored dbg s ops s' :
    fem_ok F -> sized F (getSolution s) -> srun F dbg s ops = Ok s' ->
    exists s'', setSolution dbg s' (getSolution s) = Ok s'' /\
      getSolution s'' = getSolution s /\
      getTotalCharge F s'' = getTotalCharge F s /\
      (forall a, getChargeInBoundary F s'' a = getChargeInBoundary F s a) /\
      (forall a, getAveragePotentialInDomain F s'' a = getAveragePotentialInDomain F s a) /\
      (forall a, getAveragePotentialInBoundary F s'' a = getAveragePotentialInBoundary F s a) /\
      getTotalEnergy F s'' = getTotalEnergy F s /\
      (si_dirichlet (s_params s') = si_dirichlet (s_params s) ->
       si_neumann (s_params s') = si_neumann (s_params s) ->
       forall moment n, getCenterOfCharge F moment s'' = getCenterOfCharge F moment s /\
         getMultipolarCoefficients F moment s'' n = getMultipolarCoefficients F moment s n).
  Proof.
    intros Hf Hs E. destruct (srun_sized _ _ _ _ Hf Hs E) as (A & B & C).
    exists (set_fields s' (s_phi s) (s_e s) (s_d s)).
    split; [now apply (setSolution_ok dbg s' (getSolution s))|].
    repeat split; try reflexivity.
    - unfold getTotalEnergy. cbn. now rewrite B.
    - unfold getCenterOfCharge, getChargeMomentComponent, chargedBoundaries, getTotalCharge, getChargeInBoundary. cbn. now rewrite C, H0, H1.
    - unfold getMultipolarCoefficients, getCenterOfCharge, getChargeMomentComponent, chargedBoundaries, getTotalCharge, getChargeInBoundary. cbn. now rewrite C, H0, H1.
  Qed.
End Solver.
