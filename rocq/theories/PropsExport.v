(** Property C76: what the field exports of a Driver contain. *)
From Coq Require Import QArith Reals Lra Permutation.
From Verif Require Import Prelude StdMap Json Materials Graph ModelM Parser Matrix Solver Domain Results Driver
  RSum ListLemmas SpecInput SpecModel SpecSolver SpecDriver SpecMatrix SpecCharge SpecResults SpecField
  ModelProofs SolverProofs DriverProofs CallProofs DriverFacts RunProofs ChargeProofs MatrixProofs MatrixCalls FieldProofs ExportProofs MainProofs ExportComplete Toy PropsDriver PropsDomain PropsExtract.
Open Scope R_scope.
Open Scope list_scope.

(** Where the field exports of a history of calls come from: the construction of the Driver, or a
    call (other than getPULMTLByDomains, which builds other Drivers) after some calls. *)
Definition written (dbg : bool) femlib moment (m : model R) (o : driver_options) (d : driver R) (folder : string) (e : event R) : Prop :=
  is_result e = false /\
  ((exists w, mkDriver dbg femlib m o tt = ((Ok d, tt), w) /\ In e w /\ folder = o_exportFolder o) \/
   exists ops op, op <> CallByDomains /\ In e (snd (reply dbg femlib moment op (after dbg femlib moment ops d))) /\
     folder = last_folder ops (o_exportFolder o)).

(** ** C76 *)
(** Each export is that of one conductor, in the folder set last. It contains the potential, the
    displacement and the electric field: those of 1 V on this conductor and 0 V on the others or,
    under the name "..._prescribed_and_others_floating", the combination of these with 1 V on this
    conductor and the floating potentials on the others, the only ones for which these have no charge
    in the generalized capacitance matrix. *)
Theorem C76_exports_contain_the_fields_they_name :
  forall (dbg : bool) femlib moment (m : model R) (o : driver_options) (d : driver R) (conds : list (pec R)) (folder : string) e,
    let F := femlib (mo_mesh m) (o_order o) in
    well_posed F m -> built dbg femlib m o d -> in_order (mo_mats m) conds ->
    written dbg femlib moment m o d folder e ->
    exists x k p u, nth_error conds k = Some p /\ x_conductor x = p_name p /\ e = saved folder x (contents u) /\ sized F u /\
      if x_floating x then
        exists g w V us, reply dbg femlib moment (CallGeneralizedC (x_ignore x)) d = (Ok (VMatrix g), w) /\
          floats g k V /\ (forall V', floats g k V' -> forall j, (j < List.length conds)%nat -> V' j = V j) /\
          Forall2 (fun p u => unit_solution F dbg (mo_mats m) (x_ignore x) (p_attr p) u) conds us /\ combines us V u
      else unit_solution F dbg (mo_mats m) (x_ignore x) (p_attr p) u.
Proof.
  intros dbg femlib moment m o d conds folder e F W B O (Nr & Wr).
  destruct (built_finished dbg femlib m o d W B) as (conds' & O' & Ne & M & Op & Fi & Em).
  rewrite (in_order_unique _ _ _ O' O) in *. clear conds' O'.
  assert (G : good dbg femlib m o conds folder e).
  { destruct Wr as [(w & E & I & ->) | (ops & op & N & I & ->)].
    - rewrite Em in E. injection E as <-. apply in_app_or in I.
      assert (H : forall ig, Forall (good dbg femlib m o conds (o_exportFolder o)) (exports o ig conds (stored (problem d ig)))).
      { intros ig. destruct (Fi ig) as ((us & Eu & Fu) & _). rewrite (stored_some _ _ Eu). exact (good_units dbg femlib m o conds o ig us Fu). }
      destruct I as [I | I]; [specialize (H false)|specialize (H true)]; rewrite Forall_forall in H; now apply H.
    - rewrite (history_irrelevant dbg femlib moment (fun _ => True) m o d ops op) in I;
        [|intros op' _; right; exact Rmul0|exact W|exact B|apply Forall_forall; auto|exact Logic.I].
      set (f := last_folder ops (o_exportFolder o)) in *.
      assert (D : (exists g, op = CallSetFolder g) \/ forall g, op <> CallSetFolder g) by (destruct op; eauto; right; discriminate).
      destruct D as [(g & ->) | D]; [cbn in I; contradiction|].
      assert (S : st dbg femlib m o conds (with_folder o f) (in_folder d f)).
      { split; [|cbn; now rewrite Op]. split; [exact M|]. split; [cbn; now rewrite Op|exact Fi]. }
      destruct (wr_call dbg femlib moment m o conds O W (with_folder o f) op N D (in_folder d f) S) as (K & _).
      rewrite Forall_forall in K. apply (K e). unfold reply in I. destruct (call dbg femlib moment op (in_folder d f)) as [[r d'] w]. exact I. }
  destruct G as [G | (x & k & p & u & Ep & Ex & Ee & Su & H)]; [congruence|].
  exists x, k, p, u. split; [exact Ep|]. split; [exact Ex|]. split; [exact Ee|]. split; [exact Su|].
  destruct (x_floating x); [|exact H]. destruct H as (Eo & us & V & Fu & Cu & N1 & N2).
  set (ignore := x_ignore x) in *.
  destruct (generalized_matrix dbg femlib moment m o d [] conds ignore Open W B O Eo ltac:(discriminate)) as (g & wg & Eg & G1 & G2 & G3).
  assert (Fu' : Forall2 (fun p u => unit_solution F dbg (mo_mats m) ignore (p_attr p) u) conds us).
  { clear -Fu. induction Fu as [|q v l l' [Hu _] Fu IH]; constructor; auto. }
  exists g, wg, V, us. split; [exact Eg|].
  assert (Lk : (k < List.length conds)%nat) by (apply nth_error_Some; congruence).
  assert (L : List.length conds = 1%nat \/ (2 <= List.length conds)%nat) by lia.
  destruct L as [L | L].
  { assert (k = 0)%nat as -> by lia. specialize (N1 L). split; [split; [exact N1|]; intros j Lj; rewrite G1 in Lj; lia|].
    split; [intros V' (H & _) j Lj; assert (j = 0)%nat as -> by lia; rewrite N1; exact H|]. split; assumption. }
  destruct (N2 L) as (C & [C1 C2] & Cm & (F1 & F2) & Un).
  assert (Ec : forall i j, (i < List.length conds)%nat -> (j < List.length conds)%nat -> ent C i j = ent g i j).
  { intros i j Li Lj.
    destruct (nth_error conds i) as [pi|] eqn:Ei; [|apply nth_error_None in Ei; lia].
    destruct (nth_error conds j) as [pj|] eqn:Ej; [|apply nth_error_None in Ej; lia].
    assert (Lu : List.length conds = List.length us) by (apply Forall2_length in Fu; lia).
    destruct (nth_error us i) as [ui|] eqn:Eui; [|apply nth_error_None in Eui; lia].
    destruct (nth_error us j) as [uj|] eqn:Euj; [|apply nth_error_None in Euj; lia].
    rewrite (Cm i j Li Lj ui uj pi pj Eui Euj Ei Ej). symmetry.
    apply (G3 i j pi pj ui uj); auto; try apply qval_on; eapply unit_nth; eassumption. }
  assert (Ch : forall V' i, (i < List.length conds)%nat -> charge C V' i = charge g V' i).
  { intros V' i Li. unfold charge. rewrite C2, G2. apply Sum_ext. intros j Lj. now rewrite Ec. }
  split; [split; [exact F1|]; intros j Lj Nj; rewrite G1 in Lj; rewrite <- Ch by exact Lj; apply F2; [now rewrite C1|exact Nj]|].
  split; [|split; assumption]. intros V' (H1 & H2). apply Un. split; [exact H1|]. intros j Lj Nj. rewrite C1 in Lj. rewrite Ch by exact Lj. apply H2; [now rewrite G1|exact Nj].
Qed.
Print Assumptions C76_exports_contain_the_fields_they_name.

(** So an export written again under the same name has the same contents (for names with an
    underscore, as the documented Conductor_N, see C53). *)
Definition path_of (e : event R) : string := match e with EvParaView n _ => n | EvVisIt n _ => n | EvJson n _ => n end.
Lemma sized_ext (F : fem R) (u u' : solution R) : sized F u -> sized F u' ->
  (forall k, entry (so_phi u) k = entry (so_phi u') k /\ entry (so_e u) k = entry (so_e u') k /\ entry (so_d u) k = entry (so_d u') k) -> u = u'.
Proof.
  intros (A1 & A2 & A3) (B1 & B2 & B3) H. destruct u as [a b c], u' as [a' b' c']. cbn in *.
  f_equal; apply (nth_ext _ _ 0 0); try congruence; intros i _; apply (H i).
Qed.
Theorem C76_exports_are_always_the_same :
  forall (dbg : bool) femlib moment (m : model R) (o : driver_options) (d : driver R) (conds : list (pec R)) (folder : string) e e',
    well_posed (femlib (mo_mesh m) (o_order o)) m -> built dbg femlib m o d -> in_order (mo_mats m) conds ->
    (forall p, In p conds -> after_underscore (p_name p) <> None) ->
    written dbg femlib moment m o d folder e -> written dbg femlib moment m o d folder e' -> path_of e = path_of e' -> e = e'.
Proof.
  intros dbg femlib moment m o d conds folder e e' W B O Un Wr Wr' E.
  destruct (C76_exports_contain_the_fields_they_name dbg femlib moment m o d conds folder e W B O Wr) as (x & k & p & u & Ep & Ex & Ee & Su & H).
  destruct (C76_exports_contain_the_fields_they_name dbg femlib moment m o d conds folder e' W B O Wr') as (x' & k' & p' & u' & Ep' & Ex' & Ee' & Su' & H').
  assert (Xx : x = x').
  { apply (C53_export_names_differ _ (mo_mats m) conds folder x x' O Un).
    - rewrite Ex. apply in_map. eapply nth_error_In; eassumption.
    - rewrite Ex'. apply in_map. eapply nth_error_In; eassumption.
    - rewrite Ee, Ee' in E. unfold saved, path_of in E. destruct (x_visit x), (x_visit x'); exact E. }
  subst x'. assert (Ek : k = k').
  { destruct O as (_ & O). pose proof (O _ _ Ep) as I1. pose proof (O _ _ Ep') as I2. rewrite <- Ex in I1. rewrite <- Ex' in I2. rewrite I1 in I2. injection I2 as I2. lia. }
  subst k'. assert (p' = p) by congruence. subst p'. rewrite Ee, Ee'. f_equal. f_equal.
  destruct (x_floating x).
  - destruct H as (g & w & V & us & Eg & Fl & Uq & Fu & Cu). destruct H' as (g' & w' & V' & us' & Eg' & Fl' & _ & Fu' & Cu').
    rewrite Eg in Eg'. injection Eg' as <- _.
    assert (Eu : us' = us).
    { clear -Fu Fu' W. revert us' Fu'. induction Fu as [|q v l l' U Fu IH]; intros us' Fu'; inversion Fu' as [|? v0 ? l0 U0 Fu0]; subst; [reflexivity|].
      f_equal; [exact (unit_solution_unique _ _ _ _ _ _ _ W U0 U)|now apply IH]. }
    subst us'. assert (Lu : List.length us = List.length conds) by (apply Forall2_length in Fu; auto).
    apply (sized_ext _ _ _ Su Su'). intros i. destruct (Cu i) as (A1 & A2 & A3). destruct (Cu' i) as (B1 & B2 & B3).
    rewrite A1, A2, A3, B1, B2, B3. repeat split; apply Sum_ext; intros j Lj; now rewrite (Uq V' Fl' j) by lia.
  - exact (unit_solution_unique _ _ _ _ _ _ _ W H H').
Qed.
Print Assumptions C76_exports_are_always_the_same.

(** None is missing: in the formats chosen, a successful getGeneralizedCMatrix writes the unit solution of every conductor
    and a successful getInCellPotentials, both with and without dielectrics, the floating one. *)
Theorem C76_no_export_is_missing :
  forall (dbg : bool) femlib moment (m : model R) (o : driver_options) (d : driver R) (conds : list (pec R))
    (ops : list dop) (op : dop) v w x k p,
    well_posed (femlib (mo_mesh m) (o_order o)) m -> built dbg femlib m o d -> in_order (mo_mats m) conds ->
    reply dbg femlib moment op (after dbg femlib moment ops d) = (Ok v, w) ->
    (if x_visit x then o_exportVisIt o else o_exportParaView o) = true ->
    nth_error conds k = Some p -> x_conductor x = p_name p ->
    op = (if x_floating x then CallInCell else CallGeneralizedC (x_ignore x)) ->
    exists fields, In (saved (last_folder ops (o_exportFolder o)) x fields) w.
Proof.
  intros dbg femlib moment m o d conds ops op v w x k p W B O E Wt Ek Ex Eop.
  destruct (built_finished dbg femlib m o d W B) as (conds' & O' & Ne & M & Op & Fi & _).
  rewrite (history_irrelevant dbg femlib moment (fun _ => True) m o d ops op) in E;
    [|intros op' _; right; exact Rmul0|exact W|exact B|apply Forall_forall; auto|exact Logic.I].
  set (f := last_folder ops (o_exportFolder o)) in *. set (o' := with_folder o f).
  assert (S : same m o' (in_folder d f)) by (split; [exact M|cbn; now rewrite Op]).
  assert (Wt' : (if x_visit x then o_exportVisIt o' else o_exportParaView o') = true) by exact Wt.
  unfold reply in E. destruct (call dbg femlib moment op (in_folder d f)) as [[r d'] w0] eqn:Ec. cbn [fst snd] in E. injection E as -> ->.
  subst op. destruct (x_floating x) eqn:Xf; cbn [call] in Ec; unfold cbind in Ec.
  - pose proof (em_incell dbg femlib moment m o' conds O x Wt' k p Ek Ex Xf _ S) as H.
    destruct (getInCellPotentials dbg femlib moment (in_folder d f)) as [[[a|e|e] d1] w1]; try discriminate.
    cbn in Ec. injection Ec as _ _ <-. rewrite app_nil_r. apply H.
  - pose proof (em_gc dbg femlib m o' conds O x Wt' k p Ek Ex (x_ignore x) Xf eq_refl _ S) as H.
    destruct (getGeneralizedCMatrix dbg femlib (x_ignore x) (in_folder d f)) as [[[a|e|e] d1] w1]; try discriminate.
    cbn in Ec. injection Ec as _ _ <-. rewrite app_nil_r. apply H.
Qed.
Print Assumptions C76_no_export_is_missing.

(** The exports of the toy problem (Toy.v), of its construction and of getInCellPotentials. *)
Definition named (e : event Q) : string * list (string * list Q) :=
  match e with EvParaView n f => (n, f) | EvVisIt n f => (n, f) | EvJson n _ => (n, []) end.
Example C76_example :
  match mkDriver true toy_lib (toy_model Open 2%Q) toy_options tt with
  | ((Ok d, _), w) => Some (map named w, map named (snd (reply true toy_lib (fun _ _ _ _ => 0%Q) CallInCell d)))
  | _ => None
  end =
  (let a := ("out//ParaView/Conductor_0", [("Phi", [1; 0]); ("D", [4; -2]); ("E", [2; -1])]) in
  let b := ("out//ParaView/Conductor_1", [("Phi", [0; 1]); ("D", [-2; 4]); ("E", [-1; 2])]) in
  let c := ("out//ParaView/Conductor_0_no_dielectrics", [("Phi", [1; 0]); ("D", [2; -1]); ("E", [2; -1])]) in
  let e := ("out//ParaView/Conductor_1_no_dielectrics", [("Phi", [0; 1]); ("D", [-1; 2]); ("E", [-1; 2])]) in
  Some ([a; b; c; e],
        [a; b;
         ("out//ParaView/Conductor_0_prescribed_and_others_floating", [("Phi", [1; 1 # 2]); ("D", [3; 0]); ("E", [3 # 2; 0])]);
         ("out//ParaView/Conductor_1_prescribed_and_others_floating", [("Phi", [1 # 2; 1]); ("D", [0; 3]); ("E", [0; 3 # 2])]);
         c; e;
         ("out//ParaView/Conductor_0_prescribed_and_others_floating_no_dielectrics", [("Phi", [1; 1 # 2]); ("D", [3 # 2; 0]); ("E", [3 # 2; 0])]);
         ("out//ParaView/Conductor_1_prescribed_and_others_floating_no_dielectrics", [("Phi", [1 # 2; 1]); ("D", [0; 3 # 2]); ("E", [0; 3 # 2])])]))%Q%string.
Proof. vm_compute. reflexivity. Qed.
Example C76_example_hypotheses : forall dbg, exists d,
  well_posed (toy_lib (mo_mesh (toy_model Open 2)) 3) (toy_model Open 2) /\ built dbg toy_lib (toy_model Open 2) toy_options d /\
  in_order (mo_mats (toy_model Open 2)) toy_conds /\
  (forall p, In p (toy_conds (T := R)) -> after_underscore (p_name p) <> None).
Proof.
  intros dbg. pose proof (toy_posed Open 2 3) as W.
  destruct (mkDriver_ok dbg toy_lib (toy_model Open 2) toy_options W toy_conds (toy_order _ _) ltac:(discriminate)) as (d & E & _).
  exists d. split; [exact W|]. split; [eexists; exact E|]. split; [apply toy_order|]. intros p [<-|[<-|[]]]; discriminate.
Qed.

(** getPULMTLByDomains is left out with reason: the Drivers it builds for the domains write their
    exports in the same folder under the same names, over those of the whole problem. Here in the two
    nested shields of C20, where the fields of one domain are not those of the whole problem. *)
Definition shields_lib : mesh Q -> Z -> fem Q := fun ms _ =>
  {| fe_nH1 := 3; fe_nND := 3; fe_nRT := 3; fe_bdrMax := 5; fe_domMax := 4;
     fe_bdrDofs := fe_bdrDofs three_fem; fe_flux := fe_flux three_fem; fe_bdrPhi := []; fe_domPhi := []; fe_energy := [];
     fe_phi := fe_phi three_fem;
     fe_e := fun phi => let at_ i := nth i phi 0%Q in
       if (List.length (m_elems ms) =? 3)%nat then fe_e three_fem phi
       else if existsb (fun e => (e_attr e =? 5)%Z) (m_bdr ms) then [0; at_ 1%nat - at_ 2%nat; at_ 2%nat - at_ 1%nat]%Q
       else [at_ 0%nat - at_ 1%nat; at_ 1%nat - at_ 0%nat; 0]%Q;
     fe_d := fe_d three_fem |}.
Definition loud : driver_options :=
  {| o_order := 3; o_printIterations := false; o_exportParaView := true; o_exportVisIt := false;
     o_exportFolder := "out/"; o_multipolarExpansionOrder := 1 |}.
Theorem C76_by_domains_overwrites_refuted : exists d w e e',
  mkDriver true shields_lib nested loud tt = ((Ok d, tt), w) /\ In e w /\
  In e' (snd (reply true shields_lib no_moment CallByDomains d)) /\ fst (named e) = fst (named e') /\ e <> e'.
Proof.
  eexists. eexists. eexists. eexists. split; [vm_compute; reflexivity|]. split; [right; left; reflexivity|].
  split; [vm_compute; right; left; reflexivity|]. split; [reflexivity|]. vm_compute. discriminate.
Qed.
Print Assumptions C76_by_domains_overwrites_refuted.
