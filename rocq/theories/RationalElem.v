(** As RationalModel.v, for elements of any order: fields computed over Q, once certified, are the fields over R. *)
From Coq Require Import QArith Qreals Reals Lra Lia Permutation.
From Verif Require Import Prelude StdMap Json Materials Graph ModelM Parser Matrix Solver Fem Domain Results Driver Triangles Elements RefElements RSum ListLemmas
  SpecInput SpecModel SpecSolver SpecDriver SpecCharge SpecField SpecFem SpecTriangles SpecElements
  FemProofs FemCalls FemFacts FemModel FemLaws FemDriver FemMatrix ElemProofs ElemTables ElemModel ElemFields Toy Transfer Certificate RationalMesh RationalModel ElemTransfer.
Open Scope R_scope.
Open Scope list_scope.

Section Model.
  Variable ref : reference Q.
  Variable ref' : reference R.
  Hypothesis Sr : same_reference ref ref'.
  Hypothesis Ro : reference_ok ref'.
  Variable ms : mesh Q.
  Variable len : Q * Q -> Q * Q -> Q.
  Hypothesis Lengths : forall b, In b (m_bdr ms) -> distance (pt (pos ms (fst (ends b)))) (pt (pos ms (snd (ends b)))) = Q2R (bdr_len len ms b).
  Variable m : model R.
  Hypothesis Em : mo_mesh m = mesh_R ms.
  Variable abc : R * R -> R.
  Hypothesis Cs : cross_section abc m.
  Notation tables := (elements ref len ms).
  Notation disc := (elements ref' distance (mesh_R ms)).
  Variables (dbg ignore : bool) (v : Z -> R) (p : solver_inputs R) (u : solution R).
  Hypothesis Cp : conductor_problem (mo_mats m) ignore v p.
  Hypothesis Cu : computes abc disc dbg p u.
  Variable eps : Z -> Q.
  Hypothesis He : forall t, eps_of (si_eps p) t = Q2R (eps t).
  Hypothesis Closed_ : openBoundaries (mo_mats m) = [].
  Hypothesis Ha : forall q, abc (pt q) = 1.
  Variable tags : list Z.
  Hypothesis Ht : forall t, In t tags <-> exists c, In c (pecs (mo_mats m)) /\ p_attr c = t.
  Definition held_by (k : nat) : bool := existsb (fun b => zmem (fst b) tags && nmem k (snd b))%bool (di_bdrDofs tables).
  Variables phi d : list Q.
  Hypothesis C : certified tables eps (fun _ => 1%Q) (fun _ => false) held_by phi d = true.
  Hypothesis Hv : forall t dofs k, In (t, dofs) (di_bdrDofs tables) -> In t tags -> In k dofs -> Q2R (nth k phi 0%Q) = v t.

  Theorem element_fields_certified : so_phi u = map Q2R phi /\ so_d u = map Q2R d.
  Proof.
    pose proof (elements_regular ref' Ro abc m Cs) as Rm. pose proof (elements_posed ref' Ro abc m Cs) as W. rewrite Em in Rm, W.
    pose proof (rm_tables _ _ _ Rm) as OK. destruct (model_problem abc disc m W Rm ignore v p Cp) as (Hp & An).
    pose proof C as C'. unfold certified in C'. do 3 apply andb_prop in C' as (C' & _). apply andb_prop in C' as (_ & C'). apply Nat.eqb_eq in C'.
    pose proof (el_size_table ref ref' Sr len distance ms) as Sz.
    pose proof (el_bdr_dofs_table ref ref' Sr len distance ms) as Bd.
    assert (Ll : List.length (map Q2R phi) = di_nH1 disc) by (rewrite map_length, C'; symmetry; apply Sz).
    apply (certificate tables eps (fun _ => 1%Q) (fun _ => false) held_by phi d abc disc
      (el_grad_table _ _ Sr len distance ms) (el_surf_table _ _ Sr len distance ms Lengths)
      (el_rt_table _ _ Sr len distance ms) (el_mix_table _ _ Sr len distance ms)
      (el_gradient_table _ _ Sr len distance ms) Sz dbg OK p Hp An (cp_neu _ _ _ _ Cp) He); [..|exact C|exact Cu].
    - intros t. destruct (zmem t (si_open p)) eqn:Z; [|reflexivity]. apply zmem_in in Z. apply (Permutation_in _ (cp_open _ _ _ _ Cp)) in Z. rewrite Closed_ in Z. destruct Z.
    - intros q. rewrite Ha. symmetry. exact one_R.
    - intros k Hk. unfold held_by in Hk. apply existsb_exists in Hk as ((t & dofs) & I & J). apply andb_prop in J as (J1 & J2). cbn [fst snd] in J1, J2.
      apply zmem_in in J1. apply nmem_in in J2. pose proof J1 as J3. apply Ht in J3 as (c & Ic & Ec). exists t, (v t). split.
      + apply (cp_dir _ _ _ _ Cp). split; [eauto|reflexivity].
      + exists (t, dofs). cbn [discretize fe_bdrDofs fst snd]. rewrite Bd. auto.
    - apply (prescribed_model abc disc m ignore v p _ Cp Ll). split; [exact Ll|]. intros c k Ic B _.
      destruct B as ((t & dofs) & I & Et & J). cbn [discretize fe_bdrDofs fst snd] in I, Et, J. rewrite Bd in I. subst t.
      assert (Lk : (k < List.length phi)%nat).
      { rewrite C'. destruct Sz as (Sz & _). rewrite <- Sz. pose proof (el_on_lt ref' abc m Cs (p_attr c) k) as K. rewrite Em in K. apply K.
        exists (p_attr c, dofs). cbn [discretize fe_bdrDofs fst snd]. rewrite Bd. auto. }
      rewrite nth_error_map, (nth_error_nth' phi 0%Q Lk). cbn [option_map]. f_equal. apply (Hv _ dofs); [exact I| |exact J]. apply Ht. eauto.
  Qed.
  Lemma element_charge_certified t : charge_on (discretize abc disc) u t (Q2R (charge_Q tables d t)).
  Proof. apply charge_R; [|apply element_fields_certified]. apply (el_flux_table _ _ Sr len distance ms). Qed.
End Model.
