(** A small problem used as the concrete case beside the theorems about the Driver: two
    conductors (tags 1 and 2) with one degree of freedom each, a dielectric (tag 3) and
    optionally an open boundary (tag 4). The charges for the potentials (a, b) are
    ((1+k) a - b, (1+k) b - a) times the permittivity, with k = 0 for closed problems and 1
    otherwise. *)
From Verif Require Import Prelude StdMap Materials Graph ModelM Parser Matrix Solver Driver SpecInput SpecModel SpecSolver SpecDriver.
From Coq Require Import QArith Reals Permutation.
Open Scope string_scope.
Open Scope list_scope.

Section Toy.
  Context {T : Type} `{Num T}.
  Open Scope num_scope.
  Definition toy_mesh (op : openness) : mesh T :=
    let seg t a b := {| e_attr := t; e_verts := [a; b]%Z; e_vol := n1 |} in
    {| m_elems := [{| e_attr := 3; e_verts := [0; 1; 2; 3]%Z; e_vol := n1 |}];
       m_bdr := (seg 1 0 1 :: seg 2 1 2 ::
                 match op with Closed => [] | SemiOpen => [seg 4 2 3] | Open => [seg 4 2 3; seg 4 3 2] end)%Z;
       m_coord := fun v => match v with 0 => (n0, n0) | 1 => (n1, n0) | 2 => (n1, n1) | _ => (n0, n1) end%Z |}.
  Definition toy_conds : list (pec T) :=
    [{| p_name := "Conductor_0"; p_attr := 1; p_area := n1 |};
     {| p_name := "Conductor_1"; p_attr := 2; p_area := n1 |}].
  (** listed in another order *)
  Definition toy_mats (op : openness) (eps : T) : materials T :=
    {| pecs := rev toy_conds;
       openBoundaries := match op with Closed => [] | _ => [{| o_name := "Open"; o_attr := 4 |}] end;
       dielectrics := [{| d_name := "Vacuum_0"; d_attr := 3; d_epsr := eps |}] |}.
  Definition toy_model (op : openness) (eps : T) : model T :=
    {| mo_mats := toy_mats op eps; mo_mesh := toy_mesh op; mo_ground := 0 |}.
  Definition toy_fem (k : T) : fem T :=
    let at_ (l : list T) i := nth i l n0 in
    {| fe_nH1 := 2; fe_nND := 2; fe_nRT := 2; fe_bdrMax := 4; fe_domMax := 3;
       fe_bdrDofs := [(1%Z, [0%nat]); (2%Z, [1%nat])];
       fe_flux := [{| q_attr := 1; q_pos := (n0, n0); q_w := [nopp n1; n0] |};
                   {| q_attr := 2; q_pos := (n1, n0); q_w := [n0; nopp n1] |};
                   {| q_attr := 4; q_pos := (n1, n1); q_w := [k; k] |}];
       fe_bdrPhi := [(1%Z, [n1; n0]); (2%Z, [n0; n1])];
       fe_domPhi := [(3%Z, [n1; n1])];
       fe_energy := [];
       fe_phi := fun _ _ _ ess phi0 _ => map (fun i => if nmem i ess then at_ phi0 i else n0) (seq 0 2);
       fe_e := fun phi => [at_ phi 0%nat + k * at_ phi 0%nat - at_ phi 1%nat;
                           at_ phi 1%nat + k * at_ phi 1%nat - at_ phi 0%nat];
       fe_d := fun eps e => let c := match eps with EpsPW v => at_ v 2%nat | EpsConst x => x end in
                            [c * at_ e 0%nat; c * at_ e 1%nat] |}.
  Definition toy_lib : mesh T -> Z -> fem T :=
    fun ms _ => toy_fem (if (List.length (m_bdr ms) =? 2)%nat then n0 else n1).
  Definition toy_options : driver_options :=
    {| o_order := 3; o_printIterations := false; o_exportParaView := true; o_exportVisIt := false;
       o_exportFolder := "out/"; o_multipolarExpansionOrder := 1 |}.

  Lemma toy_names op eps : NoDup (all_names (toy_mats op eps)).
  Proof. destruct op; unfold all_names; cbn; repeat constructor; cbn; intuition discriminate. Qed.
  Lemma toy_fem_ok k : fem_ok (toy_fem k).
  Proof. constructor; intros; try reflexivity. repeat constructor; cbn; lia. Qed.
  Lemma toy_posed op eps o : well_posed (toy_lib (mo_mesh (toy_model op eps)) o) (toy_model op eps).
  Proof.
    constructor; [apply toy_names|..|apply toy_fem_ok].
    - repeat constructor.
    - destruct op; repeat constructor.
    - repeat constructor; cbn; lia.
  Qed.
  Lemma toy_order op eps : in_order (toy_mats op eps) toy_conds.
  Proof.
    split; [cbn; apply perm_swap|].
    intros [|[|i]] p E; cbn in E; try (injection E as <-; reflexivity). destruct i; discriminate.
  Qed.
  Lemma toy_openness dbg op eps : determineOpenness dbg (toy_model op eps) = Ok op.
  Proof. destruct op, dbg; reflexivity. Qed.
End Toy.
