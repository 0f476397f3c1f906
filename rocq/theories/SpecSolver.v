(** Specification vocabulary for the solver properties (C33-C38, C54-C56). *)
From Verif Require Import Prelude StdMap Matrix Solver.

Section Spec.
  Context {T : Type} `{Num T}.
  Variable F : fem T.

  (** What MFEM guarantees of a mesh and its spaces: boundary attributes are between 1 and
      bdr_attributes.Max(), and the fields computed have the sizes of their spaces. *)
  Record fem_ok : Prop := {
    fo_bdr : Forall (fun b => (0 < fst b <= fe_bdrMax F)%Z) (fe_bdrDofs F);
    fo_phi : forall a b c d e f, List.length (fe_phi F a b c d e f) = fe_nH1 F;
    fo_e : forall a, List.length (fe_e F a) = fe_nND F;
    fo_d : forall a b, List.length (fe_d F a b) = fe_nRT F }.

  (** MFEM: a matrix eliminated for the essential degrees of freedom leaves them as prescribed. *)
  Definition keeps_essential : Prop :=
    forall eps o ess phi0 sig k x, In k ess -> List.length phi0 = fe_nH1 F ->
      nth_error phi0 k = Some x -> nth_error (fe_phi F eps o ess ess phi0 sig) k = Some x.

  (** Inputs a solver can be built with: positive boundary tags, permittivities for tags of
      the mesh. *)
  Record inputs_ok (p : solver_inputs T) : Prop := {
    io_dir : Forall (fun av => 0 < fst av)%Z (si_dirichlet p);
    io_neu : Forall (fun av => 0 < fst av)%Z (si_neumann p);
    io_open : Forall (fun a => 0 < a)%Z (si_open p);
    io_eps : Forall (fun ae => 0 < fst ae <= fe_domMax F)%Z (si_eps p) }.

  Definition with_dirichlet (p : solver_inputs T) (bc : list (Z * T)) : solver_inputs T :=
    {| si_dirichlet := bc; si_neumann := si_neumann p; si_open := si_open p; si_eps := si_eps p |}.

  (** dof [k] lies on the boundary with attribute [t] *)
  Definition on_boundary (t : Z) (k : nat) : Prop :=
    exists b, In b (fe_bdrDofs F) /\ fst b = t /\ In k (snd b).
  (** the value prescribed on dof [k] by a map from tags to values: that of the largest tag of
      the mesh whose boundary contains it, zero if there is none *)
  Definition prescribed_value (bc : list (Z * T)) (k : nat) (x : T) : Prop :=
    (exists t, In (t, x) bc /\ (t <= fe_bdrMax F)%Z /\ on_boundary t k /\
       forall t' x', In (t', x') bc -> (t' <= fe_bdrMax F)%Z -> on_boundary t' k -> (t' <= t)%Z) \/
    (x = n0 /\ forall t' x', In (t', x') bc -> (t' <= fe_bdrMax F)%Z -> ~ on_boundary t' k).

  (** ** Histories of operations on a solver *)
  Inductive sop :=
  | SetDirichlet (bc : list (Z * T))
  | SetNeumann (attr : Z) (f : nat -> T)
  | DoSolve
  | SetSolution (x : solution T).
  Definition sstep (dbg : bool) (s : solver T) (op : sop) : outcome (solver T) :=
    match op with
    | SetDirichlet bc => Ok (setDirichletConditions s bc)
    | SetNeumann a f => setNeumannCondition F s a f
    | DoSolve => Solve F s
    | SetSolution x => setSolution dbg s x
    end.
  Definition srun (dbg : bool) (s : solver T) (ops : list sop) : outcome (solver T) :=
    foldM (sstep dbg) ops s.
  (** only Dirichlet changes and solves *)
  Definition dirichlet_op (op : sop) : Prop :=
    match op with SetDirichlet _ | DoSolve => True | _ => False end.
  (** the changes of the surface charges in a history *)
  Definition neumann_ops (ops : list sop) : list sop :=
    filter (fun op => match op with SetNeumann _ _ => true | _ => false end) ops.
  (** the operation does not change between prescribed boundaries and none at all, as against [bc0] *)
  Definition same_kind (bc0 : list (Z * T)) (op : sop) : Prop :=
    match op with SetDirichlet bc => bc = [] <-> bc0 = [] | _ => True end.
  (** the Dirichlet conditions in force at the first Solve of a history, if there is one *)
  Fixpoint first_solved (ops : list sop) (bc : list (Z * T)) : option (list (Z * T)) :=
    match ops with
    | [] => None
    | DoSolve :: _ => Some bc
    | SetDirichlet b :: r => first_solved r b
    | _ :: r => first_solved r bc
    end.
  (** the Dirichlet conditions in force after a history *)
  Definition last_dirichlet (ops : list sop) (bc0 : list (Z * T)) : list (Z * T) :=
    fold_left (fun bc op => match op with SetDirichlet b => b | _ => bc end) ops bc0.
  (** the fields of the solution that Solve computes *)
  Definition solved_fields (s : solver T) : outcome (solution T) :=
    let* s' := Solve F s in Ok (getSolution s').
  (** a solution whose vectors have the sizes of the spaces *)
  Definition sized (x : solution T) : Prop :=
    List.length (so_phi x) = fe_nH1 F /\ List.length (so_e x) = fe_nND F /\
    List.length (so_d x) = fe_nRT F.
End Spec.
Arguments SetDirichlet {T}. Arguments SetNeumann {T}. Arguments DoSolve {T}. Arguments SetSolution {T}.
