(** Specification for C81: which programs use the solver classes as they are meant to be used. It
    only looks at the operations of the program, not at the memory. *)
From Verif Require Import Prelude Lifetime.
From Coq Require Import Permutation.

(** The variables in scope: meshes; solvers, with their mesh (if it still exists) and whether fields
    have been stored in them; solutions. *)
Record scope := {
  sc_meshes : list nat;
  sc_solvers : list (nat * (option nat * bool));
  sc_solutions : list nat }.
Definition no_scope : scope := {| sc_meshes := []; sc_solvers := []; sc_solutions := [] |}.

Definition names {A} (l : list (nat * A)) : list nat := map fst l.
Definition without (x : nat) (l : list nat) : list nat := filter (fun y => negb (y =? x)%nat) l.
(** The mesh m no longer exists. *)
Definition orphan (m : nat) (s : nat * (option nat * bool)) : nat * (option nat * bool) :=
  match s with
  | (x, (Some m', i)) => if (m' =? m)%nat then (x, (None, i)) else s
  | _ => s
  end.
(** Fields have been stored in x. *)
Definition filled (x : nat) (s : nat * (option nat * bool)) : nat * (option nat * bool) :=
  if (fst s =? x)%nat then (x, (fst (snd s), true)) else s.

(** One operation: allowed or not and the variables afterwards.
    - a variable is declared once and used while it is in scope;
    - a solver computes only while its mesh exists (it can be deleted later);
    - fields are read only from solvers that have been solved or given a solution;
    - solvers are not copied.
    A solution may outlive the solver it comes from. *)
Inductive allowed : scope -> op -> scope -> Prop :=
| al_new_mesh : forall ms ss qs m, ~ In m ms ->
    allowed {| sc_meshes := ms; sc_solvers := ss; sc_solutions := qs |} (NewMesh m)
            {| sc_meshes := m :: ms; sc_solvers := ss; sc_solutions := qs |}
| al_delete_mesh : forall ms ss qs m, In m ms ->
    allowed {| sc_meshes := ms; sc_solvers := ss; sc_solutions := qs |} (DeleteMesh m)
            {| sc_meshes := without m ms; sc_solvers := map (orphan m) ss; sc_solutions := qs |}
| al_new_solver : forall ms ss qs x m open, In m ms -> ~ In x (names ss) ->
    allowed {| sc_meshes := ms; sc_solvers := ss; sc_solutions := qs |} (NewSolver x m open)
            {| sc_meshes := ms; sc_solvers := (x, (Some m, false)) :: ss; sc_solutions := qs |}
| al_failed_solver : forall ms ss qs m c, In m ms ->
    allowed {| sc_meshes := ms; sc_solvers := ss; sc_solutions := qs |} (FailedSolver m c)
            {| sc_meshes := ms; sc_solvers := ss; sc_solutions := qs |}
| al_solve : forall ms ss qs x m i, In (x, (Some m, i)) ss ->
    allowed {| sc_meshes := ms; sc_solvers := ss; sc_solutions := qs |} (SolveS x)
            {| sc_meshes := ms; sc_solvers := map (filled x) ss; sc_solutions := qs |}
| al_dirichlet : forall ms ss qs x, In x (names ss) ->
    allowed {| sc_meshes := ms; sc_solvers := ss; sc_solutions := qs |} (SetDirichlet x)
            {| sc_meshes := ms; sc_solvers := ss; sc_solutions := qs |}
| al_neumann : forall ms ss qs x m i, In (x, (Some m, i)) ss ->
    allowed {| sc_meshes := ms; sc_solvers := ss; sc_solutions := qs |} (SetNeumann x)
            {| sc_meshes := ms; sc_solvers := ss; sc_solutions := qs |}
| al_get : forall ms ss qs x m g, In (x, (Some m, true)) ss ->
    allowed {| sc_meshes := ms; sc_solvers := ss; sc_solutions := qs |} (Get x g)
            {| sc_meshes := ms; sc_solvers := ss; sc_solutions := qs |}
| al_get_solution : forall ms ss qs x m q, In (x, (m, true)) ss -> ~ In q qs ->
    allowed {| sc_meshes := ms; sc_solvers := ss; sc_solutions := qs |} (GetSolution q x)
            {| sc_meshes := ms; sc_solvers := ss; sc_solutions := q :: qs |}
| al_set_solution : forall ms ss qs x q, In x (names ss) -> In q qs ->
    allowed {| sc_meshes := ms; sc_solvers := ss; sc_solutions := qs |} (SetSolution x q)
            {| sc_meshes := ms; sc_solvers := map (filled x) ss; sc_solutions := qs |}
| al_add_solution : forall ms ss qs x m q, In (x, (m, true)) ss -> In q qs ->
    allowed {| sc_meshes := ms; sc_solvers := ss; sc_solutions := qs |} (AddSolution x q)
            {| sc_meshes := ms; sc_solvers := ss; sc_solutions := qs |}
| al_delete_solution : forall ms ss qs q, In q qs ->
    allowed {| sc_meshes := ms; sc_solvers := ss; sc_solutions := qs |} (DeleteSolution q)
            {| sc_meshes := ms; sc_solvers := ss; sc_solutions := without q qs |}
| al_delete_solver : forall ms ss qs x, In x (names ss) ->
    allowed {| sc_meshes := ms; sc_solvers := ss; sc_solutions := qs |} (DeleteSolver x)
            {| sc_meshes := ms; sc_solvers := drop_name x ss; sc_solutions := qs |}.

Inductive disciplined : scope -> list op -> scope -> Prop :=
| di_nil : forall s, disciplined s [] s
| di_cons : forall s c s1 p s2, allowed s c s1 -> disciplined s1 p s2 -> disciplined s (c :: p) s2.

(** What stack unwinding destroys: every variable in scope, here in any order. *)
Definition cleanup (s : scope) (p : list op) : Prop :=
  Permutation p (map DeleteSolution (sc_solutions s) ++ map DeleteSolver (names (sc_solvers s)) ++
                 map DeleteMesh (sc_meshes s)).

(** What a constructor that throws leaves behind: four spaces with their collections; in the second
    case also the coefficient, the form and its integrator. *)
Definition left_behind (c : op) : nat :=
  match c with FailedSolver _ false => 8 | FailedSolver _ true => 11 | _ => 0 end.
Definition throws_none (p : list op) : Prop := forall m c, ~ In (FailedSolver m c) p.
