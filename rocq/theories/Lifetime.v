(** Model of the lifetimes of the objects that an ElectrostaticSolver, a SolverSolution and a Driver
    create: src/ElectrostaticSolver.h, src/ElectrostaticSolver.cpp, src/FES.cpp, src/Driver.h,
    src/Driver.cpp. Only addresses, ownership and "has a value been stored" are modelled; the values
    themselves are in Solver.v. *)
From Verif Require Import Prelude.

(** ** Memory *)

(** Addresses are never reused, so that every access to a dead object is seen. *)
Record heap := { h_next : nat; h_live : list nat; h_set : list nat }.
Definition empty_heap : heap := {| h_next := 0; h_live := []; h_set := [] |}.

Inductive memory_error :=
| DoubleFree          (* delete of something that is not alive *)
| UseAfterFree        (* access to something that is not alive *)
| Uninitialised       (* values read before any were stored *)
| NoSuchName.         (* not a C++ program: a name that is not in scope *)

Inductive result (A : Type) := Good (a : A) | Bad (e : memory_error).
Arguments Good {A}. Arguments Bad {A}.

Definition mem (A : Type) := heap -> result (A * heap).
Definition mret {A} (a : A) : mem A := fun h => Good (a, h).
Definition mbind {A B} (m : mem A) (f : A -> mem B) : mem B :=
  fun h => match m h with Good (a, h') => f a h' | Bad e => Bad e end.
Notation "'let!' x ':=' m 'in' k" := (mbind m (fun x => k))
  (at level 200, x name, m at level 100, k at level 200).
Notation "'do!' m ';' k" := (mbind m (fun _ => k)) (at level 200, m at level 100, k at level 200).

(** new *)
Definition alloc : mem nat :=
  fun h => Good (h_next h, {| h_next := S (h_next h); h_live := h_next h :: h_live h; h_set := h_set h |}).
(** delete *)
Definition free (a : nat) : mem unit :=
  fun h => if nmem a (h_live h)
           then Good (tt, {| h_next := h_next h; h_live := remove Nat.eq_dec a (h_live h); h_set := h_set h |})
           else Bad DoubleFree.
(** any access to an object *)
Definition touch (a : nat) : mem unit :=
  fun h => if nmem a (h_live h) then Good (tt, h) else Bad UseAfterFree.
(** reading the entries of a vector *)
Definition readv (a : nat) : mem unit :=
  fun h => if nmem a (h_live h) then if nmem a (h_set h) then Good (tt, h) else Bad Uninitialised
           else Bad UseAfterFree.
(** storing all the entries of a vector *)
Definition writev (a : nat) : mem unit :=
  fun h => if nmem a (h_live h)
           then Good (tt, {| h_next := h_next h; h_live := h_live h; h_set := a :: h_set h |})
           else Bad UseAfterFree.
Fixpoint each {A} (f : A -> mem unit) (l : list A) : mem unit :=
  match l with [] => mret tt | a :: l' => do! f a; each f l' end.

(** ** Finite element spaces and forms *)

(** FES.h:12-52, FES.cpp:5-52: a space and the collection it owns (FEC_). *)
Record space := { sp_at : nat; sp_collection : nat }.
Definition new_space (mesh : nat) : mem space :=
  let! c := alloc in
  do! touch mesh;
  let! s := alloc in
  mret {| sp_at := s; sp_collection := c |}.
Definition delete_space (s : space) : mem unit := do! free (sp_collection s); free (sp_at s).
Definition touch_space (s : space) : mem unit := do! touch (sp_at s); touch (sp_collection s).

(** mfem::BilinearForm, MixedBilinearForm, LinearForm, DiscreteLinearOperator: a form owns its
    integrators and each of them refers to its coefficient, which it does not own. *)
Record integrator := { in_at : nat; in_coef : option nat }.
Record form := { fo_at : nat; fo_integrators : list integrator }.
Definition new_form : mem form := let! f := alloc in mret {| fo_at := f; fo_integrators := [] |}.
Definition add_integrator (f : form) (coef : option nat) : mem form :=
  let! i := alloc in
  do! touch (fo_at f);
  mret {| fo_at := fo_at f; fo_integrators := {| in_at := i; in_coef := coef |} :: fo_integrators f |}.
(** Assemble evaluates every coefficient on the mesh of the spaces. *)
Definition assemble (f : form) (mesh : nat) (spaces : list space) : mem unit :=
  do! touch (fo_at f);
  do! touch mesh;
  do! each touch_space spaces;
  each (fun i => do! touch (in_at i); match in_coef i with Some c => touch c | None => mret tt end)
       (fo_integrators f).
(** The destructor deletes the integrators and does not look at the coefficients. *)
Definition delete_form (f : form) : mem unit :=
  do! each (fun i => free (in_at i)) (fo_integrators f); free (fo_at f).

(** ** ElectrostaticSolver *)

(** ElectrostaticSolver.h:66-95, the pointer members *)
Record solver_object := {
  o_mesh : nat;
  o_h1 : space; o_nd : space; o_rt : space; o_l2 : space;
  o_divEpsGrad : form; o_hDivMass : form; o_h1SurfMass : form; o_hCurlHDivEps : form;
  o_rhod : form; o_grad : form;
  o_phi : nat; o_e : nat; o_d : nat; o_sigma : nat;
  o_eps : nat }.

(** What the constructor does: it returns, or it throws in one of the two calls of AttrToMarker
    (an attribute below one, MFEM_VERIFY of ElectrostaticSolver.cpp:35). *)
Inductive construction := Completes | ThrowsOnDirichlet | ThrowsOnOpen.

(** ElectrostaticSolver.cpp:59-152 and 177-195 (Assemble). [open]: there are open boundaries. When
    the constructor throws the destructor does not run: nothing that a raw pointer owns is deleted.
    openBoundaryCoeff (line 117) is a unique_ptr local to the constructor: it dies at the end,
    while the integrator of line 122 keeps a reference to it. *)
Definition construct (mesh : nat) (open : bool) (c : construction) : mem (option solver_object) :=
  do! touch mesh;
  let! h1 := new_space mesh in
  let! nd := new_space mesh in
  let! rt := new_space mesh in
  let! l2 := new_space mesh in
  match c with
  | ThrowsOnDirichlet => mret None                                     (* line 93 *)
  | _ =>
    let! eps := alloc in                                               (* lines 99-110 *)
    let! divEpsGrad := new_form in                                     (* line 113 *)
    let! divEpsGrad := add_integrator divEpsGrad (Some eps) in         (* line 114 *)
    match c with
    | ThrowsOnOpen => mret None                                        (* line 119 *)
    | _ =>
      let! abc := (if open then let! a := alloc in mret (Some a) else mret None) in    (* line 120 *)
      let! divEpsGrad := (match abc with
                          | Some a => add_integrator divEpsGrad (Some a)               (* line 121 *)
                          | None => mret divEpsGrad end) in
      let! hDivMass := new_form in
      let! hDivMass := add_integrator hDivMass None in
      let! h1SurfMass := new_form in
      let! h1SurfMass := add_integrator h1SurfMass None in
      let! hCurlHDivEps := new_form in
      let! hCurlHDivEps := add_integrator hCurlHDivEps (Some eps) in
      let! rhod := new_form in
      let! grad := new_form in
      let! grad := add_integrator grad None in                         (* FES.cpp:58-63 *)
      let! phi := alloc in
      let! d := alloc in
      let! e := alloc in
      let! sigma := alloc in
      do! assemble divEpsGrad mesh [h1];
      do! assemble hDivMass mesh [rt];
      do! assemble hCurlHDivEps mesh [nd; rt];
      do! assemble h1SurfMass mesh [h1];
      do! assemble rhod mesh [h1];
      do! writev (fo_at rhod);
      do! assemble grad mesh [h1; nd];
      do! writev sigma;                                                (* lines 150-151 *)
      do! (match abc with Some a => free a | None => mret tt end);     (* end of scope *)
      mret (Some {| o_mesh := mesh; o_h1 := h1; o_nd := nd; o_rt := rt; o_l2 := l2;
                    o_divEpsGrad := divEpsGrad; o_hDivMass := hDivMass; o_h1SurfMass := h1SurfMass;
                    o_hCurlHDivEps := hCurlHDivEps; o_rhod := rhod; o_grad := grad;
                    o_phi := phi; o_e := e; o_d := d; o_sigma := sigma; o_eps := eps |})
    end
  end.

(** ElectrostaticSolver.cpp:154-175 *)
Definition destroy (o : solver_object) : mem unit :=
  do! free (o_phi o);
  do! delete_form (o_rhod o);
  do! free (o_d o);
  do! free (o_e o);
  do! free (o_sigma o);
  do! delete_form (o_grad o);
  do! delete_form (o_divEpsGrad o);
  do! delete_form (o_hDivMass o);
  do! delete_form (o_hCurlHDivEps o);
  do! delete_form (o_h1SurfMass o);
  do! delete_space (o_h1 o);
  do! delete_space (o_nd o);
  do! delete_space (o_rt o);
  do! delete_space (o_l2 o);
  free (o_eps o).

(** ElectrostaticSolver.cpp:221-277 Solve. FormLinearSystem takes the assembled matrix; it does not
    evaluate the coefficients again. The d_ that is passed in line 269 is not read: no dof is
    eliminated and the start value is zero (copy_interior = 0). *)
Definition solve (o : solver_object) : mem unit :=
  do! touch (fo_at (o_h1SurfMass o));
  do! readv (o_sigma o);
  do! writev (fo_at (o_rhod o));                                       (* line 224 *)
  do! writev (o_phi o);                                                (* line 228 *)
  do! touch (o_mesh o);
  do! touch_space (o_h1 o);                                            (* lines 230-239 *)
  do! touch (fo_at (o_divEpsGrad o));
  do! readv (o_phi o);
  do! readv (fo_at (o_rhod o));                                        (* line 247 *)
  do! writev (o_phi o);                                                (* line 254 *)
  do! touch (fo_at (o_grad o));
  do! writev (o_e o);                                                  (* line 258 *)
  do! touch_space (o_rt o);                                            (* line 262 *)
  do! touch (fo_at (o_hCurlHDivEps o));
  do! readv (o_e o);                                                   (* line 263 *)
  do! touch (fo_at (o_hDivMass o));                                    (* line 269 *)
  writev (o_d o).                                                      (* line 274 *)

(** ElectrostaticSolver.cpp:284-293 setNeumannCondition; the coefficient is only used in the call. *)
Definition set_neumann (o : solver_object) : mem unit :=
  do! touch (o_mesh o);
  do! touch_space (o_h1 o);
  writev (o_sigma o).

(** The const members that compute something. *)
Inductive getter := TotalCharge | ChargeInBoundary | ChargeMoment | AverageInDomain
                  | AverageInBoundary | TotalEnergy | WriteFields.

(** A linear form on the stack with one integrator whose coefficient is another local: it is
    assembled and applied in the same scope (ElectrostaticSolver.cpp:295-301, 331-346, 476-492). *)
Definition local_form (o : solver_object) (sp : space) (field : nat) : mem unit :=
  let! coef := alloc in
  let! f := new_form in
  let! f := add_integrator f (Some coef) in
  do! assemble f (o_mesh o) [sp];
  do! readv field;
  do! delete_form f;
  free coef.
(** buildHDivBoundaryIntegrator, buildH1BoundaryIntegrator (ElectrostaticSolver.cpp:388-428): the
    coefficient dies when the function returns and the form is applied afterwards
    (lines 463-468, 495-507). *)
Definition boundary_integrator (o : solver_object) (sp : space) : mem form :=
  let! coef := alloc in
  let! f := new_form in
  let! f := add_integrator f (Some coef) in
  do! assemble f (o_mesh o) [sp];
  do! free coef;
  mret f.
Definition get (o : solver_object) (g : getter) : mem unit :=
  match g with
  | TotalCharge | ChargeMoment => local_form o (o_rt o) (o_d o)
  | AverageInDomain => local_form o (o_h1 o) (o_phi o)
  | ChargeInBoundary =>
      let! f := boundary_integrator o (o_rt o) in
      do! touch (fo_at f); do! readv (o_d o); delete_form f
  | AverageInBoundary =>
      let! f := boundary_integrator o (o_h1 o) in
      do! touch (fo_at f); do! readv (o_phi o); delete_form f
  | TotalEnergy =>                                                     (* lines 509-532 *)
      do! touch (o_mesh o); local_form o (o_nd o) (o_e o)
  | WriteFields =>                                                     (* lines 534-554 *)
      do! touch (o_mesh o);
      do! touch_space (o_h1 o); do! touch_space (o_rt o); do! touch_space (o_nd o);
      do! readv (o_phi o); do! readv (o_d o); readv (o_e o)
  end.

(** ** SolverSolution *)

(** ElectrostaticSolver.h:20-22: three grid functions. Each refers to a space that it does not own
    and that only Update, never called, or an interpolation would look at again. *)
Record solution_object := { q_phi : nat; q_e : nat; q_d : nat }.
(** ElectrostaticSolver.cpp:430-437 *)
Definition clone (sp : space) (gf : nat) : mem nat :=
  do! touch gf;
  do! touch_space sp;
  let! r := alloc in
  do! readv gf;
  do! writev r;
  mret r.
(** ElectrostaticSolver.cpp:447-454 *)
Definition get_solution (o : solver_object) : mem solution_object :=
  let! p := clone (o_h1 o) (o_phi o) in
  let! e := clone (o_nd o) (o_e o) in
  let! d := clone (o_rt o) (o_d o) in
  mret {| q_phi := p; q_e := e; q_d := d |}.
(** ElectrostaticSolver.cpp:439-445 and 456-461. The sizes are those of Solver.v. *)
Definition copy_values (tgt src : nat) : mem unit := do! readv src; writev tgt.
Definition set_solution (o : solver_object) (q : solution_object) : mem unit :=
  do! copy_values (o_phi o) (q_phi q);
  do! copy_values (o_e o) (q_e q);
  copy_values (o_d o) (q_d q).
(** Driver.cpp:467-474: getPhi().Add(c, *solution.phi) and so on *)
Definition add_values (tgt src : nat) : mem unit := do! readv tgt; do! readv src; writev tgt.
Definition add_solution (o : solver_object) (q : solution_object) : mem unit :=
  do! add_values (o_phi o) (q_phi q);
  do! add_values (o_e o) (q_e q);
  add_values (o_d o) (q_d q).
(** ~SolverSolution: three unique_ptr *)
Definition delete_solution (q : solution_object) : mem unit :=
  do! free (q_d q); do! free (q_e q); free (q_phi q).

(** ** Programs *)

(** What a program that uses the classes can do; the numbers are its variables. *)
Inductive op :=
| NewMesh (m : nat)
| DeleteMesh (m : nat)
| NewSolver (x m : nat) (open : bool)               (* ElectrostaticSolver x(mesh m, ...) *)
| FailedSolver (m : nat) (c : bool)                 (* a constructor that throws; c: in line 119 *)
| CopySolver (y x : nat)                            (* ElectrostaticSolver y(x): implicit, memberwise *)
| SolveS (x : nat)
| SetDirichlet (x : nat)
| SetNeumann (x : nat)
| Get (x : nat) (g : getter)
| GetSolution (q x : nat)                           (* auto q = x.getSolution() *)
| SetSolution (x q : nat)
| AddSolution (x q : nat)
| DeleteSolution (q : nat)
| DeleteSolver (x : nat).

Record world := {
  w_heap : heap;
  w_meshes : list (nat * nat);
  w_solvers : list (nat * solver_object);
  w_solutions : list (nat * solution_object) }.
Definition empty_world : world :=
  {| w_heap := empty_heap; w_meshes := []; w_solvers := []; w_solutions := [] |}.

Section Names.
  Context {A : Type}.
  Fixpoint find_name (x : nat) (l : list (nat * A)) : option A :=
    match l with [] => None | (y, a) :: l' => if (y =? x)%nat then Some a else find_name x l' end.
  Definition drop_name (x : nat) (l : list (nat * A)) : list (nat * A) :=
    filter (fun p => negb (fst p =? x)%nat) l.
End Names.

Definition with_heap (w : world) (h : heap) : world :=
  {| w_heap := h; w_meshes := w_meshes w; w_solvers := w_solvers w; w_solutions := w_solutions w |}.
(** A member function of solver x. *)
Definition on_solver (w : world) (x : nat) (f : solver_object -> mem unit) : result world :=
  match find_name x (w_solvers w) with
  | None => Bad NoSuchName
  | Some o => match f o (w_heap w) with Good (_, h) => Good (with_heap w h) | Bad e => Bad e end
  end.

Definition exec (w : world) (c : op) : result world :=
  match c with
  | NewMesh m =>
      match alloc (w_heap w) with
      | Bad e => Bad e
      | Good (a, h) => Good {| w_heap := h; w_meshes := (m, a) :: w_meshes w;
                               w_solvers := w_solvers w; w_solutions := w_solutions w |}
      end
  | DeleteMesh m =>
      match find_name m (w_meshes w) with
      | None => Bad NoSuchName
      | Some a => match free a (w_heap w) with
                  | Bad e => Bad e
                  | Good (_, h) => Good {| w_heap := h; w_meshes := drop_name m (w_meshes w);
                                           w_solvers := w_solvers w; w_solutions := w_solutions w |}
                  end
      end
  | NewSolver x m open =>
      match find_name m (w_meshes w) with
      | None => Bad NoSuchName
      | Some a => match construct a open Completes (w_heap w) with
                  | Bad e => Bad e
                  | Good (Some o, h) => Good {| w_heap := h; w_meshes := w_meshes w;
                                                w_solvers := (x, o) :: w_solvers w;
                                                w_solutions := w_solutions w |}
                  | Good (None, h) => Good (with_heap w h)
                  end
      end
  | FailedSolver m c =>
      match find_name m (w_meshes w) with
      | None => Bad NoSuchName
      | Some a => match construct a true (if c then ThrowsOnOpen else ThrowsOnDirichlet) (w_heap w) with
                  | Bad e => Bad e
                  | Good (_, h) => Good (with_heap w h)
                  end
      end
  | CopySolver y x =>
      match find_name x (w_solvers w) with
      | None => Bad NoSuchName
      | Some o => Good {| w_heap := w_heap w; w_meshes := w_meshes w;
                          w_solvers := (y, o) :: w_solvers w; w_solutions := w_solutions w |}
      end
  | SolveS x => on_solver w x solve
  | SetDirichlet x => on_solver w x (fun _ => mret tt)              (* ElectrostaticSolver.cpp:279-282 *)
  | SetNeumann x => on_solver w x set_neumann
  | Get x g => on_solver w x (fun o => get o g)
  | GetSolution q x =>
      match find_name x (w_solvers w) with
      | None => Bad NoSuchName
      | Some o => match get_solution o (w_heap w) with
                  | Bad e => Bad e
                  | Good (s, h) => Good {| w_heap := h; w_meshes := w_meshes w; w_solvers := w_solvers w;
                                           w_solutions := (q, s) :: w_solutions w |}
                  end
      end
  | SetSolution x q =>
      match find_name q (w_solutions w) with
      | None => Bad NoSuchName
      | Some s => on_solver w x (fun o => set_solution o s)
      end
  | AddSolution x q =>
      match find_name q (w_solutions w) with
      | None => Bad NoSuchName
      | Some s => on_solver w x (fun o => add_solution o s)
      end
  | DeleteSolution q =>
      match find_name q (w_solutions w) with
      | None => Bad NoSuchName
      | Some s => match delete_solution s (w_heap w) with
                  | Bad e => Bad e
                  | Good (_, h) => Good {| w_heap := h; w_meshes := w_meshes w; w_solvers := w_solvers w;
                                           w_solutions := drop_name q (w_solutions w) |}
                  end
      end
  | DeleteSolver x =>
      match find_name x (w_solvers w) with
      | None => Bad NoSuchName
      | Some o => match destroy o (w_heap w) with
                  | Bad e => Bad e
                  | Good (_, h) => Good {| w_heap := h; w_meshes := w_meshes w;
                                           w_solvers := drop_name x (w_solvers w);
                                           w_solutions := w_solutions w |}
                  end
      end
  end.

Fixpoint execute (w : world) (p : list op) : result world :=
  match p with
  | [] => Good w
  | c :: p' => match exec w c with Good w' => execute w' p' | Bad e => Bad e end
  end.

(** ** Driver *)

(** The variables of a Driver: Driver.h:12-15 and 45-47. *)
Record driver_names := {
  n_mesh : nat; n_electric : nat; n_magnetic : nat;
  n_electric_solutions : list nat; n_magnetic_solutions : list nat }.

(** Driver.cpp:147-173 solveForAllConductors, one solution per conductor; [export]: the fields are
    written (Driver.cpp:32-55). *)
Definition solve_all (x m : nat) (open export : bool) (sols : list nat) : list op :=
  NewSolver x m open ::
  flat_map (fun q => [SetDirichlet x; SolveS x] ++ (if export then [Get x WriteFields] else []) ++
                     [GetSolution q x]) sols.
(** Driver.cpp:67-102; the model has made its mesh (Model.cpp:75-82). *)
Definition driver_constructor (n : driver_names) (open export : bool) : list op :=
  NewMesh (n_mesh n) ::
  solve_all (n_electric n) (n_mesh n) open export (n_electric_solutions n) ++
  solve_all (n_magnetic n) (n_mesh n) open export (n_magnetic_solutions n).
(** ~Driver: members in reverse order of declaration. *)
Definition driver_destructor (n : driver_names) : list op :=
  map DeleteSolution (n_magnetic_solutions n) ++ [DeleteSolver (n_magnetic n)] ++
  map DeleteSolution (n_electric_solutions n) ++ [DeleteSolver (n_electric n)] ++
  [DeleteMesh (n_mesh n)].

(** Driver.cpp:198-239 getGeneralizedCMatrix: for each conductor the solution is restored, the
    charges of all of them are read and the fields are written. *)
Definition matrix_calls (x : nat) (export : bool) (sols : list nat) : list op :=
  flat_map (fun q => [SetSolution x q] ++ map (fun _ => Get x ChargeInBoundary) sols ++
                     (if export then [Get x WriteFields] else [])) sols.
(** Driver.cpp:446-492 getFieldParameters after the matrix: fields superposed, written and read. *)
Definition field_calls (x : nat) (export : bool) (sols : list nat) : list op :=
  flat_map (fun _ => map (fun q => AddSolution x q) sols ++
                     (if export then [Get x WriteFields] else []) ++
                     [Get x AverageInDomain; Get x AverageInBoundary; Get x TotalCharge;
                      Get x ChargeInBoundary; Get x ChargeMoment]) sols.

(** The member functions of a Driver; for getPULMTLByDomains the conductors of each domain and
    whether it has open boundaries. *)
Inductive driver_call :=
| CallPUL                                 (* getPULMTL, getCMatrix and getLMatrix, run on closed models *)
| CallFloating                            (* getFloatingPotentials *)
| CallInCell                              (* getInCellPotentials, run on open models *)
| CallByDomains (l : list (nat * bool)).  (* getPULMTLByDomains *)

(** Driver.cpp:304-320: the copy of the mesh, the model of the domain and its driver live in one
    iteration of the loop. [k] is a name that nothing uses yet. *)
Definition sub_names (k conductors : nat) : driver_names :=
  {| n_mesh := S k; n_electric := k; n_magnetic := S k;
     n_electric_solutions := seq k conductors;
     n_magnetic_solutions := seq (k + conductors) conductors |}.
Definition by_domains (k : nat) (export : bool) (l : list (nat * bool)) : list op :=
  flat_map (fun d => let n := sub_names k (fst d) in
              [NewMesh k] ++ driver_constructor n (snd d) export ++
              matrix_calls (n_electric n) export (n_electric_solutions n) ++
              matrix_calls (n_magnetic n) export (n_magnetic_solutions n) ++
              driver_destructor n ++ [DeleteMesh k]) l.

Definition call_ops (n : driver_names) (k : nat) (export : bool) (c : driver_call) : list op :=
  let matrices := matrix_calls (n_electric n) export (n_electric_solutions n) ++
                  matrix_calls (n_magnetic n) export (n_magnetic_solutions n) in
  match c with
  | CallPUL | CallFloating => matrices
  | CallInCell =>
      matrix_calls (n_electric n) export (n_electric_solutions n) ++
      field_calls (n_electric n) export (n_electric_solutions n) ++
      matrix_calls (n_magnetic n) export (n_magnetic_solutions n) ++
      field_calls (n_magnetic n) export (n_magnetic_solutions n)
  | CallByDomains l => by_domains k export l
  end.

(** A Driver from its construction to its destruction. Its own names are below [k]. *)
Definition driver_life (conductors : nat) (open export : bool) (calls : list driver_call) : list op :=
  let n := sub_names 0 conductors in
  driver_constructor n open export ++
  flat_map (call_ops n (S (S (conductors + conductors))) export) calls ++
  driver_destructor n.
