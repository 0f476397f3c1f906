(** Specification vocabulary for the Driver (C02, C08, C21-C32, C50, C53). *)
From Verif Require Import Prelude StdMap Json Materials Graph ModelM Parser Matrix Solver Domain Results Driver
  SpecInput SpecModel SpecSolver.
From Coq Require Import Permutation.

Section Spec.
  Context {T : Type} `{Num T}.

  (** [conds] are the conductors of the model in the order of their numbers: the i-th one is
      Conductor_i. *)
  Definition in_order (mats : materials T) (conds : list (pec T)) : Prop :=
    Permutation conds (pecs mats) /\
    forall i p, nth_error conds i = Some p -> getMaterialIdFromName (p_name p) = Ok (Z.of_nat i).

  (** What the parser, the mesh and MFEM guarantee of a model: distinct names, positive tags,
      dielectrics present in the mesh. *)
  Record well_posed (F : fem T) (m : model T) : Prop := {
    wp_names : NoDup (all_names (mo_mats m));
    wp_pec : Forall (fun p => 0 < p_attr p)%Z (pecs (mo_mats m));
    wp_open : Forall (fun o => 0 < o_attr o)%Z (openBoundaries (mo_mats m));
    wp_diel : Forall (fun d => 0 < d_attr d <= fe_domMax F)%Z (dielectrics (mo_mats m));
    wp_fem : fem_ok F }.

  (** Relative permittivity of the medium with tag [t], with or without dielectrics (of the last
      one listed, should several have the same tag). *)
  Definition permittivity (mats : materials T) (ignore : bool) (t : Z) (x : T) : Prop :=
    exists l1 d l2, dielectrics mats = (l1 ++ d :: l2)%list /\ d_attr d = t /\
      ~ In t (map d_attr l2) /\ x = if ignore then n1 else d_epsr d.

  (** A problem with the potentials [v] (by tag) on the conductors of a model. *)
  Record conductor_problem (mats : materials T) (ignore : bool) (v : Z -> T)
      (p : solver_inputs T) : Prop := {
    cp_sorted : msorted (si_dirichlet p) /\ msorted (si_eps p);
    cp_dir : forall t x, In (t, x) (si_dirichlet p) <->
                         (exists q, In q (pecs mats) /\ p_attr q = t) /\ x = v t;
    cp_neu : si_neumann p = [];
    cp_open : Permutation (si_open p) (map o_attr (openBoundaries mats));
    cp_eps : forall t x, In (t, x) (si_eps p) <-> permittivity mats ignore t x }.

  (** 1 V on tag [t], 0 V on the others *)
  Definition unit_potential (t t' : Z) : T := if (t' =? t)%Z then n1 else n0.
  (** [x]: the fields a new solver computes with 1 V on the conductor with tag [t] and 0 V on
      the other ones. *)
  Definition unit_solution (F : fem T) (dbg : bool) (mats : materials T) (ignore : bool) (t : Z)
      (x : solution T) : Prop :=
    exists p s, conductor_problem mats ignore (unit_potential t) p /\
                mkSolver F dbg p = Ok s /\ solved_fields F s = Ok x.
  (** The charge on the boundary with tag [t] when the fields are [x]: what a solver holding
      these fields reports. *)
  Definition charge_on (F : fem T) (x : solution T) (t : Z) (q : T) : Prop :=
    forall s, getSolution s = x -> getChargeInBoundary F s t = q.

  (** ** Histories of calls on one Driver *)
  Inductive dop :=
  | CallGeneralizedC (ignore : bool) | CallC | CallL | CallPUL | CallFloating | CallInCell
  | CallRun | CallByDomains | CallSetFolder (folder : string).
  Inductive dval :=
  | VMatrix (m : matrix T) | VPul (p : pul T) | VMatrices (e m : matrix T)
  | VInCell (p : incell T) | VDomains (t : digraph) (l : list (Z * pul T)) | VUnit.

  Section Exec.
    Variable dbg : bool.
    Variable femlib : mesh T -> Z -> fem T.
    Variable moment : T * T -> nat -> nat -> T * T -> T.
    Definition call (op : dop) : cmd T (driver T) dval :=
      match op with
      | CallGeneralizedC b => let! m := getGeneralizedCMatrix dbg femlib b in cret (VMatrix m)
      | CallC => let! m := getCMatrix dbg femlib in cret (VMatrix m)
      | CallL => let! m := getLMatrix dbg femlib in cret (VMatrix m)
      | CallPUL => let! p := getPULMTL dbg femlib in cret (VPul p)
      | CallFloating => let! p := getFloatingPotentials dbg femlib in cret (VMatrices (fst p) (snd p))
      | CallInCell => let! p := getInCellPotentials dbg femlib moment in cret (VInCell p)
      | CallRun => do! run dbg femlib moment; cret VUnit
      | CallByDomains => let! p := getPULMTLByDomains dbg femlib in cret (VDomains (fst p) (snd p))
      | CallSetFolder f => do! setExportFolder f; cret VUnit
      end.
    (** The result and the files written by a call, and the driver it leaves (also when an
        exception is thrown). *)
    Definition reply (op : dop) (d : driver T) : outcome dval * list (event T) :=
      let '((r, _), w) := call op d in (r, w).
    Definition left_by (op : dop) (d : driver T) : driver T :=
      let '((_, d'), _) := call op d in d'.
    Definition after (ops : list dop) (d : driver T) : driver T :=
      fold_left (fun d op => left_by op d) ops d.
    (** [d] is the driver built for the model [m] and options [o]. *)
    Definition built (m : model T) (o : driver_options) (d : driver T) : Prop :=
      exists w, mkDriver dbg femlib m o tt = ((Ok d, tt), w).
  End Exec.
  (** the last export folder set in a history *)
  Definition last_folder (ops : list dop) (f0 : string) : string :=
    fold_left (fun f op => match op with CallSetFolder g => g | _ => f end) ops f0.
  (** the same driver with another export folder *)
  Definition in_folder (d : driver T) (f : string) : driver T :=
    {| dr_model := dr_model d; dr_opts := with_folder (dr_opts d) f; dr_el := dr_el d; dr_mag := dr_mag d |}.
End Spec.
Arguments dval T : clear implicits.

(** Result files, as opposed to field exports. *)
Definition is_result {T} (e : event T) : bool := match e with EvJson _ _ => true | _ => false end.

(** [path] is a file directly in the folder [folder]. *)
Definition has_slash (s : string) : bool := existsb (Ascii.eqb "/") (list_ascii_of_string s).
Definition file_in (folder path : string) : Prop :=
  exists name, name <> EmptyString /\ has_slash name = false /\
    (path = (folder ++ name)%string /\ (folder = EmptyString \/ exists f, folder = (f ++ "/")%string) \/
     path = (folder ++ "/" ++ name)%string).

(** The field exports of a Driver: of the unit solution of a conductor or of the field with the
    other conductors floating; with or without dielectrics; for ParaView or VisIt. *)
Record export := { x_visit : bool; x_conductor : string; x_floating : bool; x_ignore : bool }.
Definition export_path (folder : string) (x : export) : string :=
  export_name folder (if x_visit x then "VisIt" else "ParaView")
    (x_conductor x ++ (if x_floating x then "_prescribed_and_others_floating" else "")) (x_ignore x).
(** The export [x] in a folder, with these fields in it *)
Definition saved {T} (folder : string) (x : export) (fields : list (string * list T)) : event T :=
  if x_visit x then EvVisIt (export_path folder x) fields else EvParaView (export_path folder x) fields.
(** What an export of a field contains: its potential, displacement and electric field. *)
Definition contents {T} (u : solution T) : list (string * list T) :=
  [("Phi", so_phi u); ("D", so_d u); ("E", so_e u)]%string.
