(** Specification vocabulary for the command line program (C65, C66). *)
From Verif Require Import Prelude StdMap Json Materials Graph ModelM Parser Matrix Solver Domain Results Driver SpecInput SpecDriver.
Open Scope string_scope.

(** The command lines that ask for the input file [fn], as documented by the program. *)
Definition asks_for (args : list string) (fn : string) : Prop :=
  fn <> "" /\
  ((args = ["-i"; fn] \/ args = ["--input"; fn]) /\ prefix "-" fn = false \/
   args = ["--input=" ++ fn] \/
   args = ["-i" ++ fn]).
(** A field export in a folder, of one of these conductors *)
Definition field_export {T} (folder : string) (names : list string) (e : event T) : Prop :=
  exists x fields, In (x_conductor x) names /\ e = saved folder x fields.
