(** Specification vocabulary for the endings of the program (C88). *)
From Verif Require Import Prelude StdMap Json Materials Graph ModelM Parser Matrix Solver Domain Results Driver Main SpecInput SpecDriver SpecMain.

(** What the program has to compute for a model: the parameters per unit length of a closed one, the in-cell
    parameters of an open one. *)
Definition asked (op : openness) : dop := match op with Closed => CallPUL | _ => CallInCell end.
(** An outcome as the ending of a program: exceptions are not caught. *)
Definition ends_like {A} (r : outcome A) (e : ending) : Prop :=
  match r with Ok _ => e = Exit0 | Throw x => e = Uncaught x | Undef u => e = Undefined u end.
