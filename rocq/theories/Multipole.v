(** Model of src/multipolarExpansion.h and of firstOrderABC (src/ElectrostaticSolver.cpp), over
    the real numbers: log, cos, sin, sqrt and atan2 are exact. *)
From Verif Require Import Prelude.
From Coq Require Import Reals.
Open Scope R_scope.

(** mfem::Vector::Norml2 *)
Definition norm2 (p : R * R) : R := sqrt (fst p * fst p + snd p * snd p).

(** std::atan2(y, x) *)
Definition atan2 (y x : R) : R :=
  if Rlt_dec 0 x then atan (y / x)
  else if Rlt_dec x 0 then (if Rle_dec 0 y then atan (y / x) + PI else atan (y / x) - PI)
  else if Rlt_dec 0 y then PI / 2
  else if Rlt_dec y 0 then - PI / 2 else 0.

Definition psub (p q : R * R) : R * R := (fst p - fst q, snd p - snd q).

(** multipolarExpansion.h:25-36: one iteration of the loop (the assert of line 31 is separate,
    see [expansion_assert]). *)
Definition expansion_term (r phi : R) (n : nat) (ab : R * R) : R :=
  match n with
  | O => - (fst ab * ln r)
  | S _ => (fst ab * cos (INR n * phi) + snd ab * sin (INR n * phi)) / r ^ n
  end.
(** multipolarExpansion.h:10-39 *)
Definition multipolarExpansion (position : R * R) (ab : list (R * R)) (center : R * R) : R :=
  let rv := psub position center in
  let r := norm2 rv in
  let phi := atan2 (snd rv) (fst rv) in
  fold_left (fun res nab => res + expansion_term r phi (fst nab) (snd nab)) (enum ab) 0
  / (2 * PI).
(** multipolarExpansion.h:31 assert(bn == 0.0) for n == 0 *)
Definition expansion_assert (dbg : bool) (ab : list (R * R)) : outcome unit :=
  match ab with [] => Ok tt | c :: _ => assert_ dbg (Reqb (snd c) 0) end.

(** multipolarExpansion.h:10-39 as a call: in debug builds the assert of line 31 can abort it *)
Definition multipolarExpansionCall (dbg : bool) (position : R * R) (ab : list (R * R)) (center : R * R) : outcome R :=
  do* expansion_assert dbg ab; Ok (multipolarExpansion position ab center).

(** multipolarExpansion.h:41-63 momentComponent, for n > 0 (the assert of line 44) *)
Definition momentComponent (position : R * R) (n : nat) (component : nat) (translation : R * R) : R :=
  match n with
  | O => 1
  | S _ =>
      let p := psub position translation in
      let r := norm2 p in
      let phi := atan2 (snd p) (fst p) in
      match component with
      | O => r ^ n * cos (INR n * phi) / INR n
      | _ => r ^ n * sin (INR n * phi) / INR n
      end
  end.

(** ElectrostaticSolver.cpp:51-56 firstOrderABC *)
Definition firstOrderABC (p : R * R) : R := - 1 / (norm2 p * ln (norm2 p)).
