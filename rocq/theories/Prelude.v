(** Basic vocabulary of the model: outcomes of C++ calls, numbers, small list helpers.
    Nothing here models a particular line of /repo; it is the meta-language in which
    the C++ code is transcribed. *)
From Coq Require Export List ZArith Bool Arith Lia String Ascii.
From Coq Require Import Reals QArith Floats Uint63.
Export ListNotations.
Open Scope list_scope.

(** ** Outcomes *)

(** Exceptions thrown by the code (or by the libraries it calls, or an MFEM abort). *)
Inductive exn :=
| RuntimeError (msg : string)   (* std::runtime_error thrown in /repo/src *)
| OutOfRange                    (* std::map::at, LABEL_TO_MATERIAL_TYPE.at, ... *)
| JsonParseError                (* nlohmann parse_error *)
| JsonTypeError                 (* nlohmann type_error *)
| JsonOutOfRange                (* nlohmann out_of_range: json.at(key) on a missing key *)
| MfemError                     (* MFEM_VERIFY failure / mfem_error *)
| AssertFailed.                 (* assert(...), debug builds only *)

(** Undefined behaviours that the code can run into. *)
Inductive ub :=
| UninitialisedRead
| IndexOutOfBounds
| SingularSystem.    (* result of a linear solve with a zero pivot: no meaningful value *)

Inductive outcome (A : Type) :=
| Ok (a : A)
| Throw (e : exn)
| Undef (u : ub).
Arguments Ok {A} a.
Arguments Throw {A} e.
Arguments Undef {A} u.

Definition bind {A B} (x : outcome A) (f : A -> outcome B) : outcome B :=
  match x with Ok a => f a | Throw e => Throw e | Undef u => Undef u end.

Declare Scope outcome_scope.
Delimit Scope outcome_scope with outcome.
Notation "'let*' x ':=' e 'in' k" := (bind e (fun x => k))
  (at level 200, x pattern, e at level 100, k at level 200, right associativity).
Notation "'do*' e ';' k" := (bind e (fun _ => k))
  (at level 200, e at level 100, k at level 200, right associativity).

(** A loop [for (x : l) body] whose body may throw. *)
Fixpoint foldM {A S} (f : S -> A -> outcome S) (l : list A) (s : S) : outcome S :=
  match l with
  | [] => Ok s
  | x :: r => let* s' := f s x in foldM f r s'
  end.

Fixpoint mapM {A B} (f : A -> outcome B) (l : list A) : outcome (list B) :=
  match l with
  | [] => Ok []
  | x :: r => let* y := f x in let* ys := mapM f r in Ok (y :: ys)
  end.

Definition assert_ (dbg b : bool) : outcome unit :=
  if andb dbg (negb b) then Throw AssertFailed else Ok tt.

Definition is_ok {A} (x : outcome A) : Prop := exists a, x = Ok a.
Definition is_throw {A} (x : outcome A) : Prop := exists e, x = Throw e.

(** [v[i]] for std::vector: out of range is undefined behaviour. *)
Definition vec_at {A} (l : list A) (i : Z) : outcome A :=
  if (i <? 0)%Z then Undef IndexOutOfBounds else
  match nth_error l (Z.to_nat i) with Some a => Ok a | None => Undef IndexOutOfBounds end.

(** ** Numbers *)

(** The operations on [double] that the code uses. No laws are assumed: the model functions
    are polymorphic and theorems choose the instance (exact reals, IEEE binary64, ...). *)
Class Num (T : Type) : Type := {
  n0 : T; n1 : T;
  nadd : T -> T -> T; nsub : T -> T -> T; nmul : T -> T -> T; ndiv : T -> T -> T;
  nopp : T -> T;
  nltb : T -> T -> bool;   (* < *)
  nleb : T -> T -> bool;   (* <= *)
  neqb : T -> T -> bool;   (* == *)
  nofZ : Z -> T;           (* int -> double *)
  ntrunc : T -> option Z;  (* double -> integer, towards zero; None for inf and NaN *)
  npi : T;                 (* M_PI *)
  ninf : T                 (* mfem::infinity(), only used as a neutral start value *)
}.

Definition Rltb (x y : R) : bool := if Rlt_dec x y then true else false.
Definition Rleb (x y : R) : bool := if Rle_dec x y then true else false.
Definition Reqb (x y : R) : bool := if Req_EM_T x y then true else false.

(** Exact real arithmetic: the idealisation of double used by the semantic theorems.
    [ninf] has no counterpart in R; no theorem at this instance depends on it
    (functions that use it are only studied where it is overwritten). *)
#[global] Instance RNum : Num R := {
  n0 := 0%R; n1 := 1%R;
  nadd := Rplus; nsub := Rminus; nmul := Rmult; ndiv := Rdiv; nopp := Ropp;
  nltb := Rltb; nleb := Rleb; neqb := Reqb; nofZ := IZR;
  ntrunc x := Some (if Rlt_dec x 0 then - Int_part (- x) else Int_part x)%Z;
  npi := PI; ninf := 0%R }.

(** Rationals, for computed witnesses. [npi] is a rational stand-in. *)
#[global] Instance QNum : Num Q := {
  n0 := 0%Q; n1 := 1%Q;
  nadd x y := Qred (Qplus x y); nsub x y := Qred (Qminus x y);
  nmul x y := Qred (Qmult x y); ndiv x y := Qred (Qdiv x y); nopp := Qopp;
  nltb x y := negb (Qle_bool y x); nleb := Qle_bool; neqb := Qeq_bool;
  nofZ z := inject_Z z; ntrunc q := Some (Z.quot (Qnum q) (Zpos (Qden q))); npi := (355 # 113)%Q; ninf := inject_Z (10 ^ 400) }.

(** IEEE 754 binary64, for bit-exact statements. *)
Definition float_of_Z (z : Z) : float := SF2Prim (SpecFloat.binary_normalize prec emax z 0 false).
Definition float_trunc (x : float) : option Z :=
  match Prim2SF x with
  | S754_zero _ => Some 0%Z
  | S754_finite s m e =>
      let a := (if (0 <=? e)%Z then Zpos m * 2 ^ e else Zpos m / 2 ^ (- e))%Z in
      Some (if s then (- a)%Z else a)
  | _ => None
  end.
#[global] Instance FNum : Num float := {
  n0 := 0%float; n1 := 1%float;
  nadd := PrimFloat.add; nsub := PrimFloat.sub; nmul := PrimFloat.mul; ndiv := PrimFloat.div;
  nopp := PrimFloat.opp;
  nltb := PrimFloat.ltb; nleb := PrimFloat.leb; neqb := PrimFloat.eqb;
  nofZ := float_of_Z;
  ntrunc := float_trunc;
  npi := 0x1.921fb54442d18p+1%float;
  ninf := PrimFloat.infinity }.

Declare Scope num_scope.
Delimit Scope num_scope with num.
Notation "x + y" := (nadd x y) : num_scope.
Notation "x - y" := (nsub x y) : num_scope.
Notation "x * y" := (nmul x y) : num_scope.
Notation "x / y" := (ndiv x y) : num_scope.
Notation "- x" := (nopp x) : num_scope.

(** Decimal literal [m e-k]: both parts are exactly representable in the uses below, so the
    quotient is the correctly rounded literal also at the IEEE instance. *)
Definition lit {T} `{Num T} (m : Z) (k : Z) : T := ndiv (nofZ m) (nofZ (10 ^ k)).

(** std::vector<double>::operator== and friends: elementwise comparison. *)
Fixpoint list_eqb {A} (eqb : A -> A -> bool) (l1 l2 : list A) : bool :=
  match l1, l2 with
  | [], [] => true
  | a :: r, b :: s => andb (eqb a b) (list_eqb eqb r s)
  | _, _ => false
  end.

(** ** Small list helpers used by the transcription *)

(** Indexed elements [(0,x0); (1,x1); ...] of a loop [for (e = 0; e < n; ++e)]. *)
Fixpoint enum_from {A} (k : nat) (l : list A) : list (nat * A) :=
  match l with [] => [] | x :: r => (k, x) :: enum_from (S k) r end.
Definition enum {A} (l : list A) : list (nat * A) := enum_from 0 l.

Definition zmem (x : Z) (l : list Z) : bool := existsb (Z.eqb x) l.
Definition nmem (x : nat) (l : list nat) : bool := existsb (Nat.eqb x) l.
