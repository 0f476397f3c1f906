(** The operations of mfem::DenseMatrix used by the code (third party, by contract). *)
From Verif Require Import Prelude.

(** A DenseMatrix is its size and its entries (only those in range are meaningful). *)
Record matrix (T : Type) := { nr : nat; nc : nat; ent : nat -> nat -> T }.
Arguments nr {T}. Arguments nc {T}. Arguments ent {T}.

Section Matrix.
  Context {T : Type} `{Num T}.
  Open Scope num_scope.

  (** operator()(i,j) with an index that is not known to be in range (MFEM_ASSERT only in
      debug builds of MFEM). *)
  Definition mat_at (m : matrix T) (i j : nat) : outcome T :=
    if ((i <? nr m)%nat && (j <? nc m)%nat)%bool then Ok (ent m i j) else Undef IndexOutOfBounds.

  (** DenseMatrix() and DenseMatrix(n): zero initialised. *)
  Definition zero_matrix (r c : nat) : matrix T := {| nr := r; nc := c; ent := fun _ _ => n0 |}.
  (** m(i,j) = x *)
  Definition set_ent (m : matrix T) (i j : nat) (x : T) : matrix T :=
    {| nr := nr m; nc := nc m;
       ent := fun a b => if ((a =? i)%nat && (b =? j)%nat)%bool then x else ent m a b |}.
  (** checked m(i,j) = x for indices that are not known to be in range *)
  Definition set_at (m : matrix T) (i j : Z) (x : T) : outcome (matrix T) :=
    if ((0 <=? i)%Z && (0 <=? j)%Z && (i <? Z.of_nat (nr m))%Z && (j <? Z.of_nat (nc m))%Z)%bool
    then Ok (set_ent m (Z.to_nat i) (Z.to_nat j) x) else Undef IndexOutOfBounds.

  (** DenseMatrix::Symmetrize: for i, for j < i: a = 0.5*(m(i,j)+m(j,i)); both entries := a. *)
  Definition symmetrize (m : matrix T) : matrix T :=
    {| nr := nr m; nc := nc m;
       ent := fun i j => if (i =? j)%nat then ent m i j
                         else let hi := Nat.max i j in let lo := Nat.min i j in
                              lit 5 1 * (ent m hi lo + ent m lo hi) |}.
  (** operator*= (c) *)
  Definition mscale (c : T) (m : matrix T) : matrix T :=
    {| nr := nr m; nc := nc m; ent := fun i j => ent m i j * c |}.
  (** SetCol *)
  Definition set_col (m : matrix T) (k : nat) (v : nat -> T) : matrix T :=
    {| nr := nr m; nc := nc m; ent := fun i j => if (j =? k)%nat then v i else ent m i j |}.

  (** Sum of a loop accumulating into a double that starts at 0.0. *)
  Definition sum_upto (n : nat) (f : nat -> T) : T :=
    fold_left (fun a k => a + f k) (seq 0 n) n0.

  (** Rows of a matrix, as lists. *)
  Definition row_list (m : matrix T) (i : nat) : list T := map (ent m i) (seq 0 (nc m)).
  Definition rows_list (m : matrix T) : list (list T) := map (row_list m) (seq 0 (nr m)).

  (** ** Linear systems
      MFEM factorises with partial pivoting (LUFactors::Factor / DenseMatrix::Invert). Modelled
      by Gaussian elimination with partial pivoting and back substitution on rows augmented
      with the right hand side: the same exact arithmetic result (the order of the floating
      point operations is not modelled). [None]: a zero pivot, i.e. a singular matrix. *)
  Definition nabs (x : T) : T := if nltb x n0 then - x else x.
  Definition hd0 (r : list T) : T := match r with x :: _ => x | [] => n0 end.
  (** row with the largest leading entry, and the others *)
  Fixpoint pick_pivot (rows : list (list T)) : option (list T * list (list T)) :=
    match rows with
    | [] => None
    | r :: rest =>
        match pick_pivot rest with
        | None => Some (r, [])
        | Some (p, others) =>
            if nltb (nabs (hd0 r)) (nabs (hd0 p)) then Some (p, r :: others)
            else Some (r, rest)
        end
    end.
  Fixpoint dot (a x : list T) : T :=
    match a, x with u :: a', v :: x' => u * v + dot a' x' | _, _ => n0 end.
  Fixpoint row_sub (f : T) (r p : list T) : list T :=   (* r - f p *)
    match r, p with u :: r', v :: p' => (u - f * v) :: row_sub f r' p' | _, _ => [] end.
  Definition eliminate (p r : list T) : list T := row_sub (hd0 r / hd0 p) (tl r) (tl p).
  Fixpoint gauss (n : nat) (rows : list (list T)) : option (list T) :=
    match n with
    | O => Some []
    | S n' =>
        match pick_pivot rows with
        | None => None
        | Some (p, others) =>
            if neqb (hd0 p) n0 then None
            else match gauss n' (map (eliminate p) others) with
                 | None => None
                 | Some xs =>
                     Some ((last p n0 - dot (firstn n' (tl p)) xs) / hd0 p :: xs)
                 end
        end
    end.
  Definition solve_system (a : matrix T) (b : nat -> T) : option (list T) :=
    gauss (nr a) (map (fun i => row_list a i ++ [b i]) (seq 0 (nr a))).

  (** DenseMatrixInverse(A).Mult(b, x): a zero pivot is not reported (division by zero). *)
  Definition inverse_mult (a : matrix T) (b : nat -> T) : outcome (list T) :=
    match solve_system a b with Some x => Ok x | None => Undef SingularSystem end.

  (** DenseMatrix::Invert: column k of the result solves A x = e_k; singular matrices abort
      ("DenseMatrix::Invert() : singular matrix"). *)
  Definition unit_vec (k i : nat) : T := if (i =? k)%nat then n1 else n0.
  Definition invert (a : matrix T) : outcome (matrix T) :=
    let* cols := mapM (fun k => match solve_system a (unit_vec k) with
                                | Some x => Ok x | None => Throw MfemError end)
                      (seq 0 (nr a)) in
    Ok {| nr := nr a; nc := nc a; ent := fun i j => nth i (nth j cols []) n0 |}.
End Matrix.
