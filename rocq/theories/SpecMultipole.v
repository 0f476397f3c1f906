(** Specification of the multipolar expansion (C37-C41): complex numbers as pairs. *)
From Verif Require Import Prelude.
From Coq Require Import Reals Lra.
Open Scope R_scope.

Notation C := (R * R)%type.
Definition cone : C := (1, 0).
Definition cmul (z w : C) : C := (fst z * fst w - snd z * snd w, fst z * snd w + snd z * fst w).
Fixpoint cpow (z : C) (n : nat) : C := match n with O => cone | S n => cmul z (cpow z n) end.
(** |z|^2 and |z| *)
Definition cabs2 (z : C) : R := fst z * fst z + snd z * snd z.
Definition cabs (z : C) : R := sqrt (cabs2 z).
(** 1/z *)
Definition cinv (z : C) : C := (fst z / cabs2 z, - snd z / cabs2 z).
Definition csub (z w : C) : C := (fst z - fst w, snd z - snd w).

(** The potential (times 2 pi) of coefficients (a_0, b_0), (a_1, b_1), ... around the origin:
      - a_0 ln |z| + sum_{n >= 1} Re ((a_n + i b_n) / z^n)   *)
Fixpoint series (n : nat) (ab : list C) (z : C) : R :=
  match ab with
  | [] => 0
  | c :: r => (match n with
               | O => - (fst c * ln (cabs z))
               | S _ => fst (cmul c (cpow (cinv z) n))
               end) + series (S n) r z
  end.

(** [f] is harmonic on the set [D]: it has second partial derivatives there that add up to 0. *)
Definition harmonic_on (D : R * R -> Prop) (f : R * R -> R) : Prop :=
  exists fx fy fxx fyy : R * R -> R, forall x y, D (x, y) ->
    derivable_pt_lim (fun t => f (t, y)) x (fx (x, y)) /\
    derivable_pt_lim (fun t => f (x, t)) y (fy (x, y)) /\
    derivable_pt_lim (fun t => fx (t, y)) x (fxx (x, y)) /\
    derivable_pt_lim (fun t => fy (x, t)) y (fyy (x, y)) /\
    fxx (x, y) + fyy (x, y) = 0.

(** Potential (times 2 pi, eps0 = 1) at [z] of line charges q at positions p. *)
Definition line_charges_potential (qs : list (R * C)) (z : C) : R :=
  fold_right (fun qp s => - (fst qp * ln (cabs (csub z (snd qp)))) + s) 0 qs.
Definition total_abs_charge (qs : list (R * C)) : R :=
  fold_right (fun qp s => Rabs (fst qp) + s) 0 qs.

(** Coefficients of a list of line charges around [c] up to order [N]: the total charge, and
    sum_j q_j (p_j - c)^n / n for n = 1..N, computed with the code's [moment] function. *)
Definition moments (moment : C -> nat -> nat -> C -> R) (N : nat) (qs : list (R * C)) (c : C) : list C :=
  map (fun n => match n with
                | O => (fold_right (fun qp s => fst qp + s) 0 qs, 0)
                | S _ => (fold_right (fun qp s => fst qp * moment (snd qp) n 0%nat c + s) 0 qs,
                          fold_right (fun qp s => fst qp * moment (snd qp) n 1%nat c + s) 0 qs)
                end) (seq 0 (S N)).

(** coefficientwise a x + b y *)
Definition combine_coefficients (a b : R) (x y : list C) : list C :=
  map (fun p => (a * fst (fst p) + b * fst (snd p), a * snd (fst p) + b * snd (snd p))) (combine x y).
Definition cplus (z w : C) : C := (fst z + fst w, snd z + snd w).
