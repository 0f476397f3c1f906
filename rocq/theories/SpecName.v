(** Specification of the number in a material name (C01), for every name. *)
From Coq Require Import ZArith Ascii String List DecimalString.
Import ListNotations.
Open Scope string_scope.

Definition underscore_free (p : string) : Prop := ~ In "_"%char (list_ascii_of_string p).
(** The text after the first underscore; the whole name when there is none. *)
Definition suffix_of (name s : string) : Prop :=
  (exists p, underscore_free p /\ name = p ++ "_" ++ s) \/ (underscore_free name /\ s = name).
(** White space of the C locale: space, tab, new line, vertical tab, form feed, carriage return. *)
Definition blank_char (c : ascii) : Prop :=
  In c (map ascii_of_nat [32; 9; 10; 11; 12; 13])%nat.
Definition blank (ws : string) : Prop := forall c, In c (list_ascii_of_string ws) -> blank_char c.
Definition decimal_char (c : ascii) : Prop := In c (list_ascii_of_string "0123456789").
(** [s] does not go on with a digit. *)
Definition no_more_digits (s : string) : Prop :=
  match s with EmptyString => True | String c _ => ~ decimal_char c end.
(** [s] begins with something that is neither a digit, nor a sign, nor white space. *)
Definition begins_otherwise (s : string) : Prop :=
  match s with
  | EmptyString => False
  | String c _ => ~ decimal_char c /\ ~ blank_char c /\ c <> "-"%char /\ c <> "+"%char
  end.
(** The nearest number that fits in an int. *)
Definition nearest_int (z : Z) : Z :=
  if (z <? - 2 ^ 31)%Z then (- 2 ^ 31)%Z else if (2 ^ 31 - 1 <? z)%Z then (2 ^ 31 - 1)%Z else z.

(** What "stream >> int" finds in [s]: white space, an optional sign and digits, which may be
    missing; None when there is nothing but white space. *)
Inductive reads : string -> option Z -> Prop :=
| r_nothing ws : blank ws -> reads ws None
| r_number ws u rest : blank ws -> u <> Decimal.Nil -> no_more_digits rest ->
    reads (ws ++ NilEmpty.string_of_uint u ++ rest) (Some (nearest_int (Z.of_nat (Nat.of_uint u))))
| r_plus ws u rest : blank ws -> no_more_digits rest ->
    reads (ws ++ "+" ++ NilEmpty.string_of_uint u ++ rest) (Some (nearest_int (Z.of_nat (Nat.of_uint u))))
| r_minus ws u rest : blank ws -> no_more_digits rest ->
    reads (ws ++ "-" ++ NilEmpty.string_of_uint u ++ rest) (Some (nearest_int (- Z.of_nat (Nat.of_uint u))))
| r_other ws s : blank ws -> begins_otherwise s -> reads (ws ++ s) (Some 0%Z).
