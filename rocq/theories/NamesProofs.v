(** Proofs about material names and ids (C01). *)
From Verif Require Import Prelude StdMap Materials.
From Coq Require Import DecimalString DecimalNat.
Open Scope string_scope.

Lemma after_underscore_app p s :
  (forall c, In c (list_ascii_of_string p) -> c <> "_"%char) ->
  after_underscore (p ++ "_" ++ s) = Some s.
Proof.
  induction p as [|c p IH]; cbn [append after_underscore list_ascii_of_string].
  - reflexivity.
  - intro Hp. destruct (Ascii.eqb_spec c "_") as [->|Hc].
    + exfalso. apply (Hp "_"%char); [now left|reflexivity].
    + apply IH. intros c' Hc'. apply Hp. now right.
Qed.

Lemma after_underscore_none p :
  (forall c, In c (list_ascii_of_string p) -> c <> "_"%char) -> after_underscore p = None.
Proof.
  induction p as [|c p IH]; cbn [after_underscore list_ascii_of_string]; [reflexivity|].
  intro Hp. destruct (Ascii.eqb_spec c "_") as [->|Hc].
  - exfalso. apply (Hp "_"%char); [now left|reflexivity].
  - apply IH. intros c' Hc'. apply Hp. now right.
Qed.

Definition starts_with_digit (s : string) : bool :=
  match s with String c _ => is_digit c | EmptyString => false end.

Lemma read_digits_rest acc s : starts_with_digit s = false -> read_digits acc s = acc.
Proof. destruct s as [|c s]; cbn; [reflexivity|]. now intros ->. Qed.

Lemma read_digits_cons c s acc d : is_digit c = true -> digit_val c = d ->
  read_digits acc (String c s) = read_digits (acc * 10 + d) s.
Proof. cbn [read_digits]. now intros -> ->. Qed.

Lemma read_digits_uint u : forall acc rest,
  starts_with_digit rest = false ->
  read_digits (Z.of_nat acc) (NilEmpty.string_of_uint u ++ rest) = Z.of_nat (Nat.of_uint_acc u acc).
Proof.
  induction u; intros acc rest Hr;
    cbn [NilEmpty.string_of_uint append Nat.of_uint_acc]; [ now apply read_digits_rest | ..];
    (erewrite read_digits_cons; [|reflexivity|reflexivity]);
    (rewrite <- (IHu _ rest) by assumption); f_equal; rewrite Nat.tail_mul_spec; match goal with |- context [digit_val ?c] => let v := eval vm_compute in (digit_val c) in change (digit_val c) with v end; lia.
Qed.

Lemma string_of_uint_cons u : u <> Decimal.Nil ->
  exists c r, NilEmpty.string_of_uint u = String c r /\ is_digit c = true /\ is_space c = false /\
              c <> "-"%char /\ c <> "+"%char.
Proof.
  destruct u; intro Hu; [congruence|..]; cbn;
    eexists; eexists; (split; [reflexivity|]); repeat split; try reflexivity; discriminate.
Qed.

Definition nat_of_uint := Nat.of_uint.

Lemma stream_int_uint u rest :
  u <> Decimal.Nil -> starts_with_digit rest = false ->
  stream_int (NilEmpty.string_of_uint u ++ rest) = Some (clamp_int (Z.of_nat (Nat.of_uint u))).
Proof.
  intros Hu Hr.
  destruct (string_of_uint_cons u Hu) as (c & r & E & Hd & Hs & Hm & Hp).
  pose proof (read_digits_uint u 0 rest Hr) as Hv. rewrite E in *. cbn [append] in *.
  unfold stream_int. cbn [skip_ws]. rewrite Hs.
  destruct (Ascii.eqb_spec c "-"); [congruence|].
  destruct (Ascii.eqb_spec c "+"); [congruence|].
  change 0%Z with (Z.of_nat 0) at 1. rewrite Hv. reflexivity.
Qed.

Definition no_underscore (p : string) : Prop :=
  forall c, In c (list_ascii_of_string p) -> c <> "_"%char.

Lemma id_of_name p u rest :
  no_underscore p -> u <> Decimal.Nil -> starts_with_digit rest = false ->
  getMaterialIdFromName (p ++ "_" ++ NilEmpty.string_of_uint u ++ rest) =
  Ok (Z.min (2 ^ 31 - 1) (Z.of_nat (Nat.of_uint u))).
Proof.
  intros Hp Hu Hr. unfold getMaterialIdFromName, id_suffix.
  rewrite after_underscore_app by exact Hp.
  rewrite stream_int_uint by assumption.
  unfold clamp_int, int_max, int_min. f_equal. lia.
Qed.

Lemma id_of_name_fits p u rest :
  no_underscore p -> u <> Decimal.Nil -> starts_with_digit rest = false ->
  (Z.of_nat (Nat.of_uint u) < 2 ^ 31)%Z ->
  getMaterialIdFromName (p ++ "_" ++ NilEmpty.string_of_uint u ++ rest) =
  Ok (Z.of_nat (Nat.of_uint u)).
Proof. intros. rewrite id_of_name by assumption. f_equal. lia. Qed.

Lemma id_of_number p n :
  no_underscore p -> (Z.of_nat n < 2 ^ 31)%Z ->
  getMaterialIdFromName (p ++ "_" ++ NilEmpty.string_of_uint (Nat.to_uint n)) = Ok (Z.of_nat n).
Proof.
  intros Hp Hn.
  assert (Hu : Nat.to_uint n <> Decimal.Nil) by (intro E0; destruct n as [|n]; [discriminate E0|]; pose proof (Unsigned.of_to (S n)) as E1; rewrite E0 in E1; discriminate E1).
  pose proof (id_of_name_fits p (Nat.to_uint n) "" Hp Hu eq_refl) as E.
  rewrite Unsigned.of_to in E. specialize (E Hn).
  rewrite <- E. f_equal. f_equal. cbn [append]. f_equal.
  clear. induction (NilEmpty.string_of_uint (Nat.to_uint n)) as [|c s IH]; cbn; congruence.
Qed.

Lemma id_non_numeric p c r :
  no_underscore p -> is_digit c = false -> is_space c = false -> c <> "-"%char -> c <> "+"%char ->
  getMaterialIdFromName (p ++ "_" ++ String c r) = Ok 0%Z.
Proof.
  intros Hp Hd Hs Hm Hpl. unfold getMaterialIdFromName, id_suffix.
  rewrite after_underscore_app by exact Hp. unfold stream_int. cbn [skip_ws]. rewrite Hs.
  destruct (Ascii.eqb_spec c "-"); [congruence|].
  destruct (Ascii.eqb_spec c "+"); [congruence|].
  cbn [read_digits]. rewrite Hd. reflexivity.
Qed.

Lemma id_empty_suffix p : no_underscore p ->
  getMaterialIdFromName (p ++ "_") = Undef UninitialisedRead.
Proof.
  intros Hp. unfold getMaterialIdFromName, id_suffix.
  change (p ++ "_")%string with (p ++ "_" ++ "")%string.
  rewrite after_underscore_app by exact Hp. reflexivity.
Qed.

Lemma id_negative p u rest :
  no_underscore p -> u <> Decimal.Nil -> starts_with_digit rest = false ->
  (Z.of_nat (Nat.of_uint u) < 2 ^ 31)%Z ->
  getMaterialIdFromName (p ++ "_-" ++ NilEmpty.string_of_uint u ++ rest) =
  Ok (- Z.of_nat (Nat.of_uint u))%Z.
Proof.
  intros Hp Hu Hr Hn. unfold getMaterialIdFromName, id_suffix.
  change ("_-" ++ NilEmpty.string_of_uint u ++ rest)%string
    with ("_" ++ String "-" (NilEmpty.string_of_uint u ++ rest))%string.
  rewrite after_underscore_app by exact Hp. unfold stream_int.
  change (skip_ws (String "-" (NilEmpty.string_of_uint u ++ rest)))
    with (String "-" (NilEmpty.string_of_uint u ++ rest)).
  cbn match. change (Ascii.eqb "-" "-") with true. cbn match.
  pose proof (read_digits_uint u 0 rest Hr) as Hv. change (Z.of_nat 0) with 0%Z in Hv. rewrite Hv.
  change (Nat.of_uint_acc u 0) with (Nat.of_uint u).
  unfold clamp_int, int_max, int_min. f_equal. lia.
Qed.

(** The id is always a 32 bit integer. *)
Lemma id_range name z : getMaterialIdFromName name = Ok z -> (- 2 ^ 31 <= z < 2 ^ 31)%Z.
Proof.
  unfold getMaterialIdFromName, stream_int.
  destruct (skip_ws (id_suffix name)) as [|c r]; [discriminate|].
  destruct (Ascii.eqb c "-"); [|destruct (Ascii.eqb c "+")]; intros [= <-];
    unfold clamp_int, int_max, int_min; lia.
Qed.
Lemma id_never_throws name e : getMaterialIdFromName name <> Throw e.
Proof. unfold getMaterialIdFromName. destruct (stream_int _); discriminate. Qed.
