(** C01 for every name. *)
From Verif Require Import Prelude Materials NamesProofs SpecName.
From Coq Require Import DecimalString.
Open Scope string_scope.

Lemma ascii_cases (P : ascii -> bool) : forallb P (map ascii_of_nat (seq 0 256)) = true -> forall c, P c = true.
Proof.
  intros H c. rewrite forallb_forall in H. apply H. apply in_map_iff. exists (nat_of_ascii c).
  split; [apply ascii_nat_embedding|]. apply in_seq. pose proof (nat_ascii_bounded c). lia.
Qed.
Definition blankb (c : ascii) : bool := existsb (Ascii.eqb c) (map ascii_of_nat [32; 9; 10; 11; 12; 13])%nat.
Definition decimalb (c : ascii) : bool := existsb (Ascii.eqb c) (list_ascii_of_string "0123456789").
Lemma existsb_eq c l : existsb (Ascii.eqb c) l = true <-> In c l.
Proof.
  rewrite existsb_exists. split.
  - intros (x & I & E). apply Ascii.eqb_eq in E. now subst x.
  - intros I. exists c. split; auto. apply Ascii.eqb_refl.
Qed.
Lemma blank_space c : blank_char c <-> is_space c = true.
Proof.
  unfold blank_char. rewrite <- existsb_eq. fold (blankb c).
  pose proof (ascii_cases (fun c => Bool.eqb (blankb c) (is_space c)) ltac:(vm_compute; reflexivity) c) as E.
  apply Bool.eqb_prop in E. now rewrite E.
Qed.
Lemma decimal_digit c : decimal_char c <-> is_digit c = true.
Proof.
  unfold decimal_char. rewrite <- existsb_eq. fold (decimalb c).
  pose proof (ascii_cases (fun c => Bool.eqb (decimalb c) (is_digit c)) ltac:(vm_compute; reflexivity) c) as E.
  apply Bool.eqb_prop in E. now rewrite E.
Qed.
Lemma no_more s : no_more_digits s <-> starts_with_digit s = false.
Proof.
  destruct s as [|c s]; cbn [no_more_digits starts_with_digit]; [tauto|]. rewrite decimal_digit. destruct (is_digit c); split; congruence.
Qed.
Lemma nearest z : nearest_int z = clamp_int z.
Proof.
  unfold nearest_int, clamp_int, int_max, int_min.
  destruct (Z.ltb_spec z (- 2 ^ 31)); [lia|]. destruct (Z.ltb_spec (2 ^ 31 - 1) z); lia.
Qed.
Lemma skip_blank ws s : blank ws -> skip_ws (ws ++ s) = skip_ws s.
Proof.
  induction ws as [|c ws IH]; intros B; [reflexivity|]. cbn [append skip_ws].
  rewrite (proj1 (blank_space c)) by (apply B; now left). apply IH. intros d I. apply B. now right.
Qed.
Lemma digits_value u rest : no_more_digits rest ->
  read_digits 0 (NilEmpty.string_of_uint u ++ rest) = Z.of_nat (Nat.of_uint u).
Proof. intros N. apply no_more in N. exact (read_digits_uint u 0 rest N). Qed.
Lemma str_nil s : (s ++ "")%string = s.
Proof. induction s as [|c s IH]; cbn; congruence. Qed.

Theorem stream_reads s o : reads s o -> stream_int s = o.
Proof.
  intros R. destruct R as [ws B|ws u rest B Hu N|ws u rest B N|ws u rest B N|ws s B O].
  - unfold stream_int. rewrite <- (str_nil ws), skip_blank by exact B. reflexivity.
  - unfold stream_int. rewrite skip_blank by exact B.
    change (stream_int (NilEmpty.string_of_uint u ++ rest) = Some (nearest_int (Z.of_nat (Nat.of_uint u)))).
    rewrite stream_int_uint by (auto; now apply no_more). now rewrite nearest.
  - unfold stream_int. rewrite skip_blank by exact B. cbn [append skip_ws].
    change (is_space "+") with false. change (Ascii.eqb "+" "-") with false. change (Ascii.eqb "+" "+") with true. cbn match.
    now rewrite digits_value, nearest.
  - unfold stream_int. rewrite skip_blank by exact B. cbn [append skip_ws].
    change (is_space "-") with false. change (Ascii.eqb "-" "-") with true. cbn match.
    now rewrite digits_value, nearest.
  - destruct s as [|c s]; [destruct O|]. destruct O as (D & Bl & M & P).
    unfold stream_int. rewrite skip_blank by exact B. cbn [skip_ws].
    destruct (is_space c) eqn:Es; [exfalso; apply Bl; now apply blank_space|].
    destruct (Ascii.eqb_spec c "-"); [congruence|]. destruct (Ascii.eqb_spec c "+"); [congruence|].
    cbn [read_digits]. destruct (is_digit c) eqn:Ed; [exfalso; apply D; now apply decimal_digit|]. reflexivity.
Qed.

(** Every text is of one of these forms. *)
Lemma split_digits s : exists u rest, s = (NilEmpty.string_of_uint u ++ rest)%string /\ no_more_digits rest.
Proof.
  induction s as [|c s IH].
  - exists Decimal.Nil, "". split; [reflexivity|exact I].
  - destruct (is_digit c) eqn:D.
    + destruct IH as (u & rest & -> & N). apply decimal_digit in D. cbn in D.
      destruct D as [<-|[<-|[<-|[<-|[<-|[<-|[<-|[<-|[<-|[<-|[]]]]]]]]]]];
        [exists (Decimal.D0 u), rest|exists (Decimal.D1 u), rest|exists (Decimal.D2 u), rest|exists (Decimal.D3 u), rest
        |exists (Decimal.D4 u), rest|exists (Decimal.D5 u), rest|exists (Decimal.D6 u), rest|exists (Decimal.D7 u), rest
        |exists (Decimal.D8 u), rest|exists (Decimal.D9 u), rest]; split; auto.
    + exists Decimal.Nil, (String c s). split; [reflexivity|]. apply no_more. exact D.
Qed.
Lemma split_blank s : exists ws r, s = (ws ++ r)%string /\ blank ws /\
  match r with EmptyString => True | String c _ => ~ blank_char c end.
Proof.
  induction s as [|c s IH].
  - exists "", "". split; [reflexivity|]. split; [intros c []|exact I].
  - destruct (is_space c) eqn:E.
    + destruct IH as (ws & r & -> & B & N). exists (String c ws), r. split; [reflexivity|]. split; auto.
      intros d [<-|I]; [now apply blank_space|now apply B].
    + exists "", (String c s). split; [reflexivity|]. split; [intros d []|]. rewrite blank_space. congruence.
Qed.
Theorem reads_total s : exists o, reads s o.
Proof.
  destruct (split_blank s) as (ws & r & -> & B & N). destruct r as [|c r].
  - rewrite str_nil. eexists. now apply r_nothing.
  - destruct (Ascii.eqb_spec c "-") as [->|Hm].
    { destruct (split_digits r) as (u & rest & -> & Nr). eexists. apply (r_minus ws u rest B Nr). }
    destruct (Ascii.eqb_spec c "+") as [->|Hp].
    { destruct (split_digits r) as (u & rest & -> & Nr). eexists. apply (r_plus ws u rest B Nr). }
    destruct (split_digits (String c r)) as (u & rest & E & Nr).
    destruct u eqn:Eu.
    1: { eexists. apply r_other; [exact B|]. cbn. cbn in E. subst rest. cbn in Nr. auto. }
    all: rewrite E; eexists; apply r_number; auto; discriminate.
Qed.

Lemma suffix_unique name s : suffix_of name s -> id_suffix name = s.
Proof.
  unfold id_suffix, suffix_of, underscore_free. intros [(p & N & ->)|[N ->]].
  - rewrite after_underscore_app; [reflexivity|]. intros c I ->. now apply N.
  - rewrite after_underscore_none; [reflexivity|]. intros c I ->. now apply N.
Qed.
Lemma suffix_total name : exists s, suffix_of name s.
Proof.
  assert (G : (exists p s, underscore_free p /\ name = (p ++ "_" ++ s)%string) \/ underscore_free name).
  { unfold underscore_free. induction name as [|c n IH].
    - right. intros [].
    - destruct (Ascii.eqb_spec c "_") as [->|Hc].
      + left. exists "", n. split; [intros []|reflexivity].
      + destruct IH as [(p & s & N & ->)|N].
        * left. exists (String c p), s. split; [|reflexivity]. intros [E|I]; auto.
        * right. intros [E|I]; auto. }
  destruct G as [(p & s & N & E)|N]; [exists s; left; eauto|exists name; right; auto].
Qed.
Theorem id_any name s o : suffix_of name s -> reads s o ->
  getMaterialIdFromName name = match o with Some z => Ok z | None => Undef UninitialisedRead end.
Proof. intros S R. unfold getMaterialIdFromName. rewrite (suffix_unique _ _ S), (stream_reads _ _ R). reflexivity. Qed.
Theorem id_covers name : exists s o, suffix_of name s /\ reads s o.
Proof. destruct (suffix_total name) as (s & S). destruct (reads_total s) as (o & R). eauto. Qed.
