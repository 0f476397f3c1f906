(** operator== on results is an equivalence (C44). *)
From Coq Require Import Floats Reals.
From Verif Require Import Prelude StdMap Json ModelM Matrix Results ListLemmas SpecResults ResultsProofs.

Section Relations.
  Context {T : Type} `{Num T}.
  Variable E : T -> T -> Prop.

  Lemma F2_refl {A} (P : A -> A -> Prop) l : (forall x, In x l -> P x x) -> Forall2 P l l.
  Proof. induction l; intros X; constructor; auto using in_eq, in_cons. Qed.
  Lemma F2_sym {A} (P : A -> A -> Prop) l1 l2 : (forall x y, P x y -> P y x) -> Forall2 P l1 l2 -> Forall2 P l2 l1.
  Proof. intros X. induction 1; constructor; auto. Qed.
  Lemma F2_trans {A} (P : A -> A -> Prop) l1 l2 l3 : (forall x y z, P x y -> P y z -> P x z) ->
    Forall2 P l1 l2 -> Forall2 P l2 l3 -> Forall2 P l1 l3.
  Proof. intros X F1. revert l3. induction F1; intros l3 F2; inversion F2; subst; constructor; eauto. Qed.

  Section Refl.
    Lemma pul_refl (p : pul T) : all_entries (fun x => E x x) (pul_C p) -> all_entries (fun x => E x x) (pul_L p) -> same_pul E p p.
    Proof. intros C L. split; (split; [reflexivity|split; [reflexivity|]]); auto. Qed.
    Lemma fieldrec_refl (f : fieldrec T) : all_fieldrec (fun x => E x x) f -> same_fieldrec E f f.
    Proof.
      intros (A & C1 & C2 & AB & P). split; [auto|split; [split; auto|split]].
      - apply F2_refl. intros [a b] I. split; apply (AB a b I).
      - apply F2_refl. intros [k v] I. split; auto. apply (P k v I).
    Qed.
    Lemma incell_refl (p : incell T) : all_incell (fun x => E x x) p -> same_incell E p p.
    Proof.
      intros ((B1 & B2 & B3 & B4) & F). split; [split; auto|split; [split; auto|split]].
      - apply F2_refl. intros [k f] I. split; auto. apply fieldrec_refl. cbn. eauto.
      - apply F2_refl. intros [k f] I. split; auto. apply fieldrec_refl. cbn. eauto.
    Qed.
  End Refl.
  Section Sym.
    Hypothesis S : forall x y, E x y -> E y x.
    Lemma numbers_sym (A B : matrix T) : same_numbers E A B -> same_numbers E B A.
    Proof.
      intros (R & C & X). split; [congruence|]. split; [intros; symmetry; apply C; lia|].
      intros i j Li Lj. apply S, X; [lia|]. rewrite C; lia.
    Qed.
    Lemma pul_sym (p q : pul T) : same_pul E p q -> same_pul E q p.
    Proof. intros [A B]. split; now apply numbers_sym. Qed.
    Lemma rel_pair_sym a b : rel_pair E a b -> rel_pair E b a.
    Proof. intros [A B]; split; auto. Qed.
    Lemma fieldrec_sym (f g : fieldrec T) : same_fieldrec E f g -> same_fieldrec E g f.
    Proof.
      intros (A & C & AB & P). split; [auto|split; [now apply rel_pair_sym|split]].
      - eapply F2_sym; [apply rel_pair_sym|auto].
      - eapply F2_sym; [|exact P]. intros x y [X Y]. split; auto.
    Qed.
    Lemma incell_sym (p q : incell T) : same_incell E p q -> same_incell E q p.
    Proof.
      intros (B1 & B2 & F1 & F2). split; [now apply rel_pair_sym|split; [now apply rel_pair_sym|]].
      split; (eapply F2_sym; [|eassumption]); intros x y [X Y]; split; auto using fieldrec_sym.
    Qed.
  End Sym.
  Section Trans.
    Hypothesis S : forall x y z, E x y -> E y z -> E x z.
    Lemma numbers_trans (A B C : matrix T) : same_numbers E A B -> same_numbers E B C -> same_numbers E A C.
    Proof.
      intros (R1 & C1 & X1) (R2 & C2 & X2). split; [congruence|]. split.
      - intros L. rewrite C1 by auto. apply C2. lia.
      - intros i j Li Lj. pose proof (C1 ltac:(lia)). eapply S; [apply X1; auto|apply X2; lia].
    Qed.
    Lemma pul_trans (p q r : pul T) : same_pul E p q -> same_pul E q r -> same_pul E p r.
    Proof. intros [A B] [C D]. split; eapply numbers_trans; eauto. Qed.
    Lemma rel_pair_trans a b c : rel_pair E a b -> rel_pair E b c -> rel_pair E a c.
    Proof. intros [A B] [C D]; split; eauto. Qed.
    Lemma fieldrec_trans (f g h : fieldrec T) : same_fieldrec E f g -> same_fieldrec E g h -> same_fieldrec E f h.
    Proof.
      intros (A1 & C1 & AB1 & P1) (A2 & C2 & AB2 & P2). split; [eauto|split; [eapply rel_pair_trans; eauto|split]].
      - eapply F2_trans; [apply rel_pair_trans|eauto|eauto].
      - eapply F2_trans; [|exact P1|exact P2]. intros x y z [X Y] [X' Y']. split; [congruence|eauto].
    Qed.
    Lemma incell_trans (p q r : incell T) : same_incell E p q -> same_incell E q r -> same_incell E p r.
    Proof.
      intros (B1 & B2 & F1 & F2) (B1' & B2' & F1' & F2').
      split; [eapply rel_pair_trans; eauto|split; [eapply rel_pair_trans; eauto|]].
      split; (eapply F2_trans; [|eassumption|eassumption]); intros x y z [X Y] [X' Y']; split; try congruence; eapply fieldrec_trans; eauto.
    Qed.
  End Trans.
End Relations.

(** Exact numbers: equality. *)
Lemma R_num_eq x y : num_eq (T := R) x y <-> x = y.
Proof. unfold num_eq; cbn. unfold Reqb. destruct (Req_EM_T x y); split; auto; discriminate. Qed.
Lemma F2_eq {A} (P : A -> A -> Prop) l1 l2 : (forall x y, P x y <-> x = y) -> (Forall2 P l1 l2 <-> l1 = l2).
Proof.
  intros X. split; [induction 1; f_equal; auto; now apply X|]. intros <-. apply F2_refl. intros; now apply X.
Qed.
Lemma R_pair a b : rel_pair (T := R) num_eq a b <-> a = b.
Proof. destruct a, b. unfold rel_pair; cbn. rewrite !R_num_eq. intuition congruence. Qed.
Lemma R_fieldrec f g : same_fieldrec (T := R) num_eq f g <-> f = g.
Proof.
  unfold same_fieldrec. rewrite R_num_eq, R_pair, (F2_eq _ _ _ R_pair).
  rewrite (F2_eq (fun a b => fst a = fst b /\ num_eq (snd a) (snd b))).
  2:{ intros [a b] [c d]. cbn. rewrite R_num_eq. intuition congruence. }
  destruct f, g; cbn. intuition congruence.
Qed.
Lemma R_incell p q : same_incell (T := R) num_eq p q <-> p = q.
Proof.
  unfold same_incell, same_fields. rewrite !R_pair.
  assert (X : forall x y : Z * fieldrec R, fst x = fst y /\ same_fieldrec num_eq (snd x) (snd y) <-> x = y).
  { intros [a b] [c d]. cbn. rewrite R_fieldrec. intuition congruence. }
  rewrite !(F2_eq _ _ _ X). destruct p as [[? ?] ? ?], q as [[? ?] ? ?]; cbn. intuition congruence.
Qed.

(** IEEE binary64. *)
Lemma sf_eq a b : SFeqb a b = true ->
  a = b /\ a <> S754_nan \/ (exists s s', a = S754_zero s /\ b = S754_zero s').
Proof.
  unfold SFeqb, SFcompare.
  destruct a as [sa|sa| |sa ma ea], b as [sb|sb| |sb mb eb]; try discriminate; try destruct sa; try destruct sb; try discriminate;
    try (right; eauto; fail); try (left; split; [reflexivity|discriminate]).
  all: destruct (Z.compare ea eb) eqn:Ee; try discriminate; apply Z.compare_eq in Ee; subst eb.
  all: destruct (Pcompare ma mb Eq) eqn:Em; try discriminate; cbn; try (apply Pos.compare_eq in Em; subst mb); try discriminate.
  all: left; split; [reflexivity|discriminate].
Qed.
Lemma sf_refl a : a <> S754_nan -> SFeqb a a = true.
Proof.
  unfold SFeqb, SFcompare. destruct a as [s|s| |s m e]; try destruct s; auto; try contradiction; intros _;
    rewrite Z.compare_refl; change (Pcompare m m Eq) with (Pos.compare m m); rewrite Pos.compare_refl; reflexivity.
Qed.
Lemma F_sym x y : num_eq (T := float) x y -> num_eq (T := float) y x.
Proof.
  unfold num_eq; cbn [neqb FNum]. rewrite !FloatAxioms.eqb_spec. intros E. apply sf_eq in E as [[E N]|(s & s' & E1 & E2)].
  - rewrite <- E. now apply sf_refl.
  - rewrite E1, E2. reflexivity.
Qed.
Lemma F_trans x y z : num_eq (T := float) x y -> num_eq (T := float) y z -> num_eq (T := float) x z.
Proof.
  unfold num_eq; cbn [neqb FNum]. rewrite !FloatAxioms.eqb_spec. intros E F.
  apply sf_eq in E as [[E N]|(s & s' & E1 & E2)].
  - now rewrite E.
  - apply sf_eq in F as [[F _]|(t & t' & F1 & F2)].
    + rewrite <- F, E1, E2. reflexivity.
    + rewrite E1, F2. reflexivity.
Qed.
