(** Property C43: what is read as in-cell potentials. *)
From Coq Require Import Reals.
From Verif Require Import Prelude StdMap Json ModelM Matrix Results ListLemmas SpecInput SpecResults InputProofs ResultsProofs.
Open Scope list_scope.

Lemma visits_values (j : json R) l : visits j l <-> jvalues j = l.
Proof.
  unfold visits, jvalues, jitems. destruct j as [| | | | |l'|m]; cbn [map snd]; try (split; intros; subst; reflexivity).
  rewrite map_map. cbn [snd]. change (map (fun x : nat * json R => snd x) (enum l')) with (map snd (enum l')).
  assert (E : map snd (enum l') = l') by apply enum_snd. rewrite E. split; intros; subst; reflexivity.
Qed.
Lemma number_iff (j : json R) x : number j x <-> jget_double j = Ok x.
Proof.
  split; [apply jget_number|]. destruct j; cbn; try discriminate; intros [= <-]; constructor.
Qed.
Lemma numbers_iff (l : list (json R)) xs : Forall2 number l xs <-> mapM (jget_double (T:=R)) l = Ok xs.
Proof.
  rewrite mapM_ok. split; intros F; induction F; constructor; auto; now apply number_iff.
Qed.
Lemma pair_iff (j : json R) xy : two_numbers j xy <-> jget_arr2 j = Ok xy.
Proof.
  unfold two_numbers, jget_arr2. split.
  - intros (jx & jy & rest & -> & Nx & Ny). rewrite (jget_number _ _ Nx). cbn [bind]. rewrite (jget_number _ _ Ny). cbn [bind]. now destruct xy.
  - destruct j as [| | | | |[|jx [|jy rest]]|]; try discriminate. intros E.
    destruct (jget_double jx) as [x| |] eqn:Ex; cbn [bind] in E; try discriminate.
    destruct (jget_double jy) as [y| |] eqn:Ey; cbn [bind] in E; try discriminate. injection E as <-.
    exists jx, jy, rest. split; [reflexivity|]. split; now apply number_iff.
Qed.
Definition coefficient (c : json R) : outcome (R * R) :=
  let* j0 := jindex 0 c in let* j1 := jindex 1 c in let* a := jget_double j0 in let* b := jget_double j1 in Ok (a, b).
Lemma coefficient_iff (j : json R) xy : two_numbers j xy <-> coefficient j = Ok xy.
Proof.
  rewrite pair_iff. unfold coefficient, jget_arr2, jindex. destruct j as [| | | | |[|jx [|jy rest]]|]; try (split; discriminate). cbn [nth_error bind]. reflexivity.
Qed.
Lemma coefficient_undef (c : json R) u : coefficient c = Undef u -> exists l, c = JArr l /\ (List.length l < 2)%nat.
Proof.
  unfold coefficient, jindex. destruct c as [| | | | |[|jx [|jy rest]]|]; try discriminate; cbn [nth_error bind].
  - intros _. exists []. split; [reflexivity|cbn; lia].
  - intros _. exists [jx]. split; [reflexivity|cbn; lia].
  - destruct jx, jy; discriminate.
Qed.
Lemma field_iff (j : json R) k x : field j k x <-> jat k j = Ok x.
Proof.
  split; [apply jat_field|]. destruct j as [| | | | | |m]; try discriminate. cbn. destruct (mget k m) eqn:E; [|discriminate].
  intros [= <-]. exists m. auto.
Qed.
Lemma jat_defined (j : json R) k u : jat k j <> Undef u.
Proof. destruct j as [| | | | | |m]; try discriminate. cbn. destruct (mget k m); discriminate. Qed.
Lemma double_defined (j : json R) u : jget_double j <> Undef u.
Proof. destruct j; discriminate. Qed.
Lemma arr2_defined (j : json R) u : jget_arr2 j <> Undef u.
Proof. destruct j as [| | | | |[|a [|b r]]|]; try discriminate. cbn. destruct a, b; discriminate. Qed.
Lemma numbered_map_ok {V} (l : list V) : numbered_map (numbered l).
Proof.
  unfold numbered_map, numbered, enum. rewrite map_map, map_length. cbn [fst]. rewrite <- (map_map fst Z.of_nat).
  f_equal. enough (G : forall s, map fst (enum_from s l) = seq s (List.length (enum_from s l))) by apply G.
  induction l as [|x l IH]; intros s; [reflexivity|]. cbn. now rewrite IH.
Qed.
Lemma numbered_snd {V} (l : list V) : map snd (numbered l) = l.
Proof. unfold numbered. rewrite map_map. cbn [snd]. change (map (fun x : nat * V => snd x) (enum l)) with (map snd (enum l)). apply enum_snd. Qed.
Lemma numbered_as_iff {V} (m : list (Z * V)) l : numbered_as m l <-> m = numbered l.
Proof.
  split; [|intros ->; split; [apply numbered_map_ok|apply numbered_snd]].
  intros [N E]. assert (L : List.length m = List.length l) by (rewrite <- E; now rewrite map_length).
  assert (P : forall (a b : list (Z * V)), map fst a = map fst b -> map snd a = map snd b -> a = b).
  { induction a as [|[x y] a IH]; intros [|[x' y'] b] F S; try discriminate; auto. cbn in F, S. injection F as -> F. injection S as -> S. f_equal. auto. }
  apply P; [|now rewrite numbered_snd].
  rewrite N, numbered_map_ok. f_equal. f_equal. unfold numbered. rewrite map_length, L. rewrite <- (enum_snd l) at 1. now rewrite map_length.
Qed.
Lemma bind_ok {A B} (x : outcome A) (k : A -> outcome B) b : bind x k = Ok b <-> exists a, x = Ok a /\ k a = Ok b.
Proof. destruct x; cbn; split; try (intros; discriminate); try (intros (a' & E & _); discriminate); [intros; eauto|intros (a' & [= <-] & E); auto]. Qed.
Lemma bind_undef {A B} (x : outcome A) (k : A -> outcome B) u : bind x k = Undef u -> x = Undef u \/ exists a, x = Ok a /\ k a = Undef u.
Proof. destruct x; cbn; intros E; [right; eauto|discriminate|left; congruence]. Qed.
Lemma mapM_undefined {A B} (f : A -> outcome B) l u : mapM f l = Undef u -> exists x, In x l /\ f x = Undef u.
Proof.
  induction l as [|x l IH]; [discriminate|]. cbn [mapM]. intros E. apply bind_undef in E as [E|(y & _ & E)]; [exists x; split; [now left|auto]|].
  apply bind_undef in E as [E|(z & _ & E)]; [|discriminate]. destruct (IH E) as (w & I & W). exists w. split; [now right|auto].
Qed.
Lemma field_read (j : json R) f : written_field j f <-> fieldFromJSON j = Ok f.
Proof.
  unfold fieldFromJSON. rewrite bind_ok. setoid_rewrite bind_ok. setoid_rewrite bind_ok. setoid_rewrite bind_ok. setoid_rewrite bind_ok.
  setoid_rewrite bind_ok. setoid_rewrite bind_ok. setoid_rewrite bind_ok.
  change (@multipolarCoefficientsFromJSON R _) with (fun j : json R => mapM coefficient (jvalues j)). cbv beta. unfold written_field. split.
  - intros ((ja & Fa & Na) & (jc & Fc & Nc) & (jab & l & Fl & Vl & Cl) & (jp & lp & xs & Fp & Vp & Np & Op)).
    exists ja. split; [now apply field_iff|]. exists (fr_avg f). split; [now apply number_iff|].
    exists jc. split; [now apply field_iff|]. exists (fr_center f). split; [now apply pair_iff|].
    exists jab. split; [now apply field_iff|]. exists (fr_ab f). split.
    { apply visits_values in Vl. rewrite Vl. apply mapM_ok. clear - Cl. induction Cl; constructor; auto. now apply coefficient_iff. }
    exists jp. split; [now apply field_iff|]. exists xs. split; [apply visits_values in Vp; rewrite Vp; now apply numbers_iff|].
    apply numbered_as_iff in Op. rewrite <- Op. now destruct f.
  - intros (ja & Fa & a & Na & jc & Fc & c & Nc & jab & Fl & ab & Cl & jp & Fp & ps & Np & E). injection E as <-. cbn [fr_avg fr_center fr_ab fr_pots].
    split; [exists ja; split; [now apply field_iff|now apply number_iff]|].
    split; [exists jc; split; [now apply field_iff|now apply pair_iff]|].
    split.
    { exists jab, (jvalues jab). split; [now apply field_iff|]. split; [now apply visits_values|]. apply mapM_ok in Cl. clear - Cl.
      induction Cl; constructor; auto. now apply coefficient_iff. }
    exists jp, (jvalues jp), ps. split; [now apply field_iff|]. split; [now apply visits_values|]. split; [now apply numbers_iff|now apply numbered_as_iff].
Qed.
Lemma fields_read (j : json R) fs : written_fields j fs <-> potentialsFromJSON j = Ok fs.
Proof.
  unfold potentialsFromJSON. rewrite bind_ok. split.
  - intros (l & xs & V & F & O). exists xs. apply visits_values in V. rewrite V. split; [|apply numbered_as_iff in O; now rewrite O].
    apply mapM_ok. clear - F. induction F; constructor; auto. now apply field_read.
  - intros (xs & M & E). injection E as <-. exists (jvalues j), xs. split; [now apply visits_values|]. split; [|now apply numbered_as_iff].
    apply mapM_ok in M. clear - M. induction M; constructor; auto. now apply field_read.
Qed.
Local Opaque potentialsFromJSON.
Lemma incell_read (j : json R) p : written_incell j p <-> incellFromJSON j = Ok p.
Proof.
  unfold incellFromJSON. rewrite bind_ok. setoid_rewrite bind_ok. setoid_rewrite bind_ok. setoid_rewrite bind_ok. setoid_rewrite bind_ok.
  setoid_rewrite bind_ok. setoid_rewrite bind_ok. setoid_rewrite bind_ok. setoid_rewrite bind_ok. unfold written_incell. split.
  - intros ((jb & jmin & jmax & Fb & Fi & Ni & Fa & Na) & (je & Fe & We) & (jm & Fm & Wm)).
    exists jb. split; [now apply field_iff|]. exists jmin. split; [now apply field_iff|]. exists (b_min (ic_box p)). split; [now apply pair_iff|].
    exists jmax. split; [now apply field_iff|]. exists (b_max (ic_box p)). split; [now apply pair_iff|].
    exists je. split; [now apply field_iff|]. exists (ic_electric p). split; [now apply fields_read|].
    exists jm. split; [now apply field_iff|]. exists (ic_magnetic p). split; [now apply fields_read|]. now destruct p as [[? ?] ? ?].
  - intros (jb & Fb & jmin & Fi & bmin & Ni & jmax & Fa & bmax & Na & je & Fe & e & We & jm & Fm & m & Wm & E). injection E as <-.
    cbn [ic_box ic_electric ic_magnetic b_min b_max]. split.
    { exists jb, jmin, jmax. repeat split; try (now apply field_iff); now apply pair_iff. }
    split; [exists je|exists jm]; (split; [now apply field_iff|now apply fields_read]).
Qed.
Local Transparent potentialsFromJSON.
Lemma fields_undef (j : json R) u : potentialsFromJSON j = Undef u ->
  exists f jab c, In f (jvalues j) /\ field f "ab" jab /\ In (JArr c) (jvalues jab) /\ (List.length c < 2)%nat.
Proof.
  unfold potentialsFromJSON. intros E. apply bind_undef in E as [E|(? & _ & E)]; [|discriminate].
  apply mapM_undefined in E as (f & I & E). unfold fieldFromJSON in E.
  apply bind_undef in E as [E|(ja & _ & E)]; [now apply jat_defined in E|]. apply bind_undef in E as [E|(a & _ & E)]; [now apply double_defined in E|].
  apply bind_undef in E as [E|(jc & _ & E)]; [now apply jat_defined in E|]. apply bind_undef in E as [E|(c & _ & E)]; [now apply arr2_defined in E|].
  apply bind_undef in E as [E|(jab & Fab & E)]; [now apply jat_defined in E|]. apply bind_undef in E as [E|(ab & _ & E)].
  - change (mapM coefficient (jvalues jab) = Undef u) in E. apply mapM_undefined in E as (k & Ik & Ek). apply coefficient_undef in Ek as (l & -> & L).
    exists f, jab, l. split; [exact I|]. split; [now apply field_iff|]. split; [exact Ik|exact L].
  - apply bind_undef in E as [E|(jp & _ & E)]; [now apply jat_defined in E|]. apply bind_undef in E as [E|(ps & _ & E)]; [|discriminate].
    apply mapM_undefined in E as (x & _ & E). now apply double_defined in E.
Qed.

(** InCellPotentials(json) succeeds exactly on the values that describe in-cell potentials, with
    those potentials as result: numbers with or without point; conductors numbered in the order in
    which they are visited, whatever their keys. *)
Theorem C43_what_is_read :
  forall (j : json R) (p : incell R), incellFromJSON j = Ok p <-> written_incell j p.
Proof. intros j p. symmetry. apply incell_read. Qed.
Print Assumptions C43_what_is_read.
(** Anything else throws, unless there is a coefficient with less than two numbers. *)
Theorem C43_anything_else_throws :
  forall (j : json R), (forall p, ~ written_incell j p) -> ~ short_coefficient j -> exists e, incellFromJSON j = Throw e.
Proof.
  intros j N S. destruct (incellFromJSON j) as [p|e|u] eqn:E; [|eauto|].
  - destruct (N p). now apply C43_what_is_read.
  - exfalso. apply S. unfold incellFromJSON in E.
    apply bind_undef in E as [E|(jb & _ & E)]; [now apply jat_defined in E|]. apply bind_undef in E as [E|(jmin & _ & E)]; [now apply jat_defined in E|].
    apply bind_undef in E as [E|(b1 & _ & E)]; [now apply arr2_defined in E|]. apply bind_undef in E as [E|(jmax & _ & E)]; [now apply jat_defined in E|].
    apply bind_undef in E as [E|(b2 & _ & E)]; [now apply arr2_defined in E|]. apply bind_undef in E as [E|(je & Fe & E)]; [now apply jat_defined in E|].
    apply bind_undef in E as [E|(e & _ & E)].
    + apply fields_undef in E as (f & jab & c & I & Fab & Ic & L). exists "electric"%string, je, (jvalues je), f, jab, (jvalues jab), c.
      split; [now left|]. split; [now apply field_iff|]. split; [now apply visits_values|]. split; [exact I|]. split; [exact Fab|]. split; [now apply visits_values|]. auto.
    + apply bind_undef in E as [E|(jm & Fm & E)]; [now apply jat_defined in E|]. apply bind_undef in E as [E|(m & _ & E)]; [|discriminate].
      apply fields_undef in E as (f & jab & c & I & Fab & Ic & L). exists "magnetic"%string, jm, (jvalues jm), f, jab, (jvalues jab), c.
      split; [right; now left|]. split; [now apply field_iff|]. split; [now apply visits_values|]. split; [exact I|]. split; [exact Fab|]. split; [now apply visits_values|]. auto.
Qed.
Print Assumptions C43_anything_else_throws.

(** The hypotheses on concrete values: two conductors with keys that are not numbers, integers and
    floats; a centre with one coordinate throws; a coefficient with one number is undefined. *)
Definition cell_field (c : list (json R)) (k : json R) : json R :=
  JObj [("ab", JArr [JArr [JInt 2; JInt 0]; k]); ("conductorPotentials", JObj [("0", JInt 1); ("7", JFloat (1/2)%R)]);
        ("expansionCenter", JArr c); ("innerRegionAveragePotential", JFloat 5%R)]%string.
Definition cell_json (c : list (json R)) (k : json R) : json R :=
  JObj [("electric", JObj [("x", cell_field c k)]); ("innerRegionBox", JObj [("max", JArr [JInt 1; JInt 1]); ("min", JArr [JInt 0; JInt 0])]);
        ("magnetic", JNull)]%string.
Example C43_example_read :
  let c := [JInt 0; JInt 1] in let k := JArr [JFloat 3%R; JInt 4] in
  (exists p, written_incell (cell_json c k) p /\ map fst (ic_electric p) = [0%Z] /\
     exists f, In (0%Z, f) (ic_electric p) /\ fr_pots f = [(0%Z, 1%R); (1%Z, (1/2)%R)]) /\
  incellFromJSON (cell_json [JInt 0] k) = Throw JsonOutOfRange /\
  short_coefficient (cell_json c (JArr [JInt 3])) /\ incellFromJSON (cell_json c (JArr [JInt 3])) = Undef IndexOutOfBounds.
Proof.
  cbn zeta. split; [|split; [reflexivity|split; [|reflexivity]]].
  - eexists. split; [apply C43_what_is_read; reflexivity|]. split; [reflexivity|]. eexists. split; [left; reflexivity|reflexivity].
  - exists "electric"%string. eexists _, _, _, _, _, [JInt 3]. split; [now left|]. split; [eexists; split; reflexivity|]. split; [reflexivity|].
    split; [left; reflexivity|]. split; [eexists; split; reflexivity|]. split; [reflexivity|]. split; [right; left; reflexivity|cbn; lia].
Qed.
