(** Properties C42-C45: results as JSON values, their text, and their equality. *)
From Coq Require Import QArith Reals Floats.
From Verif Require Import Prelude StdMap Json ModelM Matrix Results ListLemmas SpecInput SpecResults InputProofs ResultsProofs EqualityProofs.
Open Scope list_scope.

Section General.
  Context {T : Type} `{Num T}.

  Lemma same_numbers_self (A B : matrix T) : all_entries not_nan A -> same_numbers eq A B -> same_numbers num_eq A B.
  Proof.
    intros N (R & C & E). repeat split; auto. intros i j Li Lj. rewrite <- (E i j Li Lj). now apply N.
  Qed.
End General.

(** ** C42: reading what toJSON wrote. *)
(** The entries that come back are the very same ones, and operator== holds when none is a NaN. *)
Theorem C42_json_round_trip :
  forall (T : Type) (NT : Num T) (p : pul T), has_columns (pul_C p) -> has_columns (pul_L p) ->
    exists q, pulFromJSON (pulToJSON p) = Ok q /\ same_pul eq p q /\
      (all_entries not_nan (pul_C p) -> all_entries not_nan (pul_L p) -> pul_eqb p q = true).
Proof.
  intros T NT p HC HL. destruct (pul_round_trip p HC HL) as (q & E & SC & SL). exists q. split; [auto|].
  split; [now split|]. intros NC NL. apply pul_eqb_iff. split; now apply same_numbers_self.
Qed.
(** The same through a file (saveToJSONFile, then parsing the file): works exactly when
    every number is finite. *)
Theorem C42_file_round_trip :
  forall (T : Type) (NT : Num T) (p : pul T), has_columns (pul_C p) -> has_columns (pul_L p) ->
    (all_entries finite (pul_C p) /\ all_entries finite (pul_L p) ->
       exists q, pulFromJSON (jparse (jdump (pulToJSON p))) = Ok q /\ same_pul eq p q) /\
    (~ (all_entries finite (pul_C p) /\ all_entries finite (pul_L p)) ->
       pulFromJSON (jparse (jdump (pulToJSON p))) = Throw JsonTypeError).
Proof.
  intros T NT p HC HL. split.
  - intros [FC FL]. rewrite (pul_text p FC FL). destruct (pul_round_trip p HC HL) as (q & E & SC & SL).
    exists q. split; [auto|now split].
  - intros N. now apply pul_text_bad.
Qed.
(** Over the reals every number is finite and none a NaN. *)
Theorem C42_real_numbers :
  forall p : pul R, has_columns (pul_C p) -> has_columns (pul_L p) ->
    exists q, pulFromJSON (jparse (jdump (pulToJSON p))) = Ok q /\ same_pul eq p q /\ pul_eqb p q = true.
Proof.
  intros p HC HL. destruct (C42_file_round_trip R RNum p HC HL) as [X _].
  destruct X as (q & E & S).
  { split; intros i j _ _; unfold finite, nfinite; cbn [neqb nsub n0 RNum]; unfold Reqb;
      (destruct Req_EM_T as [|N]; [reflexivity|]); exfalso; apply N; apply Rminus_diag_eq; reflexivity. }
  exists q. split; [auto|]. split; [auto|]. apply pul_eqb_iff. destruct S as [SC SL].
  assert (Y : forall x : R, not_nan x) by (intros x; now apply R_num_eq).
  split; apply same_numbers_self; auto; intros i j _ _; apply Y.
Qed.

Definition mat_of {T} `{Num T} (v : list (list T)) : matrix T :=
  {| nr := List.length v; nc := List.length (nth 0 v []); ent := fun i j => nth j (nth i v []) n0 |}.
(** A 2x2 and a 1x1 matrix with doubles meet the hypotheses. *)
Example C42_example :
  let p := {| pul_C := mat_of [[1.5; -0.25]; [-0.25; 0x1p-1074]]%float; pul_L := mat_of [[0x1p-22]]%float |} in
  has_columns (pul_C p) /\ has_columns (pul_L p) /\
  all_entries not_nan (pul_C p) /\ all_entries finite (pul_C p) /\ all_entries finite (pul_L p) /\
  match pulFromJSON (jparse (jdump (pulToJSON p))) with Ok q => pul_eqb p q = true | _ => False end.
Proof.
  cbn zeta. repeat split; try (left; cbn; lia).
  all: try (intros [|[|i]] [|[|j]] Li Lj; cbn in Li, Lj; try lia; vm_compute; reflexivity).
Qed.
(** Rows without entries are lost: a 2x0 matrix comes back as a 0x0 one. *)
Example C42_rows_without_columns :
  let p := {| pul_C := {| nr := 2; nc := 0; ent := fun _ _ => 0%float |}; pul_L := mat_of [[1%float]] |} in
  exists q, pulFromJSON (pulToJSON p) = Ok q /\ nr (pul_C q) = 0%nat /\ pul_eqb p q = false.
Proof. eexists. split; [vm_compute; reflexivity|]. vm_compute. auto. Qed.
(** An infinite capacitance is written as null and cannot be read back. *)
Example C42_infinite_capacitance :
  let p := {| pul_C := mat_of [[infinity]]; pul_L := mat_of [[1%float]] |} in
  pulFromJSON (jparse (jdump (pulToJSON p))) = Throw JsonTypeError.
Proof. vm_compute. reflexivity. Qed.

(** ** C43 *)
(** Fields and conductor potentials are written without their numbers and numbered from 0
    when read: what is read is what was written, up to that numbering. *)
Theorem C43_reading_renumbers :
  forall (T : Type) (NT : Num T) (p : incell T), exists q,
    incellFromJSON (incellToJSON p) = Ok q /\ ic_box q = ic_box p /\ numbered_incell q /\
    Forall2 (fun a b => fr_avg (snd b) = fr_avg (snd a) /\ fr_center (snd b) = fr_center (snd a) /\
                        fr_ab (snd b) = fr_ab (snd a) /\ map snd (fr_pots (snd b)) = map snd (fr_pots (snd a)))
            (ic_electric p) (ic_electric q) /\
    Forall2 (fun a b => fr_avg (snd b) = fr_avg (snd a) /\ fr_center (snd b) = fr_center (snd a) /\
                        fr_ab (snd b) = fr_ab (snd a) /\ map snd (fr_pots (snd b)) = map snd (fr_pots (snd a)))
            (ic_magnetic p) (ic_magnetic q).
Proof.
  intros T NT p. exists (renumber p). split; [apply incell_round_trip|]. split; [reflexivity|].
  assert (NM : forall V (l : list V), numbered_map (numbered l)).
  { intros V l. unfold numbered_map, numbered, enum. rewrite map_map, map_length. cbn [fst].
    transitivity (map Z.of_nat (map fst (enum_from 0 l))); [now rewrite map_map|].
    rewrite enum_from_fst, <- (map_length fst (enum_from 0 l)), enum_from_fst, seq_length. reflexivity. }
  assert (SN : forall V (l : list V), map snd (numbered l) = l).
  { intros V l. unfold numbered, enum. rewrite map_map. cbn [snd]. generalize 0%nat as k.
    induction l as [|x l IH]; intros k; cbn; [reflexivity|]. f_equal. apply IH. }
  split; [split; (split; [apply NM|])|].
  1,2: intros k f I; apply in_map_iff in I as ((i & f') & E & I); injection E as E1 E2; subst;
    apply in_enum in I; apply nth_error_In in I; apply in_map_iff in I as (x & E & _); subst; apply NM.
  assert (F : forall l : list (Z * fieldrec T), Forall2 (fun a b => fr_avg (snd b) = fr_avg (snd a) /\ fr_center (snd b) = fr_center (snd a) /\
                        fr_ab (snd b) = fr_ab (snd a) /\ map snd (fr_pots (snd b)) = map snd (fr_pots (snd a)))
              l (numbered (map (fun kf => renumber_field (snd kf)) l))).
  { intros l. assert (G : Forall2 (fun a b => fr_avg b = fr_avg (snd a) /\ fr_center b = fr_center (snd a) /\
                        fr_ab b = fr_ab (snd a) /\ map snd (fr_pots b) = map snd (fr_pots (snd a))) l
                  (map snd (numbered (map (fun kf => renumber_field (snd kf)) l)))).
    { rewrite SN. induction l as [|x l IH]; cbn; constructor; auto. repeat split; cbn. apply SN. }
    remember (numbered (map (fun kf : Z * fieldrec T => renumber_field (snd kf)) l)) as m eqn:E. clear E.
    revert l G. induction m as [|y m IH]; intros l G; inversion G; subst; constructor; auto. }
  split; apply F.
Qed.
(** Potentials numbered 0, 1, ..., n-1, as the Driver produces them (C30), come back equal,
    also through a file when every number is finite. *)
Theorem C43_json_round_trip :
  forall (T : Type) (NT : Num T) (p : incell T), numbered_incell p ->
    incellFromJSON (incellToJSON p) = Ok p /\
    (all_incell finite p -> incellFromJSON (jparse (jdump (incellToJSON p))) = Ok p) /\
    (all_incell not_nan p -> incell_eqb p p = true).
Proof.
  intros T NT p N. pose proof (incell_round_trip p) as E. rewrite (renumber_self p N) in E. split; [auto|]. split.
  - intros F. now rewrite (incell_text p F).
  - intros X. assert (M : maps_ok p).
    { assert (Y : forall l : list (Z * fieldrec T), numbered_fields l -> forall k f, In (k, f) l -> map_keys (fr_pots f)).
      { intros l [_ G] k f I. specialize (G k f I). unfold numbered_map in G. unfold map_keys, msorted.
        rewrite G. clear. generalize 0%nat at 1 as s. generalize (List.length (fr_pots f)) as n.
        induction n as [|n IH]; intros s; cbn; constructor; auto.
        apply Forall_forall. intros z I. apply in_map_iff in I as (x & Ex & I). apply in_seq in I. subst. apply Z.ltb_lt. lia. }
      intros k f [I|I]; [exact (Y _ (proj1 N) _ _ I)|exact (Y _ (proj2 N) _ _ I)]. }
    apply incell_eqb_iff; auto. now apply incell_refl.
Qed.
Definition sample_field : fieldrec Q :=
  {| fr_avg := (1#2)%Q; fr_center := (0, 1)%Q; fr_ab := [(2, 0); (1#3, 5)]%Q; fr_pots := [(0%Z, 1%Q); (1%Z, (1#5)%Q)] |}.
Definition sample_incell : incell Q :=
  {| ic_box := {| b_min := (0, 0)%Q; b_max := (1, 1)%Q |};
     ic_electric := [(0%Z, sample_field); (1%Z, sample_field)]; ic_magnetic := [(0%Z, sample_field)] |}.
Example C43_example : numbered_incell sample_incell /\
  incellFromJSON (jparse (jdump (incellToJSON sample_incell))) = Ok sample_incell /\ incell_eqb sample_incell sample_incell = true.
Proof.
  split; [|vm_compute; auto].
  repeat split; cbn; intros k f I; repeat destruct I as [I|I]; try contradiction; injection I as <- <-; reflexivity.
Qed.
(** Other numberings do not survive. *)
Example C43_other_numbers :
  let p := {| ic_box := ic_box sample_incell; ic_electric := [(1%Z, sample_field)]; ic_magnetic := [] |} in
  exists q, incellFromJSON (incellToJSON p) = Ok q /\ incell_eqb p q = false.
Proof. eexists. split; [vm_compute; reflexivity|]. vm_compute. reflexivity. Qed.

(** ** C44 *)
(** For any numbers: operator== holds iff both hold the same structure with == numbers. *)
Theorem C44_equality_of_parameters :
  forall (T : Type) (NT : Num T) (p q : pul T), pul_eqb p q = true <-> same_pul num_eq p q.
Proof. intros. apply pul_eqb_iff. Qed.
Theorem C44_equality_of_fields :
  forall (T : Type) (NT : Num T) (f g : fieldrec T), map_keys (fr_pots f) -> map_keys (fr_pots g) ->
    (fieldrec_eqb f g = true <-> same_fieldrec num_eq f g).
Proof. intros. now apply fieldrec_eqb_iff. Qed.
Theorem C44_equality_of_potentials :
  forall (T : Type) (NT : Num T) (p q : incell T), maps_ok p -> maps_ok q ->
    (incell_eqb p q = true <-> same_incell num_eq p q).
Proof. intros. now apply incell_eqb_iff. Qed.
(** With exact numbers that is equality of the values. *)
Theorem C44_real_equality :
  (forall f g : fieldrec R, map_keys (fr_pots f) -> map_keys (fr_pots g) -> (fieldrec_eqb f g = true <-> f = g)) /\
  (forall p q : incell R, maps_ok p -> maps_ok q -> (incell_eqb p q = true <-> p = q)) /\
  (forall p q : pul R, pul_eqb p q = true <-> same_pul eq p q).
Proof.
  split; [|split].
  - intros f g F G. rewrite (fieldrec_eqb_iff f g F G). apply R_fieldrec.
  - intros p q P Q. rewrite (incell_eqb_iff p q P Q). apply R_incell.
  - intros p q. rewrite pul_eqb_iff. unfold same_pul, same_numbers.
    assert (X : forall A B : matrix R, (forall i j, (i < nr A)%nat -> (j < nc A)%nat -> num_eq (ent A i j) (ent B i j)) <->
                                       (forall i j, (i < nr A)%nat -> (j < nc A)%nat -> ent A i j = ent B i j)).
    { intros A B. split; intros E i j Li Lj; apply R_num_eq; auto. }
    rewrite !X. reflexivity.
Qed.
(** With IEEE doubles it is an equivalence on values without NaN. *)
Theorem C44_double_reflexive :
  (forall p : pul float, all_entries not_nan (pul_C p) -> all_entries not_nan (pul_L p) -> pul_eqb p p = true) /\
  (forall f : fieldrec float, map_keys (fr_pots f) -> all_fieldrec not_nan f -> fieldrec_eqb f f = true) /\
  (forall p : incell float, maps_ok p -> all_incell not_nan p -> incell_eqb p p = true).
Proof.
  split; [|split].
  - intros p C L. apply pul_eqb_iff. now apply pul_refl.
  - intros f M N. apply fieldrec_eqb_iff; auto. now apply fieldrec_refl.
  - intros p M N. apply incell_eqb_iff; auto. now apply incell_refl.
Qed.
Theorem C44_double_symmetric :
  (forall p q : pul float, pul_eqb p q = true -> pul_eqb q p = true) /\
  (forall f g : fieldrec float, map_keys (fr_pots f) -> map_keys (fr_pots g) -> fieldrec_eqb f g = true -> fieldrec_eqb g f = true) /\
  (forall p q : incell float, maps_ok p -> maps_ok q -> incell_eqb p q = true -> incell_eqb q p = true).
Proof.
  split; [|split].
  - intros p q. rewrite !pul_eqb_iff. apply pul_sym. exact F_sym.
  - intros f g F G. rewrite !fieldrec_eqb_iff by auto. apply fieldrec_sym. exact F_sym.
  - intros p q F G. rewrite !incell_eqb_iff by auto. apply incell_sym. exact F_sym.
Qed.
Theorem C44_double_transitive :
  (forall p q r : pul float, pul_eqb p q = true -> pul_eqb q r = true -> pul_eqb p r = true) /\
  (forall f g h : fieldrec float, map_keys (fr_pots f) -> map_keys (fr_pots g) -> map_keys (fr_pots h) ->
     fieldrec_eqb f g = true -> fieldrec_eqb g h = true -> fieldrec_eqb f h = true) /\
  (forall p q r : incell float, maps_ok p -> maps_ok q -> maps_ok r ->
     incell_eqb p q = true -> incell_eqb q r = true -> incell_eqb p r = true).
Proof.
  split; [|split].
  - intros p q r. rewrite !pul_eqb_iff. apply pul_trans. exact F_trans.
  - intros f g h F G I. rewrite !fieldrec_eqb_iff by auto. apply fieldrec_trans. exact F_trans.
  - intros p q r F G I. rewrite !incell_eqb_iff by auto. apply incell_trans. exact F_trans.
Qed.
(** -0.0 and 0.0 are equal, a NaN is not equal to itself, and so are the results holding them. *)
Example C44_doubles :
  let p x := {| pul_C := mat_of [[x]]; pul_L := mat_of [[1%float]] |} in
  pul_eqb (p 0%float) (p (-0)%float) = true /\ pul_eqb (p nan) (p nan) = false /\
  pul_eqb (p 1%float) (p 2%float) = false /\ not_nan (-0)%float /\ ~ not_nan nan.
Proof. repeat split; try (vm_compute; reflexivity). vm_compute. discriminate. Qed.
Example C44_fields : map_keys (fr_pots sample_field) /\ fieldrec_eqb sample_field sample_field = true /\
  fieldrec_eqb sample_field {| fr_avg := fr_avg sample_field; fr_center := fr_center sample_field; fr_ab := fr_ab sample_field;
                               fr_pots := [(0%Z, 1%Q); (2%Z, (1#5)%Q)] |} = false.
Proof. split; [repeat constructor|]. vm_compute. auto. Qed.

(** ** C45 *)
Theorem C45_partial :
  forall (T : Type) (NT : Num T) (v : list (list T)),
    (v = [] \/ exists r0 rest, v = r0 :: rest /\ r0 <> []) ->
    (rectangular v -> exists A, toMFEMDenseMatrix v = Ok A /\ matrix_of_rows v A) /\
    (~ rectangular v -> toMFEMDenseMatrix v = Throw (RuntimeError "vec-vec matrix is not square.")).
Proof.
  intros T NT v [->|(r0 & rest & -> & N)].
  - split.
    + intros _. exists (zero_matrix 0 0). split; [reflexivity|]. split; [reflexivity|]. split; [intros r []|].
      intros [|i] j x (r & E & _); discriminate.
    + intros X. exfalso. apply X. exists 0%nat. intros r [].
  - unfold toMFEMDenseMatrix. destruct r0 as [|x0 r0']; [contradiction|]. set (r0 := x0 :: r0') in *.
    assert (L0 : (List.length r0 =? 0)%nat = false) by reflexivity. rewrite L0.
    destruct (forallb (fun r => (List.length r =? List.length r0)%nat) (r0 :: rest)) eqn:F.
    + split.
      * intros _. eexists. split; [reflexivity|]. split; [reflexivity|]. cbn [nc ent nr]. split.
        -- intros r I. rewrite forallb_forall in F. now apply Nat.eqb_eq, F.
        -- intros i j x (r & E1 & E2). rewrite (nth_error_nth _ _ _ E1). now apply nth_error_nth.
      * intros X. exfalso. apply X. exists (List.length r0). intros r I. rewrite forallb_forall in F. now apply Nat.eqb_eq, F.
    + split; [|reflexivity]. intros (n & X). exfalso. assert (C : forallb (fun r => (List.length r =? List.length r0)%nat) (r0 :: rest) = true).
      { apply forallb_forall. intros r I. apply Nat.eqb_eq. rewrite (X r I). symmetry. apply X. now left. }
      congruence.
Qed.
(** The parameters read from a JSON value: C and L must be there; they are read if they are arrays of
    arrays of numbers, all of the same length; anything else throws. *)
Lemma read_numbers (es : list (json R)) :
  (exists xs, Forall2 number es xs) \/ exists e, mapM (jget_double (T:=R)) es = Throw e.
Proof.
  induction es as [|j es IH]; [left; exists []; constructor|]. cbn [mapM].
  destruct (number_inv j) as [(x & N)|(e & E)]; [|right; exists e; now rewrite E].
  rewrite (jget_number _ _ N). cbn [bind].
  destruct IH as [(xs & F)|(e & E)]; [left; exists (x :: xs); now constructor|right; exists e; now rewrite E].
Qed.
Lemma numbers_read (es : list (json R)) xs : Forall2 number es xs -> mapM (jget_double (T:=R)) es = Ok xs.
Proof. intros F. apply mapM_ok. induction F; constructor; auto. now apply jget_number. Qed.
Lemma rows_read (j : json R) v : written_rows j v -> jget_vecvec (T:=R) j = Ok v.
Proof.
  intros (js & -> & F). cbn [jget_vecvec]. apply mapM_ok. induction F as [|r xs js v (es & -> & N) F IH]; constructor; auto.
  now apply numbers_read.
Qed.
Lemma read_rows (j : json R) : (exists v, written_rows j v) \/ exists e, jget_vecvec (T:=R) j = Throw e.
Proof.
  destruct j as [| | | | |js|]; try (right; eexists; reflexivity). cbn [jget_vecvec].
  assert (H : (exists v, Forall2 (fun r xs => exists es, r = JArr es /\ Forall2 number es xs) js v) \/ exists e, mapM (jget_vec (T:=R)) js = Throw e).
  { induction js as [|r js IH]; [left; exists []; constructor|]. cbn [mapM].
    destruct r as [| | | | |es|]; try (right; eexists; reflexivity). cbn [jget_vec].
    destruct (read_numbers es) as [(xs & F)|(e & E)]; [|right; exists e; now rewrite E].
    rewrite (numbers_read _ _ F). cbn [bind].
    destruct IH as [(v & G)|(e & E)]; [left; exists (xs :: v); constructor; eauto|right; exists e; now rewrite E]. }
  destruct H as [(v & F)|H]; [left; exists v, js; auto|now right].
Qed.
Lemma dense_cases (v : list (list R)) : (exists A, toMFEMDenseMatrix v = Ok A) \/ exists e, toMFEMDenseMatrix v = Throw e.
Proof.
  unfold toMFEMDenseMatrix. destruct v as [|r0 rest]; [left; eexists; reflexivity|].
  destruct (List.length r0 =? 0)%nat; [left; eexists; reflexivity|]. destruct (forallb _ _); [left|right]; eexists; reflexivity.
Qed.
Lemma rectangular_dec (v : list (list R)) : rectangular v \/ ~ rectangular v.
Proof.
  destruct v as [|r0 rest]; [left; exists 0%nat; intros r []|].
  destruct (forallb (fun r => (List.length r =? List.length r0)%nat) rest) eqn:F.
  - left. exists (List.length r0). rewrite forallb_forall in F. intros r [<-|I]; [reflexivity|]. now apply Nat.eqb_eq, F.
  - right. intros (n & X). assert (C : forallb (fun r => (List.length r =? List.length r0)%nat) rest = true); [|congruence].
    apply forallb_forall. intros r I. apply Nat.eqb_eq. rewrite (X r (or_intror I)). symmetry. apply X. now left.
Qed.
Theorem C45_parameters_read_from_json_partial :
  forall (j jc jl : json R), field j "C" jc -> field j "L" jl ->
    (forall vc vl, written_rows jc vc -> written_rows jl vl -> first_row_not_empty vc -> first_row_not_empty vl ->
       (rectangular vc -> rectangular vl ->
          exists p, pulFromJSON j = Ok p /\ matrix_of_rows vc (pul_C p) /\ matrix_of_rows vl (pul_L p)) /\
       (~ (rectangular vc /\ rectangular vl) -> pulFromJSON j = Throw (RuntimeError "vec-vec matrix is not square."))) /\
    ((forall v, ~ written_rows jc v) \/ (forall v, ~ written_rows jl v) -> exists e, pulFromJSON j = Throw e).
Proof.
  intros j jc jl (m & -> & Ec) (m' & Em & El). injection Em as <-.
  assert (U : pulFromJSON (JObj m) = (let* vc := jget_vecvec jc in let* c := toMFEMDenseMatrix vc in let* vl := jget_vecvec jl in
                                       let* l := toMFEMDenseMatrix vl in Ok {| pul_L := l; pul_C := c |})).
  { unfold pulFromJSON, jcontains, jfind, jat. rewrite Ec, El. reflexivity. }
  rewrite U. split.
  - intros vc vl Wc Wl Fc Fl. rewrite (rows_read _ _ Wc), (rows_read _ _ Wl). cbn [bind].
    destruct (C45_partial R _ vc Fc) as [Yc Nc]. destruct (C45_partial R _ vl Fl) as [Yl Nl]. split.
    + intros Rc Rl. destruct (Yc Rc) as (A & -> & MA). destruct (Yl Rl) as (B & -> & MB). cbn [bind]. eexists. split; [reflexivity|auto].
    + intros N. destruct (rectangular_dec vc) as [Rc|Rc].
      * destruct (Yc Rc) as (A & -> & MA). cbn [bind]. rewrite Nl by tauto. reflexivity.
      * rewrite (Nc Rc). reflexivity.
  - intros H. destruct (read_rows jc) as [(vc & Wc)|(e & E)]; [|exists e; now rewrite E].
    rewrite (rows_read _ _ Wc). cbn [bind]. destruct (dense_cases vc) as [(A & ->)|(e & ->)]; [cbn [bind]|exists e; reflexivity].
    destruct (read_rows jl) as [(vl & Wl)|(e & E)]; [|exists e; now rewrite E].
    destruct H as [H|H]; [destruct (H _ Wc)|destruct (H _ Wl)].
Qed.
Theorem C45_missing_matrices_throw :
  forall (j : json R), (forall x, ~ field j "C" x) \/ (forall x, ~ field j "L" x) ->
    pulFromJSON j = Throw (RuntimeError "JSON does not contain C and/or L.").
Proof.
  intros j H. assert (K : forall k, (forall x, ~ field j k x) -> jcontains k j = false).
  { intros k N. unfold jcontains, jfind. destruct j as [| | | | | |m]; try reflexivity.
    destruct (mget k m) as [x|] eqn:E; [|reflexivity]. destruct (N x). exists m. auto. }
  unfold pulFromJSON. destruct H as [H|H]; rewrite (K _ H); [reflexivity|]. now rewrite Bool.orb_true_r.
Qed.
Example C45_example_json :
  let j := JObj [("C", JArr [JArr [JInt 1; JFloat 2%R]; JArr [JInt 3; JInt 4]]); ("L", JArr [JArr [JFloat 1%R]])]%string in
  exists p, pulFromJSON j = Ok p /\ matrix_of_rows [[1; 2]; [3; 4]]%R (pul_C p) /\ matrix_of_rows [[1]]%R (pul_L p).
Proof.
  intros j. refine (proj1 (proj1 (C45_parameters_read_from_json_partial j _ _ _ _) _ _ _ _ _ _) _ _);
    try (eexists; split; [reflexivity|reflexivity]).
  - eexists. split; [reflexivity|]. repeat (constructor; [eexists; split; [reflexivity|]|]); repeat constructor.
  - eexists. split; [reflexivity|]. repeat (constructor; [eexists; split; [reflexivity|]|]); repeat constructor.
  - right. eexists _, _. split; [reflexivity|discriminate].
  - right. eexists _, _. split; [reflexivity|discriminate].
  - exists 2%nat. intros r [<-|[<-|[]]]; reflexivity.
  - exists 1%nat. intros r [<-|[]]; reflexivity.
Qed.
Example C45_example : toMFEMDenseMatrix [[1; 2]; [3]]%Q = Throw (RuntimeError "vec-vec matrix is not square.") /\
  exists A, toMFEMDenseMatrix [[1; 2]; [3; 4]]%Q = Ok A /\ matrix_of_rows [[1; 2]; [3; 4]]%Q A.
Proof.
  split; [reflexivity|]. eapply C45_partial.
  - right. eexists _, _. split; [reflexivity|discriminate].
  - exists 2%nat. intros r [<-|[<-|[]]]; reflexivity.
Qed.
(** When the first row is empty the rows may have different lengths, and are all dropped. *)
Theorem C45_refuted :
  exists v : list (list R), ~ rectangular v /\ exists A, toMFEMDenseMatrix v = Ok A /\ nr A = 0%nat /\ nc A = 0%nat.
Proof.
  exists [[]; [1%R]]. split.
  - intros (n & X). pose proof (X [] (or_introl eq_refl)) as A. pose proof (X [1%R] (or_intror (or_introl eq_refl))) as B.
    cbn in A, B. congruence.
  - exists (zero_matrix 0 0). repeat split.
Qed.

Print Assumptions C42_json_round_trip.
Print Assumptions C42_file_round_trip.
Print Assumptions C42_real_numbers.
Print Assumptions C43_reading_renumbers.
Print Assumptions C43_json_round_trip.
Print Assumptions C44_equality_of_parameters.
Print Assumptions C44_equality_of_fields.
Print Assumptions C44_equality_of_potentials.
Print Assumptions C44_real_equality.
Print Assumptions C44_double_reflexive.
Print Assumptions C44_double_symmetric.
Print Assumptions C44_double_transitive.
Print Assumptions C45_partial.
Print Assumptions C45_parameters_read_from_json_partial.
Print Assumptions C45_missing_matrices_throw.
Print Assumptions C45_refuted.
