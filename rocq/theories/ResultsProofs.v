(** Proofs about results and their JSON form (C42-C45). *)
From Verif Require Import Prelude StdMap Json ModelM Matrix Results ListLemmas SpecResults.

Lemma nth_error_seq n k i : (i < n)%nat -> nth_error (seq k n) i = Some (k + i)%nat.
Proof.
  revert k i. induction n as [|n IH]; intros k [|i] L; cbn; try lia; [f_equal; lia|]. rewrite IH by lia. f_equal. lia.
Qed.

Section Json.
  Context {T : Type} `{Num T}.
  Implicit Types (A B : matrix T).

  (** ** Matrices *)
  Lemma rows_list_length A : List.length (rows_list A) = nr A.
  Proof. unfold rows_list. now rewrite map_length, seq_length. Qed.
  Lemma row_list_length A i : List.length (row_list A i) = nc A.
  Proof. unfold row_list. now rewrite map_length, seq_length. Qed.
  Lemma rows_list_nth A i : (i < nr A)%nat -> nth_error (rows_list A) i = Some (row_list A i).
  Proof. intros L. unfold rows_list. rewrite nth_error_map, nth_error_seq by auto. reflexivity. Qed.
  Lemma row_list_nth A i j : (j < nc A)%nat -> nth_error (row_list A i) j = Some (ent A i j).
  Proof. intros L. unfold row_list. rewrite nth_error_map, nth_error_seq by auto. reflexivity. Qed.
  Lemma in_rows A r : In r (rows_list A) -> List.length r = nc A.
  Proof. unfold rows_list. rewrite in_map_iff. intros (i & <- & _). apply row_list_length. Qed.

  Lemma toDense_ok (v : list (list T)) r0 rest : v = r0 :: rest -> r0 <> [] ->
    (forall r, In r v -> List.length r = List.length r0) ->
    exists A, toMFEMDenseMatrix v = Ok A /\ nr A = List.length v /\ nc A = List.length r0 /\
      forall i j r x, nth_error v i = Some r -> nth_error r j = Some x -> ent A i j = x.
  Proof.
    intros -> N R. unfold toMFEMDenseMatrix.
    destruct (Nat.eqb_spec (List.length r0) 0) as [E|E]; [destruct r0; [contradiction|discriminate]|].
    assert (F : forallb (fun r => (List.length r =? List.length r0)%nat) (r0 :: rest) = true).
    { apply forallb_forall. intros r I. apply Nat.eqb_eq, R, I. }
    rewrite F. eexists. split; [reflexivity|]. cbn [nr nc ent]. split; auto. split; auto.
    intros i j r x Ei Ej. rewrite (nth_error_nth _ _ _ Ei). now apply nth_error_nth.
  Qed.
  Lemma toDense_rows A : has_columns A -> exists B, toMFEMDenseMatrix (rows_list A) = Ok B /\ same_numbers eq A B.
  Proof.
    intros C. destruct (Nat.eq_dec (nr A) 0) as [Er|Er].
    - exists (zero_matrix 0 0). unfold rows_list. rewrite Er. split; [reflexivity|]. split; [now rewrite Er|].
      split; intros; lia.
    - destruct C as [C|C]; [|contradiction]. destruct (rows_list A) as [|r0 rest] eqn:E.
      { pose proof (rows_list_length A) as L. rewrite E in L. cbn in L. lia. }
      assert (L0 : forall r, In r (rows_list A) -> List.length r = nc A) by apply in_rows. rewrite E in L0.
      destruct (toDense_ok (r0 :: rest) r0 rest eq_refl) as (B & EB & Rn & Cn & En).
      { intros ->. specialize (L0 [] (or_introl eq_refl)). cbn in L0. lia. }
      { intros r I. rewrite (L0 r I), (L0 r0 (or_introl eq_refl)). reflexivity. }
      exists B. split; auto. rewrite (L0 r0 (or_introl eq_refl)) in Cn. rewrite <- E, rows_list_length in Rn.
      split; auto. split; auto. intros i j Li Lj. symmetry. eapply En.
      + rewrite <- E. now apply rows_list_nth.
      + now apply row_list_nth.
  Qed.

  (** ** JSON *)
  Lemma jget_vec_ok (l : list T) : jget_vec (jvec l) = Ok l.
  Proof. unfold jvec, jget_vec. induction l as [|x l IH]; [reflexivity|]. cbn. rewrite IH. reflexivity. Qed.
  Lemma jget_vecvec_ok (l : list (list T)) : jget_vecvec (jvecvec l) = Ok l.
  Proof.
    unfold jvecvec, jget_vecvec. induction l as [|x l IH]; [reflexivity|]. cbn [map mapM].
    rewrite jget_vec_ok. cbn [bind]. rewrite IH. reflexivity.
  Qed.
  Lemma pul_json (p : pul T) :
    pulToJSON p = JObj [("C", jvecvec (toVecVec (pul_C p))); ("L", jvecvec (toVecVec (pul_L p)))]%string.
  Proof. reflexivity. Qed.
  Lemma pul_round_trip (p : pul T) : has_columns (pul_C p) -> has_columns (pul_L p) ->
    exists q, pulFromJSON (pulToJSON p) = Ok q /\ same_pul eq p q.
  Proof.
    intros HC HL. destruct (toDense_rows _ HC) as (C & EC & SC). destruct (toDense_rows _ HL) as (L & EL & SL).
    exists {| pul_L := L; pul_C := C |}. rewrite pul_json. unfold pulFromJSON, jcontains, jfind. cbn [mget oequiv].
    cbn -[jvecvec toVecVec toMFEMDenseMatrix jget_vecvec]. rewrite jget_vecvec_ok. cbn [bind]. unfold toVecVec at 1. rewrite EC. cbn [bind].
    rewrite jget_vecvec_ok. cbn [bind]. unfold toVecVec. rewrite EL. split; [reflexivity|]. split; auto.
  Qed.
  (** text *)
  Lemma vec_text (l : list T) : (forall x, In x l -> finite x) -> jparse (jdump (jvec l)) = jvec l.
  Proof.
    intros F. unfold jvec. cbn [jdump jparse]. f_equal. rewrite !map_map.
    apply map_ext_in. intros x I. cbn [jdump]. unfold finite in F. now rewrite (F x I).
  Qed.
  Lemma vecvec_text (l : list (list T)) : (forall r x, In r l -> In x r -> finite x) -> jparse (jdump (jvecvec l)) = jvecvec l.
  Proof.
    intros F. unfold jvecvec. cbn [jdump jparse]. f_equal. rewrite !map_map.
    apply map_ext_in. intros r I. apply vec_text. eauto.
  Qed.
  Lemma rows_entries (P : T -> Prop) A : all_entries P A -> forall r x, In r (rows_list A) -> In x r -> P x.
  Proof.
    intros Q r x Ir Ix. unfold rows_list in Ir. apply in_map_iff in Ir as (i & <- & Ii). apply in_seq in Ii.
    unfold row_list in Ix. apply in_map_iff in Ix as (j & <- & Ij). apply in_seq in Ij. apply Q; lia.
  Qed.
  Lemma pul_text (p : pul T) : all_entries finite (pul_C p) -> all_entries finite (pul_L p) ->
    jparse (jdump (pulToJSON p)) = pulToJSON p.
  Proof.
    intros FC FL. rewrite pul_json. cbn [jdump jparse]. rewrite !vecvec_text by (apply rows_entries; auto). reflexivity.
  Qed.
  Lemma vec_bad (l : list T) x : In x l -> nfinite x = false -> jget_vec (jparse (jdump (jvec l))) = Throw JsonTypeError.
  Proof.
    intros I B. unfold jvec. cbn [jdump jparse jget_vec]. rewrite !map_map.
    induction l as [|y l IH]; [destruct I|]. cbn [map mapM].
    assert (Ey : jparse (jdump (JFloat y)) = if nfinite y then JFloat y else JNull) by (cbn; now destruct (nfinite y)).
    rewrite Ey. destruct (nfinite y) eqn:Fy; [|reflexivity].
    cbn [jget_double bind]. destruct I as [->|I]; [congruence|]. now rewrite IH.
  Qed.
  Lemma vec_fine (l : list T) : jget_vec (jparse (jdump (jvec l))) = Ok l \/ jget_vec (jparse (jdump (jvec l))) = Throw JsonTypeError.
  Proof.
    destruct (existsb (fun x => negb (nfinite x)) l) eqn:E.
    - apply existsb_exists in E as (x & I & B). apply negb_true_iff in B. right. eapply vec_bad; eauto.
    - left. rewrite vec_text; [apply jget_vec_ok|]. intros x I. unfold finite. destruct (nfinite x) eqn:Fx; auto.
      exfalso. rewrite <- not_true_iff_false in E. apply E, existsb_exists. exists x. now rewrite Fx.
  Qed.
  Lemma vecvec_bad (l : list (list T)) r x : In r l -> In x r -> nfinite x = false ->
    jget_vecvec (jparse (jdump (jvecvec l))) = Throw JsonTypeError.
  Proof.
    intros Ir I B. unfold jvecvec. cbn [jdump jparse jget_vecvec]. rewrite !map_map.
    induction l as [|y l IH]; [destruct Ir|]. cbn [map mapM].
    destruct Ir as [->|Ir]; [now rewrite (vec_bad r x)|].
    destruct (vec_fine y) as [-> | ->]; [|reflexivity]. cbn [bind]. now rewrite IH.
  Qed.
  Lemma vecvec_fine (l : list (list T)) :
    jget_vecvec (jparse (jdump (jvecvec l))) = Ok l \/ jget_vecvec (jparse (jdump (jvecvec l))) = Throw JsonTypeError.
  Proof.
    unfold jvecvec. cbn [jdump jparse jget_vecvec]. rewrite !map_map.
    induction l as [|y l IH]; [now left|]. cbn [map mapM]. destruct (vec_fine y) as [-> | ->]; [|now right].
    cbn [bind]. destruct IH as [-> | ->]; auto.
  Qed.
  Lemma toDense_rows_ok A : is_ok (toMFEMDenseMatrix (rows_list A)).
  Proof.
    destruct (Nat.eq_dec (nr A) 0) as [E|E]; [unfold rows_list; rewrite E; eexists; reflexivity|].
    destruct (Nat.eq_dec (nc A) 0) as [Ec|Ec].
    - unfold rows_list. destruct (nr A) as [|n]; [contradiction|]. cbn. unfold row_list at 1. rewrite Ec. eexists; reflexivity.
    - destruct (toDense_rows A) as (B & -> & _); [left; lia|]. eexists; reflexivity.
  Qed.
  Lemma pul_text_bad (p : pul T) : ~ (all_entries finite (pul_C p) /\ all_entries finite (pul_L p)) ->
    pulFromJSON (jparse (jdump (pulToJSON p))) = Throw JsonTypeError.
  Proof.
    intros N. rewrite pul_json.
    assert (W : jparse (jdump (JObj [("C", jvecvec (toVecVec (pul_C p))); ("L", jvecvec (toVecVec (pul_L p)))]%string)) =
       JObj [("C", jparse (jdump (jvecvec (toVecVec (pul_C p))))); ("L", jparse (jdump (jvecvec (toVecVec (pul_L p)))))]%string) by reflexivity.
    rewrite W. unfold pulFromJSON, jcontains, jfind.
    cbn -[jvecvec toVecVec toMFEMDenseMatrix jget_vecvec jparse jdump].
    assert (Bad : forall A, ~ all_entries finite A -> jget_vecvec (jparse (jdump (jvecvec (toVecVec A)))) = Throw JsonTypeError).
    { intros A NA. destruct (vecvec_fine (toVecVec A)) as [E|E]; auto. exfalso. apply NA. intros i j Li Lj.
      unfold finite. destruct (nfinite (ent A i j)) eqn:F; auto.
      rewrite (vecvec_bad _ (row_list A i) (ent A i j)) in E; try discriminate; auto.
      - unfold toVecVec. eapply nth_error_In, rows_list_nth; auto.
      - eapply nth_error_In, row_list_nth; auto. }
    destruct (vecvec_fine (toVecVec (pul_C p))) as [EC|EC]; [|now rewrite EC].
    rewrite EC. cbn [bind]. destruct (toDense_rows_ok (pul_C p)) as (C & E). unfold toVecVec at 1. rewrite E. cbn [bind].
    rewrite Bad; [reflexivity|]. intros FL. apply N. split; auto. intros i j Li Lj. unfold finite.
    destruct (nfinite (ent (pul_C p) i j)) eqn:F; auto.
    rewrite (vecvec_bad _ (row_list (pul_C p) i) (ent (pul_C p) i j)) in EC; try discriminate; auto.
    - unfold toVecVec. eapply nth_error_In, rows_list_nth; auto.
    - eapply nth_error_In, row_list_nth; auto.
  Qed.
End Json.

Section InCell.
  Context {T : Type} `{Num T}.
  Definition renumber_field (f : fieldrec T) : fieldrec T :=
    {| fr_avg := fr_avg f; fr_center := fr_center f; fr_ab := fr_ab f; fr_pots := numbered (map snd (fr_pots f)) |}.
  Definition renumber (p : incell T) : incell T :=
    {| ic_box := ic_box p;
       ic_electric := numbered (map (fun kf => renumber_field (snd kf)) (ic_electric p));
       ic_magnetic := numbered (map (fun kf => renumber_field (snd kf)) (ic_magnetic p)) |}.

  Lemma jvalues_arr (l : list (json T)) : jvalues (JArr l) = l.
  Proof.
    unfold jvalues, jitems. rewrite map_map. cbn [snd]. apply enum_snd.
  Qed.
  Lemma field_json (f : fieldrec T) : fieldToJSON f =
    JObj [("ab", JArr (map jpair (fr_ab f))); ("conductorPotentials", JArr (map (fun kv => JFloat (snd kv)) (fr_pots f)));
          ("expansionCenter", jpair (fr_center f)); ("innerRegionAveragePotential", JFloat (fr_avg f))]%string.
  Proof. reflexivity. Qed.
  Lemma incell_json (p : incell T) : incellToJSON p =
    JObj [("electric", JArr (map (fun kf => fieldToJSON (snd kf)) (ic_electric p)));
          ("innerRegionBox", JObj [("max", jpair (b_max (ic_box p))); ("min", jpair (b_min (ic_box p)))]);
          ("magnetic", JArr (map (fun kf => fieldToJSON (snd kf)) (ic_magnetic p)))]%string.
  Proof. reflexivity. Qed.
  Lemma ab_from (l : list (T * T)) : multipolarCoefficientsFromJSON (JArr (map jpair l)) = Ok l.
  Proof.
    unfold multipolarCoefficientsFromJSON. rewrite jvalues_arr. induction l as [|[a b] l IH]; [reflexivity|].
    cbn [map mapM]. rewrite IH. reflexivity.
  Qed.
  Lemma pots_from (l : list (Z * T)) : mapM jget_double (map (fun kv => JFloat (snd kv)) l) = Ok (map snd l).
  Proof. induction l as [|[a b] l IH]; [reflexivity|]. cbn [map mapM]. rewrite IH. reflexivity. Qed.
  Lemma field_round_trip (f : fieldrec T) : fieldFromJSON (fieldToJSON f) = Ok (renumber_field f).
  Proof.
    rewrite field_json. unfold fieldFromJSON. cbn -[multipolarCoefficientsFromJSON jvalues mapM].
    rewrite ab_from. cbn [bind]. rewrite jvalues_arr, pots_from. cbn [bind]. destruct f as [a [x y] ab ps]. reflexivity.
  Qed.
  Lemma fields_round_trip (l : list (Z * fieldrec T)) :
    potentialsFromJSON (JArr (map (fun kf => fieldToJSON (snd kf)) l)) = Ok (numbered (map (fun kf => renumber_field (snd kf)) l)).
  Proof.
    unfold potentialsFromJSON. rewrite jvalues_arr.
    assert (E : mapM fieldFromJSON (map (fun kf : Z * fieldrec T => fieldToJSON (snd kf)) l) = Ok (map (fun kf => renumber_field (snd kf)) l)).
    { induction l as [|[k f] l IH]; [reflexivity|]. cbn [map mapM snd]. rewrite field_round_trip. cbn [bind]. rewrite IH. reflexivity. }
    rewrite E. reflexivity.
  Qed.
  Lemma incell_round_trip (p : incell T) : incellFromJSON (incellToJSON p) = Ok (renumber p).
  Proof.
    rewrite incell_json. unfold incellFromJSON. cbn -[potentialsFromJSON map].
    rewrite fields_round_trip. cbn [bind]. rewrite fields_round_trip. cbn [bind].
    destruct p as [[[x y] [z w]] e m]. reflexivity.
  Qed.
  Lemma numbered_self {V} (m : list (Z * V)) : numbered_map m -> numbered (map snd m) = m.
  Proof.
    unfold numbered_map, numbered, enum. rewrite <- (map_length snd m).
    assert (G : forall k (l : list (Z * V)), map fst l = map Z.of_nat (seq k (List.length (map snd l))) ->
      map (fun p => (Z.of_nat (fst p), snd p)) (enum_from k (map snd l)) = l).
    { intros k l; revert k; induction l as [|[a b] l IH]; intros k E; [reflexivity|]. cbn in E. injection E as E1 E2.
      cbn. rewrite <- E1. f_equal. apply IH. exact E2. }
    apply G.
  Qed.
  Lemma renumber_fields_self (l : list (Z * fieldrec T)) : numbered_fields l ->
    numbered (map (fun kf => renumber_field (snd kf)) l) = l.
  Proof.
    intros [N F].
    assert (E : map (fun kf => renumber_field (snd kf)) l = map snd l).
    { apply map_ext_in. intros [k f] I. cbn. unfold renumber_field. rewrite (numbered_self _ (F k f I)). now destruct f. }
    rewrite E. now apply numbered_self.
  Qed.
  Lemma renumber_self (p : incell T) : numbered_incell p -> renumber p = p.
  Proof.
    intros [E M]. unfold renumber. rewrite !renumber_fields_self by auto. now destruct p.
  Qed.

  Lemma pair_text (x : T * T) : finite (fst x) -> finite (snd x) -> jparse (jdump (jpair x)) = jpair x.
  Proof. unfold finite. intros A B. cbn. now rewrite A, B. Qed.
  Lemma float_text (x : T) : finite x -> jparse (jdump (JFloat x)) = JFloat x.
  Proof. unfold finite. intros A. cbn. now rewrite A. Qed.
  Lemma arr_text (l : list (json T)) : (forall j, In j l -> jparse (jdump j) = j) -> jparse (jdump (JArr l)) = JArr l.
  Proof.
    intros A. cbn [jdump jparse]. f_equal. rewrite map_map. rewrite <- (map_id l) at 2. apply map_ext_in. exact A.
  Qed.
  Lemma field_text (f : fieldrec T) : all_fieldrec finite f -> jparse (jdump (fieldToJSON f)) = fieldToJSON f.
  Proof.
    intros (A & C1 & C2 & AB & P). rewrite field_json.
    change (jparse (jdump (JObj [("ab", JArr (map jpair (fr_ab f))); ("conductorPotentials", JArr (map (fun kv => JFloat (snd kv)) (fr_pots f)));
          ("expansionCenter", jpair (fr_center f)); ("innerRegionAveragePotential", JFloat (fr_avg f))]%string)))
      with (JObj (T := T) [("ab", jparse (jdump (JArr (map jpair (fr_ab f))))); ("conductorPotentials", jparse (jdump (JArr (map (fun kv => JFloat (snd kv)) (fr_pots f)))));
          ("expansionCenter", jparse (jdump (jpair (fr_center f)))); ("innerRegionAveragePotential", jparse (jdump (JFloat (fr_avg f))))]%string).
    rewrite float_text, pair_text by auto. rewrite !arr_text; auto.
    - intros j I. apply in_map_iff in I as ([k v] & <- & I). apply float_text. cbn. eauto.
    - intros j I. apply in_map_iff in I as ([a b] & <- & I). apply pair_text; apply (AB a b I).
  Qed.
  Lemma incell_text (p : incell T) : all_incell finite p -> jparse (jdump (incellToJSON p)) = incellToJSON p.
  Proof.
    intros ((B1 & B2 & B3 & B4) & F). rewrite incell_json.
    change (jparse (jdump (JObj [("electric", JArr (map (fun kf => fieldToJSON (snd kf)) (ic_electric p)));
          ("innerRegionBox", JObj [("max", jpair (b_max (ic_box p))); ("min", jpair (b_min (ic_box p)))]);
          ("magnetic", JArr (map (fun kf => fieldToJSON (snd kf)) (ic_magnetic p)))]%string)))
     with (JObj (T := T) [("electric", jparse (jdump (JArr (map (fun kf => fieldToJSON (snd kf)) (ic_electric p)))));
          ("innerRegionBox", JObj [("max", jparse (jdump (jpair (b_max (ic_box p))))); ("min", jparse (jdump (jpair (b_min (ic_box p)))))]);
          ("magnetic", jparse (jdump (JArr (map (fun kf => fieldToJSON (snd kf)) (ic_magnetic p)))))]%string).
    rewrite !pair_text by auto. rewrite !arr_text; auto.
    - intros j I. apply in_map_iff in I as ([k f] & <- & I). apply field_text. eauto.
    - intros j I. apply in_map_iff in I as ([k f] & <- & I). apply field_text. eauto.
  Qed.

  (** ** Equality *)
  Lemma list_eqb_iff {A} (eqb : A -> A -> bool) (E : A -> A -> Prop) l1 l2 :
    (forall a b, In a l1 -> In b l2 -> (eqb a b = true <-> E a b)) -> (list_eqb eqb l1 l2 = true <-> Forall2 E l1 l2).
  Proof.
    revert l2. induction l1 as [|a l1 IH]; intros [|b l2] Hab; cbn.
    - split; auto.
    - split; [discriminate|intros X; inversion X].
    - split; [discriminate|intros X; inversion X].
    - rewrite andb_true_iff, Hab by now left. rewrite IH by (intros; apply Hab; now right). split.
      + intros [A1 A2]. now constructor.
      + intros X; inversion X; auto.
  Qed.
  Definition num_eq (x y : T) : Prop := neqb x y = true.
  Lemma rows_same (A B : matrix T) : vecvec_eqb (toVecVec A) (toVecVec B) = true <-> same_numbers num_eq A B.
  Proof.
    unfold vecvec_eqb, toVecVec. rewrite (list_eqb_iff _ (Forall2 num_eq)).
    2:{ intros a b _ _. apply list_eqb_iff. reflexivity. }
    split.
    - intros F. pose proof (Forall2_length _ _ _ F) as L. rewrite !rows_list_length in L.
      assert (R : forall i, (i < nr A)%nat -> Forall2 num_eq (row_list A i) (row_list B i)).
      { intros i Li. destruct (Forall2_nth _ _ _ _ _ F (rows_list_nth A i Li)) as (r & Er & X).
        rewrite rows_list_nth in Er by lia. injection Er as <-. exact X. }
      split; auto. split.
      + intros P. specialize (R 0%nat P). apply Forall2_length in R. now rewrite !row_list_length in R.
      + intros i j Li Lj. pose proof (R i Li) as X. pose proof (Forall2_length _ _ _ X) as LX. rewrite !row_list_length in LX.
        destruct (Forall2_nth _ _ _ _ _ X (row_list_nth A i j Lj)) as (y & Ey & Exy).
        rewrite row_list_nth in Ey by lia. injection Ey as <-. exact Exy.
    - intros (L & C & X). unfold rows_list. rewrite <- L.
      assert (Ge : forall i, In i (seq 0 (nr A)) -> Forall2 num_eq (row_list A i) (row_list B i)).
      { intros i I. apply in_seq in I. unfold row_list. rewrite <- C by lia.
        assert (Ge : forall j, In j (seq 0 (nc A)) -> num_eq (ent A i j) (ent B i j)) by (intros j J; apply in_seq in J; apply X; lia).
        induction (seq 0 (nc A)); cbn; constructor; auto using in_eq, in_cons. }
      induction (seq 0 (nr A)); cbn; constructor; auto using in_eq, in_cons.
  Qed.
  Lemma pul_eqb_iff (p q : pul T) : pul_eqb p q = true <-> same_pul num_eq p q.
  Proof. unfold pul_eqb, same_pul. now rewrite andb_true_iff, !rows_same. Qed.

  Lemma pots_eqb_iff (a b : list (Z * T)) : msorted a -> msorted b ->
    ((List.length a =? List.length b)%nat = true /\ pots_eqb a b = true <->
     Forall2 (fun x y => fst x = fst y /\ num_eq (snd x) (snd y)) a b).
  Proof.
    intros Sa Sb. unfold pots_eqb. rewrite forallb_forall, Nat.eqb_eq. split.
    - intros [L F].
      assert (K : map fst a = map fst b).
      { apply (ssorted_ext (map fst a) (map fst b)).
        - exact Sa.
        - exact Sb.
        - assert (I : incl (map fst a) (map fst b)).
          { intros k I. apply in_map_iff in I as ([k' v] & <- & I). specialize (F _ I). cbn in F.
            destruct (mget k' b) as [w|] eqn:E; [|discriminate]. apply mget_Some_in in E.
            apply in_map_iff. exists (k', w). auto. }
          intros k. split; [apply I|]. apply NoDup_length_incl; auto.
          + now apply msorted_nodup.
          + rewrite !map_length. lia. }
      assert (G : forall k v w, In (k, v) a -> In (k, w) b -> num_eq v w).
      { intros k v w Ia Ib. specialize (F _ Ia). cbn in F. apply (proj2 (mget_in_iff k w b Sb)) in Ib. rewrite Ib in F. exact F. }
      clear F Sa Sb. revert b K L G. induction a as [|[k v] a IH]; intros [|[k' w] b] K L G; cbn in *; try discriminate; constructor.
      + injection K as <- K. split; auto. cbn. apply (G k); auto.
      + injection K as <- K. apply IH; auto. intros k0 v0 w0 I0 I1. apply (G k0); auto.
    - intros F. split; [now apply Forall2_length in F|]. intros [k v] I. apply In_nth_error in I as (n & En).
      destruct (Forall2_nth _ _ _ _ _ F En) as ([k' w] & Ew & Ek & Ev). cbn in *. subst k'.
      apply nth_error_In in Ew. apply (proj2 (mget_in_iff k w b Sb)) in Ew. now rewrite Ew.
  Qed.
  Lemma fieldrec_eqb_iff (f g : fieldrec T) : map_keys (fr_pots f) -> map_keys (fr_pots g) ->
    (fieldrec_eqb f g = true <-> same_fieldrec num_eq f g).
  Proof.
    intros Sf Sg. unfold fieldrec_eqb, same_fieldrec, rel_pair. rewrite <- (pots_eqb_iff _ _ Sf Sg).
    assert (AB : list_eqb pair_eqb (fr_ab f) (fr_ab g) = true <-> Forall2 (rel_pair num_eq) (fr_ab f) (fr_ab g)).
    { apply list_eqb_iff. intros [a b] [c d] _ _. unfold pair_eqb, rel_pair. now rewrite andb_true_iff. }
    unfold rel_pair in AB. rewrite <- AB. destruct (List.length (fr_pots f) =? List.length (fr_pots g))%nat; cbn [negb].
    - rewrite !andb_true_iff. unfold num_eq. tauto.
    - split; [discriminate|]. intros (_ & _ & _ & X & _). discriminate.
  Qed.
  Lemma incell_eqb_iff (p q : incell T) : maps_ok p -> maps_ok q -> (incell_eqb p q = true <-> same_incell num_eq p q).
  Proof.
    intros Mp Mq. unfold incell_eqb, same_incell, box_eqb, fields_eqb, pair_eqb, rel_pair. rewrite !andb_true_iff.
    assert (F : forall l1 l2, (forall k f, In (k, f) l1 -> map_keys (fr_pots f)) -> (forall k f, In (k, f) l2 -> map_keys (fr_pots f)) ->
      (list_eqb (fun a b => (fst a =? fst b)%Z && fieldrec_eqb (snd a) (snd b)) l1 l2 = true <-> same_fields num_eq l1 l2)).
    { intros l1 l2 M1 M2. apply list_eqb_iff. intros [k f] [k' g] I J. cbn [fst snd].
      rewrite andb_true_iff, Z.eqb_eq, fieldrec_eqb_iff; [tauto|eapply M1; eauto|eapply M2; eauto]. }
    rewrite !F by eauto. unfold num_eq. tauto.
  Qed.
End InCell.
