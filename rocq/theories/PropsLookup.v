(** Property C86: looking up materials. *)
From Verif Require Import Prelude StdMap ListLemmas Materials Lookup SpecInput SpecLookup.

Open Scope list_scope.
Lemma listed_vector {T} k (m : materials T) : vector_of k m = listed k m.
Proof. reflexivity. Qed.

(** ** Maps *)
Lemma split_last {A} (P : A -> Prop) (dec : forall x, {P x} + {~ P x}) (l : list A) :
  (exists x, last_such P l x) \/ forall y, In y l -> ~ P y.
Proof.
  induction l as [|a l IH]; [right; intros y []|]. destruct IH as [(x & l1 & l2 & -> & H & N)|N].
  - left. exists x, (a :: l1), l2. auto.
  - destruct (dec a) as [Pa|Na]; [left; exists a, [], l; auto|]. right. intros y [<-|I]; auto.
Qed.
(** buildNameToAttrMapFor<T> gives for each name the tag of the last material of that kind with the name. *)
Theorem C86_map_of_names :
  forall (T : Type) (k : kind) (m : materials T) (n : string) (t : Z),
    (mget n (buildNameToAttrMapFor k m) = Some t <-> last_such (named n) (listed k m) (n, t)) /\
    (mget n (buildNameToAttrMapFor k m) = None <-> ~ In n (map fst (listed k m))) /\ msorted (buildNameToAttrMapFor k m).
Proof.
  intros T k m n t. unfold buildNameToAttrMapFor. change (vector_of k m) with (listed k m). set (l := listed k m).
  assert (G : forall x, last_such (named n) l x -> mget n (mset_all l []) = Some (snd x)).
  { intros [n' t'] (l1 & l2 & -> & E & N). unfold named in E. cbn in E. subst n'. apply mset_all_last. intros I. apply in_map_iff in I as (y & E & I). exact (N y I E). }
  assert (No : (forall y, In y l -> ~ named n y) -> mget n (mset_all l []) = None).
  { intros N. rewrite mset_all_notin; [reflexivity|]. intros I. apply in_map_iff in I as (y & E & I). exact (N y I E). }
  destruct (split_last (named n) (fun x => string_dec (fst x) n) l) as [(x & Lx)|N].
  - rewrite (G x Lx). split; [|split].
    + split.
      * intros [= <-]. destruct x as [n' t']. pose proof Lx as (l1 & l2 & _ & E & _). unfold named in E. cbn in E. subst n'. exact Lx.
      * intros Lt. rewrite <- (G x Lx). exact (G _ Lt).
    + split; [discriminate|]. intros Nn. destruct Lx as (l1 & l2 & El & E & _). exfalso. apply Nn. rewrite <- E. apply in_map. rewrite El. apply in_or_app. right. now left.
    + apply mset_all_sorted. constructor.
  - rewrite (No N). split; [|split].
    + split; [discriminate|]. intros (l1 & l2 & El & E & _). exfalso. apply (N (n, t)); [|reflexivity]. rewrite El. apply in_or_app. right. now left.
    + split; [|reflexivity]. intros _ I. apply in_map_iff in I as (y & E & I). exact (N y I E).
    + apply mset_all_sorted. constructor.
Qed.
Print Assumptions C86_map_of_names.
Lemma id_cases n : (exists i, getMaterialIdFromName n = Ok i) \/ getMaterialIdFromName n = Undef UninitialisedRead.
Proof. unfold getMaterialIdFromName. destruct (stream_int _); eauto. Qed.
Lemma ids_fold l m : (forall x, In x l -> has_number x) ->
  exists l', Forall2 (fun x y => numbered_as (fst y) x /\ snd y = snd x) l l' /\
    foldM (fun res x => let* id := getMaterialIdFromName (fst x) in Ok (mset id (snd x) res)) l m = Ok (mset_all l' m).
Proof.
  revert m; induction l as [|x l IH]; intros m H; [exists []; split; [constructor|reflexivity]|].
  destruct (H x (or_introl eq_refl)) as (i & Ei). destruct (IH (mset i (snd x) m) (fun y I => H y (or_intror I))) as (l' & F & E).
  exists ((i, snd x) :: l'). split; [now constructor|]. cbn [foldM]. unfold numbered_as in Ei. rewrite Ei. cbn [bind]. exact E.
Qed.
Lemma ids_undef l m : (exists x, In x l /\ ~ has_number x) ->
  foldM (fun res x => let* id := getMaterialIdFromName (fst x) in Ok (mset id (snd x) res)) l m = Undef UninitialisedRead.
Proof.
  revert m; induction l as [|x l IH]; intros m (y & I & N); [destruct I|]. cbn [foldM].
  destruct (id_cases (fst x)) as [(i & Ei)|Eu]; [|rewrite Eu; reflexivity]. rewrite Ei. cbn [bind].
  apply IH. destruct I as [<-|I]; [exfalso; apply N; now exists i|eauto].
Qed.
(** buildIdToAttrMapFor<T> gives for each number the tag of the last material of that kind with the number; one
    name without a number makes its result undefined. *)
Theorem C86_map_of_numbers :
  forall (T : Type) (k : kind) (m : materials T),
    ((forall x, In x (listed k m) -> has_number x) -> exists r, buildIdToAttrMapFor k m = Ok r /\ msorted r /\
       (forall i t, mget i r = Some t <-> exists n, last_such (numbered_as i) (listed k m) (n, t)) /\
       forall i, mget i r = None <-> forall x, In x (listed k m) -> ~ numbered_as i x) /\
    ((exists x, In x (listed k m) /\ ~ has_number x) -> buildIdToAttrMapFor k m = Undef UninitialisedRead).
Proof.
  intros T k m. unfold buildIdToAttrMapFor. change (vector_of k m) with (listed k m). set (l := listed k m). split; [|intros H; now apply ids_undef].
  intros H. destruct (ids_fold l [] H) as (l' & F & E). exists (mset_all l' []). split; [exact E|]. split; [apply mset_all_sorted; constructor|].
  assert (G : forall i x, last_such (numbered_as i) l x -> mget i (mset_all l' []) = Some (snd x)).
  { intros i x (l1 & l2 & El & Ex & N). rewrite El in F. clear -F Ex N. apply Forall2_app_inv_l in F as (a & b & Fa & Fb & ->). inversion Fb as [|? [j t] ? b' (Nj & Et) Fb' ]; subst.
    cbn [fst snd] in Nj, Et. unfold numbered_as in *. assert (j = i) by congruence. subst j t. apply mset_all_last. intros I. apply in_map_iff in I as ([j t] & Ej & I). cbn in Ej. subst j.
    clear -Fb' N I. induction Fb' as [|y z l2 b' (Hy & Hs) Fb IH]; [destruct I|]. destruct I as [-> | I]; [exact (N y (or_introl eq_refl) Hy)|]. apply IH; [intros w Iw; exact (N w (or_intror Iw))|exact I]. }
  assert (No : forall i, (forall x, In x l -> ~ numbered_as i x) -> mget i (mset_all l' []) = None).
  { intros i N. rewrite mset_all_notin; [reflexivity|]. intros I. apply in_map_iff in I as ([j t] & Ej & I). cbn in Ej. subst j. clear -F N I.
    induction F as [|y z l l' (Hy & Hs) Fb IH]; [destruct I|]. destruct I as [-> | I]; [exact (N y (or_introl eq_refl) Hy)|]. apply IH; [intros w Iw; exact (N w (or_intror Iw))|exact I]. }
  assert (D : forall i x, {numbered_as i x} + {~ numbered_as i x}).
  { intros i x. unfold numbered_as. destruct (getMaterialIdFromName (fst x)) as [j|e|u]; [|right; discriminate|right; discriminate]. destruct (Z.eq_dec j i) as [-> |Nj]; [now left|right]. intros [= C]. now apply Nj. }
  split.
  - intros i t. destruct (split_last (numbered_as i) (D i) l) as [(x & Lx)|N].
    + rewrite (G i x Lx). split; [intros [= <-]; exists (fst x); destruct x; exact Lx|]. intros (n & Ln). rewrite <- (G i x Lx). exact (G i _ Ln).
    + rewrite (No i N). split; [discriminate|]. intros (n & l1 & l2 & El & Ex & _). exfalso. apply (N (n, t)); [rewrite El; apply in_or_app; right; now left|exact Ex].
  - intros i. destruct (split_last (numbered_as i) (D i) l) as [(x & Lx)|N].
    + rewrite (G i x Lx). split; [discriminate|]. intros N. destruct Lx as (l1 & l2 & El & Ex & _). exfalso. apply (N x); [rewrite El; apply in_or_app; right; now left|exact Ex].
    + rewrite (No i N). split; [intros _; exact N|reflexivity].
Qed.
Print Assumptions C86_map_of_numbers.

(** ** Single materials *)
Lemma position_total (P : string * Z -> Prop) test l :
  (forall x, In x l -> exists b, test (fst x) = Ok b /\ (b = true <-> P x)) ->
  (forall i, position test l = Ok i <-> first_at P l i) /\
  ((forall x, In x l -> ~ P x) -> position test l = Throw (RuntimeError "Invalid material type")).
Proof.
  induction l as [|x l IH]; intros H.
  - split; [|reflexivity]. intros i. split; [discriminate|]. intros (l1 & x & l2 & E & _). destruct l1; discriminate.
  - destruct (H x (or_introl eq_refl)) as (b & Eb & Hb). destruct (IH (fun y I => H y (or_intror I))) as (I1 & I2). cbn [position]. rewrite Eb. cbn [bind]. destruct b.
    + split.
      * intros i. split; [intros [= <-]; exists [], x, l; split; [reflexivity|]; split; [reflexivity|]; split; [now apply Hb|intros y []]|].
        intros ([|y l1] & z & l2 & E & Li & Pz & N); cbn in E, Li; [now subst i|]. injection E as <- _. exfalso. apply (N x); [now left|now apply Hb].
      * intros N. exfalso. apply (N x); [now left|now apply Hb].
    + assert (Nx : ~ P x) by (intros Px; apply Hb in Px; discriminate). split.
      * intros i. split.
        -- destruct (position test l) as [j|e|u] eqn:Ej; cbn [bind]; try discriminate. intros [= <-]. destruct (proj1 (I1 j) eq_refl) as (l1 & z & l2 & -> & Lj & Pz & N).
           exists (x :: l1), z, l2. split; [reflexivity|]. split; [cbn; lia|]. split; [exact Pz|]. intros y [<-|Iy]; [exact Nx|exact (N y Iy)].
        -- intros ([|y l1] & z & l2 & E & Li & Pz & N); cbn in E, Li; [injection E as <- _; contradiction|]. injection E as <- El.
           assert (Ep : position test l = Ok (List.length l1)) by (apply I1; exists l1, z, l2; split; [exact El|]; split; [reflexivity|]; split; [exact Pz|]; intros w Iw; exact (N w (or_intror Iw))).
           rewrite Ep. cbn [bind]. now rewrite <- Li.
      * intros N. rewrite I2; [reflexivity|]. intros y Iy. exact (N y (or_intror Iy)).
Qed.
(** get<T>(name) is the first material of that kind with the name; without one it throws. *)
Theorem C86_get_by_name :
  forall (T : Type) (k : kind) (m : materials T) (n : string),
    (forall i, get_by_name k m n = Ok i <-> first_at (named n) (listed k m) i) /\
    (~ In n (map fst (listed k m)) -> get_by_name k m n = Throw (RuntimeError "Invalid material type")).
Proof.
  intros T k m n. unfold get_by_name. change (vector_of k m) with (listed k m).
  destruct (position_total (named n) (fun x => Ok (String.eqb x n)) (listed k m)) as (A & B).
  - intros x _. eexists. split; [reflexivity|]. apply String.eqb_eq.
  - split; [exact A|]. intros N. apply B. intros x I E. apply N. rewrite <- E. now apply in_map.
Qed.
Print Assumptions C86_get_by_name.
(** get<T>(id), when every material of that kind has a number *)
Theorem C86_get_by_number :
  forall (T : Type) (k : kind) (m : materials T) (j : Z),
    (forall x, In x (listed k m) -> has_number x) ->
    (forall i, get_by_id k m j = Ok i <-> first_at (numbered_as j) (listed k m) i) /\
    ((forall x, In x (listed k m) -> ~ numbered_as j x) -> get_by_id k m j = Throw (RuntimeError "Invalid material type")).
Proof.
  intros T k m j H. unfold get_by_id. change (vector_of k m) with (listed k m). apply position_total.
  intros x I. destruct (H x I) as (i & Ei). unfold numbered_as in *. rewrite Ei. cbn [bind]. eexists. split; [reflexivity|]. rewrite Z.eqb_eq. split; [now intros -> |now intros [= ->]].
Qed.
Print Assumptions C86_get_by_number.
(** With distinct names, or distinct numbers, both ways agree. *)
Lemma position_at {A} (l1 : list A) x l2 : nth_error (l1 ++ x :: l2) (List.length l1) = Some x.
Proof. rewrite nth_error_app2, Nat.sub_diag by lia. reflexivity. Qed.
Theorem C86_lookups_agree :
  forall (T : Type) (k : kind) (m : materials T),
    (NoDup (map fst (listed k m)) -> forall n i t, get_by_name k m n = Ok i -> (mget n (buildNameToAttrMapFor k m) = Some t <-> nth_error (listed k m) i = Some (n, t))) /\
    ((forall x, In x (listed k m) -> has_number x) ->
     (forall a b j x y, nth_error (listed k m) a = Some x -> nth_error (listed k m) b = Some y -> numbered_as j x -> numbered_as j y -> a = b) ->
     forall j i t r, get_by_id k m j = Ok i -> buildIdToAttrMapFor k m = Ok r -> (mget j r = Some t <-> exists n, nth_error (listed k m) i = Some (n, t))).
Proof.
  intros T k m. split.
  - intros ND n i t E. apply (proj1 (C86_get_by_name T k m n)) in E. destruct E as (l1 & x & l2 & El & Li & Ex & N). rewrite (proj1 (C86_map_of_names T k m n t)).
    destruct x as [n' t']. unfold named in Ex. cbn in Ex. subst n'.
    assert (La : last_such (named n) (listed k m) (n, t')).
    { exists l1, l2. split; [exact El|]. split; [reflexivity|]. intros y Iy Ey. rewrite El, map_app in ND. cbn in ND. apply NoDup_remove_2 in ND. apply ND. apply in_or_app. right. rewrite <- Ey. now apply in_map. }
    rewrite <- (proj1 (C86_map_of_names T k m n t)), (proj2 (proj1 (C86_map_of_names T k m n t')) La). rewrite El, <- Li, position_at. split; intros [= ->]; reflexivity.
  - intros H U j i t r E Er. apply (proj1 (C86_get_by_number T k m j H)) in E. destruct E as (l1 & x & l2 & El & Li & Ex & N).
    destruct (proj1 (C86_map_of_numbers T k m) H) as (r' & Er' & _ & Gr & _). assert (r' = r) by congruence. subst r'.
    assert (La : last_such (numbered_as j) (listed k m) x).
    { exists l1, l2. split; [exact El|]. split; [exact Ex|]. intros y Iy Ey. apply in_split in Iy as (l3 & l4 & ->).
      assert (Q : List.length l1 = List.length (l1 ++ x :: l3)).
      { apply (U _ _ j x y); [rewrite El; apply position_at| |exact Ex|exact Ey]. rewrite El. change (x :: l3 ++ y :: l4) with ((x :: l3) ++ y :: l4). rewrite app_assoc. apply position_at. }
      rewrite app_length in Q. cbn in Q. lia. }
    destruct x as [n' t']. assert (G' : mget j r = Some t') by (apply Gr; eauto). rewrite G'. rewrite El, <- Li, position_at. split; [intros [= ->]; eauto|intros (n & [= -> ->]); reflexivity].
Qed.
Print Assumptions C86_lookups_agree.

(** ** All kinds *)
Lemma fold_mins_get (l m : list (string * Z)) n : msorted m -> msorted l ->
  mget n (fold_left (fun r kv => mins (fst kv) (snd kv) r) l m) = match mget n m with Some t => Some t | None => mget n l end.
Proof.
  revert m; induction l as [|[k v] l IH]; intros m S Sl; cbn [fold_left fst snd]; [cbn; destruct (mget n m); reflexivity|].
  apply msorted_cons in Sl as (Sl & F). rewrite IH; [|now apply mins_sorted|exact Sl]. rewrite mget_mins by exact S. cbn [mget].
  destruct (oequiv n k) eqn:Q; [|destruct (mget n m); reflexivity]. destruct (mget n m); reflexivity.
Qed.
(** buildNameToAttrMap: conductors come before open boundaries, these before media. *)
Theorem C86_map_of_all_names :
  forall (T : Type) (m : materials T) (n : string),
    msorted (buildNameToAttrMap m) /\
    mget n (buildNameToAttrMap m) =
      match mget n (buildNameToAttrMapFor Conductors m) with
      | Some t => Some t
      | None => match mget n (buildNameToAttrMapFor OpenLines m) with Some t => Some t | None => mget n (buildNameToAttrMapFor Media m) end
      end.
Proof.
  intros T m n. pose proof (fun k => proj2 (proj2 (C86_map_of_names T k m n 0))) as S. unfold buildNameToAttrMap.
  change (nameToAttr_PEC m) with (buildNameToAttrMapFor Conductors m). change (nameToAttr_Open m) with (buildNameToAttrMapFor OpenLines m). change (nameToAttr_Diel m) with (buildNameToAttrMapFor Media m).
  split; [apply fold_mins_sorted, fold_mins_sorted, S|]. rewrite fold_mins_get; [|apply fold_mins_sorted, S|apply S]. rewrite fold_mins_get by apply S.
  destruct (mget n (buildNameToAttrMapFor Conductors m)); reflexivity.
Qed.
Print Assumptions C86_map_of_all_names.
(** removeMaterialsNotInList keeps, in order, the materials whose names are keys of the list, whatever their kind. *)
Theorem C86_materials_removed :
  forall (T : Type) (m : materials T) (allowed : list (string * Z)) (keep : string -> bool),
    (forall n, keep n = true <-> In n (map fst allowed)) ->
    pecs (removeMaterialsNotInList m allowed) = filter (fun p => keep (p_name p)) (pecs m) /\
    openBoundaries (removeMaterialsNotInList m allowed) = filter (fun p => keep (o_name p)) (openBoundaries m) /\
    dielectrics (removeMaterialsNotInList m allowed) = filter (fun p => keep (d_name p)) (dielectrics m).
Proof.
  intros T m allowed keep H. assert (E : forall n, mcount n allowed = keep n).
  { intros n. apply Bool.eq_iff_eq_true. rewrite H. apply mcount_in. }
  unfold removeMaterialsNotInList. cbn. split; [|split]; apply filter_ext; intros p; apply E.
Qed.
Print Assumptions C86_materials_removed.
Theorem C86_nothing_removed_by_its_own_map :
  forall (T : Type) (m : materials T), removeMaterialsNotInList m (buildNameToAttrMap m) = m.
Proof.
  intros T m. assert (K : forall k n, In n (map fst (listed k m)) -> mcount n (buildNameToAttrMap m) = true).
  { intros k n I. unfold mcount. rewrite (proj2 (C86_map_of_all_names T m n)).
    assert (S : exists t, mget n (buildNameToAttrMapFor k m) = Some t).
    { destruct (mget n (buildNameToAttrMapFor k m)) eqn:E; [eauto|]. apply (proj1 (proj2 (C86_map_of_names T k m n 0))) in E. contradiction. }
    destruct S as (t & Et). destruct k; rewrite ?Et; try reflexivity; destruct (mget n (buildNameToAttrMapFor Conductors m)); try reflexivity. destruct (mget n (buildNameToAttrMapFor OpenLines m)); reflexivity. }
  assert (Al : forall (A : Type) (f : A -> bool) l, (forall x, In x l -> f x = true) -> filter f l = l).
  { intros A f l. induction l as [|x l IH]; intros H; [reflexivity|]. cbn. rewrite (H x (or_introl eq_refl)). f_equal. apply IH. intros y I. exact (H y (or_intror I)). }
  unfold removeMaterialsNotInList. rewrite !Al; [destruct m; reflexivity| | |].
  - intros p I. apply (K Media). cbn. rewrite map_map. now apply (in_map d_name).
  - intros p I. apply (K OpenLines). cbn. rewrite map_map. now apply (in_map o_name).
  - intros p I. apply (K Conductors). cbn. rewrite map_map. now apply (in_map p_name).
Qed.
Print Assumptions C86_nothing_removed_by_its_own_map.
(** isDomainMaterial: media only. *)
Theorem C86_domain_materials :
  forall (T : Type) (m : materials T) (n : string), isDomainMaterial m n = true <-> exists d, In d (dielectrics m) /\ d_name d = n.
Proof.
  intros T m n. unfold isDomainMaterial. change (nameToAttr_Diel m) with (buildNameToAttrMapFor Media m). unfold mcount.
  pose proof (proj1 (proj2 (C86_map_of_names T Media m n 0))) as H. cbn [listed] in H. rewrite map_map in H. cbn [fst] in H.
  destruct (mget n (buildNameToAttrMapFor Media m)).
  - split; [|reflexivity]. intros _. destruct (in_dec string_dec n (map d_name (dielectrics m))) as [I|N]; [|apply H in N; discriminate]. apply in_map_iff in I as (d & E & I). eauto.
  - split; [discriminate|]. intros (d & I & E). exfalso. apply (proj1 H eq_refl). rewrite <- E. now apply (in_map d_name).
Qed.
Print Assumptions C86_domain_materials.

(** The Driver uses the instances for conductors. *)
Theorem C86_instances_of_the_driver :
  forall (T : Type) (m : materials T), nameToAttr_PEC m = buildNameToAttrMapFor Conductors m /\ idToAttr_PEC m = buildIdToAttrMapFor Conductors m /\
    (forall n, get_PEC_by_name m n = let* i := get_by_name Conductors m n in match nth_error (pecs m) i with Some p => Ok p | None => Throw OutOfRange end) /\
    forall j, get_PEC_by_id m j = let* i := get_by_id Conductors m j in match nth_error (pecs m) i with Some p => Ok p | None => Throw OutOfRange end.
Proof.
  intros T m. split; [reflexivity|]. split.
  - unfold idToAttr_PEC, buildIdToAttrMapFor. cbn [vector_of]. generalize (@nil (Z * Z)). induction (pecs m) as [|p l IH]; intros r; [reflexivity|]. cbn [map foldM fst snd]. destruct (getMaterialIdFromName (p_name p)); cbn [bind]; auto.
  - split.
    { intros n. unfold get_PEC_by_name, get_by_name. cbn [vector_of]. induction (pecs m) as [|p l IH]; [reflexivity|]. cbn [map position find fst bind]. destruct (String.eqb (p_name p) n); [reflexivity|].
      rewrite IH. destruct (position _ _) as [a|e|u]; reflexivity. }
    intros j. unfold get_PEC_by_id, get_by_id. cbn [vector_of]. induction (pecs m) as [|p l IH]; [reflexivity|]. cbn [map position find_pec_id fst]. destruct (getMaterialIdFromName (p_name p)) as [i|e|u]; cbn [bind]; [|reflexivity|reflexivity].
    destruct (i =? j)%Z; [reflexivity|]. rewrite IH. destruct (position _ _) as [a|e|u]; reflexivity.
Qed.
Print Assumptions C86_instances_of_the_driver.

(** Two conductors with one number: the map has the tag of the last one, get gives the first one. *)
Definition twins : materials nat :=
  {| pecs := [{| p_name := "Conductor_0"; p_attr := 1; p_area := 0%nat |}; {| p_name := "Conductor_1"; p_attr := 2; p_area := 0%nat |}; {| p_name := "Wire_1"; p_attr := 3; p_area := 0%nat |}];
     openBoundaries := [{| o_name := "Open"; o_attr := 4 |}]; dielectrics := [{| d_name := "Vacuum_0"; d_attr := 5; d_epsr := 1%nat |}] |}.
Example C86_example : buildIdToAttrMapFor Conductors twins = Ok [(0, 1); (1, 3)]%Z /\ get_by_id Conductors twins 1 = Ok 1%nat /\ get_by_name Conductors twins "Wire_1" = Ok 2%nat /\
  get_by_id Conductors twins 7 = Throw (RuntimeError "Invalid material type") /\ buildNameToAttrMapFor Conductors twins = [("Conductor_0", 1); ("Conductor_1", 2); ("Wire_1", 3)]%Z /\
  NoDup (map fst (listed Conductors twins)) /\ (forall x, In x (listed Conductors twins) -> has_number x) /\ isDomainMaterial twins "Open" = false.
Proof.
  repeat (split; [vm_compute; reflexivity|]). split; [cbn; repeat constructor; cbn; intuition discriminate|]. split; [|reflexivity].
  intros x [<-|[<-|[<-|[]]]]; eexists; reflexivity.
Qed.
