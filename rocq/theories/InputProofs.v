(** Proofs about the reader of input files (C04-C07). *)
From Verif Require Import Prelude StdMap Json Materials ModelM Parser SpecInput.
From Coq Require Import Permutation Reals Lra.
Open Scope string_scope.

(** ** foldM helpers *)
Lemma foldM_app {A S} (f : S -> A -> outcome S) l1 l2 s :
  foldM f (l1 ++ l2) s = bind (foldM f l1 s) (foldM f l2).
Proof.
  revert s; induction l1 as [|x l1 IH]; intro s; cbn; [reflexivity|].
  destruct (f s x); cbn; [apply IH|reflexivity|reflexivity].
Qed.

(** ** readMaterials *)
Lemma jget_number j x : number j x -> jget_double (T:=R) j = Ok x.
Proof. destruct 1; reflexivity. Qed.

Lemma jat_field (v : json R) k x : field v k x -> jat k v = Ok x.
Proof. intros (m & -> & E). cbn. now rewrite E. Qed.

Lemma wrap32_id z : int_range z -> wrap32 z = z.
Proof. unfold wrap32, int_range. intros Hz. rewrite Z.mod_small by lia. lia. Qed.

Lemma jget_int_plain z : int_range z -> jget_int (T:=R) (JInt z) = Ok z.
Proof. intro Hz. cbn. now rewrite wrap32_id. Qed.

Lemma lit_1e6 : lit (T:=R) 1 6 = (1 / 1000000)%R.
Proof. reflexivity. Qed.

Definition add_entry (m : materials R) (e : entry) : materials R :=
  {| pecs := pecs m ++ spec_pecs [e];
     openBoundaries := openBoundaries m ++ spec_opens [e];
     dielectrics := dielectrics m ++ spec_media [e] |}%list.

Lemma materials_eq (a b : materials R) :
  pecs a = pecs b -> openBoundaries a = openBoundaries b -> dielectrics a = dielectrics b -> a = b.
Proof. destruct a, b; cbn; congruence. Qed.

Lemma readMaterial_describes res kv e :
  describes kv e -> readMaterial (T:=R) res kv = Ok (add_entry res e).
Proof.
  intro H; destruct H; unfold readMaterial; cbn [fst snd];
    repeat match goal with Hf : field ?v ?k ?x |- _ =>
      lazymatch k with
      | "area" => fail
      | _ => pose proof (jat_field _ _ _ Hf) as ?Hj; revert Hf end end; intros;
    repeat match goal with Hj : jat _ _ = Ok _ |- _ => rewrite Hj; clear Hj; cbn [bind] end;
    cbn [jget_string bind];
    match goal with |- context [mat_ ?l label_to_type] =>
      let r := eval vm_compute in (mat_ l label_to_type) in
      change (mat_ l label_to_type) with r end; cbn [bind];
    rewrite ?jget_int_plain by assumption; cbn [bind].
  - match goal with Hf : field v "area" ja |- _ => destruct Hf as (m & Em & Eg) end.
    unfold jvalue_double. rewrite Em, Eg. rewrite (jget_number ja a) by assumption. cbn [bind].
    f_equal. apply materials_eq; cbn; rewrite ?app_nil_r; try reflexivity.
    f_equal. f_equal. f_equal. lra.
  - match goal with Hf : no_field v "area" |- _ => destruct Hf as (m & Em & Eg) end.
    unfold jvalue_double. rewrite Em, Eg. cbn [bind].
    f_equal. apply materials_eq; cbn; rewrite ?app_nil_r; try reflexivity.
    f_equal. f_equal. f_equal. lra.
  - f_equal. apply materials_eq; cbn; rewrite ?app_nil_r; reflexivity.
  - f_equal. apply materials_eq; cbn; rewrite ?app_nil_r; reflexivity.
  - rewrite (jget_number je e) by assumption. cbn [bind].
    f_equal. apply materials_eq; cbn; rewrite ?app_nil_r; reflexivity.
Qed.

Lemma readMaterials_fold l es res :
  Forall2 describes l es ->
  foldM (readMaterial (T:=R)) l res =
  Ok {| pecs := pecs res ++ spec_pecs es;
        openBoundaries := openBoundaries res ++ spec_opens es;
        dielectrics := dielectrics res ++ spec_media es |}%list.
Proof.
  intro HF; revert res; induction HF as [|kv e l es Hd HF IH]; intro res.
  - cbn. rewrite !app_nil_r. destruct res; reflexivity.
  - cbn [foldM]. rewrite (readMaterial_describes _ _ _ Hd). cbn [bind]. rewrite IH.
    f_equal. unfold add_entry, spec_pecs, spec_opens, spec_media; cbn [pecs openBoundaries dielectrics flat_map].
    rewrite !app_nil_r, <- !app_assoc. reflexivity.
Qed.

Lemma readMaterials_valid j es :
  Forall2 describes (jitems j) es ->
  readMaterials (T:=R) j =
  Ok {| pecs := spec_pecs es; openBoundaries := spec_opens es; dielectrics := spec_media es |}.
Proof. intro HF. unfold readMaterials. rewrite (readMaterials_fold _ _ _ HF). reflexivity. Qed.

(** An entry with a plain tag that is not described is rejected with an exception. *)
Lemma field_fun (v : json R) k x y : field v k x -> field v k y -> x = y.
Proof. intros (m & -> & E) (m' & [= ->] & E'). congruence. Qed.

Lemma label_cases l t : mat_ l label_to_type = Ok t ->
  (l = "PEC" /\ t = MPEC) \/ (l = "OpenBoundary" /\ t = MOpenBoundary) \/
  (l = "Vacuum" /\ t = MVacuum) \/ (l = "Dielectric" /\ t = MDielectric).
Proof.
  unfold mat_. destruct (mget l label_to_type) as [t'|] eqn:E; [|discriminate].
  intros [= <-]. apply mget_Some_in in E. cbn in E. intuition congruence.
Qed.

Lemma jat_inv k (v : json R) : (exists x, field v k x /\ jat k v = Ok x) \/
  ((forall x, ~ field v k x) /\ exists e, jat k v = Throw e).
Proof.
  destruct v as [| | | | | |m]; try (right; split; [intros y (m & E & _); discriminate|eexists; reflexivity]).
  destruct (mget k m) as [x|] eqn:E.
  - left. exists x. split; [exists m; auto|]. cbn. now rewrite E.
  - right. split; [intros x (m' & [= <-] & E'); congruence|]. cbn. rewrite E. eexists; reflexivity.
Qed.

Lemma number_inv (j : json R) : (exists x, number j x) \/ (exists e, jget_double j = Throw e).
Proof. destruct j; cbn; eauto; left; eexists; constructor. Qed.

Lemma readMaterial_dec res name v :
  plain_tag v ->
  (exists e, describes (name, v) e) \/ (exists e, readMaterial (T:=R) res (name, v) = Throw e).
Proof.
  intro Hp. unfold readMaterial; cbn [fst snd].
  destruct (jat_inv "type" v) as [(jt & Ht & ->)|[Hn [e ->]]]; [cbn [bind]|right; eexists; reflexivity].
  destruct jt as [| | | |label| |]; try (right; eexists; reflexivity). cbn [jget_string bind].
  destruct (mat_ label label_to_type) as [t|e|u] eqn:El; cbn [bind];
    [|right; eexists; reflexivity|].
  2:{ unfold mat_ in El. destruct (mget label label_to_type); discriminate. }
  destruct (jat_inv "tag" v) as [(jg & Hg & ->)|[Hn [e ->]]]; [cbn [bind]|right; eexists; reflexivity].
  pose proof (Hp _ Hg) as Hz.
  destruct jg as [|b|z|x|s|l|m]; try (now destruct Hz); try (right; eexists; reflexivity).
  rewrite jget_int_plain by assumption. cbn [bind].
  apply label_cases in El as [[-> ->]|[[-> ->]|[[-> ->]|[-> ->]]]].
  - destruct Ht as (m & -> & Em). unfold jvalue_double.
    assert (Ht : field (JObj m) "type" (JStr (T:=R) "PEC")) by (exists m; auto).
    destruct (mget "area" m) as [ja|] eqn:Ea.
    + assert (Ha : field (JObj m) "area" ja) by (exists m; auto).
      destruct (number_inv ja) as [[x Hx]|[e Hx]].
      * left. eexists. eapply d_pec; eauto.
      * right. exists e. now rewrite Hx.
    + left. eexists. eapply d_pec0; eauto. exists m; auto.
  - left. eexists. eapply d_open; eauto.
  - left. eexists. eapply d_vacuum; eauto.
  - destruct (jat_inv "eps_r" v) as [(je & He & ->)|[Hn [e ->]]]; [cbn [bind]|right; eexists; reflexivity].
    destruct (number_inv je) as [[x Hx]|[e Hx]].
    + left. eexists. eapply d_diel; eauto.
    + right. exists e. now rewrite Hx.
Qed.

Lemma readMaterials_rejects j :
  Forall (fun kv => plain_tag (snd kv)) (jitems j) ->
  Exists (fun kv => forall e, ~ describes kv e) (jitems j) ->
  is_throw (readMaterials (T:=R) j).
Proof.
  unfold readMaterials. generalize (no_materials (T:=R)). generalize (jitems j). clear j.
  intros l; induction l as [|[name v] l IH]; intros m0 Hp He; [inversion He|].
  inversion Hp as [|? ? Hp1 Hp2]; subst. cbn [foldM].
  destruct (readMaterial_dec m0 name v Hp1) as [[e Hd]|[e Hd]].
  - rewrite (readMaterial_describes _ _ _ Hd). cbn [bind]. apply IH; [assumption|].
    inversion He as [? ? Hx|]; subst; [|assumption]. exfalso; eapply Hx; eauto.
  - rewrite Hd. cbn. eexists; reflexivity.
Qed.

(** Names of the materials read are the keys of the object, hence distinct. *)
Lemma readMaterial_names res kv res' :
  readMaterial (T:=R) res kv = Ok res' ->
  Permutation (all_names res') (fst kv :: all_names res).
Proof.
  unfold readMaterial, all_names. intro E.
  repeat (match type of E with
          | bind ?x _ = Ok _ => destruct x; cbn [bind] in E; try discriminate E
          end).
  match type of E with match ?t with _ => _ end = _ => destruct t end;
  repeat (match type of E with
          | bind ?x _ = Ok _ => destruct x; cbn [bind] in E; try discriminate E
          end);
  injection E as <-; cbn [pecs openBoundaries dielectrics]; rewrite !map_app; cbn [map p_name o_name d_name].
  - rewrite <- app_assoc. cbn [app]. symmetry; apply Permutation_middle.
  - rewrite !app_assoc. rewrite <- Permutation_cons_append. reflexivity.
  - rewrite <- app_assoc. cbn [app]. rewrite !app_assoc. symmetry.
    rewrite <- app_assoc. rewrite !app_assoc. apply Permutation_middle.
  - rewrite !app_assoc. rewrite <- Permutation_cons_append. reflexivity.
Qed.

Lemma readMaterials_names_fold l res res' :
  foldM (readMaterial (T:=R)) l res = Ok res' ->
  Permutation (all_names res') (map fst l ++ all_names res).
Proof.
  revert res; induction l as [|kv l IH]; intros res; cbn [foldM map app].
  - intros [= ->]. reflexivity.
  - destruct (readMaterial res kv) as [r|e|u] eqn:E; cbn [bind]; try discriminate.
    intro E2. apply readMaterial_names in E. rewrite (IH _ E2), E.
    rewrite <- Permutation_middle. reflexivity.
Qed.

Lemma jitems_obj_nodup (m : list (string * json R)) : msorted m -> NoDup (map fst (jitems (JObj m))).
Proof. intro Hs. cbn. now apply msorted_nodup. Qed.

Lemma readMaterials_nodup_names j m mats :
  j = JObj m -> msorted m -> readMaterials (T:=R) j = Ok mats -> NoDup (all_names mats).
Proof.
  intros -> Hs E. apply readMaterials_names_fold in E. cbn [all_names no_materials pecs openBoundaries dielectrics map app] in E.
  rewrite app_nil_r in E. eapply Permutation_NoDup; [symmetry; exact E|]. now apply msorted_nodup.
Qed.

(** ** Order of the members (C05) *)
Scheme same_text_mind := Minimality for same_text Sort Prop
  with same_items_mind := Minimality for same_items Sort Prop
  with same_members_mind := Minimality for same_members Sort Prop.
Combined Scheme same_text_mutind from same_text_mind, same_items_mind, same_members_mind.

Definition parse_members {T} :=
  fix go (m : list (string * jtext T)) : list (string * json T) :=
    match m with [] => [] | (k, v) :: r => (k, jparse v) :: go r end.

Lemma jparse_obj {T} (m : list (string * jtext T)) :
  jparse (TObj m) = JObj (mset_all (parse_members m) []).
Proof. reflexivity. Qed.
Lemma parse_members_map {T} (m : list (string * jtext T)) :
  parse_members m = map (fun kv => (fst kv, jparse (snd kv))) m.
Proof. induction m as [|[k v] m IH]; cbn; [reflexivity|now rewrite IH]. Qed.

Lemma same_text_parse {T} :
  (forall t1 t2 : jtext T, same_text t1 t2 -> jparse t1 = jparse t2) /\
  (forall l1 l2 : list (jtext T), same_items l1 l2 -> map jparse l1 = map jparse l2) /\
  (forall m1 m2 : list (string * jtext T), same_members m1 m2 -> parse_members m1 = parse_members m2).
Proof.
  apply same_text_mutind; intros; try reflexivity.
  - cbn. congruence.
  - rewrite !jparse_obj. f_equal.
    match goal with Hm : same_members m1 m' |- _ => rename Hm into Hs end.
    match goal with Hm : parse_members m1 = _ |- _ => rewrite Hm in * end.
    apply mset_all_perm.
    + rewrite parse_members_map, map_map. cbn [fst]. change (NoDup (map fst m')).
      assert (Ek : forall a b, same_members (T:=T) a b -> map fst a = map fst b).
      { clear. intros a b Hs. induction Hs; cbn; congruence. }
      rewrite <- (Ek _ _ Hs). assumption.
    + rewrite !parse_members_map. now apply Permutation_map.
  - cbn. congruence.
  - cbn. congruence.
Qed.

(** Objects obtained by parsing are sorted by key. *)
Lemma jparse_sorted {T} (m : list (string * jtext T)) :
  exists m', jparse (TObj m) = JObj m' /\ msorted m'.
Proof. rewrite jparse_obj. eexists; split; [reflexivity|]. apply mset_all_sorted. constructor. Qed.

Lemma load_same_text {T} `{Num T} fs1 fs2 load fn t1 t2 :
  fs1 fn = Some (Some t1) -> fs2 fn = Some (Some t2) -> same_text t1 t2 ->
  loadInput (T:=T) fs1 load fn = loadInput fs2 load fn.
Proof.
  intros E1 E2 Hs. unfold loadInput, readJSON. rewrite E1, E2.
  now rewrite (proj1 (@same_text_parse T) _ _ Hs).
Qed.

Lemma readMaterials_distinct (t : list (string * jtext R)) mats :
  readMaterials (jparse (TObj t)) = Ok mats -> NoDup (all_names mats).
Proof.
  destruct (jparse_sorted t) as (m & E & Hs). rewrite E. now apply readMaterials_nodup_names with (m := m).
Qed.
