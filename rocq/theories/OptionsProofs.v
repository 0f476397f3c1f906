(** Proofs about options and file names (C06, C07). *)
From Verif Require Import Prelude StdMap Json Materials ModelM Parser SpecInput InputProofs.
From Coq Require Import Reals.
Open Scope string_scope.

(** The options object and the settings read from it. *)
Lemma options_read root m o :
  field root "analysis" (JObj m) ->
  option_is is_int m "order" 3%Z (o_order o) ->
  option_is is_bool m "printIterations" false (o_printIterations o) ->
  option_is is_bool m "exportParaviewSolution" true (o_exportParaView o) ->
  option_is is_bool m "exportVisItSolution" false (o_exportVisIt o) ->
  option_is is_str m "exportFolder" "./" (o_exportFolder o) ->
  o_multipolarExpansionOrder o = 5%nat ->
  readDriverOptions (T:=R) root = Ok o.
Proof.
  intros Hf Ho Hp Hpv Hv Hx Hm. unfold readDriverOptions. rewrite (jat_field _ _ _ Hf). cbn [bind].
  unfold setIfExists, jfind. unfold option_is in *.
  destruct o as [ord pri mul par vis fol]; cbn in *.
  assert (E1 : match mget "order" m with Some v => jget_int v | None => Ok 3%Z end = Ok ord).
  { destruct (mget "order" m); [destruct Ho; now apply jget_int_plain|congruence]. }
  rewrite E1. cbn [bind]. clear E1 Ho.
  assert (E1 : match mget "printIterations" m with Some v => jget_bool v | None => Ok false end = Ok pri).
  { destruct (mget "printIterations" m); [destruct Hp; reflexivity|congruence]. }
  rewrite E1. cbn [bind]. clear E1 Hp.
  assert (E1 : match mget "exportParaviewSolution" m with Some v => jget_bool v | None => Ok true end = Ok par).
  { destruct (mget "exportParaviewSolution" m); [destruct Hpv; reflexivity|congruence]. }
  rewrite E1. cbn [bind]. clear E1 Hpv.
  assert (E1 : match mget "exportVisItSolution" m with Some v => jget_bool v | None => Ok false end = Ok vis).
  { destruct (mget "exportVisItSolution" m); [destruct Hv; reflexivity|congruence]. }
  rewrite E1. cbn [bind]. clear E1 Hv.
  assert (E1 : match mget "exportFolder" m with Some v => jget_string v | None => Ok "./" end = Ok fol).
  { destruct (mget "exportFolder" m); [destruct Hx; reflexivity|congruence]. }
  rewrite E1. cbn [bind]. now rewrite Hm.
Qed.

(** Only five keys matter. *)
Lemma options_other_keys (root1 root2 : json R) m1 m2 :
  field root1 "analysis" (JObj m1) -> field root2 "analysis" (JObj m2) ->
  (forall k, In k ["order"; "printIterations"; "exportParaviewSolution"; "exportVisItSolution";
                   "exportFolder"] -> mget k m1 = mget k m2) ->
  readDriverOptions root1 = readDriverOptions root2.
Proof.
  intros H1 H2 Hk. unfold readDriverOptions. rewrite (jat_field _ _ _ H1), (jat_field _ _ _ H2). cbn [bind].
  unfold setIfExists, jfind.
  rewrite (Hk "order"), (Hk "printIterations"), (Hk "exportParaviewSolution"),
    (Hk "exportVisItSolution"), (Hk "exportFolder") by (cbn; tauto). reflexivity.
Qed.

(** Reading an option never gives the wrong type a meaning. *)
Definition order_not_float (m : list (string * json R)) : Prop :=
  forall x, mget "order" m <> Some (JFloat x).

Lemma options_wrong_type root m :
  field root "analysis" (JObj m) -> order_not_float m ->
  (wrong_int m "order" \/ wrong_bool m "printIterations" \/ wrong_bool m "exportParaviewSolution" \/
   wrong_bool m "exportVisItSolution" \/ wrong_str m "exportFolder") ->
  is_throw (readDriverOptions (T:=R) root).
Proof.
  intros Hf Hn Hw. unfold readDriverOptions. rewrite (jat_field _ _ _ Hf). cbn [bind].
  unfold setIfExists, jfind.
  assert (Bad : forall (A : Type) (e : exn), is_throw (Throw (A:=A) e)) by (intros; eexists; reflexivity).
  assert (D1 : (exists z, match mget "order" m with Some v => jget_int v | None => Ok (o_order default_options) end = Ok z /\ ~ wrong_int m "order") \/
               exists e, match mget "order" m with Some v => jget_int v | None => Ok (o_order default_options) end = Throw e).
  { unfold wrong_int, order_not_float in *. destruct (mget "order" m) as [j|] eqn:E.
    - destruct j; try (right; eexists; reflexivity);
        try (left; eexists; split; [reflexivity|intros (j & [= <-] & Hj); exact Hj]).
      exfalso. now apply (Hn x).
    - left; eexists; split; [reflexivity|]. intros (j & Hj & _); discriminate. }
  assert (DB : forall k d, (exists z, match mget k m with Some v => jget_bool v | None => Ok d end = Ok z /\ ~ wrong_bool m k) \/
               exists e, match mget k m with Some v => jget_bool v | None => Ok d end = Throw e).
  { intros k d. unfold wrong_bool. destruct (mget k m) as [j|] eqn:E.
    - destruct j; try (right; eexists; reflexivity).
      left; eexists; split; [reflexivity|]. intros (j & [= <-] & Hj). now apply (Hj b).
    - left; eexists; split; [reflexivity|]. intros (j & Hj & _); discriminate. }
  assert (DS : forall k d, (exists z, match mget k m with Some v => jget_string v | None => Ok d end = Ok z /\ ~ wrong_str m k) \/
               exists e, match mget k m with Some v => jget_string v | None => Ok d end = Throw e).
  { intros k d. unfold wrong_str. destruct (mget k m) as [j|] eqn:E.
    - destruct j; try (right; eexists; reflexivity).
      left; eexists; split; [reflexivity|]. intros (j & [= <-] & Hj). now apply (Hj s).
    - left; eexists; split; [reflexivity|]. intros (j & Hj & _); discriminate. }
  destruct D1 as [(z & -> & N1)|(e & ->)]; cbn [bind]; [|apply Bad].
  destruct (DB "printIterations" (o_printIterations default_options)) as [(b1 & -> & N2)|(e & ->)]; cbn [bind]; [|apply Bad].
  destruct (DB "exportParaviewSolution" (o_exportParaView default_options)) as [(b2 & -> & N3)|(e & ->)]; cbn [bind]; [|apply Bad].
  destruct (DB "exportVisItSolution" (o_exportVisIt default_options)) as [(b3 & -> & N4)|(e & ->)]; cbn [bind]; [|apply Bad].
  destruct (DS "exportFolder" (o_exportFolder default_options)) as [(s & -> & N5)|(e & ->)]; cbn [bind]; [|apply Bad].
  tauto.
Qed.

(** ** File names *)
Lemma string_app_nil s : (s ++ "")%string = s.
Proof. induction s; cbn; congruence. Qed.
Lemma string_app_assoc (a b c : string) : ((a ++ b) ++ c = a ++ (b ++ c))%string.
Proof. induction a; cbn; congruence. Qed.

Lemma split_slash_app cur a b :
  split_slash cur (a ++ String "/" b) = (split_slash cur a ++ split_slash "" b)%list.
Proof.
  revert cur; induction a as [|c a IH]; intro cur.
  - reflexivity.
  - cbn [append split_slash]. destruct (Ascii.eqb c "/"); rewrite IH; reflexivity.
Qed.
Lemma components_app a b : components (a ++ String "/" b) = (components a ++ components b)%list.
Proof. unfold components. now rewrite split_slash_app, filter_app. Qed.
Lemma split_slash_noslash s : ~ In "/"%char (list_ascii_of_string s) ->
  forall cur, split_slash cur s = [(cur ++ s)%string].
Proof.
  induction s as [|c s IH]; intros Hn cur; cbn [split_slash].
  - now rewrite string_app_nil.
  - destruct (Ascii.eqb_spec c "/") as [->|Hc].
    + exfalso. apply Hn. now left.
    + rewrite IH by (intro; apply Hn; now right).
      f_equal. rewrite string_app_assoc. reflexivity.
Qed.
Lemma components_name f : ~ In "/"%char (list_ascii_of_string f) -> real_component f = true ->
  components f = [f].
Proof.
  intros Hn Hr. unfold components. rewrite split_slash_noslash by exact Hn. cbn. now rewrite Hr.
Qed.
Lemma components_empty : components "" = [].
Proof. reflexivity. Qed.
Lemma components_trailing a : components (a ++ "/") = components a.
Proof. rewrite components_app, components_empty. now rewrite app_nil_r. Qed.

(** Lists of characters *)
Definition str := string_of_list_ascii.
Lemma str_app a b : str (a ++ b) = (str a ++ str b)%string.
Proof. induction a; cbn; [reflexivity|]. now rewrite IHa. Qed.
Lemma list_app a b : list_ascii_of_string (a ++ b) = (list_ascii_of_string a ++ list_ascii_of_string b)%list.
Proof. induction a; cbn; [reflexivity|]. now rewrite IHa. Qed.

Lemma after_slash_app l r : ~ In "/"%char l -> after_slash (l ++ "/"%char :: r)%list = Some r.
Proof.
  induction l as [|c l IH]; intro Hn; cbn.
  - reflexivity.
  - destruct (Ascii.eqb_spec c "/") as [->|Hc]; [exfalso; apply Hn; now left|].
    apply IH. intro; apply Hn; now right.
Qed.
Lemma after_slash_none l : ~ In "/"%char l -> after_slash l = None.
Proof.
  induction l as [|c l IH]; intro Hn; cbn; [reflexivity|].
  destruct (Ascii.eqb_spec c "/") as [->|Hc]; [exfalso; apply Hn; now left|].
  apply IH. intro; apply Hn; now right.
Qed.
Lemma components_drop l : components (str (rev (drop_slashes l))) = components (str (rev l)).
Proof.
  induction l as [|c l IH]; cbn [drop_slashes]; [reflexivity|].
  destruct (Ascii.eqb_spec c "/") as [->|Hc]; [|reflexivity].
  rewrite IH. cbn [rev]. rewrite str_app. cbn [str string_of_list_ascii]. symmetry. apply components_trailing.
Qed.

Lemma parent_components d f :
  (d = "" \/ exists d', d = (d' ++ "/")%string) -> ~ In "/"%char (list_ascii_of_string f) ->
  components (parent_path (d ++ f)) = components d.
Proof.
  intros Hd Hf. unfold parent_path. rewrite list_app, rev_app_distr.
  assert (Hf' : ~ In "/"%char (rev (list_ascii_of_string f))) by (now rewrite <- in_rev).
  destruct Hd as [->|[d' ->]].
  - cbn [list_ascii_of_string rev]. rewrite app_nil_r, after_slash_none by exact Hf'. reflexivity.
  - rewrite list_app, rev_app_distr. cbn [list_ascii_of_string rev app].
    rewrite after_slash_app by exact Hf'. rewrite components_trailing.
    pose proof (components_drop (rev (list_ascii_of_string d'))) as E.
    rewrite rev_involutive in E. unfold str in E. rewrite string_of_list_ascii_of_string in E.
    destruct (drop_slashes (rev (list_ascii_of_string d'))) as [|c r] eqn:Ed; [|exact E].
    rewrite <- E. reflexivity.
Qed.

Lemma input_directory_components f :
  components (input_directory f) = components (parent_path f).
Proof.
  unfold input_directory. change ("./" ++ parent_path f ++ "/")%string
    with ("." ++ String "/" (parent_path f ++ "/"))%string.
  rewrite components_app, components_trailing. reflexivity.
Qed.

Lemma components_of_file d f :
  (d = "" \/ exists d', d = (d' ++ "/")%string) -> real_component f = true ->
  ~ In "/"%char (list_ascii_of_string f) ->
  components (d ++ f) = (components d ++ [f])%list.
Proof.
  intros [->|[d' ->]] Hr Hn.
  - cbn. now apply components_name.
  - rewrite string_app_assoc. cbn [append]. rewrite components_app, components_trailing.
    rewrite (components_name f) by assumption. reflexivity.
Qed.

Lemma file_in_input_directory p g : names_file p ->
  components (input_directory p ++ g) = (removelast (components p) ++ components g)%list.
Proof.
  intros (d & f & -> & Hd & Hr & Hn).
  unfold input_directory.
  replace (("./" ++ parent_path (d ++ f) ++ "/") ++ g)%string
    with ("." ++ String "/" (parent_path (d ++ f) ++ String "/" g))%string
    by (cbn [append]; now rewrite string_app_assoc).
  rewrite !components_app, parent_components by assumption.
  rewrite components_of_file by assumption.
  rewrite removelast_last. reflexivity.
Qed.

Lemma relative_names p s : absolute (input_directory p ++ s) = false.
Proof. reflexivity. Qed.

Lemma names_file_nonempty p : names_file p -> components p <> [].
Proof.
  intros (d & f & -> & Hd & Hr & Hn). rewrite components_of_file by assumption.
  destruct (components d); discriminate.
Qed.

Lemma mesh_next_to_input cwd p g :
  names_file p -> absolute p = false ->
  resolve cwd (meshFilename p g) = (removelast (resolve cwd p) ++ components g)%list.
Proof.
  intros Hf Ha. unfold meshFilename, resolve. rewrite relative_names, Ha.
  rewrite file_in_input_directory by exact Hf.
  rewrite removelast_app by (now apply names_file_nonempty). now rewrite app_assoc.
Qed.

Lemma mesh_of_absolute_input cwd p g :
  names_file p -> absolute p = true ->
  resolve cwd (meshFilename p g) = (cwd ++ removelast (resolve cwd p) ++ components g)%list.
Proof.
  intros Hf Ha. unfold meshFilename, resolve. rewrite relative_names, Ha.
  now rewrite file_in_input_directory by exact Hf.
Qed.

(** The reader only depends on the mesh file at that place. *)
Lemma readModel_location {T} `{Num T} cwd p g (root : json T) jm load1 load2 :
  names_file p -> absolute p = false ->
  jat "model" root = Ok jm -> jat "gmshFile" jm = Ok (JStr g) ->
  (forall q, resolve cwd q = (removelast (resolve cwd p) ++ components g)%list -> load1 q = load2 q) ->
  readModel load1 p root = readModel load2 p root.
Proof.
  intros Hf Ha Em Eg Hl. unfold readModel. rewrite Em. cbn [bind]. rewrite Eg. cbn [bind jget_string].
  rewrite (Hl (meshFilename p g)); [reflexivity|]. now apply mesh_next_to_input.
Qed.

Lemma documented_paraview_key_ignored :
  exists (root : json R) (m : list (string * json R)) (o : driver_options),
    field root "analysis" (JObj m) /\ mget "exportParaViewSolution" m = Some (JBool false) /\
    readDriverOptions root = Ok o /\ o_exportParaView o = true.
Proof.
  exists (JObj [("analysis", JObj [("exportParaViewSolution", JBool false)])]).
  exists [("exportParaViewSolution", JBool false)]. exists default_options.
  repeat split. eexists; split; reflexivity.
Qed.

Lemma mesh_of_absolute_input_wrong cwd p g :
  names_file p -> absolute p = true -> cwd <> [] ->
  resolve cwd (meshFilename p g) <> (removelast (resolve cwd p) ++ components g)%list.
Proof.
  intros Hf Ha Hc E. rewrite mesh_of_absolute_input in E by assumption.
  apply (f_equal (@List.length string)) in E. rewrite !app_length in E.
  destruct cwd; [congruence|]. cbn in E. lia.
Qed.
