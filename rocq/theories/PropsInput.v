(** Properties C01, C04, C05, C06, C07: what the input files mean. *)
From Verif Require Import Prelude StdMap Json Materials ModelM Parser SpecInput
  NamesProofs InputProofs OptionsProofs SpecName NameAny.
From Coq Require Import Reals DecimalString.
Open Scope string_scope.

(** ** C01 *)
(** "Name_<digits><rest>": the number written in decimal (leading zeros allowed), saturated at
    the largest int. *)
Theorem C01_id_is_the_number_in_the_name :
  forall (p : string) (digits : Decimal.uint) (rest : string),
    no_underscore p -> digits <> Decimal.Nil -> starts_with_digit rest = false ->
    getMaterialIdFromName (p ++ "_" ++ NilEmpty.string_of_uint digits ++ rest) =
    Ok (Z.min (2 ^ 31 - 1) (Z.of_nat (Nat.of_uint digits))).
Proof. exact id_of_name. Qed.
Print Assumptions C01_id_is_the_number_in_the_name.

Theorem C01_id_of_canonical_name :
  forall (p : string) (n : nat), no_underscore p -> (Z.of_nat n < 2 ^ 31)%Z ->
    getMaterialIdFromName (p ++ "_" ++ NilEmpty.string_of_uint (Nat.to_uint n)) = Ok (Z.of_nat n).
Proof. exact id_of_number. Qed.
Print Assumptions C01_id_of_canonical_name.

Theorem C01_non_numeric_suffix_is_zero :
  forall (p : string) (c : ascii) (r : string),
    no_underscore p -> is_digit c = false -> is_space c = false -> c <> "-"%char -> c <> "+"%char ->
    getMaterialIdFromName (p ++ "_" ++ String c r) = Ok 0%Z.
Proof. exact id_non_numeric. Qed.
Print Assumptions C01_non_numeric_suffix_is_zero.

Theorem C01_empty_suffix_is_undefined :
  forall p : string, no_underscore p -> getMaterialIdFromName (p ++ "_") = Undef UninitialisedRead.
Proof. exact id_empty_suffix. Qed.
Print Assumptions C01_empty_suffix_is_undefined.

(** Every name, with or without underscore, sign or white space: [suffix_of] and [reads] say what is
    read, and they say it of every name. *)
Theorem C01_every_name :
  (forall (name s : string) (o : option Z), suffix_of name s -> reads s o ->
     getMaterialIdFromName name = match o with Some z => Ok z | None => Undef UninitialisedRead end) /\
  (forall name : string, exists s o, suffix_of name s /\ reads s o).
Proof. split; [exact id_any|exact id_covers]. Qed.
Print Assumptions C01_every_name.

Example C01_example_signs :
  getMaterialIdFromName "Conductor_ +7b" = Ok 7%Z /\ getMaterialIdFromName "Wire_-12" = Ok (-12)%Z /\
  getMaterialIdFromName "Shield" = Ok 0%Z /\ getMaterialIdFromName "4th wire" = Ok 4%Z /\
  getMaterialIdFromName "Wire_99999999999" = Ok 2147483647%Z.
Proof. repeat split; reflexivity. Qed.
Example C01_example : getMaterialIdFromName "Conductor_012 (copper)" = Ok 12%Z.
Proof. reflexivity. Qed.
Example C01_example_underscores : getMaterialIdFromName "Inner_conductor_3" = Ok 0%Z.
Proof. reflexivity. Qed.
Example C01_example_hypotheses : no_underscore "Conductor" /\ starts_with_digit " (copper)" = false.
Proof. split; [|reflexivity]. intros c. cbn. intuition (subst; discriminate). Qed.

(** ** C04 *)
Theorem C04_valid_materials_are_read :
  forall (j : json R) (es : list entry),
    Forall2 describes (jitems j) es ->
    readMaterials j =
    Ok {| pecs := spec_pecs es; openBoundaries := spec_opens es; dielectrics := spec_media es |}.
Proof. exact readMaterials_valid. Qed.
Print Assumptions C04_valid_materials_are_read.

Theorem C04_other_materials_throw :
  forall j : json R,
    Forall (fun kv => plain_tag (snd kv)) (jitems j) ->
    Exists (fun kv => forall e, ~ describes kv e) (jitems j) ->
    is_throw (readMaterials j).
Proof. exact readMaterials_rejects. Qed.
Print Assumptions C04_other_materials_throw.

Example C04_example :
  let j := JObj [("Conductor_0", JObj [("area", JFloat 2%R); ("tag", JInt 4); ("type", JStr "PEC")]);
                 ("Diel_1", JObj [("eps_r", JInt 3); ("tag", JInt 7); ("type", JStr "Dielectric")]);
                 ("Vacuum_0", JObj [("tag", JInt 5); ("type", JStr "Vacuum")])] in
  Forall2 describes (jitems j) [Conductor "Conductor_0" 4 2; Medium "Diel_1" 7 3; Medium "Vacuum_0" 5 1].
Proof.
  assert (F : forall m k (x : json R), mget k m = Some x -> field (JObj m) k x).
  { intros m k x E. now exists m. }
  apply Forall2_cons; [|apply Forall2_cons; [|apply Forall2_cons; [|apply Forall2_nil]]].
  - eapply d_pec; [| | |apply F; reflexivity|constructor]; try (apply F; reflexivity); split; lia.
  - eapply d_diel; [| | |apply F; reflexivity|apply num_int]; try (apply F; reflexivity); split; lia.
  - apply d_vacuum; try (apply F; reflexivity); split; lia.
Qed.
Example C04_example_rejected :
  let j := JObj [("Glass", JObj [("tag", JInt 5); ("type", JStr "Dielectric")])] in
  Forall (fun kv => plain_tag (snd kv)) (jitems j) /\
  Exists (fun kv => forall e, ~ describes kv e) (jitems j).
Proof.
  split; constructor; try constructor.
  - intros x (m & [= <-] & [= <-]). cbn. split; lia.
  - intros e He. inversion He; subst;
      repeat match goal with Hf : field _ _ _ |- _ => destruct Hf as (? & [= <-] & ?) end;
      discriminate.
Qed.

(** ** C05 *)
Theorem C05_order_of_members_is_irrelevant :
  forall (fs1 fs2 : string -> option (option (jtext R))) (load : string -> outcome (mesh R))
         (fn : string) (t1 t2 : jtext R),
    fs1 fn = Some (Some t1) -> fs2 fn = Some (Some t2) -> same_text t1 t2 ->
    loadInput fs1 load fn = loadInput fs2 load fn.
Proof. exact load_same_text. Qed.
Print Assumptions C05_order_of_members_is_irrelevant.

(** and within a file every material name occurs once in what is read *)
Theorem C05_names_are_distinct :
  forall (t : list (string * jtext R)) (mats : materials R),
    readMaterials (jparse (TObj t)) = Ok mats -> NoDup (all_names mats).
Proof. exact readMaterials_distinct. Qed.
Print Assumptions C05_names_are_distinct.

Example C05_example :
  same_text (T:=R) (TObj [("a", TInt 1); ("b", TObj [("x", TNull); ("y", TBool true)])])
                   (TObj [("b", TObj [("y", TBool true); ("x", TNull)]); ("a", TInt 1)]).
Proof.
  eapply st_obj with (m' := [("a", TInt 1); ("b", TObj [("y", TBool true); ("x", TNull)])]).
  - repeat constructor; cbn; intuition discriminate.
  - constructor; [constructor|]. constructor; [|constructor].
    eapply st_obj with (m' := [("x", TNull); ("y", TBool true)]).
    + repeat constructor; cbn; intuition discriminate.
    + repeat (constructor; [constructor|]). constructor.
    + constructor.
  - constructor.
Qed.

(** ** C06 *)
(** All options but one are read from their documented key; ParaView export is read from
    "exportParaviewSolution" where README.md documents "exportParaViewSolution". *)
Theorem C06_options_partial :
  forall (root : json R) (m : list (string * json R)) (o : driver_options),
    field root "analysis" (JObj m) ->
    option_is is_int m "order" 3%Z (o_order o) ->
    option_is is_bool m "printIterations" false (o_printIterations o) ->
    option_is is_bool m "exportParaviewSolution" true (o_exportParaView o) ->
    option_is is_bool m "exportVisItSolution" false (o_exportVisIt o) ->
    option_is is_str m "exportFolder" "./" (o_exportFolder o) ->
    o_multipolarExpansionOrder o = 5%nat ->
    readDriverOptions root = Ok o.
Proof. exact options_read. Qed.
Print Assumptions C06_options_partial.

Theorem C06_documented_paraview_key_refuted :
  exists (root : json R) (m : list (string * json R)) (o : driver_options),
    field root "analysis" (JObj m) /\ mget "exportParaViewSolution" m = Some (JBool false) /\
    readDriverOptions root = Ok o /\ o_exportParaView o = true.
Proof. exact documented_paraview_key_ignored. Qed.
Print Assumptions C06_documented_paraview_key_refuted.

Theorem C06_unrelated_keys_have_no_effect :
  forall (root1 root2 : json R) m1 m2,
    field root1 "analysis" (JObj m1) -> field root2 "analysis" (JObj m2) ->
    (forall k, In k ["order"; "printIterations"; "exportParaviewSolution"; "exportVisItSolution";
                     "exportFolder"] -> mget k m1 = mget k m2) ->
    readDriverOptions root1 = readDriverOptions root2.
Proof. exact options_other_keys. Qed.
Print Assumptions C06_unrelated_keys_have_no_effect.

Theorem C06_wrong_types_throw :
  forall (root : json R) (m : list (string * json R)),
    field root "analysis" (JObj m) -> order_not_float m ->
    (wrong_int m "order" \/ wrong_bool m "printIterations" \/ wrong_bool m "exportParaviewSolution" \/
     wrong_bool m "exportVisItSolution" \/ wrong_str m "exportFolder") ->
    is_throw (readDriverOptions root).
Proof. exact options_wrong_type. Qed.
Print Assumptions C06_wrong_types_throw.

Example C06_example :
  readDriverOptions (T:=R) (JObj [("analysis", JObj [("exportFolder", JStr "out/"); ("order", JInt 2)])])
  = Ok {| o_order := 2; o_printIterations := false; o_multipolarExpansionOrder := 5;
          o_exportParaView := true; o_exportVisIt := false; o_exportFolder := "out/" |}.
Proof. reflexivity. Qed.

(** ** C07 *)
(** Full statement: for every path, absolute or not,
      resolve cwd (meshFilename p g) = removelast (resolve cwd p) ++ components g.
    It holds for relative paths only. *)
Theorem C07_mesh_next_to_input_partial :
  forall (cwd : list string) (p g : string),
    names_file p -> absolute p = false ->
    resolve cwd (meshFilename p g) = (removelast (resolve cwd p) ++ components g)%list.
Proof. exact mesh_next_to_input. Qed.
Print Assumptions C07_mesh_next_to_input_partial.

Theorem C07_model_depends_on_that_mesh_only_partial :
  forall (cwd : list string) (p g : string) (root jm : json R) load1 load2,
    names_file p -> absolute p = false ->
    jat "model" root = Ok jm -> jat "gmshFile" jm = Ok (JStr g) ->
    (forall q, resolve cwd q = (removelast (resolve cwd p) ++ components g)%list -> load1 q = load2 q) ->
    readModel load1 p root = readModel load2 p root.
Proof. exact (@readModel_location R RNum). Qed.
Print Assumptions C07_model_depends_on_that_mesh_only_partial.

(** With an absolute path and a working directory other than the root the mesh is looked for
    in the wrong place. *)
Theorem C07_absolute_paths_refuted :
  forall (cwd : list string) (p g : string),
    names_file p -> absolute p = true -> cwd <> [] ->
    resolve cwd (meshFilename p g) <> (removelast (resolve cwd p) ++ components g)%list.
Proof. exact mesh_of_absolute_input_wrong. Qed.
Print Assumptions C07_absolute_paths_refuted.

Example C07_example :
  resolve ["home"; "u"] (meshFilename "cases/coax/coax.json" "coax.msh") =
  ["home"; "u"; "cases"; "coax"; "coax.msh"] /\ names_file "cases/coax/coax.json".
Proof.
  split; [reflexivity|]. exists "cases/coax/", "coax.json". repeat split.
  - right. now exists "cases/coax".
  - cbn. intuition discriminate.
Qed.
