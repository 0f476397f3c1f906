(** Model of src/Parser.cpp, src/SolverOptions.h and of the path handling of src/pulmtln.cpp. *)
From Verif Require Import Prelude StdMap Json Materials ModelM.
Open Scope string_scope.

(** SolverOptions.h:7-22 *)
Record driver_options := {
  o_order : Z;
  o_printIterations : bool;
  o_multipolarExpansionOrder : nat;
  o_exportParaView : bool;
  o_exportVisIt : bool;
  o_exportFolder : string }.
Definition default_options : driver_options :=
  {| o_order := 3; o_printIterations := false; o_multipolarExpansionOrder := 5;
     o_exportParaView := true; o_exportVisIt := false; o_exportFolder := "./" |}.

(** Driver.h:26 setExportFolder (on the options) *)
Definition with_folder (o : driver_options) (f : string) : driver_options :=
  {| o_order := o_order o; o_printIterations := o_printIterations o;
     o_multipolarExpansionOrder := o_multipolarExpansionOrder o;
     o_exportParaView := o_exportParaView o; o_exportVisIt := o_exportVisIt o;
     o_exportFolder := f |}.

(** Parser.cpp:11-23 MaterialType and LABEL_TO_MATERIAL_TYPE *)
Inductive material_type := MPEC | MDielectric | MOpenBoundary | MVacuum.
Definition label_to_type : list (string * material_type) :=
  [("Dielectric", MDielectric); ("OpenBoundary", MOpenBoundary); ("PEC", MPEC); ("Vacuum", MVacuum)].

(** std::filesystem::path::parent_path on POSIX (third party): the text before the last
    separator without its trailing separators; a path below the root has parent "/". *)
Fixpoint drop_slashes (l : list ascii) : list ascii :=
  match l with c :: r => if Ascii.eqb c "/" then drop_slashes r else l | [] => [] end.
Fixpoint after_slash (l : list ascii) : option (list ascii) :=
  match l with
  | [] => None
  | c :: r => if Ascii.eqb c "/" then Some r else after_slash r
  end.
Definition parent_path (s : string) : string :=
  match after_slash (rev (list_ascii_of_string s)) with
  | None => ""
  | Some d => match drop_slashes d with
              | [] => "/"
              | d' => string_of_list_ascii (rev d')
              end
  end.

(** Parser.cpp:82-83 and pulmtln.cpp:39-41: "./" + parent + "/" *)
Definition input_directory (filename : string) : string := "./" ++ parent_path filename ++ "/".

Section Parser.
  Context {T : Type} `{Num T}.
  Notation json := (json T).

  (** Parser.cpp:40-76 readMaterials: one iteration of the loop. *)
  Definition readMaterial (res : materials T) (kv : string * json) : outcome (materials T) :=
    let name := fst kv in
    let mat := snd kv in
    let* jt := jat "type" mat in
    let* label := jget_string jt in
    let* type := mat_ label label_to_type in
    let* jtag := jat "tag" mat in
    let* attribute := jget_int jtag in
    match type with
    | MPEC =>
        let* a := jvalue_double "area" n0 mat in
        let area := nmul a (lit 1 6) in
        Ok {| pecs := pecs res ++ [{| p_name := name; p_attr := attribute; p_area := area |}];
              openBoundaries := openBoundaries res; dielectrics := dielectrics res |}
    | MOpenBoundary =>
        Ok {| pecs := pecs res;
              openBoundaries := openBoundaries res ++ [{| o_name := name; o_attr := attribute |}];
              dielectrics := dielectrics res |}
    | MVacuum =>
        Ok {| pecs := pecs res; openBoundaries := openBoundaries res;
              dielectrics := dielectrics res ++
                             [{| d_name := name; d_attr := attribute; d_epsr := n1 |}] |}
    | MDielectric =>
        let* je := jat "eps_r" mat in
        let* eps := jget_double je in
        Ok {| pecs := pecs res; openBoundaries := openBoundaries res;
              dielectrics := dielectrics res ++
                             [{| d_name := name; d_attr := attribute; d_epsr := eps |}] |}
    end.
  Definition no_materials : materials T := {| pecs := []; openBoundaries := []; dielectrics := [] |}.
  Definition readMaterials (j : json) : outcome (materials T) :=
    foldM readMaterial (jitems j) no_materials.

  (** The file system and the mesh reader (environment). [fs f]: None when [f] cannot be
      opened, Some None when it is not JSON. *)
  Variable fs : string -> option (option (jtext T)).
  Variable load_mesh : string -> outcome (mesh T).

  (** Parser.cpp:25-33 readJSON: line 29 builds a runtime_error without throwing it, so a file
      that cannot be opened ends in json::parse of an empty stream. *)
  Definition readJSON (fn : string) : outcome json :=
    match fs fn with
    | Some (Some t) => Ok (jparse t)
    | _ => Throw JsonParseError
    end.

  (** Parser.cpp:78-93 readModel. Braced initialisers are evaluated left to right. *)
  Definition meshFilename (filename gmsh : string) : string := input_directory filename ++ gmsh.
  Definition readModel (filename : string) (root : json) : outcome (model T) :=
    let* j := jat "model" root in
    let* jg := jat "gmshFile" j in
    let* gmsh := jget_string jg in
    let* ms := load_mesh (meshFilename filename gmsh) in
    let* jm := jat "materials" j in
    let* mats := readMaterials jm in
    Ok (mkModel ms mats).

  (** Parser.cpp:96-103 setIfExists *)
  Definition setIfExists {A} (get : json -> outcome A) (j : json) (entry : A) (label : string)
    : outcome A :=
    match jfind label j with Some v => get v | None => Ok entry end.

  (** Parser.cpp:105-118 readDriverOptions *)
  Definition readDriverOptions (root : json) : outcome driver_options :=
    let* j := jat "analysis" root in
    let r := default_options in
    let* ord := setIfExists jget_int j (o_order r) "order" in
    let* pri := setIfExists jget_bool j (o_printIterations r) "printIterations" in
    let* par := setIfExists jget_bool j (o_exportParaView r) "exportParaviewSolution" in
    let* vis := setIfExists jget_bool j (o_exportVisIt r) "exportVisItSolution" in
    let* fol := setIfExists jget_string j (o_exportFolder r) "exportFolder" in
    Ok {| o_order := ord; o_printIterations := pri;
          o_multipolarExpansionOrder := o_multipolarExpansionOrder r;
          o_exportParaView := par; o_exportVisIt := vis; o_exportFolder := fol |}.

  (** Driver.cpp:58-65 loadFromFile, up to the Driver constructor: Parser, model, options. *)
  Definition loadInput (fn : string) : outcome (model T * driver_options) :=
    let* root := readJSON fn in
    let* m := readModel fn root in
    let* o := readDriverOptions root in
    Ok (m, o).
End Parser.
