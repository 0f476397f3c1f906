(** Specification of the input files (C04-C08), independent of the reader. *)
From Verif Require Import Prelude StdMap Json Materials.
From Coq Require Import Permutation Reals.
Open Scope string_scope.

(** [field v k x]: the JSON value [v] is an object with a member [k] of value [x]. *)
Definition field {T} (v : json T) (k : string) (x : json T) : Prop :=
  exists m, v = JObj m /\ mget k m = Some x.
Definition no_field {T} (v : json T) (k : string) : Prop :=
  exists m, v = JObj m /\ mget k m = None.

Definition int_range (z : Z) : Prop := (- 2 ^ 31 <= z < 2 ^ 31)%Z.

(** What an entry "name": {...} of the materials object says. *)
Inductive entry :=
| Conductor (name : string) (tag : Z) (area_mm2 : R)
| OpenBdr (name : string) (tag : Z)
| Medium (name : string) (tag : Z) (eps_r : R).

Inductive number : json R -> R -> Prop :=
| num_int z : number (JInt z) (IZR z)
| num_float x : number (JFloat x) x.

Inductive describes : string * json R -> entry -> Prop :=
| d_pec name v z a ja :
    field v "type" (JStr "PEC") -> field v "tag" (JInt z) -> int_range z ->
    field v "area" ja -> number ja a ->
    describes (name, v) (Conductor name z a)
| d_pec0 name v z :
    field v "type" (JStr "PEC") -> field v "tag" (JInt z) -> int_range z ->
    no_field v "area" ->
    describes (name, v) (Conductor name z 0)
| d_open name v z :
    field v "type" (JStr "OpenBoundary") -> field v "tag" (JInt z) -> int_range z ->
    describes (name, v) (OpenBdr name z)
| d_vacuum name v z :
    field v "type" (JStr "Vacuum") -> field v "tag" (JInt z) -> int_range z ->
    describes (name, v) (Medium name z 1)
| d_diel name v z e je :
    field v "type" (JStr "Dielectric") -> field v "tag" (JInt z) -> int_range z ->
    field v "eps_r" je -> number je e ->
    describes (name, v) (Medium name z e).

(** The materials that a list of entries stands for; areas in square metres. *)
Definition spec_pecs (es : list entry) : list (pec R) :=
  flat_map (fun e => match e with
    | Conductor n t a => [{| p_name := n; p_attr := t; p_area := (a / 1000000)%R |}]
    | _ => [] end) es.
Definition spec_opens (es : list entry) : list openbdr :=
  flat_map (fun e => match e with OpenBdr n t => [{| o_name := n; o_attr := t |}] | _ => [] end) es.
Definition spec_media (es : list entry) : list (dielectric R) :=
  flat_map (fun e => match e with
    | Medium n t x => [{| d_name := n; d_attr := t; d_epsr := x |}] | _ => [] end) es.

(** Names of all the materials. *)
Definition all_names {T} (m : materials T) : list string :=
  (map p_name (pecs m) ++ map o_name (openBoundaries m) ++ map d_name (dielectrics m))%list.

(** Tags written as integers that fit in an int (a float or boolean tag is converted). *)
Definition plain_tag (v : json R) : Prop :=
  forall x, field v "tag" x ->
    match x with JFloat _ | JBool _ => False | JInt z => int_range z | _ => True end.

(** Two texts that differ only in the order of the members of objects. *)
Inductive same_text {T} : jtext T -> jtext T -> Prop :=
| st_refl t : same_text t t
| st_arr l1 l2 : same_items l1 l2 -> same_text (TArr l1) (TArr l2)
| st_obj m1 m' m2 : NoDup (map fst m1) -> same_members m1 m' -> Permutation m' m2 ->
    same_text (TObj m1) (TObj m2)
with same_items {T} : list (jtext T) -> list (jtext T) -> Prop :=
| si_nil : same_items [] []
| si_cons t1 t2 l1 l2 : same_text t1 t2 -> same_items l1 l2 -> same_items (t1 :: l1) (t2 :: l2)
with same_members {T} : list (string * jtext T) -> list (string * jtext T) -> Prop :=
| sm_nil : same_members [] []
| sm_cons k t1 t2 l1 l2 : same_text t1 t2 -> same_members l1 l2 ->
    same_members ((k, t1) :: l1) ((k, t2) :: l2).

(** ** File names (POSIX): the sequence of directory entries that a path goes through, for a
    process with working directory [cwd] (".." and symbolic links are kept as they are). *)
Fixpoint split_slash (cur : string) (s : string) : list string :=
  match s with
  | EmptyString => [cur]
  | String c r => if Ascii.eqb c "/" then cur :: split_slash EmptyString r
                  else split_slash (cur ++ String c EmptyString) r
  end.
Definition real_component (s : string) : bool := negb (String.eqb s "") && negb (String.eqb s ".").
Definition components (p : string) : list string := filter real_component (split_slash "" p).
Definition absolute (p : string) : bool :=
  match p with String c _ => Ascii.eqb c "/" | EmptyString => false end.
Definition resolve (cwd : list string) (p : string) : list string :=
  if absolute p then components p else (cwd ++ components p)%list.
(** A path that names a file: its last component is a proper name. *)
Definition names_file (p : string) : Prop :=
  exists d f, p = (d ++ f)%string /\ (d = "" \/ exists d', d = (d' ++ "/")%string) /\
              real_component f = true /\ ~ In "/"%char (list_ascii_of_string f).

(** ** Options (C06) *)
Inductive is_int : json R -> Z -> Prop := is_int_ z : int_range z -> is_int (JInt z) z.
Inductive is_bool : json R -> bool -> Prop := is_bool_ b : is_bool (JBool b) b.
Inductive is_str : json R -> string -> Prop := is_str_ s : is_str (JStr s) s.
(** the value [v] of an option: as given by the member [key] if present, else the default *)
Definition option_is {A} (is : json R -> A -> Prop) (m : list (string * json R)) (key : string)
    (default v : A) : Prop :=
  match mget key m with None => v = default | Some j => is j v end.
(** a member that cannot be converted to the type of the option *)
Definition wrong_bool (m : list (string * json R)) (key : string) : Prop :=
  exists j, mget key m = Some j /\ forall b, j <> JBool b.
Definition wrong_str (m : list (string * json R)) (key : string) : Prop :=
  exists j, mget key m = Some j /\ forall s, j <> JStr s.
Definition wrong_int (m : list (string * json R)) (key : string) : Prop :=
  exists j, mget key m = Some j /\
    match j with JNull | JStr _ | JArr _ | JObj _ => True | _ => False end.
