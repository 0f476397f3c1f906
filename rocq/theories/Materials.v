(** Model of src/Materials.h and src/Materials.cpp. *)
From Verif Require Import Prelude StdMap.

Section Materials.
  Context {T : Type} `{Num T}.

  (** Materials.h:11-18 (struct Material, struct PEC) *)
  Record pec := { p_name : string; p_attr : Z; p_area : T }.
  (** Materials.h:20-21 (struct OpenBoundary) *)
  Record openbdr := { o_name : string; o_attr : Z }.
  (** Materials.h:23-25 (struct Dielectric) *)
  Record dielectric := { d_name : string; d_attr : Z; d_epsr : T }.

  (** Materials.h:27-30 (struct Materials) *)
  Record materials := {
    pecs : list pec;
    openBoundaries : list openbdr;
    dielectrics : list dielectric }.
End Materials.
Arguments pec T : clear implicits.
Arguments dielectric T : clear implicits.
Arguments materials T : clear implicits.

(** ** Materials.cpp:44-50 getMaterialIdFromName *)

Definition is_digit (c : ascii) : bool :=
  let n := nat_of_ascii c in (48 <=? n)%nat && (n <=? 57)%nat.
Definition digit_val (c : ascii) : Z := Z.of_nat (nat_of_ascii c) - 48.
(** std::isspace in the C locale: space, \t \n \v \f \r *)
Definition is_space (c : ascii) : bool :=
  let n := nat_of_ascii c in (n =? 32)%nat || ((9 <=? n)%nat && (n <=? 13)%nat).

(** name.substr(name.find("_") + 1): text after the first underscore; find returns npos when
    there is none and npos + 1 == 0, i.e. the whole name. *)
Fixpoint after_underscore (s : string) : option string :=
  match s with
  | EmptyString => None
  | String c r => if Ascii.eqb c "_" then Some r else after_underscore r
  end.
Definition id_suffix (name : string) : string :=
  match after_underscore name with Some r => r | None => name end.

Fixpoint skip_ws (s : string) : string :=
  match s with
  | String c r => if is_space c then skip_ws r else s
  | EmptyString => EmptyString
  end.
(** Leading decimal digits of [s], most significant first, accumulated in [acc]. *)
Fixpoint read_digits (acc : Z) (s : string) : Z :=
  match s with
  | String c r => if is_digit c then read_digits (acc * 10 + digit_val c)%Z r else acc
  | EmptyString => acc
  end.
Definition int_max : Z := 2 ^ 31 - 1.
Definition int_min : Z := - 2 ^ 31.
Definition clamp_int (z : Z) : Z := Z.min int_max (Z.max int_min z).

(** std::stringstream >> int (decimal, C locale). [None]: after skipping white space the
    stream is exhausted, the sentry fails and the variable is left unmodified. Otherwise, as
    of C++11, text that is not a number stores 0 and an out of range number stores the
    nearest limit. *)
Definition stream_int (s : string) : option Z :=
  match skip_ws s with
  | EmptyString => None
  | String c r =>
      if Ascii.eqb c "-" then Some (clamp_int (- read_digits 0 r))
      else if Ascii.eqb c "+" then Some (clamp_int (read_digits 0 r))
      else Some (clamp_int (read_digits 0 (String c r)))
  end.

(** Materials.cpp:44-50: "int res; ss >> res; return res;" - res is indeterminate when
    nothing could be read. *)
Definition getMaterialIdFromName (name : string) : outcome Z :=
  match stream_int (id_suffix name) with
  | Some z => Ok z
  | None => Undef UninitialisedRead
  end.

Section Maps.
  Context {T : Type} `{Num T}.
  Notation materials := (materials T).

  (** Materials.h:32-52 buildNameToAttrMapFor<T> *)
  Definition nameToAttr_PEC (m : materials) : list (string * Z) :=
    mset_all (map (fun p => (p_name p, p_attr p)) (pecs m)) [].
  Definition nameToAttr_Open (m : materials) : list (string * Z) :=
    mset_all (map (fun p => (o_name p, o_attr p)) (openBoundaries m)) [].
  Definition nameToAttr_Diel (m : materials) : list (string * Z) :=
    mset_all (map (fun p => (d_name p, d_attr p)) (dielectrics m)) [].

  (** Materials.h:54-74 buildIdToAttrMapFor<PEC> (the only instance used) *)
  Definition idToAttr_PEC (m : materials) : outcome (list (Z * Z)) :=
    foldM (fun res p => let* id := getMaterialIdFromName (p_name p) in
                        Ok (mset id (p_attr p) res)) (pecs m) [].

  (** Materials.h:76-102 get<PEC>(name) *)
  Definition get_PEC_by_name (m : materials) (name : string) : outcome (pec T) :=
    match find (fun p => String.eqb (p_name p) name) (pecs m) with
    | Some p => Ok p
    | None => Throw (RuntimeError "Invalid material type")
    end.
  (** Materials.h:104-130 get<PEC>(id): the first PEC with that id. *)
  Fixpoint find_pec_id (id : Z) (l : list (pec T)) : outcome (pec T) :=
    match l with
    | [] => Throw (RuntimeError "Invalid material type")
    | p :: r => let* i := getMaterialIdFromName (p_name p) in
                if (i =? id)%Z then Ok p else find_pec_id id r
    end.
  Definition get_PEC_by_id (m : materials) (id : Z) : outcome (pec T) := find_pec_id id (pecs m).

  (** Materials.cpp:6-18 buildNameToAttrMap: map::insert does not overwrite. *)
  Definition buildNameToAttrMap (m : materials) : list (string * Z) :=
    let ins l r := fold_left (fun r kv => mins (fst kv) (snd kv) r) l r in
    ins (nameToAttr_Diel m) (ins (nameToAttr_Open m) (nameToAttr_PEC m)).

  (** Materials.cpp:20-42 removeMaterialsNotInList *)
  Definition removeMaterialsNotInList (m : materials) (allowed : list (string * Z)) : materials :=
    {| pecs := filter (fun p => mcount (p_name p) allowed) (pecs m);
       openBoundaries := filter (fun p => mcount (o_name p) allowed) (openBoundaries m);
       dielectrics := filter (fun p => mcount (d_name p) allowed) (dielectrics m) |}.

  (** Materials.cpp:52-62 isDomainMaterial *)
  Definition isDomainMaterial (m : materials) (name : string) : bool :=
    mcount name (nameToAttr_Diel m).
End Maps.
