(** In-memory JSON values and the nlohmann::json accessors used by the code (third party,
    modelled by its documented behaviour). *)
From Verif Require Import Prelude StdMap.
From Coq Require Import DecimalString.

(** Objects are std::map<std::string, json>: association lists kept sorted by key. *)
Inductive json (T : Type) :=
| JNull
| JBool (b : bool)
| JInt (z : Z)
| JFloat (x : T)
| JStr (s : string)
| JArr (l : list (json T))
| JObj (m : list (string * json T)).
Arguments JNull {T}. Arguments JBool {T} b. Arguments JInt {T} z. Arguments JFloat {T} x.
Arguments JStr {T} s. Arguments JArr {T} l. Arguments JObj {T} m.

Section Json.
  Context {T : Type} `{Num T}.
  Notation json := (json T).

  (** j.at(key): type_error.304 on non objects, out_of_range.403 on a missing key. *)
  Definition jat (key : string) (j : json) : outcome json :=
    match j with
    | JObj m => match mget key m with Some v => Ok v | None => Throw JsonOutOfRange end
    | _ => Throw JsonTypeError
    end.
  (** j.find(key) != j.end(): non objects have no such element. *)
  Definition jfind (key : string) (j : json) : option json :=
    match j with JObj m => mget key m | _ => None end.
  Definition jcontains (key : string) (j : json) : bool :=
    match jfind key j with Some _ => true | None => false end.

  (** get<std::string>() *)
  Definition jget_string (j : json) : outcome string :=
    match j with JStr s => Ok s | _ => Throw JsonTypeError end.
  (** static_cast<int>: two's complement wrap of 64 bit integers. *)
  Definition wrap32 (z : Z) : Z := ((z + 2 ^ 31) mod 2 ^ 32 - 2 ^ 31)%Z.
  (** get<int>(): numbers and booleans; a float out of the range of int is undefined. *)
  Definition jget_int (j : json) : outcome Z :=
    match j with
    | JInt z => Ok (wrap32 z)
    | JBool b => Ok (if b then 1 else 0)%Z
    | JFloat x =>
        match ntrunc x with
        | Some z => if ((- 2 ^ 31 <=? z) && (z <? 2 ^ 31))%Z then Ok z else Undef UninitialisedRead
        | None => Undef UninitialisedRead
        end
    | _ => Throw JsonTypeError
    end.
  (** get<double>(): numbers only. *)
  Definition jget_double (j : json) : outcome T :=
    match j with
    | JInt z => Ok (nofZ z)
    | JFloat x => Ok x
    | _ => Throw JsonTypeError
    end.
  (** get<bool>() *)
  Definition jget_bool (j : json) : outcome bool :=
    match j with JBool b => Ok b | _ => Throw JsonTypeError end.
  (** j.value(key, double default): type_error.306 on non objects. *)
  Definition jvalue_double (key : string) (d : T) (j : json) : outcome T :=
    match j with
    | JObj m => match mget key m with Some v => jget_double v | None => Ok d end
    | _ => Throw JsonTypeError
    end.

  Definition nat_to_string (n : nat) : string := NilEmpty.string_of_uint (Nat.to_uint n).

  (** for (const auto& x : j.items()): keys and values. *)
  Definition jitems (j : json) : list (string * json) :=
    match j with
    | JObj m => m
    | JArr l => map (fun p => (nat_to_string (fst p), snd p)) (enum l)
    | JNull => []
    | _ => [(EmptyString, j)]
    end.
  (** for (const auto& x : j): values. *)
  Definition jvalues (j : json) : list json := map snd (jitems j).

  (** get<std::vector<double>>() and get<std::vector<std::vector<double>>>():
      type_error.302 unless it is an array. *)
  Definition jget_vec (j : json) : outcome (list T) :=
    match j with JArr l => mapM jget_double l | _ => Throw JsonTypeError end.
  Definition jget_vecvec (j : json) : outcome (list (list T)) :=
    match j with JArr l => mapM jget_vec l | _ => Throw JsonTypeError end.
  (** get<std::array<double,2>>(): at(0) and at(1); longer arrays are accepted. *)
  Definition jget_arr2 (j : json) : outcome (T * T) :=
    match j with
    | JArr (a :: b :: _) => let* x := jget_double a in let* y := jget_double b in Ok (x, y)
    | JArr _ => Throw JsonOutOfRange
    | _ => Throw JsonTypeError
    end.
End Json.

(** ** Parsing
    The text of a JSON document is modelled by its syntax tree: the members of an object in
    the order in which they are written. json::parse stores objects in a std::map, assigning
    members one after the other (a repeated key keeps the last value). *)
Inductive jtext (T : Type) :=
| TNull | TBool (b : bool) | TInt (z : Z) | TFloat (x : T) | TStr (s : string)
| TArr (l : list (jtext T))
| TObj (m : list (string * jtext T)).
Arguments TNull {T}. Arguments TBool {T} b. Arguments TInt {T} z. Arguments TFloat {T} x.
Arguments TStr {T} s. Arguments TArr {T} l. Arguments TObj {T} m.

Fixpoint jparse {T} (t : jtext T) : json T :=
  match t with
  | TNull => JNull | TBool b => JBool b | TInt z => JInt z | TFloat x => JFloat x | TStr s => JStr s
  | TArr l => JArr (map jparse l)
  | TObj m =>
      JObj (mset_all ((fix go (m : list (string * jtext T)) : list (string * json T) :=
                         match m with [] => [] | (k, v) :: r => (k, jparse v) :: go r end) m) [])
  end.
