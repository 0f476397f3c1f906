(** Model of src/Results.h and src/Results.cpp. *)
From Verif Require Import Prelude StdMap Json ModelM Matrix.
Open Scope string_scope.

Section Results.
  Context {T : Type} `{Num T}.
  Notation json := (json T).
  Open Scope num_scope.

  (** Results.cpp:19-30 toVecVec *)
  Definition toVecVec (m : matrix T) : list (list T) := rows_list m.

  (** Results.cpp:41-62 toMFEMDenseMatrix *)
  Definition toMFEMDenseMatrix (v : list (list T)) : outcome (matrix T) :=
    match v with
    | [] => Ok (zero_matrix 0 0)
    | r0 :: _ =>
        if (List.length r0 =? 0)%nat then Ok (zero_matrix 0 0)
        else if forallb (fun r => (List.length r =? List.length r0)%nat) v
             then Ok {| nr := List.length v; nc := List.length r0;
                        ent := fun i j => nth j (nth i v []) n0 |}
             else Throw (RuntimeError "vec-vec matrix is not square.")
    end.

  (** Results.h:14-25 PULParameters *)
  Record pul := { pul_L : matrix T; pul_C : matrix T }.

  (** nlohmann: conversion of vectors to JSON arrays *)
  Definition jvec (l : list T) : json := JArr (map JFloat l).
  Definition jvecvec (l : list (list T)) : json := JArr (map jvec l).

  (** Results.cpp:64-71 PULParameters(const json&) *)
  Definition pulFromJSON (j : json) : outcome pul :=
    if negb (jcontains "C" j) || negb (jcontains "L" j) then
      Throw (RuntimeError "JSON does not contain C and/or L.")
    else
      let* jc := jat "C" j in
      let* vc := jget_vecvec jc in
      let* c := toMFEMDenseMatrix vc in
      let* jl := jat "L" j in
      let* vl := jget_vecvec jl in
      let* l := toMFEMDenseMatrix vl in
      Ok {| pul_L := l; pul_C := c |}.

  Definition vecvec_eqb : list (list T) -> list (list T) -> bool := list_eqb (list_eqb neqb).
  (** Results.cpp:73-78 operator== *)
  Definition pul_eqb (a b : pul) : bool :=
    vecvec_eqb (toVecVec (pul_C a)) (toVecVec (pul_C b)) &&
    vecvec_eqb (toVecVec (pul_L a)) (toVecVec (pul_L b)).

  (** Results.cpp:80-90 getCapacitiveCouplingCoefficients *)
  Definition coupling_rows_ok (C : matrix T) : bool := (nr C <=? nc C)%nat.
  Definition getCapacitiveCouplingCoefficients (p : pul) : outcome (matrix T) :=
    let C := pul_C p in
    if coupling_rows_ok C then
      Ok {| nr := nr C; nc := nc C; ent := fun i j => ent C i j / ent C i i |}
    else Undef IndexOutOfBounds.   (* C(i,i) with i >= NumCols *)

  (** Results.cpp:92-98 toJSON *)
  Definition pulToJSON (p : pul) : json :=
    JObj (mset "L" (jvecvec (toVecVec (pul_L p))) (mset "C" (jvecvec (toVecVec (pul_C p))) [])).

  (** Results.cpp:100-104 saveToJSONFile writes the text of the value: nlohmann writes floats
      with enough digits to read them back, and null for those that are not finite. *)
  Definition nfinite (x : T) : bool := neqb (x - x) n0.
  Fixpoint jdump (j : json) : jtext T :=
    match j with
    | JNull => TNull | JBool b => TBool b | JInt z => TInt z
    | JFloat x => if nfinite x then TFloat x else TNull
    | JStr s => TStr s
    | JArr l => TArr (map jdump l)
    | JObj m => TObj ((fix go (m : list (string * json)) : list (string * jtext T) :=
                         match m with [] => [] | (k, v) :: r => (k, jdump v) :: go r end) m)
    end.

  (** Results.h:36-44 FieldReconstruction *)
  Record fieldrec := {
    fr_avg : T;
    fr_center : T * T;
    fr_ab : list (T * T);
    fr_pots : list (Z * T) }.

  (** Results.h:46-61 InCellPotentials *)
  Record incell := {
    ic_box : box T;
    ic_electric : list (Z * fieldrec);
    ic_magnetic : list (Z * fieldrec) }.

  (** coeffs[k] on a const json: type_error on non arrays, undefined past the end. *)
  Definition jindex (k : nat) (j : json) : outcome json :=
    match j with
    | JArr l => match nth_error l k with Some x => Ok x | None => Undef IndexOutOfBounds end
    | _ => Throw JsonTypeError
    end.
  (** Results.cpp:106-113 multipolarCoefficientsFromJSON *)
  Definition multipolarCoefficientsFromJSON (j : json) : outcome (list (T * T)) :=
    mapM (fun c => let* j0 := jindex 0 c in let* j1 := jindex 1 c in
                   let* a := jget_double j0 in let* b := jget_double j1 in Ok (a, b)) (jvalues j).

  (** Results.cpp:115-136 potentialsFromJSON: ids are renumbered 0, 1, ... *)
  Definition numbered {A} (l : list A) : list (Z * A) :=
    map (fun p => (Z.of_nat (fst p), snd p)) (enum l).
  Definition fieldFromJSON (f : json) : outcome fieldrec :=
    let* ja := jat "innerRegionAveragePotential" f in
    let* a := jget_double ja in
    let* jc := jat "expansionCenter" f in
    let* c := jget_arr2 jc in
    let* jab := jat "ab" f in
    let* ab := multipolarCoefficientsFromJSON jab in
    let* jp := jat "conductorPotentials" f in
    let* ps := mapM jget_double (jvalues jp) in
    Ok {| fr_avg := a; fr_center := c; fr_ab := ab; fr_pots := numbered ps |}.
  Definition potentialsFromJSON (j : json) : outcome (list (Z * fieldrec)) :=
    let* fs := mapM fieldFromJSON (jvalues j) in Ok (numbered fs).

  (** Results.cpp:138-145 InCellPotentials(const json&) *)
  Definition incellFromJSON (j : json) : outcome incell :=
    let* jb := jat "innerRegionBox" j in
    let* jmin := jat "min" jb in
    let* bmin := jget_arr2 jmin in
    let* jmax := jat "max" jb in
    let* bmax := jget_arr2 jmax in
    let* je := jat "electric" j in
    let* e := potentialsFromJSON je in
    let* jm := jat "magnetic" j in
    let* m := potentialsFromJSON jm in
    Ok {| ic_box := {| b_min := bmin; b_max := bmax |}; ic_electric := e; ic_magnetic := m |}.

  (** Results.cpp:320-341 FieldReconstruction::operator== *)
  Definition pots_eqb (a b : list (Z * T)) : bool :=
    forallb (fun kv => match mget (fst kv) b with Some v => neqb (snd kv) v | None => false end) a.
  Definition fieldrec_eqb (a b : fieldrec) : bool :=
    if negb (List.length (fr_pots a) =? List.length (fr_pots b))%nat then false
    else neqb (fr_avg a) (fr_avg b) &&
         neqb (fst (fr_center a)) (fst (fr_center b)) &&
         neqb (snd (fr_center a)) (snd (fr_center b)) &&
         list_eqb pair_eqb (fr_ab a) (fr_ab b) &&
         pots_eqb (fr_pots a) (fr_pots b).

  (** Results.cpp:147-162 InCellPotentials::operator==; std::map comparison *)
  Definition fields_eqb : list (Z * fieldrec) -> list (Z * fieldrec) -> bool :=
    list_eqb (fun a b => (fst a =? fst b)%Z && fieldrec_eqb (snd a) (snd b)).
  Definition incell_eqb (a b : incell) : bool :=
    box_eqb (ic_box a) (ic_box b) && fields_eqb (ic_electric a) (ic_electric b) &&
    fields_eqb (ic_magnetic a) (ic_magnetic b).

  (** Results.cpp:302-318 FieldReconstruction::toJSON *)
  Definition jpair (p : T * T) : json := JArr [JFloat (fst p); JFloat (snd p)].
  Definition fieldToJSON (f : fieldrec) : json :=
    JObj (mset "conductorPotentials" (JArr (map (fun kv => JFloat (snd kv)) (fr_pots f)))
         (mset "ab" (JArr (map jpair (fr_ab f)))
         (mset "expansionCenter" (jpair (fr_center f))
         (mset "innerRegionAveragePotential" (JFloat (fr_avg f)) [])))).
  (** Results.cpp:280-300 InCellPotentials::toJSON *)
  Definition incellToJSON (p : incell) : json :=
    JObj (mset "magnetic" (JArr (map (fun kf => fieldToJSON (snd kf)) (ic_magnetic p)))
         (mset "electric" (JArr (map (fun kf => fieldToJSON (snd kf)) (ic_electric p)))
         (mset "innerRegionBox"
               (JObj (mset "max" (jpair (b_max (ic_box p)))
                     (mset "min" (jpair (b_min (ic_box p))) []))) []))).

  (** constants.h:14 and constants.h:20 *)
  Definition EPSILON0_SI : T := lit 88541878176 22.
  Definition MU0_SI : T := lit 4 7 * npi.

  (** ab[0].first: undefined on an empty vector *)
  Definition monopole (f : fieldrec) : outcome T :=
    match fr_ab f with c :: _ => Ok (fst c) | [] => Undef IndexOutOfBounds end.

  (** Results.cpp:164-172 *)
  Definition getCapacitanceUsingInnerRegion (p : incell) (i j : Z) : outcome T :=
    let* f := mat_ j (ic_electric p) in
    let* Q := monopole f in
    let* Vi := mat_ i (fr_pots f) in
    Ok (Q / (- fr_avg f + Vi) * EPSILON0_SI).
  (** Results.cpp:174-182 *)
  Definition getInductanceUsingInnerRegion (p : incell) (i j : Z) : outcome T :=
    let* f := mat_ j (ic_magnetic p) in
    let* Ij := monopole f in
    let* Ai := mat_ i (fr_pots f) in
    Ok ((- fr_avg f + Ai) / Ij * MU0_SI).

  (** std::set<double>, ordered by < *)
  Definition num_ord : Ord T := {| oltb := nltb |}.
  Definition rset (l : list T) : list T := @sof T num_ord l.

  (** Results.cpp:184-222 buildIntegrationPlanesForBox *)
  Definition SAMPLING_POINTS : nat := 100.
  Definition samples (prev next : T) : list T :=
    let step := (next - prev) / nofZ (Z.of_nat SAMPLING_POINTS) in
    map (fun k => prev + nofZ (Z.of_nat k) * step) (seq 0 SAMPLING_POINTS) ++ [next].
  Fixpoint consecutive (l : list T) : list (T * T) :=
    match l with a :: ((b :: _) as r) => (a, b) :: consecutive r | _ => [] end.
  Definition axis_planes (omin omax imin imax : T) : list T :=
    let control := rset [omin; omax; imin; imax] in
    rset (flat_map (fun ab => samples (fst ab) (snd ab)) (consecutive control)).
  Definition outside_ok (omin omax imin imax : T) : bool :=
    negb (nltb imin omin || nltb omax imax).
  Definition buildIntegrationPlanesForBox (outer inner : box T) : outcome (list T * list T) :=
    if negb (outside_ok (fst (b_min outer)) (fst (b_max outer)) (fst (b_min inner)) (fst (b_max inner))
             && outside_ok (snd (b_min outer)) (snd (b_max outer)) (snd (b_min inner)) (snd (b_max inner)))
    then Throw (RuntimeError "Integration box has to be larger than the  inner region.")
    else Ok (axis_planes (fst (b_min outer)) (fst (b_max outer)) (fst (b_min inner)) (fst (b_max inner)),
             axis_planes (snd (b_min outer)) (snd (b_max outer)) (snd (b_min inner)) (snd (b_max inner))).

  (** multipolarExpansion (multipolarExpansion.h), see Multipole.v *)
  Variable expansion : T * T -> list (T * T) -> T * T -> outcome T.

  (** Results.cpp:224-256 getAveragePotential *)
  Definition half : T := lit 5 1.
  Definition cell_step (f : fieldrec) (inner : box T) (x : T * T) (acc : T) (y : T * T) : outcome T :=
    let mid := (half * (fst x + snd x), half * (fst y + snd y)) in
    let area := (snd x - fst x) * (snd y - fst y) in
    if isWithinBox inner mid then Ok acc
    else let* v := expansion mid (fr_ab f) (fr_center f) in Ok (acc + area * v).
  Definition getAveragePotential (f : fieldrec) (inner outer : box T) : outcome T :=
    let* pl := buildIntegrationPlanesForBox outer inner in
    let* outerV := foldM (fun acc x => foldM (cell_step f inner x) (consecutive (snd pl)) acc)
                         (consecutive (fst pl)) n0 in
    Ok ((fr_avg f * box_area inner + outerV) / box_area outer).

  (** Results.cpp:258-267 *)
  Definition getCapacitanceOnBox (p : incell) (i j : Z) (b : box T) : outcome T :=
    let* f := mat_ j (ic_electric p) in
    let* Q := monopole f in
    let* av := getAveragePotential f (ic_box p) b in
    let* Vi := mat_ i (fr_pots f) in
    Ok (Q / (- av + Vi) * EPSILON0_SI).
  (** Results.cpp:269-278: note electric.at(j) in line 274 *)
  Definition getInductanceOnBox (p : incell) (i j : Z) (b : box T) : outcome T :=
    let* f := mat_ j (ic_magnetic p) in
    let* Ij := monopole f in
    let* av := getAveragePotential f (ic_box p) b in
    let* g := mat_ j (ic_electric p) in
    let* Ai := mat_ i (fr_pots g) in
    Ok ((- av + Ai) / Ij * MU0_SI).
End Results.
Arguments pul T : clear implicits.
Arguments fieldrec T : clear implicits.
Arguments incell T : clear implicits.
