(** Model of src/Model.h and src/Model.cpp. *)
From Verif Require Import Prelude StdMap Materials Graph.

(** ** The parts of mfem::Mesh that the code reads (third party).
    Domain elements (GetElement), boundary elements (GetBdrElement), their attribute and
    vertices, the vertex coordinates (GetVertex) and the area of an element
    (GetElementVolume), which MFEM computes from the geometry and is kept here as data. *)
Record element (T : Type) := { e_attr : Z; e_verts : list Z; e_vol : T }.
Arguments e_attr {T}. Arguments e_verts {T}. Arguments e_vol {T}.
Record mesh (T : Type) := {
  m_elems : list (element T);
  m_bdr : list (element T);
  m_coord : Z -> T * T }.
Arguments m_elems {T}. Arguments m_bdr {T}. Arguments m_coord {T}.

(** Model.h:8-26 Box *)
Record box (T : Type) := { b_min : T * T; b_max : T * T }.
Arguments b_min {T}. Arguments b_max {T}.

Section Box.
  Context {T : Type} `{Num T}.
  Open Scope num_scope.
  (** Model.h:11-14 *)
  Definition box_area (b : box T) : T :=
    (fst (b_max b) - fst (b_min b)) * (snd (b_max b) - snd (b_min b)).
  (** Model.h:16-20 *)
  Definition isWithinBox (b : box T) (p : T * T) : bool :=
    (nleb (fst (b_min b)) (fst p) && nleb (fst p) (fst (b_max b))) &&
    (nleb (snd (b_min b)) (snd p) && nleb (snd p) (snd (b_max b))).
  (** Model.h:22-25 *)
  Definition pair_eqb (p q : T * T) : bool := neqb (fst p) (fst q) && neqb (snd p) (snd q).
  Definition box_eqb (a b : box T) : bool :=
    pair_eqb (b_min a) (b_min b) && pair_eqb (b_max a) (b_max b).
End Box.

(** Model.h:30-34 *)
Inductive openness := Open | SemiOpen | Closed.
Definition openness_eqb (a b : openness) : bool :=
  match a, b with Open, Open | SemiOpen, SemiOpen | Closed, Closed => true | _, _ => false end.

Section Model.
  Context {T : Type} `{Num T}.
  Open Scope num_scope.

  (** Model.h:56-59 *)
  Record model := { mo_mats : materials T; mo_mesh : mesh T; mo_ground : Z }.

  (** Model.cpp:12-22 getElementsWithAttribute (boundary elements) *)
  Definition getElementsWithAttribute (m : mesh T) (attr : Z) : list (element T) :=
    filter (fun e => (e_attr e =? attr)%Z) (m_bdr m).

  (** Model.cpp:24-46 determineClosedLoops. The assert on the element type (line 29) is
      replaced by reading the first two vertices: boundary elements of 2D meshes are
      segments. *)
  Definition loops_step (s : digraph * list (Z * element T)) (e : element T)
    : outcome (digraph * list (Z * element T)) :=
    let* v0 := vec_at (e_verts e) 0 in
    let* v1 := vec_at (e_verts e) 1 in
    let* g := addEdge (fst s) v0 v1 in
    Ok (g, mset v0 e (snd s)).
  Definition determineClosedLoops (elems : list (element T)) : outcome (list (nat * element T)) :=
    let* gv := foldM loops_step elems (empty_graph, []) in
    foldM (fun res (ic : nat * list Z) =>
             foldM (fun res v => let* e := mat_ v (snd gv) in Ok (mmins (fst ic) e res))
                   (snd ic) res)
          (enum (findCycles (fst gv))) [].

  (** Model.cpp:48-74 filterOutMaterialsNotPresentInMesh *)
  Definition present (l : list (element T)) (attr : Z) : bool :=
    existsb (fun e => (e_attr e =? attr)%Z) l.
  Definition emplace_present (l : list (element T)) (all inmesh : list (string * Z))
    : list (string * Z) :=
    fold_left (fun r (na : string * Z) =>
                 if present l (snd na) then mins (fst na) (snd na) r else r) all inmesh.
  Definition filterOutMaterialsNotPresentInMesh (mats : materials T) (m : mesh T) : materials T :=
    let all := buildNameToAttrMap mats in
    let inMesh := emplace_present (m_elems m) all (emplace_present (m_bdr m) all []) in
    removeMaterialsNotInList mats inMesh.

  (** Model.cpp:76-82 constructor; Model.h:59 default ground *)
  Definition mkModel (m : mesh T) (mats : materials T) : model :=
    {| mo_mats := filterOutMaterialsNotPresentInMesh mats m; mo_mesh := m; mo_ground := 0 |}.

  (** Model.h:48 setGroundConductorId *)
  Definition setGround (m : model) (id : Z) : model :=
    {| mo_mats := mo_mats m; mo_mesh := mo_mesh m; mo_ground := id |}.

  (** Model.cpp:84-87 *)
  Definition elementsFormOpenLoops (elems : list (element T)) : outcome bool :=
    let* l := determineClosedLoops elems in
    Ok (negb (List.length l =? List.length elems)%nat).

  (** Model.cpp:89-92 *)
  Definition numberOfConductors (m : model) : nat := List.length (nameToAttr_PEC (mo_mats m)).

  (** Model.cpp:94-108 determineOpenness *)
  Fixpoint openness_loop (ms : mesh T) (l : list openbdr) : outcome openness :=
    match l with
    | [] => Ok SemiOpen
    | o :: r => let* b := elementsFormOpenLoops (getElementsWithAttribute ms (o_attr o)) in
                if b then openness_loop ms r else Ok Open
    end.
  Definition determineOpenness (dbg : bool) (m : model) : outcome openness :=
    let obs := openBoundaries (mo_mats m) in
    do* assert_ dbg (List.length obs <=? 1)%nat;
    if (List.length obs =? 0)%nat then Ok Closed else openness_loop (mo_mesh m) obs.

  (** Model.cpp:110-132 getAreaOfMaterial *)
  Definition sum_areas (l : list (element T)) (tag : Z) : T :=
    fold_left (fun a e => if (tag =? e_attr e)%Z then a + e_vol e else a) l n0.
  Definition getAreaOfMaterial (m : model) (name : string) : outcome T :=
    match mget name (buildNameToAttrMap (mo_mats m)) with
    | None => Throw (RuntimeError "Unable to determine inner region.")
    | Some tag =>
        if isDomainMaterial (mo_mats m) name then Ok (sum_areas (m_elems (mo_mesh m)) tag)
        else let* p := get_PEC_by_name (mo_mats m) name in Ok (p_area p)
    end.

  (** std::min(a, b), std::max(a, b) *)
  Definition nmin (a b : T) : T := if nltb b a then b else a.
  Definition nmax (a b : T) : T := if nltb a b then b else a.

  (** Model.cpp:134-160 getBoundingBoxOfMaterial. The start value (+inf, -inf) is the neutral
      element of min/max and is represented by [None]; coordinates are finite. *)
  Definition grow (b : option (box T)) (p : T * T) : option (box T) :=
    match b with
    | None => Some {| b_min := p; b_max := p |}
    | Some b => Some {| b_min := (nmin (fst (b_min b)) (fst p), nmin (snd (b_min b)) (snd p));
                        b_max := (nmax (fst (b_max b)) (fst p), nmax (snd (b_max b)) (snd p)) |}
    end.
  Definition bbox_of (m : mesh T) (tag : Z) : option (box T) :=
    fold_left (fun b e => if (e_attr e =? tag)%Z
                          then fold_left (fun b v => grow b (m_coord m v)) (e_verts e) b else b)
              (m_elems m) None.
  Definition empty_box : box T := {| b_min := (ninf, ninf); b_max := (- ninf, - ninf) |}.
  Definition getBoundingBoxOfMaterial (m : model) (name : string) : outcome (box T) :=
    let* tag := mat_ name (buildNameToAttrMap (mo_mats m)) in
    Ok (match bbox_of (mo_mesh m) tag with Some b => b | None => empty_box end).
End Model.
Arguments model T : clear implicits.
