(** Model of src/Domain.h and src/Domain.cpp. *)
From Verif Require Import Prelude StdMap Materials Graph ModelM.

(** Domain.h:8-16. Sets are sorted lists. *)
Record domain := {
  dm_ground : Z;
  dm_conductors : list Z;
  dm_elems : list nat;
  dm_bdr : list nat }.
(** Domain.h:13 *)
Definition empty_domain : domain :=
  {| dm_ground := -1; dm_conductors := []; dm_elems := []; dm_bdr := [] |}.
Definition set_ground (d : domain) (g : Z) : domain :=
  {| dm_ground := g; dm_conductors := dm_conductors d; dm_elems := dm_elems d; dm_bdr := dm_bdr d |}.

Section Domain.
  Context {T : Type} `{Num T}.

  (** Domain.cpp:7-20 buildMeshGraph *)
  Definition buildMeshGraph (m : mesh T) : outcome digraph :=
    foldM (fun g e => addClosedPath g (e_verts e)) (m_elems m) empty_graph.

  (** Domain.cpp:22-53 getBdrElemsInDomain *)
  Definition bdr_in_domain (attr : Z) (vs : list Z) (e : element T) : bool :=
    (e_attr e =? attr)%Z && negb (List.length (sinter vs (sof (e_verts e))) <? 2)%nat.
  Definition getBdrElemsInDomain (attr : Z) (vs : list Z) (m : mesh T) : list nat :=
    fold_left (fun res (ie : nat * element T) =>
                 if bdr_in_domain attr vs (snd ie) then sins (fst ie) res else res)
              (enum (m_bdr m)) [].

  (** Domain.cpp:55-97 DomainTree constructor *)
  Definition tree_check_step (found : bool) (d : Z * domain) : outcome bool :=
    if smem 0%Z (dm_conductors (snd d)) then
      if found then Throw (RuntimeError "Conductor 0 must be only in a single domain.")
      else Ok true
    else Ok found.
  Definition tree_vertices (ds : list (Z * domain)) : digraph * list (Z * Z) :=
    fold_left (fun (s : digraph * list (Z * Z)) (d : Z * domain) =>
                 (addVertex (fst s) (fst d),
                  fold_left (fun mm c => mmins c (fst d) mm) (dm_conductors (snd d)) (snd s)))
              ds (empty_graph, []).
  (** state of the loop of lines 84-93: graph, prevCondId, prevDomId *)
  Definition tree_edge_step (s : digraph * (Z * Z)) (cd : Z * Z) : outcome (digraph * (Z * Z)) :=
    let '(g, (prevC, prevD)) := s in
    if (fst cd =? prevC)%Z then
      let* g' := addEdge g prevD (snd cd) in Ok (g', (prevC, prevD))
    else Ok (addVertex g (snd cd), (fst cd, snd cd)).
  Definition mkDomainTree (dbg : bool) (ds : list (Z * domain)) : outcome digraph :=
    let* found := foldM tree_check_step ds false in
    if negb found then Throw (RuntimeError "Conductor 0 is not present")
    else
      let (g, mm) := tree_vertices ds in
      let* r := foldM tree_edge_step mm (g, (-1, -1)%Z) in
      do* assert_ dbg (List.length (findCycles (fst r)) =? 0)%nat;
      Ok (fst r).

  (** Domain.cpp:99-163 buildDomains *)
  Definition domain_elems (m : mesh T) (vs : list Z) : list nat :=
    fold_left (fun r (ie : nat * element T) =>
                 if forallb (fun v => smem v vs) (e_verts (snd ie)) then sins (fst ie) r else r)
              (enum (m_elems m)) [].
  Definition domain_of_part (m : mesh T) (ps : list (pec T)) (part : digraph) : outcome domain :=
    let vs := getVertices part in
    foldM (fun d p =>
             let be := getBdrElemsInDomain (p_attr p) vs m in
             match be with
             | [] => Ok d
             | _ => let* id := getMaterialIdFromName (p_name p) in
                    Ok {| dm_ground := dm_ground d;
                          dm_conductors := sins id (dm_conductors d);
                          dm_elems := dm_elems d;
                          dm_bdr := sins_all be (dm_bdr d) |}
             end)
          ps
          {| dm_ground := -1; dm_conductors := []; dm_elems := domain_elems m vs; dm_bdr := [] |}.
  Definition ground_step (dbg : bool) (res : list (Z * domain)) (e : Z * Z)
    : outcome (list (Z * domain)) :=
    match mget (fst e) res, mget (snd e) res with
    | Some d1, Some d2 =>
        let common := sinter (dm_conductors d1) (dm_conductors d2) in
        do* assert_ dbg (List.length common =? 1)%nat;
        match common with
        | [] => Undef UninitialisedRead
        | c :: _ => Ok (mset (snd e) (set_ground d2 c) res)
        end
    | _, _ => Undef IndexOutOfBounds   (* operator[] on a missing id: never reached *)
    end.
  Definition ground0 (ds : list (Z * domain)) : list (Z * domain) :=
    map (fun d : Z * domain =>
           (fst d, if smem 0%Z (dm_conductors (snd d)) then set_ground (snd d) 0 else snd d)) ds.
  (** Domains before grounds are set (lines 101-137). *)
  Definition rawDomains (dbg : bool) (mo : model T) : outcome (list (Z * domain)) :=
    let* o := determineOpenness dbg mo in
    if negb (openness_eqb o Closed) then
      Throw (RuntimeError "Domains can only be determined for closed problems.")
    else
      let* g := buildMeshGraph (mo_mesh mo) in
      let* parts := split g in
      let* ds := mapM (domain_of_part (mo_mesh mo) (pecs (mo_mats mo))) parts in
      Ok (map (fun p => (Z.of_nat (fst p), snd p)) (enum ds)).
  Definition buildDomains (dbg : bool) (mo : model T) : outcome (list (Z * domain)) :=
    let* ds := rawDomains dbg mo in
    let ds := ground0 ds in
    let* tree := mkDomainTree dbg ds in
    foldM (ground_step dbg) (getEdgesAsPairs tree) ds.

  (** Domain.cpp:165-227 buildModelForDomain. The global mesh is an explicit state. *)
  Definition set_attr (e : element T) (a : Z) : element T :=
    {| e_attr := a; e_verts := e_verts e; e_vol := e_vol e |}.
  Definition with_elems (m : mesh T) (es : list (element T)) : mesh T :=
    {| m_elems := es; m_bdr := m_bdr m; m_coord := m_coord m |}.
  (** An edge of an element, as an unordered pair of vertices. *)
  Definition same_edge (a b : Z * Z) : bool :=
    ((fst a =? fst b) && (snd a =? snd b) || (fst a =? snd b) && (snd a =? fst b))%Z%bool.
  Definition elem_edges (e : element T) : list (Z * Z) := closed_pairs (e_verts e).
  (** SubMesh::CreateFromDomain (third party): the elements with attribute 1 in their order,
      with the ids of the parent elements (GetParentElementIDMap); vertices are identified by
      their parent ids (the renumbering is injective); boundary elements are generated for the
      edges that belong to exactly one element. *)
  Definition submesh_elems (m : mesh T) (attr : Z) : list (nat * element T) :=
    filter (fun ie : nat * element T => (e_attr (snd ie) =? attr)%Z) (enum (m_elems m)).
  Definition boundary_edges (es : list (element T)) : list (Z * Z) :=
    let all := flat_map elem_edges es in
    filter (fun e => (List.length (filter (same_edge e) all) =? 1)%nat) all.
  (** GetFaceToBdrElMap: the last boundary element on the edge, -1 if none. *)
  Definition edge_of_bdr (e : element T) : option (Z * Z) :=
    match e_verts e with v0 :: v1 :: _ => Some (v0, v1) | _ => None end.
  Definition faceToBdrElem (m : mesh T) (e : Z * Z) : Z :=
    fold_left (fun r (ib : nat * element T) =>
                 match edge_of_bdr (snd ib) with
                 | Some f => if same_edge e f then Z.of_nat (fst ib) else r
                 | None => r
                 end) (enum (m_bdr m)) (-1)%Z.
  (** lines 171-173: std::map from element number to attribute *)
  Definition attr_backup (m : mesh T) : list (nat * Z) :=
    fold_left (fun r (ie : nat * element T) => mins (fst ie) (e_attr (snd ie)) r)
              (enum (m_elems m)) [].
  (** lines 176-183 *)
  Definition mark_domain (m : mesh T) (d : domain) : mesh T :=
    with_elems m (map (fun ie : nat * element T =>
                         set_attr (snd ie) (if smem (fst ie) (dm_elems d) then 1 else 2)%Z)
                      (enum (m_elems m))).
  (** lines 216-218 *)
  Definition restore (m : mesh T) (backup : list (nat * Z)) : outcome (mesh T) :=
    let* es := mapM (fun ie : nat * element T =>
                       let* a := mat_ (fst ie) backup in Ok (set_attr (snd ie) a))
                    (enum (m_elems m)) in
    Ok (with_elems m es).
  (** Result: the global mesh afterwards and the model. *)
  Definition buildModelForDomain (gm : mesh T) (mats : materials T) (d : domain)
    : outcome (mesh T * model T) :=
    let backup := attr_backup gm in
    let gm1 := mark_domain gm d in
    let sub := submesh_elems gm1 1 in
    let* es := mapM (fun ie : nat * element T =>
                       let* a := mat_ (fst ie) backup in Ok (set_attr (snd ie) a)) sub in
    let* bs := mapM (fun e : Z * Z =>
                       let* b := vec_at (m_bdr gm1) (faceToBdrElem gm1 e) in
                       Ok {| e_attr := e_attr b; e_verts := [fst e; snd e]; e_vol := e_vol b |})
                    (boundary_edges (map snd sub)) in
    let* gm2 := restore gm1 backup in
    let sm := {| m_elems := es; m_bdr := bs; m_coord := m_coord gm |} in
    Ok (gm2, setGround (mkModel sm mats) (dm_ground d)).
End Domain.
