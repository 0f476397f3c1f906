(** Specification vocabulary for finite elements of any order on triangles (C85): what a reference
    element has to satisfy, and potentials and fields as functions on the triangles and their sides. *)
From Coq Require Import Reals Ranalysis1.
From Verif Require Import Prelude Materials ModelM Parser Matrix Solver Fem Driver RSum SpecInput SpecModel SpecDriver SpecFem Triangles SpecTriangles Elements.
Open Scope R_scope.
Open Scope list_scope.

(** The coefficients of an element: three vertices, three sides (each in its own direction), interior *)
Definition local (a b c : R) (l0 l1 l2 l : list R) : list R := a :: b :: c :: l0 ++ l1 ++ l2 ++ l.
Definition sized (n m : nat) (l0 l1 l2 l : list R) : Prop :=
  List.length l0 = n /\ List.length l1 = n /\ List.length l2 = n /\ List.length l = m.
Definition applied (rows : list (list R)) (z : list R) : list R := map (fun r => dot r z) rows.

Section Reference.
  Variable ref : reference R.
  Notation ns := (re_side ref).
  Notation ni := (re_inner ref).
  Notation ms := (re_side_nd ref).
  Notation mi := (re_inner_nd ref).
  (** Conditions on the reference triangle alone (they do not depend on the mesh). *)
  Record reference_ok : Prop := {
    (** sizes of the tables *)
    ro_sizes : (forall p, List.length (re_h1 ref p) = (3 + (ns + (ns + (ns + ni))))%nat /\
                  List.length (re_h1x ref p) = (3 + (ns + (ns + (ns + ni))))%nat /\ List.length (re_h1y ref p) = (3 + (ns + (ns + (ns + ni))))%nat /\
                  List.length (re_ndx ref p) = (ms + (ms + (ms + mi)))%nat /\ List.length (re_ndy ref p) = (ms + (ms + (ms + mi)))%nat) /\
               (forall s, List.length (re_seg ref s) = (2 + ns)%nat /\ List.length (re_flux ref s) = ms) /\
               List.length (re_side_grad ref) = ms /\ List.length (re_inner_grad ref) = mi;
    (** quadrature rules with positive weights; the two rules for triangles agree on products of derivatives *)
    ro_rules : (forall q, In q (re_rule1 ref) -> 0 <= fst q <= 1 /\ 0 < snd q) /\ Rsum (re_rule1 ref) snd = 1 /\
               (forall q, In q (re_rule0 ref) -> 0 < snd q) /\ (forall q, In q (re_rule2 ref) -> 0 < snd q);
    ro_quadrature : forall z w d d', List.length z = (3 + (ns + (ns + (ns + ni))))%nat -> List.length w = (3 + (ns + (ns + (ns + ni))))%nat -> (d = re_h1x ref \/ d = re_h1y ref) -> (d' = re_h1x ref \/ d' = re_h1y ref) ->
      Rsum (re_rule0 ref) (fun q => snd q * (dot (d (fst q)) z * dot (d' (fst q)) w)) =
      Rsum (re_rule2 ref) (fun q => snd q * (dot (d (fst q)) z * dot (d' (fst q)) w));
    (** the derivatives are derivatives (in every direction) *)
    ro_derivative : forall z p u, List.length z = (3 + (ns + (ns + (ns + ni))))%nat -> derivable_pt_lim (fun t => dot (re_h1 ref (fst p + t * fst u, snd p + t * snd u)) z) 0
                                    (dot (re_h1x ref p) z * fst u + dot (re_h1y ref p) z * snd u);
    (** constants belong to the space *)
    ro_constant : forall p, dot (re_h1 ref p) (repeat 1 (3 + (ns + (ns + (ns + ni))))) = 1 /\
      dot (re_h1x ref p) (repeat 1 (3 + (ns + (ns + (ns + ni))))) = 0 /\ dot (re_h1y ref p) (repeat 1 (3 + (ns + (ns + (ns + ni))))) = 0;
    (** a function whose derivatives vanish at the points of the rule has equal coefficients *)
    ro_flat : forall z, List.length z = (3 + (ns + (ns + (ns + ni))))%nat ->
      (forall q, In q (re_rule0 ref) -> dot (re_h1x ref (fst q)) z = 0 /\ dot (re_h1y ref (fst q)) z = 0) ->
      exists c, z = repeat c (3 + (ns + (ns + (ns + ni))));
    (** a field that vanishes at the points of the rule is zero *)
    ro_field : forall d, List.length d = (ms + (ms + (ms + mi)))%nat ->
      (forall q, In q (re_rule2 ref) -> dot (re_ndx ref (fst q)) d = 0 /\ dot (re_ndy ref (fst q)) d = 0) ->
      d = repeat 0 (ms + (ms + (ms + mi)));
    (** on a side only its own coefficients count, the same on all sides and in both directions *)
    ro_trace : forall s a b c l0 l1 l2 l, sized ns ni l0 l1 l2 l ->
      dot (re_h1 ref (s, 0)) (local a b c l0 l1 l2 l) = dot (re_seg ref s) (a :: b :: l0) /\
      dot (re_h1 ref (1 - s, s)) (local a b c l0 l1 l2 l) = dot (re_seg ref s) (b :: c :: l1) /\
      dot (re_h1 ref (0, 1 - s)) (local a b c l0 l1 l2 l) = dot (re_seg ref s) (c :: a :: l2);
    ro_reverse : forall s a b l, List.length l = ns -> dot (re_seg ref (1 - s)) (b :: a :: rev l) = dot (re_seg ref s) (a :: b :: l);
    ro_segment : forall z, List.length z = (2 + ns)%nat -> (forall s, 0 <= s <= 1 -> dot (re_seg ref s) z = 0) -> z = repeat 0 (2 + ns);
    ro_tangent : forall s l0 l1 l2 l, sized ms mi l0 l1 l2 l ->
      dot (re_ndx ref (s, 0)) (l0 ++ l1 ++ l2 ++ l) = dot (re_flux ref s) l0 /\
      dot (re_ndy ref (1 - s, s)) (l0 ++ l1 ++ l2 ++ l) - dot (re_ndx ref (1 - s, s)) (l0 ++ l1 ++ l2 ++ l) = dot (re_flux ref s) l1 /\
      - dot (re_ndy ref (0, 1 - s)) (l0 ++ l1 ++ l2 ++ l) = dot (re_flux ref s) l2;
    ro_flux_reverse : forall s l, List.length l = ms -> dot (re_flux ref (1 - s)) (rev l) = dot (re_flux ref s) l;
    (** the gradient of every H1 function is the Nedelec function with these coefficients *)
    ro_gradient : forall p a b c l0 l1 l2 l, sized ns ni l0 l1 l2 l ->
      let e := applied (re_side_grad ref) (a :: b :: l0) ++ applied (re_side_grad ref) (b :: c :: l1) ++
               applied (re_side_grad ref) (c :: a :: l2) ++ applied (re_inner_grad ref) (local a b c l0 l1 l2 l) in
      dot (re_h1x ref p) (local a b c l0 l1 l2 l) = dot (re_ndx ref p) e /\ dot (re_h1y ref p) (local a b c l0 l1 l2 l) = dot (re_ndy ref p) e;
    ro_gradient_reverse : forall a b l, List.length l = ns ->
      applied (re_side_grad ref) (b :: a :: rev l) = rev (map Ropp (applied (re_side_grad ref) (a :: b :: l))) }.
End Reference.

Section Functions.
  Variable ref : reference R.
  Variable ms : mesh R.
  Notation D := (elements ref distance ms).
  (** Triangles with their numbers *)
  Definition triangle (x : nat * element R) : Prop := nth_error (m_elems ms) (fst x) = Some (snd x).
  (** The potential at the point [p] of the reference triangle, on the element [x], and its gradient *)
  Definition value_in (phi : list R) (x : nat * element R) (p : R * R) : R := dot (spread (n_h1 ref ms) (h1_dofs ref ms x) (re_h1 ref p)) phi.
  Definition gradient_in (phi : list R) (x : nat * element R) (p : R * R) : R * R := (dot (h1_x ref ms x p) phi, dot (h1_y ref ms x p) phi).
  (** The field with the coefficients [d] of the Nedelec space *)
  Definition field_in (d : list R) (x : nat * element R) (p : R * R) : R * R := (dot (ned_x ref ms x p) d, dot (ned_y ref ms x p) d).
  (** and of the Raviart-Thomas space *)
  Definition flux_in (d : list R) (x : nat * element R) (p : R * R) : R * R := (dot (rav_x ref ms x p) d, dot (rav_y ref ms x p) d).
  (** Where the point [p] of the reference triangle lies *)
  Definition place (e : element R) (p : R * R) : R * R :=
    match e_verts e with
    | [a; b; c] =>
        let A := m_coord ms a in let B := m_coord ms b in let C := m_coord ms c in
        ((1 - fst p - snd p) * fst A + fst p * fst B + snd p * fst C, (1 - fst p - snd p) * snd A + fst p * snd B + snd p * snd C)
    | _ => (0, 0) end.
  (** [g] is the gradient of the potential on the element [x] at the point [p]: the derivative in the
      direction [u] of the reference triangle is the product of [g] and the way covered. *)
  Definition is_gradient (phi : list R) (x : nat * element R) (p g : R * R) : Prop :=
    forall u, let q := place (snd x) (fst p + fst u, snd p + snd u) in let q0 := place (snd x) p in
      derivable_pt_lim (fun t => value_in phi x (fst p + t * fst u, snd p + t * snd u)) 0
        (fst g * (fst q - fst q0) + snd g * (snd q - snd q0)).
  (** [p] is the point of the reference triangle at the fraction [s] of the side from [v] to [w]. *)
  Definition on_side (e : element R) (v w : Z) (s : R) (p : R * R) : Prop :=
    exists a b c, e_verts e = [a; b; c] /\
      ((v, w) = (a, b) /\ p = (s, 0) \/ (v, w) = (b, c) /\ p = (1 - s, s) \/ (v, w) = (c, a) /\ p = (0, 1 - s)).
  (** [phi] is continuous: on a side of two triangles both give the same values. *)
  Definition continuous (phi : list R) : Prop :=
    forall x x' v w s p p', triangle x -> triangle x' -> on_side (snd x) v w s p ->
      (on_side (snd x') v w s p' \/ on_side (snd x') w v (1 - s) p') -> value_in phi x p = value_in phi x' p'.
  (** [phi] has the potentials [v] (by tag) in every point of the conductors. *)
  Definition held_along (m : materials R) (v : Z -> R) (phi : list R) : Prop :=
    List.length phi = n_h1 ref ms /\
    forall c b x v1 v2 s p, In c (pecs m) -> In b (m_bdr ms) -> e_attr b = p_attr c -> e_verts b = [v1; v2] ->
      triangle x -> 0 <= s <= 1 -> on_side (snd x) v1 v2 s p -> value_in phi x p = v (p_attr c).
  (** Component of a field along the way from vertex [v] to [w], and flow across it (to the right), both times its length *)
  Definition along_side (f : R * R) (v w : Z) : R :=
    fst f * (fst (m_coord ms w) - fst (m_coord ms v)) + snd f * (snd (m_coord ms w) - snd (m_coord ms v)).
  Definition across_side (f : R * R) (v w : Z) : R :=
    fst f * (snd (m_coord ms w) - snd (m_coord ms v)) - snd f * (fst (m_coord ms w) - fst (m_coord ms v)).
  (** Two triangles with a common side see the same component [part] of a field on it. *)
  Definition side_continuous (f : nat * element R -> R * R -> R * R) (part : R * R -> Z -> Z -> R) : Prop :=
    forall x x' v w s p p', triangle x -> triangle x' -> on_side (snd x) v w s p ->
      (on_side (snd x') v w s p' \/ on_side (snd x') w v (1 - s) p') -> part (f x p) v w = part (f x' p') v w.
  (** [j] is the flow of D across the boundary element [b] (out of the domain, times its length) at the fraction [s] *)
  Definition outflow (d : list R) (b : element R) (s j : R) : Prop :=
    exists v w x p, e_verts b = [v; w] /\ triangle x /\ on_side (snd x) v w s p /\ j = across_side (flux_in d x p) v w.
  (** 1/2 integral of eps |grad phi|^2, with the quadrature rule of the reference triangle *)
  Definition energy_by_rule (eps : Z -> R) (phi : list R) : R :=
    Rsum (numbered ms) (fun x => / 2 * eps (e_attr (snd x)) * (2 * area ms (snd x)) *
      Rsum (re_rule0 ref) (fun q => snd q * (fst (gradient_in phi x (fst q)) * fst (gradient_in phi x (fst q)) + snd (gradient_in phi x (fst q)) * snd (gradient_in phi x (fst q))))).
  (** Integral over the domain with the rule for vector fields; inner product *)
  Definition integral_by_rule (f : nat * element R -> R * R -> R) : R :=
    Rsum (numbered ms) (fun x => 2 * area ms (snd x) * Rsum (re_rule2 ref) (fun q => snd q * f x (fst q))).
End Functions.
Definition inner (f g : R * R) : R := fst f * fst g + snd f * snd g.

(** Elements of any order, from the reference elements given *)
Definition elements_of (ref : Z -> reference R) : mesh R -> Z -> discretization R := fun ms k => elements (ref k) distance ms.
(** A Driver of any order built for a cross section; [conds]: its conductors by number. *)
Record element_driver (ref : Z -> reference R) (abc : R * R -> R) (dbg : bool) (m : model R) (o : driver_options) (d : driver R) (conds : list (pec R)) : Prop := {
  ed_reference : reference_ok (ref (o_order o));
  ed_section : cross_section abc m;
  ed_built : built dbg (galerkin abc (elements_of ref)) m o d;
  ed_conductors : in_order (mo_mats m) conds }.

(** ** Quadrature rules of the reference triangle for elements of order [k] *)
(** The polynomial of degree [n] with the coefficients [a] *)
Definition poly (n : nat) (a : nat -> nat -> R) (p : R * R) : R :=
  Sum (S n) (fun i => Sum (S (n - i)) (fun j => a i j * (fst p ^ i * snd p ^ j))).
(** The rule integrates polynomials of degree [n] exactly (the integral of x^i y^j is i! j! / (i + j + 2)!). *)
Definition exact_to (n : nat) (rule : list (R * R * R)) : Prop :=
  forall i j, (i + j <= n)%nat -> Rsum rule (fun q => snd q * (fst (fst q) ^ i * snd (fst q) ^ j)) = INR (fact i * fact j) / INR (fact (i + j + 2)).
(** Only the polynomial zero vanishes at all points of the rule. *)
Definition unisolvent (n : nat) (rule : list (R * R * R)) : Prop :=
  forall a, (forall q, In q rule -> poly n a (fst q) = 0) -> forall i j, (i + j <= n)%nat -> a i j = 0.
Record rules_of_order (k : nat) (rule1 : list (R * R)) (rule0 rule2 : list (R * R * R)) : Prop := {
  rk_segment : (forall q, In q rule1 -> 0 <= fst q <= 1 /\ 0 < snd q) /\ Rsum rule1 snd = 1;
  rk_gradient : (forall q, In q rule0 -> 0 < snd q) /\ exact_to (2 * (k - 1)) rule0 /\ unisolvent (k - 1) rule0;
  rk_vector : (forall q, In q rule2 -> 0 < snd q) /\ exact_to (2 * (k - 1)) rule2 /\ unisolvent k rule2 }.
