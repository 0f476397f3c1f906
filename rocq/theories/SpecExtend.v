(** Specification vocabulary for C75 at any order: elements of higher order contain those of lower order. *)
From Coq Require Import Reals.
From Verif Require Import Prelude ModelM Matrix Solver Fem RSum SpecFem SpecElements Triangles Elements.
Open Scope R_scope.
Open Scope list_scope.

(** Each function of the reference element [ref] is one of [ref']: its coefficients there are the same
    ones at the vertices, those of a side are [S] times the ones of that side (read in either direction),
    those of the interior [I] times all of them; both quadrature rules for gradients agree on products of
    derivatives of the functions of [ref]. *)
Record extends (ref ref' : reference R) (S I : list (list R)) : Prop := {
  er_sizes : List.length S = re_side ref' /\ List.length I = re_inner ref';
  er_value : forall p a b c l0 l1 l2 l, sized (re_side ref) (re_inner ref) l0 l1 l2 l ->
    dot (re_h1 ref' p) (local a b c (applied S (a :: b :: l0)) (applied S (b :: c :: l1)) (applied S (c :: a :: l2)) (applied I (local a b c l0 l1 l2 l))) =
    dot (re_h1 ref p) (local a b c l0 l1 l2 l);
  er_reverse : forall a b l, List.length l = re_side ref -> applied S (b :: a :: rev l) = rev (applied S (a :: b :: l));
  er_rules : forall z w d d', List.length z = List.length (re_h1 ref (0, 0)) -> List.length w = List.length (re_h1 ref (0, 0)) ->
    (d = re_h1x ref \/ d = re_h1y ref) -> (d' = re_h1x ref \/ d' = re_h1y ref) ->
    Rsum (re_rule0 ref') (fun q => snd q * (dot (d (fst q)) z * dot (d' (fst q)) w)) =
    Rsum (re_rule0 ref) (fun q => snd q * (dot (d (fst q)) z * dot (d' (fst q)) w)) }.
