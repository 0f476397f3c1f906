(** Forms of the first order discretization, element by element, in terms of values at vertices and
    fluxes through sides. *)
From Coq Require Import Reals Lra Relations Permutation.
From Verif Require Import Prelude Materials ModelM Matrix Solver Fem RSum ListLemmas SpecSolver SpecField SpecFem SpecTriangles SpecDrawing Triangles SolverProofs FemMore TriProofs TriModel.
Open Scope R_scope.
Open Scope list_scope.

(** Products of linear functions with the values A and B at the corners, integrated over the
    reference triangle *)
Definition tri (A B : R * R * R) : R :=
  let '(a0, a1, a2) := A in let '(b0, b1, b2) := B in
  / 24 * ((a0 + a1 + a2) * (b0 + b1 + b2) + a0 * b0 + a1 * b1 + a2 * b2).
Definition lin (A : R * R * R) (p : R * R) : R := let '(a0, a1, a2) := A in (1 - fst p - snd p) * a0 + fst p * a1 + snd p * a2.
Lemma tri_exact rule A B : exact_for_quadratics rule -> Rsum rule (fun q => snd q * (lin A (fst q) * lin B (fst q))) = tri A B.
Proof.
  intros [E1 Ex Ey Exx Exy Eyy]. destruct A as [[a0 a1] a2], B as [[b0 b1] b2]. unfold lin, tri.
  rewrite (Rsum_ext rule _ (fun q => a0 * b0 * snd q + (a0 * (b1 - b0) + (a1 - a0) * b0) * (snd q * fst (fst q)) + (a0 * (b2 - b0) + (a2 - a0) * b0) * (snd q * snd (fst q))
    + (a1 - a0) * (b1 - b0) * (snd q * (fst (fst q) * fst (fst q))) + ((a1 - a0) * (b2 - b0) + (a2 - a0) * (b1 - b0)) * (snd q * (fst (fst q) * snd (fst q)))
    + (a2 - a0) * (b2 - b0) * (snd q * (snd (fst q) * snd (fst q))))) by (intros; ring).
  rewrite !Rsum_plus, !Rsum_scal, E1, Ex, Ey, Exx, Exy, Eyy. field.
Qed.
Lemma lin_exact rule A : exact_for_quadratics rule -> Rsum rule (fun q => snd q * lin A (fst q)) = / 6 * (fst (fst A) + snd (fst A) + snd A).
Proof.
  intros [E1 Ex Ey Exx Exy Eyy]. destruct A as [[a0 a1] a2]. unfold lin. cbn [fst snd].
  rewrite (Rsum_ext rule _ (fun q => a0 * snd q + (a1 - a0) * (snd q * fst (fst q)) + (a2 - a0) * (snd q * snd (fst q)))) by (intros; ring).
  rewrite !Rsum_plus, !Rsum_scal, E1, Ex, Ey. field.
Qed.
(** Values at the corners of the field with the circulations f0, f1, f2 along the sides; [g]: one
    component of the gradients of the barycentric coordinates *)
Definition corner_values (f g : R * R * R) : R * R * R :=
  let '(f0, f1, f2) := f in let '(g0, g1, g2) := g in (f0 * g1 - f2 * g2, f1 * g2 - f0 * g0, f2 * g0 - f1 * g1).
Definition gradsx (a b c : R * R) : R * R * R := ((snd b - snd c) / det a b c, (snd c - snd a) / det a b c, (snd a - snd b) / det a b c).
Definition gradsy (a b c : R * R) : R * R * R := ((fst c - fst b) / det a b c, (fst a - fst c) / det a b c, (fst b - fst a) / det a b c).
Definition comb (z g : R * R * R) : R := let '(a, b, c) := z in let '(g0, g1, g2) := g in a * g0 + b * g1 + c * g2.
(** energy, flux product and mixed product of a triangle *)
Definition work3 (a b c : R * R) (z w : R * R * R) : R :=
  / 2 * det a b c * (comb z (gradsx a b c) * comb w (gradsx a b c) + comb z (gradsy a b c) * comb w (gradsy a b c)).
Definition mass3 (a b c : R * R) (f h : R * R * R) : R :=
  det a b c * (tri (corner_values f (gradsx a b c)) (corner_values h (gradsx a b c)) + tri (corner_values f (gradsy a b c)) (corner_values h (gradsy a b c))).
Definition total3 (A : R * R * R) : R := fst (fst A) + snd (fst A) + snd A.
Definition mix3 (a b c : R * R) (z h : R * R * R) : R :=
  / 6 * det a b c * (comb z (gradsy a b c) * total3 (corner_values h (gradsx a b c)) - comb z (gradsx a b c) * total3 (corner_values h (gradsy a b c))).
Definition turn3 (z : R * R * R) : R * R * R := let '(a, b, c) := z in (b, c, a).
Lemma det_turn (a b c : R * R) : det b c a = det a b c.
Proof. unfold det. cbn [nsub nmul RNum]. ring. Qed.
Lemma gradsx_turn a b c : gradsx b c a = turn3 (gradsx a b c). Proof. unfold gradsx. now rewrite det_turn. Qed.
Lemma gradsy_turn a b c : gradsy b c a = turn3 (gradsy a b c). Proof. unfold gradsy. now rewrite det_turn. Qed.
Lemma comb_turn z g : comb (turn3 z) (turn3 g) = comb z g.
Proof. destruct z as [[? ?] ?], g as [[? ?] ?]. cbn. ring. Qed.
Lemma corner_turn f g : corner_values (turn3 f) (turn3 g) = turn3 (corner_values f g).
Proof. destruct f as [[? ?] ?], g as [[? ?] ?]. reflexivity. Qed.
Lemma tri_turn A B : tri (turn3 A) (turn3 B) = tri A B.
Proof. destruct A as [[? ?] ?], B as [[? ?] ?]. cbn. ring. Qed.
Lemma total_turn A : total3 (turn3 A) = total3 A.
Proof. destruct A as [[? ?] ?]. unfold total3. cbn. ring. Qed.
Lemma work3_turn a b c z w : work3 b c a (turn3 z) (turn3 w) = work3 a b c z w.
Proof. unfold work3. now rewrite gradsx_turn, gradsy_turn, !comb_turn, det_turn. Qed.
Lemma mass3_turn a b c f h : mass3 b c a (turn3 f) (turn3 h) = mass3 a b c f h.
Proof. unfold mass3. now rewrite gradsx_turn, gradsy_turn, !corner_turn, !tri_turn, det_turn. Qed.
Lemma mix3_turn a b c z h : mix3 b c a (turn3 z) (turn3 h) = mix3 a b c z h.
Proof. unfold mix3. now rewrite gradsx_turn, gradsy_turn, !corner_turn, !total_turn, !comb_turn, det_turn. Qed.
Section Moved.
  Variables s c n tx ty : R.
  Hypothesis Ps : 0 < s.
  Hypothesis Un : c * c + n * n = 1.
  Variable f : R * R -> R * R.
  Hypothesis Ef : forall p, f p = (s * (c * fst p - n * snd p) + tx, s * (n * fst p + c * snd p) + ty).
  Lemma det_moved p q r : det (f p) (f q) (f r) = s * s * det p q r.
  Proof.
    unfold det. rewrite !Ef. cbn [fst snd nsub nmul RNum].
    transitivity (s * s * ((c * c + n * n) * ((fst q - fst p) * (snd r - snd p) - (fst r - fst p) * (snd q - snd p)))); [ring|]. rewrite Un. ring.
  Qed.
  Lemma grads_moved p q r : 0 < det p q r ->
    let gx := gradsx p q r in let gy := gradsy p q r in
    gradsx (f p) (f q) (f r) = ((c * fst (fst gx) - n * fst (fst gy)) / s, (c * snd (fst gx) - n * snd (fst gy)) / s, (c * snd gx - n * snd gy) / s) /\
    gradsy (f p) (f q) (f r) = ((n * fst (fst gx) + c * fst (fst gy)) / s, (n * snd (fst gx) + c * snd (fst gy)) / s, (n * snd gx + c * snd gy) / s).
  Proof.
    intros Pd gx gy. unfold gradsx, gradsy in *. rewrite det_moved. subst gx gy. set (d := det p q r) in *. clearbody d. rewrite !Ef. cbn [fst snd].
    assert (Pair : forall a b c a' b' c' : R, a = a' -> b = b' -> c = c' -> (a, b, c) = (a', b', c')) by (intros; subst; reflexivity).
    split; apply Pair; field; lra.
  Qed.
  Lemma comb_lin z g h a b : comb z (a * fst (fst g) + b * fst (fst h), a * snd (fst g) + b * snd (fst h), a * snd g + b * snd h) = a * comb z g + b * comb z h.
  Proof. destruct z as [[? ?] ?], g as [[? ?] ?], h as [[? ?] ?]. cbn. ring. Qed.
  Lemma work3_moved p q r z w : 0 < det p q r -> work3 (f p) (f q) (f r) z w = work3 p q r z w.
  Proof.
    intros Pd. destruct (grads_moved p q r Pd) as (Ex & Ey). unfold work3. rewrite Ex, Ey, det_moved.
    destruct (gradsx p q r) as [[x0 x1] x2], (gradsy p q r) as [[y0 y1] y2], z as [[z0 z1] z2], w as [[w0 w1] w2]. cbn [comb fst snd].
    set (d := det p q r).
    transitivity (/ 2 * d * ((c * c + n * n) * ((z0 * x0 + z1 * x1 + z2 * x2) * (w0 * x0 + w1 * x1 + w2 * x2) + (z0 * y0 + z1 * y1 + z2 * y2) * (w0 * y0 + w1 * y1 + w2 * y2)))).
    - field. lra.
    - rewrite Un. ring.
  Qed.
  Lemma mix3_moved p q r z w : 0 < det p q r -> mix3 (f p) (f q) (f r) z w = mix3 p q r z w.
  Proof.
    intros Pd. destruct (grads_moved p q r Pd) as (Ex & Ey). unfold mix3. rewrite Ex, Ey, det_moved.
    destruct (gradsx p q r) as [[x0 x1] x2], (gradsy p q r) as [[y0 y1] y2], z as [[z0 z1] z2], w as [[w0 w1] w2]. cbn [comb fst snd corner_values]. unfold total3. cbn [fst snd].
    set (d := det p q r).
    transitivity (/ 6 * d * ((c * c + n * n) * ((z0 * y0 + z1 * y1 + z2 * y2) * (w0 * x1 - w2 * x2 + (w1 * x2 - w0 * x0) + (w2 * x0 - w1 * x1)) - (z0 * x0 + z1 * x1 + z2 * x2) * (w0 * y1 - w2 * y2 + (w1 * y2 - w0 * y0) + (w2 * y0 - w1 * y1))))).
    - field. lra.
    - rewrite Un. ring.
  Qed.
  Lemma pair3 (x y z x' y' z' : R) : x = x' -> y = y' -> z = z' -> (x, y, z) = (x', y', z').
  Proof. now intros -> -> ->. Qed.
  Definition mix2 (k l : R) (A B : R * R * R) : R * R * R :=
    ((k * fst (fst A) + l * fst (fst B)) / s, (k * snd (fst A) + l * snd (fst B)) / s, (k * snd A + l * snd B) / s).
  Lemma corner_mix k l h A B : corner_values h (mix2 k l A B) = mix2 k l (corner_values h A) (corner_values h B).
  Proof.
    destruct A as [[? ?] ?], B as [[? ?] ?], h as [[? ?] ?]. unfold mix2. cbn [corner_values fst snd]. apply pair3; unfold Rdiv; ring.
  Qed.
  Lemma tri_mix A B A' B' : s * s * (tri (mix2 c (- n) A B) (mix2 c (- n) A' B') + tri (mix2 n c A B) (mix2 n c A' B')) = tri A A' + tri B B'.
  Proof.
    destruct A as [[a0 a1] a2], B as [[b0 b1] b2], A' as [[a0' a1'] a2'], B' as [[b0' b1'] b2']. unfold mix2, tri. cbn [fst snd].
    set (i := / s). assert (E : s * i = 1) by (unfold i; field; lra). unfold Rdiv. fold i. clearbody i.
    transitivity ((s * i) * (s * i) * ((c * c + n * n) * (/ 24 * ((a0 + a1 + a2) * (a0' + a1' + a2') + a0 * a0' + a1 * a1' + a2 * a2') + / 24 * ((b0 + b1 + b2) * (b0' + b1' + b2') + b0 * b0' + b1 * b1' + b2 * b2')))).
    - ring.
    - rewrite Un, E. ring.
  Qed.
  Lemma mass3_moved p q r z w : 0 < det p q r -> mass3 (f p) (f q) (f r) z w = mass3 p q r z w.
  Proof.
    intros Pd. destruct (grads_moved p q r Pd) as (Ex & Ey). unfold mass3. rewrite Ex, Ey, det_moved.
    set (gx := gradsx p q r) in *. set (gy := gradsy p q r) in *.
    replace (_, _, _) with (mix2 c (- n) gx gy) by (unfold mix2; apply pair3; f_equal; ring).
    replace (_, _, _) with (mix2 n c gx gy) by (unfold mix2; apply pair3; f_equal; ring).
    rewrite !corner_mix, <- (tri_mix (corner_values z gx) (corner_values z gy)). ring.
  Qed.
  Lemma distance_moved p q : distance (f p) (f q) = s * distance p q.
  Proof.
    unfold distance. rewrite !Ef. cbn [fst snd].
    replace (_ + _) with ((s * s) * ((fst q - fst p) * (fst q - fst p) + (snd q - snd p) * (snd q - snd p))).
    2:{ transitivity ((s * s) * ((c * c + n * n) * ((fst q - fst p) * (fst q - fst p) + (snd q - snd p) * (snd q - snd p)))); [rewrite Un; ring|ring]. }
    rewrite sqrt_mult_alt by nra. rewrite sqrt_square by lra. reflexivity.
  Qed.
  Lemma along_moved p q t : along (f p) (f q) t = f (along p q t).
  Proof. unfold along. rewrite !Ef. cbn [fst snd nsub nmul nadd n1 RNum]. apply f_equal2; ring. Qed.
End Moved.
