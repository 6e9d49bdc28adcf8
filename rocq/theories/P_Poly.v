(* C07: polynomial evaluation, division by a linear factor, interpolation, inner product. *)
Set Warnings "-notation-overridden,-ambiguous-paths".
From mathcomp Require Import all_ssreflect all_algebra.
From Verif Require Import Util M_Poly L_Poly.
Import GRing.Theory.
Set Implicit Arguments.
Unset Strict Implicit.
Local Open Scope ring_scope.

Theorem C07_eval_polynomial :
  forall (F : fieldType) (p : seq F) (x : F),
  eval_polynomial p x = \sum_(i < size p) nth 0 p i * x ^+ i.
Proof. by move=> F p x; rewrite eval_polynomial_horner horner_PolyE. Qed.
Print Assumptions C07_eval_polynomial.

Theorem C07_inner_product :
  forall (F : fieldType) (a b : seq F),
  compute_inner_product a b =
  if size a == size b then Some (\sum_(i < size a) nth 0 a i * nth 0 b i) else None.
Proof.
move=> F a b; case: eqP => h; first by rewrite compute_inner_productE.
by rewrite /compute_inner_product; move/eqP/negbTE: h => ->.
Qed.
Print Assumptions C07_inner_product.

(* a = q * (X - b) + a(b), deg q < deg-bound of a; empty input panics. *)
Theorem C07_kate_division :
  forall (F : fieldType) (a : seq F) (b : F),
  (0 < size a)%N ->
  exists2 q, kate_division a b = Some q &
   size q = (size a).-1 /\ Poly a = Poly q * ('X - b%:P) + (Poly a).[b]%:P.
Proof.
move=> F a b h; have [q -> [h1 h2]] := kate_division_correct b h.
by exists q => //; split=> //; rewrite h2 subrK.
Qed.
Print Assumptions C07_kate_division.

Theorem C07_kate_division_empty_panics :
  forall (F : fieldType) (b : F), kate_division [::] b = None.
Proof. by []. Qed.

(* The interpolated polynomial passes through all points, has the right number of
   coefficients, and is the only such polynomial. *)
Theorem C07_lagrange_interpolate :
  forall (F : fieldType) (points evals : seq F),
  uniq points -> size points = size evals ->
  exists2 c, lagrange_interpolate points evals = Some c &
    size c = size points /\
    (forall i, (i < size points)%N -> (Poly c).[nth 0 points i] = nth 0 evals i) /\
    (forall p : {poly F}, (size p <= size points)%N ->
       (forall i, (i < size points)%N -> p.[nth 0 points i] = nth 0 evals i) -> p = Poly c).
Proof.
move=> F points evals hu hs; have [c -> [h1 h2]] := lagrange_interpolate_correct hu hs.
exists c => //; split=> //; split=> // p hp hi.
apply: (poly_interp_unique hu) => //; first by rewrite -h1 size_Poly.
by move=> x /(nthP 0) [i hlt <-]; rewrite hi // h2.
Qed.
Print Assumptions C07_lagrange_interpolate.

(* The documentation of lagrange_interpolate says "This function will panic if two values in
   `points` are the same".  It does not: batch inversion leaves the zero denominators alone
   and a polynomial that misses the requested values is returned. *)
Theorem C07_lagrange_interpolate_duplicates_panic_refuted :
  exists (points evals c : seq 'F_17),
    ~~ uniq points /\ size points = size evals /\
    lagrange_interpolate points evals = Some c /\
    (exists2 i, (i < size points)%N & (Poly c).[nth 0 points i] <> nth 0 evals i).
Proof.
exists [:: 1; 1], [:: 3%:R; 5%:R], [:: 0; 0].
split=> //; split=> //; split; first by apply/eqP; vm_compute.
exists 0%N => //; rewrite !Poly_cons_def /= !polyC0 !mul0r !addr0 !mul0r hornerC.
by apply/eqP; vm_compute.
Qed.
Print Assumptions C07_lagrange_interpolate_duplicates_panic_refuted.

Example C07_example : lagrange_interpolate [:: 1; 2%:R; 4%:R] [:: 3%:R; 5%:R; 9%:R]
  == Some [:: 1; 2%:R; 0 : 'F_17].
Proof. by vm_compute. Qed.
Example C07_example_kate : kate_division [:: 1; 2%:R; 4%:R] (3%:R : 'F_17)
  == Some [:: 14%:R; 4%:R].
Proof. by vm_compute. Qed.
