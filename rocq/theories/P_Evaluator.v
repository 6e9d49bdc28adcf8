(* C08: the parallel polynomial evaluator. *)
Set Warnings "-notation-overridden,-ambiguous-paths".
From mathcomp Require Import all_ssreflect all_algebra.
From Verif Require Import Util M_Poly M_Domain M_Assigned M_Evaluator S_Evaluator L_Domain L_Evaluator
  P_Domain.
Import GRing.Theory.
Set Implicit Arguments.
Unset Strict Implicit.
Local Open Scope ring_scope.

(* Row semantics: whatever the number of threads, row i of the result is the Ast interpreted
   on row i, a leaf with rotation r reading row (i + r) mod n of its polynomial
   ((i + r*2^(extended_k - k)) mod extended_n in the extended basis). *)
Theorem C08_evaluate_rows_lagrange :
  forall (F : fieldType) (zeta : F) (d : domain F) threads (polys : seq (seq F)) (a : ast F),
  (0 < threads)%N -> polys != [::] -> (0 < d_n d)%N ->
  all (fun p => size p == d_n d) polys ->
  all (fun l => (l.1 < size polys)%N && (`|l.2| <= d_n d)%N) (leaves a) ->
  evaluate zeta d threads LagrangeCoeff polys a =
  Some (mkseq (fun i =>
    interp (fun idx r => nth 0 (nth [::] polys idx) `|((i%:Z + r) %% (d_n d))%Z|%N)
           (d_omega d ^+ i) id a) (d_n d)).
Proof.
move=> F zeta d threads polys a ht hp hn hs hl.
rewrite evaluateE //; last first.
  by apply: sub_all hl => -[idx r] /=; rewrite /leaf_ok /= mul1n.
congr Some; apply: eq_mkseq => i; rewrite /row /point /=; apply: (@interp_ext (fun idx r => (`|r| <= d_n d)%N) F F).
  by apply: sub_all hl => l /andP [].
by move=> idx r h; rewrite /shift /= shiftE ?mul1n ?mul1r.
Qed.
Print Assumptions C08_evaluate_rows_lagrange.

Theorem C08_evaluate_rows_extended :
  forall (F : fieldType) (zeta : F) (d : domain F) threads (polys : seq (seq F)) (a : ast F),
  (0 < threads)%N -> polys != [::] ->
  let N := (2 ^ d_ek d)%N in let s := (2 ^ (d_ek d - d_k d))%N in
  all (fun p => size p == N) polys ->
  all (fun l => (l.1 < size polys)%N && (s * `|l.2| <= N)%N) (leaves a) ->
  evaluate zeta d threads ExtendedLagrangeCoeff polys a =
  Some (mkseq (fun i =>
    interp (fun idx r => nth 0 (nth [::] polys idx) `|((i%:Z + s%:Z * r) %% N)%Z|%N)
           (zeta * d_ext_omega d ^+ i) id a) N).
Proof.
move=> F zeta d threads polys a ht hp N s hs hl.
rewrite evaluateE ?expn_gt0 //.
congr Some; apply: eq_mkseq => i; rewrite /row /point /=; apply: (@interp_ext (fun idx r => (s * `|r| <= N)%N) F F).
  by apply: sub_all hl => l /andP [].
by move=> idx r h; rewrite /shift shiftE ?expn_gt0.
Qed.
Print Assumptions C08_evaluate_rows_extended.

(* Polynomial semantics on a domain built by EvaluationDomain::new: if the registered vectors
   are the values of polynomials ps on the (coset) domain, the result is the vector of values
   of the polynomial obtained by interpreting the Ast over F[X], a leaf (p, r) meaning
   p(omega^r X) and a linear term s meaning s*X. *)
Definition rotated (F : fieldType) (w : F) (p : {poly F}) : {poly F} := p \Po (w *: 'X).

Section Poly.
Variables (F : fieldType) (rou zeta : F) (S j k threads : nat) (d : domain F).
Hypothesis consts : field_constants rou zeta S.
Hypothesis threads0 : (0 < threads)%N.
Hypothesis hd : domain_new rou zeta S j k = Some d.

Let ok : dom_ok rou zeta S j k d.
Proof. by case: consts => h1 [h2 h3]; exact: domain_new_inv hd. Qed.

Theorem C08_evaluate_poly_lagrange : forall (ps : seq {poly F}) (a : ast F),
  ps != [::] ->
  all (fun l => (l.1 < size ps)%N && (`|l.2| <= 2 ^ k)%N) (leaves a) ->
  evaluate zeta d threads LagrangeCoeff
    [seq mkseq (fun i => p.[d_omega d ^+ i]) (2 ^ k) | p : {poly F} <- ps] a =
  Some (mkseq (fun i =>
    (interp (fun idx r => rotated (d_omega d ^ r) (nth 0 ps idx)) 'X polyC a).[d_omega d ^+ i])
    (2 ^ k)).
Proof.
move=> ps a hp hl.
rewrite evaluateE //=; rewrite ?(ok_n ok) ?expn_gt0 //.
- congr Some; apply: eq_mkseq => i; rewrite interp_horner /row /point /=.
  apply: (@interp_ext (fun idx r => (idx < size ps)%N && (`|r| <= 2 ^ k)%N) F F) => //.
  move=> idx r /andP [h1 h2]; rewrite (nth_map 0) // /shift /= nth_mkseq ?ltn_mod ?expn_gt0 //.
  rewrite pow_shift ?mul1n ?(wn1 ok) ?(omega0 ok) // expr1.
  by rewrite /rotated horner_comp hornerZ hornerX mulrC.
- by case: (ps) hp.
- by apply/allP => p /mapP [q _ ->]; rewrite size_mkseq.
by apply: sub_all hl => -[idx r] /=; rewrite /leaf_ok /= mul1n size_map.
Qed.

Theorem C08_evaluate_poly_extended : forall (ps : seq {poly F}) (a : ast F),
  ps != [::] ->
  all (fun l => (l.1 < size ps)%N && (`|l.2| <= 2 ^ k)%N) (leaves a) ->
  evaluate zeta d threads ExtendedLagrangeCoeff
    [seq mkseq (fun i => p.[zeta * d_ext_omega d ^+ i]) (2 ^ d_ek d) | p : {poly F} <- ps] a =
  Some (mkseq (fun i =>
    (interp (fun idx r => rotated (d_omega d ^ r) (nth 0 ps idx)) 'X polyC a).[zeta * d_ext_omega d ^+ i])
    (2 ^ d_ek d)).
Proof.
move=> ps a hp hl.
have room r : (`|r : int| <= 2 ^ k)%N -> (2 ^ (d_ek d - k) * `|r| <= 2 ^ d_ek d)%N.
  move=> h; apply: leq_trans (_ : 2 ^ (d_ek d - k) * 2 ^ k <= _)%N.
    by rewrite leq_mul2l h orbT.
  by rewrite -expnD subnK ?(ok_kek ok).
rewrite evaluateE //= /extended_len ?expn_gt0 //.
- congr Some; apply: eq_mkseq => i; rewrite interp_horner /row /point /=.
  apply: (@interp_ext (fun idx r => (idx < size ps)%N && (`|r| <= 2 ^ k)%N) F F) => //.
  move=> idx r /andP [h1 h2]; rewrite (nth_map 0) // /shift /= nth_mkseq ?ltn_mod ?expn_gt0 //.
  rewrite (ok_k ok) pow_shift ?(prim_expr_order (ok_ext ok)) ?(prim_neq0 (ok_ext ok)) ?room //.
  by rewrite -(ok_omega ok) /rotated horner_comp hornerZ hornerX mulrA; congr (_.[_]); rewrite mulrC.
- by case: (ps) hp.
- by apply/allP => p /mapP [q _ ->]; rewrite size_mkseq.
apply: sub_all hl => -[idx r] /=; rewrite /leaf_ok /= (ok_k ok) size_map => /andP [-> h] /=.
exact: room.
Qed.
End Poly.
Print Assumptions C08_evaluate_poly_lagrange.
Print Assumptions C08_evaluate_poly_extended.

(* The coefficient-basis evaluator cannot evaluate a linear term when the chunk size is 1
   (polynomials of length at most 4 * threads): it indexes out of range. *)
Theorem C08_coeff_linear_term_refuted :
  ~ (forall (F : fieldType) (zeta : F) (d : domain F) threads (p : seq F) (s : F),
      (0 < threads)%N -> (1 < d_n d)%N -> size p = d_n d ->
      evaluate zeta d threads Coeff [:: p] (ALinearTerm s) =
      Some (mkseq (fun i => if i == 1%N then s else 0) (d_n d))).
Proof.
move=> H.
pose d := {| d_n := 2; d_k := 1; d_ek := 1; d_omega := (-1 : 'F_3); d_omega_inv := -1;
  d_ext_omega := -1; d_ext_omega_inv := -1; d_coset := 1; d_coset_inv := 1; d_qd := 1;
  d_ifft_divisor := 1; d_ext_ifft_divisor := 1; d_t_evaluations := [::]; d_barycentric := 1 |}.
have := H _ 1 d 1%N [:: 0; 0] 1 isT isT erefl.
by vm_compute.
Qed.
Print Assumptions C08_coeff_linear_term_refuted.

(* (p0(X) * p1(wX) - 3X) on the domain of size 4 over F_97 *)
Example evaluate_hypotheses :
  all (fun l : nat * int => (l.1 < 2)%N && (`|l.2| <= 2 ^ 2)%N)
      (leaves (AAdd (AMul (APoly 0 0) (APoly 1 1)) (ALinearTerm (- 3%:R : 'F_97)))).
Proof. by []. Qed.
