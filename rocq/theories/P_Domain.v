(* C03-C06: EvaluationDomain.  Everything is stated for every field F with constants
   rou (a primitive 2^S-th root of unity) and zeta (a primitive cube root of unity), every
   number of worker threads and every domain returned by EvaluationDomain::new(j, k). *)
Set Warnings "-notation-overridden,-ambiguous-paths".
From mathcomp Require Import all_ssreflect all_algebra.
From Verif Require Import Util M_FFT M_Poly M_Domain L_Poly L_Domain.
Import GRing.Theory.
Set Implicit Arguments.
Unset Strict Implicit.
Local Open Scope ring_scope.

(* The field constants the code assumes (PrimeField::ROOT_OF_UNITY, S, FieldExt::ZETA). *)
Definition field_constants (F : fieldType) (rou zeta : F) (S : nat) : Prop :=
  (2 ^ S).-primitive_root rou /\ zeta ^+ 3 = 1 /\ zeta != 1.

(* new(j, k) succeeds exactly when j >= 1 and n and n*(j-1) fit the two-adicity; the domain
   has n = 2^k, omega a primitive n-th root of unity, and the extended domain is the smallest
   power of two >= n that holds n*(j-1) coefficients. *)
Theorem C03_domain_new :
  forall (F : fieldType) (rou zeta : F) S j k, field_constants rou zeta S ->
  ((exists d, domain_new rou zeta S j k = Some d) <->
     (0 < j)%N /\ (k <= S)%N /\ (2 ^ k * (j - 1) <= 2 ^ S)%N) /\
  (forall d, domain_new rou zeta S j k = Some d ->
     d_n d = (2 ^ k)%N /\ (2 ^ k).-primitive_root (d_omega d) /\
     (2 ^ d_ek d).-primitive_root (d_ext_omega d) /\
     (forall m, (k <= m)%N /\ (2 ^ k * (j - 1) <= 2 ^ m)%N <-> (d_ek d <= m)%N)).
Proof.
move=> F rou zeta S j k [h1 [h2 h3]]; split.
  split=> [[d hd]|[j0 [kS room]]].
    have ok := domain_new_inv h1 h2 h3 hd.
    split; [exact: ok_j ok|split; first exact: leq_trans (ok_kek ok) (ok_ekS ok)].
    by apply: leq_trans (ok_room ok) _; rewrite leq_exp2l // (ok_ekS ok).
  by have [d hd _] := domain_new_ok h1 h2 h3 j0 kS room; exists d.
move=> d hd; have ok := domain_new_inv h1 h2 h3 hd.
split; [exact: ok_n ok|split; [exact: ok_omega_prim ok|split; [exact: ok_ext ok|]]].
move=> m; split=> [[km room]|em].
  move: hd; rewrite /domain_new; case: eqP => // _; case: ifP => // _.
  cbv zeta; case: (t_loop _ _ _ _) => // ts; case: eqP => // _ [<-] /=.
  exact: ek_loop_least.
split; first exact: leq_trans (ok_kek ok) em.
by apply: leq_trans (ok_room ok) _; rewrite leq_exp2l.
Qed.
Print Assumptions C03_domain_new.

Section Dom.
Variables (F : fieldType) (rou zeta : F) (S j k threads : nat) (d : domain F).
Hypothesis consts : field_constants rou zeta S.
Hypothesis threads0 : (0 < threads)%N.
Hypothesis hd : domain_new rou zeta S j k = Some d.

Let ok : dom_ok rou zeta S j k d.
Proof. by case: consts => h1 [h2 h3]; exact: domain_new_inv hd. Qed.
Let z3 : zeta ^+ 3 = 1. Proof. by case: consts => _ []. Qed.
Let z1 : zeta != 1. Proof. by case: consts => _ []. Qed.

Theorem C03_lagrange_to_coeff : forall a : seq F, size a = (2 ^ k)%N ->
  exists2 c, lagrange_to_coeff threads d a = Some c &
    size c = (2 ^ k)%N /\
    (forall i, (i < 2 ^ k)%N -> eval_polynomial c (d_omega d ^+ i) = nth 0 a i) /\
    (forall p : {poly F}, (size p <= 2 ^ k)%N ->
       (forall i, (i < 2 ^ k)%N -> p.[d_omega d ^+ i] = nth 0 a i) -> p = Poly c).
Proof.
move=> a hs; exists (idft (d_omega d) a); first exact: lagrange_to_coeffE ok _ hs.
have hw := ok_omega_prim ok; have hn := n0 ok.
have hc : size (idft (d_omega d) a) = (2 ^ k)%N by rewrite size_mkseq.
split=> //; split=> [i hi|p hp h].
  by rewrite eval_polynomial_horner (idft_eval hw).
apply: (prim_poly_eq hw) => //; first by apply: leq_trans (size_Poly _) _; rewrite hc.
by move=> i hi; rewrite h // (idft_eval hw).
Qed.

Theorem C03_lagrange_to_coeff_wrong_length_panics : forall a : seq F, size a != (2 ^ k)%N ->
  lagrange_to_coeff threads d a = None.
Proof. by move=> a /negbTE h; rewrite /lagrange_to_coeff (ok_k ok) h. Qed.

(* coeff_to_extended: evaluations on the coset zeta * <extended_omega> *)
Theorem C04_coeff_to_extended : forall a : seq F, size a = (2 ^ k)%N ->
  coeff_to_extended threads d a =
  Some (mkseq (fun i => (Poly a).[zeta * d_ext_omega d ^+ i]) (2 ^ d_ek d)).
Proof. by move=> a hs; exact: (coeff_to_extendedE z3 threads0 ok). Qed.

(* extended_to_coeff: coefficients of the polynomial with the given coset evaluations,
   truncated to n*(j-1) *)
Theorem C04_extended_to_coeff : forall p : {poly F}, (size p <= 2 ^ d_ek d)%N ->
  extended_to_coeff threads d (mkseq (fun i => p.[zeta * d_ext_omega d ^+ i]) (2 ^ d_ek d)) =
  Some (mkseq (fun i => p`_i) (2 ^ k * (j - 1))).
Proof. by move=> p hp; exact: (extended_to_coeffE z3 threads0 ok). Qed.

Theorem C04_extended_roundtrip : (2 <= j)%N -> forall a : seq F, size a = (2 ^ k)%N ->
  obind (extended_to_coeff threads d) (coeff_to_extended threads d a) =
  Some (a ++ nseq (2 ^ k * (j - 2)) 0).
Proof.
move=> hj a hs; rewrite C04_coeff_to_extended //= C04_extended_to_coeff; last first.
  by apply: leq_trans (size_Poly _) _; rewrite hs leq_exp2l // (ok_kek ok).
congr Some; apply: (@eq_from_nth _ 0).
  rewrite size_mkseq size_cat size_nseq hs -mulnS; congr (_ * _)%N; nlia.
rewrite size_mkseq => i hi; rewrite nth_mkseq // coef_Poly nth_cat hs.
by case: ltnP => // h; rewrite nth_nseq if_same nth_default ?hs.
Qed.

Theorem C04_extended_wrong_length_panics : forall a : seq F,
  (size a != 2 ^ k -> coeff_to_extended threads d a = None)%N /\
  (size a != 2 ^ d_ek d -> extended_to_coeff threads d a = None)%N /\
  (size a != 2 ^ d_ek d -> divide_by_vanishing_poly threads d a = None)%N.
Proof.
move=> a; split; [|split]; move/negbTE => h.
- by rewrite /coeff_to_extended (ok_k ok) h.
- by rewrite /extended_to_coeff /extended_len h.
by rewrite /divide_by_vanishing_poly /extended_len h.
Qed.

(* rotate_extended by r: the extended form of p(omega^r X); for |r| <= n *)
Theorem C04_rotate_extended : forall (p : {poly F}) (r : int), (`|r| <= 2 ^ k)%N ->
  rotate_extended d (mkseq (fun i => p.[zeta * d_ext_omega d ^+ i]) (2 ^ d_ek d)) r =
  Some (mkseq (fun i => p.[d_omega d ^ r * (zeta * d_ext_omega d ^+ i)]) (2 ^ d_ek d)).
Proof.
move=> p r hr; rewrite (rotate_extendedE ok p hr); congr Some.
by apply: eq_mkseq => i; rewrite horner_scalep.
Qed.

(* and the same on the Lagrange domain *)
Theorem C04_poly_rotate : forall (p : {poly F}) (r : int), (`|r| <= 2 ^ k)%N ->
  poly_rotate (mkseq (fun i => p.[d_omega d ^+ i]) (2 ^ k)) r =
  Some (mkseq (fun i => p.[d_omega d ^ r * d_omega d ^+ i]) (2 ^ k)).
Proof.
move=> p r hr; rewrite (poly_rotateE ok p hr); congr Some.
by apply: eq_mkseq => i; rewrite mulrC.
Qed.

Theorem C04_rotate_omega : forall (x : F) (r : int), rotate_omega d x r = x * d_omega d ^ r.
Proof. exact: rotate_omegaE ok. Qed.

(* No point of the coset is a root of X^n - 1 (so the stored inverses are inverses), and
   dividing the coset evaluations of f = q * (X^n - 1) gives back q. *)
Theorem C05_no_zero_divisor : forall i, (zeta * d_ext_omega d ^+ i) ^+ (2 ^ k) - 1 != 0.
Proof.
move=> i; rewrite subr_eq0 exprMn -exprM mulnC exprM.
apply: (@coset_nonzero _ _ z3 z1 (d_ek d - k)).
rewrite -!exprM mulnAC mulnC -expnD subnKC ?(ok_kek ok) //.
by rewrite mulnC exprM (prim_expr_order (ok_ext ok)) expr1n.
Qed.

Theorem C05_divide_by_vanishing_poly : forall f q : {poly F},
  f = q * ('X^(2 ^ k) - 1) -> (size q <= 2 ^ k * (j - 1))%N ->
  obind (extended_to_coeff threads d)
    (divide_by_vanishing_poly threads d
       (mkseq (fun i => f.[zeta * d_ext_omega d ^+ i]) (2 ^ d_ek d))) =
  Some (mkseq (fun i => q`_i) (2 ^ k * (j - 1))).
Proof.
move=> f q -> hq; rewrite (divide_by_vanishingE z3 z1 threads0 ok) /=.
by apply: C04_extended_to_coeff; exact: leq_trans hq (ok_room ok).
Qed.

(* l_i_range: Lagrange basis polynomials.  [l] is any polynomial of degree < n that is 1 at
   omega^r and 0 at the other points of the domain. *)
Theorem C06_l_i_range : forall (x : F) (rotations : seq int),
  x ^+ (2 ^ k) != 1 ->
  size (l_i_range d x (x ^+ (2 ^ k)) rotations) = size rotations /\
  forall i, (i < size rotations)%N -> forall l : {poly F},
    (size l <= 2 ^ k)%N ->
    l.[d_omega d ^ nth 0 rotations i] = 1 ->
    (forall m : nat, d_omega d ^+ m != d_omega d ^ nth 0 rotations i -> l.[d_omega d ^+ m] = 0) ->
    nth 0 (l_i_range d x (x ^+ (2 ^ k)) rotations) i = l.[x].
Proof.
move=> x rs hx; split.
  by rewrite /l_i_range size_map size_zip !size_map minnn.
move=> i hi l hl h1 h0; rewrite (l_i_rangeE ok) //.
have [m hm e] := omega_int ok (nth 0 rs i).
rewrite e (lagrange_basis_value ok (m := m)) //; first by rewrite -e.
move=> t ht ne; apply: h0; rewrite e (eq_prim_root_expr (ok_omega_prim ok)) !modn_small //.
Qed.

(* such an [l] exists for every rotation *)
Theorem C06_basis_exists : forall r : int, exists l : {poly F},
  [/\ (size l <= 2 ^ k)%N, l.[d_omega d ^ r] = 1 &
      forall m : nat, d_omega d ^+ m != d_omega d ^ r -> l.[d_omega d ^+ m] = 0].
Proof.
move=> r; have [m hm e] := omega_int ok r.
have hw := ok_omega_prim ok.
pose a := mkseq (fun i => ((i == m)%:R : F)) (2 ^ k).
have sa : size a = (2 ^ k)%N by rewrite size_mkseq.
exists (Poly (idft (d_omega d) a)); split.
- by apply: leq_trans (size_Poly _) _; rewrite !size_mkseq.
- by rewrite e (idft_eval hw) ?(n0 ok) // nth_mkseq // eqxx.
move=> t; rewrite e -(prim_expr_mod hw t) => ne.
have ht : (t %% 2 ^ k < 2 ^ k)%N by rewrite ltn_mod expn_gt0.
rewrite (idft_eval hw) ?(n0 ok) // nth_mkseq //; case: eqP => // h.
by move: ne; rewrite h eqxx.
Qed.
End Dom.
Print Assumptions C03_lagrange_to_coeff.
Print Assumptions C04_coeff_to_extended.
Print Assumptions C04_extended_to_coeff.
Print Assumptions C04_extended_roundtrip.
Print Assumptions C04_rotate_extended.
Print Assumptions C05_divide_by_vanishing_poly.
Print Assumptions C06_l_i_range.


(* Hypotheses are satisfiable: F_97 has a 32nd root of unity and a cube root of unity. *)
Lemma field_constants_intro (F : fieldType) (x z : F) :
  x ^+ (2 ^ 4) != 1 -> x ^+ (2 ^ 5) == 1 -> z ^+ 3 == 1 -> z != 1 -> field_constants x z 5.
Proof.
move=> h16 /eqP h32 /eqP hz hz1; split=> //.
have [m hm dm] := prim_order_exists (isT : 0 < 2 ^ 5)%N h32.
have /dvdn_pfactor := dm => /(_ isT) [t ht e].
case: (eqVneq t 5%N) => [e5|ne]; first by move: hm; rewrite e e5.
have : (m %| 2 ^ 4)%N.
  by rewrite e dvdn_Pexp2l //; move: ht ne; case: (t) => [|[|[|[|[|[|]]]]]].
by rewrite (prim_order_dvd hm) (negbTE h16).
Qed.
Example constants_F97 : field_constants (28%:R : 'F_97) 35%:R 5.
Proof. by apply: field_constants_intro; vm_compute. Qed.

Example domain_F97 j k : (0 < j <= 3)%N -> (k <= 4)%N ->
  exists d, domain_new (28%:R : 'F_97) 35%:R 5 j k = Some d.
Proof.
move=> /andP [j0 j3] hk; have [[_ H] _] := C03_domain_new j k constants_F97.
apply: H; split=> //; split; first exact: leq_trans hk _.
apply: (@leq_trans (2 ^ 4 * 2)%N) => //; apply: leq_mul; first by rewrite leq_exp2l.
by move: j3; case: j {j0} => [|[|[|[|]]]].
Qed.

(* With j = 1 (quotient degree 0) extended_to_coeff truncates everything away, so the
   documented inverse relation fails. *)
Lemma roundtrip_j1 (F : fieldType) (rou zeta : F) S k threads d a :
  field_constants rou zeta S -> (0 < threads)%N ->
  domain_new rou zeta S 1 k = Some d -> size a = (2 ^ k)%N ->
  obind (extended_to_coeff threads d) (coeff_to_extended threads d a) = Some [::].
Proof.
move=> fc ht hd hs; rewrite (C04_coeff_to_extended fc ht hd hs) /=.
rewrite (C04_extended_to_coeff fc ht hd) ?muln0 //.
case: (fc) => h1 [h2 h3]; have ok := domain_new_inv h1 h2 h3 hd.
by apply: leq_trans (size_Poly _) _; rewrite hs leq_exp2l // (ok_kek ok).
Qed.

Theorem C04_roundtrip_j1_refuted :
  ~ (forall (F : fieldType) (rou zeta : F) S j k threads d a,
      field_constants rou zeta S -> (0 < threads)%N ->
      domain_new rou zeta S j k = Some d -> size a = (2 ^ k)%N ->
      exists z, obind (extended_to_coeff threads d) (coeff_to_extended threads d a) =
      Some (a ++ nseq z 0)).
Proof.
move=> H; have [d hd] := @domain_F97 1 2 isT isT.
have [z] := H _ _ _ _ _ _ 1%N d (nseq (2 ^ 2) 0) constants_F97 isT hd (size_nseq _ _).
have e := @roundtrip_j1 _ _ _ _ _ 1%N d (nseq (2 ^ 2) 0) constants_F97 isT hd (size_nseq _ _).
by rewrite e.
Qed.
Print Assumptions C04_roundtrip_j1_refuted.
