(* Specification for C43 and C48: positional notation.  The value of a little-endian list of
   digits in base B, and the facts about it used by the proofs. *)
Set Warnings "-notation-overridden,-ambiguous-paths".
From mathcomp Require Import all_ssreflect all_algebra.
From Verif Require Import Util.
Set Implicit Arguments.
Unset Strict Implicit.

Definition dval (B : nat) (ds : seq nat) : nat := \sum_(i < size ds) nth 0 ds i * B ^ i.

Section Digits.
Variable B : nat.

Lemma dval_nil : dval B [::] = 0. Proof. by rewrite /dval big_ord0. Qed.
Lemma dval_cons d ds : dval B (d :: ds) = d + B * dval B ds.
Proof.
rewrite /dval /= big_ord_recl expn0 muln1; congr (_ + _).
by rewrite big_distrr; apply: eq_bigr => i _ /=; rewrite expnS mulnCA.
Qed.
Lemma dval_cat s t : dval B (s ++ t) = dval B s + B ^ size s * dval B t.
Proof.
elim: s => [|d s IH] /=; first by rewrite dval_nil expn0 mul1n.
by rewrite !dval_cons IH mulnDr addnA expnS mulnA.
Qed.
Lemma dval_lt ds : all (fun d => d < B) ds -> dval B ds < B ^ size ds.
Proof.
elim: ds => [|d ds IH] /=; first by rewrite dval_nil expn0.
case/andP=> hd /IH h; rewrite dval_cons expnS.
apply: (@leq_trans (B * (dval B ds).+1)); last by rewrite leq_pmul2l //; case: (B) hd.
by rewrite mulnS ltn_add2r.
Qed.
Lemma dval_mod ds d : d < B -> dval B (d :: ds) %% B = d /\ dval B (d :: ds) %/ B = dval B ds.
Proof.
move=> h; rewrite dval_cons mulnC; split; first by rewrite addnC modnMDl modn_small.
by rewrite addnC divnMDl ?(leq_ltn_trans _ h) // divn_small // addn0.
Qed.
Lemma dval_inj ds es : size ds = size es -> all (fun d => d < B) ds -> all (fun d => d < B) es ->
  dval B ds = dval B es -> ds = es.
Proof.
elim: ds es => [|d ds IH] [|e es] //= [hs] /andP[hd hds] /andP[he hes] h.
have [h1 h2] := dval_mod ds hd; have [h3 h4] := dval_mod es he.
congr (_ :: _); first by rewrite -h1 -h3 h.
by apply: IH => //; rewrite -h2 -h4 h.
Qed.
Lemma dval_nseq0 n : dval B (nseq n 0) = 0.
Proof. by elim: n => [|n IH] /=; rewrite ?dval_nil // dval_cons IH muln0. Qed.
(* the k-th digit, and what remains above it *)
Lemma dval_drop ds k : all (fun d => d < B) ds -> k <= size ds -> 0 < B -> dval B ds %/ B ^ k = dval B (drop k ds).
Proof.
move=> h hk B0; rewrite -{1}[ds](cat_take_drop k) dval_cat size_takel // addnC mulnC divnMDl ?expn_gt0 ?B0 //.
rewrite divn_small ?addn0 //.
have := @dval_lt (take k ds); rewrite size_takel //; apply.
by move: h; rewrite -{1}[ds](cat_take_drop k) all_cat; case/andP.
Qed.
End Digits.

(* bits of a number *)
Lemma bits_dval x a n : dval 2 [seq nat_of_bool (odd (x %/ 2 ^ i)) | i <- iota a n] = (x %/ 2 ^ a) %% 2 ^ n.
Proof.
elim: n a => [|n IH] a /=; first by rewrite dval_nil expn0 modn1.
rewrite dval_cons IH; set y := x %/ 2 ^ a.
have -> : x %/ 2 ^ a.+1 = y %/ 2 by rewrite expnSr divnMA.
have e : y = (y %/ 2 %/ 2 ^ n) * 2 ^ n.+1 + (odd y + 2 * (y %/ 2 %% 2 ^ n)).
  rewrite expnS [LHS](divn_eq y 2) {1}(divn_eq (y %/ 2) (2 ^ n)) modn2.
  by rewrite mulnDl -mulnA [2 ^ n * 2]mulnC -addnA; congr (_ + _); rewrite addnC mulnC.
rewrite [in RHS]e modnMDl [RHS]modn_small //.
have := ltn_pmod (y %/ 2) (expn_gt0 2 n); rewrite expnS; move: (y %/ 2 %% 2 ^ n) (2 ^ n) => r p h.
by case: (odd y); nlia.
Qed.
