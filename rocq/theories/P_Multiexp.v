(* C01: multi-exponentiation computes the inner product under every schedule. *)
Set Warnings "-notation-overridden,-ambiguous-paths".
From mathcomp Require Import all_ssreflect all_algebra.
From Verif Require Import M_Multiexp L_Multiexp.
Import GRing.Theory.
Set Implicit Arguments.
Unset Strict Implicit.
Local Open Scope ring_scope.

(* [repr] is any 32-byte little-endian encoding of field elements as integers. *)
Definition le_repr (F : fieldType) (repr : F -> seq nat) : Prop :=
  forall x, size (repr x) = 32%N /\ all (fun b => (b < 256)%N) (repr x) /\
            (\sum_(i < 32) nth 0%N (repr x) i * 256 ^ i)%N%:R = x.

Lemma le_repr_val (b : seq nat) n : size b = n ->
  le_val b = (\sum_(i < n) nth 0%N b i * 256 ^ i)%N.
Proof.
move=> <-; elim: b => [|x b IH]; first by rewrite big_ord0.
rewrite big_ord_recl expn0 muln1 /= IH big_distrr /=; congr addn.
by apply: eq_bigr => i _; rewrite expnS mulnCA.
Qed.

(* For every thread count, every reduction tree rayon may choose for the 256/c + 1 bucket
   segments (in any order, with any identities in it), and every window size between 1 and
   57 computed by the logarithm. *)
Theorem C01_best_multiexp_inner_product :
  forall (F : fieldType) (G : lmodType F) (repr : F -> seq nat) (ceil_ln : nat -> nat)
         (threads : nat) (sched : redtree) (coeffs : seq F) (bases : seq G),
  le_repr repr ->
  size coeffs = size bases ->
  ((32 <= size bases)%N -> (0 < ceil_ln (size bases) <= 57)%N) ->
  perm_eq (fringe sched) (iota 0 (256 %/ window ceil_ln (size bases)).+1) ->
  best_multiexp repr ceil_ln threads sched coeffs bases =
  Some (\sum_(i < size bases) nth 0 coeffs i *: nth 0 bases i).
Proof.
move=> F G repr ceil_ln th sched cs bs hr; apply: best_multiexp_correct => x;
  case: (hr x) => // hs [hb hv] //.
by rewrite (le_repr_val hs).
Qed.
Print Assumptions C01_best_multiexp_inner_product.

Theorem C01_best_multiexp_unequal_lengths_panic :
  forall (F : fieldType) (G : lmodType F) (repr : F -> seq nat) (ceil_ln : nat -> nat)
         (threads : nat) (sched : redtree) (coeffs : seq F) (bases : seq G),
  size coeffs <> size bases ->
  best_multiexp repr ceil_ln threads sched coeffs bases = None.
Proof. exact: best_multiexp_unequal. Qed.
Print Assumptions C01_best_multiexp_unequal_lengths_panic.

(* small_multiexp has no length check: surplus bases are ignored. *)
Theorem C01_small_multiexp_inner_product :
  forall (F : fieldType) (G : lmodType F) (repr : F -> seq nat)
         (coeffs : seq F) (bases : seq G),
  le_repr repr -> (size coeffs <= size bases)%N ->
  small_multiexp repr coeffs bases =
  Some (\sum_(i < size coeffs) nth 0 coeffs i *: nth 0 bases i).
Proof.
move=> F G repr cs bs hr; apply: small_multiexp_correct => x;
  case: (hr x) => // hs [hb hv] //.
by rewrite (le_repr_val hs).
Qed.
Print Assumptions C01_small_multiexp_inner_product.

(* Non-vacuity: an encoding of F_17 and a schedule that meet the hypotheses for 2 bases
   (window 1, 257 segments) and for 40 bases (window 4, 65 segments). *)
Definition repr17 (x : 'F_17) : seq nat := nat_of_ord x :: nseq 31 0%N.
Example C01_repr_ok : le_repr repr17.
Proof.
move=> x; split=> //; split.
  rewrite /= (leq_trans (ltn_ord x)) //.
rewrite big_ord_recl expn0 muln1 big1 ?addn0 /=; first exact: natr_Zp.
by move=> i _; rewrite -[X in nth _ X]/(nseq 31 0%N) nth_nseq if_same mul0n.
Qed.
Definition sched_of (s : seq nat) : redtree := foldr (fun i t => RNode (RLeaf i) t) RId s.
Example C01_sched_ok s : perm_eq (fringe (sched_of s)) s.
Proof. by elim: s => //= x s IH; rewrite perm_cons. Qed.
