(* Specification for C25/C26: what the permutation argument's constraints say row by row. *)
Set Warnings "-notation-overridden,-ambiguous-paths".
From mathcomp Require Import all_ssreflect all_algebra.
From Verif Require Import Util M_Evaluator S_Evaluator P_Evaluator L_Chunks.
Import GRing.Theory.
Set Implicit Arguments.
Unset Strict Implicit.
Local Open Scope ring_scope.

Section Spec.
Variable F : fieldType.

(* The value of an expression at the point x, when leaf [idx] stands for the polynomial
   P idx: a leaf with rotation r is P idx at omega^r x. *)
Definition expr_at (omega : F) (P : nat -> {poly F}) (x : F) (a : ast F) : F :=
  (interp (fun idx r => rotated (omega ^ r) (P idx)) 'X polyC a).[x].
(* all expressions vanish on the domain {omega^0, .., omega^(n-1)} *)
Definition vanish_on_domain (omega : F) (n : nat) (P : nat -> {poly F}) (l : seq (ast F)) : Prop :=
  forall i, (i < n)%N -> all (fun a => expr_at omega P (omega ^+ i) a == 0) l.

(* m columns in chunks of [len], [u] usable rows: z t i is the product column of chunk t at
   row i, v j i the value and s j i the sigma value of column j at row i. *)
Record perm_rows (delta omega beta gamma : F) (len m u : nat) (z v s : nat -> nat -> F) : Prop :=
 PermRows {
  pr_first : (0 < m)%N -> z 0%N 0%N = 1;
  pr_last : (0 < m)%N -> z (nch len m).-1 u ^+ 2 = z (nch len m).-1 u;
  pr_chain : forall t, (t.+1 < nch len m)%N -> z t.+1 0%N = z t u;
  pr_step : forall t i, (t < nch len m)%N -> (i < u)%N ->
    z t i.+1 * \prod_(j <- ch len m t) (v j i + beta * s j i + gamma) =
    z t i * \prod_(j <- ch len m t) (v j i + beta * (delta ^+ j * omega ^+ i) + gamma) }.
End Spec.
