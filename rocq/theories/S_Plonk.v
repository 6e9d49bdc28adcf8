(* Specification for C28-C32: the values of expressions at the rows of a table, and when the
   gates and lookups of a circuit are satisfied. *)
Set Warnings "-notation-overridden,-ambiguous-paths".
From mathcomp Require Import all_ssreflect all_algebra.
From Verif Require Import Util M_Circuit S_Circuit.
Import GRing.Theory.
Set Implicit Arguments.
Unset Strict Implicit.
Local Open Scope ring_scope.

Section Spec.
Variable F : fieldType.

(* The row seen from row i under rotation r; rows wrap around. *)
Definition row_of (n i : nat) (r : int) : nat := `|((i%:Z + r) %% n)%Z|%N.

(* T a c i: the cell of column c of kind a at row i. *)
Definition row_value (n : nat) (T : any -> nat -> nat -> F) (i : nat) (e : expr F) : F :=
  meaning (R := [comAlgType F of F^o]) (fun _ => 0) (fun a c r => T a c (row_of n i r)) e.

(* Every usable row's input tuple is the table tuple of some usable row. *)
Definition lookup_holds (n u : nat) (T : any -> nat -> nat -> F) (l : lookup F) : Prop :=
  forall i, (i < u)%N -> exists2 j, (j < u)%N &
    [seq row_value n T i e | e <- lk_input l] = [seq row_value n T j e | e <- lk_table l].

(* Every polynomial of the gate is zero at every row. *)
Definition gate_holds (n : nat) (T : any -> nat -> nat -> F) (g : gate F) : Prop :=
  forall i, (i < n)%N -> all (fun e => row_value n T i e == 0) (g_polys g).

(* No selector left, columns in range, rotations of at most n rows. *)
Fixpoint expr_within (n : nat) (ncols : any -> nat) (e : expr F) : bool :=
  match e with
  | ESelector _ _ => false
  | EFixed _ c r => (c < ncols Fixed)%N && (`|r| <= n)%N
  | EAdvice _ c r => (c < ncols Advice)%N && (`|r| <= n)%N
  | EInstance _ c r => (c < ncols Instance)%N && (`|r| <= n)%N
  | ENegated a | EScaled a _ => expr_within n ncols a
  | ESum a b | EProduct a b => expr_within n ncols a && expr_within n ncols b
  | EConstant _ => true
  end.
Definition lookup_within (n : nat) (ncols : any -> nat) (l : lookup F) : bool :=
  [&& size (lk_input l) == size (lk_table l), all (expr_within n ncols) (lk_input l)
    & all (expr_within n ncols) (lk_table l)].

(* Random linear combination of a tuple. *)
Definition compress (theta : F) (xs : seq F) : F := foldl (fun acc x => acc * theta + x) 0 xs.
End Spec.
