(* Specification for C22: which expressions the operators of the API can build, and when two
   expressions of a gate (before and after selector compression) impose the same constraint. *)
Set Warnings "-notation-overridden,-ambiguous-paths".
From mathcomp Require Import all_ssreflect all_algebra.
From Verif Require Import Util M_Circuit S_Circuit.
Import GRing.Theory.
Set Implicit Arguments.
Unset Strict Implicit.
Local Open Scope ring_scope.

Section Spec.
Variable F : fieldType.
Implicit Types (e : expr F) (m : cs F).

(* kinds: for every allocated selector, whether it is simple. *)
Fixpoint built (kinds : seq bool) (e : expr F) : bool :=
  match e with
  | ESelector i simple => (i < size kinds)%N && (simple == nth false kinds i)
  | ENegated a | EScaled a _ => built kinds a
  | ESum a b => [&& built kinds a, built kinds b, ~~ contains_simple_selector a
                  & ~~ contains_simple_selector b]
  | EProduct a b => [&& built kinds a, built kinds b
                      & ~~ (contains_simple_selector a && contains_simple_selector b)]
  | _ => true
  end.

Definition lookup_built (kinds : seq bool) (l : lookup F) : bool :=
  [&& size (lk_input l) == size (lk_table l),
      all (fun e => built kinds e && ~~ contains_simple_selector e) (lk_input l)
    & all (fun e => built kinds e && ~~ contains_simple_selector e) (lk_table l)].

(* What a configured constraint system satisfies *)
Definition cs_built (kinds : seq bool) (m : cs F) : bool :=
  [&& size kinds == num_selectors m,
      all (fun g => all (built kinds) (g_polys g)) (gates m),
      all (lookup_built kinds) (lookups m)
    & all (fun q : nat * int => (q.1 < num_fixed m)%N) (fixed_queries m)].

(* The calls: gates and lookups are given expressions made by the operators out of selectors
   already allocated, and every fixed column used has been allocated. *)
Definition op_built (kinds : seq bool) (m : cs F) (o : cs_op F) : bool :=
  match o with
  | OGate g => all (built kinds) (g_polys g)
  | OLookup tm => all (fun it => built kinds it.1 && (it.2 < num_fixed m)%N) tm
  | OQueryFixed c | OEnableConstant c | OEnableEquality (Fixed, c) => (c < num_fixed m)%N
  | _ => true
  end.
Definition op_kinds (kinds : seq bool) (o : cs_op F) : seq bool :=
  if o is OSelector simple then rcons kinds simple else kinds.
Fixpoint ops_built (kinds : seq bool) (m : cs F) (ops : seq (cs_op F)) : bool :=
  if ops is o :: ops' then
    op_built kinds m o &&
    (if run_op m o is Some m' then ops_built (op_kinds kinds o) m' ops' else true)
  else true.

(* No selector is left in the expression. *)
Fixpoint selector_free (e : expr F) : bool :=
  match e with
  | ESelector _ _ => false
  | ENegated a | EScaled a _ => selector_free a
  | ESum a b | EProduct a b => selector_free a && selector_free b
  | _ => true
  end.

Section Row.
(* [acts] are the rows at which each selector is enabled, [polys] the values of the new
   fixed columns, the first of which is number [first]. *)
Variables (acts : seq (seq bool)) (polys : seq (seq F)) (first n : nat).

(* The cells seen from a row are arbitrary, except that the new fixed columns hold [polys]. *)
Definition row_cells (row : nat) (cell : any -> nat -> int -> F) : Prop :=
  forall c, (c < size polys)%N ->
    cell Fixed (first + c)%N 0 = nth 0 (nth [::] polys c) row.
Definition sel_value (row i : nat) : F := (nth false (nth [::] acts i) row)%:R.

Notation value sel cell e := (meaning (R := [comAlgType F of F^o]) sel cell e).

(* Same constraint at every row / same value at every row. *)
Definition same_constraint (e e' : expr F) : Prop :=
  forall row cell sel', (row < n)%N -> row_cells row cell ->
    (value sel' cell e' == 0) = (value (sel_value row) cell e == 0).
Definition same_value (e e' : expr F) : Prop :=
  forall row cell sel', (row < n)%N -> row_cells row cell ->
    value sel' cell e' = value (sel_value row) cell e.
End Row.
End Spec.
