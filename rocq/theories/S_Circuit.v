(* Specification for C20-C22: the meaning of an expression, and the sequences of calls a
   circuit's configure() can make on a ConstraintSystem. *)
Set Warnings "-notation-overridden,-ambiguous-paths".
From mathcomp Require Import all_ssreflect all_algebra.
From Verif Require Import Util M_Circuit.
Import GRing.Theory.
Set Implicit Arguments.
Unset Strict Implicit.
Local Open Scope ring_scope.

Section Spec.
Variable F : fieldType.

(* The value of an expression in a commutative F-algebra, given the value of every
   selector and of every (column, rotation); the query index plays no role. *)
Definition meaning (R : comAlgType F) (sel : nat -> R) (cell : any -> nat -> int -> R)
    (e : expr F) : R :=
  expr_eval (fun c => c%:A) (fun i _ => sel i) (fun _ => cell Fixed) (fun _ => cell Advice)
    (fun _ => cell Instance) -%R +%R *%R (fun a f => f *: a) e.

(* One call on a ConstraintSystem. *)
Inductive cs_op :=
| OSelector of bool
| OFixedColumn | OAdviceColumn | OInstanceColumn
| OQueryFixed of nat | OQueryAdvice of nat & int | OQueryInstance of nat & int
| OEnableEquality of column
| OEnableConstant of nat
| OLookup of seq (expr F * nat)
| OGate of gate F
| OMinimumDegree of nat.

Definition run_op (m : cs F) (o : cs_op) : option (cs F) :=
  match o with
  | OSelector simple => Some (new_selector m simple).1
  | OFixedColumn => Some (fixed_column m).1
  | OAdviceColumn => Some (advice_column m).1
  | OInstanceColumn => Some (instance_column m).1
  | OQueryFixed c => Some (query_fixed_index m c).1
  | OQueryAdvice c r => omap fst (query_advice_index m c r)
  | OQueryInstance c r => Some (query_instance_index m c r).1
  | OEnableEquality c => enable_equality m c
  | OEnableConstant c => enable_constant m c
  | OLookup tm => omap fst (add_lookup m tm)
  | OGate g => create_gate m g
  | OMinimumDegree d => Some (set_minimum_degree m d)
  end.

Fixpoint run_ops (m : cs F) (ops : seq cs_op) : option (cs F) :=
  if ops is o :: ops' then obind (fun m' => run_ops m' ops') (run_op m o) else Some m.

(* Which (column, rotation) pairs the calls ask for. *)
Definition asked_advice (o : cs_op) : seq (nat * int) :=
  match o with
  | OQueryAdvice c r => [:: (c, r)]
  | OEnableEquality (Advice, c) => [:: (c, 0)]
  | _ => [::]
  end.
Definition asked_instance (o : cs_op) : seq (nat * int) :=
  match o with
  | OQueryInstance c r => [:: (c, r)]
  | OEnableEquality (Instance, c) => [:: (c, 0)]
  | _ => [::]
  end.
Definition asked_fixed (o : cs_op) : seq nat :=
  match o with
  | OQueryFixed c => [:: c]
  | OEnableEquality (Fixed, c) => [:: c]
  | OEnableConstant c => [:: c]
  | OLookup tm => unzip2 tm
  | _ => [::]
  end.

(* Every query in the expression carries the index under which the constraint system
   recorded its column and rotation. *)
Fixpoint expr_ok (m : cs F) (e : expr F) : bool :=
  match e with
  | EFixed i c r => (i < size (fixed_queries m))%N && (nth (0%N, 0) (fixed_queries m) i == (c, r))
  | EAdvice i c r => (i < size (advice_queries m))%N && (nth (0%N, 0) (advice_queries m) i == (c, r))
  | EInstance i c r =>
      (i < size (instance_queries m))%N && (nth (0%N, 0) (instance_queries m) i == (c, r))
  | ENegated a | EScaled a _ => expr_ok m a
  | ESum a b | EProduct a b => expr_ok m a && expr_ok m b
  | _ => true
  end.
(* A call that adds expressions uses only such expressions (they can only come from
   query_* calls on this constraint system, combined by the arithmetic operators). *)
Definition op_exprs_ok (m : cs F) (o : cs_op) : bool :=
  match o with
  | OGate g => all (expr_ok m) (g_polys g)
  | OLookup tm => all (fun it => expr_ok m it.1) tm
  | _ => true
  end.
Fixpoint ops_exprs_ok (m : cs F) (ops : seq cs_op) : bool :=
  if ops is o :: ops' then
    op_exprs_ok m o && (if run_op m o is Some m' then ops_exprs_ok m' ops' else true)
  else true.
Definition cs_exprs_ok (m : cs F) : bool :=
  all (fun g => all (expr_ok m) (g_polys g)) (gates m) &&
  all (fun l => all (expr_ok m) (lk_input l) && all (expr_ok m) (lk_table l)) (lookups m).
End Spec.
