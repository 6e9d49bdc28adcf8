(* Specification for C08: the meaning of an Ast, one row at a time. *)
Set Warnings "-notation-overridden,-ambiguous-paths".
From mathcomp Require Import all_ssreflect all_algebra.
From Verif Require Import Util M_Domain M_Evaluator.
Import GRing.Theory.
Set Implicit Arguments.
Unset Strict Implicit.
Local Open Scope ring_scope.

Section Spec.
Variable F : fieldType.

(* Ring interpretation of an Ast, given the meaning of leaves, of X and of constants. *)
Section Interp.
Variable R : comRingType.
Variables (leaf : nat -> int -> R) (X : R) (const : F -> R).
Fixpoint interp (a : ast F) : R :=
  match a with
  | APoly idx r => leaf idx r
  | AAdd a b => interp a + interp b
  | AMul a b => interp a * interp b
  | AScale a s => interp a * const s
  | ADistributePowers ts base =>
      (* sum_i term_i * base^(#terms - 1 - i), Horner form *)
      foldl (fun acc t => acc * const base + interp t) 0 ts
  | ALinearTerm s => const s * X
  | AConstantTerm s => const s
  end.
End Interp.

(* Which leaves an Ast mentions, with their rotation. *)
Fixpoint leaves (a : ast F) : seq (nat * int) :=
  match a with
  | APoly idx r => [:: (idx, r)]
  | AAdd a b | AMul a b => leaves a ++ leaves b
  | AScale a _ => leaves a
  | ADistributePowers ts _ => flatten (map leaves ts)
  | _ => [::]
  end.
End Spec.
