(* Specification: the discrete Fourier transform over a module. *)
Set Warnings "-notation-overridden,-ambiguous-paths".
From mathcomp Require Import all_ssreflect all_algebra.
Import GRing.Theory.
Set Implicit Arguments.
Unset Strict Implicit.
Local Open Scope ring_scope.

Definition dft (F : fieldType) (V : lmodType F) (omega : F) (a : seq V) : seq V :=
  mkseq (fun i => \sum_(j < size a) omega ^+ (i * j) *: nth 0 a j) (size a).
