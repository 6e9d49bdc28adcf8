(* Model of the trait Assignment (halo2_proofs/src/plonk/circuit.rs:339-437) and of two of its
   implementations: the Assembly of keygen.rs:46-186 and the WitnessCollection of
   prover.rs:143-262.

   A synthesis is the run of FloorPlanner::synthesize against an Assignment: a program of
   calls of the trait's methods.  It is a [synth]; what it does next may depend only on the
   instance values it asked for.  Simplification: a call that returns an error ends the
   synthesis with that error (the `?' operator).  Region names and namespaces carry no
   data and are left out; entering and leaving a region is kept, the MockProver uses it. *)
Set Warnings "-notation-overridden,-ambiguous-paths".
From mathcomp Require Import all_ssreflect all_algebra.
From Verif Require Import Util M_Env M_Assigned M_Circuit M_Selectors M_Copy M_Value.
Import GRing.Theory.
Set Implicit Arguments.
Unset Strict Implicit.

Section Assign.
Variable F : fieldType.
Local Notation assigned := (assigned F).

(* plonk/circuit.rs:339-437 the methods of Assignment which return Result<(), Error> *)
Inductive aop : Type :=
  | AEnter                                              (* enter_region(name) *)
  | AExit                                               (* exit_region() *)
  | AEnable of nat & nat                                (* enable_selector(selector, row) *)
  | AAdvice of nat & nat & value assigned               (* assign_advice(column, row, to) *)
  | AFixed of nat & nat & value assigned                (* assign_fixed(column, row, to) *)
  | ACopy of column & nat & column & nat                (* copy(left, left_row, right, right_row) *)
  | AFill of nat & nat & value assigned.                (* fill_from_row(column, from_row, to) *)

Inductive synth : Type :=
  | SDone
  | SErr of error
  | SPanic
  | SOp of aop & synth
  | SQuery of nat & nat & (value F -> synth).           (* query_instance(column, row) *)

(* Running a synthesis against an implementation of the trait *)
Fixpoint run_synth {S : Type} (op : aop -> S -> res S) (query : nat -> nat -> S -> res (value F))
    (p : synth) (s : S) : res S :=
  match p with
  | SDone => Ok s
  | SErr e => Err e
  | SPanic => Panic
  | SOp o k => rbind (op o s) (run_synth op query k)
  | SQuery c r k => rbind (query c r s) (fun v => run_synth op query (k v) s)
  end.

(* ---------------------------------------------------------------- key generation *)

(* keygen.rs:46-56 struct Assembly; k is only used in error messages and usable_rows, which is
   the range 0..u, is passed separately *)
Record kassembly := KAssembly {
  ka_fixed : seq (seq assigned);
  ka_perm : assembly;
  ka_selectors : seq (seq bool) }.

(* for row in usable_rows.clone().skip(from_row) { col[row] = filler } (keygen.rs:170-172): the
   range is 0..u, so its elements from from_row on; an index out of range is a panic *)
Definition fill_rows {T : Type} (u from_row : nat) (filler : T) (col : seq T) : option (seq T) :=
  foldl (fun col row => obind (fun col => if row < size col then Some (upd col row filler) else None) col)
    (Some col) (drop from_row (iota 0 u)).

(* v.get_mut(i).and_then(|v| v.get_mut(j)).ok_or(BoundsFailure)? = x *)
Definition put2 {T : Type} (v : seq (seq T)) (i j : nat) (x : T) : res (seq (seq T)) :=
  ok_or EBoundsFailure (set2 v (i, j) x).

(* keygen.rs:58-186 impl Assignment for Assembly.  In `place = value' Rust evaluates the value
   first, so an unknown value is reported before a column out of range. *)
Definition keygen_op (u : nat) (o : aop) (a : kassembly) : res kassembly :=
  match o with
  | AEnter | AExit => Ok a
  | AEnable selector row =>
      if ~~ (row < u) then Err ENotEnoughRows else
      rbind (unwrap (set2 (ka_selectors a) (selector, row) true)) (fun s =>
        Ok (KAssembly (ka_fixed a) (ka_perm a) s))
  | AAdvice _ _ _ => Ok a
  | AFixed column row to =>
      if ~~ (row < u) then Err ENotEnoughRows else
      rbind (v_assign to) (fun x => rbind (put2 (ka_fixed a) column row x) (fun f =>
        Ok (KAssembly f (ka_perm a) (ka_selectors a))))
  | ACopy left_column left_row right_column right_row =>
      if ~~ (left_row < u) || ~~ (right_row < u) then Err ENotEnoughRows else
      let: (p, r) := copy (ka_perm a) left_column left_row right_column right_row in
      rbind r (fun _ => Ok (KAssembly (ka_fixed a) p (ka_selectors a)))
  | AFill column from_row to =>
      if ~~ (from_row < u) then Err ENotEnoughRows else
      rbind (ok_or EBoundsFailure (get (ka_fixed a) column)) (fun col =>
      rbind (v_assign to) (fun filler =>
      rbind (unwrap (fill_rows u from_row filler col)) (fun col =>
        Ok (KAssembly (upd (ka_fixed a) column col) (ka_perm a) (ka_selectors a)))))
  end.
(* keygen.rs:90-97 query_instance: there is no instance in this context *)
Definition keygen_query (u column row : nat) (a : kassembly) : res (value F) :=
  if ~~ (row < u) then Err ENotEnoughRows else Ok unknown.
Definition keygen_run (u : nat) : synth -> kassembly -> res kassembly :=
  run_synth (keygen_op u) (keygen_query u).

(* ---------------------------------------------------------------- proving *)

(* prover.rs:152-252 impl Assignment for WitnessCollection, whose only mutable field is advice *)
Definition witness_op (u : nat) (o : aop) (advice : seq (seq assigned)) : res (seq (seq assigned)) :=
  if o is AAdvice column row to then
    if ~~ (row < u) then Err ENotEnoughRows else
    rbind (v_assign to) (fun x => put2 advice column row x)
  else Ok advice.
(* prover.rs:180-194 query_instance *)
Definition witness_query (u : nat) (instances : seq (seq F)) (column row : nat) (advice : seq (seq assigned))
    : res (value F) :=
  if ~~ (row < u) then Err ENotEnoughRows else
  ok_or EBoundsFailure (omap known (obind (fun c => get c row) (get instances column))).
Definition witness_run (u : nat) (instances : seq (seq F)) : synth -> seq (seq assigned) -> res (seq (seq assigned)) :=
  run_synth (witness_op u) (witness_query u instances).
End Assign.
