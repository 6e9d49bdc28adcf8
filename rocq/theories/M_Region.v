(* Model of the region API: halo2_proofs/src/circuit.rs (Cell, AssignedCell, Region) and
   halo2_proofs/src/circuit/layouter.rs (RegionLayouter, RegionShape).

   The closure a circuit passes to Layouter::assign_region is a program of calls on the
   Region it is given.  Such a program is an [rprog]: what it does next may depend on the
   values of instance cells it asked for.  Simplification: a call that returns an error ends
   the closure with that error (the `?' operator), and the closure has no state of its own
   which survives it. *)
Set Warnings "-notation-overridden,-ambiguous-paths".
From mathcomp Require Import all_ssreflect all_algebra.
From Verif Require Import Util M_Env M_Assigned M_Circuit M_Value.
Import GRing.Theory.
Set Implicit Arguments.
Unset Strict Implicit.

(* circuit.rs:87-98 Cell *)
Record cell := Cell { c_region : nat; c_offset : nat; c_column : column }.

Section Region.
Variable F : fieldType.

(* circuit.rs:99-104 AssignedCell<F, F>; AssignedCell<Assigned<F>, F> is the same with the
   value evaluated, since From and evaluate (circuit.rs:118-150) only convert the value *)
Record acell := ACell { ac_value : value F; ac_cell : cell }.

(* circuit.rs:201-376 the methods of Region (layouter.rs:45-112 RegionLayouter) *)
Inductive rprog (A : Type) : Type :=
  | RRet of A
  | RErr of error
  | RPanic
  | REnable of nat & nat & rprog A                                  (* enable_selector(selector, offset) *)
  | RAdvice of nat & nat & value (assigned F) & rprog A             (* assign_advice(column, offset, to) *)
  | RAdviceConstant of nat & nat & assigned F & rprog A             (* assign_advice_from_constant *)
  | RAdviceInstance of nat & nat & nat & nat & (value F -> rprog A) (* assign_advice_from_instance(instance, row, advice, offset) *)
  | RInstanceValue of nat & nat & (value F -> rprog A)              (* instance_value(instance, row) *)
  | RFixed of nat & nat & value (assigned F) & rprog A              (* assign_fixed(column, offset, to) *)
  | RConstrainConstant of cell & assigned F & rprog A
  | RConstrainEqual of cell & cell & rprog A.

Fixpoint rbindp {A C : Type} (p : rprog A) (f : A -> rprog C) : rprog C :=
  match p with
  | RRet a => f a
  | RErr e => RErr C e
  | RPanic => RPanic C
  | REnable s o k => REnable s o (rbindp k f)
  | RAdvice c o v k => RAdvice c o v (rbindp k f)
  | RAdviceConstant c o v k => RAdviceConstant c o v (rbindp k f)
  | RAdviceInstance i r c o k => RAdviceInstance i r c o (fun v => rbindp (k v) f)
  | RInstanceValue i r k => RInstanceValue i r (fun v => rbindp (k v) f)
  | RFixed c o v k => RFixed c o v (rbindp k f)
  | RConstrainConstant c v k => RConstrainConstant c v (rbindp k f)
  | RConstrainEqual c c' k => RConstrainEqual c c' (rbindp k f)
  end.

(* The calls a region program makes, when instance cells have the values given by [inst]. *)
Inductive rop : Type :=
  | OEnable of nat & nat
  | OAdvice of nat & nat & value (assigned F)
  | OAdviceConstant of nat & nat & assigned F
  | OAdviceInstance of nat & nat & nat & nat & value F
  | OInstanceValue of nat & nat
  | OFixed of nat & nat & value (assigned F)
  | OConstrainConstant of cell & assigned F
  | OConstrainEqual of cell & cell.

Fixpoint calls {A : Type} (inst : nat -> nat -> value F) (p : rprog A) : seq rop :=
  match p with
  | RRet _ | RErr _ | RPanic => [::]
  | REnable s o k => OEnable s o :: calls inst k
  | RAdvice c o v k => OAdvice c o v :: calls inst k
  | RAdviceConstant c o v k => OAdviceConstant c o v :: calls inst k
  | RAdviceInstance i r c o k => OAdviceInstance i r c o (inst i r) :: calls inst (k (inst i r))
  | RInstanceValue i r k => OInstanceValue i r :: calls inst (k (inst i r))
  | RFixed c o v k => OFixed c o v :: calls inst k
  | RConstrainConstant c v k => OConstrainConstant c v :: calls inst k
  | RConstrainEqual c c' k => OConstrainEqual c c' :: calls inst k
  end.
(* and what it returns if every call succeeds *)
Fixpoint returns {A : Type} (inst : nat -> nat -> value F) (p : rprog A) : res A :=
  match p with
  | RRet a => Ok a
  | RErr e => Err e
  | RPanic => Panic
  | REnable _ _ k | RAdvice _ _ _ k | RAdviceConstant _ _ _ k | RFixed _ _ _ k
  | RConstrainConstant _ _ k | RConstrainEqual _ _ k => returns inst k
  | RAdviceInstance i r _ _ k | RInstanceValue i r k => returns inst (k (inst i r))
  end.

(* layouter.rs:126-165 RegionColumn; a selector is its index *)
Inductive region_column := RCColumn of column | RCSelector of nat.

(* layouter.rs:189-285 RegionLayouter for RegionShape: which column a call uses, and at which
   offset; the other calls leave the shape alone.  assign_advice_from_constant is
   assign_advice. *)
Definition rop_uses (o : rop) : option (region_column * nat) :=
  match o with
  | OEnable s o => Some (RCSelector s, o)
  | OAdvice c o _ | OAdviceConstant c o _ | OAdviceInstance _ _ c o _ => Some (RCColumn (Advice, c), o)
  | OFixed c o _ => Some (RCColumn (Fixed, c), o)
  | OInstanceValue _ _ | OConstrainConstant _ _ | OConstrainEqual _ _ => None
  end.

(* the API of Region as functions of the region's index *)
Variable region : nat.
(* circuit.rs:215-248 assign_advice of a field value; in a pass that calls the closure [to],
   the assigned cell holds the value *)
Definition assign_advice (column offset : nat) (v : value F) : rprog acell :=
  RAdvice column offset (v_of_field v) (RRet (ACell v (Cell region offset (Advice, column)))).
(* the same for a Value<Assigned<F>> (evaluated) *)
Definition assign_advice_assigned (column offset : nat) (v : value (assigned F)) : rprog acell :=
  RAdvice column offset v (RRet (ACell (v_evaluate v) (Cell region offset (Advice, column)))).
(* circuit.rs:250-280 assign_advice_from_constant *)
Definition assign_advice_from_constant (column offset : nat) (c : F) : rprog acell :=
  RAdviceConstant column offset (ATrivial c) (RRet (ACell (known c) (Cell region offset (Advice, column)))).
(* circuit.rs:325-357 assign_fixed *)
Definition assign_fixed (column offset : nat) (v : value F) : rprog acell :=
  RFixed column offset (v_of_field v) (RRet (ACell v (Cell region offset (Fixed, column)))).
Definition enable_selector (s offset : nat) : rprog unit := REnable s offset (RRet tt).
Definition constrain_constant (c : cell) (v : F) : rprog unit := RConstrainConstant c (ATrivial v) (RRet tt).
Definition constrain_equal (c c' : cell) : rprog unit := RConstrainEqual c c' (RRet tt).
(* circuit.rs:152-176 AssignedCell::copy_advice *)
Definition copy_advice (a : acell) (column offset : nat) : rprog acell :=
  rbindp (assign_advice column offset (ac_value a)) (fun b =>
  rbindp (constrain_equal (ac_cell b) (ac_cell a)) (fun _ => RRet b)).
End Region.
Arguments RErr {F A}. Arguments RPanic {F A}.
Arguments enable_selector {F}. Arguments constrain_equal {F}.
Arguments OEnable {F}. Arguments OInstanceValue {F}. Arguments OConstrainEqual {F}.

Notation "'let+' x ':=' p 'in' q" := (rbindp p (fun x => q))
  (at level 200, x name, p at level 100, q at level 200).
Notation "p ';+' q" := (rbindp p (fun _ => q)) (at level 199, right associativity).
