(* Model of the calls a circuit makes on a Layouter: halo2_proofs/src/circuit.rs:421-520.

   Circuit::synthesize, and every gadget, is a program of such calls.  [lprog] is that program;
   what it does next depends on what a region's closure returned.  The closure receives the
   index its region gets (which is part of every Cell it hands out).  Namespaces and annotation
   strings are left out. *)
Set Warnings "-notation-overridden,-ambiguous-paths".
From mathcomp Require Import all_ssreflect all_algebra.
From Verif Require Import Util M_Env M_Assigned M_Circuit M_Value M_Region.
Set Implicit Arguments.
Unset Strict Implicit.

Section Layout.
Variable F : fieldType.

(* circuit.rs:396-413 Table::assign_cell(column, offset, to); a table closure is a list of them *)
Record tassign := TAssign { ta_column : nat; ta_offset : nat; ta_value : value (assigned F) }.

Inductive lprog (A : Type) : Type :=
  | LRet of A
  | LErr of error
  | LPanic
  | LRegion : forall C : Type, (nat -> rprog F C) -> (C -> lprog A) -> lprog A   (* assign_region *)
  | LTable of seq tassign & lprog A                                              (* assign_table *)
  | LInstance of cell & nat & nat & lprog A.                                     (* constrain_instance(cell, column, row) *)

Fixpoint lbind {A C : Type} (p : lprog A) (f : A -> lprog C) : lprog C :=
  match p with
  | LRet a => f a
  | LErr e => LErr C e
  | LPanic => LPanic C
  | LRegion D body k => LRegion body (fun d => lbind (k d) f)
  | LTable t k => LTable t (lbind k f)
  | LInstance c col row k => LInstance c col row (lbind k f)
  end.

(* assign_region as a step *)
Definition assign_region {C : Type} (body : nat -> rprog F C) : lprog C := LRegion body (@LRet C).

Variable inst : nat -> nat -> value F.
(* What the program returns if every call of the back-end succeeds, starting with [r] regions
   laid out, and the number of regions then. *)
Fixpoint lreturns {A : Type} (r : nat) (p : lprog A) : res (A * nat) :=
  match p with
  | LRet a => Ok (a, r)
  | LErr e => Err e
  | LPanic => Panic
  | LRegion D body k => rbind (returns inst (body r)) (fun d => lreturns r.+1 (k d))
  | LTable _ k | LInstance _ _ _ k => lreturns r k
  end.
(* the calls made in each region *)
Fixpoint lregions {A : Type} (r : nat) (p : lprog A) : seq (nat * seq (rop F)) :=
  match p with
  | LRet _ | LErr _ | LPanic => [::]
  | LRegion D body k => (r, calls inst (body r)) ::
      (if returns inst (body r) is Ok d then lregions r.+1 (k d) else [::])
  | LTable _ k | LInstance _ _ _ k => lregions r k
  end.
(* the constraints with instance cells: (cell, instance column, row) *)
Fixpoint linstances {A : Type} (r : nat) (p : lprog A) : seq (cell * (nat * nat)) :=
  match p with
  | LRet _ | LErr _ | LPanic => [::]
  | LRegion D body k => if returns inst (body r) is Ok d then linstances r.+1 (k d) else [::]
  | LTable _ k => linstances r k
  | LInstance c col row k => (c, (col, row)) :: linstances r k
  end.
End Layout.
Arguments LErr {F A}. Arguments LPanic {F A}.
Arguments LRet {F A}.

Notation "'let*' x ':=' p 'in' q" := (lbind p (fun x => q))
  (at level 200, x name, p at level 100, q at level 200).
Notation "p ';*' q" := (lbind p (fun _ => q)) (at level 199, right associativity).

(* A loop over the indices of an array whose body makes region calls and returns a value, with `?'
   inside: (0..n).map(f).collect::<Result<Vec<_>, _>>(), or a for loop *)
Fixpoint rmap {F : fieldType} {I A : Type} (f : I -> rprog F A) (l : seq I) : rprog F (seq A) :=
  if l is i :: l' then rbindp (f i) (fun a => rbindp (rmap f l') (fun s => RRet F (a :: s))) else RRet F [::].
(* (lo..hi).fold(Ok(a), |res, i| res.and_then(..)) *)
Fixpoint rfold {F : fieldType} {I A : Type} (f : A -> I -> rprog F A) (a : A) (l : seq I) : rprog F A :=
  if l is i :: l' then rbindp (f a i) (fun a => rfold f a l') else RRet F a.
Fixpoint lfold {F : fieldType} {I A : Type} (f : A -> I -> lprog F A) (a : A) (l : seq I) : lprog F A :=
  if l is i :: l' then lbind (f a i) (fun a => lfold f a l') else LRet a.
