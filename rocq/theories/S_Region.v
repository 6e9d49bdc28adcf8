(* Specification for the gadgets: what a finished table must satisfy for a region that was
   laid out in it.  Advice values are left free: they are the prover's choice. *)
Set Warnings "-notation-overridden,-ambiguous-paths".
From mathcomp Require Import all_ssreflect all_algebra.
From Verif Require Import Util M_Env M_Assigned P_Assigned M_Circuit S_Circuit M_Value M_Region.
Import GRing.Theory.
Set Implicit Arguments.
Unset Strict Implicit.
Local Open Scope ring_scope.

Section Spec.
Variable F : fieldType.

(* A finished table: the value in every cell and the rows where each selector is on.  Rows
   are integers so that a rotation never leaves the table; in a circuit with n rows, row r
   means row r mod n. *)
Record table := Table { t_cell : any -> nat -> int -> F; t_selector : nat -> int -> bool }.

(* the value of an expression at a row *)
Definition at_row (T : table) (row : int) (e : expr F) : F :=
  meaning (R := [comAlgType F of F^o]) (fun s => (t_selector T s row)%:R)
    (fun kind c rot => t_cell T kind c (row + rot)) e.

(* every gate polynomial is zero on every row *)
Definition gates_hold (T : table) (gates : seq (expr F)) : Prop :=
  forall row, all (fun g => at_row T row g == 0) gates.

(* On every usable row the inputs, read at that row, are the table columns at some usable row. *)
Definition looked_up (T : table) (usable : int -> Prop) (inputs : seq (expr F)) (columns : seq nat) : Prop :=
  forall row, usable row -> exists2 row', usable row' &
    [seq at_row T row e | e <- inputs] = [seq t_cell T Fixed c row' | c <- columns].

(* where regions start: the row of a cell *)
Definition row_of (place : nat -> int) (c : cell) : int := place (c_region c) + (c_offset c)%:Z.
Definition cell_value (T : table) (place : nat -> int) (c : cell) : F :=
  t_cell T (c_column c).1 (c_column c).2 (row_of place c).

(* What key generation fixes once and for all about a call made while laying out region r:
   the selectors that are on, fixed values, and equality constraints. *)
Definition respects_op (T : table) (place : nat -> int) (r : nat) (o : rop F) : Prop :=
  match o with
  | OEnable s off => t_selector T s (place r + off%:Z)
  | OFixed c off v => forall x, v = known x -> t_cell T Fixed c (place r + off%:Z) = denote x
  | OAdviceConstant c off x => t_cell T Advice c (place r + off%:Z) = denote x
  | OAdviceInstance i row c off _ => t_cell T Advice c (place r + off%:Z) = t_cell T Instance i row%:Z
  | OConstrainConstant c x => cell_value T place c = denote x
  | OConstrainEqual c c' => cell_value T place c = cell_value T place c'
  | OAdvice _ _ _ | OInstanceValue _ _ => True
  end.
Definition respects (T : table) (place : nat -> int) (r : nat) (ops : seq (rop F)) : Prop :=
  List.Forall (respects_op T place r) ops.

(* ... and inside the region's rows 0 .. height-1 the selectors in [sels] are on only where
   this region turned them on (no other region overlaps it, C33/C34). *)
Definition enabled_in (ops : seq (rop F)) (s off : nat) : bool :=
  has (fun o : rop F => if o is OEnable s' o' then (s' == s) && (o' == off) else false) ops.
Definition only_enabled (T : table) (place : nat -> int) (r height : nat) (sels : seq nat) (ops : seq (rop F)) : Prop :=
  forall s off, s \in sels -> (off < height)%N ->
    t_selector T s (place r + off%:Z) = enabled_in ops s off.

(* An honest prover's table holds the assigned advice values. *)
Definition honest_op (T : table) (place : nat -> int) (r : nat) (o : rop F) : Prop :=
  match o with
  | OAdvice c off v => forall x, v = known x -> t_cell T Advice c (place r + off%:Z) = denote x
  | OAdviceConstant c off x => t_cell T Advice c (place r + off%:Z) = denote x
  | OAdviceInstance i row c off v => forall x, v = known x -> t_cell T Advice c (place r + off%:Z) = x
  | OFixed c off v => forall x, v = known x -> t_cell T Fixed c (place r + off%:Z) = denote x
  | _ => True
  end.
Definition honest (T : table) (place : nat -> int) (r : nat) (ops : seq (rop F)) : Prop :=
  List.Forall (honest_op T place r) ops.
(* key generation turned these selectors on *)
Definition selectors_on (T : table) (place : nat -> int) (r : nat) (ops : seq (rop F)) : Prop :=
  List.Forall (fun o : rop F => if o is OEnable s off then is_true (t_selector T s (place r + off%:Z)) else True) ops.
(* an assigned cell holds the value its AssignedCell says *)
Definition holds_value (T : table) (place : nat -> int) (a : acell F) (x : F) : Prop :=
  ac_value a = known x /\ cell_value T place (ac_cell a) = x.
End Spec.

(* Rules for reading a region program call by call. *)
Section Rules.
Variables (F : fieldType) (inst : nat -> nat -> value F).

Lemma calls_bind (A C : Type) (p : rprog F A) (f : A -> rprog F C) a :
  returns inst p = Ok a -> calls inst (rbindp p f) = calls inst p ++ calls inst (f a).
Proof.
by elim: p => //= [a'|s o k IH|c o v k IH|c o v k IH|i r c o k IH|i r k IH|c o v k IH|c v k IH|c c' k IH] h;
  rewrite ?(IH h) ?(IH _ h) //; case: h => ->.
Qed.
Lemma returns_bind (A C : Type) (p : rprog F A) (f : A -> rprog F C) :
  returns inst (rbindp p f) = rbind (returns inst p) (fun a => returns inst (f a)).
Proof. by elim: p => //=. Qed.
End Rules.
