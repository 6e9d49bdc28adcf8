(* Model of halo2_proofs/src/circuit/value.rs: Value<V>.  References and owned values are not
   distinguished, so the variants of an operator which differ only in borrowing (for instance
   the six impls of Add, lines 251-334) are one definition.  Panics are [None]. *)
Set Warnings "-notation-overridden,-ambiguous-paths".
From mathcomp Require Import all_ssreflect all_algebra.
From Verif Require Import Util M_Env M_Assigned.
Import GRing.Theory.
Set Implicit Arguments.
Unset Strict Implicit.
Local Open Scope ring_scope.

(* value.rs:15-18 struct Value { inner: Option<V> } *)
Record value (V : Type) := Value { inner : option V }.

(* value.rs:26-43 unknown, known *)
Definition unknown {V : Type} : value V := Value None.
Definition known {V : Type} (v : V) : value V := Value (Some v).

(* Option::zip (std) *)
Definition ozip {V W : Type} (a : option V) (b : option W) : option (V * W) :=
  match a, b with Some x, Some y => Some (x, y) | _, _ => None end.

Section Value.
Variables V W : Type.

(* value.rs:45-50 assign *)
Definition v_assign (v : value V) : res V := ok_or ESynthesis (inner v).
(* value.rs:71-84 assert_if_known *)
Definition v_assert_if_known (v : value V) (f : V -> bool) : option unit :=
  if inner v is Some x then (if f x then Some tt else None) else Some tt.
(* value.rs:86-95 error_if_known_and *)
Definition v_error_if_known_and (v : value V) (f : V -> bool) : res unit :=
  match inner v with Some x => if f x then Err ESynthesis else Ok tt | None => Ok tt end.
(* value.rs:97-102 map *)
Definition v_map (f : V -> W) (v : value V) : value W := Value (omap f (inner v)).
(* value.rs:104-111 and_then *)
Definition v_and_then (v : value V) (f : V -> value W) : value W :=
  match inner v with Some x => f x | None => unknown end.
(* value.rs:113-121 zip *)
Definition v_zip (v : value V) (w : value W) : value (V * W) := Value (ozip (inner v) (inner w)).
(* value.rs:124-136 unzip *)
Definition v_unzip (v : value (V * W)) : value V * value W :=
  match inner v with Some (a, b) => (known a, known b) | None => (unknown, unknown) end.
(* value.rs:182-195 transpose_array: entries are overwritten while both iterators last *)
Fixpoint overwrite (ret : seq (value V)) (arr : seq V) : seq (value V) :=
  match ret, arr with
  | _ :: ret', x :: arr' => known x :: overwrite ret' arr'
  | _, _ => ret
  end.
Definition v_transpose_array (len : nat) (v : value (seq V)) : seq (value V) :=
  let ret := nseq len unknown in
  if inner v is Some arr then overwrite ret arr else ret.
(* value.rs:197-221 transpose_vec *)
Definition v_transpose_vec (v : value (seq V)) (length : nat) : option (seq (value V)) :=
  match inner v with
  | Some values => if size values == length then Some [seq known x | x <- values] else None
  | None => Some [seq unknown | _ <- iota 0 length]
  end.
(* value.rs:227-237 FromIterator, for Vec: Option's collect stops at the first None *)
Fixpoint collect_options (s : seq (option V)) : option (seq V) :=
  if s is o :: s' then
    (if o is Some x then (if collect_options s' is Some xs then Some (x :: xs) else None) else None)
  else Some [::].
Definition v_from_iter (vs : seq (value V)) : value (seq V) := Value (collect_options [seq inner v | v <- vs]).
End Value.

(* value.rs:243-251 Neg; 257-334 Add; 340-417 Sub; 423-500 Mul: inner.zip(rhs.inner).map(..) *)
Definition v_op1 {V O : Type} (f : V -> O) (v : value V) : value O := Value (omap f (inner v)).
Definition v_op2 {V W O : Type} (f : V -> W -> O) (v : value V) (w : value W) : value O :=
  Value (omap (fun p => f p.1 p.2) (ozip (inner v) (inner w))).

Section Field.
Variable F : fieldType.
Notation A := (assigned F).
Definition v_neg (v : value A) : value A := v_op1 (@a_neg F) v.
Definition v_add (v w : value A) : value A := v_op2 (@a_add F) v w.
Definition v_sub (v w : value A) : value A := v_op2 (@a_sub F) v w.
Definition v_mul (v w : value A) : value A := v_op2 (@a_mul F) v w.
(* value.rs:506-512 From<Value<F>>; 620-642 to_field, into_field for F *)
Definition v_of_field (v : value F) : value A := Value (omap (@ATrivial F) (inner v)).
(* value.rs:514-618 the operators with a Value<F> or an F on the right *)
Definition v_add_v (v : value A) (w : value F) : value A := v_op2 (@a_add_f F) v w.
Definition v_add_f (v : value A) (f : F) : value A := v_add_v v (known f).
Definition v_sub_v (v : value A) (w : value F) : value A := v_op2 (@a_sub_f F) v w.
Definition v_sub_f (v : value A) (f : F) : value A := v_sub_v v (known f).
Definition v_mul_v (v : value A) (w : value F) : value A := v_op2 (@a_mul_f F) v w.
Definition v_mul_f (v : value A) (f : F) : value A := v_mul_v v (known f).
(* value.rs:644-692 double, square, cube, invert *)
Definition v_double (v : value A) : value A := v_op1 (@a_double F) v.
Definition v_square (v : value A) : value A := v_op1 (@a_square F) v.
Definition v_cube (v : value A) : value A := v_op1 (@a_cube F) v.
Definition v_invert (v : value A) : value A := v_op1 (@a_invert F) v.
(* value.rs:695-704 evaluate *)
Definition v_evaluate (v : value A) : value F := v_op1 (@a_evaluate F) v.
End Field.
