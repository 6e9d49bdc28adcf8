(* Counting without enumerating: P holds of at most k values. *)
From mathcomp Require Import all_ssreflect.
Set Implicit Arguments.
Unset Strict Implicit.
Definition at_most {T : eqType} (k : nat) (P : T -> Prop) : Prop :=
  forall l : seq T, uniq l -> (forall x, x \in l -> P x) -> size l <= k.
