(* Specification of the Poseidon permutation and of constant-length sponge hashing
   (ePrint 2019/458, sections 2 and 4.2), on functions from word indices to field elements. *)
Set Warnings "-notation-overridden,-ambiguous-paths".
From mathcomp Require Import all_ssreflect all_algebra.
Import GRing.Theory.
Set Implicit Arguments.
Unset Strict Implicit.
Local Open Scope ring_scope.

Section Spec.
Variables (F : fieldType) (T RATE : nat).
Definition words := nat -> F.
Variables (M : nat -> nat -> F) (sbox : F -> F) (c : nat -> words) (rf rp : nat).

(* one round: add the constants, apply the S-box to every word or only to the first, mix *)
Definition mix (v : words) : words := fun i => \sum_(j < T) M i j * v j.
Definition spec_round (r : nat) (partial : bool) (v : words) : words :=
  mix (fun j => if partial && (j != 0)%N then v j + c r j else sbox (v j + c r j)).
(* rf/2 full rounds, rp partial rounds, rf/2 full rounds *)
Definition spec_permute (v : words) : words :=
  let h := (rf %/ 2)%N in
  foldl (fun v r => spec_round r ((h <= r) && (r < h + rp))%N v) v (iota 0 (h + rp + h)).

(* the sponge: state k after k blocks of RATE words of the message; the words past its end
   are zero.  Word RATE initially holds the length times 2^64. *)
Fixpoint spec_state (message : seq F) (k : nat) : words :=
  if k is k'.+1 then
    spec_permute (fun j => spec_state message k' j + (if (j < RATE)%N then nth 0 message (k' * RATE + j) else 0))
  else fun j => if j == RATE then (size message)%:R * 2%:R ^+ 64 else 0.
(* the number of blocks *)
Definition covers (k len : nat) : Prop := (len <= k * RATE < len + RATE)%N.
End Spec.
