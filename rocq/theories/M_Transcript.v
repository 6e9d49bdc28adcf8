(* Model of halo2_proofs/src/transcript.rs (Blake2bRead, Blake2bWrite, Challenge255).
   A Blake2b state is the list of bytes absorbed so far.  The writer is an infallible
   buffer (Vec<u8>); the reader is a byte list (&[u8]).  After an Err the transcript is
   not used again by halo2, so the state after an error is dropped. *)
Set Warnings "-notation-overridden,-ambiguous-paths".
From mathcomp Require Import all_ssreflect all_algebra.
From Verif Require Import Util M_Multiexp M_Env.
Import GRing.Theory.
Set Implicit Arguments.
Unset Strict Implicit.
Local Open Scope ring_scope.

(* computations with a state *)
Definition M (S A : Type) : Type := S -> res (A * S).
Definition mret {S A : Type} (a : A) : M S A := fun s => Ok (a, s).
Definition mbind {S A C : Type} (x : M S A) (f : A -> M S C) : M S C :=
  fun s => rbind (x s) (fun p => f p.1 p.2).
Definition mlift {S A : Type} (r : res A) : M S A := fun s => rbind r (fun a => Ok (a, s)).
Definition mmap_err {S A : Type} (e : error) (x : M S A) : M S A := fun s => map_err e (x s).
Notation "'let!' x ':=' a 'in' b" := (mbind a (fun x => b))
  (at level 200, x pattern, a at level 100, b at level 200).
Notation "a ';;;' b" := (mbind a (fun _ => b)) (at level 199, right associativity).
(* iter().map(f).collect::<Result<Vec<_>, _>>() *)
Fixpoint mmap {S A C : Type} (f : A -> M S C) (l : seq A) : M S (seq C) :=
  if l is x :: l' then
    let! y := f x in let! ys := mmap f l' in mret (y :: ys)
  else mret [::].
(* for x in l { acc = f(acc, x)?; } *)
Fixpoint mfold {S A C : Type} (f : C -> A -> M S C) (acc : C) (l : seq A) : M S C :=
  if l is x :: l' then let! acc := f acc x in mfold f acc l' else mret acc.

Section Transcript.
Variables (F B : fieldType) (G : lmodType F) (E : env B G).

(* transcript.rs:14-20 *)
Definition PREFIX_CHALLENGE : nat := 0.
Definition PREFIX_POINT : nat := 1.
Definition PREFIX_SCALAR : nat := 2.

(* transcript.rs:128-147 and 207-226: the Blake2b state operations, identical for reader
   and writer.  The state is the list of absorbed bytes. *)
Definition absorb_point (st : seq nat) (p : G) : seq nat * bool :=
  let st := st ++ [:: PREFIX_POINT] in
  match e_coords E p with
  | None => (st, false)                       (* io::Error, after absorbing the prefix *)
  | Some (x, y) => let st := st ++ e_brepr E x in (st ++ e_brepr E y, true)
  end.
Definition absorb_scalar (st : seq nat) (s : F) : seq nat :=
  let st := st ++ [:: PREFIX_SCALAR] in st ++ e_repr E s.
(* transcript.rs:121-126, 200-205, 289-298 Challenge255::new *)
Definition absorb_challenge (st : seq nat) : seq nat := st ++ [:: PREFIX_CHALLENGE].
Definition challenge_bytes (st : seq nat) : seq nat := e_repr E (e_uniform E (e_blake E st)).
(* transcript.rs:299-303 get_scalar *)
Definition challenge_scalar (c : seq nat) : res F := unwrap (e_from_repr E c).

(* The writer (prover side), with the position in the RNG stream *)
Record wst := Wst { w_abs : seq nat; w_out : seq nat; w_rng : nat }.
Definition W := M wst.

Definition w_common_point (p : G) : W unit := fun s =>
  let: (st, ok) := absorb_point (w_abs s) p in
  if ok then Ok (tt, Wst st (w_out s) (w_rng s)) else Err EIo.
Definition w_common_scalar (x : F) : W unit := fun s =>
  Ok (tt, Wst (absorb_scalar (w_abs s) x) (w_out s) (w_rng s)).
Definition w_put (b : seq nat) : W unit := fun s =>
  Ok (tt, Wst (w_abs s) (w_out s ++ b) (w_rng s)).
(* transcript.rs:183-187 *)
Definition write_point (p : G) : W unit := w_common_point p ;;; w_put (e_to_bytes E p).
(* transcript.rs:188-192 *)
Definition write_scalar (x : F) : W unit := w_common_scalar x ;;; w_put (e_repr E x).
Definition w_squeeze_encoded : W (seq nat) := fun s =>
  let st := absorb_challenge (w_abs s) in Ok (challenge_bytes st, Wst st (w_out s) (w_rng s)).
(* transcript.rs:28-33 squeeze_challenge_scalar *)
Definition w_squeeze : W F := let! c := w_squeeze_encoded in mlift (challenge_scalar c).
(* Field::random(&mut rng) *)
Definition draw : W F := fun s => Ok (e_rng E (w_rng s), Wst (w_abs s) (w_out s) (w_rng s).+1).

(* The reader (verifier side) *)
Record rst := Rst { r_abs : seq nat; r_in : seq nat }.
Definition R := M rst.
(* Read::read_exact for &[u8] *)
Definition r_get (n : nat) : R (seq nat) := fun s =>
  if (n <= size (r_in s))%N then Ok (take n (r_in s), Rst (r_abs s) (drop n (r_in s)))
  else Err EIo.
Definition r_common_point (p : G) : R unit := fun s =>
  let: (st, ok) := absorb_point (r_abs s) p in
  if ok then Ok (tt, Rst st (r_in s)) else Err EIo.
Definition r_common_scalar (x : F) : R unit := fun s =>
  Ok (tt, Rst (absorb_scalar (r_abs s) x) (r_in s)).
(* transcript.rs:91-100; the encodings have 32 bytes *)
Definition read_point : R G :=
  let! b := r_get 32 in
  let! p := mlift (ok_or EIo (e_from_bytes E b)) in
  r_common_point p ;;; mret p.
(* transcript.rs:102-114 *)
Definition read_scalar : R F :=
  let! b := r_get 32 in
  let! x := mlift (ok_or EIo (e_from_repr E b)) in
  r_common_scalar x ;;; mret x.
Definition r_squeeze_encoded : R (seq nat) := fun s =>
  let st := absorb_challenge (r_abs s) in Ok (challenge_bytes st, Rst st (r_in s)).
Definition r_squeeze : R F := let! c := r_squeeze_encoded in mlift (challenge_scalar c).
(* transcript.rs:306-318 *)
Definition read_n_points (n : nat) : R (seq G) := mmap (fun _ => read_point) (iota 0 n).
Definition read_n_scalars (n : nat) : R (seq F) := mmap (fun _ => read_scalar) (iota 0 n).
End Transcript.
Arguments draw {F B G E}.
