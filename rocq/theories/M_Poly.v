(* Model of halo2_proofs/src/arithmetic.rs: eval_polynomial, compute_inner_product,
   kate_division, parallelize, lagrange_interpolate.  Panics are [None]. *)
Set Warnings "-notation-overridden,-ambiguous-paths".
From mathcomp Require Import all_ssreflect all_algebra.
From Verif Require Import Util.
Import GRing.Theory.
Set Implicit Arguments.
Unset Strict Implicit.
Local Open Scope ring_scope.

(* arithmetic.rs:357-377 parallelize.  The closure [f] receives a chunk and its start index
   and rewrites the chunk; chunks are disjoint, so the interleaving of the spawned tasks is
   irrelevant and the result is the concatenation.  chunks_mut(0) (empty slice) panics. *)
Definition parallelize {T : Type} (threads : nat) (v : seq T) (f : seq T -> nat -> seq T)
    : option (seq T) :=
  let n := size v in
  let chunk := let c := (n %/ threads)%N in if (c < threads)%N then n else c in
  if chunk == 0%N then None
  else Some (flatten (mapi (fun chunk_num v => f v (chunk_num * chunk)%N) (chunks chunk v))).

Section Poly.
Variable F : fieldType.

(* ff::BatchInvert (external crate): inverts every non-zero element in place and leaves
   zeros unchanged.  (0^-1 = 0 in MathComp.) *)
Definition batch_invert (s : seq F) : seq F := [seq x^-1 | x <- s].

(* arithmetic.rs:298-303 *)
Definition eval_polynomial (poly : seq F) (point : F) : F :=
  foldl (fun acc coeff => acc * point + coeff) 0 (rev poly).

(* arithmetic.rs:308-318 *)
Definition compute_inner_product (a b : seq F) : option F :=
  if size a == size b then Some (foldl (fun acc p => acc + p.1 * p.2) 0 (zip a b)) else None.

(* arithmetic.rs:322-342 kate_division: the loop, over the reversed coefficients *)
Fixpoint kate_loop (b tmp : F) (rs : seq F) : seq F :=
  if rs is r :: rs' then
    let lead_coeff := r - tmp in lead_coeff :: kate_loop b (lead_coeff * b) rs'
  else [::].
Definition kate_division (a : seq F) (b : F) : option (seq F) :=
  if size a == 0%N then None      (* a.len() - 1 underflows *)
  else Some (rev (kate_loop (- b) 0 (take (size a).-1 (rev a)))).

(* the sequence without its j-th element: .enumerate().filter(|&(k, _)| k != j) *)
Definition without (T : Type) (j : nat) (s : seq T) : seq T := take j s ++ drop j.+1 s.

(* arithmetic.rs:421-440: one multiplication of [tmp] by denom * (X - x_k) *)
Definition interp_step (tmp : seq F) (xd : F * F) : seq F :=
  let: (x_k, denom) := xd in
  [seq p.1 * (- denom * x_k) + p.2 * denom | p <- zip (rcons tmp 0) (0 :: tmp)].

(* arithmetic.rs:394-449 lagrange_interpolate.  The double buffer (tmp, product) is modelled
   by the new value of tmp; the length assertions inside always hold. *)
Definition lagrange_interpolate (points evals : seq F) : option (seq F) :=
  if size points == size evals then
    if size points == 1%N then Some [:: head 0 evals]
    else
      let denoms := mapi (fun j x_j => batch_invert [seq x_j - x_k | x_k <- without j points]) points in
      Some (foldl (fun final_poly jde =>
                     let: (j, (ds, eval)) := jde in
                     let tmp := foldl interp_step [:: 1] (zip (without j points) ds) in
                     mapi (fun i c => c + nth 0 tmp i * eval) final_poly)
                  (nseq (size points) 0)
                  (zip (iota 0 (size points)) (zip denoms evals)))
  else None.
End Poly.
