(* Model of halo2_proofs/src/poly/evaluator.rs and of poly.rs:221-285
   (get_chunk_of_rotated, get_chunk_of_rotated_helper), domain.rs:286-298
   (get_chunk_of_rotated_extended).
   Panics (failed assertions, slice indices out of range, copy_from_slice with a different
   length, division by zero) are [None].  The chunks are disjoint pieces of the output
   written by independent tasks, so the tasks commute; they are modelled as a map over the
   chunk indices.  Arc sharing and the phantom type E are not represented. *)
Set Warnings "-notation-overridden,-ambiguous-paths".
From mathcomp Require Import all_ssreflect all_algebra.
From Verif Require Import Util M_Poly M_Domain M_Assigned.
Import GRing.Theory.
Set Implicit Arguments.
Unset Strict Implicit.
Local Open Scope ring_scope.

(* slice[a..b] (std) *)
Definition slice {T : Type} (s : seq T) (a b : nat) : option (seq T) :=
  if (a <= b <= size s)%N then Some (take (b - a) (drop a s)) else None.

(* evaluator.rs:19-35 get_chunk_params; None = division by zero *)
Definition get_chunk_params (threads poly_len : nat) : option (nat * nat) :=
  let num_chunks := (threads * 4)%N in
  if (num_chunks == 0)%N then None else
  let chunk_size := ((poly_len + num_chunks - 1) %/ num_chunks)%N in
  if (chunk_size == 0)%N then None else
  Some (chunk_size, ((poly_len + chunk_size - 1) %/ chunk_size)%N).

(* poly.rs:237-285 get_chunk_of_rotated_helper *)
Definition get_chunk_of_rotated_helper {T : Type} (values : seq T) (neg : bool)
    (rotation_abs chunk_size chunk_index : nat) : option (seq T) :=
  let len := size values in
  if (rotation_abs <= len)%N then
    let '(mid, k) := if neg then ((len - rotation_abs)%N, rotation_abs)
                     else (rotation_abs, (len - rotation_abs)%N) in
    let chunk_start := (chunk_size * chunk_index)%N in
    let chunk_end := minn len (chunk_size * (chunk_index + 1)) in
    if (chunk_end < k)%N then slice values (mid + chunk_start) (mid + chunk_end)
    else if (k <= chunk_start)%N then slice values (chunk_start - k) (chunk_end - k)
    else
      obind (fun s1 => obind (fun s2 =>
          let chunk := s1 ++ s2 in
          if (size chunk <= chunk_size)%N then Some chunk else None)
        (slice values 0 (chunk_end - k)))
      (slice values (mid + chunk_start) len)
  else None.

Section Ev.
Variable F : fieldType.
Variable zeta : F.                 (* F::ZETA *)
Variable d : domain F.
Variable threads : nat.

Inductive basis := Coeff | LagrangeCoeff | ExtendedLagrangeCoeff.

(* evaluator.rs:225-243 enum Ast; a leaf is a polynomial index and a rotation *)
Inductive ast :=
| APoly of nat & int
| AAdd of ast & ast
| AMul of ast & ast
| AScale of ast & F
| ADistributePowers of seq ast & F
| ALinearTerm of F
| AConstantTerm of F.

(* evaluator.rs:268-340: operators building Asts *)
Definition ast_one := AConstantTerm 1.
Definition ast_neg (a : ast) := AScale a (- 1).
Definition ast_sub (a b : ast) := AAdd a (ast_neg b).

(* empty_coeff / empty_lagrange / empty_extended (domain.rs:147-190) *)
Definition basis_len (B : basis) : nat :=
  match B with ExtendedLagrangeCoeff => extended_len d | _ => d_n d end.

(* evaluator.rs:474-485, 525-532, 571-578 constant_term *)
Definition constant_term (B : basis) (poly_len chunk_size chunk_index : nat) (scalar : F)
    : option (seq F) :=
  if (chunk_size * chunk_index <= poly_len)%N then   (* usize subtraction *)
    let len := minn chunk_size (poly_len - chunk_size * chunk_index) in
    match B with
    | Coeff =>
        let chunk := nseq len 0 in
        if (chunk_index == 0)%N then
          if (0 < len)%N then Some (set_nth 0 chunk 0 scalar) else None
        else Some chunk
    | _ => Some (nseq len scalar)
    end
  else None.

(* Iterator::scan with a running product *)
Fixpoint scan_mul (omega acc : F) (n : nat) : seq F :=
  if n is m.+1 then acc :: scan_mul omega (acc * omega) m else [::].

(* evaluator.rs:487-508, 534-553, 580-602 linear_term *)
Definition linear_term (B : basis) (poly_len chunk_size chunk_index : nat) (scalar : F)
    : option (seq F) :=
  let start := (chunk_size * chunk_index)%N in
  if (start <= poly_len)%N then
    let len := minn chunk_size (poly_len - start) in
    match B with
    | Coeff =>
        let chunk := nseq len 0 in
        if (chunk_size == 1)%N && (chunk_index == 1)%N then
          if (0 < len)%N then Some (set_nth 0 chunk 0 scalar) else None
        else if (chunk_index == 0)%N then
          if (1 < len)%N then Some (set_nth 0 chunk 1 scalar) else None
        else Some chunk
    | LagrangeCoeff => Some (scan_mul (d_omega d) (d_omega d ^+ start * scalar) len)
    | ExtendedLagrangeCoeff =>
        Some (scan_mul (d_ext_omega d) (d_ext_omega d ^+ start * zeta * scalar) len)
    end
  else None.

(* evaluator.rs:510-518, 555-563, 604-612 get_chunk_of_rotated *)
Definition get_chunk_of_rotated (B : basis) (chunk_size chunk_index : nat) (poly : seq F)
    (rotation : int) : option (seq F) :=
  match B with
  | Coeff => None                                            (* panic! *)
  | LagrangeCoeff =>
      get_chunk_of_rotated_helper poly (rot_neg rotation) `|rotation|%N chunk_size chunk_index
  | ExtendedLagrangeCoeff =>
      get_chunk_of_rotated_helper poly (rot_neg rotation)
        (2 ^ (d_ek d - d_k d) * `|rotation|)%N chunk_size chunk_index
  end.

(* for (lhs, rhs) in lhs.iter_mut().zip(rhs.iter()) { *lhs = op(lhs, rhs) } *)
Fixpoint zip_assign (op : F -> F -> F) (lhs rhs : seq F) : seq F :=
  match lhs, rhs with
  | x :: l, y :: r => op x y :: zip_assign op l r
  | _, _ => lhs
  end.

(* evaluator.rs:146-206 recurse *)
Section Recurse.
Variables (B : basis) (polys : seq (seq F)) (poly_len chunk_size chunk_index : nat).
Fixpoint recurse (a : ast) : option (seq F) :=
  match a with
  | APoly index rotation =>
      if (index < size polys)%N then
        get_chunk_of_rotated B chunk_size chunk_index (nth [::] polys index) rotation
      else None
  | AAdd a b => obind (fun lhs => omap (zip_assign +%R lhs) (recurse b)) (recurse a)
  | AMul a b => obind (fun lhs => omap (zip_assign *%R lhs) (recurse b)) (recurse a)
  | AScale a scalar => omap (fun lhs => [seq x * scalar | x <- lhs]) (recurse a)
  | ADistributePowers terms base =>
      foldl (fun acc term =>
               obind (fun acc => omap (zip_assign (fun x t => x * base + t) acc) (recurse term)) acc)
            (constant_term B poly_len chunk_size chunk_index 0) terms
  | ALinearTerm scalar => linear_term B poly_len chunk_size chunk_index scalar
  | AConstantTerm scalar => constant_term B poly_len chunk_size chunk_index scalar
  end.
End Recurse.

(* evaluator.rs:122-225 Evaluator::evaluate *)
Definition evaluate (B : basis) (polys : seq (seq F)) (a : ast) : option (seq F) :=
  if polys is p0 :: _ then
    let poly_len := size p0 in
    obind (fun cp : nat * nat =>
      let chunk_size := cp.1 in
      omap flatten (sequence (mapi (fun chunk_index out =>
        obind (fun r => if size r == size out then Some r else None)
              (recurse B polys poly_len chunk_size chunk_index a))
        (chunks chunk_size (nseq (basis_len B) (0 : F))))))
    (get_chunk_params threads poly_len)
  else None.
End Ev.
Arguments APoly {F}.
