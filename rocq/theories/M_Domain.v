(* Model of halo2_proofs/src/poly/domain.rs (EvaluationDomain) and of the value-level
   operations of poly.rs (Add, Mul, rotate).  Panics are [None].
   The constants F::ROOT_OF_UNITY, F::S and F::ZETA are parameters; [threads] is
   multicore::current_num_threads(). *)
Set Warnings "-notation-overridden,-ambiguous-paths".
From mathcomp Require Import all_ssreflect all_algebra.
From Verif Require Import Util M_FFT M_Poly.
Import GRing.Theory.
Set Implicit Arguments.
Unset Strict Implicit.
Local Open Scope ring_scope.

(* slice::rotate_left / rotate_right (std); they panic when the amount exceeds the length *)
Definition rotate_left {T : Type} (s : seq T) (mid : nat) : option (seq T) :=
  if (mid <= size s)%N then Some (drop mid s ++ take mid s) else None.
Definition rotate_right {T : Type} (s : seq T) (k : nat) : option (seq T) :=
  if (k <= size s)%N then Some (drop (size s - k) s ++ take (size s - k) s) else None.

(* Rotation(i32) as an integer *)
Definition rotate_by {T : Type} (s : seq T) (neg : bool) (amount : nat) : option (seq T) :=
  if neg then rotate_right s amount else rotate_left s amount.
Definition rot_neg (r : int) : bool := (r < 0)%R.

Section Domain.
Variable F : fieldType.
Variables (rou zeta : F) (two_adicity : nat).
Variable threads : nat.

(* domain.rs:20-35 struct EvaluationDomain *)
Record domain := Domain {
  d_n : nat; d_k : nat; d_ek : nat;
  d_omega : F; d_omega_inv : F; d_ext_omega : F; d_ext_omega_inv : F;
  d_coset : F; d_coset_inv : F; d_qd : nat;
  d_ifft_divisor : F; d_ext_ifft_divisor : F; d_t_evaluations : seq F; d_barycentric : F }.

(* domain.rs:50-53: while (1 << extended_k) < (n * quotient_poly_degree) { extended_k += 1 }.
   [fuel] = quotient degree is always enough. *)
Fixpoint extended_k_loop (fuel ek target : nat) : nat :=
  if fuel is f.+1 then if (2 ^ ek < target)%N then extended_k_loop f ek.+1 target else ek
  else ek.

(* domain.rs:93-100: loop { push(cur); cur *= step; if cur == orig { break } }.
   None = out of fuel. *)
Fixpoint t_loop (fuel : nat) (orig step cur : F) : option (seq F) :=
  if fuel is f.+1 then
    let cur' := cur * step in
    if cur' == orig then Some [:: cur]
    else omap (cons cur) (t_loop f orig step cur')
  else None.

(* domain.rs:37-145 EvaluationDomain::new *)
Definition domain_new (j k : nat) : option domain :=
  if (j == 0)%N then None else                                  (* j - 1 underflows *)
  let qd := (j - 1)%N in
  let n := (2 ^ k)%N in
  let ek := extended_k_loop qd k (n * qd)%N in
  if ~~ (ek <= two_adicity)%N then None else                    (* assert *)
  let ext_omega := iter (two_adicity - ek) (fun w => w ^+ 2) rou in
  let omega := iter (ek - k) (fun w => w ^+ 2) ext_omega in
  let orig := zeta ^+ n in
  let step := ext_omega ^+ n in
  if t_loop (2 ^ (ek - k)).+1 orig step orig is Some ts then
    if size ts == (2 ^ (ek - k))%N then                         (* assert_eq *)
      Some {| d_n := n; d_k := k; d_ek := ek;
              d_omega := omega; d_omega_inv := omega^-1;
              d_ext_omega := ext_omega; d_ext_omega_inv := ext_omega^-1;
              d_coset := zeta; d_coset_inv := zeta ^+ 2; d_qd := qd;
              d_ifft_divisor := ((2 ^ k)%N%:R)^-1;
              d_ext_ifft_divisor := ((2 ^ ek)%N%:R)^-1;
              d_t_evaluations := batch_invert [seq t - 1 | t <- ts];
              d_barycentric := (n%:R)^-1 |}
    else None
  else None.

Variable d : domain.
Definition extended_len : nat := (2 ^ d_ek d)%N.     (* domain.rs:391-393 *)

Notation FV := ([lmodType F of F^o]).

(* domain.rs:380-388 ifft *)
Definition ifft (a : seq F) (omega_inv : F) (log_n : nat) (divisor : F) : option (seq F) :=
  obind (fun a => parallelize threads a (fun a _ => [seq x * divisor | x <- a]))
        (best_fft (V := FV) 0 threads a omega_inv log_n).

(* domain.rs:361-378 distribute_powers_zeta *)
Definition distribute_powers_zeta (a : seq F) (into_coset : bool) : option (seq F) :=
  let coset_powers := if into_coset then [:: d_coset d; d_coset_inv d]
                      else [:: d_coset_inv d; d_coset d] in
  parallelize threads a (fun a start =>
    mapi_from start (fun index x =>
      let i := (index %% 3)%N in
      if i != 0%N then x * nth 0 coset_powers i.-1 else x) a).

(* domain.rs:233-243 lagrange_to_coeff *)
Definition lagrange_to_coeff (a : seq F) : option (seq F) :=
  if size a == (2 ^ d_k d)%N then ifft a (d_omega_inv d) (d_k d) (d_ifft_divisor d) else None.

(* Vec::resize (std) with zeros *)
Definition resize0 (a : seq F) (n : nat) : seq F := take n a ++ nseq (n - size a) 0.

(* domain.rs:247-261 coeff_to_extended *)
Definition coeff_to_extended (a : seq F) : option (seq F) :=
  if size a == (2 ^ d_k d)%N then
    obind (fun a => best_fft (V := FV) 0 threads (resize0 a extended_len) (d_ext_omega d) (d_ek d))
          (distribute_powers_zeta a true)
  else None.

(* domain.rs:264-280 rotate_extended *)
Definition rotate_extended (poly : seq F) (rotation : int) : option (seq F) :=
  rotate_by poly (rot_neg rotation) (2 ^ (d_ek d - d_k d) * `|rotation|)%N.

(* domain.rs:310-332 extended_to_coeff *)
Definition extended_to_coeff (a : seq F) : option (seq F) :=
  if size a == extended_len then
    obind (fun a => omap (take (d_n d * d_qd d)) (distribute_powers_zeta a false))
          (ifft a (d_ext_omega_inv d) (d_ek d) (d_ext_ifft_divisor d))
  else None.

(* domain.rs:336-352 divide_by_vanishing_poly *)
Definition divide_by_vanishing_poly (a : seq F) : option (seq F) :=
  if size a == extended_len then
    parallelize threads a (fun h start =>
      mapi_from start (fun index x =>
        x * nth 0 (d_t_evaluations d) (index %% size (d_t_evaluations d))) h)
  else None.

(* domain.rs:413-423 rotate_omega *)
Definition rotate_omega (value : F) (rotation : int) : F :=
  if (0 <= rotation)%R then value * d_omega d ^+ `|rotation|%N
  else value * d_omega_inv d ^+ `|rotation|%N.

(* domain.rs:460-484 l_i_range *)
Definition l_i_range (x xn : F) (rotations : seq int) : seq F :=
  let results := batch_invert [seq x - rotate_omega 1 r | r <- rotations] in
  let common := (xn - 1) * d_barycentric d in
  [seq rotate_omega (p.2 * common) p.1 | p <- zip rotations results].

(* poly.rs:196-209 Polynomial<F, LagrangeCoeff>::rotate *)
Definition poly_rotate (values : seq F) (rotation : int) : option (seq F) :=
  rotate_by values (rot_neg rotation) `|rotation|%N.

(* poly.rs:182-194 Add: rhs.values[start..] panics if start > rhs.len(); a shorter rhs
   leaves the tail unchanged *)
Definition poly_add (lhs rhs : seq F) : option (seq F) :=
  parallelize threads lhs (fun l start =>
    mapi_from start (fun i x => if (i < size rhs)%N then x + nth 0 rhs i else x) l).

(* poly.rs:288-299 Mul<F> *)
Definition poly_scale (a : seq F) (rhs : F) : option (seq F) :=
  parallelize threads a (fun l _ => [seq x * rhs | x <- l]).
End Domain.
