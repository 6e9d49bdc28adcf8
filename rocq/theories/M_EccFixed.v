(* Model of full-width fixed-base scalar multiplication: halo2_gadgets/src/ecc/chip/{constants,mul_fixed}.rs
   and mul_fixed/full_width.rs.

   The code is for Pallas, with windows of 3 bits and 85 windows; here the base field F, the scalar field Fs
   (q is its modulus), the window size wb (FIXED_BASE_WINDOW_SIZE) and the number of windows nw (NUM_WINDOWS)
   are arbitrary.  Multiplying a curve point by a scalar (group::Group, external) is the textbook [n] P. *)
Set Warnings "-notation-overridden,-ambiguous-paths".
From mathcomp Require Import all_ssreflect all_algebra.
From Verif Require Import Util M_Env M_Assigned M_Circuit M_Value M_Region M_Layout M_Utilities M_Poly M_Ecc S_Curve.
Import GRing.Theory.
Set Implicit Arguments.
Unset Strict Implicit.
Local Open Scope ring_scope.

Section Fixed.
Variables (F : fieldType) (b : F) (pf : prime_field F).
Variables (Fs : fieldType) (pfs : prime_field Fs) (q : nat).
Variables wb nw : nat.
(* constants.rs:15 H *)
Definition win : nat := (2 ^ wb)%N.
(* base * scalar *)
Definition times (P : point F) (s : Fs) : point F := pmul (pf_val pfs s) P.

(* ---------------------------------------------------------------- constants.rs *)
(* lines 61-63, and mul_fixed.rs:399-401: the sum of 2^(3 j + 1) over all windows but the last *)
Definition offset_acc : Fs := foldl (fun acc j => acc + 2%:R ^+ (wb * j + 1)) 0 (iota 0 (nw - 1)).
(* lines 39-83 compute_window_table; num_windows = 0 underflows *)
Definition compute_window_table (base : point F) : option (seq (seq (point F))) :=
  if nw == 0%N then None else
  Some (rcons
    [seq [seq times base ((k + 2)%N%:R * win%:R ^+ w) | k <- iota 0 win] | w <- iota 0 (nw - 1)]
    [seq times base (k%:R * win%:R ^+ (nw - 1) - offset_acc) | k <- iota 0 win]).
(* lines 85-108 compute_lagrange_coeffs; coordinates().unwrap() panics on the identity *)
Definition compute_lagrange_coeffs (base : point F) : option (seq (seq F)) :=
  let points := [seq i%:R | i <- iota 0 win] in
  obind (fun window_table =>
    all_some [seq obind (lagrange_interpolate points) (all_some [seq omap fst P | P <- window_points])
             | window_points <- window_table])
    (compute_window_table base).

(* chip.rs:212-229 FixedPoint: the constants of a fixed base; u as field elements (the code stores their
   encodings and panics when one is not canonical) *)
Record fixed_point := FixedPoint { fp_generator : point F; fp_u : seq (seq F); fp_z : seq nat; fp_lagrange : seq (seq F) }.

(* ---------------------------------------------------------------- mul_fixed.rs *)
(* lines 35-53 Config, without the running sum of the other two kinds of scalar *)
Record fixed_config := FixedConfig { fx_lagrange : seq nat; fx_z : nat; fx_window : nat; fx_u : nat;
  fx_add : add_config; fx_inc : inc_config }.
Notation adv c rot := (EAdvice F 0 c rot).
Notation sel s simple := (ESelector F s simple).
(* lines 134-180 coords_check *)
Definition coords_check (c : fixed_config) (window : expr F) : seq (expr F) :=
  let y_p := adv (ad_yp (fx_add c)) 0 in
  let x_p := adv (ad_xp (fx_add c)) 0 in
  let z := EFixed F 0 (fx_z c) 0 in
  let u := adv (fx_u c) 0 in
  let window_pow := [seq foldl (fun acc _ => EProduct acc window) (EConstant 1) (iota 0 pow) | pow <- iota 0 win] in
  let interpolated_x := foldl (fun acc t => ESum acc (EProduct t.1 (EFixed F 0 t.2 0))) (EConstant 0)
                              (zip window_pow (fx_lagrange c)) in
  let x_check := esub interpolated_x x_p in
  let y_check := esub (esub (esquare u) y_p) z in
  let on_curve := esub (esub (esquare y_p) (EProduct (esquare x_p) x_p)) (EConstant b) in
  [:: x_check; y_check; on_curve].

(* lines 207-262 assign_fixed_constants.  The lengths are asserted when the first fixed value is asked for. *)
Definition assign_fixed_constants (c : fixed_config) (region offset : nat) (base : fixed_point) (toggle : nat) : rprog F unit :=
  if (size (fp_lagrange base) != nw) || (size (fp_z base) != nw) then RPanic else
  rmap (fun w =>
    enable_selector toggle (w + offset) ;+
    rmap (fun k => assign_fixed region (nth 0%N (fx_lagrange c) k) (w + offset)
                     (known (nth 0 (nth [::] (fp_lagrange base) w) k))) (iota 0 win) ;+
    assign_fixed region (fx_z c) (w + offset) (known (nth 0%N (fp_z base) w)%:R)) (iota 0 nw) ;+
  RRet F tt.
(* lines 277-283, with the assertions of 287 and 299: the coordinates of [scalar] B, or a panic *)
Definition unwrap_coords (base : fixed_point) (scalar : value Fs) : option (value (F * F)) :=
  match inner scalar with
  | None => Some unknown
  | Some s => if times (fp_generator base) s is Some (x, y) then
                if (x == 0) || (y == 0) then None else Some (known (x, y))
              else None
  end.
(* lines 264-313 process_window *)
Definition process_window (c : fixed_config) (region offset w : nat) (k_usize : value nat) (scalar : value Fs) (base : fixed_point)
    : rprog F (ecpoint F) :=
  if size (fp_u base) != nw then RPanic else
  match unwrap_coords base scalar with
  | None => RPanic
  | Some mul_b =>
    let+ x := assign_e region (ad_xp (fx_add c)) (offset + w) (v_map (fun P : F * F => ATrivial P.1) mul_b) in
    let+ y := assign_e region (ad_yp (fx_add c)) (offset + w) (v_map (fun P : F * F => ATrivial P.2) mul_b) in
    let u_val := v_map (fun k => nth 0 (nth [::] (fp_u base) w) k) k_usize in
    assign_advice region (fx_u c) (offset + w) u_val ;+
    RRet F (ECPoint x y)
  end.
(* lines 365-379 process_lower_bits *)
Definition process_lower_bits (c : fixed_config) (region offset w : nat) (k : value Fs) (k_usize : value nat) (base : fixed_point) :=
  let scalar := v_map (fun k => (k + 2%:R) * win%:R ^+ w) k in
  process_window c region offset w k_usize scalar base.

(* lines 434-476 ScalarFixed::windows_field for a full-width scalar: a window outside the scalar field panics *)
Definition windows_field (windows : seq (acell F)) : option (seq (value Fs)) :=
  all_some [seq match inner (ac_value a) with
                | None => Some unknown
                | Some x => if (pf_val pf x < q)%N then Some (known (pf_val pf x)%:R) else None
                end | a <- windows].
(* lines 478-495 windows_usize *)
Definition window_usize (k : value Fs) : value nat := v_map (fun k => word_of_bits (take wb (to_le_bits pfs k))) k.

(* lines 381-415 process_msb *)
Definition process_msb (c : fixed_config) (region offset : nat) (base : fixed_point) (ks : seq (value Fs)) : rprog F (ecpoint F) :=
  let k := nth unknown ks (nw - 1) in
  let scalar := v_map (fun k => k * win%:R ^+ (nw - 1) - offset_acc) (nth unknown ks (size ks - 1)) in
  process_window c region offset (nw - 1) (window_usize k) scalar base.
(* lines 182-205 assign_region_inner, where fields = scalar.windows_field(); 315-330 initialize_accumulator; 332-363 add_incomplete *)
Definition assign_region_inner (c : fixed_config) (region offset : nat) (fields : option (seq (value Fs))) (base : fixed_point) (toggle : nat)
    : rprog F (ecpoint F * ecpoint F) :=
  assign_fixed_constants c region offset base toggle ;+
  match fields with
  | None => RPanic
  | Some ks =>
    if ks is k0 :: _ then
      let+ acc := process_lower_bits c region offset 0 k0 (window_usize k0) base in
      if size ks != nw then RPanic else
      let+ acc := rfold (fun acc w =>
        let k := nth unknown ks w in
        let+ mul_b := process_lower_bits c region offset w k (window_usize k) base in
        inc_region (fx_inc c) region mul_b acc (offset + w)) acc (iota 1 (nw - 2)) in
      let+ mul_b := process_msb c region offset base ks in
      RRet F (acc, mul_b)
    else RPanic
  end.

(* ---------------------------------------------------------------- mul_fixed/full_width.rs *)
(* lines 12-16 Config *)
Record full_config := FullConfig { q_mul_fixed_full : nat; fu_super : fixed_config }.
(* lines 33-54 create_gate *)
Definition full_gates (c : full_config) : seq (expr F) :=
  let window := adv (fx_window (fu_super c)) 0 in
  [seq EProduct (sel (q_mul_fixed_full c) true) p
     | p <- rcons (coords_check (fu_super c) window) (range_check window win)].
(* lines 56-74 witness; 76-117 decompose_scalar_fixed, with SCALAR_NUM_BITS = pallas::Scalar::NUM_BITS *)
Definition witness_windows (c : full_config) (region offset : nat) (scalar : value Fs) : rprog F (seq (acell F)) :=
  enable_rows F (q_mul_fixed_full c) offset nw ;+
  match map_transpose (fun s => omap (map (fun k : nat => k%:R : F)) (decompose_word pfs s (pf_num_bits pfs) wb)) scalar nw with
  | None => RPanic
  | Some scalar_windows =>
    rmap (fun t : nat * value F => assign_advice region (fx_window (fu_super c)) (offset + t.1) t.2)
         (zip (iota 0 (size scalar_windows)) scalar_windows)
  end.
(* lines 119-180 assign, for a scalar that has no windows yet (with windows: todo!()) *)
Definition mul_fixed_full (c : full_config) (scalar : value Fs) (base : fixed_point) : lprog F (ecpoint F * seq (acell F)) :=
  let* t := assign_region (fun region =>
    let+ windows := witness_windows c region 0 scalar in
    let+ r := assign_region_inner (fu_super c) region 0 (windows_field windows) base (q_mul_fixed_full c) in
    RRet F (windows, r)) in
  let: (windows, (acc, mul_b)) := t in
  let* result := assign_region (fun region => add_region (fx_add (fu_super c)) region mul_b acc 0) in
  LRet (result, windows).
End Fixed.
