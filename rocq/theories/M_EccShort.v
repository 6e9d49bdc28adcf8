(* Model of fixed-base multiplication by a short signed scalar: halo2_gadgets/src/ecc/chip/mul_fixed/short.rs,
   with the parts of mul_fixed.rs that serve scalars given by a running sum.

   As in M_EccFixed the fields, the window size wb and the number of windows nw (NUM_WINDOWS_SHORT = 22) are
   arbitrary; lbits is L_SCALAR_SHORT = 64. *)
Set Warnings "-notation-overridden,-ambiguous-paths".
From mathcomp Require Import all_ssreflect all_algebra.
From Verif Require Import Util M_Env M_Assigned M_Circuit M_Selectors M_Value M_Region M_Layout M_Utilities M_Poly M_Ecc S_Curve M_EccFixed.
Import GRing.Theory.
Set Implicit Arguments.
Unset Strict Implicit.
Local Open Scope ring_scope.

Section Short.
Variables (F : fieldType) (b : F) (pf : prime_field F).
Variables (Fs : fieldType) (pfs : prime_field Fs) (q : nat).
Variables wb nw lbits : nat.
Notation adv c rot := (EAdvice F 0 c rot).
Notation sel s simple := (ESelector F s simple).
(* short.rs:13-18 Config; sh_range is running_sum_config.q_range_check(), whose column z is the window column (mul_fixed.rs:67) *)
Record short_config := ShortConfig { q_mul_fixed_short : nat; sh_range : nat; sh_super : fixed_config }.

(* mul_fixed.rs:117-127, the word of running_sum_coords_gate *)
Definition rs_word (c : fixed_config) : expr F := esub (adv (fx_window c) 0) (EScaled (adv (fx_window c) 1) (win wb)%:R).
(* mul_fixed.rs:112-131 running_sum_coords_gate *)
Definition rs_coords_gates (c : short_config) : seq (expr F) :=
  [seq EProduct (sel (sh_range c) true) p | p <- coords_check b wb (sh_super c) (rs_word (sh_super c))].
(* short.rs:36-80 create_gate *)
Definition short_polys (c : short_config) : seq (expr F) :=
  let fx := sh_super c in
  let y_p := adv (ad_yp (fx_add fx)) 0 in
  let y_a := adv (ad_yqr (fx_add fx)) 0 in
  let last_window := adv (fx_u fx) 0 in
  let sign := adv (fx_window fx) 0 in
  let last_window_check := bool_check last_window in
  let sign_check := esub (esquare sign) (EConstant 1) in
  let y_check := EProduct (esub y_p y_a) (ESum y_p y_a) in
  let negation_check := esub (EProduct sign y_p) y_a in
  [:: last_window_check; sign_check; y_check; negation_check].
Definition short_gate (c : short_config) : seq (expr F) :=
  [seq EProduct (sel (q_mul_fixed_short c) true) p | p <- short_polys c].
(* all the gates: decompose_running_sum.rs:86-95 and the two above *)
Definition short_gates (c : short_config) : seq (expr F) :=
  running_sum_gate F (sh_range c) (fx_window (sh_super c)) wb :: rs_coords_gates c ++ short_gate c.

(* mul_fixed.rs:440-452 running_sum_to_windows: a word outside the scalar field panics *)
Definition rs_windows (zs : seq (acell F)) : option (seq (value Fs)) :=
  all_some [seq match inner (v_op2 (fun x y : F => x - y) (if get zs idx is Some z then ac_value z else unknown)
                       (v_op2 *%R (if get zs idx.+1 is Some z then ac_value z else unknown) (known (win wb)%:R))) with
                | None => Some unknown
                | Some x => if (pf_val pf x < q)%N then Some (known (pf_val pf x)%:R) else None
                end | idx <- iota 0 (size zs - 1)].
(* short.rs:170-177 and 277-284: y, negated when the sign is -1 *)
Definition signed_y (sign : value F) (y : value (assigned F)) : value (assigned F) :=
  v_and_then sign (fun s => if s == -1 then v_neg y else y).
(* short.rs:150-199: the second region *)
Definition short_msb_region (c : short_config) (region : nat) (sign : acell F) (zs : seq (acell F)) (acc mul_b : ecpoint F)
    : rprog F (ecpoint F) :=
  let fx := sh_super c in
  let+ m := add_region (fx_add fx) region mul_b acc 0 in
  let+ s := copy_advice region sign (fx_window fx) 1 in
  match get zs (nw - 1) with
  | None => RPanic
  | Some z_21 =>
    copy_advice region z_21 (fx_u fx) 1 ;+
    enable_selector (q_mul_fixed_short c) 1 ;+
    let+ y_var := assign_e region (ad_yp (fx_add fx)) 1 (signed_y (ac_value s) (ec_value (ep_y m))) in
    RRet F (ECPoint (ep_x m) y_var)
  end.
(* short.rs:82-107 decompose; 109-241 assign, for a scalar without a running sum (with one: todo!()) *)
Definition mul_fixed_short (c : short_config) (magnitude sign : acell F) (base : fixed_point F)
    : lprog F (ecpoint F * seq (acell F)) :=
  let fx := sh_super c in
  let* t := assign_region (fun region =>
    let+ zs := rs_copy_decompose pf (sh_range c) (fx_window fx) wb region 0 magnitude true lbits nw in
    let+ r := assign_region_inner pfs wb nw fx region 0 (rs_windows zs) base (sh_range c) in
    RRet F (zs, r)) in
  let: (zs, (acc, mul_b)) := t in
  let* result := assign_region (fun region => short_msb_region c region sign zs acc mul_b) in
  LRet (result, zs).
(* short.rs:243-301 assign_scalar_sign *)
Definition assign_scalar_sign (c : short_config) (sign : acell F) (p : ecpoint F) : lprog F (ecpoint F) :=
  let fx := sh_super c in
  assign_region (fun region =>
    enable_selector (q_mul_fixed_short c) 0 ;+
    assign_advice_from_constant region (fx_u fx) 0 0 ;+
    copy_advice region sign (fx_window fx) 0 ;+
    copy_e region (ep_y p) (ad_yqr (fx_add fx)) 0 ;+
    let+ y := assign_e region (ad_yp (fx_add fx)) 0 (signed_y (ac_value sign) (ec_value (ep_y p))) in
    RRet F (ECPoint (ep_x p) y)).
End Short.
