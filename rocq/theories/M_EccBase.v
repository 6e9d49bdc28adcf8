(* Model of fixed-base multiplication by a base-field element: halo2_gadgets/src/ecc/chip/mul_fixed/base_field_elem.rs.

   As in M_EccFixed the fields, the window size wb and the number of windows nw (NUM_WINDOWS = 85) are arbitrary.
   The other constants of the file follow from: wm, the window the low part of the scalar ends in (43); K and lw, the
   word size and count of the range check (10 and 13); t_p, with p = 2^254 + t_p. *)
Set Warnings "-notation-overridden,-ambiguous-paths".
From mathcomp Require Import all_ssreflect all_algebra.
From Verif Require Import Util M_Env M_Assigned M_Circuit M_Selectors M_Value M_Region M_Layout M_Utilities M_Poly M_Ecc S_Curve M_EccFixed M_EccShort.
Import GRing.Theory.
Set Implicit Arguments.
Unset Strict Implicit.
Local Open Scope ring_scope.

Section Base.
Variables (F : fieldType) (b : F) (pf : prime_field F).
Variables (Fs : fieldType) (pfs : prime_field Fs) (q : nat).
Variables wb nw wm K lw t_p : nat.
Notation adv c rot := (EAdvice F 0 c rot).
Notation sel s simple := (ESelector F s simple).
(* base_field_elem.rs:20-28 Config; of ba_rs only sh_range and sh_super are used: the super_config with its running sum *)
Record base_config := BaseConfig { q_mul_fixed_base_field : nat; ba_c0 : nat; ba_c1 : nat; ba_c2 : nat; ba_lookup : lrc; ba_rs : short_config }.
(* 2^252, 2^130, 2^120 *)
Definition two_pow_top : F := (2 ^ (wb * (nw - 1)))%N%:R.
Definition two_pow_lo : F := (2 ^ (K * lw))%N%:R.
Definition two_pow_hi : F := (2 ^ (wb * (nw - 1 - wm.+1)))%N%:R.
(* lines 62-163 create_gate *)
Definition canon_polys (c : base_config) : seq (expr F) :=
  let alpha := adv (ba_c0 c) (-1) in
  let z_84_alpha := adv (ba_c2 c) (-1) in
  let alpha_0 := esub alpha (EScaled z_84_alpha two_pow_top) in
  let alpha_1 := adv (ba_c1 c) 0 in
  let alpha_2 := adv (ba_c2 c) 0 in
  let alpha_0_prime := adv (ba_c0 c) 0 in
  let z_13_alpha_0_prime := adv (ba_c0 c) 1 in
  let z_44_alpha := adv (ba_c1 c) 1 in
  let z_43_alpha := adv (ba_c2 c) 1 in
  let alpha_0_hi_120 := esub z_44_alpha (EProduct z_84_alpha (EConstant two_pow_hi)) in
  let a_43 := esub z_43_alpha (EScaled z_44_alpha (win wb)%:R) in
  [:: EProduct alpha_2 alpha_1; EProduct alpha_2 alpha_0_hi_120; EProduct alpha_2 (bool_check a_43);
      EProduct alpha_2 z_13_alpha_0_prime; range_check alpha_1 4; bool_check alpha_2;
      esub z_84_alpha (ESum alpha_1 (EScaled alpha_2 4%:R));
      esub alpha_0_prime (esub (ESum alpha_0 (EConstant two_pow_lo)) (EConstant t_p%:R))].
Definition canon_gate (c : base_config) : seq (expr F) :=
  [seq EProduct (sel (q_mul_fixed_base_field c) true) g | g <- canon_polys c].
(* all the gates: decompose_running_sum.rs:86-95, mul_fixed.rs:112-131 and the one above *)
Definition base_gates (c : base_config) : seq (expr F) :=
  running_sum_gate F (sh_range (ba_rs c)) (fx_window (sh_super (ba_rs c))) wb :: rs_coords_gates b wb (ba_rs c) ++ canon_gate c.

(* a bit range of a value; bitrange_subset may panic *)
Definition assign_bits (region col offset : nat) (a : acell F) (start end_ : nat) : rprog F (acell F) :=
  match inner (ac_value a) with
  | None => assign_advice region col offset unknown
  | Some x => if bitrange_subset pf x start end_ is Some y then assign_advice region col offset (known y) else RPanic
  end.
(* lines 295-373: the region of the canonicity checks *)
Definition canon_region (c : base_config) (region : nat) (alpha z_84 alpha_0_prime z_13 z_44 z_43 : acell F) : rprog F unit :=
  enable_selector (q_mul_fixed_base_field c) 1 ;+
  copy_advice region alpha (ba_c0 c) 0 ;+
  copy_advice region z_84 (ba_c2 c) 0 ;+
  copy_advice region alpha_0_prime (ba_c0 c) 1 ;+
  assign_bits region (ba_c1 c) 1 alpha (wb * (nw - 1)) (wb * (nw - 1) + 2) ;+
  assign_bits region (ba_c2 c) 1 alpha (wb * (nw - 1) + 2) (wb * (nw - 1) + 3) ;+
  copy_advice region z_13 (ba_c0 c) 2 ;+
  copy_advice region z_44 (ba_c1 c) 2 ;+
  copy_advice region z_43 (ba_c2 c) 2 ;+
  RRet F tt.
(* lines 165-376 assign; indexing out of bounds panics *)
Definition mul_fixed_base (c : base_config) (scalar : acell F) (base : fixed_point F) : lprog F (ecpoint F) :=
  let fx := sh_super (ba_rs c) in
  let* t := assign_region (fun region =>
    let+ zs := rs_copy_decompose pf (sh_range (ba_rs c)) (fx_window fx) wb region 0 scalar true (pf_num_bits pf) nw in
    let+ r := assign_region_inner pfs wb nw fx region 0 (rs_windows pf Fs q wb zs) base (sh_range (ba_rs c)) in
    RRet F (zs, r)) in
  let: (zs, (acc, mul_b)) := t in
  let* result := assign_region (fun region => add_region (fx_add fx) region mul_b acc 0) in
  match get zs 0, get zs wm, get zs wm.+1, get zs (nw - 1) with
  | Some alpha, Some z_43, Some z_44, Some z_84 =>
    let alpha_0 := v_map (fun t : F * F => t.1 - t.2 * two_pow_top) (v_zip (ac_value alpha) (ac_value z_84)) in
    let alpha_0_prime := v_map (fun x => x + two_pow_lo - t_p%:R) alpha_0 in
    let* ws := assign_region (fun region => lrc_witness_check pf (ba_lookup c) K region alpha_0_prime lw false) in
    match get ws 0, get ws lw with
    | Some alpha_0_prime, Some z_13 =>
      let* _ := assign_region (fun region => canon_region c region alpha z_84 alpha_0_prime z_13 z_44 z_43) in
      LRet result
    | _, _ => LPanic
    end
  | _, _, _, _ => LPanic
  end.
End Base.
