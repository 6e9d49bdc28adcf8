(* Model of variable-base scalar multiplication in the ECC chip:
   halo2_gadgets/src/ecc/chip/mul.rs and mul/{incomplete,complete,overflow}.rs.

   The code is for Pallas; here the base field, and the lengths 125, 126, 3, 130 and the constant
   t_q that depend on it, are parameters ([pallas_params] gives the code's).  Newtypes X, Y, Z are
   dropped.  Value::map of a function of several values is v_map over v_zip. *)
Set Warnings "-notation-overridden,-ambiguous-paths".
From mathcomp Require Import all_ssreflect all_algebra.
From Verif Require Import Util M_Env M_Assigned M_Circuit M_Selectors M_Value M_Region M_Layout M_Utilities M_Ecc.
Import GRing.Theory.
Set Implicit Arguments.
Unset Strict Implicit.
Local Open Scope ring_scope.

(* mul.rs:26-46: INCOMPLETE_HI_LEN, INCOMPLETE_LO_LEN, NUM_COMPLETE_BITS; constants.rs:31 T_Q;
   overflow.rs: the literal 130 and sinsemilla::K *)
Record mul_params := MulParams { mp_hi : nat; mp_lo : nat; mp_complete : nat; mp_tq : nat; mp_split : nat; mp_K : nat }.
(* pallas::Scalar::NUM_BITS *)
Definition mp_bits (m : mul_params) : nat := (mp_hi m + mp_lo m + mp_complete m + 1)%N.
Definition pallas_params (t_q : nat) : mul_params := MulParams 125 126 3 t_q 130 10.

Section Mul.
Variables (F : fieldType) (pf : prime_field F) (m : mul_params).
Notation adv c rot := (EAdvice F 0 c rot).
Notation sel s simple := (ESelector F s simple).
Notation two := (2%:R : F).

(* ---------------------------------------------------------------- mul/incomplete.rs *)
(* lines 15-26 DoubleAndAdd, 60-74 Config *)
Record dbl_config := DblConfig { q_mul_1 : nat; q_mul_2 : nat; q_mul_3 : nat; db_z : nat;
  db_xa : nat; db_xp : nat; db_l1 : nat; db_l2 : nat; db_yp : nat }.
(* lines 29-39 x_r *)
Definition x_r (c : dbl_config) (rot : int) : expr F :=
  esub (esub (esquare (adv (db_l1 c) rot)) (adv (db_xa c) rot)) (adv (db_xp c) rot).
(* lines 45-56 Y_A *)
Definition Y_A (c : dbl_config) (rot : int) : expr F :=
  EProduct (ESum (adv (db_l1 c) rot) (adv (db_l2 c) rot)) (esub (adv (db_xa c) rot) (x_r c rot)).
(* lines 115-117: TWO_INV is the field's 2^-1 (external constant) *)
Definition y_a (c : dbl_config) (rot : int) : expr F := EScaled (Y_A c rot) (two^-1).
(* lines 122-177 for_loop *)
Definition for_loop (c : dbl_config) (y_a_next : expr F) : seq (expr F) :=
  let one := EConstant 1 in
  let z_cur := adv (db_z c) 0 in
  let z_prev := adv (db_z c) (-1) in
  let x_a_cur := adv (db_xa c) 0 in
  let x_a_next := adv (db_xa c) 1 in
  let x_p_cur := adv (db_xp c) 0 in
  let y_p_cur := adv (db_yp c) 0 in
  let lambda1_cur := adv (db_l1 c) 0 in
  let lambda2_cur := adv (db_l2 c) 0 in
  let y_a_cur := y_a c 0 in
  let k := esub z_cur (EScaled z_prev two) in
  let gradient_1 := ESum (esub (EProduct lambda1_cur (esub x_a_cur x_p_cur)) y_a_cur)
                         (EProduct (esub (EScaled k two) one) y_p_cur) in
  let secant_line := esub (esub (esub (esquare lambda2_cur) x_a_next) (x_r c 0)) x_a_cur in
  let gradient_2 := esub (esub (EProduct lambda2_cur (esub x_a_cur x_a_next)) y_a_cur) y_a_next in
  [:: bool_check k; gradient_1; secant_line; gradient_2].
(* lines 182-226: "q_mul_1 == 1 checks", "q_mul_2 == 1 checks", "q_mul_3 == 1 checks" *)
Definition dbl_gates (c : dbl_config) : seq (expr F) :=
  [seq EProduct (sel (q_mul_1 c) true) p | p <- [:: esub (adv (db_l1 c) 0) (y_a c 1)]] ++
  [seq EProduct (sel (q_mul_2 c) true) p
     | p <- [:: esub (adv (db_xp c) 0) (adv (db_xp c) 1); esub (adv (db_yp c) 0) (adv (db_yp c) 1)] ++ for_loop c (y_a c 1)] ++
  [seq EProduct (sel (q_mul_3 c) true) p | p <- for_loop c (adv (db_l1 c) 1)].

(* pallas::Base::from(k as u64) *)
Definition bit_f (k : bool) : F := (nat_of_bool k)%:R.
(* lines 313-383: the loop; the final y_a is assigned by the caller *)
Fixpoint dbl_loop (c : dbl_config) (region offset : nat) (x_p y_p : value (assigned F)) (row : nat)
    (bits : seq (value bool)) (x_a : ecell F) (ya : value (assigned F)) (z : acell F)
    : rprog F (ecell F * value (assigned F) * seq (acell F)) :=
  if bits is k :: bits' then
    let z_val := v_map (fun t : F * bool => two * t.1 + bit_f t.2) (v_zip (ac_value z) k) in
    let+ z := assign_advice region (db_z c) (row + offset) z_val in
    assign_e region (db_xp c) (row + offset) x_p ;+
    assign_e region (db_yp c) (row + offset) y_p ;+
    let y_p' := v_map (fun t : assigned F * bool => if ~~ t.2 then a_neg t.1 else t.1) (v_zip y_p k) in
    let lambda1 := v_map (fun t : assigned F * assigned F * assigned F * assigned F =>
      let: (((y_a, y_p), x_a), x_p) := t in a_mul (a_sub y_a y_p) (a_invert (a_sub x_a x_p)))
      (v_zip (v_zip (v_zip ya y_p') (ec_value x_a)) x_p) in
    assign_e region (db_l1 c) (row + offset) lambda1 ;+
    let x_r := v_map (fun t : assigned F * assigned F * assigned F =>
      let: ((lambda1, x_a), x_p) := t in a_sub (a_sub (a_square lambda1) x_a) x_p)
      (v_zip (v_zip lambda1 (ec_value x_a)) x_p) in
    let lambda2 := v_map (fun t : assigned F * assigned F * assigned F * assigned F =>
      let: (((lambda1, y_a), x_a), x_r) := t in a_sub (a_mul (a_mul_f y_a two) (a_invert (a_sub x_a x_r))) lambda1)
      (v_zip (v_zip (v_zip lambda1 ya) (ec_value x_a)) x_r) in
    assign_e region (db_l2 c) (row + offset) lambda2 ;+
    let x_a_new := v_sub (v_sub (v_map (@a_square F) lambda2) (ec_value x_a)) x_r in
    let ya' := v_sub (v_mul lambda2 (v_sub (ec_value x_a) x_a_new)) ya in
    let+ x_a' := assign_e region (db_xa c) (row + offset + 1) x_a_new in
    let+ rest := dbl_loop c region offset x_p y_p row.+1 bits' x_a' ya' z in
    RRet F (rest.1, z :: rest.2)
  else RRet F (x_a, ya, [::]).
(* lines 236-396 double_and_add; acc = (x, y, z).  NUM_BITS = n; n = 0 underflows in line 278. *)
Definition double_and_add (c : dbl_config) (n region offset : nat) (base : ecpoint F) (bits : seq (value bool))
    (acc : ecell F * ecell F * acell F) : rprog F (ecell F * ecell F * seq (acell F)) :=
  if (size bits != n) || (n == 0%N) then RPanic else
  let x_p := ec_value (ep_x base) in let y_p := ec_value (ep_y base) in
  let: (acc_x, acc_y, acc_z) := acc in
  try_unit F (v_error_if_known_and
    (v_zip (v_zip (ec_value acc_x) (ec_value acc_y)) (v_zip x_p y_p)) (fun t =>
    let: ((x_a, y_a), (x_p, y_p)) := t in
    [|| a_is_zero x_p && a_is_zero y_p, a_is_zero x_a && a_is_zero y_a | a_eq x_p x_a])) ;+
  enable_selector (q_mul_1 c) offset ;+
  enable_rows F (q_mul_2 c) (offset + 1) (n - 1) ;+
  enable_selector (q_mul_3 c) (offset + 1 + n - 1) ;+
  let+ z := copy_advice region acc_z (db_z c) offset in
  let+ x_a := copy_e region acc_x (db_xa c) (offset + 1) in
  let+ y_a := copy_e region acc_y (db_l1 c) offset in
  let+ st := dbl_loop c region (offset + 1) x_p y_p 0 bits x_a (ec_value y_a) z in
  let: (x_a, ya, zs) := st in
  let+ y_a := assign_e region (db_l1 c) (offset + 1 + n) ya in
  RRet F (x_a, y_a, zs).

(* ---------------------------------------------------------------- mul/complete.rs *)
(* lines 13-21 Config *)
Record comp_config := CompConfig { q_mul_decompose_var : nat; z_complete : nat; co_add : add_config }.
(* lines 47-83 create_gate *)
Definition comp_gates (c : comp_config) : seq (expr F) :=
  let z_prev := adv (z_complete c) (-1) in
  let z_next := adv (z_complete c) 1 in
  let k := esub z_next (EProduct (EConstant two) z_prev) in
  let base_y := adv (z_complete c) 0 in
  let y_p := adv (ad_yp (co_add c)) (-1) in
  let y_switch := ternary k (esub base_y y_p) (ESum base_y y_p) in
  [seq EProduct (sel (q_mul_decompose_var c) true) p | p <- [:: bool_check k; y_switch]].
(* lines 102-110 *)
Definition comp_enable (c : comp_config) (offset n : nat) : rprog F unit :=
  foldr (fun row k => REnable (q_mul_decompose_var c) (2 * row + offset + 1) k) (RRet F tt) (iota 0 n).
(* lines 130-191: the loop *)
Fixpoint comp_loop (c : comp_config) (region offset : nat) (base : ecpoint F) (iter : nat) (bits : seq (value bool))
    (acc : ecpoint F) (z : acell F) : rprog F (ecpoint F * seq (acell F)) :=
  if bits is k :: bits' then
    let row := (2 * iter)%N in
    let z_val := v_op2 +%R (v_op2 *%R (ac_value z) (known two)) (v_map bit_f k) in
    let+ z := assign_advice region (z_complete c) (row + offset + 2) z_val in
    let+ base_y := copy_e region (ep_y base) (z_complete c) (row + offset + 1) in
    let y_p := v_map (fun t : assigned F * bool => if ~~ t.2 then a_neg t.1 else t.1) (v_zip (ec_value base_y) k) in
    let+ y_p := assign_e region (ad_yp (co_add c)) (row + offset) y_p in
    let U := ECPoint (ep_x base) y_p in
    let+ tmp_acc := add_region (co_add c) region U acc (row + offset) in
    let+ acc := add_region (co_add c) region acc tmp_acc (row + offset + 1) in
    let+ rest := comp_loop c region offset base iter.+1 bits' acc z in
    RRet F (rest.1, z :: rest.2)
  else RRet F (acc, [::]).
(* lines 88-194 assign_region *)
Definition comp_region (c : comp_config) (region offset : nat) (bits : seq (value bool)) (base : ecpoint F)
    (x_a y_a : ecell F) (z : acell F) : rprog F (ecpoint F * seq (acell F)) :=
  if size bits != mp_complete m then RPanic else
  comp_enable c offset (mp_complete m) ;+
  let acc := ECPoint x_a y_a in
  let+ z := copy_advice region z (z_complete c) offset in
  comp_loop c region offset base 0 bits acc z.

(* ---------------------------------------------------------------- mul/overflow.rs *)
(* lines 19-26 Config *)
Record ovf_config := OvfConfig { q_mul_overflow : nat; ov_lookup : lrc; ov_a0 : nat; ov_a1 : nat; ov_a2 : nat }.
(* lines 51-103 create_gate: 124 and 254 are mp_bits - 1 - mp_split and mp_bits - 1; 2^130 is
   2^124 * 2^6 in the code *)
Definition ovf_gates (c : ovf_config) : seq (expr F) :=
  let one := EConstant 1 in
  let two_pow_124 := EConstant (two ^+ (mp_bits m - 1 - mp_split m)) in
  let two_pow_130 := EConstant (two ^+ mp_split m) in
  let z_0 := adv (ov_a0 c) (-1) in
  let z_130 := adv (ov_a0 c) 0 in
  let eta := adv (ov_a0 c) 1 in
  let k_254 := adv (ov_a1 c) (-1) in
  let alpha := adv (ov_a1 c) 0 in
  let s_minus_lo_130 := adv (ov_a1 c) 1 in
  let s := adv (ov_a2 c) 0 in
  let s_check := esub s (ESum alpha (EProduct k_254 two_pow_130)) in
  let t_q := EConstant (mp_tq m)%:R in
  let recovery := esub (esub z_0 alpha) t_q in
  let lo_zero := EProduct k_254 (esub z_130 two_pow_124) in
  let s_minus_lo_130_check := EProduct k_254 s_minus_lo_130 in
  let canonicity := EProduct (EProduct (esub one k_254) (esub one (EProduct z_130 eta))) s_minus_lo_130 in
  [seq EProduct (sel (q_mul_overflow c) true) p
     | p <- [:: s_check; recovery; lo_zero; s_minus_lo_130_check; canonicity]].
(* lines 197-217 s_minus_lo_130 *)
Definition s_minus_lo (c : ovf_config) (s : acell F) : lprog F (acell F) :=
  if mp_K m == 0%N then LPanic else
  let num_words := (mp_split m %/ mp_K m)%N in
  if (num_words * mp_K m)%N != mp_split m then LPanic else
  let* zs := assign_region (fun region => lrc_copy_check pf (ov_lookup c) (mp_K m) region s num_words false) in
  if zs is z :: zs' then LRet (last z zs') else LPanic.
(* lines 106-195 overflow_check; zs[i] out of bounds panics *)
Definition overflow_check (c : ovf_config) (alpha : acell F) (zs : seq (acell F)) : lprog F unit :=
  match get zs (mp_bits m - 1), get zs 0, get zs (mp_split m) with
  | Some k_254, Some z_0, Some z_130 =>
    let s_val := v_map (fun t : F * F => t.1 + t.2 * two ^+ mp_split m) (v_zip (ac_value alpha) (ac_value k_254)) in
    let* s := assign_region (fun region => assign_advice region (ov_a0 c) 0 s_val) in
    let* s_minus_lo_130 := s_minus_lo c s in
    assign_region (fun region =>
      enable_selector (q_mul_overflow c) 1 ;+
      copy_advice region z_0 (ov_a0 c) 0 ;+
      copy_advice region z_130 (ov_a0 c) 1 ;+
      assign_advice_assigned region (ov_a0 c) 2 (v_map (fun z => a_invert (ATrivial z)) (ac_value z_130)) ;+
      copy_advice region k_254 (ov_a1 c) 0 ;+
      copy_advice region alpha (ov_a1 c) 1 ;+
      copy_advice region s_minus_lo_130 (ov_a1 c) 2 ;+
      copy_advice region s (ov_a2 c) 1 ;+
      RRet F tt)
  | _, _, _ => LPanic
  end.

(* ---------------------------------------------------------------- mul.rs *)
(* lines 48-62 Config *)
Record mul_config := MulConfig { q_mul_lsb : nat; mu_add : add_config; mu_hi : dbl_config; mu_lo : dbl_config;
  mu_comp : comp_config; mu_ovf : ovf_config }.
(* lines 132-169 create_gate *)
Definition lsb_gates (c : mul_config) : seq (expr F) :=
  let z_1 := adv (z_complete (mu_comp c)) 0 in
  let z_0 := adv (z_complete (mu_comp c)) 1 in
  let x_p := adv (ad_xp (mu_add c)) 0 in
  let y_p := adv (ad_yp (mu_add c)) 0 in
  let base_x := adv (ad_xp (mu_add c)) 1 in
  let base_y := adv (ad_yp (mu_add c)) 1 in
  let lsb := esub z_0 (EScaled z_1 two) in
  let lsb_x := ternary lsb x_p (esub x_p base_x) in
  let lsb_y := ternary lsb y_p (ESum y_p base_y) in
  [seq EProduct (sel (q_mul_lsb c) true) p | p <- [:: bool_check lsb; lsb_x; lsb_y]].
(* lines 64-130 configure: every gate the multiplication relies on (the range-check table's lookup
   and bit-shift gate belong to the lookup configuration) *)
Definition mul_gates (c : mul_config) : seq (expr F) :=
  add_gates F (mu_add c) ++ dbl_gates (mu_hi c) ++ dbl_gates (mu_lo c) ++ comp_gates (mu_comp c) ++
  ovf_gates (mu_ovf c) ++ lsb_gates c.

(* lines 417-453 decompose_for_scalar_mul; the sum of two numbers below 2^255 fits a U256 *)
Definition scalar_bits (alpha : F) : seq bool :=
  let k := (pf_val pf alpha + mp_tq m)%N in [seq bit_of k i | i <- iota 0 (mp_bits m)].
Definition decompose_for_scalar_mul (alpha : value F) : option (seq (value bool)) :=
  omap rev (v_transpose_vec (v_map scalar_bits alpha) (mp_bits m)).

(* lines 307-380 process_lsb *)
Definition process_lsb (c : mul_config) (region offset : nat) (base acc : ecpoint F) (z_1 : acell F) (lsb : value bool)
    : rprog F (ecpoint F * acell F) :=
  enable_selector (q_mul_lsb c) offset ;+
  let z_0_val := v_map (fun t : F * bool => t.1 * two + bit_f t.2) (v_zip (ac_value z_1) lsb) in
  let+ z_0 := assign_advice region (z_complete (mu_comp c)) (offset + 1) z_0_val in
  copy_advice region (ec_evaluate (ep_x base)) (ad_xp (mu_add c)) (offset + 1) ;+
  copy_advice region (ec_evaluate (ep_y base)) (ad_yp (mu_add c)) (offset + 1) ;+
  let x := v_and_then lsb (fun k : bool => if ~~ k then ec_value (ep_x base) else known (AZero F)) in
  let y := v_and_then lsb (fun k : bool => if ~~ k then v_map (@a_neg F) (ec_value (ep_y base)) else known (AZero F)) in
  let+ x_cell := assign_e region (ad_xp (mu_add c)) offset x in
  let+ y_cell := assign_e region (ad_yp (mu_add c)) offset y in
  let p := ECPoint x_cell y_cell in
  let+ result := add_region (mu_add c) region p acc offset in
  RRet F (result, z_0).

(* lines 177-283: the region "variable-base scalar mul" *)
Definition mul_region (c : mul_config) (region : nat) (alpha : acell F) (base : ecpoint F)
    : rprog F (ecpoint F * seq (acell F)) :=
  let offset := 0%N in
  match decompose_for_scalar_mul (ac_value alpha) with
  | None => RPanic
  | Some bits =>
    let bits_hi := take (mp_hi m) bits in
    let bits_lo := take (mp_lo m) (drop (mp_hi m) bits) in
    let lsb := nth unknown bits (mp_bits m - 1) in
    let+ acc := add_region (mu_add c) region base base offset in
    let offset := offset.+1 in
    let+ z_init := assign_advice_from_constant region (db_z (mu_hi c)) offset 0 in
    let+ r := double_and_add (mu_hi c) (mp_hi m) region offset base bits_hi (ep_x acc, ep_y acc, z_init) in
    let: (x_a, y_a, zs_hi) := r in
    if zs_hi is z :: zs' then
      let+ r := double_and_add (mu_lo c) (mp_lo m) region offset base bits_lo (x_a, y_a, last z zs') in
      let: (x_a, y_a, zs_lo) := r in
      if ~~ (mp_hi m <= mp_lo m)%N then RPanic else
      let offset := (offset + mp_lo m + 2)%N in
      if zs_lo is z :: zs' then
        let bits_complete := take (mp_complete m) (drop (mp_hi m + mp_lo m) bits) in
        let+ r := comp_region (mu_comp c) region offset bits_complete base x_a y_a (last z zs') in
        let: (acc, zs_complete) := r in
        let offset := (offset + mp_complete m * 2)%N in
        if zs_complete is z :: zs' then
          let+ r := process_lsb c region offset base acc (last z zs') lsb in
          let: (result, z_0) := r in
          let zs := z_init :: zs_hi ++ zs_lo ++ zs_complete ++ [:: z_0] in
          if size zs != (mp_bits m).+1 then RPanic else
          RRet F (result, rev zs)
        else RPanic
      else RPanic
    else RPanic
  end.
(* lines 171-292 assign; the returned ScalarVar is alpha itself *)
Definition ecc_mul (c : mul_config) (alpha : acell F) (base : ecpoint F) : lprog F (ecpoint F * acell F) :=
  let* r := assign_region (fun region => mul_region c region alpha base) in
  overflow_check (mu_ovf c) alpha r.2 ;*
  LRet (r.1, alpha).
End Mul.
