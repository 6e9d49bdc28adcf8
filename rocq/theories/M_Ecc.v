(* Model of the ECC chip's witness-point and point-addition instructions:
   halo2_gadgets/src/ecc/chip/{witness_point,add_incomplete,add}.rs and the matching methods of
   EccInstructions in halo2_gadgets/src/ecc/chip.rs.

   The code is for Pallas; here the base field F and the curve constant b are arbitrary.  A value
   of pallas::Affine is an option of its coordinates, with None for the identity (external type:
   it is always on the curve).  EccPoint and NonIdentityEccPoint are the same record. *)
Set Warnings "-notation-overridden,-ambiguous-paths".
From mathcomp Require Import all_ssreflect all_algebra.
From Verif Require Import Util M_Env M_Assigned M_Circuit M_Value M_Region M_Layout M_Utilities.
Import GRing.Theory.
Set Implicit Arguments.
Unset Strict Implicit.
Local Open Scope ring_scope.

Section Ecc.
Variable F : fieldType.
Variable b : F.                                     (* pallas::Affine::b() *)

(* circuit.rs:99-104 AssignedCell<Assigned<F>, F> *)
Record ecell := ECell { ec_value : value (assigned F); ec_cell : cell }.
(* circuit.rs:127-143 AssignedCell<Assigned<F>, F>::evaluate *)
Definition ec_evaluate (a : ecell) : acell F := ACell (v_evaluate (ec_value a)) (ec_cell a).
(* chip.rs:34-46, 85-99 EccPoint, NonIdentityEccPoint *)
Record ecpoint := ECPoint { ep_x : ecell; ep_y : ecell }.

(* circuit.rs:215-248 Region::assign_advice of a Value<Assigned<F>> *)
Definition assign_e (region column offset : nat) (v : value (assigned F)) : rprog F ecell :=
  RAdvice column offset v (RRet F (ECell v (Cell region offset (Advice, column)))).
(* circuit.rs:250-280 assign_advice_from_constant *)
Definition assign_e_constant (region column offset : nat) (v : assigned F) : rprog F ecell :=
  RAdviceConstant column offset v (RRet F (ECell (known v) (Cell region offset (Advice, column)))).
(* circuit.rs:152-176 AssignedCell::copy_advice *)
Definition copy_e (region : nat) (a : ecell) (column offset : nat) : rprog F ecell :=
  rbindp (assign_e region column offset (ec_value a)) (fun c =>
  rbindp (constrain_equal (ec_cell c) (ec_cell a)) (fun _ => RRet F c)).
(* a Result<(), Error> followed by `?' *)
Definition try_unit (r : res unit) : rprog F unit :=
  match r with Ok _ => RRet F tt | Err e => RErr e | Panic => RPanic end.

Notation adv c rot := (EAdvice F 0 c rot).
Notation sel s simple := (ESelector F s simple).
(* Expression::square: plonk/circuit.rs (self.clone() * self) *)
Definition esquare (e : expr F) : expr F := EProduct e e.

(* ---------------------------------------------------------------- witness_point.rs *)
(* lines 19-27 Config *)
Record wp_config := WPConfig { q_point : nat; q_point_non_id : nat; wp_x : nat; wp_y : nat }.
(* lines 49-55 curve_eqn *)
Definition curve_eqn (c : wp_config) : expr F :=
  let x := adv (wp_x c) 0 in
  let y := adv (wp_y c) 0 in
  esub (esub (esquare y) (EProduct (esquare x) x)) (EConstant b).
(* lines 57-85 create_gate, "witness point" then "witness non-identity point" *)
Definition wp_gates (c : wp_config) : seq (expr F) :=
  let x := adv (wp_x c) 0 in
  let y := adv (wp_y c) 0 in
  [:: EProduct (EProduct (sel (q_point c) true) x) (curve_eqn c);
      EProduct (EProduct (sel (q_point c) true) y) (curve_eqn c);
      EProduct (sel (q_point_non_id c) true) (curve_eqn c)].
(* lines 87-103 assign_xy *)
Definition assign_xy (c : wp_config) (region : nat) (v : value (assigned F * assigned F)) (offset : nat) : rprog F ecpoint :=
  let+ x := assign_e region (wp_x c) offset (v_map fst v) in
  let+ y := assign_e region (wp_y c) offset (v_map snd v) in
  RRet F (ECPoint x y).
(* lines 105-118 assign_xy_from_constant *)
Definition assign_xy_from_constant (c : wp_config) (region : nat) (v : assigned F * assigned F) (offset : nat) : rprog F ecpoint :=
  let+ x := assign_e_constant region (wp_x c) offset v.1 in
  let+ y := assign_e_constant region (wp_y c) offset v.2 in
  RRet F (ECPoint x y).
(* lines 130-138, 155-161: the identity is (0, 0) *)
Definition coords (P : option (F * F)) : assigned F * assigned F :=
  if P is Some (x, y) then (ATrivial x, ATrivial y) else (AZero F, AZero F).
(* lines 120-142 point *)
Definition wp_point (c : wp_config) (region : nat) (v : value (option (F * F))) (offset : nat) : rprog F ecpoint :=
  enable_selector (q_point c) offset ;+
  assign_xy c region (v_map coords v) offset.
(* lines 144-165 constant_point *)
Definition wp_constant_point (c : wp_config) (region : nat) (v : option (F * F)) (offset : nat) : rprog F ecpoint :=
  enable_selector (q_point c) offset ;+
  assign_xy_from_constant c region (coords v) offset.
(* lines 167-187 point_non_id *)
Definition wp_point_non_id (c : wp_config) (region : nat) (v : value (option (F * F))) (offset : nat) : rprog F ecpoint :=
  enable_selector (q_point_non_id c) offset ;+
  try_unit (v_error_if_known_and v (fun P => P == None)) ;+
  assign_xy c region (v_map coords v) offset.

(* ---------------------------------------------------------------- add_incomplete.rs *)
(* lines 11-22 Config *)
Record inc_config := IncConfig { q_add_incomplete : nat; inc_xp : nat; inc_yp : nat; inc_xqr : nat; inc_yqr : nat }.
(* lines 57-84 create_gate *)
Definition inc_gates (c : inc_config) : seq (expr F) :=
  let x_p := adv (inc_xp c) 0 in
  let y_p := adv (inc_yp c) 0 in
  let x_q := adv (inc_xqr c) 0 in
  let y_q := adv (inc_yqr c) 0 in
  let x_r := adv (inc_xqr c) 1 in
  let y_r := adv (inc_yqr c) 1 in
  let poly1 := esub (EProduct (EProduct (ESum (ESum x_r x_q) x_p) (esub x_p x_q)) (esub x_p x_q)) (esquare (esub y_p y_q)) in
  let poly2 := esub (EProduct (ESum y_r y_q) (esub x_p x_q)) (EProduct (esub y_p y_q) (esub x_q x_r)) in
  [seq EProduct (sel (q_add_incomplete c) true) p | p <- [:: poly1; poly2]].
(* lines 86-150 assign_region *)
Definition inc_region (c : inc_config) (region : nat) (p q : ecpoint) (offset : nat) : rprog F ecpoint :=
  enable_selector (q_add_incomplete c) offset ;+
  let x_p := ec_value (ep_x p) in let y_p := ec_value (ep_y p) in
  let x_q := ec_value (ep_x q) in let y_q := ec_value (ep_y q) in
  let all4 := v_zip (v_zip (v_zip x_p y_p) x_q) y_q in
  try_unit (v_error_if_known_and all4 (fun t =>
    let: (((x_p, y_p), x_q), y_q) := t in
    [|| a_is_zero x_p && a_is_zero y_p, a_is_zero x_q && a_is_zero y_q | a_eq x_p x_q])) ;+
  copy_e region (ep_x p) (inc_xp c) offset ;+
  copy_e region (ep_y p) (inc_yp c) offset ;+
  copy_e region (ep_x q) (inc_xqr c) offset ;+
  copy_e region (ep_y q) (inc_yqr c) offset ;+
  let r := v_map (fun t : assigned F * assigned F * assigned F * assigned F =>
    let: (((x_p, y_p), x_q), y_q) := t in
    let lambda := a_mul (a_sub y_q y_p) (a_invert (a_sub x_q x_p)) in
    let x_r := a_sub (a_sub (a_square lambda) x_p) x_q in
    let y_r := a_sub (a_mul lambda (a_sub x_p x_r)) y_p in
    (x_r, y_r)) all4 in
  let+ x_r := assign_e region (inc_xqr c) (offset + 1) (v_map fst r) in
  let+ y_r := assign_e region (inc_yqr c) (offset + 1) (v_map snd r) in
  RRet F (ECPoint x_r y_r).

(* ---------------------------------------------------------------- add.rs *)
(* lines 13-34 Config *)
Record add_config := AddConfig { q_add : nat; ad_lambda : nat; ad_xp : nat; ad_yp : nat; ad_xqr : nat; ad_yqr : nat;
                                 ad_alpha : nat; ad_beta : nat; ad_gamma : nat; ad_delta : nat }.
(* lines 76-197 create_gate *)
Definition add_polys (c : add_config) : seq (expr F) :=
  let x_p := adv (ad_xp c) 0 in
  let y_p := adv (ad_yp c) 0 in
  let x_q := adv (ad_xqr c) 0 in
  let y_q := adv (ad_yqr c) 0 in
  let x_r := adv (ad_xqr c) 1 in
  let y_r := adv (ad_yqr c) 1 in
  let lambda := adv (ad_lambda c) 0 in
  let alpha := adv (ad_alpha c) 0 in
  let beta := adv (ad_beta c) 0 in
  let gamma := adv (ad_gamma c) 0 in
  let delta := adv (ad_delta c) 0 in
  let x_q_minus_x_p := esub x_q x_p in
  let x_p_minus_x_r := esub x_p x_r in
  let y_q_plus_y_p := ESum y_q y_p in
  let if_alpha := EProduct x_q_minus_x_p alpha in
  let if_beta := EProduct x_p beta in
  let if_gamma := EProduct x_q gamma in
  let if_delta := EProduct y_q_plus_y_p delta in
  let one := EConstant 1 in
  let two := EConstant 2%:R in
  let three := EConstant 3%:R in
  let poly1 :=
    let y_q_minus_y_p := esub y_q y_p in
    let incomplete := esub (EProduct x_q_minus_x_p lambda) y_q_minus_y_p in
    EProduct x_q_minus_x_p incomplete in
  let poly2 :=
    let three_x_p_sq := EProduct three (esquare x_p) in
    let two_y_p := EProduct two y_p in
    let tangent_line := esub (EProduct two_y_p lambda) three_x_p_sq in
    EProduct (esub one if_alpha) tangent_line in
  let nonexceptional_x_r := esub (esub (esub (esquare lambda) x_p) x_q) x_r in
  let nonexceptional_y_r := esub (esub (EProduct lambda x_p_minus_x_r) y_p) y_r in
  let poly3a := EProduct (EProduct (EProduct x_p x_q) x_q_minus_x_p) nonexceptional_x_r in
  let poly3b := EProduct (EProduct (EProduct x_p x_q) x_q_minus_x_p) nonexceptional_y_r in
  let poly3c := EProduct (EProduct (EProduct x_p x_q) y_q_plus_y_p) nonexceptional_x_r in
  let poly3d := EProduct (EProduct (EProduct x_p x_q) y_q_plus_y_p) nonexceptional_y_r in
  let poly4a := EProduct (esub one if_beta) (esub x_r x_q) in
  let poly4b := EProduct (esub one if_beta) (esub y_r y_q) in
  let poly5a := EProduct (esub one if_gamma) (esub x_r x_p) in
  let poly5b := EProduct (esub one if_gamma) (esub y_r y_p) in
  let poly6a := EProduct (esub (esub one if_alpha) if_delta) x_r in
  let poly6b := EProduct (esub (esub one if_alpha) if_delta) y_r in
  [:: poly1; poly2; poly3a; poly3b; poly3c; poly3d; poly4a; poly4b; poly5a; poly5b; poly6a; poly6b].
Definition add_gates (c : add_config) : seq (expr F) := [seq EProduct (sel (q_add c) true) p | p <- add_polys c].

(* lines 199-320 assign_region *)
Definition add_region (c : add_config) (region : nat) (p q : ecpoint) (offset : nat) : rprog F ecpoint :=
  enable_selector (q_add c) offset ;+
  copy_e region (ep_x p) (ad_xp c) offset ;+
  copy_e region (ep_y p) (ad_yp c) offset ;+
  copy_e region (ep_x q) (ad_xqr c) offset ;+
  copy_e region (ep_y q) (ad_yqr c) offset ;+
  let x_p := ec_value (ep_x p) in let y_p := ec_value (ep_y p) in
  let x_q := ec_value (ep_x q) in let y_q := ec_value (ep_y q) in
  let alpha := v_map (@a_invert F) (v_sub x_q x_p) in
  assign_e region (ad_alpha c) offset alpha ;+
  let beta := v_map (@a_invert F) x_p in
  assign_e region (ad_beta c) offset beta ;+
  let gamma := v_map (@a_invert F) x_q in
  assign_e region (ad_gamma c) offset gamma ;+
  let delta := v_map (fun t : assigned F * assigned F * assigned F * assigned F =>
    let: (((x_p, x_q), y_p), y_q) := t in
    if a_eq x_q x_p then a_invert (a_add y_q y_p) else AZero F)
    (v_zip (v_zip (v_zip x_p x_q) y_p) y_q) in
  assign_e region (ad_delta c) offset delta ;+
  let lambda := v_map (fun t : assigned F * assigned F * assigned F * assigned F * assigned F =>
    let: ((((x_p, y_p), x_q), y_q), alpha) := t in
    if ~~ a_eq x_q x_p then a_mul (a_sub y_q y_p) alpha
    else if ~~ a_is_zero y_p then
      let three_x_p_sq := a_mul_f (a_square x_p) 3%:R in
      let inv_two_y_p := a_mul_f (a_invert y_p) (2%:R)^-1 in               (* TWO_INV (external constant) *)
      a_mul three_x_p_sq inv_two_y_p
    else AZero F)
    (v_zip (v_zip (v_zip (v_zip x_p y_p) x_q) y_q) alpha) in
  assign_e region (ad_lambda c) offset lambda ;+
  let r := v_map (fun t : assigned F * assigned F * assigned F * assigned F * assigned F =>
    let: ((((x_p, y_p), x_q), y_q), lambda) := t in
    if a_is_zero x_p then (x_q, y_q)
    else if a_is_zero x_q then (x_p, y_p)
    else if a_eq x_q x_p && a_eq y_q (a_neg y_p) then (AZero F, AZero F)
    else
      let x_r := a_sub (a_sub (a_square lambda) x_p) x_q in
      let y_r := a_sub (a_mul lambda (a_sub x_p x_r)) y_p in
      (x_r, y_r))
    (v_zip (v_zip (v_zip (v_zip x_p y_p) x_q) y_q) lambda) in
  let+ x_r := assign_e region (ad_xqr c) (offset + 1) (v_map fst r) in
  let+ y_r := assign_e region (ad_yqr c) (offset + 1) (v_map snd r) in
  RRet F (ECPoint x_r y_r).

(* ---------------------------------------------------------------- chip.rs: EccInstructions *)
(* lines 439-454 constrain_equal *)
Definition ecc_constrain_equal (p q : ecpoint) : lprog F unit :=
  assign_region (fun _ =>
    constrain_equal (ec_cell (ep_x p)) (ec_cell (ep_x q)) ;+
    constrain_equal (ec_cell (ep_y p)) (ec_cell (ep_y q))).
(* lines 456-466 witness_point *)
Definition ecc_witness_point (c : wp_config) (v : value (option (F * F))) : lprog F ecpoint :=
  assign_region (fun region => wp_point c region v 0).
(* lines 468-481 witness_point_from_constant *)
Definition ecc_witness_point_from_constant (c : wp_config) (v : option (F * F)) : lprog F ecpoint :=
  assign_region (fun region => wp_constant_point c region v 0).
(* lines 483-493 witness_point_non_id *)
Definition ecc_witness_point_non_id (c : wp_config) (v : value (option (F * F))) : lprog F ecpoint :=
  assign_region (fun region => wp_point_non_id c region v 0).
(* lines 534-545 add_incomplete *)
Definition ecc_add_incomplete (c : inc_config) (p q : ecpoint) : lprog F ecpoint :=
  assign_region (fun region => inc_region c region p q 0).
(* lines 547-561 add *)
Definition ecc_add (c : add_config) (p q : ecpoint) : lprog F ecpoint :=
  assign_region (fun region => add_region c region p q 0).
(* lines 529-532 extract_p *)
Definition ecc_extract_p (p : ecpoint) : acell F := ec_evaluate (ep_x p).
End Ecc.
