(* Model of halo2_gadgets/src/sinsemilla/merkle.rs and merkle/chip.rs.

   The code is for Pallas: words of K = 10 bits, and 255-bit nodes split as 240 + 10 + 5 and 5 + 250
   bits.  Here K, s (5) and w (24) are parameters, with 10 = K, 240 = K w, 250 = K (w + 1) and
   255 = NUM_BITS.  The Lookup type parameter is the plain LookupRangeCheckConfig. *)
Set Warnings "-notation-overridden,-ambiguous-paths".
From mathcomp Require Import all_ssreflect all_algebra.
From Verif Require Import Util M_Env M_Assigned M_Circuit M_Selectors M_Value M_Region M_Layout M_Utilities M_Ecc M_EccMul M_Sinsemilla.
Import GRing.Theory.
Set Implicit Arguments.
Unset Strict Implicit.
Local Open Scope ring_scope.

Section Merkle.
Variables (F : fieldType) (pf : prime_field F).
Variables (K : nat) (gens : seq (F * F)) (max_words : nat) (s w : nat).
Notation adv c rot := (EAdvice F 0 c rot).
Notation sel q simple := (ESelector F q simple).

(* utilities.rs:93-104 RangeConstrained::bitrange_of: (value, num_bits); bitrange_subset may panic *)
Definition bitrange_of (v : value F) (start end_ : nat) : option (value F * nat) :=
  match inner v with
  | None => Some (unknown, (end_ - start)%N)
  | Some x => omap (fun y => (known y, (end_ - start)%N)) (bitrange_subset pf x start end_)
  end.
(* lookup_range_check.rs:30-58 RangeConstrained::witness_short *)
Definition witness_short (lk : lrc) (v : value F) (start end_ : nat) : lprog F (acell F * nat) :=
  if ~~ (end_ - start < K)%N then LPanic else
  if bitrange_of v start end_ is Some (b, num_bits) then
    let* a := assign_region (fun region =>
      lrc_witness_short_check (lrc_short_range_check lk K region) lk K region b num_bits) in
    LRet (a, num_bits)
  else LPanic.

(* merkle/chip.rs:32-45 MerkleConfig, with the range-check configuration of its Sinsemilla configuration *)
Record merkle_config := MerkleConfig { q_decompose : nat; mc_swap : swap_config; mc_sins : sins_config; mc_lookup : lrc }.
(* chip.rs:81-90 advices *)
Definition mc_advices (c : merkle_config) : seq nat :=
  let d := sc_dbl (mc_sins c) in [:: db_xa d; db_xp d; sc_bits (mc_sins c); db_l1 d; db_l2 d].
Definition mc_adv (c : merkle_config) (i : nat) : nat := nth 0%N (mc_advices c) i.
(* merkle/chip.rs:114-217 configure: the columns of cond_swap are the five advice columns (cond_swap.rs:233-258),
   so [mc_swap] is determined by [q_swap]; the gate "Decomposition check" *)
Definition decompose_gate (c : merkle_config) : seq (expr F) :=
  let l_whole := adv (mc_adv c 4) 1 in
  let two_pow_5 := (2 ^ s)%N%:R in
  let two_pow_10 := two_pow_5 * two_pow_5 in
  let a_whole := adv (mc_adv c 0) 0 in
  let b_whole := adv (mc_adv c 1) 0 in
  let c_whole := adv (mc_adv c 2) 0 in
  let left_node := adv (mc_adv c 3) 0 in
  let right_node := adv (mc_adv c 4) 0 in
  let z1_a := adv (mc_adv c 0) 1 in
  let a_1 := z1_a in
  let a_0 := esub a_whole (EScaled a_1 two_pow_10) in
  let z1_b := adv (mc_adv c 1) 1 in
  let b_1 := adv (mc_adv c 2) 1 in
  let b_2 := adv (mc_adv c 3) 1 in
  let b1_b2_check := esub z1_b (ESum b_1 (EScaled b_2 two_pow_5)) in
  let b_0 := esub b_whole (EScaled z1_b two_pow_10) in
  let left_check := esub (ESum a_1 (EScaled (ESum b_0 (EScaled b_1 two_pow_10)) (2 ^ (K * w))%N%:R)) left_node in
  let right_check := esub (ESum b_2 (EScaled c_whole two_pow_5)) right_node in
  [seq EProduct (sel (q_decompose c) true) p | p <- [:: esub a_0 l_whole; left_check; right_check; b1_b2_check]].

(* merkle/chip.rs:328-398: the last region of hash_layer *)
Definition decompose_region (c : merkle_config) (l : nat) (a b c' left right z1_a z1_b b_1 b_2 : acell F) (region : nat) : rprog F unit :=
  enable_selector (q_decompose c) 0 ;+
  assign_advice_from_constant region (mc_adv c 4) 1 (l%:R) ;+
  copy_advice region a (mc_adv c 0) 0 ;+
  copy_advice region b (mc_adv c 1) 0 ;+
  copy_advice region c' (mc_adv c 2) 0 ;+
  copy_advice region left (mc_adv c 3) 0 ;+
  copy_advice region right (mc_adv c 4) 0 ;+
  copy_advice region z1_a (mc_adv c 0) 1 ;+
  copy_advice region z1_b (mc_adv c 1) 1 ;+
  copy_advice region b_1 (mc_adv c 2) 1 ;+
  copy_advice region b_2 (mc_adv c 3) 1 ;+
  RRet F tt.

(* merkle/chip.rs:236-437 hash_layer (the comparison with the primitive hash exists only in tests) *)
Definition hash_layer (c : merkle_config) (Q : option (F * F)) (l : nat) (left right : acell F) : lprog F (acell F) :=
  let num_bits := pf_num_bits pf in
  match bitrange_of (known l%:R) 0 K, bitrange_of (ac_value left) 0 (K * w) with
  | Some a_0, Some a_1 =>
    let* a := from_subpieces pf K (mc_sins c) [:: a_0; a_1] in
    if bitrange_of (ac_value left) (K * w) (K * w.+1) is Some b_0 then
      let* b_1 := witness_short (mc_lookup c) (ac_value left) (K * w.+1) num_bits in
      let* b_2 := witness_short (mc_lookup c) (ac_value right) 0 s in
      let* b := from_subpieces pf K (mc_sins c) [:: b_0; (ac_value b_1.1, b_1.2); (ac_value b_2.1, b_2.2)] in
      if bitrange_of (ac_value right) s num_bits is Some c_0 then
        let* c' := from_subpieces pf K (mc_sins c) [:: c_0] in
        if message_from max_words [:: a; b; c'] is Some message then
          let* r := hash_to_point pf K gens (mc_sins c) Q message in
          let hash := extract r.1 in
          match obind (fun zs => get zs 1) (get r.2 0), obind (fun zs => get zs 1) (get r.2 1) with
          | Some z1_a, Some z1_b =>
            assign_region (decompose_region c l (pc_cell a) (pc_cell b) (pc_cell c') left right z1_a z1_b b_1.1 b_2.1) ;*
            LRet hash
          | _, _ => LPanic
          end
        else LPanic
      else LPanic
    else LPanic
  | _, _ => LPanic
  end.

(* merkle/chip.rs:461-471 and cond_swap.rs:84-136 swap *)
Definition merkle_swap (c : merkle_config) (node : acell F) (sibling : value F) (pos : value bool) : lprog F (acell F * acell F) :=
  assign_region (fun region => swap_region (mc_swap c) region node sibling pos).

(* merkle.rs:113-171 calculate_root; PATH_LENGTH = n, [chips] of length PAR.  construct (merkle.rs:82-98)
   panics if PAR = 0.  The path is an array of PATH_LENGTH elements, as is i2lebsp(pos). *)
Definition path_layer (chips : seq merkle_config) (Q : option (F * F)) (n : nat) (path : seq (value F)) (pos : seq (value bool))
    (node : acell F) (l : nat) : lprog F (acell F) :=
  let layers_per_chip := ((n + size chips - 1) %/ size chips)%N in
  if get chips (l %/ layers_per_chip) is Some chip then
    let* pair := merkle_swap chip node (nth unknown path l) (nth unknown pos l) in
    hash_layer chip Q l pair.1 pair.2
  else LPanic.
Definition calculate_root (chips : seq merkle_config) (Q : option (F * F)) (n : nat) (leaf_pos : value nat) (path : value (seq F))
    (leaf : acell F) : lprog F (acell F) :=
  if size chips == 0%N then LPanic else
  match map_transpose (i2lebsp n) leaf_pos n with
  | None => LPanic
  | Some pos => lfold (path_layer chips Q n (v_transpose_array n path) pos) leaf (iota 0 n)
  end.
End Merkle.
