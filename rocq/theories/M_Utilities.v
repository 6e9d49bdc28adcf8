(* Model of halo2_gadgets/src/utilities.rs, utilities/decompose_running_sum.rs,
   utilities/lookup_range_check.rs and utilities/cond_swap.rs.  Panics are [None] or RPanic.
   Gate polynomials are the expressions the configure() functions build; the query index
   inside a query plays no role here (0 is used), and the operators' panics on simple
   selectors cannot fire since the operands contain none. *)
Set Warnings "-notation-overridden,-ambiguous-paths".
From mathcomp Require Import all_ssreflect all_algebra.
From Verif Require Import Util M_Env M_Assigned M_Circuit M_Value M_Region.
Import GRing.Theory.
Set Implicit Arguments.
Unset Strict Implicit.

(* ff::PrimeField/PrimeFieldBits: the canonical integer of an element, NUM_BITS, and the
   length of to_le_bits() (256 for the pasta fields); CAPACITY = NUM_BITS - 1. *)
Record prime_field (F : fieldType) := PrimeField {
  pf_val : F -> nat; pf_num_bits : nat; pf_repr_bits : nat }.

Section Bits.
(* utilities.rs:211-216 lebs2ip; a u64, L <= 64 *)
Fixpoint lebs2ip_from (i acc : nat) (bits : seq bool) : nat :=
  if bits is b :: bits' then lebs2ip_from i.+1 (acc + (if b then 2 ^ i else 0)) bits' else acc.
Definition lebs2ip (bits : seq bool) : option nat :=
  if size bits <= 64 then Some (lebs2ip_from 0 0 bits) else None.
(* (int & (1 << mask)) != 0 *)
Definition bit_of (int mask : nat) : bool := odd (int %/ 2 ^ mask).
(* utilities.rs:224-238 i2lebsp *)
Definition i2lebsp (num_bits int : nat) : option (seq bool) :=
  if num_bits <= 64 then Some [seq bit_of int mask | mask <- iota 0 num_bits] else None.
(* rev().fold(0, |acc, b| (acc << 1) + b) *)
Definition word_of_bits (bits : seq bool) : nat := foldl (fun acc b => 2 * acc + nat_of_bool b) 0 (rev bits).
(* chunks_exact(w): a shorter last chunk is dropped *)
Definition chunks_exact {T : Type} (w : nat) (s : seq T) : seq (seq T) :=
  [seq take w (drop (w * i) s) | i <- iota 0 (size s %/ w)].
End Bits.

Section Utilities.
Variables (F : fieldType) (pf : prime_field F).

(* PrimeFieldBits::to_le_bits *)
Definition to_le_bits (x : F) : seq bool := [seq bit_of (pf_val pf x) i | i <- iota 0 (pf_repr_bits pf)].

(* utilities.rs:147-167 bitrange_subset; end < start underflows *)
Definition bitrange_subset (x : F) (start end_ : nat) : option F :=
  if ~~ (end_ <= pf_num_bits pf) || (end_ < start) then None else
  Some (foldl (fun acc (bit : bool) => if bit then (acc + acc + 1)%R else (acc + acc)%R) 0%R
          (rev (take (end_ - start) (drop start (to_le_bits x))))).

(* utilities.rs:184-208 decompose_word; window_num_bits = 0 divides by zero *)
Definition decompose_word (word : F) (word_num_bits window_num_bits : nat) : option (seq nat) :=
  if ~~ (window_num_bits <= 8) || (window_num_bits == 0) then None else
  let padding := (window_num_bits - word_num_bits %% window_num_bits) %% window_num_bits in
  let bits := take word_num_bits (to_le_bits word) ++ nseq padding false in
  if size bits != word_num_bits + padding then None else
  Some [seq word_of_bits chunk | chunk <- chunks_exact window_num_bits bits].

Local Open Scope ring_scope.
Implicit Types e a b : expr F.
Definition esub a b : expr F := ESum a (ENegated b).

(* utilities.rs:170-174 range_check *)
Definition range_check (word : expr F) (range : nat) : expr F :=
  foldl (fun acc i => EProduct acc (esub (EConstant i%:R) word)) word (iota 1 (range - 1)).
(* utilities.rs:133-135 bool_check *)
Definition bool_check (v : expr F) : expr F := range_check v 2.
(* utilities.rs:140-143 ternary *)
Definition ternary (a b c : expr F) : expr F :=
  ESum (EProduct a b) (EProduct (esub (EConstant 1) a) c).

Notation adv c r := (EAdvice F 0 c r).
Notation sel s simple := (ESelector F s simple).

(* ---------------------------------------------------------------- decompose_running_sum.rs *)
(* lines 86-95: the gate; K = WINDOW_NUM_BITS *)
Definition running_sum_gate (q_range_check z K : nat) : expr F :=
  let word := esub (adv z 0) (EScaled (adv z 1) (2 ^ K)%N%:R) in
  EProduct (sel q_range_check true) (range_check word (2 ^ K)).

(* lines 161-163, and similar loops *)
Definition enable_rows (s offset n : nat) : rprog F unit :=
  foldr (fun idx k => REnable s (offset + idx) k) (RRet F tt) (iota 0 n).

(* lines 179-196: one z_next = (z_cur - word) * inv per word.  words: Value<u8> *)
Fixpoint assign_sums (region z offset : nat) (inv : F) (cur : acell F) (i : nat) (words : seq (value nat))
    : rprog F (seq (acell F)) :=
  if words is word :: words' then
    let z_next_val := v_op2 *%R (v_op2 (fun x y : F => x - y) (ac_value cur) (v_map (fun w => w%:R) word))
                            (known inv) in
    let+ z_next := assign_advice region z (offset + i + 1) z_next_val in
    let+ rest := assign_sums region z offset inv z_next i.+1 words' in
    RRet F (z_next :: rest)
  else RRet F [::].

(* Value::map with a function that may panic, then transpose_vec (circuit/value.rs) *)
Definition map_transpose {V W : Type} (f : V -> option (seq W)) (v : value V) (len : nat) : option (seq (value W)) :=
  match inner v with
  | Some x => obind (fun ws => v_transpose_vec (known ws) len) (f x)
  | None => v_transpose_vec unknown len
  end.

(* lines 139-205 decompose.  F::from(2^K).invert().unwrap() panics if 2^K = 0. *)
Definition rs_decompose (q_range_check z K region offset : nat) (z_0 : acell F) (strict : bool)
    (word_num_bits num_windows : nat) : rprog F (seq (acell F)) :=
  if ~~ (K * num_windows < word_num_bits + K)%N then RPanic else
  enable_rows q_range_check offset num_windows ;+
  match map_transpose (fun w => decompose_word w word_num_bits K) (ac_value z_0) num_windows with
  | None => RPanic
  | Some words =>
    if (2 ^ K)%N%:R == 0 :> F then RPanic else
    let+ rest := assign_sums region z offset ((2 ^ K)%N%:R^-1) z_0 0 words in
    let zs := z_0 :: rest in
    if size zs != num_windows.+1 then RPanic else
    if strict then constrain_constant (ac_cell (last z_0 rest)) 0 ;+ RRet F zs else RRet F zs
  end.
(* lines 104-115 witness_decompose *)
Definition rs_witness_decompose (q_range_check z K region offset : nat) (alpha : value F) (strict : bool)
    (word_num_bits num_windows : nat) : rprog F (seq (acell F)) :=
  let+ z_0 := assign_advice region z offset alpha in
  rs_decompose q_range_check z K region offset z_0 strict word_num_bits num_windows.
(* lines 121-132 copy_decompose *)
Definition rs_copy_decompose (q_range_check z K region offset : nat) (alpha : acell F) (strict : bool)
    (word_num_bits num_windows : nat) : rprog F (seq (acell F)) :=
  let+ z_0 := copy_advice region alpha z offset in
  rs_decompose q_range_check z K region offset z_0 strict word_num_bits num_windows.

(* ---------------------------------------------------------------- lookup_range_check.rs *)
(* lines 62-70 LookupRangeCheckConfig *)
Record lrc := LRC { q_lookup : nat; q_running : nat; q_bitshift : nat; running_sum : nat; table_idx : nat }.

(* lines 319-349: the lookup's input expression; it is looked up in table_idx *)
Definition lrc_lookup (c : lrc) (K : nat) : expr F :=
  let z_cur := adv (running_sum c) 0 in
  let word := esub z_cur (EScaled (adv (running_sum c) 1) (2 ^ K)%N%:R) in
  let running := EProduct (sel (q_running c) false) word in
  let short := EProduct (esub (EConstant 1) (sel (q_running c) false)) z_cur in
  EProduct (sel (q_lookup c) false) (ESum running short).
(* lines 351-368: the gate *)
Definition lrc_gate (c : lrc) (K : nat) : expr F :=
  let word := adv (running_sum c) (-1) in
  let shifted_word := adv (running_sum c) 0 in
  let inv_two_pow_s := adv (running_sum c) 1 in
  EProduct (sel (q_bitshift c) true)
    (esub (EProduct (EScaled word (2 ^ K)%N%:R) inv_two_pow_s) shifted_word).

(* lines 211-230: per word, two selectors and z_next *)
Fixpoint lrc_assign (c : lrc) (region : nat) (inv : F) (z : acell F) (idx : nat) (words : seq (value F))
    : rprog F (seq (acell F)) :=
  if words is word :: words' then
    enable_selector (q_lookup c) idx ;+
    enable_selector (q_running c) idx ;+
    let z_val := v_map (fun zw : F * F => (zw.1 - zw.2) * inv) (v_zip (ac_value z) word) in
    let+ z_next := assign_advice region (running_sum c) (idx + 1) z_val in
    let+ rest := lrc_assign c region inv z_next idx.+1 words' in
    RRet F (z_next :: rest)
  else RRet F [::].
(* F::from(lebs2ip::<K>(word)) over chunks_exact(K) of the first num_bits bits; K = 0 panics *)
Definition lrc_words (K num_bits : nat) (x : F) : option (seq F) :=
  if K == 0%N then None else
  all_some [seq omap (fun w => w%:R) (lebs2ip chunk) | chunk <- chunks_exact K (take num_bits (to_le_bits x))].
(* lines 170-238 range_check *)
Definition lrc_range_check (c : lrc) (K region : nat) (element : acell F) (num_words : nat) (strict : bool)
    : rprog F (seq (acell F)) :=
  if ~~ (num_words * K <= pf_num_bits pf - 1)%N then RPanic else
  match map_transpose (lrc_words K (num_words * K)) (ac_value element) num_words with
  | None => RPanic
  | Some words =>
    if (2 ^ K)%N%:R == 0 :> F then RPanic else
    let+ rest := lrc_assign c region ((2 ^ K)%N%:R^-1) element 0 words in
    let zs := element :: rest in
    if strict then constrain_constant (ac_cell (last element rest)) 0 ;+ RRet F zs else RRet F zs
  end.
(* lines 124-141 copy_check; 143-163 witness_check *)
Definition lrc_copy_check (c : lrc) (K region : nat) (element : acell F) (num_words : nat) (strict : bool) :=
  let+ z_0 := copy_advice region element (running_sum c) 0 in
  lrc_range_check c K region z_0 num_words strict.
Definition lrc_witness_check (c : lrc) (K region : nat) (v : value F) (num_words : nat) (strict : bool) :=
  let+ z_0 := assign_advice region (running_sum c) 0 v in
  lrc_range_check c K region z_0 num_words strict.

(* lines 442-484 short_range_check; K - num_bits underflows if num_bits > K *)
Definition lrc_short_range_check (c : lrc) (K region : nat) (element : acell F) (num_bits : nat) : rprog F unit :=
  enable_selector (q_lookup c) 0 ;+
  enable_selector (q_lookup c) 1 ;+
  enable_selector (q_bitshift c) 1 ;+
  if (K < num_bits)%N then RPanic else
  let shifted := v_mul_f (v_of_field (ac_value element)) (2 ^ (K - num_bits))%N%:R in
  let+ _ := assign_advice_assigned region (running_sum c) 1 shifted in
  if (2 ^ num_bits)%N%:R == 0 :> F then RPanic else
  let+ _ := assign_advice_from_constant region (running_sum c) 2 ((2 ^ num_bits)%N%:R^-1) in
  RRet F tt.
(* lines 240-261 copy_short_check; 263-294 witness_short_check *)
Definition lrc_copy_short_check (short : acell F -> nat -> rprog F unit) (c : lrc) (K region : nat)
    (element : acell F) (num_bits : nat) : rprog F unit :=
  if ~~ (num_bits < K)%N then RPanic else
  let+ e := copy_advice region element (running_sum c) 0 in
  short e num_bits.
Definition lrc_witness_short_check (short : acell F -> nat -> rprog F unit) (c : lrc) (K region : nat)
    (element : value F) (num_bits : nat) : rprog F (acell F) :=
  if ~~ (num_bits <= K)%N then RPanic else
  let+ e := assign_advice region (running_sum c) 0 element in
  short e num_bits ;+
  RRet F e.

(* lines 497-506 LookupRangeCheck4_5BConfig *)
Record lrc45 := LRC45 { base : lrc; q_range_check_4 : nat; q_range_check_5 : nat; table_range_check_tag : nat }.
(* lines 551-613: the two input expressions, looked up in (table_idx, table_range_check_tag) *)
Definition lrc45_lookup (c : lrc45) (K : nat) : expr F * expr F :=
  let b := base c in
  let one := EConstant 1 in
  let q_lookup := sel (q_lookup b) false in
  let q4 := sel (q_range_check_4 c) false in
  let q5 := sel (q_range_check_5 c) false in
  let z_cur := adv (running_sum b) 0 in
  let word := esub z_cur (EScaled (adv (running_sum b) 1) (2 ^ K)%N%:R) in
  let running := EProduct (sel (q_running b) false) word in
  let short := EProduct (esub one (sel (q_running b) false)) z_cur in
  let q_range_check := esub one (EProduct (esub one q4) (esub one q5)) in
  let num_bits := ESum (EProduct q5 (EConstant 5%:R))
                       (EProduct (EProduct (esub one q5) q4) (EConstant 4%:R)) in
  (EProduct q_lookup (ESum (EProduct (esub one q_range_check) (ESum running short)) (EProduct q_range_check z_cur)),
   EProduct (EProduct q_lookup q_range_check) num_bits).
(* lines 823-849 short_range_check *)
Definition lrc45_short_range_check (c : lrc45) (K region : nat) (element : acell F) (num_bits : nat) : rprog F unit :=
  if num_bits == 4%N then
    enable_selector (q_lookup (base c)) 0 ;+ enable_selector (q_range_check_4 c) 0
  else if num_bits == 5%N then
    enable_selector (q_lookup (base c)) 0 ;+ enable_selector (q_range_check_5 c) 0
  else lrc_short_range_check (base c) K region element num_bits.

(* ---------------------------------------------------------------- cond_swap.rs *)
(* lines 62-70 CondSwapConfig *)
Record swap_config := SwapConfig { q_swap : nat; sw_a : nat; sw_b : nat; a_swapped : nat; b_swapped : nat; sw_swap : nat }.
(* lines 250-281: the gate *)
Definition swap_gates (c : swap_config) : seq (expr F) :=
  let a := adv (sw_a c) 0 in
  let b := adv (sw_b c) 0 in
  let a' := adv (a_swapped c) 0 in
  let b' := adv (b_swapped c) 0 in
  let swap := adv (sw_swap c) 0 in
  [seq EProduct (sel (q_swap c) true) p
  | p <- [:: esub a' (ternary swap b a); esub b' (ternary swap a b); bool_check swap]].
(* lines 84-135 swap; the region's closure *)
Definition swap_region (c : swap_config) (region : nat) (pair0 : acell F) (pair1 : value F) (swap : value bool)
    : rprog F (acell F * acell F) :=
  enable_selector (q_swap c) 0 ;+
  let+ a := copy_advice region pair0 (sw_a c) 0 in
  let+ b := assign_advice region (sw_b c) 0 pair1 in
  let+ _ := assign_advice region (sw_swap c) 0 (v_map (fun s : bool => (nat_of_bool s)%:R) swap) in
  let zipped := v_zip (v_zip (ac_value a) (ac_value b)) swap in
  let+ a' := assign_advice region (a_swapped c) 0
    (v_map (fun t : (F * F) * bool => if t.2 then t.1.2 else t.1.1) zipped) in
  let+ b' := assign_advice region (b_swapped c) 0
    (v_map (fun t : (F * F) * bool => if t.2 then t.1.1 else t.1.2) zipped) in
  RRet F (a', b').
(* lines 137-192 mux *)
Definition mux_region (c : swap_config) (region : nat) (choice left right : acell F) : rprog F (acell F) :=
  enable_selector (q_swap c) 0 ;+
  let+ left := copy_advice region left (sw_a c) 0 in
  let+ right := copy_advice region right (sw_b c) 0 in
  let+ choice := copy_advice region choice (sw_swap c) 0 in
  let zipped := v_zip (v_zip (ac_value left) (ac_value right)) (ac_value choice) in
  let+ _ := assign_advice region (b_swapped c) 0
    (v_map (fun t : (F * F) * F => if t.2 == 0 then t.1.2 else t.1.1) zipped) in
  assign_advice region (a_swapped c) 0
    (v_map (fun t : (F * F) * F => if t.2 == 0 then t.1.1 else t.1.2) zipped).
End Utilities.
