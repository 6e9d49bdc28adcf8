(* Model of halo2_gadgets/src/poseidon/pow5.rs (Pow5Chip) and halo2_gadgets/src/poseidon.rs
   (the Sponge and Hash gadgets over that chip).

   Arrays of columns [Column; WIDTH] are functions of the index, used below WIDTH only.  The
   index of a query in its list of queries does not matter here and is 0. *)
Set Warnings "-notation-overridden,-ambiguous-paths".
From mathcomp Require Import all_ssreflect all_algebra.
From Verif Require Import Util M_Env M_Assigned M_Circuit M_Value M_Region M_Utilities M_Layout M_Poseidon.
Import GRing.Theory.
Set Implicit Arguments.
Unset Strict Implicit.
Local Open Scope ring_scope.

Section Pow5.
Variable F : fieldType.
Variables WIDTH RATE : nat.

(* pow5.rs:20-35 Pow5Config (alpha is the constant [5, 0, 0, 0]) *)
Record p5config := P5Config {
  p5_state : nat -> nat; p5_partial_sbox : nat; p5_rc_a : nat -> nat; p5_rc_b : nat -> nat;
  p5_s_full : nat; p5_s_partial : nat; p5_s_pad : nat;
  p5_half_full : nat; p5_half_partial : nat;
  p5_round_constants : seq (seq F); p5_m : seq (seq F) }.

Notation adv c rot := (EAdvice F 0 c rot).
Notation fix_ c := (EFixed F 0 c 0).
Notation sel s := (ESelector F s true).
Definition entry (m : seq (seq F)) (i j : nat) : F := nth 0 (nth [::] m i) j.

(* pow5.rs:92-95 pow_5 *)
Definition e_pow5 (v : expr F) : expr F := let v2 := EProduct v v in EProduct (EProduct v2 v2) v.
(* Iterator::reduce(|acc, term| acc + term); the list is not empty when WIDTH > 0 *)
Definition e_reduce (es : seq (expr F)) : expr F := if es is e :: es' then foldl (@ESum F) e es' else EConstant 0.

Section Gates.
Variables (c : p5config) (m_inv : seq (seq F)).
Let st i rot := adv (p5_state c i) rot.
(* pow5.rs:97-119 "full round" *)
Definition full_polys : seq (expr F) :=
  mkseq (fun next_idx => esub
    (e_reduce (mkseq (fun idx => EScaled (e_pow5 (ESum (st idx 0) (fix_ (p5_rc_a c idx)))) (entry (p5_m c) next_idx idx)) WIDTH))
    (st next_idx 1)) WIDTH.
(* pow5.rs:121-173 "partial rounds" *)
Definition e_mid (idx : nat) : expr F :=
  foldl (fun acc cur_idx =>
      ESum acc (EScaled (ESum (st cur_idx 0) (fix_ (p5_rc_a c cur_idx))) (entry (p5_m c) idx cur_idx)))
    (EScaled (adv (p5_partial_sbox c) 0) (entry (p5_m c) idx 0)) (iota 1 (WIDTH - 1)).
Definition e_next (idx : nat) : expr F :=
  e_reduce (mkseq (fun next_idx => EScaled (st next_idx 1) (entry m_inv idx next_idx)) WIDTH).
Definition partial_polys : seq (expr F) :=
  [:: esub (e_pow5 (ESum (st 0 0) (fix_ (p5_rc_a c 0)))) (adv (p5_partial_sbox c) 0),
      esub (e_pow5 (ESum (e_mid 0) (fix_ (p5_rc_b c 0)))) (e_next 0)
    & [seq esub (ESum (e_mid idx) (fix_ (p5_rc_b c idx))) (e_next idx) | idx <- iota 1 (WIDTH - 1)]].
(* pow5.rs:175-201 "pad-and-add" *)
Definition pad_polys : seq (expr F) :=
  mkseq (fun idx => esub (ESum (st idx (-1)) (st idx 0)) (st idx 1)) RATE ++ [:: esub (st RATE (-1)) (st RATE 1)].
Definition p5_gates : seq (expr F) :=
  [seq EProduct (sel (p5_s_full c)) p | p <- full_polys] ++
  [seq EProduct (sel (p5_s_partial c)) p | p <- partial_polys] ++
  [seq EProduct (sel (p5_s_pad c)) p | p <- pad_polys].
End Gates.

(* pow5.rs:57-217 configure; the columns and selectors are given.  None: an assertion fails
   (assert_eq!(RATE, WIDTH - 1), whose right-hand side underflows for WIDTH = 0; the numbers of rounds
   are even) *)
Definition p5_configure (S : pspec F) (m_inv : seq (seq F)) (state : nat -> nat) (partial_sbox : nat)
    (rc_a rc_b : nat -> nat) (s_full s_partial s_pad : nat) : option (p5config * seq (expr F)) :=
  if ((0 < WIDTH) && (RATE == WIDTH - 1) && ~~ odd (sp_full_rounds S) && ~~ odd (sp_partial_rounds S))%N then
    let c := P5Config state partial_sbox rc_a rc_b s_full s_partial s_pad
               (sp_full_rounds S %/ 2) (sp_partial_rounds S %/ 2) (sp_round_constants S) (sp_mds S) in
    Some (c, p5_gates c m_inv)
  else None.

Variable c : p5config.

(* the rows of matrix m applied to r: fold(F::ZERO, |acc, (j, r_j)| acc + m_i[j] * r_j) *)
Definition m_apply (r : seq F) : seq F :=
  [seq foldl (fun acc j => acc + nth 0 m_i j * nth 0 r j) 0 (iota 0 (size r)) | m_i <- p5_m c].
(* pow5.rs:515-537 load *)
Definition load_state (region : nat) (initial_state : seq (acell F)) : rprog F (seq (acell F)) :=
  rmap (fun ia => copy_advice region ia.2 (p5_state c ia.1) 0) (zip (iota 0 WIDTH) initial_state).
(* config.round_constants[round]: out of range panics *)
Definition with_constants {A : Type} (round : nat) (k : seq F -> rprog F A) : rprog F A :=
  if (round < size (p5_round_constants c))%N then k (nth [::] (p5_round_constants c) round) else RPanic.
Definition load_constants (region : nat) (col : nat -> nat) (offset : nat) (rcs : seq F) : rprog F (seq (acell F)) :=
  rmap (fun i => assign_fixed region (col i) offset (known (nth 0 rcs i))) (iota 0 WIDTH).
Definition next_state (region offset : nat) (vs : seq (value F)) : rprog F (seq (acell F)) :=
  rmap (fun i => assign_advice region (p5_state c i) (offset + 1) (nth unknown vs i)) (iota 0 WIDTH).

(* pow5.rs:426-453 full_round, inside 539-582 round *)
Definition p5_full_round (region : nat) (state : seq (acell F)) (round offset : nat) : rprog F (seq (acell F)) :=
  enable_selector (p5_s_full c) offset ;+
  with_constants round (fun rcs =>
  load_constants region (p5_rc_a c) offset rcs ;+
  let q := [seq v_map (fun v => v + nth 0 rcs ia.1) (ac_value ia.2) | ia <- zip (iota 0 (size state)) state] in
  let r := v_from_iter [seq v_map (fun q => q ^+ 5) v | v <- q] in
  next_state region offset (mkseq (fun i => v_map (fun r => nth 0 (m_apply r) i) r) WIDTH)).

(* pow5.rs:464-474, 497-505: the S-box on the first word only *)
Definition first_sbox (rcs p : seq F) : seq F :=
  if p is p_0 :: p' then (p_0 + nth 0 rcs 0) ^+ 5 :: mapi (fun i p_i => p_i + nth 0 rcs i.+1) p' else [::].
(* pow5.rs:455-513 partial_round, inside 539-582 round *)
Definition p5_partial_round (region : nat) (state : seq (acell F)) (round offset : nat) : rprog F (seq (acell F)) :=
  enable_selector (p5_s_partial c) offset ;+
  with_constants round (fun rcs =>
  load_constants region (p5_rc_a c) offset rcs ;+
  let p := v_from_iter [seq ac_value a | a <- state] in
  let r := v_map (first_sbox rcs) p in
  assign_advice region (p5_partial_sbox c) offset (v_map (fun r => nth 0 r 0) r) ;+
  let p_mid := v_map m_apply r in
  with_constants round.+1 (fun rcs' =>
  load_constants region (p5_rc_b c) offset rcs' ;+
  let r_mid := v_map (first_sbox rcs') p_mid in
  next_state region offset (mkseq (fun i => v_map (fun r => nth 0 (m_apply r) i) r_mid) WIDTH))).

(* pow5.rs:239-289 permute *)
Definition p5_permute_region (initial_state : seq (acell F)) (region : nat) : rprog F (seq (acell F)) :=
  let hf := p5_half_full c in
  let hp := p5_half_partial c in
  let+ state := load_state region initial_state in
  let+ state := rfold (fun state r => p5_full_round region state r r) state (iota 0 hf) in
  let+ state := rfold (fun state r => p5_partial_round region state (hf + 2 * r) (hf + r)) state (iota 0 hp) in
  rfold (fun state r => p5_full_round region state (hf + 2 * hp + r) (hf + hp + r)) state (iota 0 hf).
Definition p5_permute (initial_state : seq (acell F)) : lprog F (seq (acell F)) :=
  assign_region (p5_permute_region initial_state).

(* pow5.rs:300-331 initial_state *)
Definition p5_initial_state (capacity : F) : lprog F (seq (acell F)) :=
  let* state := assign_region (fun region =>
    let+ a := rmap (fun i => assign_advice_from_constant region (p5_state c i) 0 0) (iota 0 RATE) in
    let+ b := assign_advice_from_constant region (p5_state c RATE) 0 capacity in
    RRet F (a ++ [:: b])) in
  if size state == WIDTH then LRet state else LPanic.

(* poseidon.rs:22-28 PaddedWord *)
Inductive padded_word := PMessage of acell F | PPadding of F.
(* pow5.rs:348-377 load_input_word *)
Definition load_input_word (region : nat) (ip : nat * option padded_word) : rprog F (acell F) :=
  let+ cv := match ip.2 with
             | Some (PMessage word) => RRet F (ac_cell word, ac_value word)
             | Some (PPadding x) => let+ a := assign_fixed region (p5_rc_b c ip.1) 1 (known x) in RRet F (ac_cell a, known x)
             | None => RPanic
             end in
  let+ var := assign_advice region (p5_state c ip.1) 1 cv.2 in
  constrain_equal cv.1 (ac_cell var) ;+ RRet F var.
(* pow5.rs:333-407 add_input *)
Definition p5_add_input_region (initial_state : seq (acell F)) (input : rate padded_word) (region : nat)
    : rprog F (seq (acell F)) :=
  enable_selector (p5_s_pad c) 1 ;+
  let+ initial_state := load_state region initial_state in
  let+ input := rmap (load_input_word region) (zip (iota 0 RATE) input) in
  rmap (fun i => assign_advice region (p5_state c i) 2
         (v_op2 +%R (nth unknown [seq ac_value a | a <- initial_state] i)
                    (nth (known 0) [seq ac_value a | a <- input] i))) (iota 0 WIDTH).
Definition p5_add_input (initial_state : seq (acell F)) (input : rate padded_word) : lprog F (seq (acell F)) :=
  assign_region (p5_add_input_region initial_state input).

(* ---------------------------------------------------------------- poseidon.rs *)
(* poseidon.rs:101-121 poseidon_sponge, with pow5.rs:409-412 get_output *)
Definition g_poseidon_sponge (state : seq (acell F)) (input : option (rate padded_word))
    : lprog F (seq (acell F) * rate (acell F)) :=
  let* state := if input is Some input then p5_add_input state input else LRet state in
  let* state := p5_permute state in
  LRet (state, [seq Some a | a <- take RATE state]).
(* poseidon.rs:123-139 Sponge, in absorbing mode *)
Record gsponge := GSponge { gs_mode : rate padded_word; gs_state : seq (acell F) }.
(* poseidon.rs:150-158 Sponge::new *)
Definition g_new (capacity : F) : lprog F gsponge :=
  let* state := p5_initial_state capacity in LRet (GSponge (init_empty _ RATE) state).
(* poseidon.rs:160-183 absorb *)
Definition g_absorb (s : gsponge) (v : padded_word) : lprog F gsponge :=
  if rate_absorb (gs_mode s) v is Some m then LRet (GSponge m (gs_state s)) else
  let* sm := g_poseidon_sponge (gs_state s) (Some (gs_mode s)) in
  if init_with RATE v is Some m then LRet (GSponge m sm.1) else LPanic.
(* poseidon.rs:185-205 finish_absorbing *)
Definition g_finish (s : gsponge) : lprog F (seq (acell F) * rate (acell F)) :=
  g_poseidon_sponge (gs_state s) (Some (gs_mode s)).
(* poseidon.rs:217-233 squeeze: the loop ends in its second iteration if RATE > 0, and does
   not end otherwise (LPanic) *)
Definition g_squeeze (s : seq (acell F) * rate (acell F)) : lprog F (acell F * (seq (acell F) * rate (acell F))) :=
  if rate_squeeze s.2 is Some (a, m) then LRet (a, (s.1, m)) else
  let* s := g_poseidon_sponge s.1 None in
  if rate_squeeze s.2 is Some (a, m) then LRet (a, (s.1, m)) else LPanic.
(* poseidon.rs:261-303 Hash::init, Hash::hash for ConstantLength<L>, L = size message *)
Definition g_hash (message : seq (acell F)) : lprog F (acell F) :=
  let* s := g_new (capacity F (size message)) in
  if padding F RATE (size message) is Some pad then
    let* s := lfold g_absorb s ([seq PMessage a | a <- message] ++ [seq PPadding x | x <- pad]) in
    let* s := g_finish s in
    let* r := g_squeeze s in
    LRet r.1
  else LPanic.
End Pow5.
