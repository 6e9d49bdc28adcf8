(* Model of the Sinsemilla chip: halo2_gadgets/src/sinsemilla/{chip,message}.rs,
   chip/hash_to_point.rs, chip/generator_table.rs, and of HashDomain in sinsemilla.rs.

   The code is for Pallas with K = 10; here the base field, K, the generators SINSEMILLA_S and the
   bound C on the number of words are parameters (they come from the external sinsemilla crate).
   Newtypes X and Y are dropped.  check_hash_result exists only in tests. *)
Set Warnings "-notation-overridden,-ambiguous-paths".
From mathcomp Require Import all_ssreflect all_algebra.
From Verif Require Import Util M_Env M_Assigned M_Circuit M_Selectors M_Value M_Region M_Layout M_Utilities M_Ecc M_EccMul.
Import GRing.Theory.
Set Implicit Arguments.
Unset Strict Implicit.
Local Open Scope ring_scope.

Section Sinsemilla.
Variables (F : fieldType) (pf : prime_field F).
Variables (K : nat) (gens : seq (F * F)) (max_words : nat).      (* K, SINSEMILLA_S, C *)
Notation adv c rot := (EAdvice F 0 c rot).
Notation fix_ c := (EFixed F 0 c 0).
Notation sel s simple := (ESelector F s simple).
Notation two := (2%:R : F).

(* ---------------------------------------------------------------- message.rs *)
(* lines 34-39 MessagePiece *)
Record piece := Piece { pc_cell : acell F; pc_words : nat }.
(* lines 42-48 MessagePiece::new *)
Definition piece_new (a : acell F) (num_words : nat) : option piece :=
  if (num_words * K < pf_num_bits pf)%N then Some (Piece a num_words) else None.
(* lines 8-19 Message::from *)
Definition message_from (pieces : seq piece) : option (seq piece) :=
  if (sumn [seq pc_words p | p <- pieces] < max_words)%N then Some pieces else None.

(* ---------------------------------------------------------------- chip.rs *)
(* lines 36-72 SinsemillaConfig.  double_and_add: of the record only the columns of DoubleAndAdd are
   used (x_a, x_p, lambda_1, lambda_2). *)
Record sins_config := SinsConfig { q_s1 : nat; q_s2 : nat; q_s4 : nat; fixed_y_q : nat; sc_dbl : dbl_config;
  sc_bits : nat; witness_pieces : nat; gt_idx : nat; gt_x : nat; gt_y : nat; allow_private : bool }.
(* lines 96-100 q_s3 *)
Definition q_s3 (c : sins_config) : expr F :=
  EProduct (fix_ (q_s2 c)) (esub (fix_ (q_s2 c)) (EConstant 1)).
(* lines 222-239 "Initial y_Q" *)
Definition init_gate (c : sins_config) : seq (expr F) :=
  let y_q := if allow_private c then adv (db_xp (sc_dbl c)) (-1) else fix_ (fixed_y_q c) in
  [seq EProduct (sel (q_s4 c) true) p | p <- [:: esub (EScaled y_q two) (Y_A F (sc_dbl c) 0)]].
(* lines 242-288 "Sinsemilla gate" *)
Definition hash_gate (c : sins_config) : seq (expr F) :=
  let d := sc_dbl c in
  let secant_line := esub (esquare (adv (db_l2 d) 0)) (ESum (ESum (adv (db_xa d) 1) (x_r F d 0)) (adv (db_xa d) 0)) in
  let lhs := EProduct (EScaled (adv (db_l2 d) 0) 4%:R) (esub (adv (db_xa d) 0) (adv (db_xa d) 1)) in
  let rhs := ESum (ESum (EScaled (Y_A F d 0) two) (EProduct (esub (EConstant two) (q_s3 c)) (Y_A F d 1)))
                  (EProduct (EScaled (q_s3 c) two) (adv (db_l1 d) 1)) in
  [seq EProduct (sel (q_s1 c) false) p | p <- [:: secant_line; esub lhs rhs]].
Definition sins_gates (c : sins_config) : seq (expr F) := init_gate c ++ hash_gate c.

(* generator_table.rs:28-81: the inputs, looked up in (table_idx, table_x, table_y); TWO_INV is the
   field's 2^-1 *)
Definition sins_lookup (c : sins_config) : seq (expr F) :=
  let d := sc_dbl c in
  let s1 := sel (q_s1 c) false in
  let q_run := esub (fix_ (q_s2 c)) (q_s3 c) in
  let word := esub (adv (sc_bits c) 0) (EScaled (EProduct q_run (adv (sc_bits c) 1)) (2 ^ K)%N%:R) in
  let x_p := adv (db_xp d) 0 in
  let y_p := esub (EScaled (Y_A F d 0) (two^-1)) (EProduct (adv (db_l1 d) 0) (esub (adv (db_xa d) 0) x_p)) in
  let: (init_x, init_y) := nth (0, 0) gens 0 in
  let not_q_s1 := esub (EConstant 1) s1 in
  [:: EProduct s1 word; ESum (EProduct s1 x_p) (EScaled not_q_s1 init_x); ESum (EProduct s1 y_p) (EScaled not_q_s1 init_y)].
Definition sins_columns (c : sins_config) : seq nat := [:: gt_idx c; gt_x c; gt_y c].
(* lookup_range_check.rs:389-427 load, for the plain configuration (called by generator_table.rs:84-96) *)
Definition sins_load (c : sins_config) : lprog F unit :=
  LTable (flatten [seq [:: TAssign (gt_idx c) i.1 (known (ATrivial i.1%:R)); TAssign (gt_x c) i.1 (known (ATrivial i.2.1));
                           TAssign (gt_y c) i.1 (known (ATrivial i.2.2))] | i <- zip (iota 0 (size gens)) gens]) (LRet tt).

(* chip.rs:315-334 witness_message_piece *)
Definition witness_message_piece (c : sins_config) (v : value F) (num_words : nat) : lprog F piece :=
  let* a := assign_region (fun region => assign_advice region (witness_pieces c) 0 v) in
  if piece_new a num_words is Some p then LRet p else LPanic.

(* ---------------------------------------------------------------- chip/hash_to_point.rs *)
(* lines 101-177 public_q_initialization; Q.coordinates().unwrap() panics on the identity.
   Result: (offset, x_a, y_a) *)
Definition public_q (c : sins_config) (region : nat) (Q : option (F * F)) : rprog F (nat * ecell F * value (assigned F)) :=
  if Q is Some (x_q, y_q) then
    if allow_private c then
      enable_selector (q_s4 c) 1 ;+
      let+ y_a := assign_e_constant region (db_xp (sc_dbl c)) 0 (ATrivial y_q) in
      let+ x_a := assign_e_constant region (db_xa (sc_dbl c)) 1 (ATrivial x_q) in
      RRet F (1%N, x_a, ec_value y_a)
    else
      enable_selector (q_s4 c) 0 ;+
      assign_fixed region (fixed_y_q c) 0 (known y_q) ;+
      let+ x_a := assign_e_constant region (db_xa (sc_dbl c)) 0 (ATrivial x_q) in
      RRet F (0%N, x_a, known (ATrivial y_q))
  else RPanic.
(* AssignedCell<F, F> into AssignedCell<Assigned<F>, F>: circuit.rs:118-125 From *)
Definition ec_of (a : acell F) : ecell F := ECell (v_of_field (ac_value a)) (ac_cell a).
(* lines 179-217 private_q_initialization; Q.x(), Q.y() evaluate (ecc/chip.rs:118-125) *)
Definition private_q (c : sins_config) (region : nat) (Q : ecpoint F) : rprog F (nat * ecell F * value (assigned F)) :=
  if ~~ allow_private c then RErr EIllegalHashFromPrivatePoint else
  enable_selector (q_s4 c) 1 ;+
  let+ y_a := copy_e region (ec_of (ec_evaluate (ep_y Q))) (db_xp (sc_dbl c)) 0 in
  let+ x_a := copy_e region (ec_of (ec_evaluate (ep_x Q))) (db_xa (sc_dbl c)) 1 in
  RRet F (1%N, x_a, ec_value y_a).

(* lines 317-353: the selectors of one piece *)
Fixpoint fixed_ones (column region offset n : nat) : rprog F unit :=
  if n is n'.+1 then assign_fixed region column offset (known 1) ;+ fixed_ones column region offset.+1 n' else RRet F tt.
Definition piece_selectors (c : sins_config) (region offset num_words : nat) (final_piece : bool) : rprog F unit :=
  if num_words == 0%N then RPanic else
  enable_rows F (q_s1 c) offset num_words ;+
  fixed_ones (q_s2 c) region offset (num_words - 1) ;+
  assign_fixed region (q_s2 c) (offset + num_words - 1) (known (if final_piece then two else 0)) ;+
  RRet F tt.
(* lines 352-368: the words of a piece; lebs2ip_k is lebs2ip with K bits (external).  K = 0 panics in
   chunks_exact *)
Definition piece_words (num_words : nat) (x : F) : option (seq nat) :=
  if K == 0%N then None else
  all_some [seq lebs2ip chunk | chunk <- chunks_exact K (take (K * num_words) (to_le_bits pf x))].
(* lines 370-376: an index outside SINSEMILLA_S panics *)
Definition piece_gens (num_words : nat) (x : F) : option (seq (F * F)) :=
  obind (fun ws => all_some [seq get gens w | w <- ws]) (piece_words num_words x).
(* lines 396-420: z_1, .., z_(n-1); [words] is without the last *)
Fixpoint piece_sums (c : sins_config) (region offset : nat) (inv : F) (z : value F) (idx : nat) (words : seq (value nat))
    : rprog F (seq (acell F)) :=
  if words is word :: words' then
    let z := v_op2 *%R (v_op2 (fun x y : F => x - y) z (v_map (fun w => w%:R) word)) (known inv) in
    let+ cell := assign_advice region (sc_bits c) (offset + idx + 1) z in
    let+ rest := piece_sums c region offset inv z idx.+1 words' in
    RRet F (cell :: rest)
  else RRet F [::].
(* lines 428-491: one row per generator *)
Fixpoint piece_rows (c : sins_config) (region offset row : nat) (gs : seq (value (F * F))) (x_a : ecell F) (y_a : value (assigned F))
    : rprog F (ecell F * value (assigned F)) :=
  let d := sc_dbl c in
  if gs is g :: gs' then
    let x_p := v_map fst g in
    let y_p := v_map snd g in
    assign_advice region (db_xp d) (offset + row) x_p ;+
    let lambda_1 := v_mul (v_sub_v y_a y_p) (v_invert (v_sub_v (ec_value x_a) x_p)) in
    assign_e region (db_l1 d) (offset + row) lambda_1 ;+
    let x_r := v_sub_v (v_sub (v_square lambda_1) (ec_value x_a)) x_p in
    let lambda_2 := v_sub (v_mul (v_mul_f y_a two) (v_invert (v_sub (ec_value x_a) x_r))) lambda_1 in
    assign_e region (db_l2 d) (offset + row) lambda_2 ;+
    let x_a_new := v_sub (v_sub (v_square lambda_2) (ec_value x_a)) x_r in
    let+ x_a' := assign_e region (db_xa d) (offset + row + 1) x_a_new in
    let y_a' := v_sub (v_mul lambda_2 (v_sub (ec_value x_a) (ec_value x_a'))) y_a in
    piece_rows c region offset row.+1 gs' x_a' y_a'
  else RRet F (x_a, y_a).
(* lines 272-495 hash_piece; INV_TWO_POW_K is the inverse of 2^K (external constant) *)
Definition hash_piece (c : sins_config) (region offset : nat) (p : piece) (x_a : ecell F) (y_a : value (assigned F)) (final_piece : bool)
    : rprog F (ecell F * value (assigned F) * seq (acell F)) :=
  let n := pc_words p in
  piece_selectors c region offset n final_piece ;+
  match map_transpose (piece_words n) (ac_value (pc_cell p)) n, map_transpose (piece_gens n) (ac_value (pc_cell p)) n with
  | Some words, Some gs =>
    let+ z_0 := copy_advice region (pc_cell p) (sc_bits c) offset in
    let+ zs := piece_sums c region offset ((2 ^ K)%N%:R^-1) (ac_value (pc_cell p)) 0 (take (size words - 1) words) in
    let+ r := piece_rows c region offset 0 gs x_a y_a in
    RRet F (r, z_0 :: zs)
  | _, _ => RPanic
  end.
(* lines 243-259 the loop of hash_all_pieces.  Result: (offset, x_a, y_a, zs_sum) *)
Fixpoint hash_pieces (c : sins_config) (region offset : nat) (ps : seq piece) (x_a : ecell F) (y_a : value (assigned F))
    : rprog F (nat * ecell F * value (assigned F) * seq (seq (acell F))) :=
  if ps is p :: ps' then
    let+ r := hash_piece c region offset p x_a y_a (if ps' is [::] then true else false) in
    let: (x_a, y_a, zs) := r in
    let+ rest := hash_pieces c region (offset + pc_words p) ps' x_a y_a in
    RRet F (rest.1, zs :: rest.2)
  else RRet F (offset, x_a, y_a, [::]).
(* lines 220-284 hash_all_pieces *)
Definition hash_all_pieces (c : sins_config) (region offset : nat) (message : seq piece) (x_a : ecell F) (y_a : value (assigned F))
    : rprog F (ecell F * ecell F * seq (seq (acell F))) :=
  let+ r := hash_pieces c region offset message x_a y_a in
  let: (offset, x_a, y_a, zs_sum) := r in
  let+ y_a := assign_e region (db_l1 (sc_dbl c)) offset y_a in
  assign_advice region (db_l2 (sc_dbl c)) offset (known 0) ;+
  assign_advice region (db_xp (sc_dbl c)) offset (known 0) ;+
  RRet F (x_a, y_a, zs_sum).
(* lines 34-69 hash_message *)
Definition hash_message (c : sins_config) (region : nat) (Q : option (F * F)) (message : seq piece)
    : rprog F (ecpoint F * seq (seq (acell F))) :=
  let+ r := public_q c region Q in
  let: (offset, x_a, y_a) := r in
  let+ r := hash_all_pieces c region offset message x_a y_a in
  let: (x_a, y_a, zs_sum) := r in
  try_unit F (v_error_if_known_and (v_zip (ec_value x_a) (ec_value y_a)) (fun t => a_is_zero t.1 || a_is_zero t.2)) ;+
  RRet F (ECPoint x_a y_a, zs_sum).
(* lines 71-99 hash_message_with_private_init *)
Definition hash_message_with_private_init (c : sins_config) (region : nat) (Q : ecpoint F) (message : seq piece)
    : rprog F (ecpoint F * seq (seq (acell F))) :=
  if ~~ allow_private c then RErr EIllegalHashFromPrivatePoint else
  let+ r := private_q c region Q in
  let: (offset, x_a, y_a) := r in
  let+ r := hash_all_pieces c region offset message x_a y_a in
  let: (x_a, y_a, zs_sum) := r in
  try_unit F (v_error_if_known_and (ec_value x_a) (@a_is_zero F)) ;+
  try_unit F (v_error_if_known_and (ec_value y_a) (@a_is_zero F)) ;+
  RRet F (ECPoint x_a y_a, zs_sum).

(* chip.rs:337-349 hash_to_point *)
Definition hash_to_point (c : sins_config) (Q : option (F * F)) (message : seq piece) : lprog F (ecpoint F * seq (seq (acell F))) :=
  assign_region (fun region => hash_message c region Q message).
(* chip.rs:351-367 hash_to_point_with_private_init *)
Definition hash_to_point_with_private_init (c : sins_config) (Q : ecpoint F) (message : seq piece)
    : lprog F (ecpoint F * seq (seq (acell F))) :=
  if ~~ allow_private c then LErr EIllegalHashFromPrivatePoint else
  assign_region (fun region => hash_message_with_private_init c region Q message).
(* chip.rs:368-371 extract, and ecc/chip.rs:118-121 x() *)
Definition extract (P : ecpoint F) : acell F := ec_evaluate (ep_x P).
(* sinsemilla.rs:361-375 HashDomain::hash *)
Definition sins_hash (c : sins_config) (Q : option (F * F)) (message : seq piece) : lprog F (acell F * seq (seq (acell F))) :=
  let* r := hash_to_point c Q message in
  LRet (extract r.1, r.2).

(* ---------------------------------------------------------------- sinsemilla.rs *)
(* lines 243-274 MessagePiece::from_subpieces; a subpiece is a RangeConstrained value: (value, num_bits).
   1 << bits is a u64. *)
Definition from_subpieces (c : sins_config) (subpieces : seq (value F * nat)) : lprog F piece :=
  let step (st : option (value F * nat)) (sp : value F * nat) :=
    obind (fun st : value F * nat => let: (acc, bits) := st in
      if ~~ (bits < 64)%N then None else
      Some (v_op2 +%R acc (v_map (fun v : F => (2 ^ bits)%N%:R * v) sp.1), (bits + sp.2)%N)) st in
  match foldl step (Some (known 0, 0%N)) subpieces with
  | None => LPanic
  | Some (field_elem, total_bits) =>
    if K == 0%N then LPanic else
    if (total_bits %% K != 0)%N then LPanic else
    witness_message_piece c field_elem (total_bits %/ K)
  end.
End Sinsemilla.
