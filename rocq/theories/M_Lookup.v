(* Model of halo2_proofs/src/plonk/lookup/prover.rs and lookup/verifier.rs.
   Panics are [None] or Panic. *)
Set Warnings "-notation-overridden,-ambiguous-paths".
From mathcomp Require Import all_ssreflect all_algebra.
From Verif Require Import Util M_Poly M_Domain M_Evaluator M_Assigned M_Env M_Transcript M_Commit M_Multiopen
  M_Circuit M_Selectors M_Keys M_Permutation.
Import GRing.Theory.
Set Implicit Arguments.
Unset Strict Implicit.
Local Open Scope ring_scope.

Section Permute.
Variables (F : fieldType) (le : rel F).

(* BTreeMap<F, u32> (std), as the list of its entries in ascending order of the keys.
   *acc.entry(k).or_insert(0) += 1; the u32 cannot overflow, as there are fewer than 2^32
   rows *)
Fixpoint bt_incr (k : F) (m : seq (F * nat)) : seq (F * nat) :=
  if m is (k', c) :: m' then
    if k == k' then (k', c.+1) :: m'
    else if le k k' then (k, 1%N) :: m else (k', c) :: bt_incr k m'
  else [:: (k, 1%N)].
(* get_mut(k), then assert that the count is positive and subtract 1.  Err = not found *)
Fixpoint bt_decr (k : F) (m : seq (F * nat)) : res (seq (F * nat)) :=
  if m is (k', c) :: m' then
    if k == k' then (if c is c'.+1 then Ok ((k', c') :: m') else Panic)
    else rbind (bt_decr k m') (fun m'' => Ok ((k', c) :: m''))
  else Err EConstraintSystemFailure.

(* prover.rs:588-610 the filter_map over the rows, from [row] on; [prev] is the previous
   input value.  Returns the map, the table values, the repeated rows *)
Fixpoint permute_rows (prev : option F) (row : nat) (inputs : seq F) (m : seq (F * nat))
    : res (seq (F * nat) * seq F * seq nat) :=
  if inputs is a :: inputs' then
    if prev != Some a then
      rbind (bt_decr a m) (fun m =>
      rbind (permute_rows (Some a) row.+1 inputs' m) (fun r =>
        Ok (r.1.1, a :: r.1.2, r.2)))
    else
      rbind (permute_rows (Some a) row.+1 inputs' m) (fun r =>
        Ok (r.1.1, 0 :: r.1.2, row :: r.2))
  else Ok (m, [::], [::]).

(* prover.rs:612-617 permuted_table_coeffs[repeated_input_rows.pop().unwrap()] = *coeff *)
Fixpoint fill_rows (rows : seq nat) (leftover : seq F) (table : seq F) : option (seq nat * seq F) :=
  if leftover is c :: leftover' then
    if rev rows is r :: rows' then
      if (r < size table)%N then fill_rows (rev rows') leftover' (set_nth 0 table r c) else None
    else None
  else Some (rows, table).

(* prover.rs:568-619 permute_expression_pair, before the blinding rows are added *)
Definition permute_usable (usable_rows : nat) (input table : seq F) : res (seq F * seq F) :=
  let a := sort le (take usable_rows input) in
  let m := foldl (fun acc coeff => bt_incr coeff acc) [::] (take usable_rows table) in
  (* the zip with permuted_table_coeffs: the table has usable_rows values *)
  if size a != usable_rows then Panic else
  rbind (permute_rows None 0 a m) (fun r =>
    match fill_rows r.2 (flatten [seq nseq e.2 e.1 | e <- r.1.1]) r.1.2 with
    | Some (rows, table) => if rows is [::] then Ok (a, table) else Panic
    | None => Panic
    end).
End Permute.

Section Lookup.
Variables (F B : fieldType) (G : lmodType F) (E : env B G) (ps : params G).
Notation threads := (e_threads E).

(* prover.rs:560-648 permute_expression_pair *)
Definition permute_expression_pair (pk : pkey G) (input table : seq F) : W (seq F * seq F) :=
  let bf := blinding_factors (vk_cs (pk_vk pk)) in
  let n := p_n ps in
  if ~~ (bf + 1 <= n)%N then mlift Panic else
  let! p := mlift (permute_usable (e_le E) (n - (bf + 1)) input table) in
  let! r1 := mmap (fun _ => draw (E := E)) (iota 0 (bf + 1)) in
  let! r2 := mmap (fun _ => draw (E := E)) (iota 0 (bf + 1)) in
  let a := p.1 ++ r1 in let s := p.2 ++ r2 in
  if (size a != n) || (size s != n) then mlift Panic else
  if n != d_n (vk_domain (pk_vk pk)) then mlift Panic else     (* lagrange_from_vec *)
  mret (a, s).

(* prover.rs:26-39 Permuted *)
Record lpermuted := LPermuted {
  lp_input : seq F; lp_input_coset : ast F;
  lp_pinput : seq F; lp_pinput_poly : seq F; lp_pinput_leaf : nat; lp_pinput_blind : F;
  lp_table : seq F; lp_table_coset : ast F;
  lp_ptable : seq F; lp_ptable_poly : seq F; lp_ptable_leaf : nat; lp_ptable_blind : F }.

(* prover.rs:162-174 the compressed Asts *)
Definition compress_values (theta : F) (es : seq (ast F)) : ast F :=
  foldl (fun acc e => AAdd (AScale acc theta) e) (AConstantTerm 0) es.
Definition compress_cosets (theta : F) (es : seq (ast F)) : ast F :=
  foldl (fun acc e => AAdd (AMul acc (AConstantTerm theta)) e) (AConstantTerm 0) es.

(* the leaves of the two evaluators: advice, fixed, instance *)
Record lleaves := LLeaves { ll_advice : seq nat; ll_fixed : seq nat; ll_instance : seq nat }.
Definition leaf_ast (l : lleaves) (e : expr F) : option (ast F) :=
  expr_ast (ll_advice l) (ll_fixed l) (ll_instance l) e.

(* prover.rs:106-181 compress_expressions: the coset Ast and the values *)
Definition compress_expressions (d : domain F) (value_polys : seq (seq F)) (lv lc : lleaves)
    (theta : F) (es : seq (expr F)) : option (ast F * seq F) :=
  obind (fun vals => obind (fun cosets =>
    omap (fun v => (compress_cosets theta cosets, v))
      (evaluate (e_zeta E) d threads LagrangeCoeff value_polys (compress_values theta vals)))
    (sequence [seq leaf_ast lc e | e <- es]))
  (sequence [seq leaf_ast lv e | e <- es]).

(* prover.rs:203-208 commit_values *)
Definition commit_values (d : domain F) (values : seq F) : W (seq F * F * G) :=
  let! poly := mlift (unwrap (lagrange_to_coeff threads d values)) in
  let! blind := draw (E := E) in
  let! c := mlift (unwrap (commit_lagrange E ps values blind)) in
  mret (poly, blind, c).

(* prover.rs:74-244 commit_permuted; returns the registered polynomials as well *)
Definition commit_permuted (pk : pkey G) (value_polys : seq (seq F)) (lv lc : lleaves) (theta : F)
    (l : lookup F) (polys : seq (seq F)) : W (lpermuted * seq (seq F)) :=
  let d := vk_domain (pk_vk pk) in
  let! input := mlift (unwrap (compress_expressions d value_polys lv lc theta (lk_input l))) in
  let! table := mlift (unwrap (compress_expressions d value_polys lv lc theta (lk_table l))) in
  let! p := permute_expression_pair pk input.2 table.2 in
  let! i := commit_values d p.1 in
  let! t := commit_values d p.2 in
  write_point E i.2 ;;;
  write_point E t.2 ;;;
  let! ic := mlift (unwrap (coeff_to_extended threads d i.1.1)) in
  let (polys, il) := register polys ic in
  let! tc := mlift (unwrap (coeff_to_extended threads d t.1.1)) in
  let (polys, tl) := register polys tc in
  mret (LPermuted input.2 input.1 p.1 i.1.1 il i.1.2 table.2 table.1 p.2 t.1.1 tl t.1.2, polys).

(* prover.rs:42-47 Committed *)
Record lcommitted := LCommitted {
  lc_permuted : lpermuted; lc_poly : seq F; lc_leaf : nat; lc_blind : F }.

(* prover.rs:287-316 the fractions; the [start..] slices and the zips, every column having n
   values *)
Definition lookup_fractions (n : nat) (beta gamma : F) (p : lpermuted) : option (seq F) :=
  obind (fun den =>
    parallelize threads (batch_invert den) (fun product start =>
      mapi_from start (fun i v =>
        if (i < size (lp_input p))%N && (i < size (lp_table p))%N
        then v * (nth 0 (lp_input p) i + beta) * (nth 0 (lp_table p) i + gamma) else v) product))
    (parallelize threads (nseq n 0) (fun product start =>
      mapi_from start (fun i v =>
        if (i < size (lp_pinput p))%N && (i < size (lp_ptable p))%N
        then (beta + nth 0 (lp_pinput p) i) * (gamma + nth 0 (lp_ptable p) i) else v) product)).

(* prover.rs:253-391 commit_product *)
Definition commit_product (pk : pkey G) (beta gamma : F) (p : lpermuted) (polys : seq (seq F))
    : W (lcommitted * seq (seq F)) :=
  let d := vk_domain (pk_vk pk) in
  let bf := blinding_factors (vk_cs (pk_vk pk)) in
  let n := p_n ps in
  let! product := mlift (unwrap (lookup_fractions n beta gamma p)) in
  if ~~ (bf <= n)%N then mlift Panic else
  let z := take (n - bf) (scanl *%R 1 (1 :: product)) in
  let! rs := mmap (fun _ => draw (E := E)) (iota 0 bf) in
  let z := z ++ rs in
  if (size z != n) || (n != d_n d) then mlift Panic else
  let! blind := draw (E := E) in
  let! c := mlift (unwrap (commit_lagrange E ps z blind)) in
  let! zp := mlift (unwrap (lagrange_to_coeff threads d z)) in
  let! zc := mlift (unwrap (coeff_to_extended threads d zp)) in
  let (polys, leaf) := register polys zc in
  write_point E c ;;;
  mret (LCommitted p zp leaf blind, polys).

(* prover.rs:402-478 construct: the five expressions *)
Definition lookup_construct (beta gamma : F) (l0 l_blind l_last : nat) (c : lcommitted)
    : seq (ast F) :=
  let p := lc_permuted c in
  let z := lc_leaf c in let a := lp_pinput_leaf p in let s := lp_ptable_leaf p in
  let active_rows := ast_sub (ast_one F) (AAdd (APoly l_last 0) (APoly l_blind 0)) in
  [:: AMul (ast_sub (ast_one F) (APoly z 0)) (APoly l0 0);
      AMul (ast_sub (AMul (APoly z 0) (APoly z 0)) (APoly z 0)) (APoly l_last 0);
      AMul (ast_sub
        (AMul (AMul (APoly z rot_next) (AAdd (APoly a 0) (AConstantTerm beta)))
              (AAdd (APoly s 0) (AConstantTerm gamma)))
        (AMul (AMul (APoly z 0) (AAdd (lp_input_coset p) (AConstantTerm beta)))
              (AAdd (lp_table_coset p) (AConstantTerm gamma)))) active_rows;
      AMul (ast_sub (APoly a 0) (APoly s 0)) (APoly l0 0);
      AMul (AMul (ast_sub (APoly a 0) (APoly s 0)) (ast_sub (APoly a 0) (APoly a rot_prev)))
           active_rows].

(* prover.rs:481-512 evaluate *)
Definition lookup_evaluate (d : domain F) (x : F) (c : lcommitted) : W unit :=
  let p := lc_permuted c in
  let x_inv := rotate_omega d x rot_prev in
  let x_next := rotate_omega d x rot_next in
  mmap (fun e => write_scalar E e)
    [:: eval_polynomial (lc_poly c) x; eval_polynomial (lc_poly c) x_next;
        eval_polynomial (lp_pinput_poly p) x; eval_polynomial (lp_pinput_poly p) x_inv;
        eval_polynomial (lp_ptable_poly p) x] ;;;
  mret tt.

(* prover.rs:515-557 open; [proof] and [index] identify the lookup *)
Definition lookup_open (d : domain F) (proof index : nat) (x : F) (c : lcommitted)
    : seq (pquery F qkey_eqType) :=
  let p := lc_permuted c in
  let x_inv := rotate_omega d x rot_prev in
  let x_next := rotate_omega d x rot_next in
  let q kind poly blind pt : pquery F qkey_eqType :=
    Query (kind, (proof, index))%N (poly, blind) pt tt in
  [:: q 3%N (lc_poly c) (lc_blind c) x;
      q 4%N (lp_pinput_poly p) (lp_pinput_blind p) x;
      q 5%N (lp_ptable_poly p) (lp_ptable_blind p) x;
      q 4%N (lp_pinput_poly p) (lp_pinput_blind p) x_inv;
      q 3%N (lc_poly c) (lc_blind c) x_next].

(* verifier.rs:36-53 read_permuted_commitments, 55-70 read_product_commitment *)
Definition read_permuted_commitments : R (G * G) :=
  let! a := read_point E in
  let! s := read_point E in
  mret (a, s).
(* verifier.rs:72-93 evaluate *)
Record vlookup := VLookup {
  vl_pinput : G; vl_ptable : G; vl_product : G;
  vl_product_eval : F; vl_product_next_eval : F;
  vl_pinput_eval : F; vl_pinput_inv_eval : F; vl_ptable_eval : F }.
Definition lookup_read_evals (c : G * G * G) : R vlookup :=
  let! e1 := read_scalar E in
  let! e2 := read_scalar E in
  let! e3 := read_scalar E in
  let! e4 := read_scalar E in
  let! e5 := read_scalar E in
  mret (VLookup c.1.1 c.1.2 c.2 e1 e2 e3 e4 e5).

(* verifier.rs:118-136 compress_expressions *)
Definition compress_evals (advice_evals fixed_evals instance_evals : seq F) (theta : F)
    (es : seq (expr F)) : option F :=
  omap (foldl (fun acc e => acc * theta + e) 0)
    (sequence [seq expr_val advice_evals fixed_evals instance_evals e | e <- es]).
(* verifier.rs:97-172 expressions *)
Definition lookup_expressions (v : vlookup) (l_0 l_last l_blind : F) (l : lookup F)
    (theta beta gamma : F) (advice_evals fixed_evals instance_evals : seq F) : option (seq F) :=
  let active_rows := 1 - (l_last + l_blind) in
  let left := vl_product_next_eval v * (vl_pinput_eval v + beta) * (vl_ptable_eval v + gamma) in
  obind (fun input => omap (fun table =>
      let right := vl_product_eval v * (input + beta) * (table + gamma) in
      [:: l_0 * (1 - vl_product_eval v);
          l_last * (vl_product_eval v ^+ 2 - vl_product_eval v);
          (left - right) * active_rows;
          l_0 * (vl_pinput_eval v - vl_ptable_eval v);
          (vl_pinput_eval v - vl_ptable_eval v) * (vl_pinput_eval v - vl_pinput_inv_eval v)
            * active_rows])
    (compress_evals advice_evals fixed_evals instance_evals theta (lk_table l)))
  (compress_evals advice_evals fixed_evals instance_evals theta (lk_input l)).

(* verifier.rs:174-212 queries *)
Definition lookup_queries (d : domain F) (proof index : nat) (x : F) (v : vlookup)
    : seq (vquery B G qkey_eqType) :=
  let x_inv := rotate_omega d x rot_prev in
  let x_next := rotate_omega d x rot_next in
  let q kind c pt e : vquery B G qkey_eqType :=
    Query (kind, (proof, index))%N (CCommitment B c) pt e in
  [:: q 3%N (vl_product v) x (vl_product_eval v);
      q 4%N (vl_pinput v) x (vl_pinput_eval v);
      q 5%N (vl_ptable v) x (vl_ptable_eval v);
      q 4%N (vl_pinput v) x_inv (vl_pinput_inv_eval v);
      q 3%N (vl_product v) x_next (vl_product_next_eval v)].
End Lookup.
