(* Model of halo2_proofs/src/plonk/permutation/keygen.rs:102-211 (build_vk, build_pk),
   permutation/prover.rs and permutation/verifier.rs.  Panics are [None] or Panic. *)
Set Warnings "-notation-overridden,-ambiguous-paths".
From mathcomp Require Import all_ssreflect all_algebra.
From Verif Require Import Util M_Poly M_Domain M_Evaluator M_Assigned M_Env M_Transcript M_Commit M_Multiopen
  M_Circuit M_Selectors M_Copy M_Keys.
Import GRing.Theory.
Set Implicit Arguments.
Unset Strict Implicit.
Local Open Scope ring_scope.

Section Sigma.
Variables (F : fieldType) (delta omega : F).
(* keygen.rs:108-133 and 161-186: powers of omega, and their multiples by the powers of delta *)
Definition omega_powers (n : nat) : seq F := traject (fun cur => cur * omega) 1 n.
Definition deltaomega (m n : nat) : seq (seq F) :=
  [seq [seq o * cur | o <- omega_powers n] | cur <- traject (fun cur => cur * delta) 1 m].
(* keygen.rs:137-145 and 192-200: the i-th permutation polynomial, in Lagrange form *)
Definition permutation_poly (mapping : seq (seq cell)) (m n i : nat) : option (seq F) :=
  sequence [seq obind (get2 (deltaomega m n)) (get2 mapping (i, j)) | j <- iota 0 n].
Definition permutation_polys (mapping : seq (seq cell)) (m n : nat) : option (seq (seq F)) :=
  sequence [seq permutation_poly mapping m n i | i <- iota 0 m].
End Sigma.

Section Perm.
Variables (F B : fieldType) (G : lmodType F) (E : env B G) (ps : params G).
Notation threads := (e_threads E).
Notation delta := (e_delta E).

(* Blind::default() = Blind(1), commitment.rs:221-225 *)
Definition blind_default : F := 1.

(* keygen.rs:102-153 build_vk *)
Definition perm_build_vk (d : domain F) (mapping : seq (seq cell)) (m : nat) : option (seq G) :=
  obind (fun polys => sequence [seq commit_lagrange E ps p blind_default | p <- polys])
        (permutation_polys delta (d_omega d) mapping m (p_n ps)).
(* keygen.rs:155-211 build_pk: (permutations, polys, cosets) *)
Definition perm_build_pk (d : domain F) (mapping : seq (seq cell)) (m : nat)
    : option (seq (seq F) * seq (seq F) * seq (seq F)) :=
  obind (fun permutations =>
    obind (fun polys =>
      omap (fun cosets => (permutations, polys, cosets))
        (sequence [seq coeff_to_extended threads d p | p <- polys]))
      (sequence [seq lagrange_to_coeff threads d p | p <- permutations]))
    (permutation_polys delta (d_omega d) mapping m (p_n ps)).

(* prover.rs:107-115: multiply by the denominators of one column *)
Definition mul_denominator (beta gamma : F) (values permuted modified : seq F) : option (seq F) :=
  parallelize threads modified (fun modified start =>
    mapi_from start (fun i mv =>
      if (i < size values)%N && (i < size permuted)%N
      then mv * (beta * nth 0 permuted i + gamma + nth 0 values i) else mv) modified).
(* prover.rs:130-140: multiply by the numerators of one column *)
Definition mul_numerator (beta gamma omega deltaomega : F) (values modified : seq F)
    : option (seq F) :=
  parallelize threads modified (fun modified start =>
    let dos := scan_mul omega (deltaomega * omega ^+ start) (size modified) in
    mapi_from start (fun i mv =>
      if (i < size values)%N
      then mv * (nth 0 dos (i - start)%N * beta + gamma + nth 0 values i) else mv) modified).

(* prover.rs:98-142: the fractions of one chunk of columns; [vals] are the values of the
   chunk's columns.  Returns the fractions and the next deltaomega. *)
Definition perm_fractions (n : nat) (beta gamma omega deltaomega : F)
    (vals permutations : seq (seq F)) : option (seq F * F) :=
  obind (fun den =>
    foldl (fun acc v => obind (fun st : seq F * F =>
        omap (fun m => (m, st.2 * delta)) (mul_numerator beta gamma omega st.2 v st.1)) acc)
      (Some (batch_invert den, deltaomega)) vals)
    (foldl (fun acc vp => obind (mul_denominator beta gamma vp.1 vp.2) acc)
      (Some (nseq n 1)) (zip vals permutations)).

(* prover.rs:155-161: the running product; modified_values[row - 1] panics if out of range *)
Definition running_product (n : nat) (last_z : F) (modified : seq F) : option (seq F) :=
  if (n.-1 <= size modified)%N
  then Some (last_z :: scanl *%R last_z (take n.-1 modified)) else None.

(* for z in &mut z[n - blinding_factors..] { *z = random }; a usize underflow panics *)
Definition blind_tail (blinding : nat) (z : seq F) : W (seq F) :=
  if ~~ (blinding <= size z)%N then mlift Panic else
  let! rs := mmap (fun _ => draw (E := E)) (iota 0 blinding) in
  mret (take (size z - blinding) z ++ rs).

(* prover.rs:21-26 CommittedSet: the coset is the index of the registered polynomial *)
Record pset := PSet { s_poly : seq F; s_coset : nat; s_blind : F }.

(* prover.rs:97-191: one iteration of the loop over the chunks.  The state is
   (deltaomega, last_z, sets, registered polynomials). *)
Definition perm_commit_chunk (pk : pkey G) (vals_of : column -> option (seq F)) (beta gamma : F)
    (st : F * F * seq pset * seq (seq F)) (cp : seq column * seq (seq F))
    : W (F * F * seq pset * seq (seq F)) :=
  let: (deltaomega, last_z, sets, polys) := st in
  let n := p_n ps in
  let d := vk_domain (pk_vk pk) in
  let bf := blinding_factors (vk_cs (pk_vk pk)) in
  let! vals := mlift (unwrap (sequence [seq vals_of c | c <- cp.1])) in
  let! md := mlift (unwrap (perm_fractions n beta gamma (d_omega d) deltaomega vals cp.2)) in
  let! z := mlift (unwrap (running_product n last_z md.1)) in
  if size z != d_n d then mlift Panic else               (* lagrange_from_vec *)
  let! z := blind_tail bf z in
  if ~~ (bf + 1 <= n)%N then mlift Panic else
  let! last_z := mlift (unwrap (get z (n - (bf + 1)))) in
  let! blind := draw (E := E) in
  let! c := mlift (unwrap (commit_lagrange E ps z blind)) in
  let! zp := mlift (unwrap (lagrange_to_coeff threads d z)) in
  let! zc := mlift (unwrap (coeff_to_extended threads d zp)) in
  write_point E c ;;;
  let: (polys, leaf) := register polys zc in
  mret (md.2, last_z, rcons sets (PSet zp leaf blind), polys).

(* prover.rs:47-194 commit; returns the sets and the registered polynomials *)
Definition perm_commit (pk : pkey G) (advice fixed instance : seq (seq F)) (beta gamma : F)
    (polys : seq (seq F)) : W (seq pset * seq (seq F)) :=
  let cs_degree := vk_cs_degree (pk_vk pk) in
  if ~~ (3 <= cs_degree)%N then mlift Panic else
  let chunk_len := (cs_degree - 2)%N in
  let! st := mfold (perm_commit_chunk pk (any_of advice fixed instance) beta gamma)
     (1, 1, [::], polys)
     (zip (chunks chunk_len (permutation (vk_cs (pk_vk pk)))) (chunks chunk_len (pk_permutations pk))) in
  mret (st.1.2, st.2).

(* prover.rs:279-291: left *= p + beta * s + gamma *)
Definition perm_left (beta gamma : F) (left : ast F) (vp : nat * nat) : ast F :=
  AMul left (AAdd (AAdd (APoly vp.1 0) (AMul (AConstantTerm beta) (APoly vp.2 0)))
                  (AConstantTerm gamma)).
(* prover.rs:296-305: right *= p + current_delta * X + gamma *)
Definition perm_right (gamma : F) (st : ast F * F) (v : nat) : ast F * F :=
  (AMul st.1 (AAdd (AAdd (APoly v 0) (ALinearTerm st.2)) (AConstantTerm gamma)), st.2 * delta).

(* prover.rs:274-308 *)
Definition perm_product_ast (l_blind l_last : nat) (beta gamma : F) (chunk_len chunk_index : nat)
    (set_coset : nat) (vals cosets : seq nat) : ast F :=
  let left := foldl (perm_left beta gamma) (APoly set_coset rot_next) (zip vals cosets) in
  let right := (foldl (perm_right gamma)
     (APoly set_coset 0, beta * delta ^+ (chunk_index * chunk_len)) vals).1 in
  AMul (ast_sub left right) (ast_sub (ast_one F) (AAdd (APoly l_last 0) (APoly l_blind 0))).

(* prover.rs:199-312 construct: the expressions *)
Definition perm_construct (pk : pkey G) (sets : seq pset)
    (advice fixed instance permutation_cosets : seq nat) (l0 l_blind l_last : nat)
    (beta gamma : F) : option (seq (ast F)) :=
  let vk := pk_vk pk in
  let chunk_len := (vk_cs_degree vk - 2)%N in
  let last_rotation := rot_last (blinding_factors (vk_cs vk)) in
  let first := if sets is s :: _
    then [:: AMul (ast_sub (ast_one F) (APoly (s_coset s) 0)) (APoly l0 0)] else [::] in
  let last_ := if rev sets is s :: _
    then [:: AMul (ast_sub (AMul (APoly (s_coset s) 0) (APoly (s_coset s) 0)) (APoly (s_coset s) 0))
                  (APoly l_last 0)] else [::] in
  let chain := [seq AMul (ast_sub (APoly (s_coset p.1) 0) (APoly (s_coset p.2) last_rotation))
                         (APoly l0 0) | p <- zip (behead sets) sets] in
  omap (fun prods => first ++ last_ ++ chain ++ prods)
    (sequence (mapi (fun chunk_index scc =>
        omap (fun vals => perm_product_ast l_blind l_last beta gamma chunk_len chunk_index
                            (s_coset scc.1.1) vals scc.2)
             (sequence [seq any_of advice fixed instance c | c <- scc.1.2]))
      (zip (zip sets (chunks chunk_len (permutation (vk_cs vk))))
           (chunks chunk_len permutation_cosets)))).

(* prover.rs:316-325 ProvingKey::open, and 327-339 ProvingKey::evaluate *)
Definition perm_pk_open (pk : pkey G) (x : F) : seq (pquery F qkey_eqType) :=
  mapi (fun i poly => Query (7, (0, i))%N (poly, blind_default) x tt) (pk_perm_polys pk).
Definition perm_pk_evaluate (pk : pkey G) (x : F) : W unit :=
  mmap (fun poly => write_scalar E (eval_polynomial poly x)) (pk_perm_polys pk) ;;; mret tt.

(* prover.rs:343-388 Constructed::evaluate *)
Fixpoint perm_evaluate (d : domain F) (bf : nat) (x : F) (sets : seq pset) : W unit :=
  if sets is s :: sets' then
    write_scalar E (eval_polynomial (s_poly s) x) ;;;
    write_scalar E (eval_polynomial (s_poly s) (rotate_omega d x rot_next)) ;;;
    (if sets' is _ :: _
     then write_scalar E (eval_polynomial (s_poly s) (rotate_omega d x (rot_last bf)))
     else mret tt) ;;;
    perm_evaluate d bf x sets'
  else mret tt.

(* prover.rs:392-433 Evaluated::open; [proof] is the index of the circuit instance *)
Definition perm_open (d : domain F) (bf proof : nat) (x : F) (sets : seq pset)
    : seq (pquery F qkey_eqType) :=
  let q p (iset : nat * pset) : pquery F qkey_eqType :=
    Query (2, (proof, iset.1))%N (s_poly iset.2, s_blind iset.2) p tt in
  let isets := zip (iota 0 (size sets)) sets in
  flatten [seq [:: q x iset; q (rotate_omega d x rot_next) iset] | iset <- isets]
  ++ [seq q (rotate_omega d x (rot_last bf)) iset | iset <- behead (rev isets)].

(* verifier.rs:34-54 read_product_commitments; usize subtraction and chunks(0) panic *)
Definition perm_read_commitments (vk : vkey G) : R (seq G) :=
  if ~~ (2 < vk_cs_degree vk)%N then mlift Panic else
  mmap (fun _ => read_point E)
    (chunks (vk_cs_degree vk - 2) (permutation (vk_cs vk))).
(* verifier.rs:57-69 VerifyingKey::evaluate *)
Definition perm_vk_evaluate (vk : vkey G) : R (seq F) :=
  mmap (fun _ => read_scalar E) (vk_permutation vk).

(* verifier.rs:20-27 EvaluatedSet *)
Record vset := VSet { v_commitment : G; v_eval : F; v_next_eval : F; v_last_eval : option F }.
(* verifier.rs:73-99 Committed::evaluate *)
Fixpoint perm_read_evals (cs : seq G) : R (seq vset) :=
  if cs is c :: cs' then
    let! e := read_scalar E in
    let! ne := read_scalar E in
    let! le := (if cs' is _ :: _ then let! l := read_scalar E in mret (Some l) else mret None) in
    let! sets := perm_read_evals cs' in
    mret (VSet c e ne le :: sets)
  else mret [::].

(* verifier.rs:104-189 expressions *)
Definition perm_expressions (vk : vkey G) (sets : seq vset) (permutation_evals : seq F)
    (advice_evals fixed_evals instance_evals : seq F) (l_0 l_last l_blind beta gamma x : F)
    : option (seq F) :=
  let chunk_len := (vk_cs_degree vk - 2)%N in
  let col_eval (c : column) : option F :=
    obind (get (match c.1 with Advice => advice_evals | Fixed => fixed_evals
                             | Instance => instance_evals end))
          (get_any_query_index (vk_cs vk) c) in
  let first := if sets is s :: _ then [:: l_0 * (1 - v_eval s)] else [::] in
  let last_ := if rev sets is s :: _ then [:: (v_eval s ^+ 2 - v_eval s) * l_last] else [::] in
  obind (fun chain =>
  omap (fun prods => first ++ last_ ++ chain ++ prods)
    (sequence (mapi (fun chunk_index scc =>
        let: ((set, columns), permutation_evals) := scc in
        omap (fun vals =>
          let left := foldl (fun left vp => left * (vp.1 + beta * vp.2 + gamma))
                            (v_next_eval set) (zip vals permutation_evals) in
          let right := (foldl (fun (st : F * F) v => (st.1 * (v + st.2 + gamma), st.2 * delta))
             (v_eval set, (beta * x) * delta ^+ (chunk_index * chunk_len)) vals).1 in
          (left - right) * (1 - (l_last + l_blind)))
          (sequence [seq col_eval c | c <- columns]))
      (zip (zip sets (chunks chunk_len (permutation (vk_cs vk))))
           (chunks chunk_len permutation_evals)))))
  (sequence [seq omap (fun prev_last => (v_eval p.1 - prev_last) * l_0) (v_last_eval p.2)
            | p <- zip (behead sets) sets]).

(* verifier.rs:191-226 queries; last_eval.unwrap() *)
Definition perm_queries (d : domain F) (bf proof : nat) (x : F) (sets : seq vset)
    : option (seq (vquery B G qkey_eqType)) :=
  let q p e (iset : nat * vset) : vquery B G qkey_eqType :=
    Query (2, (proof, iset.1))%N (CCommitment B (v_commitment iset.2)) p e in
  let isets := zip (iota 0 (size sets)) sets in
  omap (fun lasts =>
    flatten [seq [:: q x (v_eval iset.2) iset; q (rotate_omega d x rot_next) (v_next_eval iset.2) iset]
            | iset <- isets] ++ lasts)
    (sequence [seq omap (fun e => q (rotate_omega d x (rot_last bf)) e iset) (v_last_eval iset.2)
              | iset <- behead (rev isets)]).
(* verifier.rs:229-240 CommonEvaluated::queries *)
Definition perm_common_queries (vk : vkey G) (permutation_evals : seq F) (x : F)
    : seq (vquery B G qkey_eqType) :=
  mapi (fun i (ce : G * F) => Query (7, (0, i))%N (CCommitment B ce.1) x ce.2)
       (zip (vk_permutation vk) permutation_evals).
End Perm.
