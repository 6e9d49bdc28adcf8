# Formal model of zcash/halo2 in Rocq (Coq 8.16.1)

`/verif/properties.jsonl` lists the properties (C01, C02, ...).  `/verif/rocq/theories`
holds, per area, three kinds of files:

* `M_*.v`  — the model: total computable Gallina definitions, each with a comment citing
  the file and lines of `/repo` it models and any simplification.  No property proofs.
* `S_*.v`  — small independent specifications (where a property needs vocabulary of its own).
* `L_*.v`  — lemmas and proofs.
* `P_*.v`  — the property theorems only (`Theorem ... exact lemma.`, `Print Assumptions`)
  and the non-vacuity `Example`s beside them.

The style is MathComp (ssreflect + algebra): a prime field is an arbitrary
`F : fieldType`, a prime-order curve group is an arbitrary `G : lmodType F`
(finite fields are `finFieldType` where challenge sets are counted).  Vectors are `seq`.

## Modelling conventions

* `&mut` parameters become returned values; `Result`/`Option` stay data; a panic
  (index out of range, `unwrap`, `assert!`, arithmetic underflow) is an explicit error
  value (`None` of an outer option, or a `Panic` constructor).
* Thread schedules: `current_num_threads()` is a parameter `threads : nat`; unordered
  rayon reductions are modelled by an arbitrary reduction tree/permutation that is
  universally quantified in the theorems.
* Hash functions / random oracles / RNG: section variables (arbitrary functions or
  arbitrary values), universally quantified in the theorems after the section closes.
* Curve points: `lmodType F`; the *encoding* of points and scalars is a section variable
  with the partial-inverse law `dec (enc p) = Some p` recorded as a hypothesis of the
  theorem.
* Machine integers: `nat` unless the property is about wrap-around.  All row counts,
  column counts, and indices in the code are `usize`; overflow of `usize` is not modelled.

## Plan per property

| id | what is modelled | how it is proved |
|----|------------------|------------------|
| C01 | `Buckets`, `small_multiexp`, `best_multiexp` over byte strings, both paths, arbitrary reduction tree | window decomposition of 256-bit integers; induction on segments |
| C02 | `best_fft` iterative + recursive | induction on `log_n`, both equal to the even/odd split DFT |
| C03-C06 | `EvaluationDomain` | corollaries of C02 with primitive roots |
| C07 | `eval_polynomial`, `kate_division`, `lagrange_interpolate` | MathComp `{poly F}` |
| C08 | `evaluator.rs` chunk recursion | induction on the AST, chunk index arithmetic |
| C09,C10 | `assigned.rs`, `batch_invert_assigned` | case analysis / list induction |
| C11,C12 | `Params` | DFT orthogonality; list codec induction |
| C13 | `MSM` | invariant over operation sequences, abstraction to the group element |
| C14,C15 | IPA prover/verifier | round invariant by induction on k |
| C16,C17 | multiopen | list induction, polynomial identities |
| C18,C19 | transcript | refinement reader/writer; injectivity of the framed stream |
| C20-C22 | constraint system, selectors | structural induction, invariants over the greedy loop |
| C23-C26 | permutation argument | invariant over copy sequences; grand products; Schwartz-Zippel count |
| C27-C29 | lookup argument | multiset invariants; grand products |
| C30 | vanishing argument | polynomial identities |
| C31,C32 | `create_proof`, `verify_proof` (`M_Plonk`) with the keys of `M_Keygen` | stage lemmas (`L_Plonk*`): what each stage of the prover writes is what the verifier reads; composition; C17, C25, C28, C30 give the verdict |
| C33 | `SimpleFloorPlanner` (`M_Floor.single_layout`): regions as programs of calls, turned into calls on an `Assignment` | invariant: the first free row of every column bounds the regions placed so far; the calls made are those of the plan |
| C34 | `floor_planner/v1.rs`, `v1/strategy.rs`: allocations, `free_intervals`, `first_fit_region`, `slot_in` | invariant: allocations of a column are sorted and disjoint; soundness, completeness and order of the free intervals give the least feasible row |
| C35 | `table_layouter.rs` and `assign_table` in both planners (`M_Floor.place_table`) | the accepted tables by induction on the circuit; the contents from the calls made |
| C36 | keygen's `Assembly`, the prover's `WitnessCollection` (`M_Assign`), `MockProver` (`M_Mock`) | invariant over call sequences: the state is a function of the calls; simulation between MockProver and key generation |
| C37 | `MockProver::verify` gate check, `Value` with poison (`M_Mock`) | `settled` value of an expression = value under every blinding; list of errors characterised row by row |
| C38 | lookup check: fill row, sort, merge (`M_Mock`) | sorted-merge invariant = membership; then traces |
| C39 | permutation check (`M_Mock`) | equal successive cells on a cycle = equal on the equivalence closure of the copies (C23) |
| C40 | `MockProver::run`/`verify`, `keygen_vk`/`keygen_pk`, the prover's synthesis (`M_Mock`, `M_Keygen`) | every run meets the state invariant of C37-C39; simulation from MockProver to key generation and to the witness collection; the prover's table is a trace of the MockProver state |
| C41 | BatchVerifier | arbitrary reduction tree; counting bad randomness |
| C42-C48 | gadgets, poseidon, Value, bit utilities | soundness/completeness of gates over all advice values |
| C49 | `generate_mds` | Cauchy determinants |
| C50 | ECC chip `mul`: complete, incomplete, overflow regions | refutation by a forged table; soundness under the missing copy constraint |
| C51 | `keygen_vk`, `keygen_pk` (`M_Keygen`) | every step after the layout succeeds (C10, C22, C24, Lagrange facts); call sequences that are alike give the same assembly |
| C52 | `verify_proof` up to the opening argument (`M_Plonk`), on any bytes | if every opening claim is true of the committed polynomials, the verifier's expressions are those of the constraint polynomials at x (`L_PlonkTrace`, `L_PlonkSound`); then C26, C29 and C30 bound the bad challenges. That the opening argument only accepts true claims is knowledge soundness of the commitment scheme, which is a computational statement and not modelled (C17 covers its algebra) |
| C53 | `verify_proof` up to the opening argument (`M_Plonk`), the transcript as the list of hashed bytes (`M_Transcript`) | every reading step appends the encoding of what it returns (`reads`, `P_Order`); the encoding of C19 is injective, and the shapes of the message lists are fixed by the key |
| C54 | Sinsemilla chip: gates, generator lookup, `hash_to_point` with public or private start, `HashDomain::hash` (`M_Sinsemilla`) | invariant over words and pieces: the row's accumulator is the hash so far, the running sum the rest of the piece; specification: the protocol's incomplete additions (`S_Sinsemilla`). The converse from the honest-prover rules of `L_Gadget` |
| C55 | Merkle chip and path gadget: `hash_layer`, `swap`, `calculate_root` over several chips (`M_Merkle`) | per layer: short range checks, the decomposition gate and C54 give the integers of both children; induction over the levels; specification: the protocol's path validity (`S_Merkle`). The converse with the honest-prover rules, one set of selectors per chip |
| C56 | the same program, run by an honest prover | induction over the bits: the accumulator is [2^i + 1 + 2 z] B, which the group order keeps apart from +-B; then the five overflow polynomials case by case |
| C57 | full-width fixed-base multiplication (`M_EccFixed`): window table, interpolation coefficients, gate, region | the interpolation polynomial at k is the table's x (C07), z fixes the sign of y, and the order of B keeps the incomplete additions apart; the last window's offset cancels the +2 of the others |
| C58 | the same programs, run with a known scalar (`P_EccFixedComplete`) | the digits of s are in range, so each row's interpolation gives the x of the row's point; partial sums stay below the order, so no incomplete addition is exceptional; selectors are justified once all rows are filled |
| C59 | fixed-base multiplication by a short signed scalar (`M_EccShort`): running sum, coordinates gate, sign gate, both regions, and `assign_scalar_sign` | the running sum gives windows to the region lemma of C57; z_n = 0 and the bit check on z_(n-1) bound the magnitude; sign^2 = 1 and sign * y_p = y_a fix y |
| C60 | the same programs as C59, run by an honest prover | the digits of the magnitude give the running sums; the region lemma of C58 serves any window expression; the last digit is a bit because the magnitude is in range |
| C61 | `CommitDomain` (`M_SinsCommit`): `commit`, `short_commit`, `blinding_factor` | composition of C57/C58, C54 and complete addition (C45); the hash of points on the curve is on the curve; the selectors of the two chips are disjoint |
| C62 | fixed-base multiplication by a base-field element (`M_EccBase`): running sum, canonicity gate, range check, all four regions | the region lemma of C57 gives digits of some integer A congruent to alpha; the canonicity gate forces A < p, by cases on its top bit |

Status of each property is in `MANIFEST.json`; deviations and findings are recorded below
as the work proceeds.

## Trusted base

* Coq 8.16.1's kernel (`coqc`, rechecked with `coqchk`) and, for the examples that use
  `vm_compute`, its virtual machine in `coqc` (`coqchk` re-evaluates them without it).
* Every property theorem is followed by `Print Assumptions` in its `P_*.v` file.  Each of them
  answers "Closed under the global context": no axiom at all, neither ours nor the standard
  library's.  There is no per-theorem exception.
* `coqchk` reports 38 constants of `mathcomp.*` and `Coq.ssr.*` as "axioms".  They are the fields
  of MathComp's sealed modules (`Imset.imsetE`, `BigOp.bigopE`, ...): inside those libraries each
  is a definition with a body, hidden by the module's signature.
* Section variables are used for what is external (hash functions, random choices, curve
  encodings).  After the section closes they are universally quantified in the statement.
* The model itself: that the Gallina definitions say what the Rust code does is checked by
  reading, by the executable examples (`Example`, `Check` by `vm_compute`), and by seeding bugs
  (`seeded/LOG.jsonl`).

### Modelled

* `halo2_proofs/src/arithmetic.rs` (multiexp, FFT, polynomial helpers), `poly.rs`,
  `poly/{domain,evaluator,commitment,multiopen}.rs` and their submodules, `transcript.rs`;
* `plonk/{assigned,circuit,error,keygen,permutation,lookup,vanishing,prover,verifier}.rs` with
  submodules, `plonk/circuit/compress_selectors.rs`, `plonk/verifier/batch.rs`;
* `circuit.rs` (Region, Layouter calls as data), `circuit/value.rs`, `circuit/table_layouter.rs`,
  `circuit/floor_planner/single_pass.rs`, `circuit/floor_planner/v1.rs` and `v1/strategy.rs`;
* `dev.rs`: `MockProver::run` and `verify` (without the texts of the failures);
* `halo2_poseidon` (permutation, sponge, domains, MDS generation) and the Poseidon chip;
* `halo2_gadgets`: utilities, `decompose_running_sum`, `lookup_range_check` (both variants),
  `cond_swap`, the ECC chip's witness point, incomplete and complete addition, variable-base
  multiplication, fixed-base multiplication by a full-width and by a short signed scalar
  and by a base-field element; the Sinsemilla chip, its
  commitments and the Merkle path gadget.

### Not modelled

* The curve and field crates (`pasta_curves`, `ff`, `group`): a prime field is any field with the
  listed constants, a prime-order group is any module over it.  Their canonical encodings are
  parameters with the laws stated in each theorem.
* Blake2b, the RNG and rayon's scheduler: arbitrary functions, values and reduction trees.
* Zero knowledge, and the computational soundness of the commitment scheme (discrete logarithm):
  the theorems about a cheating prover are about polynomials and exceptional challenges.
* Overflow of `usize`, running out of memory, `Debug`/`Display` output, the graph and cost
  back-ends in `dev`.
* `find_zs_and_us` (the search for z and u), and the SHA-256 gadgets; of Sinsemilla, the
  extra tag column of the 4/5-bit lookup table.

## Findings

Behaviour of the code that a reader of its documentation would not expect.  Where a theorem
establishes it, its name is given.

1. **Variable-base multiplication does not constrain its base** (`ecc/chip/mul/incomplete.rs`).
   `double_and_add` assigns `x_p`, `y_p` with `assign_advice` instead of copying them from `base`,
   and the gates only force them to stay the same from row to row.  The constraints laid down
   do not depend on the base at all (`C50_incomplete_base_free`), and a table over a small curve
   meets every constraint of `mul` while returning a point other than [alpha] base
   (`C50_mul_sound_refuted`).  If the first row of each block does hold the base, the result is
   [alpha] base (`C50_mul_sound_partial`).
2. `lagrange_interpolate` is documented to panic on repeated points; it does not (C07).
3. `extended_to_coeff` truncates to the empty polynomial when the quotient degree is 1 (C04).
4. The chunked evaluator panics on a linear term when `chunk_size` is 1 (C08).
5. Continuing a transcript after `common_point` refused the identity makes two different
   histories collide (C19).
6. `compute_s` and `use_challenges` panic for k = 0 (C13, C15).
7. `construct_intermediate_sets` refuses every repeated query, not only conflicting ones (C16); the
   multiopen verifier panics when `x_3` is one of the queried points, and the prover panics on an
   empty query list or when a point set has more than n points (C17).
8. `parallelize` and `kate_division` panic on empty input; `Params::read` shifts by an unchecked k.
9. A lookup with no columns panics in the prover.
10. `Expression::Sum` is a public constructor that bypasses the operators' check on simple
    selectors, and selector compression then changes the expression's meaning
    (`C22_raw_sum_not_preserved`).
11. `cond_swap`'s `mux` copies into columns that `configure` did not enable for equality.
12. The running-sum decomposition panics, only when the value is known, if the number of windows
    is too small for the word.
13. Poseidon's `Hash` over `ConstantLength<0>` panics (C42).  The Pow5 chip computes x^5 whatever
    S-box the specification `S` defines (C46).
14. The verifier panics if the challenge x satisfies x^n = 1.
15. `Table::assign_cell` is documented to refuse a cell that has already been assigned; it does so
    for row 0 only (`C35_reassign_refuted`).  A table that exactly fills the usable rows is refused
    (`C35_needs_spare_row`).
16. `MockProver::query_instance` answers 0 for a row past the provided instance values, where the
    prover's `WitnessCollection` returns `BoundsFailure`; a circuit can therefore pass `verify` and
    fail to prove (`C40_padding_refuted`).
17. `MockProver`'s permutation check distinguishes a cell that was never assigned from one that
    holds 0; the real table does not (`C39_unassigned_refuted`).
18. `MockProver::verify` panics (`r.rows.unwrap()`) when a region enables a selector and assigns no
    cell (`C40_verify_panics`, run in `Ex_Mock`).
19. `hash_to_point` accepts a message with no pieces and then leaves the y-coordinate of its result
    unconstrained: any value can be returned (`C54_empty_message_refuted`).  The documentation
    (`chip/hash_to_point.rs`) does not exclude it; `HashDomain::hash` returns only the x-coordinate.
