(* Model of halo2_proofs/src/plonk/keygen.rs:25-44 and 188-345 (create_domain, keygen_vk,
   keygen_pk), of plonk.rs:51-92 (VerifyingKey::from_parts), and of the synthesis of the
   witness in prover.rs:258-277.

   A circuit is given by the constraint system its `configure' builds and by the synthesis its
   floor planner runs; [kg] is the synthesis of the circuit given to key generation. *)
Set Warnings "-notation-overridden,-ambiguous-paths".
From mathcomp Require Import all_ssreflect all_algebra.
From Verif Require Import Util M_Poly M_Domain M_Assigned M_Env M_Transcript M_Commit M_Circuit M_Selectors M_Copy
  M_Value M_Keys M_Permutation M_Plonk M_Assign.
Import GRing.Theory.
Set Implicit Arguments.
Unset Strict Implicit.
Local Open Scope ring_scope.

Section Keygen.
Variables (F B : fieldType) (G : lmodType F) (E : env B G) (ps : params G).
Notation threads := (e_threads E).
(* plonk.rs:72-88: the digest of the Debug rendering of the pinned key *)
Variable digest : domain F -> seq G -> seq G -> cs F -> F.

(* keygen.rs:25-44 create_domain; None: cs.degree() or EvaluationDomain::new panics *)
Definition create_domain (m : cs F) : option (domain F) :=
  obind (fun degree => domain_new (e_rou E) (e_zeta E) (e_S E) degree (p_k ps)) (cs_degree m).

(* vec![v; n]; domain.rs:190-195 empty_lagrange_assigned *)
Definition empty_assigned (n columns : nat) : seq (seq (assigned F)) :=
  nseq columns (nseq n (ATrivial 0)).

(* keygen.rs:200-224 and 259-283: the assembly, then the floor planner *)
Definition assemble (d : domain F) (m : cs F) (kg : synth F) : res (kassembly F) :=
  if (p_n ps < minimum_rows m)%N then Err ENotEnoughRows else
  rbind (usable_rows (p_n ps) m) (fun u =>
  keygen_run u kg (KAssembly (empty_assigned (d_n d) (num_fixed m)) (assembly_new (p_n ps) (permutation m))
                    (nseq (num_selectors m) (nseq (p_n ps) false)))).

(* keygen.rs:226-233 and 285-292: the values of the fixed columns, those of the selectors
   last, and the constraint system without selectors.  lagrange_from_vec asserts the length. *)
Definition fixed_columns (d : domain F) (m : cs F) (a : kassembly F) : option (seq (seq F) * cs F) :=
  obind (fun fixed => obind (fun ms : cs F * seq (seq F) =>
    if all (fun p => size p == d_n d) ms.2 then Some (fixed ++ ms.2, ms.1) else None)
    (compress_selectors m (ka_selectors a)))
  (batch_invert_assigned (ka_fixed a)).

(* plonk.rs:55-92 VerifyingKey::from_parts *)
Definition vk_from_parts (d : domain F) (fixed_commitments permutation : seq G) (m : cs F) : option (vkey G) :=
  omap (fun degree => VKey d fixed_commitments permutation m degree (digest d fixed_commitments permutation m))
    (cs_degree m).

(* keygen.rs:188-243 keygen_vk *)
Definition keygen_vk (m : cs F) (kg : synth F) : res (vkey G) :=
  rbind (unwrap (create_domain m)) (fun d =>
  rbind (assemble d m kg) (fun a =>
  unwrap (obind (fun fm : seq (seq F) * cs F =>
    obind (fun permutation =>
    obind (fun fixed_commitments => vk_from_parts d fixed_commitments permutation fm.2)
      (sequence [seq commit_lagrange E ps p (blind_default F) | p <- fm.1]))
      (perm_build_vk E ps d (a_mapping (ka_perm a)) (size (M_Circuit.permutation fm.2))))
    (fixed_columns d m a)))).

(* lagrange_to_coeff then coeff_to_extended *)
Definition to_coset (d : domain F) (values : seq F) : option (seq F) :=
  obind (coeff_to_extended threads d) (lagrange_to_coeff threads d values).

(* keygen.rs:307-313 l_0 *)
Definition l0_values (n : nat) : seq F := upd (nseq n 0) 0 1.
(* keygen.rs:315-322 l_blind: the last blinding_factors entries *)
Definition l_blind_values (n bf : nat) : seq F := nseq (n - bf) 0 ++ nseq (minn bf n) 1.
(* keygen.rs:324-329 l_last *)
Definition l_last_values (n bf : nat) : option (seq F) :=
  if (bf + 1 <= n)%N then Some (upd (nseq n 0) (n - bf - 1) 1) else None.

(* keygen.rs:245-345 keygen_pk *)
Definition keygen_pk (vk : vkey G) (m : cs F) (kg : synth F) : res (pkey G) :=
  let d := vk_domain vk in
  rbind (assemble d m kg) (fun a =>
  unwrap (obind (fun fm : seq (seq F) * cs F =>
    let bf := blinding_factors fm.2 in
    obind (fun fixed_polys =>
    obind (fun fixed_cosets =>
    obind (fun perm : seq (seq F) * seq (seq F) * seq (seq F) =>
    obind (fun l0 => obind (fun l_blind => omap (fun l_last =>
      PKey vk l0 l_blind l_last fm.1 fixed_polys fixed_cosets perm.1.1 perm.1.2 perm.2)
      (obind (to_coset d) (l_last_values (p_n ps) bf)))
      (to_coset d (l_blind_values (d_n d) bf)))
      (if (0 < d_n d)%N then to_coset d (l0_values (d_n d)) else None))
      (perm_build_pk E ps d (a_mapping (ka_perm a)) (size (M_Circuit.permutation fm.2))))
      (sequence [seq coeff_to_extended threads d p | p <- fixed_polys]))
      (sequence [seq lagrange_to_coeff threads d p | p <- fm.1]))
    (fixed_columns d m a))).

(* prover.rs:256-287: the outcome of the synthesis of one circuit, as M_Plonk.commit_advice
   takes it *)
Definition synthesize (vk : vkey G) (p : synth F) (instances : seq (seq F)) : res (seq (seq F)) :=
  let m := vk_cs vk in
  rbind (usable_rows (p_n ps) m) (fun u =>
  rbind (witness_run u instances p (empty_assigned (d_n (vk_domain vk)) (num_advice m))) (fun advice =>
  unwrap (batch_invert_assigned advice))).
End Keygen.
