(* The keys and queries shared by the models of the PLONK arguments:
   halo2_proofs/src/plonk.rs (VerifyingKey, ProvingKey), the identities of the objects a
   proof opens, and Expression::evaluate as the prover and the verifier call it.
   Panics are [None]. *)
Set Warnings "-notation-overridden,-ambiguous-paths".
From mathcomp Require Import all_ssreflect all_algebra.
From Verif Require Import Util M_Poly M_Domain M_Evaluator M_Env M_Transcript M_Commit M_Multiopen M_Circuit
  M_Selectors.
Import GRing.Theory.
Set Implicit Arguments.
Unset Strict Implicit.
Local Open Scope ring_scope.

(* The multi-point opening compares references with std::ptr::eq: a commitment or a
   polynomial is identified by what it belongs to, (kind, proof, index).  Kinds:
   0 instance, 1 advice, 2 permutation product, 3 lookup product, 4 permuted input,
   5 permuted table, 6 fixed, 7 permutation (sigma), 8 h, 9 random. *)
Definition qkey := (nat * (nat * nat))%type.
Definition qkey_eqType := [eqType of qkey].

(* i32 rotations *)
Definition rot_next : int := 1.
Definition rot_prev : int := -1.
Definition rot_last (blinding_factors : nat) : int := - ((blinding_factors + 1)%N%:Z).

Section Keys.
Variables (F : fieldType) (G : lmodType F).

(* plonk.rs:38-48 VerifyingKey; permutation.rs:72-76 *)
Record vkey := VKey {
  vk_domain : domain F;
  vk_fixed_commitments : seq G;
  vk_permutation : seq G;
  vk_cs : cs F;
  vk_cs_degree : nat;
  vk_transcript_repr : F }.

(* plonk.rs:119-131 ProvingKey; permutation.rs:78-84 *)
Record pkey := PKey {
  pk_vk : vkey;
  pk_l0 : seq F; pk_l_blind : seq F; pk_l_last : seq F;
  pk_fixed_values : seq (seq F); pk_fixed_polys : seq (seq F); pk_fixed_cosets : seq (seq F);
  pk_permutations : seq (seq F); pk_perm_polys : seq (seq F); pk_perm_cosets : seq (seq F) }.

(* match column.column_type() { Any::Advice => advice[i], .. } *)
Definition any_of {T : Type} (advice fixed instance : seq T) (c : column) : option T :=
  get (match c.1 with Advice => advice | Fixed => fixed | Instance => instance end) c.2.

(* prover.rs:560-590 and lookup/prover.rs:109-165: Expression::evaluate to an Ast; a leaf is the index
   of a registered polynomial *)
Definition expr_ast (advice fixed instance : seq nat) : expr F -> option (ast F) :=
  expr_eval (fun c => Some (AConstantTerm c)) (fun _ _ => None)
    (fun _ c r => omap (fun l => APoly l r) (get fixed c))
    (fun _ c r => omap (fun l => APoly l r) (get advice c))
    (fun _ c r => omap (fun l => APoly l r) (get instance c))
    (omap (@ast_neg F)) (fun a b => obind (fun a => omap (AAdd a) b) a)
    (fun a b => obind (fun a => omap (AMul a) b) a) (fun a s => omap (fun a => AScale a s) a).

(* verifier.rs:215-230 and lookup/verifier.rs:123-136: Expression::evaluate to a scalar *)
Definition expr_val (advice_evals fixed_evals instance_evals : seq F) : expr F -> option F :=
  expr_eval Some (fun _ _ => None)
    (fun i _ _ => get fixed_evals i) (fun i _ _ => get advice_evals i)
    (fun i _ _ => get instance_evals i)
    (omap -%R) (fun a b => obind (fun a => omap (+%R a) b) a)
    (fun a b => obind (fun a => omap ( *%R a) b) a) (fun a s => omap (fun a => a * s) a).
End Keys.

(* evaluator.rs:117-126 register_poly: the new list and the leaf's index *)
Definition register {T : Type} (polys : seq T) (p : T) : seq T * nat := (rcons polys p, size polys).
(* .iter().map(|p| evaluator.register_poly(p.clone())).collect() *)
Definition register_all {T : Type} (polys ps : seq T) : seq T * seq nat :=
  (polys ++ ps, iota (size polys) (size ps)).
