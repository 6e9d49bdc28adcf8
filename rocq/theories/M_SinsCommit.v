(* Model of CommitDomain: halo2_gadgets/src/sinsemilla.rs:401-521.

   A CommitDomain is the hash domain's initial point Q and the fixed base R.  The chips are given by their configurations;
   the scalar r is the value inside ScalarFixed::new, which assigns no cell (ecc.rs:232-245, ecc/chip.rs:504-514).  The assertion that the message
   was made for the same chip is dropped: the model has one chip. *)
Set Warnings "-notation-overridden,-ambiguous-paths".
From mathcomp Require Import all_ssreflect all_algebra.
From Verif Require Import Util M_Env M_Assigned M_Circuit M_Selectors M_Value M_Region M_Layout M_Utilities M_Poly M_Ecc M_EccMul S_Curve
  M_Sinsemilla M_EccFixed.
Import GRing.Theory.
Set Implicit Arguments.
Unset Strict Implicit.

Section Commit.
Variables (F : fieldType) (pf : prime_field F) (Fs : fieldType) (pfs : prime_field Fs) (q wb nw K : nat) (gens : seq (F * F)).
Variables (sc : sins_config) (fc : full_config) (Q : option (F * F)) (R : fixed_point F).
(* sinsemilla.rs:470-482 blinding_factor *)
Definition blinding_factor (r : value Fs) : lprog F (ecpoint F) :=
  let* b := mul_fixed_full pf pfs q wb nw fc r R in
  LRet b.1.
(* sinsemilla.rs:484-505 commit *)
Definition commit (message : seq (piece F)) (r : value Fs) : lprog F (ecpoint F * seq (seq (acell F))) :=
  let* b := mul_fixed_full pf pfs q wb nw fc r R in
  let* h := hash_to_point pf K gens sc Q message in
  let* s := ecc_add (fx_add (fu_super fc)) h.1 b.1 in
  LRet (s, h.2).
(* sinsemilla.rs:507-520 short_commit *)
Definition short_commit (message : seq (piece F)) (r : value Fs) : lprog F (acell F * seq (seq (acell F))) :=
  let* t := commit message r in
  LRet (ecc_extract_p t.1, t.2).
End Commit.
