(* A concrete circuit over F_97: an advice column a, an instance column and a table column,
   a selected gate s * (a^2 - a), a lookup of a in the table and a copy constraint between
   a[1] and the first public input.  Its keys, and proofs for it. *)
Set Warnings "-notation-overridden,-ambiguous-paths".
From mathcomp Require Import all_ssreflect all_algebra.
From Verif Require Import Util M_Poly M_Domain M_Assigned M_Env M_Transcript M_Commit M_Circuit M_Selectors M_Copy
  M_Value M_Keys M_Permutation M_Plonk M_Assign M_Keygen Ex_Field Ex_Env.
Import GRing.Theory.
Set Implicit Arguments.
Unset Strict Implicit.
Local Open Scope ring_scope.

Definition cs97 : option (cs F97) :=
  let m := cs_default F97 in
  let: (m, a) := advice_column m in
  let: (m, i) := M_Circuit.instance_column m in
  let: (m, t) := fixed_column m in
  let: (m, s) := new_selector m true in
  obind (fun m => obind (fun m =>
  obind (fun mq : cs F97 * nat => let: (m, q) := mq in
  let ea := EAdvice F97 q a 0 in
  obind (fun m => omap fst (add_lookup m [:: (ea, t)]))
    (create_gate m (Gate [:: EProduct (ESelector F97 s.1 true) (ESum (EProduct ea ea) (ENegated ea))] [:: s] [:: ((Advice, a), 0)])))
  (query_advice_index m a 0))
  (enable_equality m (Instance, i))) (enable_equality m (Advice, a)).

Definition kn (x : F97) : value (assigned F97) := known (ATrivial x).
(* the synthesis, with the witness a = (b0, b1) *)
Definition synth97 (b0 b1 : F97) : synth F97 :=
  SOp (AEnable F97 0 0) (SOp (AAdvice 0 0 (kn b0)) (SOp (AAdvice 0 1 (kn b1))
  (SOp (ACopy F97 (Advice, 0%N) 1 (Instance, 0%N) 0)
  (SOp (AFixed 0 0 (kn 0)) (SOp (AFixed 0 1 (kn 1)) (SDone F97)))))).

Definition digest97 (d : domain F97) (fc p : seq G97) (m : cs F97) : F97 := 17%:R.
Definition keys97 : option (params G97 * pkey G97) :=
  if params_new E97 3 is Some ps then
  if cs97 is Some m then
  if keygen_vk E97 ps digest97 m (synth97 0 0) is Ok vk then
  if keygen_pk E97 ps vk m (synth97 0 0) is Ok pk then Some (ps, pk) else None else None else None else None.

(* the proof that a = (b0, b1) is a witness for the public input i, and the verifier's verdict; r is the
   state of the generator of random scalars *)
Definition proof97 (r : nat) (b0 b1 i : F97) : option (seq nat) :=
  obind (fun k : params G97 * pkey G97 =>
    if create_proof E97 k.1 k.2 [:: synthesize k.1 (pk_vk k.2) (synth97 b0 b1) [:: [:: i]]] [:: [:: [:: i]]]
         (Wst [::] [::] r) is Ok (_, s) then Some (w_out s) else None) keys97.
Definition verdict97 (i : F97) (proof : seq nat) : option (res unit) :=
  omap (fun k : params G97 * pkey G97 =>
    rbind (verify_proof E97 k.1 (pk_vk k.2) [:: [:: [:: i]]] (Rst [::] proof)) (fun q => Ok q.1)) keys97.

(* The four runs below are checked by the virtual machine when this file is compiled. They are `Check's and not
   theorems because coqchk, which has no virtual machine, needs minutes for each of them. *)
(* a satisfied circuit: the proof is accepted *)
Check (ltac:(vm_compute; reflexivity) : obind (verdict97 1) (proof97 1 0 1 1) = Some (Ok tt)).
(* the same proof does not verify for another public input *)
Check (ltac:(vm_compute; reflexivity) : obind (verdict97 0) (proof97 1 0 1 1) = Some (Err EConstraintSystemFailure)).
(* a[1] differs from the public input: a proof comes out, and is rejected *)
Check (ltac:(vm_compute; reflexivity) : obind (verdict97 0) (proof97 2 0 1 0) = Some (Err EConstraintSystemFailure)).
(* a[0] is not in the table: there is no proof *)
Check (ltac:(vm_compute; reflexivity) : proof97 1 2%:R 1 1 = None).
