(* Model of halo2_proofs/src/plonk/vanishing/prover.rs and vanishing/verifier.rs.
   Panics are Panic. *)
Set Warnings "-notation-overridden,-ambiguous-paths".
From mathcomp Require Import all_ssreflect all_algebra.
From Verif Require Import Util M_Poly M_Domain M_Evaluator M_Assigned M_Env M_Transcript M_Commit M_Multiopen
  M_Circuit M_Keys.
Import GRing.Theory.
Set Implicit Arguments.
Unset Strict Implicit.
Local Open Scope ring_scope.

Section Vanishing.
Variables (F B : fieldType) (G : lmodType F) (E : env B G) (ps : params G).
Notation threads := (e_threads E).

(* prover.rs:20-23 Committed *)
Record vcommitted := VCommitted { vc_random_poly : seq F; vc_random_blind : F }.

(* prover.rs:37-60 Argument::commit *)
Definition vanishing_commit (d : domain F) : W vcommitted :=
  let! random_poly := mmap (fun _ => draw (E := E)) (iota 0 (d_n d)) in
  let! random_blind := draw (E := E) in
  let! c := mlift (unwrap (commit E ps random_poly random_blind)) in
  write_point E c ;;;
  mret (VCommitted random_poly random_blind).

(* slice::chunks_exact (std); a chunk size of 0 panics *)
Definition chunks_exact {T : Type} (len : nat) (s : seq T) : option (seq (seq T)) :=
  if len == 0%N then None else Some [seq c <- chunks len s | size c == len].

(* prover.rs:25-29 Constructed *)
Record vconstructed := VConstructed {
  vn_pieces : seq (seq F); vn_blinds : seq F; vn_committed : vcommitted }.

(* prover.rs:63-121 Committed::construct; [polys] are the polynomials registered with the
   evaluator; coeff_from_vec (domain.rs:157-164) asserts the length.  batch_normalize changes
   the representation of points only. *)
Definition vanishing_construct (d : domain F) (polys : seq (seq F)) (expressions : seq (ast F))
    (y : F) (c : vcommitted) : W vconstructed :=
  let h_poly := ADistributePowers expressions y in
  let! h_poly := mlift (unwrap (evaluate (e_zeta E) d threads ExtendedLagrangeCoeff polys h_poly)) in
  let! h_poly := mlift (unwrap (divide_by_vanishing_poly threads d h_poly)) in
  let! h_poly := mlift (unwrap (extended_to_coeff threads d h_poly)) in
  let! h_pieces := mlift (unwrap (chunks_exact (p_n ps) h_poly)) in
  if ~~ all (fun p => size p == d_n d) h_pieces then mlift Panic else
  let! h_blinds := mmap (fun _ => draw (E := E)) h_pieces in
  let! h_commitments := mlift (unwrap (sequence [seq commit E ps pb.1 pb.2 | pb <- zip h_pieces h_blinds])) in
  mmap (write_point E) h_commitments ;;;
  mret (VConstructed h_pieces h_blinds c).

(* prover.rs:31-35 Evaluated *)
Record vevaluated := VEvaluated { ve_poly : seq F; ve_blind : F; ve_committed : vcommitted }.

(* prover.rs:123-153 Constructed::evaluate *)
Definition vanishing_evaluate (d : domain F) (x xn : F) (c : vconstructed) : W vevaluated :=
  let! h_poly := mlift (unwrap (foldl (fun acc eval =>
      obind (fun acc => obind (fun a => poly_add threads a eval) (poly_scale threads acc xn)) acc)
    (Some (nseq (d_n d) 0)) (rev (vn_pieces c)))) in
  let h_blind := foldl (fun acc eval => acc * xn + eval) 0 (rev (vn_blinds c)) in
  let random_eval := eval_polynomial (vc_random_poly (vn_committed c)) x in
  write_scalar E random_eval ;;;
  mret (VEvaluated h_poly h_blind (vn_committed c)).

(* prover.rs:155-173 Evaluated::open *)
Definition vanishing_open (x : F) (c : vevaluated) : seq (pquery F qkey_eqType) :=
  [:: Query (8, (0, 0))%N (ve_poly c, ve_blind c) x tt;
      Query (9, (0, 0))%N (vc_random_poly (ve_committed c), vc_random_blind (ve_committed c)) x tt].

(* verifier.rs:41-51 read_commitments_before_y *)
Definition vanishing_read_before_y : R G := read_point E.
(* verifier.rs:55-71 read_commitments_after_y *)
Definition vanishing_read_after_y (vk : vkey G) : R (seq G) := read_n_points E (d_qd (vk_domain vk)).
(* verifier.rs:74-87 evaluate_after_x *)
Definition vanishing_read_eval : R F := read_scalar E.

(* verifier.rs:33-38 Evaluated *)
Record vverified := VVerified {
  vv_h_commitment : msm F B; vv_random_commitment : G; vv_expected_h_eval : F; vv_random_eval : F }.

(* verifier.rs:97-98 expected_h_eval; invert().unwrap() *)
Definition expected_h_eval (expressions : seq F) (y xn : F) : option F :=
  let h_eval := foldl (fun h_eval v => h_eval * y + v) 0 expressions in
  if xn - 1 == 0 then None else Some (h_eval * (xn - 1)^-1).
(* verifier.rs:100-108 h_commitment *)
Definition h_commitment_msm (h_commitments : seq G) (xn : F) : option (msm F B) :=
  foldl (fun acc c => obind (fun acc => append_term E (msm_scale acc xn) 1 c) acc)
    (Some msm_new) (rev h_commitments).
(* verifier.rs:89-117 verify *)
Definition vanishing_verify (h_commitments : seq G) (random_commitment : G) (random_eval : F)
    (expressions : seq F) (y xn : F) : option vverified :=
  obind (fun e => omap (fun h => VVerified h random_commitment e random_eval)
    (h_commitment_msm h_commitments xn)) (expected_h_eval expressions y xn).

(* verifier.rs:119-141 queries *)
Definition vanishing_queries (x : F) (v : vverified) : seq (vquery B G qkey_eqType) :=
  [:: Query (8, (0, 0))%N (CMsm G (vv_h_commitment v)) x (vv_expected_h_eval v);
      Query (9, (0, 0))%N (CCommitment B (vv_random_commitment v)) x (vv_random_eval v)].
End Vanishing.
