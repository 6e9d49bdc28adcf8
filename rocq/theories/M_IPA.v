(* Model of halo2_proofs/src/poly/commitment/prover.rs (create_proof) and verifier.rs
   (verify_proof, Guard, compute_b, compute_s): the inner product argument. *)
Set Warnings "-notation-overridden,-ambiguous-paths".
From mathcomp Require Import all_ssreflect all_algebra.
From Verif Require Import Util M_FFT M_Multiexp M_Poly M_Domain M_Env M_Transcript M_Commit.
Import GRing.Theory.
Set Implicit Arguments.
Unset Strict Implicit.
Local Open Scope ring_scope.

(* draw n field elements in order *)
Definition draws (F B : fieldType) (G : lmodType F) (E : env B G) (n : nat) : W (seq F) :=
  mmap (fun _ => draw (E := E)) (iota 0 n).

Section IPA.
Variables (F B : fieldType) (G : lmodType F) (E : env B G) (ps : params G).

(* poly[0] -= x; indexing an empty vector panics *)
Definition sub_const (p : seq F) (x : F) : option (seq F) :=
  if p is c :: p' then Some (c - x :: p') else None.

(* prover.rs:154-167 parallel_generator_collapse, followed by truncate(half) (line 139) *)
Definition generator_collapse (g : seq G) (challenge : F) : option (seq G) :=
  let len := (size g)./2 in
  parallelize (e_threads E) (take len g)
    (fun lo start => [seq q.1 + challenge *: q.2 | q <- zip lo (drop start (drop len g))]).

(* prover.rs:99-144: the rounds of create_proof, [j] of them left; returns (c, f).
   The in-place updates of p_prime and b index 0..2*half. *)
Fixpoint ipa_rounds (z : F) (j : nat) (p_prime b : seq F) (g_prime : seq G) (f : F) : W (seq F * F) :=
  if j is j'.+1 then
    let half := (2 ^ j')%N in
    let! l := mlift (unwrap (multiexp E (drop half p_prime) (take half g_prime))) in
    let! r := mlift (unwrap (multiexp E (take half p_prime) (drop half g_prime))) in
    let! value_l := mlift (unwrap (compute_inner_product (drop half p_prime) (take half b))) in
    let! value_r := mlift (unwrap (compute_inner_product (take half p_prime) (drop half b))) in
    let! l_rand := draw (E := E) in
    let! r_rand := draw (E := E) in
    let! l' := mlift (unwrap (multiexp E [:: value_l * z; l_rand] [:: p_u ps; p_w ps])) in
    let! r' := mlift (unwrap (multiexp E [:: value_r * z; r_rand] [:: p_u ps; p_w ps])) in
    let l_j := l + l' in
    let r_j := r + r' in
    write_point E l_j ;;;
    write_point E r_j ;;;
    let! u_j := w_squeeze E in
    if u_j == 0 then mlift Panic else                        (* invert().unwrap() *)
    let u_j_inv := u_j^-1 in
    let p_prime := [seq p_prime`_i + p_prime`_(i + half) * u_j_inv | i <- iota 0 half] in
    let b := [seq b`_i + b`_(i + half) * u_j | i <- iota 0 half] in
    let! g_prime := mlift (unwrap (generator_collapse g_prime u_j)) in
    ipa_rounds z j' p_prime b g_prime (f + l_rand * u_j_inv + r_rand * u_j)
  else mret (p_prime, f).

(* prover.rs:27-152 create_proof *)
Definition ipa_create_proof (p_poly : seq F) (p_blind x_3 : F) : W unit :=
  if size p_poly != p_n ps then mlift Panic else             (* assert_eq *)
  let! s_poly := draws E (size p_poly) in
  let s_at_x3 := eval_polynomial s_poly x_3 in
  let! s_poly := mlift (unwrap (sub_const s_poly s_at_x3)) in
  let! s_poly_blind := draw (E := E) in
  let! s_poly_commitment := mlift (unwrap (commit E ps s_poly s_poly_blind)) in
  write_point E s_poly_commitment ;;;
  let! xi := w_squeeze E in
  let! z := w_squeeze E in
  let! p_prime_poly := mlift (unwrap (obind (fun a => poly_add (e_threads E) a p_poly)
                                            (poly_scale (e_threads E) s_poly xi))) in
  let v := eval_polynomial p_prime_poly x_3 in
  let! p_prime := mlift (unwrap (sub_const p_prime_poly v)) in
  let f := s_poly_blind * xi + p_blind in
  if size p_prime != p_n ps then mlift Panic else            (* assert_eq *)
  let b := traject (fun cur => cur * x_3) 1 (2 ^ p_k ps) in
  let! res := ipa_rounds z (p_k ps) p_prime b (p_g ps) f in
  if res.1 is [:: c] then                                    (* assert_eq!(len, 1) *)
    write_scalar E c ;;; write_scalar E res.2
  else mlift Panic.

(* verifier.rs:145-153 compute_b *)
Definition compute_b (x : F) (u : seq F) : F :=
  (foldl (fun st u_j => (st.1 * (1 + u_j * st.2), st.2 * st.2)) (1, x) (rev u)).1.

(* verifier.rs:156-172 compute_s *)
Definition s_step (v : seq F) (iu : nat * F) : seq F :=
  let len := (2 ^ iu.1)%N in
  let left := take len v in
  left ++ [seq x * iu.2 | x <- left] ++ drop (len + len) v.
Definition compute_s (u : seq F) (init : F) : option (seq F) :=
  if u is [::] then None else
  Some (foldl s_step (set_nth 0 (nseq (2 ^ size u) 0) 0 init) (zip (iota 0 (size u)) (rev u))).

(* verifier.rs:14-19 struct Guard *)
Record guard := Guard { gd_msm : msm F B; gd_neg_c : F; gd_u : seq F; gd_packed : seq (seq nat) }.

(* verifier.rs:35-40 use_challenges *)
Definition use_challenges (gd : guard) : option (msm F B) :=
  obind (add_to_g_scalars ps (gd_msm gd)) (compute_s (gd_u gd) (gd_neg_c gd)).
(* verifier.rs:44-53 use_g (the accumulator is (g, u_packed)) *)
Definition use_g (gd : guard) (g : G) : option (msm F B * (G * seq (seq nat))) :=
  omap (fun m => (m, (g, gd_packed gd))) (append_term E (gd_msm gd) (gd_neg_c gd) g).
(* verifier.rs:56-60 compute_g *)
Definition compute_g (gd : guard) : option G :=
  obind (fun s => multiexp E s (p_g ps)) (compute_s (gd_u gd) 1).

(* verifier.rs:84-94: one round *)
Definition read_round : R (G * G * F * seq nat) :=
  let! l := mmap_err EOpening (read_point E) in
  let! r := mmap_err EOpening (read_point E) in
  let! packed := r_squeeze_encoded E in
  let! u_j := mlift (challenge_scalar E packed) in
  mret (l, r, u_j, packed).

(* verifier.rs:66-142 verify_proof *)
Definition ipa_verify_proof (m : msm F B) (x v : F) : R guard :=
  let! m := mlift (unwrap (add_constant_term ps m (- v))) in
  let! s_poly_commitment := mmap_err EOpening (read_point E) in
  let! xi := r_squeeze E in
  let! m := mlift (unwrap (append_term E m xi s_poly_commitment)) in
  let! z := r_squeeze E in
  let! rounds := mmap (fun _ => read_round) (iota 0 (p_k ps)) in
  let invs := batch_invert [seq r.1.2 | r <- rounds] in
  let! m := mlift (unwrap (foldl (fun om (ri : (G * G * F * seq nat) * F) =>
      let: ((l, r, u_j, _), u_j_inv) := ri in
      obind (fun m => append_term E m u_j r) (obind (fun m => append_term E m u_j_inv l) om))
    (Some m) (zip rounds invs))) in
  let u := [seq r.1.2 | r <- rounds] in
  let! c := mmap_err ESampling (read_scalar E) in
  let neg_c := - c in
  let! f := mmap_err ESampling (read_scalar E) in
  let b := compute_b x u in
  let m := add_to_u_scalar m (neg_c * b * z) in
  let m := add_to_w_scalar m (- f) in
  mret {| gd_msm := m; gd_neg_c := neg_c; gd_u := u; gd_packed := [seq r.2 | r <- rounds] |}.
End IPA.
Arguments gd_u {F B}. Arguments gd_msm {F B}. Arguments gd_neg_c {F B}. Arguments gd_packed {F B}.
