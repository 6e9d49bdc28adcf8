(* Model of halo2_proofs/src/plonk/prover.rs (create_proof), plonk/verifier.rs (verify_proof,
   SingleVerifier) and of VerifyingKey::hash_into (plonk.rs:93-103).  Panics are Panic. *)
Set Warnings "-notation-overridden,-ambiguous-paths".
From mathcomp Require Import all_ssreflect all_algebra.
From Verif Require Import Util M_Poly M_Domain M_Evaluator M_Assigned M_Env M_Transcript M_Commit M_IPA M_Multiopen
  M_Circuit M_Selectors M_Keys M_Permutation M_Lookup M_Vanishing.
Import GRing.Theory.
Set Implicit Arguments.
Unset Strict Implicit.
Local Open Scope ring_scope.

(* collect::<Result<Vec<_>, _>>() *)
Fixpoint rmap {A C : Type} (f : A -> res C) (l : seq A) : res (seq C) :=
  if l is x :: l' then rbind (f x) (fun y => rbind (rmap f l') (fun ys => Ok (y :: ys))) else Ok [::].
(* the same with a state threaded through: the evaluator's registered polynomials *)
Fixpoint mmap_acc {S A C P : Type} (f : A -> P -> M S (C * P)) (l : seq A) (p : P) : M S (seq C * P) :=
  if l is x :: l' then
    let! r := f x p in
    let! rs := mmap_acc f l' r.2 in
    mret (r.1 :: rs.1, rs.2)
  else mret ([::], p).
(* registering a list of lists of polynomials: the leaves of each list *)
Fixpoint register_each {T : Type} (polys : seq T) (pss : seq (seq T)) : seq T * seq (seq nat) :=
  if pss is ps :: pss' then
    let: (polys, leaves) := register_all polys ps in
    let: (polys, rest) := register_each polys pss' in
    (polys, leaves :: rest)
  else (polys, [::]).
(* a zip of four lists *)
Definition zip4 {A C D H : Type} (a : seq A) (b : seq C) (c : seq D) (d : seq H) : seq (A * C * D * H) :=
  zip (zip (zip a b) c) d.

Section Plonk.
Variables (F B : fieldType) (G : lmodType F) (E : env B G) (ps : params G).
Notation threads := (e_threads E).

(* n - (blinding_factors + 1); a usize underflow panics *)
Definition usable_rows (n : nat) (m : cs F) : res nat :=
  if (blinding_factors m + 1 <= n)%N then Ok (n - (blinding_factors m + 1))%N else Panic.

(* ---------------------------------------------------------------- the prover *)

(* prover.rs:70-74 InstanceSingle *)
Record isingle := ISingle { is_values : seq (seq F); is_polys : seq (seq F); is_cosets : seq (seq F) }.

(* prover.rs:82-93: a column of public inputs, padded with zeros *)
Definition instance_column (d : domain F) (m : cs F) (values : seq F) : res (seq F) :=
  if d_n d != p_n ps then Panic else
  rbind (usable_rows (d_n d) m) (fun u =>
  if (u < size values)%N then Err EInstanceTooLarge else
  Ok (values ++ nseq (d_n d - size values) 0)).

(* prover.rs:76-125, one circuit *)
Definition commit_instance (d : domain F) (m : cs F) (instance : seq (seq F)) : W isingle :=
  let! values := mlift (rmap (instance_column d m) instance) in
  let! commitments := mlift (unwrap (sequence [seq commit_lagrange E ps v (blind_default F) | v <- values])) in
  mmap (w_common_point E) commitments ;;;
  let! polys := mlift (unwrap (sequence [seq lagrange_to_coeff threads d v | v <- values])) in
  let! cosets := mlift (unwrap (sequence [seq coeff_to_extended threads d p | p <- polys])) in
  mret (ISingle values polys cosets).

(* prover.rs:127-132 AdviceSingle *)
Record asingle := ASingle {
  as_values : seq (seq F); as_polys : seq (seq F); as_cosets : seq (seq F); as_blinds : seq F }.

(* prover.rs:289-294: the unusable cells of one column get random values *)
Definition blind_column (u : nat) (col : seq F) : W (seq F) :=
  let! rs := mmap (fun _ => draw (E := E)) (drop u col) in
  mret (take u col ++ rs).

(* prover.rs:134-337, one circuit; [synthesized] is the outcome of running the circuit's
   floor planner on the witness collection followed by batch_invert_assigned *)
Definition commit_advice (d : domain F) (m : cs F) (synthesized : res (seq (seq F))) : W asingle :=
  let! u := mlift (usable_rows (p_n ps) m) in
  let! advice := mlift synthesized in
  let! advice := mmap (blind_column u) advice in
  let! blinds := mmap (fun _ => draw (E := E)) advice in
  let! commitments := mlift (unwrap (sequence [seq commit_lagrange E ps vb.1 vb.2 | vb <- zip advice blinds])) in
  mmap (write_point E) commitments ;;;
  let! polys := mlift (unwrap (sequence [seq lagrange_to_coeff threads d v | v <- advice])) in
  let! cosets := mlift (unwrap (sequence [seq coeff_to_extended threads d p | p <- polys])) in
  mret (ASingle advice polys cosets blinds).

(* prover.rs:548-590: the gates of one circuit *)
Definition gate_asts (m : cs F) (advice fixed instance : seq nat) : option (seq (ast F)) :=
  sequence [seq expr_ast advice fixed instance e | e <- flatten [seq g_polys g | g <- gates m]].

(* prover.rs:611-660: the evaluations of the queried columns at the rotations of x;
   an index out of range panics *)
Definition query_evals (d : domain F) (x : F) (polys : seq (seq F)) (queries : seq (nat * int))
    : option (seq F) :=
  sequence [seq omap (fun p => eval_polynomial p (rotate_omega d x q.2)) (get polys q.1) | q <- queries].
Definition write_evals (evals : option (seq F)) : W unit :=
  let! es := mlift (unwrap evals) in
  mmap (write_scalar E) es ;;; mret tt.

(* prover.rs:699-715 and 735-745: the openings of the queried columns of one kind *)
Definition open_columns (d : domain F) (x : F) (kind proof : nat) (polys : seq (seq F)) (blinds : nat -> option F)
    (queries : seq (nat * int)) : option (seq (pquery F qkey_eqType)) :=
  sequence [seq obind (fun p => omap (fun b =>
     Query (kind, (proof, q.1))%N (p, b) (rotate_omega d x q.2) tt : pquery F qkey_eqType)
     (blinds q.1)) (get polys q.1) | q <- queries].

(* What create_proof has computed when it calls multiopen::create_proof.  The last field is
   its argument; the others are recorded so that theorems can refer to them. *)
Record ptrace := PTrace {
  pt_instance : seq isingle; pt_advice : seq asingle;
  pt_theta : F; pt_beta : F; pt_gamma : F; pt_y : F; pt_x : F;
  pt_permutations : seq (seq (pset F)); pt_lookups : seq (seq (lcommitted F));
  pt_polys : seq (seq F); pt_expressions : seq (ast F);
  pt_vanishing : vevaluated F;
  pt_queries : seq (pquery F qkey_eqType) }.

(* prover.rs:36-751 create_proof, up to the call of multiopen::create_proof.  circuits is the
   list of the outcomes of synthesis, see commit_advice. *)
Definition create_proof_trace (pk : pkey G) (circuits : seq (res (seq (seq F)))) (instances : seq (seq (seq F)))
    : W ptrace :=
  let vk := pk_vk pk in
  let m := vk_cs vk in
  let d := vk_domain vk in
  if size circuits != size instances then mlift (Err EInvalidInstances) else
  if ~~ all (fun i : seq (seq F) => size i == num_instance m) instances then mlift (Err EInvalidInstances) else
  w_common_scalar E (vk_transcript_repr vk) ;;;
  let! instance := mmap (commit_instance d m) instances in
  let! advice := mmap (fun ci => commit_advice d m ci.1) (zip circuits instances) in
  (* the value evaluator *)
  let: (vp, fixed_values) := register_all [::] (pk_fixed_values pk) in
  let: (vp, advice_values) := register_each vp [seq as_values a | a <- advice] in
  let: (vp, instance_values) := register_each vp [seq is_values i | i <- instance] in
  (* the coset evaluator *)
  let: (cp, fixed_cosets) := register_all [::] (pk_fixed_cosets pk) in
  let: (cp, advice_cosets) := register_each cp [seq as_cosets a | a <- advice] in
  let: (cp, instance_cosets) := register_each cp [seq is_cosets i | i <- instance] in
  let: (cp, permutation_cosets) := register_all cp (pk_perm_cosets pk) in
  let: (cp, l0) := register cp (pk_l0 pk) in
  let: (cp, l_blind) := register cp (pk_l_blind pk) in
  let: (cp, l_last) := register cp (pk_l_last pk) in
  let! theta := w_squeeze E in
  let! lp := mmap_acc (fun z cp =>
      let: (instance_values, instance_cosets, advice_values, advice_cosets) := z in
      mmap_acc (fun l cp => commit_permuted E ps pk vp
          (LLeaves advice_values fixed_values instance_values)
          (LLeaves advice_cosets fixed_cosets instance_cosets) theta l cp) (lookups m) cp)
    (zip4 instance_values instance_cosets advice_values advice_cosets) cp in
  let! beta := w_squeeze E in
  let! gamma := w_squeeze E in
  let! pp := mmap_acc (fun ia cp =>
      perm_commit E ps pk (as_values ia.2) (pk_fixed_values pk) (is_values ia.1) beta gamma cp)
    (zip instance advice) lp.2 in
  let! lc := mmap_acc (fun ls cp => mmap_acc (fun l cp => commit_product E ps pk beta gamma l cp) ls cp) lp.1 pp.2 in
  let! vanishing := vanishing_commit E ps d in
  let! y := w_squeeze E in
  let! permutation_expressions := mlift (unwrap (sequence
    [seq perm_construct E pk z.1.1 z.1.2 fixed_cosets z.2 permutation_cosets l0 l_blind l_last beta gamma
    | z <- zip (zip pp.1 advice_cosets) instance_cosets])) in
  let lookup_expressions := [seq [seq lookup_construct beta gamma l0 l_blind l_last l | l <- ls] | ls <- lc.1] in
  let! expressions := mlift (unwrap (sequence
    [seq omap (fun gs => gs ++ z.1.2 ++ flatten z.2) (gate_asts m z.1.1.1 fixed_cosets z.1.1.2)
    | z <- zip4 advice_cosets instance_cosets permutation_expressions lookup_expressions])) in
  let! vanishing := vanishing_construct E ps d lc.2 (flatten expressions) y vanishing in
  let! x := w_squeeze E in
  let xn := x ^+ p_n ps in
  mmap (fun i => write_evals (query_evals d x (is_polys i) (instance_queries m))) instance ;;;
  mmap (fun a => write_evals (query_evals d x (as_polys a) (advice_queries m))) advice ;;;
  write_evals (query_evals d x (pk_fixed_polys pk) (fixed_queries m)) ;;;
  let! vanishing := vanishing_evaluate E d x xn vanishing in
  perm_pk_evaluate E pk x ;;;
  let bf := blinding_factors m in
  mmap (fun sets => perm_evaluate E d bf x sets) pp.1 ;;;
  mmap (fun ls => mmap (lookup_evaluate E d x) ls) lc.1 ;;;
  let! qs := mlift (unwrap (sequence
    (mapi (fun i z =>
       let: (instance, advice, sets, ls) := z in
       obind (fun iq => omap (fun aq => iq ++ aq ++ perm_open d bf i x sets ++
           flatten (mapi (fun j l => lookup_open d i j x l) ls))
         (open_columns d x 1 i (as_polys advice) (get (as_blinds advice)) (advice_queries m)))
         (open_columns d x 0 i (is_polys instance) (fun _ => Some (blind_default F)) (instance_queries m)))
      (zip4 instance advice pp.1 lc.1)))) in
  let! fq := mlift (unwrap (open_columns d x 6 0 (pk_fixed_polys pk) (fun _ => Some (blind_default F))
                              (fixed_queries m))) in
  mret (PTrace instance advice theta beta gamma y x pp.1 lc.1 lc.2 (flatten expressions) vanishing
    (flatten qs ++ fq ++ perm_pk_open pk x ++ vanishing_open x vanishing)).

(* prover.rs:36-753 create_proof *)
Definition create_proof (pk : pkey G) (circuits : seq (res (seq (seq F)))) (instances : seq (seq (seq F))) : W unit :=
  let! t := create_proof_trace pk circuits instances in
  mmap_err EOpening (mo_create_proof E ps (pt_queries t)).

(* ---------------------------------------------------------------- the verifier *)

(* verifier.rs:88-105: the commitment to one column of public inputs *)
Definition instance_commitment (d : domain F) (m : cs F) (values : seq F) : res G :=
  rbind (usable_rows (p_n ps) m) (fun u =>
  if (u < size values)%N then Err EInstanceTooLarge else
  let poly := resize values (p_n ps) in
  if size poly != d_n d then Panic else                       (* lagrange_from_vec *)
  unwrap (commit_lagrange E ps poly (blind_default F))).

(* verifier.rs:230-240 the gates of one proof *)
Definition gate_evals (m : cs F) (advice_evals fixed_evals instance_evals : seq F) : option (seq F) :=
  sequence [seq expr_val advice_evals fixed_evals instance_evals e | e <- flatten [seq g_polys g | g <- gates m]].

(* verifier.rs:306-327, 350-362: the queries of the columns of one kind *)
Definition column_queries (d : domain F) (x : F) (kind proof : nat) (commitments : seq G) (evals : seq F)
    (queries : seq (nat * int)) : option (seq (vquery B G qkey_eqType)) :=
  sequence (mapi (fun query_index (q : nat * int) => obind (fun c => omap (fun e =>
     Query (kind, (proof, q.1))%N (CCommitment B c) (rotate_omega d x q.2) e : vquery B G qkey_eqType)
     (get evals query_index)) (get commitments q.1)) queries).

(* verifier.rs:204-216: l_last, l_blind, l_0 *)
Definition lagrange_evals (d : domain F) (bf : nat) (x xn : F) : option (F * F * F) :=
  let l_evals := l_i_range d x xn [seq (i%:Z - (bf + 1)%N%:Z) | i <- iota 0 (bf + 2)] in
  if size l_evals != (2 + bf)%N then None else
  obind (fun l_last => omap (fun l_0 =>
     (l_last, foldl +%R 0 (take bf (drop 1 l_evals)), l_0)) (get l_evals (1 + bf))) (get l_evals 0).

(* What verify_proof has computed when it calls multiopen::verify_proof *)
Record vtrace := VTrace {
  vt_theta : F; vt_beta : F; vt_gamma : F; vt_y : F; vt_x : F;
  vt_expressions : seq F;
  vt_queries : seq (vquery B G qkey_eqType) }.

(* verifier.rs:68-369 verify_proof, up to strategy.process *)
Definition verify_proof_trace (vk : vkey G) (instances : seq (seq (seq F))) : R vtrace :=
  let m := vk_cs vk in
  let d := vk_domain vk in
  if ~~ all (fun i : seq (seq F) => size i == num_instance m) instances then mlift (Err EInvalidInstances) else
  let! instance_commitments := mlift (rmap (rmap (instance_commitment d m)) instances) in
  let num_proofs := size instance_commitments in
  r_common_scalar E (vk_transcript_repr vk) ;;;
  mmap (fun cs => mmap (r_common_point E) cs) instance_commitments ;;;
  let! advice_commitments := mmap (fun _ => read_n_points E (num_advice m)) (iota 0 num_proofs) in
  let! theta := r_squeeze E in
  let! lookups_permuted := mmap (fun _ => mmap (fun _ => read_permuted_commitments E) (lookups m)) (iota 0 num_proofs) in
  let! beta := r_squeeze E in
  let! gamma := r_squeeze E in
  let! permutations_committed := mmap (fun _ => perm_read_commitments E vk) (iota 0 num_proofs) in
  let! lookups_committed := mmap (fun ls => mmap (fun l => let! z := read_point E in mret (l, z)) ls) lookups_permuted in
  let! random_commitment := vanishing_read_before_y E in
  let! y := r_squeeze E in
  let! h_commitments := vanishing_read_after_y E vk in
  let! x := r_squeeze E in
  let! instance_evals := mmap (fun _ => read_n_scalars E (size (instance_queries m))) (iota 0 num_proofs) in
  let! advice_evals := mmap (fun _ => read_n_scalars E (size (advice_queries m))) (iota 0 num_proofs) in
  let! fixed_evals := read_n_scalars E (size (fixed_queries m)) in
  let! random_eval := vanishing_read_eval E in
  let! permutations_common := perm_vk_evaluate E vk in
  let! permutations_evaluated := mmap (perm_read_evals E) permutations_committed in
  let! lookups_evaluated := mmap (fun ls => mmap (lookup_read_evals E) ls) lookups_committed in
  let xn := x ^+ p_n ps in
  let bf := blinding_factors m in
  let! ls := mlift (unwrap (lagrange_evals d bf x xn)) in
  let: (l_last, l_blind, l_0) := ls in
  let! expressions := mlift (unwrap (sequence
    [seq (let: (advice_evals, instance_evals, permutation, lks) := z in
      obind (fun gs => obind (fun pe => omap (fun le => gs ++ pe ++ flatten le)
        (sequence [seq lookup_expressions p.1 l_0 l_last l_blind p.2 theta beta gamma advice_evals fixed_evals instance_evals
                  | p <- zip lks (lookups m)]))
        (perm_expressions E vk permutation permutations_common advice_evals fixed_evals instance_evals
           l_0 l_last l_blind beta gamma x))
      (gate_evals m advice_evals fixed_evals instance_evals))
    | z <- zip4 advice_evals instance_evals permutations_evaluated lookups_evaluated])) in
  let! vanishing := mlift (unwrap (vanishing_verify E h_commitments random_commitment random_eval
                                     (flatten expressions) y xn)) in
  let! qs := mlift (unwrap (sequence
    (mapi (fun i z =>
       let: (((ic, ie), ac), ae, permutation, lks) := z in
       obind (fun iq => obind (fun aq => omap (fun pq => iq ++ aq ++ pq ++
           flatten (mapi (fun j l => lookup_queries B d i j x l) lks))
         (perm_queries B d bf i x permutation))
         (column_queries d x 1 i ac ae (advice_queries m)))
         (column_queries d x 0 i ic ie (instance_queries m)))
      (zip4 (zip (zip instance_commitments instance_evals) advice_commitments) advice_evals
            permutations_evaluated lookups_evaluated)))) in
  let! fq := mlift (unwrap (column_queries d x 6 0 (vk_fixed_commitments vk) fixed_evals (fixed_queries m))) in
  mret (VTrace theta beta gamma y x (flatten expressions)
    (flatten qs ++ fq ++ perm_common_queries B vk permutations_common x ++ vanishing_queries x vanishing)).

(* verifier.rs:50-64 SingleVerifier::process and 366-370 *)
Definition verify_proof (vk : vkey G) (instances : seq (seq (seq F))) : R unit :=
  let! t := verify_proof_trace vk instances in
  let! guard := mmap_err EOpening (mo_verify_proof E ps (vt_queries t) msm_new) in
  let! msm := mlift (unwrap (use_challenges ps guard)) in
  let! b := mlift (unwrap (msm_eval E ps msm)) in
  if b then mret tt else mlift (Err EConstraintSystemFailure).
End Plonk.
