(* Model of halo2_proofs/src/poly/multiopen.rs (construct_intermediate_sets) and of
   multiopen/prover.rs (create_proof), multiopen/verifier.rs (verify_proof). *)
Set Warnings "-notation-overridden,-ambiguous-paths".
From mathcomp Require Import all_ssreflect all_algebra.
From Verif Require Import Util M_FFT M_Multiexp M_Poly M_Domain M_Env M_Transcript M_Commit M_IPA.
Import GRing.Theory.
Set Implicit Arguments.
Unset Strict Implicit.

(* Maps (IndexMap, BTreeMap) as association lists in order of first insertion.  For the
   BTreeMaps of this file the iteration order does not influence any result. *)
Section Assoc.
Variables (K : eqType) (A : Type).
Fixpoint aget (m : seq (K * A)) (k : K) : option A :=
  if m is e :: m' then if e.1 == k then Some e.2 else aget m' k else None.
(* *map.entry(k).or_insert(v): the value, and the map afterwards *)
Definition or_insert (m : seq (K * A)) (k : K) (v : A) : A * seq (K * A) :=
  if aget m k is Some a then (a, m) else (v, rcons m (k, v)).
(* writing through a &mut obtained from get_mut/entry *)
Definition aset (m : seq (K * A)) (k : K) (a : A) : seq (K * A) :=
  [seq if e.1 == k then (e.1, a) else e | e <- m].
End Assoc.

(* BTreeSet<usize>: a strictly increasing list *)
Fixpoint bset_insert (i : nat) (s : seq nat) : seq nat :=
  if s is x :: s' then
    if i < x then i :: s else if i == x then s else x :: bset_insert i s'
  else [:: i].

(* Vec indexing: v[i] = f(v[i]), None when out of bounds (panic) *)
Fixpoint vec_upd (T : Type) (v : seq T) (i : nat) (f : T -> T) : option (seq T) :=
  match v, i with
  | x :: v', 0 => Some (f x :: v')
  | x :: v', i'.+1 => omap (cons x) (vec_upd v' i' f)
  | [::], _ => None
  end.

Section CIS.
(* K: the identity of a commitment (Rust compares the references with std::ptr::eq);
   D: what the reference gives access to; P: points; V: evaluations (() for the prover) *)
Variables (K P : eqType) (D V : Type).

(* multiopen.rs:43-63 ProverQuery, VerifierQuery through the trait Query (138-147) *)
Record query := Query { q_key : K; q_data : D; q_point : P; q_eval : V }.

(* multiopen.rs:118-136 CommitmentData *)
Record cdata (W : Type) := CData {
  cd_set_index : nat; cd_point_indices : seq nat; cd_evals : seq W }.

Definition cd_new {W} : cdata W := CData 0 [::] [::].

(* multiopen.rs:166-180: first loop over the queries, point_index_map and commitment_map.  The key of the
   IndexMap keeps the reference (data) of the first insertion. *)
Definition cis_step1 (st : seq (P * nat) * seq (K * (D * cdata (option V)))) (q : query) :=
  let: (pm, cm) := st in
  let: (point_idx, pm) := or_insert pm (q_point q) (size pm) in
  let: ((d, cd), cm) := or_insert cm (q_key q) (q_data q, cd_new) in
  (pm, aset cm (q_key q) (d, CData (cd_set_index cd) (rcons (cd_point_indices cd) point_idx) (cd_evals cd))).

(* multiopen.rs:188-209: loop over commitment_map.iter_mut(), point_idx_sets, commitment_set_map, evals *)
Definition cis_step2 (st : seq (seq nat * nat) * seq (K * seq nat) * seq (K * (D * cdata (option V))))
    (e : K * (D * cdata (option V))) :=
  let: (pis, csm, cm) := st in
  let: (k, (d, cd)) := e in
  let point_index_set := foldl (fun s i => bset_insert i s) [::] (cd_point_indices cd) in
  let len := size point_index_set in
  let csm := if aget csm k is Some _ then aset csm k point_index_set else rcons csm (k, point_index_set) in
  let: (_, pis) := or_insert pis point_index_set (size pis) in
  (pis, csm, rcons cm (k, (d, CData (cd_set_index cd) (cd_point_indices cd) (nseq len None)))).

(* multiopen.rs:211-250: second loop over the queries; Ok None is the function's None *)
Definition cis_step3 (pm : seq (P * nat)) (pis : seq (seq nat * nat)) (csm : seq (K * seq nat))
    (cm : seq (K * (D * cdata (option V)))) (q : query) : res (option (seq (K * (D * cdata (option V))))) :=
  rbind (unwrap (aget cm (q_key q))) (fun dcd =>
  let: (d, cd) := dcd in
  rbind (unwrap (aget pm (q_point q))) (fun point_index =>
  rbind (unwrap (aget csm (q_key q))) (fun point_index_set =>
  rbind (unwrap (aget pis point_index_set)) (fun set_index =>
  if ~~ (point_index \in point_index_set) then Panic else            (* position().unwrap() *)
  let point_index_in_set := index point_index point_index_set in
  if ~~ (point_index_in_set < size (cd_evals cd)) then Panic else    (* expect("valid index") *)
  if nth None (cd_evals cd) point_index_in_set is None then
    let evals := set_nth None (cd_evals cd) point_index_in_set (Some (q_eval q)) in
    Ok (Some (aset cm (q_key q) (d, CData set_index (cd_point_indices cd) evals)))
  else Ok None)))).
Fixpoint cis_loop3 pm pis csm cm (qs : seq query) :=
  if qs is q :: qs' then
    rbind (cis_step3 pm pis csm cm q) (fun o =>
    if o is Some cm then cis_loop3 pm pis csm cm qs' else Ok None)
  else Ok (Some cm).

(* evals.map(|e| e.expect(..)) *)
Fixpoint all_some (W : Type) (s : seq (option W)) : option (seq W) :=
  if s is x :: s' then obind (fun y => omap (cons y) (all_some s')) x else Some [::].

(* multiopen.rs:152-276 construct_intermediate_sets *)
Definition construct_intermediate_sets (queries : seq query)
    : res (option (seq (K * (D * cdata V)) * seq (seq P))) :=
  let: (point_index_map, commitment_map) := foldl cis_step1 ([::], [::]) queries in
  let inverse_point_index_map := [seq (e.2, e.1) | e <- point_index_map] in
  let: (point_idx_sets, commitment_set_map, commitment_map) :=
    foldl cis_step2 ([::], [::], [::]) commitment_map in
  rbind (cis_loop3 point_index_map point_idx_sets commitment_set_map commitment_map queries) (fun o =>
  if o is Some commitment_map then
    rbind (unwrap (all_some [seq omap (fun ev => (e.1, (e.2.1, CData (cd_set_index e.2.2) (cd_point_indices e.2.2) ev)))
                                      (all_some (cd_evals e.2.2)) | e <- commitment_map])) (fun cm =>
    rbind (unwrap (foldl (fun acc e =>
        obind (fun acc => obind (fun pts => vec_upd acc e.2 (fun v => v ++ pts))
                                (all_some [seq aget inverse_point_index_map i | i <- e.1])) acc)
      (Some (nseq (size point_idx_sets) [::])) point_idx_sets)) (fun point_sets =>
    Ok (Some (cm, point_sets))))
  else Ok None).
End CIS.
Arguments cd_new {W}.

Local Open Scope ring_scope.
Section Multiopen.
Variables (F B : fieldType) (G : lmodType F) (E : env B G) (ps : params G).
Variable K : eqType.

(* a prover query refers to a polynomial and its blind; prover.rs:124-166: equality of
   PolynomialPointer is equality of the reference to the polynomial *)
Definition pquery := query K F (seq F * F) unit.
(* multiopen.rs:89-116 CommitmentReference *)
Inductive cref := CCommitment of G | CMsm of msm F B.
Definition vquery := query K F cref F.

(* prover.rs:53-71 accumulate *)
Definition p_accumulate (x1 : F) (st : seq (option (seq F)) * seq F) (e : K * ((seq F * F) * cdata unit))
    : option (seq (option (seq F)) * seq F) :=
  let: (q_polys, q_blinds) := st in
  let: (_, ((new_poly, blind), cd)) := e in
  let set_idx := cd_set_index cd in
  if (set_idx < size q_polys)%N then
    obind (fun np => obind (fun qp => omap (fun qb => (qp, qb))
        (vec_upd q_blinds set_idx (fun b => b * x1 + blind)))
        (vec_upd q_polys set_idx (fun _ => Some np)))
      (if nth None q_polys set_idx is Some poly
       then obind (fun a => poly_add (e_threads E) a new_poly) (poly_scale (e_threads E) poly x1)
       else Some new_poly)
  else None.

(* Vec::resize(n, 0) *)
Definition resize (v : seq F) (n : nat) : seq F := take n v ++ nseq (n - size v) 0.

(* prover.rs:73-94: one step of the fold building q_prime_poly *)
Definition q_prime_step (x2 : F) (acc : option (option (seq F))) (pp : seq F * option (seq F)) :=
  obind (fun q_prime => obind (fun poly =>
    obind (fun poly =>
      let poly := resize poly (p_n ps) in
      if q_prime is Some qp
      then omap Some (obind (fun a => poly_add (e_threads E) a poly) (poly_scale (e_threads E) qp x2))
      else Some (Some poly))
    (foldl (fun o point => obind (fun poly => kate_division poly point) o) (Some poly) pp.1)) pp.2) acc.

(* prover.rs:21-122 create_proof *)
Definition mo_create_proof (queries : seq pquery) : W unit :=
  let! x_1 := w_squeeze E in
  let! x_2 := w_squeeze E in
  let! sets := mlift (rbind (construct_intermediate_sets queries) (ok_or EIo)) in
  let: (poly_map, point_sets) := sets in
  let! qs := mlift (unwrap (foldl (fun o e => obind (fun st => p_accumulate x_1 st e) o)
     (Some (nseq (size point_sets) None, nseq (size point_sets) 0)) poly_map)) in
  let: (q_polys, q_blinds) := qs in
  let! q_prime_poly := mlift (unwrap (obind id
     (foldl (q_prime_step x_2) (Some None) (zip point_sets q_polys)))) in
  let! q_prime_blind := draw (E := E) in
  let! q_prime_commitment := mlift (unwrap (commit E ps q_prime_poly q_prime_blind)) in
  write_point E q_prime_commitment ;;;
  let! x_3 := w_squeeze E in
  mmap (fun o => let! q := mlift (unwrap o) in write_scalar E (eval_polynomial q x_3)) q_polys ;;;
  let! x_4 := w_squeeze E in
  let! pb := mlift (unwrap (foldl (fun acc (pb : option (seq F) * F) =>
      obind (fun st => obind (fun poly => 
        omap (fun p => (p, st.2 * x_4 + pb.2))
          (obind (fun a => poly_add (e_threads E) a poly) (poly_scale (e_threads E) st.1 x_4))) pb.1) acc)
     (Some (q_prime_poly, q_prime_blind)) (zip q_polys q_blinds))) in
  ipa_create_proof E ps pb.1 pb.2 x_3.

(* verifier.rs:55-72 accumulate, on (q_commitments, q_eval_sets) *)
Definition v_accumulate (x1 : F) (st : seq (msm F B * F) * seq (seq F)) (e : K * (cref * cdata F))
    : option (seq (msm F B * F) * seq (seq F)) :=
  let: (q_commitments, q_eval_sets) := st in
  let: (_, (new_commitment, cd)) := e in
  let set_idx := cd_set_index cd in
  if (set_idx < size q_commitments)%N then
    let: (q_commitment, x1_power) := nth (msm_new, 0) q_commitments set_idx in
    obind (fun qc => obind (fun qcs => omap (fun qes => (qcs, qes))
        (vec_upd q_eval_sets set_idx (fun es =>
           [seq p.2 + p.1 * x1_power | p <- zip (cd_evals cd) es] ++ drop (size (cd_evals cd)) es)))
        (vec_upd q_commitments set_idx (fun _ => (qc, x1_power * x1))))
      (match new_commitment with
       | CCommitment c => append_term E q_commitment x1_power c
       | CMsm m => add_msm ps q_commitment (msm_scale m x1_power)
       end)
  else None.

(* verifier.rs:101-117: the fold computing msm_eval; invert().unwrap() panics on zero *)
Definition msm_eval_step (x2 x3 : F) (acc : option F) (pe : (seq F * seq F) * F) : option F :=
  let: ((points, evals), proof_eval) := pe in
  obind (fun msm_eval => obind (fun r_poly =>
    let r_eval := eval_polynomial r_poly x3 in
    omap (fun eval => msm_eval * x2 + eval)
      (foldl (fun o point => obind (fun eval =>
          if x3 - point == 0 then None else Some (eval * (x3 - point)^-1)) o)
        (Some (proof_eval - r_eval)) points))
    (lagrange_interpolate points evals)) acc.

(* verifier.rs:15-134 verify_proof *)
Definition mo_verify_proof (queries : seq vquery) (m : msm F B) : R (guard F B) :=
  let! x_1 := r_squeeze E in
  let! x_2 := r_squeeze E in
  let! sets := mlift (rbind (construct_intermediate_sets queries) (ok_or EOpening)) in
  let: (commitment_map, point_sets) := sets in
  let! qs := mlift (unwrap (foldl (fun o e => obind (fun st => v_accumulate x_1 st e) o)
     (Some (nseq (size point_sets) (msm_new, 1), [seq nseq (size pts) 0 | pts <- point_sets]))
     (rev commitment_map))) in
  let: (q_commitments, q_eval_sets) := qs in
  let! q_prime_commitment := mmap_err ESampling (read_point E) in
  let! x_3 := r_squeeze E in
  let! u := mmap (fun _ => mmap_err ESampling (read_scalar E)) (iota 0 (size q_eval_sets)) in
  let! msm_eval := mlift (unwrap (foldl (msm_eval_step x_2 x_3) (Some 0)
     (zip (zip point_sets q_eval_sets) u))) in
  let! x_4 := r_squeeze E in
  let! m := mlift (unwrap (append_term E m 1 q_prime_commitment)) in
  let! mv := mlift (unwrap (foldl (fun acc (qe : (msm F B * F) * F) =>
      obind (fun st => omap (fun m' => (m', st.2 * x_4 + qe.2))
                            (add_msm ps (msm_scale st.1 x_4) qe.1.1)) acc)
     (Some (m, msm_eval)) (zip q_commitments u))) in
  ipa_verify_proof E ps mv.1 x_3 mv.2.
End Multiopen.
