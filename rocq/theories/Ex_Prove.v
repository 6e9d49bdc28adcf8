(* The circuit of Ex_Mock in key generation, create_proof and verify_proof: the hypotheses of C31, C32, C51 and C52 are met. *)
Set Warnings "-notation-overridden,-ambiguous-paths".
From Coq Require Import NArith.
From mathcomp Require Import all_ssreflect all_algebra.
From Verif Require Import Util M_Env M_Assigned P_Assigned M_Circuit S_Circuit P_Circuit M_Selectors S_Selectors L_Selectors P_Selectors
  M_Copy L_Copy P_Copy M_Value M_Poly M_Domain L_Domain P_Domain M_Transcript M_Commit S_Commit P_Commit M_Keys M_Permutation M_Plonk S_Plonk M_Assign M_Keygen M_Mock
  S_Floor S_Assign L_Assign P_Assign S_Mock L_Mock P_Mock L_MockRun P_Prove L_PermCommit P_Keygen P_Plonk P_Sound Ex_Field Ex_Env Ex_Mock.
Import GRing.Theory.
Set Implicit Arguments.
Unset Strict Implicit.
Local Open Scope ring_scope.

Definition digest97 (d : domain F97) (fc p : seq G97) (m : cs F97) : F97 := 17%:R.
Definition kg97 : synth F97 := circuit97 unknown 0 [:: 0; 1].
Definition prog97 : synth F97 := circuit97 (kn97 1) 0 [:: 0; 1].

(* A circuit which is accepted by MockProver, with a domain for its degree: keys exist. *)
Section Keys.
Variables (F B : fieldType) (G : lmodType F) (E : env B G) (ok : env_ok E) (digest : domain F -> seq G -> seq G -> cs F -> F).
Variables (k : nat) (ops : seq (cs_op F)) (m : cs F) (D : nat) (p kg : synth F) (inst : seq (seq F)) (lt : rel F).
Hypotheses (lt_irr : irreflexive lt) (lt_trans : transitive lt) (lt_total : forall x y, x != y -> lt x y || lt y x).
Hypotheses (hq : queries_provided inst p) (hs : same_calls (instance_of inst) p kg).
Lemma keys_exist : (k <= e_S E)%N -> (k < 32)%N -> configured k ops m D -> isSome (domain_new (e_rou E) (e_zeta E) (e_S E) D k) ->
  rbind (mock_run k m p inst) (fun pr => Ok (verify lt pr)) = Ok (Some [::]) ->
  exists ps vk pk, [/\ params_ok E ps, p_k ps = k, keygen_vk E ps digest m kg = Ok vk, keygen_pk E ps vk m kg = Ok pk &
    exists2 pr, mock_run (p_k ps) m p inst = Ok pr & verify lt pr = Some [::]].
Proof.
move=> hk hk32 cf hdom hm.
have [ps eps [pok [ek _]]] := C11_params_new ok hk32 hk.
have [pr hr hv] : exists2 pr, mock_run k m p inst = Ok pr & verify lt pr = Some [::].
  by move: hm; case: mock_run => [pr||] //= [h]; exists pr.
case ed: domain_new hdom => [d|//] _.
have hd : create_domain E ps m = Some d by rewrite /create_domain (cf_degree cf) /= ek.
have dn : d_n d = (2 ^ k)%N.
  have ed' : domain_new (e_rou E) (e_zeta E) (e_S E) D (p_k ps) = Some d by rewrite ek.
  by have := L_Domain.ok_n (dok ok ed'); rewrite ek.
have pn : p_n ps = (2 ^ k)%N by rewrite (ps_n pok) ek.
have [a [fx [m' [adv [tr [ha _ _ _ _]]]]]] := C40_accepted_can_be_proven digest cf lt_irr lt_trans lt_total hr hv hq hs pn dn hd.
have cf' : configured (p_k ps) ops m D by rewrite ek.
have := C51_keygen_outcome ok pok digest cf' hd kg; rewrite ha => -[vk [pk [tr' [hvk hpk _ _]]]].
exists ps, vk, pk; split=> //; rewrite ek; by exists pr.
Qed.
End Keys.
(* All hypotheses of C32_mock_accepted (and so of C31_same_run and C32_complete, see P_Plonk.accepted). *)
Check (fun a b c d' e => @keys_exist _ _ _ E97 E97_ok digest97 3 (ops97 0) (m97 0) 4 prog97 kg97 [:: [:: 1]] lt97 lt97_irr lt97_trans lt97_total
  (circuit97_queries (kn97 1) [:: 0; 1] 1) (circuit97_same (kn97 1) [:: 0; 1] 1) isT isT (Configured a b c d' e char97)).
Check (ltac:(by vm_cast_no_check (erefl (Some (m97 0)))) : run_ops (cs_default F97) (ops97 0) = Some (m97 0)).
Check (ltac:(by vm_cast_no_check (erefl true)) : ops_built [::] (cs_default F97) (ops97 0)).
Check (ltac:(by vm_cast_no_check (erefl true)) : ops_exprs_ok (cs_default F97) (ops97 0)).
Check (ltac:(by vm_cast_no_check (erefl true)) : queries_within (2 ^ 3) (m97 0)).
Check (ltac:(vm_compute; reflexivity) : cs_degree (m97 0) = Some 4%N).
Check (ltac:(by vm_cast_no_check (erefl true)) : isSome (domain_new (e_rou E97) (e_zeta E97) (e_S E97) 4 3)).
Check (ltac:(vm_compute; reflexivity) : rbind (mock_run 3 (m97 0) prog97 [:: [:: 1]]) (fun pr => Ok (verify lt97 pr)) = Ok (Some [::])).
Check (ltac:(vm_compute; reflexivity) : (num_fixed (m97 0) + num_advice (m97 0) + num_instance (m97 0))%N = 3%N).

(* The proof of the two circuits, and the verdicts on it for these public inputs and for others; r is the state of the
   generator of random scalars. *)
Definition prove97 (r : nat) (progs : seq (synth F97)) (given claimed : seq (seq (seq F97))) : option (res unit) :=
  obind (fun ps =>
  if keygen_vk E97 ps digest97 (m97 0) kg97 is Ok vk then
  if keygen_pk E97 ps vk (m97 0) kg97 is Ok pk then
  if create_proof E97 ps pk [seq synthesize ps vk ip.1 ip.2 | ip <- zip progs given] given (Wst [::] [::] r) is Ok (_, s) then
  Some (rbind (verify_proof E97 ps vk claimed (Rst [::] (w_out s))) (fun q => Ok q.1)) else None else None else None) (params_new E97 3).
Definition inst97 (x y : F97) : seq (seq (seq F97)) := [:: [:: [:: x]]; [:: [:: y]]].
Check (ltac:(vm_compute; reflexivity) : prove97 1 [:: prog97; prog97] (inst97 1 1) (inst97 1 1) = Some (Ok tt)).
Check (ltac:(vm_compute; reflexivity) : prove97 2 [:: prog97; prog97] (inst97 1 0) (inst97 1 0) = Some (Ok tt)).
Check (ltac:(vm_compute; reflexivity) : prove97 2 [:: prog97; prog97] (inst97 1 0) (inst97 0 1) = Some (Err EConstraintSystemFailure)).

(* C52: advice polynomials which are all zero do not satisfy this circuit with the public input 1, since its second advice
   cell is copied to the instance column. *)
Lemma unsatisfied_copy (F : fieldType) (G : lmodType F) n u m calls (vk : vkey G) (pk : pkey G) instances i c :
  List.In c calls -> cc_lc c = (Advice, 0%N) -> cc_rc c = (Instance, 0%N) ->
  nth 0 (nth [::] (nth [::] instances i) 0) (cc_rr c) != 0 ->
  ~ satisfied n u m calls (table vk pk instances (fun _ _ => 0) i).
Proof. by move=> hin e1 e2 hne [_ _ /(_ c hin)]; rewrite e1 e2 /= horner0 => e; rewrite -e eqxx in hne. Qed.
Check (ltac:(vm_compute; reflexivity) : rbind (performed (fun _ _ => unknown) kg97) (fun tr => Ok (copies tr)) =
  Ok [:: CopyCall (Advice, 0%N) 1 (Instance, 0%N) 0]).
(* for the order of delta see C24_example_delta *)
Check (ltac:(vm_compute; reflexivity) : size (permutation (m97 0)) = 2%N).
