(* Concrete circuits over F_97 in MockProver: the hypotheses of C37-C40 are met, and what verify reports. *)
Set Warnings "-notation-overridden,-ambiguous-paths".
From Coq Require Import NArith.
From mathcomp Require Import all_ssreflect all_algebra.
From Verif Require Import Util M_Env M_Assigned P_Assigned M_Circuit S_Circuit P_Circuit M_Selectors S_Selectors L_Selectors P_Selectors
  M_Copy L_Copy P_Copy M_Value M_Poly M_Domain P_Domain M_Transcript M_Commit M_Keys M_Permutation M_Plonk S_Plonk M_Assign M_Keygen M_Mock
  S_Floor S_Assign L_Assign P_Assign S_Mock L_Mock P_Mock L_MockRun P_Prove Ex_Field Ex_Env.
Import GRing.Theory.
Set Implicit Arguments.
Unset Strict Implicit.
Local Open Scope ring_scope.

(* the order of the field *)
Definition lt97 (x y : F97) : bool := N.ltb (kval x) (kval y).
Lemma lt97_irr : irreflexive lt97. Proof. by move=> x; apply: N.ltb_irrefl. Qed.
Lemma lt97_trans : transitive lt97.
Proof. by move=> y x z /N.ltb_lt h1 /N.ltb_lt h2; apply/N.ltb_lt; apply: N.lt_trans h1 h2. Qed.
Lemma lt97_total x y : x != y -> lt97 x y || lt97 y x.
Proof.
move=> h; case: (N.lt_trichotomy (kval x) (kval y)) => [|[e|]]; try by move/N.ltb_lt; rewrite /lt97 => ->; rewrite ?orbT.
by case/eqP: h; apply: val_inj.
Qed.

(* an advice column a, an instance column, a table column; a selected gate s * (a^2 - a[rot]), a lookup of a *)
Definition ops97 (rot : int) : seq (cs_op F97) :=
  let ea := EAdvice F97 0 0 0 in
  let eb := if rot == 0 then ea else EAdvice F97 1 0 rot in
  [:: OAdviceColumn F97; OInstanceColumn F97; OFixedColumn F97; OSelector F97 true;
      OEnableEquality F97 (Advice, 0%N); OEnableEquality F97 (Instance, 0%N);
      OQueryAdvice F97 0 0; OQueryAdvice F97 0 rot;
      OGate (Gate [:: EProduct (ESelector F97 0 true) (ESum (EProduct ea ea) (ENegated eb))] [:: (0%N, true)]
        [:: ((Advice, 0%N), 0); ((Advice, 0%N), rot)]);
      OLookup [:: (ea, 0%N)]].
Definition m97 (rot : int) : cs F97 := odflt (cs_default F97) (run_ops (cs_default F97) (ops97 rot)).

(* The runs are `Check's and not theorems because coqchk, which has no virtual machine, needs too long for them. *)
(* the circuit of C40 is configured: 8 rows, of which 2 are usable *)
Check (ltac:(by vm_cast_no_check (erefl (Some (m97 0)))) : run_ops (cs_default F97) (ops97 0) = Some (m97 0)).
Check (ltac:(by vm_cast_no_check (erefl true)) : ops_built [::] (cs_default F97) (ops97 0)).
Check (ltac:(by vm_cast_no_check (erefl true)) : ops_exprs_ok (cs_default F97) (ops97 0)).
Check (ltac:(by vm_cast_no_check (erefl true)) : queries_within (2 ^ 3) (m97 0)).
Check (ltac:(vm_compute; reflexivity) : cs_degree (m97 0) = Some 4%N).
Lemma char97 i : (0 < i <= 4)%N -> i%:R != 0 :> F97.
Proof. by move=> /andP [i0 i4]; case: i i0 i4 => [//|[|[|[|[|i]]]]] _ h. Qed.

Definition kn97 (x : F97) : value (assigned F97) := known (ATrivial x).
Definition as_assigned (v : value F97) : value (assigned F97) := Value (omap (@ATrivial F97) (inner v)).
(* a[0] = w0; a[1] is the instance value at row q, and copied to the instance value at row 0; the table is tab *)
Definition circuit97 (w0 : value (assigned F97)) (q : nat) (tab : seq F97) : synth F97 :=
  SOp (AEnter F97) (SOp (AEnable F97 0 0) (SOp (AAdvice 0 0 w0)
  (SQuery 0 q (fun v => SOp (AAdvice 0 1 (as_assigned v))
  (SOp (ACopy F97 (Advice, 0%N) 1 (Instance, 0%N) 0) (SOp (AExit F97)
  (SOp (AFixed 0 0 (kn97 (nth 0 tab 0))) (SOp (AFixed 0 1 (kn97 (nth 0 tab 1))) (SDone F97))))))))).
Definition report97 (rot : int) (p : synth F97) (i : seq F97) : res (option (seq vfailure)) :=
  rbind (mock_run 3 (m97 rot) p [:: i]) (fun pr => Ok (verify lt97 pr)).

(* the hypotheses of C40_accepted_can_be_proven: the circuit is accepted, *)
Check (ltac:(vm_compute; reflexivity) : report97 0 (circuit97 (kn97 1) 0 [:: 0; 1]) [:: 1] = Ok (Some [::])).
(* asks for values that were given, and key generation sees the same calls *)
Lemma circuit97_queries w0 tab i : queries_provided [:: [:: i]] (circuit97 w0 0 tab).
Proof. by []. Qed.
Lemma circuit97_same w0 tab i : same_calls (instance_of [:: [:: i]]) (circuit97 w0 0 tab) (circuit97 unknown 0 tab).
Proof. by do ! split. Qed.
(* an unsatisfied gate, an input which is not in the table *)
Check (ltac:(vm_compute; reflexivity) : report97 0 (circuit97 (kn97 2%:R) 0 [:: 0; 1]) [:: 1] = Ok (Some [:: VGate 0 0 0; VLookup 0 0])).
(* values which satisfy the gate and are not in the table *)
Check (ltac:(vm_compute; reflexivity) : report97 0 (circuit97 (kn97 1) 0 [:: 0; 0]) [:: 1] = Ok (Some [:: VLookup 0 0; VLookup 0 1])).
(* a[1] is the padding of the instance column, which is not equal to the first instance value *)
Check (ltac:(vm_compute; reflexivity) : report97 0 (circuit97 (kn97 1) 1 [:: 0; 1]) [:: 1] = Ok (Some [:: VPermutation (Advice, 0%N) 1; VPermutation (Instance, 0%N) 0])).
(* the gate s * (a^2 - a[2]) at row 0 looks at the first blinding row *)
Check (ltac:(vm_compute; reflexivity) : report97 2 (circuit97 (kn97 1) 0 [:: 0; 1]) [:: 1] = Ok (Some [:: VCell 0 0 0 (Advice, 0%N) 2; VPoisoned 0 0])).
(* verify panics for a region which enables a selector and assigns no cell *)
Check (ltac:(vm_compute; reflexivity) : report97 0 (SOp (AEnter F97) (SOp (AEnable F97 0 0) (SOp (AExit F97) (SDone F97)))) [::] = Ok None).
