(* The field with 271 elements on binary integers; see Ex_Field.v.  Used only in examples. *)
Set Warnings "-notation-overridden,-ambiguous-paths".
From Coq Require Import ZArith NArith Nnat Lia.
From mathcomp Require Import all_ssreflect all_algebra.
Import GRing.Theory.
Set Implicit Arguments.
Unset Strict Implicit.

Record K271 : Type := MkK_271 { kval_271 : N; _ : N.ltb kval_271 271 }.
Canonical K271_subType := [subType for kval_271].
Definition K271_eqMixin := [eqMixin of K271 by <:].
Canonical K271_eqType := EqType K271 K271_eqMixin.
Lemma K271_lt (x : K271) : N.ltb (kval_271 x) 271. Proof. by case: x. Qed.

Definition kpack_271 (m : N) : K271 :=
  (if N.ltb m 271 as b return (N.ltb m 271 = b -> K271)
   then fun e => MkK_271 e else fun _ => @MkK_271 0%num isT) (erefl _).
Definition kred_271 (n : N) : K271 := kpack_271 (N.modulo n 271).
Lemma kredE_271 n : kval_271 (kred_271 n) = N.modulo n 271.
Proof.
have h : (N.modulo n 271 < 271)%num by apply: N.mod_lt.
rewrite /kred_271 /kpack_271; move: (erefl _); case: {2 3}(N.ltb _ _) => // e.
by move/N.ltb_lt: h; rewrite e.
Qed.
Lemma kvalK_271 x : kred_271 (kval_271 x) = x.
Proof. by apply: val_inj; rewrite /= kredE_271 N.mod_small //; apply/N.ltb_lt; exact: K271_lt. Qed.

Definition k_nat_271 (x : K271) : nat := N.to_nat (kval_271 x).
Lemma k_natK_271 : cancel k_nat_271 (fun n => kred_271 (N.of_nat n)).
Proof. by move=> x; rewrite /k_nat_271 N2Nat.id kvalK_271. Qed.
Definition K271_choiceMixin := CanChoiceMixin k_natK_271.
Canonical K271_choiceType := ChoiceType K271 K271_choiceMixin.

Definition kadd_271 (x y : K271) : K271 := kred_271 (kval_271 x + kval_271 y).
Definition kmul_271 (x y : K271) : K271 := kred_271 (kval_271 x * kval_271 y).
Definition kopp_271 (x : K271) : K271 := kred_271 (271 - kval_271 x).
(* n^269 *)
Definition ninv_271 (n : N) : N :=
  let q a b := N.modulo (a * b) 271 in
  let n2 := q n n in let n4 := q n2 n2 in let n8 := q n4 n4 in let n16 := q n8 n8 in
  let n32 := q n16 n16 in let n64 := q n32 n32 in let n128 := q n64 n64 in let n256 := q n128 n128 in
  q n256 (q n8 (q n4 n)).
Definition kinv_271 (x : K271) : K271 :=
  kred_271 (ninv_271 (kval_271 x)).

Ltac kz_271 := apply: val_inj; rewrite /= !kredE_271.
Lemma kadda_271 : associative kadd_271.
Proof. by move=> x y z; kz_271; rewrite N.add_mod_idemp_r // N.add_mod_idemp_l // N.add_assoc. Qed.
Lemma kaddc_271 : commutative kadd_271.
Proof. by move=> x y; kz_271; rewrite N.add_comm. Qed.
Lemma kadd0_271 : left_id (kred_271 0) kadd_271.
Proof. by move=> x; rewrite -{2}(kvalK_271 x); kz_271. Qed.
Lemma kaddN_271 : left_inverse (kred_271 0) kopp_271 kadd_271.
Proof.
move=> x; kz_271; rewrite N.add_mod_idemp_l // N.sub_add //.
by apply: N.lt_le_incl; apply/N.ltb_lt; exact: K271_lt.
Qed.
Definition K271_zmodMixin := ZmodMixin kadda_271 kaddc_271 kadd0_271 kaddN_271.
Canonical K271_zmodType := ZmodType K271 K271_zmodMixin.
Lemma kmula_271 : associative kmul_271.
Proof. by move=> x y z; kz_271; rewrite N.mul_mod_idemp_r // N.mul_mod_idemp_l // N.mul_assoc. Qed.
Lemma kmulc_271 : commutative kmul_271.
Proof. by move=> x y; kz_271; rewrite N.mul_comm. Qed.
Lemma kmul1_271 : left_id (kred_271 1) kmul_271.
Proof. by move=> x; rewrite -{2}(kvalK_271 x); kz_271; rewrite [N.modulo 1 271]/= N.mul_1_l. Qed.
Lemma kmulD_271 : left_distributive kmul_271 kadd_271.
Proof.
by move=> x y z; kz_271; rewrite N.mul_mod_idemp_l // -N.add_mod // N.mul_add_distr_r.
Qed.
Lemma k10_271 : kred_271 1 != kred_271 0. Proof. by []. Qed.
Definition K271_ringMixin := ComRingMixin kmula_271 kmulc_271 kmul1_271 kmulD_271 k10_271.
Canonical K271_ringType := RingType K271 K271_ringMixin.
Canonical K271_comRingType := ComRingType K271 kmulc_271.
Definition all271 (P : N -> bool) : bool := all (fun n => P (N.of_nat n)) (iota 0 271).
Lemma all271P P (x : K271) : all271 P -> P (kval_271 x).
Proof.
move/allP => /(_ (N.to_nat (kval_271 x))); rewrite N2Nat.id; apply.
rewrite mem_iota add0n /=; apply/ltP.
by have /N.ltb_lt h := K271_lt x; change 271%N with (N.to_nat 271); lia.
Qed.
Lemma kmulV_271 (x : K271) : x != kred_271 0 -> kmul_271 (kinv_271 x) x = kred_271 1.
Proof.
move=> h; apply: val_inj; rewrite /kmul_271 /kinv_271 [LHS]kredE_271 [RHS]kredE_271 kredE_271.
have H : all271 (fun n => (n != 0%num) ==>
  (N.modulo (N.modulo (ninv_271 n) 271 * n) 271 == N.modulo 1 271)).
  by vm_compute.
by have /implyP K := all271P x H; apply/eqP; apply: K.
Qed.
Lemma kinv0_271 : kinv_271 (kred_271 0) = kred_271 0. Proof. by apply/eqP; vm_compute. Qed.
Definition K271_unitRingMixin := FieldUnitMixin kmulV_271 kinv0_271.
Canonical K271_unitRingType := UnitRingType K271 K271_unitRingMixin.
Canonical K271_comUnitRingType := [comUnitRingType of K271].
Definition K271_fieldMixin : GRing.Field.mixin_of K271_unitRingType.
Proof. by []. Qed.
Definition K271_idomainMixin := FieldIdomainMixin K271_fieldMixin.
Canonical K271_idomainType := IdomainType K271 K271_idomainMixin.
Canonical K271_fieldType := FieldType K271 K271_fieldMixin.

Local Open Scope ring_scope.
Lemma kval_nat_271 n : kval_271 (n%:R : K271) = N.modulo (N.of_nat n) 271.
Proof.
elim: n => [|n IH]; first by [].
by rewrite mulrS -[1 + _]/(kadd_271 _ _) /kadd_271 kredE_271 IH N.add_mod_idemp_r // Nat2N.inj_succ N.add_1_l.
Qed.
Lemma k_natrK_271 (x : K271) : (k_nat_271 x)%:R = x.
Proof.
apply: val_inj; rewrite /= kval_nat_271 /k_nat_271 N2Nat.id N.mod_small //; apply/N.ltb_lt; exact: K271_lt.
Qed.
Lemma k_nat_lt_271 (x : K271) : (k_nat_271 x < 271)%N.
Proof.
by apply/ltP; have /N.ltb_lt h := K271_lt x; change 271%N with (N.to_nat 271); rewrite /k_nat_271; lia.
Qed.
