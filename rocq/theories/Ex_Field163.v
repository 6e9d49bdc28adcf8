(* The field with 163 elements on binary integers; see Ex_Field.v.  Used only in examples. *)
Set Warnings "-notation-overridden,-ambiguous-paths".
From Coq Require Import ZArith NArith Nnat Lia.
From mathcomp Require Import all_ssreflect all_algebra.
Import GRing.Theory.
Set Implicit Arguments.
Unset Strict Implicit.

Record K163 : Type := MkK_163 { kval_163 : N; _ : N.ltb kval_163 163 }.
Canonical K163_subType := [subType for kval_163].
Definition K163_eqMixin := [eqMixin of K163 by <:].
Canonical K163_eqType := EqType K163 K163_eqMixin.
Lemma K163_lt (x : K163) : N.ltb (kval_163 x) 163. Proof. by case: x. Qed.

Definition kpack_163 (m : N) : K163 :=
  (if N.ltb m 163 as b return (N.ltb m 163 = b -> K163)
   then fun e => MkK_163 e else fun _ => @MkK_163 0%num isT) (erefl _).
Definition kred_163 (n : N) : K163 := kpack_163 (N.modulo n 163).
Lemma kredE_163 n : kval_163 (kred_163 n) = N.modulo n 163.
Proof.
have h : (N.modulo n 163 < 163)%num by apply: N.mod_lt.
rewrite /kred_163 /kpack_163; move: (erefl _); case: {2 3}(N.ltb _ _) => // e.
by move/N.ltb_lt: h; rewrite e.
Qed.
Lemma kvalK_163 x : kred_163 (kval_163 x) = x.
Proof. by apply: val_inj; rewrite /= kredE_163 N.mod_small //; apply/N.ltb_lt; exact: K163_lt. Qed.

Definition k_nat_163 (x : K163) : nat := N.to_nat (kval_163 x).
Lemma k_natK_163 : cancel k_nat_163 (fun n => kred_163 (N.of_nat n)).
Proof. by move=> x; rewrite /k_nat_163 N2Nat.id kvalK_163. Qed.
Definition K163_choiceMixin := CanChoiceMixin k_natK_163.
Canonical K163_choiceType := ChoiceType K163 K163_choiceMixin.

Definition kadd_163 (x y : K163) : K163 := kred_163 (kval_163 x + kval_163 y).
Definition kmul_163 (x y : K163) : K163 := kred_163 (kval_163 x * kval_163 y).
Definition kopp_163 (x : K163) : K163 := kred_163 (163 - kval_163 x).
(* n^161 *)
Definition ninv_163 (n : N) : N :=
  let q a b := N.modulo (a * b) 163 in
  let n2 := q n n in let n4 := q n2 n2 in let n8 := q n4 n4 in let n16 := q n8 n8 in
  let n32 := q n16 n16 in let n64 := q n32 n32 in let n128 := q n64 n64 in
  q n128 (q n32 n).
Definition kinv_163 (x : K163) : K163 :=
  kred_163 (ninv_163 (kval_163 x)).

Ltac kz_163 := apply: val_inj; rewrite /= !kredE_163.
Lemma kadda_163 : associative kadd_163.
Proof. by move=> x y z; kz_163; rewrite N.add_mod_idemp_r // N.add_mod_idemp_l // N.add_assoc. Qed.
Lemma kaddc_163 : commutative kadd_163.
Proof. by move=> x y; kz_163; rewrite N.add_comm. Qed.
Lemma kadd0_163 : left_id (kred_163 0) kadd_163.
Proof. by move=> x; rewrite -{2}(kvalK_163 x); kz_163. Qed.
Lemma kaddN_163 : left_inverse (kred_163 0) kopp_163 kadd_163.
Proof.
move=> x; kz_163; rewrite N.add_mod_idemp_l // N.sub_add //.
by apply: N.lt_le_incl; apply/N.ltb_lt; exact: K163_lt.
Qed.
Definition K163_zmodMixin := ZmodMixin kadda_163 kaddc_163 kadd0_163 kaddN_163.
Canonical K163_zmodType := ZmodType K163 K163_zmodMixin.
Lemma kmula_163 : associative kmul_163.
Proof. by move=> x y z; kz_163; rewrite N.mul_mod_idemp_r // N.mul_mod_idemp_l // N.mul_assoc. Qed.
Lemma kmulc_163 : commutative kmul_163.
Proof. by move=> x y; kz_163; rewrite N.mul_comm. Qed.
Lemma kmul1_163 : left_id (kred_163 1) kmul_163.
Proof. by move=> x; rewrite -{2}(kvalK_163 x); kz_163; rewrite [N.modulo 1 163]/= N.mul_1_l. Qed.
Lemma kmulD_163 : left_distributive kmul_163 kadd_163.
Proof.
by move=> x y z; kz_163; rewrite N.mul_mod_idemp_l // -N.add_mod // N.mul_add_distr_r.
Qed.
Lemma k10_163 : kred_163 1 != kred_163 0. Proof. by []. Qed.
Definition K163_ringMixin := ComRingMixin kmula_163 kmulc_163 kmul1_163 kmulD_163 k10_163.
Canonical K163_ringType := RingType K163 K163_ringMixin.
Canonical K163_comRingType := ComRingType K163 kmulc_163.
Definition all163 (P : N -> bool) : bool := all (fun n => P (N.of_nat n)) (iota 0 163).
Lemma all163P P (x : K163) : all163 P -> P (kval_163 x).
Proof.
move/allP => /(_ (N.to_nat (kval_163 x))); rewrite N2Nat.id; apply.
rewrite mem_iota add0n /=; apply/ltP.
by have /N.ltb_lt h := K163_lt x; change 163%N with (N.to_nat 163); lia.
Qed.
Lemma kmulV_163 (x : K163) : x != kred_163 0 -> kmul_163 (kinv_163 x) x = kred_163 1.
Proof.
move=> h; apply: val_inj; rewrite /kmul_163 /kinv_163 [LHS]kredE_163 [RHS]kredE_163 kredE_163.
have H : all163 (fun n => (n != 0%num) ==>
  (N.modulo (N.modulo (ninv_163 n) 163 * n) 163 == N.modulo 1 163)).
  by vm_compute.
by have /implyP K := all163P x H; apply/eqP; apply: K.
Qed.
Lemma kinv0_163 : kinv_163 (kred_163 0) = kred_163 0. Proof. by apply/eqP; vm_compute. Qed.
Definition K163_unitRingMixin := FieldUnitMixin kmulV_163 kinv0_163.
Canonical K163_unitRingType := UnitRingType K163 K163_unitRingMixin.
Canonical K163_comUnitRingType := [comUnitRingType of K163].
Definition K163_fieldMixin : GRing.Field.mixin_of K163_unitRingType.
Proof. by []. Qed.
Definition K163_idomainMixin := FieldIdomainMixin K163_fieldMixin.
Canonical K163_idomainType := IdomainType K163 K163_idomainMixin.
Canonical K163_fieldType := FieldType K163 K163_fieldMixin.

Local Open Scope ring_scope.
Lemma kval_nat_163 n : kval_163 (n%:R : K163) = N.modulo (N.of_nat n) 163.
Proof.
elim: n => [|n IH]; first by [].
by rewrite mulrS -[1 + _]/(kadd_163 _ _) /kadd_163 kredE_163 IH N.add_mod_idemp_r // Nat2N.inj_succ N.add_1_l.
Qed.
Lemma k_natrK_163 (x : K163) : (k_nat_163 x)%:R = x.
Proof.
apply: val_inj; rewrite /= kval_nat_163 /k_nat_163 N2Nat.id N.mod_small //; apply/N.ltb_lt; exact: K163_lt.
Qed.
Lemma k_nat_lt_163 (x : K163) : (k_nat_163 x < 163)%N.
Proof.
by apply/ltP; have /N.ltb_lt h := K163_lt x; change 163%N with (N.to_nat 163); rewrite /k_nat_163; lia.
Qed.
