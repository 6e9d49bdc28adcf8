(* The field with 181 elements on binary integers; see Ex_Field.v.  Used only in examples. *)
Set Warnings "-notation-overridden,-ambiguous-paths".
From Coq Require Import ZArith NArith Nnat Lia.
From mathcomp Require Import all_ssreflect all_algebra.
Import GRing.Theory.
Set Implicit Arguments.
Unset Strict Implicit.

Record K181 : Type := MkK_181 { kval_181 : N; _ : N.ltb kval_181 181 }.
Canonical K181_subType := [subType for kval_181].
Definition K181_eqMixin := [eqMixin of K181 by <:].
Canonical K181_eqType := EqType K181 K181_eqMixin.
Lemma K181_lt (x : K181) : N.ltb (kval_181 x) 181. Proof. by case: x. Qed.

Definition kpack_181 (m : N) : K181 :=
  (if N.ltb m 181 as b return (N.ltb m 181 = b -> K181)
   then fun e => MkK_181 e else fun _ => @MkK_181 0%num isT) (erefl _).
Definition kred_181 (n : N) : K181 := kpack_181 (N.modulo n 181).
Lemma kredE_181 n : kval_181 (kred_181 n) = N.modulo n 181.
Proof.
have h : (N.modulo n 181 < 181)%num by apply: N.mod_lt.
rewrite /kred_181 /kpack_181; move: (erefl _); case: {2 3}(N.ltb _ _) => // e.
by move/N.ltb_lt: h; rewrite e.
Qed.
Lemma kvalK_181 x : kred_181 (kval_181 x) = x.
Proof. by apply: val_inj; rewrite /= kredE_181 N.mod_small //; apply/N.ltb_lt; exact: K181_lt. Qed.

Definition k_nat_181 (x : K181) : nat := N.to_nat (kval_181 x).
Lemma k_natK_181 : cancel k_nat_181 (fun n => kred_181 (N.of_nat n)).
Proof. by move=> x; rewrite /k_nat_181 N2Nat.id kvalK_181. Qed.
Definition K181_choiceMixin := CanChoiceMixin k_natK_181.
Canonical K181_choiceType := ChoiceType K181 K181_choiceMixin.

Definition kadd_181 (x y : K181) : K181 := kred_181 (kval_181 x + kval_181 y).
Definition kmul_181 (x y : K181) : K181 := kred_181 (kval_181 x * kval_181 y).
Definition kopp_181 (x : K181) : K181 := kred_181 (181 - kval_181 x).
(* n^179 *)
Definition ninv_181 (n : N) : N :=
  let q a b := N.modulo (a * b) 181 in
  let n2 := q n n in let n4 := q n2 n2 in let n8 := q n4 n4 in let n16 := q n8 n8 in
  let n32 := q n16 n16 in let n64 := q n32 n32 in let n128 := q n64 n64 in
  q n128 (q n32 (q n16 (q n2 n))).
Definition kinv_181 (x : K181) : K181 :=
  kred_181 (ninv_181 (kval_181 x)).

Ltac kz_181 := apply: val_inj; rewrite /= !kredE_181.
Lemma kadda_181 : associative kadd_181.
Proof. by move=> x y z; kz_181; rewrite N.add_mod_idemp_r // N.add_mod_idemp_l // N.add_assoc. Qed.
Lemma kaddc_181 : commutative kadd_181.
Proof. by move=> x y; kz_181; rewrite N.add_comm. Qed.
Lemma kadd0_181 : left_id (kred_181 0) kadd_181.
Proof. by move=> x; rewrite -{2}(kvalK_181 x); kz_181. Qed.
Lemma kaddN_181 : left_inverse (kred_181 0) kopp_181 kadd_181.
Proof.
move=> x; kz_181; rewrite N.add_mod_idemp_l // N.sub_add //.
by apply: N.lt_le_incl; apply/N.ltb_lt; exact: K181_lt.
Qed.
Definition K181_zmodMixin := ZmodMixin kadda_181 kaddc_181 kadd0_181 kaddN_181.
Canonical K181_zmodType := ZmodType K181 K181_zmodMixin.
Lemma kmula_181 : associative kmul_181.
Proof. by move=> x y z; kz_181; rewrite N.mul_mod_idemp_r // N.mul_mod_idemp_l // N.mul_assoc. Qed.
Lemma kmulc_181 : commutative kmul_181.
Proof. by move=> x y; kz_181; rewrite N.mul_comm. Qed.
Lemma kmul1_181 : left_id (kred_181 1) kmul_181.
Proof. by move=> x; rewrite -{2}(kvalK_181 x); kz_181; rewrite [N.modulo 1 181]/= N.mul_1_l. Qed.
Lemma kmulD_181 : left_distributive kmul_181 kadd_181.
Proof.
by move=> x y z; kz_181; rewrite N.mul_mod_idemp_l // -N.add_mod // N.mul_add_distr_r.
Qed.
Lemma k10_181 : kred_181 1 != kred_181 0. Proof. by []. Qed.
Definition K181_ringMixin := ComRingMixin kmula_181 kmulc_181 kmul1_181 kmulD_181 k10_181.
Canonical K181_ringType := RingType K181 K181_ringMixin.
Canonical K181_comRingType := ComRingType K181 kmulc_181.
Definition all181 (P : N -> bool) : bool := all (fun n => P (N.of_nat n)) (iota 0 181).
Lemma all181P P (x : K181) : all181 P -> P (kval_181 x).
Proof.
move/allP => /(_ (N.to_nat (kval_181 x))); rewrite N2Nat.id; apply.
rewrite mem_iota add0n /=; apply/ltP.
by have /N.ltb_lt h := K181_lt x; change 181%N with (N.to_nat 181); lia.
Qed.
Lemma kmulV_181 (x : K181) : x != kred_181 0 -> kmul_181 (kinv_181 x) x = kred_181 1.
Proof.
move=> h; apply: val_inj; rewrite /kmul_181 /kinv_181 [LHS]kredE_181 [RHS]kredE_181 kredE_181.
have H : all181 (fun n => (n != 0%num) ==>
  (N.modulo (N.modulo (ninv_181 n) 181 * n) 181 == N.modulo 1 181)).
  by vm_compute.
by have /implyP K := all181P x H; apply/eqP; apply: K.
Qed.
Lemma kinv0_181 : kinv_181 (kred_181 0) = kred_181 0. Proof. by apply/eqP; vm_compute. Qed.
Definition K181_unitRingMixin := FieldUnitMixin kmulV_181 kinv0_181.
Canonical K181_unitRingType := UnitRingType K181 K181_unitRingMixin.
Canonical K181_comUnitRingType := [comUnitRingType of K181].
Definition K181_fieldMixin : GRing.Field.mixin_of K181_unitRingType.
Proof. by []. Qed.
Definition K181_idomainMixin := FieldIdomainMixin K181_fieldMixin.
Canonical K181_idomainType := IdomainType K181 K181_idomainMixin.
Canonical K181_fieldType := FieldType K181 K181_fieldMixin.

Local Open Scope ring_scope.
Lemma kval_nat_181 n : kval_181 (n%:R : K181) = N.modulo (N.of_nat n) 181.
Proof.
elim: n => [|n IH]; first by [].
by rewrite mulrS -[1 + _]/(kadd_181 _ _) /kadd_181 kredE_181 IH N.add_mod_idemp_r // Nat2N.inj_succ N.add_1_l.
Qed.
Lemma k_natrK_181 (x : K181) : (k_nat_181 x)%:R = x.
Proof.
apply: val_inj; rewrite /= kval_nat_181 /k_nat_181 N2Nat.id N.mod_small //; apply/N.ltb_lt; exact: K181_lt.
Qed.
Lemma k_nat_lt_181 (x : K181) : (k_nat_181 x < 181)%N.
Proof.
by apply/ltP; have /N.ltb_lt h := K181_lt x; change 181%N with (N.to_nat 181); rewrite /k_nat_181; lia.
Qed.
