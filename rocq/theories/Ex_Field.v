(* The field with 97 elements on binary integers, built so that vm_compute is fast on it.
   Used only in examples (97 - 1 = 2^5 * 3: it has a 32nd and a cube root of unity). *)
Set Warnings "-notation-overridden,-ambiguous-paths".
From Coq Require Import ZArith NArith Nnat Lia.
From mathcomp Require Import all_ssreflect all_algebra.
Import GRing.Theory.
Set Implicit Arguments.
Unset Strict Implicit.

Record K97 : Type := MkK { kval : N; _ : N.ltb kval 97 }.
Canonical K97_subType := [subType for kval].
Definition K97_eqMixin := [eqMixin of K97 by <:].
Canonical K97_eqType := EqType K97 K97_eqMixin.
Lemma K97_lt (x : K97) : N.ltb (kval x) 97. Proof. by case: x. Qed.

Definition kpack (m : N) : K97 :=
  (if N.ltb m 97 as b return (N.ltb m 97 = b -> K97)
   then fun e => MkK e else fun _ => @MkK 0%num isT) (erefl _).
Definition kred (n : N) : K97 := kpack (N.modulo n 97).
Lemma kredE n : kval (kred n) = N.modulo n 97.
Proof.
have h : (N.modulo n 97 < 97)%num by apply: N.mod_lt.
rewrite /kred /kpack; move: (erefl _); case: {2 3}(N.ltb _ _) => // e.
by move/N.ltb_lt: h; rewrite e.
Qed.
Lemma kvalK x : kred (kval x) = x.
Proof. by apply: val_inj; rewrite /= kredE N.mod_small //; apply/N.ltb_lt; exact: K97_lt. Qed.

Definition k_nat (x : K97) : nat := N.to_nat (kval x).
Lemma k_natK : cancel k_nat (fun n => kred (N.of_nat n)).
Proof. by move=> x; rewrite /k_nat N2Nat.id kvalK. Qed.
Definition K97_choiceMixin := CanChoiceMixin k_natK.
Canonical K97_choiceType := ChoiceType K97 K97_choiceMixin.

Definition kadd (x y : K97) : K97 := kred (kval x + kval y).
Definition kmul (x y : K97) : K97 := kred (kval x * kval y).
Definition kopp (x : K97) : K97 := kred (97 - kval x).
(* n^95 *)
Definition ninv (n : N) : N :=
  let q a b := N.modulo (a * b) 97 in
  let n3 := q (q n n) n in let n7 := q (q n3 n3) n in let n15 := q (q n7 n7) n in let n31 := q (q n15 n15) n in
  let n32 := q n31 n in q (q n32 n32) n31.
Definition kinv (x : K97) : K97 :=
  kred (ninv (kval x)).

Ltac kz := apply: val_inj; rewrite /= !kredE.
Lemma kadda : associative kadd.
Proof. by move=> x y z; kz; rewrite N.add_mod_idemp_r // N.add_mod_idemp_l // N.add_assoc. Qed.
Lemma kaddc : commutative kadd.
Proof. by move=> x y; kz; rewrite N.add_comm. Qed.
Lemma kadd0 : left_id (kred 0) kadd.
Proof. by move=> x; rewrite -{2}(kvalK x); kz. Qed.
Lemma kaddN : left_inverse (kred 0) kopp kadd.
Proof.
move=> x; kz; rewrite N.add_mod_idemp_l // N.sub_add //.
by apply: N.lt_le_incl; apply/N.ltb_lt; exact: K97_lt.
Qed.
Definition K97_zmodMixin := ZmodMixin kadda kaddc kadd0 kaddN.
Canonical K97_zmodType := ZmodType K97 K97_zmodMixin.
Lemma kmula : associative kmul.
Proof. by move=> x y z; kz; rewrite N.mul_mod_idemp_r // N.mul_mod_idemp_l // N.mul_assoc. Qed.
Lemma kmulc : commutative kmul.
Proof. by move=> x y; kz; rewrite N.mul_comm. Qed.
Lemma kmul1 : left_id (kred 1) kmul.
Proof. by move=> x; rewrite -{2}(kvalK x); kz; rewrite [N.modulo 1 97]/= N.mul_1_l. Qed.
Lemma kmulD : left_distributive kmul kadd.
Proof.
by move=> x y z; kz; rewrite N.mul_mod_idemp_l // -N.add_mod // N.mul_add_distr_r.
Qed.
Lemma k10 : kred 1 != kred 0. Proof. by []. Qed.
Definition K97_ringMixin := ComRingMixin kmula kmulc kmul1 kmulD k10.
Canonical K97_ringType := RingType K97 K97_ringMixin.
Canonical K97_comRingType := ComRingType K97 kmulc.
Definition all97 (P : N -> bool) : bool := all (fun n => P (N.of_nat n)) (iota 0 97).
Lemma all97P P (x : K97) : all97 P -> P (kval x).
Proof.
move/allP => /(_ (N.to_nat (kval x))); rewrite N2Nat.id; apply.
rewrite mem_iota add0n /=; apply/ltP.
by have /N.ltb_lt h := K97_lt x; change 97%N with (N.to_nat 97); lia.
Qed.
Lemma kmulV (x : K97) : x != kred 0 -> kmul (kinv x) x = kred 1.
Proof.
move=> h; apply: val_inj; rewrite /kmul /kinv [LHS]kredE [RHS]kredE kredE.
have H : all97 (fun n => (n != 0%num) ==>
  (N.modulo (N.modulo (ninv n) 97 * n) 97 == N.modulo 1 97)).
  by vm_compute.
by have /implyP K := all97P x H; apply/eqP; apply: K.
Qed.
Lemma kinv0 : kinv (kred 0) = kred 0. Proof. by apply/eqP; vm_compute. Qed.
Definition K97_unitRingMixin := FieldUnitMixin kmulV kinv0.
Canonical K97_unitRingType := UnitRingType K97 K97_unitRingMixin.
Canonical K97_comUnitRingType := [comUnitRingType of K97].
Definition K97_fieldMixin : GRing.Field.mixin_of K97_unitRingType.
Proof. by []. Qed.
Definition K97_idomainMixin := FieldIdomainMixin K97_fieldMixin.
Canonical K97_idomainType := IdomainType K97 K97_idomainMixin.
Canonical K97_fieldType := FieldType K97 K97_fieldMixin.

Local Open Scope ring_scope.
Lemma kval_nat n : kval (n%:R : K97) = N.modulo (N.of_nat n) 97.
Proof.
elim: n => [|n IH]; first by [].
by rewrite mulrS -[1 + _]/(kadd _ _) /kadd kredE IH N.add_mod_idemp_r // Nat2N.inj_succ N.add_1_l.
Qed.
Lemma k_natrK (x : K97) : (k_nat x)%:R = x.
Proof.
apply: val_inj; rewrite /= kval_nat /k_nat N2Nat.id N.mod_small //; apply/N.ltb_lt; exact: K97_lt.
Qed.
Lemma k_nat_lt (x : K97) : (k_nat x < 97)%N.
Proof.
by apply/ltP; have /N.ltb_lt h := K97_lt x; change 97%N with (N.to_nat 97); rewrite /k_nat; lia.
Qed.
