(* Generic support (no model content): a bridge from MathComp fields to Coq's
   built-in [ring]/[field] tactics. *)
Set Warnings "-notation-overridden,-ambiguous-paths".
From mathcomp Require Import all_ssreflect all_algebra.
Require Export Ring Field.
Import GRing.Theory.
Local Open Scope ring_scope.

Section Bridge.
Variable F : fieldType.
Definition fadd (x y : F) : F := x + y.
Definition fmul (x y : F) : F := x * y.
Definition fsub (x y : F) : F := x - y.
Definition fopp (x : F) : F := - x.
Definition fdiv (x y : F) : F := x / y.
Definition finv (x : F) : F := x^-1.
Definition f0 : F := 0.
Definition f1 : F := 1.
Lemma F_ring_theory : ring_theory f0 f1 fadd fmul fsub fopp eq.
Proof.
by split; [exact:add0r|exact:addrC|exact:addrA|exact:mul1r|exact:mulrC|
  exact:mulrA|exact:mulrDl|by []|exact:subrr].
Qed.
Lemma F_field_theory : field_theory f0 f1 fadd fmul fsub fopp fdiv finv eq.
Proof.
split; [exact:F_ring_theory | by apply/eqP; rewrite oner_eq0 | by [] |
  by move=> p /eqP; exact: mulVf].
Qed.
End Bridge.
Arguments fadd {F}. Arguments fmul {F}. Arguments fsub {F}. Arguments fopp {F}.
Arguments fdiv {F}. Arguments finv {F}. Arguments f0 {F}. Arguments f1 {F}.

Fixpoint fexp {F : fieldType} (x : F) (n : nat) : F :=
  if n is n'.+1 then fmul x (fexp x n') else f1.
Fixpoint fnat {F : fieldType} (n : nat) : F :=
  if n is n'.+1 then fadd f1 (fnat n') else f0.
Lemma fexpE (F : fieldType) (x : F) n : x ^+ n = fexp x n.
Proof. by elim: n => [|n IH]; rewrite ?expr0 // exprS IH. Qed.
Lemma fnatE (F : fieldType) n : n%:R = @fnat F n.
Proof. by elim: n => [|n IH]; rewrite ?mulr0n // mulrS IH. Qed.
Lemma fmulnE (F : fieldType) (x : F) n : x *+ n = fmul x (@fnat F n).
Proof. by rewrite -mulr_natr fnatE. Qed.

Ltac fnorm F :=
  rewrite ?fexpE ?fnatE ?fmulnE; cbn [fexp fnat];
  repeat match goal with
  | |- context [@GRing.add ?V ?a (@GRing.opp ?W ?b)] => change (@GRing.add V a (@GRing.opp W b)) with (@fsub F a b)
  | |- context [@GRing.add ?V ?a ?b] => change (@GRing.add V a b) with (@fadd F a b)
  | |- context [@GRing.mul ?V ?a (@GRing.inv ?W ?b)] => change (@GRing.mul V a (@GRing.inv W b)) with (@fdiv F a b)
  | |- context [@GRing.mul ?V ?a ?b] => change (@GRing.mul V a b) with (@fmul F a b)
  | |- context [@GRing.opp ?V ?b] => change (@GRing.opp V b) with (@fopp F b)
  | |- context [@GRing.inv ?V ?b] => change (@GRing.inv V b) with (@finv F b)
  | |- context [@GRing.zero ?V] => change (@GRing.zero V) with (@f0 F)
  | |- context [@GRing.one ?V] => change (@GRing.one V) with (@f1 F)
  end;
  try match goal with |- @eq ?T ?a ?b => change (@eq (GRing.Field.sort F) a b) end.

(* The same for commutative rings (used for polynomials). *)
Section CBridge.
Variable R : comRingType.
Definition cadd (x y : R) : R := x + y.
Definition cmul (x y : R) : R := x * y.
Definition csub (x y : R) : R := x - y.
Definition copp (x : R) : R := - x.
Definition c0 : R := 0.
Definition c1 : R := 1.
Lemma C_ring_theory : ring_theory c0 c1 cadd cmul csub copp eq.
Proof.
by split; [exact:add0r|exact:addrC|exact:addrA|exact:mul1r|exact:mulrC|
  exact:mulrA|exact:mulrDl|by []|exact:subrr].
Qed.
End CBridge.
Arguments cadd {R}. Arguments cmul {R}. Arguments csub {R}. Arguments copp {R}.
Arguments c0 {R}. Arguments c1 {R}.
Fixpoint cexp {R : comRingType} (x : R) (n : nat) : R :=
  if n is n'.+1 then cmul x (cexp x n') else c1.
Fixpoint cnat {R : comRingType} (n : nat) : R :=
  if n is n'.+1 then cadd c1 (cnat n') else c0.
Lemma cexpE (R : comRingType) (x : R) n : x ^+ n = cexp x n.
Proof. by elim: n => [|n IH]; rewrite ?expr0 // exprS IH. Qed.
Lemma cnatE (R : comRingType) n : n%:R = @cnat R n.
Proof. by elim: n => [|n IH]; rewrite ?mulr0n // mulrS IH. Qed.
Ltac cnorm R :=
  repeat match goal with
  | |- context [@GRing.add ?V ?a (@GRing.opp ?W ?b)] => change (@GRing.add V a (@GRing.opp W b)) with (@csub R a b)
  | |- context [@GRing.add ?V ?a ?b] => change (@GRing.add V a b) with (@cadd R a b)
  | |- context [@GRing.mul ?V ?a ?b] => change (@GRing.mul V a b) with (@cmul R a b)
  | |- context [@GRing.opp ?V ?b] => change (@GRing.opp V b) with (@copp R b)
  | |- context [@GRing.zero ?V] => change (@GRing.zero V) with (@c0 R)
  | |- context [@GRing.one ?V] => change (@GRing.one V) with (@c1 R)
  end;
  try match goal with |- @eq ?T ?a ?b => change (@eq (GRing.ComRing.sort R) a b) end.
