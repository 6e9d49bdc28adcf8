(* A concrete environment over F_97 (scalars, coordinates and points), used only to show
   that the hypotheses of the theorems can be met. *)
Set Warnings "-notation-overridden,-ambiguous-paths".
From mathcomp Require Import all_ssreflect all_algebra.
From Verif Require Import Util M_FFT M_Multiexp M_Poly M_Domain P_Multiexp P_Domain M_Env Ex_Field.
Import GRing.Theory.
Set Implicit Arguments.
Unset Strict Implicit.
Local Open Scope ring_scope.

Definition F97 := K97_fieldType.
Definition G97 := [lmodType F97 of F97^o].
Definition repr97 (x : F97) : seq nat := k_nat x :: nseq 31 0%N.
Definition from_repr97 (b : seq nat) : option F97 :=
  let x := (head 0%N b)%:R : F97 in if repr97 x == b then Some x else None.
Lemma repr97_ok : le_repr repr97.
Proof.
move=> x; split=> //; split.
  rewrite /= (leq_trans (k_nat_lt x)) //.
rewrite big_ord_recl expn0 muln1 big1 ?addn0 /=; first exact: k_natrK.
by move=> i _; rewrite -[X in nth _ X]/(nseq 31 0%N) nth_nseq if_same mul0n.
Qed.
Lemma repr97K x : from_repr97 (repr97 x) = Some x.
Proof. by rewrite /from_repr97 [head _ _]/= k_natrK eqxx. Qed.
Lemma repr97_canon b x : from_repr97 b = Some x -> repr97 x = b.
Proof. by rewrite /from_repr97; case: eqP => // e [<-]. Qed.
Lemma repr97_inj : injective repr97.
Proof. by move=> x y /(congr1 from_repr97); rewrite !repr97K => [[]]. Qed.

Section Coords.
Variable F : fieldType.
Definition sq_coords (P : F) : option (F * F) := if P == 0 then None else Some (P ^+ 2, P).
Definition sq_from_xy (x y : F) : option F := if (y != 0) && (y ^+ 2 == x) then Some y else None.
Lemma sq_coords0 P : (sq_coords P == None) = (P == 0).
Proof. by rewrite /sq_coords; case: (P == 0). Qed.
Lemma sq_coordsE P Q x y y' : sq_coords P = Some (x, y) -> sq_coords Q = Some (x, y') ->
  (y' == y) && (Q == P) || (y' == - y) && (Q == - P).
Proof.
rewrite /sq_coords; case: eqP => // _ [<- <-]; case: eqP => // _ [/eqP + <-].
by rewrite eqf_sqr => /orP [] /eqP ->; rewrite !eqxx ?orbT.
Qed.
Lemma sq_from_xyE x y P : sq_from_xy x y = Some P <-> sq_coords P = Some (x, y).
Proof.
rewrite /sq_from_xy /sq_coords; split.
  by case: ifP => // /andP [/negbTE h /eqP <-] [<-]; rewrite h.
by case: eqP => // /eqP h [<- <-]; rewrite h eqxx.
Qed.
End Coords.

Definition E97 : @env F97 F97 G97 :=
  @Env F97 F97 G97 2 (fun _ => 4%N)
  (fun _ bs => sched_of (iota 0 (256 %/ window (fun _ => 4%N) (size bs)).+1))
  repr97 from_repr97 repr97 (repr97 : G97 -> seq nat) (from_repr97 : seq nat -> option G97)
  (@sq_coords F97 : G97 -> option (F97 * F97)) (@sq_from_xy F97 : F97 -> F97 -> option G97)
  (fun b => (sumn b).+1%:R) (fun b => b) (fun b => (sumn b %% 96).+1%:R) (fun n => (n.+3)%:R)
  28%:R 35%:R 5 35%:R (fun x y => k_nat x <= k_nat y)%N.

Lemma constants97 : field_constants (28%:R : F97) 35%:R 5.
Proof. by apply: field_constants_intro; vm_compute. Qed.

Lemma E97_ok : env_ok E97.
Proof.
constructor.
- by [].
- by [].
- by move=> cs bs; exact: C01_sched_ok.
- exact: repr97_ok.
- exact: repr97K.
- exact: repr97_canon.
- by move=> x; exact: (proj1 (repr97_ok x)).
- exact: repr97_inj.
- by move=> x; exact: (proj1 (repr97_ok x)).
- exact: repr97K.
- exact: repr97_canon.
- exact: sq_coords0.
- exact: sq_coordsE.
- exact: sq_from_xyE.
- exact: (proj1 constants97).
- exact: (proj2 constants97).
- by move=> x y; exact: leq_total.
- by move=> y x z; exact: leq_trans.
move=> x y h; have e : k_nat x = k_nat y by apply/eqP; rewrite eqn_leq.
by rewrite -(k_natrK x) e k_natrK.
Qed.

(* its challenges are never zero *)
Lemma E97_nz st : e_uniform E97 (e_blake E97 st) != 0.
Proof.
rewrite /e_uniform /e_blake /= -val_eqE /= kval_nat.
have : (sumn st %% 96 < 96)%N by rewrite ltn_mod.
by move: (_ %% 96)%N => m; do 96?[case: m => [|m] //].
Qed.
