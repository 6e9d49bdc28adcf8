(* C09, C10: Assigned<F> and batch inversion. *)
Set Warnings "-notation-overridden,-ambiguous-paths".
From mathcomp Require Import all_ssreflect all_algebra.
From Verif Require Import FieldTac Util M_Poly M_Assigned.
Import GRing.Theory.
Set Implicit Arguments.
Unset Strict Implicit.
Local Open Scope ring_scope.

(* Specification: the field element denoted by an assigned value; x/0 denotes 0. *)
Definition denote (F : fieldType) (a : assigned F) : F :=
  match a with
  | AZero => 0
  | ATrivial x => x
  | ARational n d => if d == 0 then 0 else n / d
  end.

Section S.
Variable F : fieldType.
Add Field Ff : (F_field_theory F).
Implicit Types a b : assigned F.

Ltac fin := fnorm F; field; repeat split; by apply/eqP.

Lemma eq_div (x y n : F) : y != 0 -> (x == n / y) = (x * y == n).
Proof. by move=> y0; rewrite -(inj_eq (mulIf y0)) mulfVK. Qed.
Lemma div0P (n d : F) : ((if d == 0 then 0 else n / d) == 0) = (n == 0) || (d == 0).
Proof.
by case: (eqVneq d 0) => d0; rewrite ?eqxx ?orbT // mulf_eq0 invr_eq0 (negbTE d0).
Qed.

Theorem C09_evaluate a : a_evaluate a = denote a.
Proof.
case: a => //= n d; rewrite /ff_invert; case: eqP => [->|_]; first by rewrite oner_eq0 divr1.
by case: (eqVneq d 0) => //=; rewrite mulr0.
Qed.

Theorem C09_is_zero a : a_is_zero a = (denote a == 0).
Proof. by case: a => [|x|n d] /=; rewrite ?eqxx // div0P. Qed.

Theorem C09_eq a b : a_eq a b = (denote a == denote b).
Proof.
case: a => [|x|n d]; case: b => [|y|m e] //=; rewrite ?eqxx ?[0 == _]eq_sym ?div0P //.
- by case: ifP => // /negbT h; rewrite eq_div.
- by case: ifP => [_|/negbT h]; rewrite 1?[0 == _]eq_sym // [_ / _ == _]eq_sym eq_div.
case: ifP => [_|/negbT hd]; first by rewrite [0 == _]eq_sym div0P.
case: ifP => [_|/negbT he].
  by rewrite mulf_eq0 invr_eq0.
rewrite eq_div // mulrAC -[RHS](inj_eq (mulIf hd)) mulfVK // [m * d]mulrC //.
Qed.

Theorem C09_neg a : denote (a_neg a) = - denote a.
Proof. by case: a => [|x|n d] /=; rewrite ?oppr0 //; case: ifP; rewrite ?oppr0 ?mulNr. Qed.

Theorem C09_add a b : denote (a_add a b) = denote a + denote b.
Proof.
case: a => [|x|n d]; case: b => [|y|m e] //=; rewrite ?add0r ?addr0 //.
- by case: eqP => [_|/eqP h] /=; rewrite ?addr0 // (negbTE h); fin.
- by case: eqP => [_|/eqP h] /=; rewrite ?add0r // (negbTE h); fin.
case: eqP => [_|/eqP h] /=; first by rewrite add0r.
case: eqP => [_|/eqP h'] /=; rewrite ?(negbTE h) ?addr0 //.
rewrite mulf_eq0 (negbTE h) (negbTE h') /=; fin.
Qed.

Theorem C09_sub a b : denote (a_sub a b) = denote a - denote b.
Proof. by rewrite /a_sub C09_add C09_neg. Qed.

Theorem C09_mul a b : denote (a_mul a b) = denote a * denote b.
Proof.
case: a => [|x|n d]; case: b => [|y|m e] //=; rewrite ?mul0r ?mulr0 //.
- by case: eqP => [_|/eqP h]; rewrite ?mulr0 //; fin.
- by case: eqP => [_|/eqP h]; rewrite ?mul0r //; fin.
rewrite mulf_eq0; case: eqP => [_|/eqP h] /=; first by rewrite mul0r.
by case: eqP => [_|/eqP h'] /=; rewrite ?mulr0 //; fin.
Qed.

Theorem C09_field_operand a (f : F) :
  denote (a_add_f a f) = denote a + f /\ denote (a_sub_f a f) = denote a - f /\
  denote (a_mul_f a f) = denote a * f.
Proof. by rewrite /a_sub_f !C09_add C09_mul. Qed.

Theorem C09_double a : denote (a_double a) = denote a + denote a.
Proof. by case: a => [|x|n d] /=; rewrite ?addr0 //; case: ifP; rewrite ?addr0 ?mulrDl. Qed.

Theorem C09_square a : denote (a_square a) = denote a * denote a.
Proof. by rewrite -C09_mul; case: a. Qed.

Theorem C09_cube a : denote (a_cube a) = denote a ^+ 3.
Proof. by rewrite /a_cube C09_mul C09_square !exprS expr0 mulr1 mulrA. Qed.

(* inverse of zero is zero (MathComp's 0^-1 = 0; stated explicitly) *)
Theorem C09_invert a :
  denote (a_invert a) = (if denote a == 0 then 0 else 1 / denote a).
Proof.
case: a => [|x|n d] /=; rewrite ?eqxx // div0P.
case: (eqVneq n 0) => //= h; case: (eqVneq d 0) => [->|h'] /=; first by rewrite mul0r.
by fin.
Qed.

Theorem C09_zero_denominator (n : F) : a_evaluate (ARational n 0) = 0.
Proof. by rewrite C09_evaluate /= eqxx. Qed.

(* Batch inversion *)
Lemma write_back_colE (ds : seq (option F)) (f : F -> F) vs :
  write_back_col ds (map f (pmap id ds) ++ vs) = (map (omap f) ds, vs).
Proof. by elim: ds => //= -[d|] ds /= ->. Qed.

Lemma write_backE (dss : seq (seq (option F))) (f : F -> F) :
  write_back dss (map f (nontrivial dss)) = map (map (omap f)) dss.
Proof.
elim: dss => //= ds dss IH; rewrite /nontrivial /= map_cat write_back_colE.
by congr (_ :: _).
Qed.

Theorem C10_batch_invert_assigned (cols : seq (seq (assigned F))) :
  batch_invert_assigned cols = Some [seq [seq a_evaluate v | v <- col] | col <- cols].
Proof.
rewrite /batch_invert_assigned /batch_invert write_backE.
elim: cols => //= col cols ->.
rewrite /poly_invert !size_map eqxx /=; congr (Some (_ :: _)).
elim: col => //= v col ->; congr (_ :: _).
rewrite C09_evaluate; case: v => [|x|n d] /=; rewrite ?mulr1 //.
by case: (eqVneq d 0) => // ->; rewrite invr0 mulr0.
Qed.
End S.

Print Assumptions C09_eq.
Print Assumptions C09_add.
Print Assumptions C09_mul.
Print Assumptions C09_invert.
Print Assumptions C10_batch_invert_assigned.

(* a mixed batch with a zero denominator *)
Example batch_example :
  batch_invert_assigned [:: [:: ARational 1 0; @AZero [fieldType of 'F_7]; ARational 1 (2%:R)];
                            [:: ATrivial (3%:R); ARational (3%:R) (2%:R)]]
  == Some [:: [:: 0; 0; 4%:R]; [:: 3%:R; 5%:R]].
Proof. by vm_compute. Qed.
