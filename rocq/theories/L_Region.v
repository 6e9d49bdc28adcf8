(* Evaluating expressions at a row, and reading the calls of region programs. *)
Set Warnings "-notation-overridden,-ambiguous-paths".
From mathcomp Require Import all_ssreflect all_algebra.
From Verif Require Import Util M_Env M_Assigned P_Assigned M_Circuit S_Circuit M_Value M_Region S_Region M_Utilities.
Import GRing.Theory.
Set Implicit Arguments.
Unset Strict Implicit.
Local Open Scope ring_scope.

Section Rows.
Variables (F : fieldType) (T : table F) (row : int).
Implicit Types a b e : expr F.
Lemma at_const c : at_row T row (EConstant c) = c.
Proof. by rewrite /at_row /meaning /= -[LHS]/(c * 1) mulr1. Qed.
Lemma at_sel s simple : at_row T row (ESelector F s simple) = (t_selector T s row)%:R. Proof. by []. Qed.
Lemma at_adv i c r : at_row T row (EAdvice F i c r) = t_cell T Advice c (row + r). Proof. by []. Qed.
Lemma at_fixed i c r : at_row T row (EFixed F i c r) = t_cell T Fixed c (row + r). Proof. by []. Qed.
Lemma at_inst i c r : at_row T row (EInstance F i c r) = t_cell T Instance c (row + r). Proof. by []. Qed.
Lemma at_neg a : at_row T row (ENegated a) = - at_row T row a. Proof. by []. Qed.
Lemma at_sum a b : at_row T row (ESum a b) = at_row T row a + at_row T row b. Proof. by []. Qed.
Lemma at_mul a b : at_row T row (EProduct a b) = at_row T row a * at_row T row b. Proof. by []. Qed.
Lemma at_scale a c : at_row T row (EScaled a c) = c * at_row T row a. Proof. by []. Qed.
Lemma at_sub a b : at_row T row (esub a b) = at_row T row a - at_row T row b. Proof. by []. Qed.
Definition rowE := (at_const, at_sel, at_adv, at_fixed, at_inst, at_sub, at_neg, at_sum, at_mul, at_scale).
End Rows.

Lemma gate_at (F : fieldType) (T : table F) gs row g : gates_hold T gs -> List.In g gs -> at_row T row g = 0.
Proof.
move=> /(_ row); elim: gs => [|g' gs IH] //= /andP[/eqP h hs] [<- //|hin]; exact: IH.
Qed.

Section Calls.
Variable F : fieldType.
Lemma respects_cat (T : table F) place r (a b : seq (rop F)) :
  respects T place r (a ++ b) <-> respects T place r a /\ respects T place r b.
Proof. exact: List.Forall_app. Qed.
Lemma respects_cons (T : table F) place r o (b : seq (rop F)) :
  respects T place r (o :: b) <-> respects_op T place r o /\ respects T place r b.
Proof. exact: List.Forall_cons_iff. Qed.
Lemma honest_cat (T : table F) place r (a b : seq (rop F)) :
  honest T place r (a ++ b) <-> honest T place r a /\ honest T place r b.
Proof. exact: List.Forall_app. Qed.
Lemma honest_cons (T : table F) place r o (b : seq (rop F)) :
  honest T place r (o :: b) <-> honest_op T place r o /\ honest T place r b.
Proof. exact: List.Forall_cons_iff. Qed.
Lemma enabled_cat (a b : seq (rop F)) s o : enabled_in (a ++ b) s o = enabled_in a s o || enabled_in b s o.
Proof. exact: has_cat. Qed.

(* the selector loop *)
Lemma enable_rowsE inst s off n :
  calls inst (enable_rows F s off n) = [seq OEnable s (off + i) | i <- iota 0 n] /\
  returns inst (enable_rows F s off n) = Ok tt.
Proof. by rewrite /enable_rows; elim: (iota 0 n) => //= i l [-> ->]. Qed.
Lemma enabled_rows s off n s' o :
  enabled_in [seq (OEnable s (off + i) : rop F) | i <- iota 0 n] s' o = (s == s') && (off <= o < off + n)%N.
Proof.
rewrite /enabled_in has_map; apply/hasP/idP => [[i]|/andP[hs /andP[h1 h2]]] /=.
  by rewrite mem_iota add0n => /andP[_ hi] /andP[-> /eqP <-]; rewrite leq_addr ltn_add2l.
exists (o - off)%N; last by rewrite hs subnKC //=.
by rewrite mem_iota add0n /= -(ltn_add2l off) subnKC.
Qed.
Lemma respects_rows (T : table F) place r s off n i :
  respects T place r [seq OEnable s (off + i) | i <- iota 0 n] -> (i < n)%N ->
  t_selector T s (place r + (off + i)%:Z).
Proof.
rewrite /respects List.Forall_forall => /(_ (OEnable s (off + i))) h hi; apply: h.
by apply: List.in_map; apply/List.in_seq; split; apply/leP; rewrite // add0n.
Qed.
End Calls.
