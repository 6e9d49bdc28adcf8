(* The lookup expressions vanish on the domain iff the row constraints hold. *)
Set Warnings "-notation-overridden,-ambiguous-paths".
From mathcomp Require Import all_ssreflect all_algebra.
From Verif Require Import Util M_Poly M_Domain L_Domain M_Assigned M_Evaluator S_Evaluator L_Evaluator P_Evaluator
  M_Env M_Transcript M_Commit M_Multiopen M_Circuit M_Selectors L_Selectors M_Keys M_Permutation M_Lookup L_Sigma
  S_Permutation L_PermRows S_Plonk L_Expr L_LookupMath.
Import GRing.Theory.
Set Implicit Arguments.
Unset Strict Implicit.
Local Open Scope ring_scope.

Section R.
Variables (F : fieldType) (k : nat) (w : F).
Notation n := (2 ^ k)%N.
Hypothesis hw : n.-primitive_root w.
Variable u : nat.
Hypotheses (un : (u < n)%N).
Variables (P : nat -> {poly F}) (l0 l_blind l_last : nat) (beta gamma : F) (c : lcommitted F).
Notation row p i := (P p).[w ^+ i].
Hypothesis h_l0 : forall i, (i < n)%N -> row l0 i = (i == 0%N)%:R.
Hypothesis h_l_last : forall i, (i < n)%N -> row l_last i = (i == u)%:R.
Hypothesis h_l_blind : forall i, (i < n)%N -> row l_blind i = (u < i)%:R.
Notation p := (lc_permuted c).
Variables A S : nat -> F.
Hypothesis hA : forall i, (i < n)%N -> expr_at w P (w ^+ i) (lp_input_coset p) = A i.
Hypothesis hS : forall i, (i < n)%N -> expr_at w P (w ^+ i) (lp_table_coset p) = S i.

Lemma prev_row i : (i < n)%N -> w ^ rot_prev * w ^+ i = w ^+ ((i + n).-1 %% n).
Proof.
have n0 : (0 < n)%N by rewrite expn_gt0.
move=> hi; rewrite (prim_expr_mod hw) /rot_prev.
apply: (mulfI (x := w)); first by rewrite (prim_neq0 hw).
rewrite -exprS prednK ?addn_gt0 ?n0 ?orbT // exprD (prim_expr_order hw) mulr1 mulrA.
by rewrite exprN1 mulfV ?mul1r // (prim_neq0 hw).
Qed.
Lemma next_row i : w ^ rot_next * w ^+ i = w ^+ (i.+1 %% n).
Proof. by rewrite (prim_expr_mod hw) /rot_next expr1z -exprS. Qed.

Lemma lookup_construct_rows : (0 < u)%N ->
  vanish_on_domain w n P (lookup_construct beta gamma l0 l_blind l_last c) <->
  lookup_rows u n beta gamma (fun i => row (lc_leaf c) i) (fun i => row (lp_pinput_leaf p) i)
    (fun i => row (lp_ptable_leaf p) i) A S.
Proof.
move=> u0; have n0 : (0 < n)%N by rewrite expn_gt0.
have rb (b : bool) (x : F) : (x * b%:R == 0) = ~~ b || (x == 0).
  by case: b; rewrite ?mulr1 ?mulr0 ?eqxx.
have act i : (1 - ((i == u)%:R + (u < i)%:R) : F) = (i < u)%:R.
  by case: ltngtP => h; rewrite ?mulr0n ?mulr1n ?addr0 ?add0r ?subr0 ?subrr.
have E i : (i < n)%N -> all (fun a => expr_at w P (w ^+ i) a == 0) (lookup_construct beta gamma l0 l_blind l_last c) =
  [&& (i != 0%N) || (1 - row (lc_leaf c) i == 0),
      (i != u) || (row (lc_leaf c) i ^+ 2 - row (lc_leaf c) i == 0),
      ~~ (i < u)%N || (row (lc_leaf c) (i.+1 %% n) * (row (lp_pinput_leaf p) i + beta) * (row (lp_ptable_leaf p) i + gamma)
        - row (lc_leaf c) i * (A i + beta) * (S i + gamma) == 0),
      (i != 0%N) || (row (lp_pinput_leaf p) i - row (lp_ptable_leaf p) i == 0) &
      ~~ (i < u)%N || ((row (lp_pinput_leaf p) i - row (lp_ptable_leaf p) i) *
         (row (lp_pinput_leaf p) i - row (lp_pinput_leaf p) ((i + n).-1 %% n)) == 0)].
  move=> hi; rewrite /lookup_construct /= !atE hA // hS // h_l0 // h_l_last // h_l_blind // act next_row prev_row //.
  by rewrite !rb expr2 andbT.
have eqs (x y : F) : (x - y == 0) = (x == y) by rewrite subr_eq0.
split=> [h|[h1 h2 h3 h4 h5] i hi].
  split.
  - by have := h _ n0; rewrite E // => /and5P [+ _ _ _ _]; rewrite eqs /= => /eqP <-.
  - by have := h _ un; rewrite E // => /and5P [_ + _ _ _]; rewrite eqs eqxx /= => /eqP.
  - move=> i hi; have := h i (ltn_trans hi un); rewrite E ?(ltn_trans hi un) // => /and5P [_ _ + _ _].
    by rewrite eqs hi /= modn_small ?(leq_ltn_trans hi un) // => /eqP.
  - by have := h _ n0; rewrite E // => /and5P [_ _ _ + _]; rewrite eqs /= => /eqP.
  move=> i hi; have := h i (ltn_trans hi un); rewrite E ?(ltn_trans hi un) // => /and5P [_ _ _ _].
  by rewrite hi /= mulf_eq0 !eqs => /orP [/eqP|/eqP]; [left|right].
rewrite E //; apply/and5P; split; rewrite ?eqs.
- by case: eqP => //= ->; rewrite h1.
- by case: eqP => //= ->; rewrite h2.
- by case: ltnP => //= hu; rewrite modn_small ?(leq_ltn_trans hu un) // h3.
- by case: eqP => //= ->; rewrite h4.
case: ltnP => //= hu; rewrite mulf_eq0 !eqs.
by case: (h5 _ hu) => ->; rewrite eqxx ?orbT.
Qed.
End R.
