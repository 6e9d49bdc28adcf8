(* The algebra of the permutation argument: telescoping products, and the comparison of the
   two products over all cells. *)
Set Warnings "-notation-overridden,-ambiguous-paths".
From mathcomp Require Import all_ssreflect all_algebra.
From Verif Require Import Util S_Count.
Import GRing.Theory.
Set Implicit Arguments.
Unset Strict Implicit.
Local Open Scope ring_scope.

Section Chain.
Variable F : fieldType.

(* one chunk: z_{i+1} D_i = z_i N_i *)
Lemma chain_rows (z D N : nat -> F) u :
  (forall i, (i < u)%N -> z i.+1 * D i = z i * N i) ->
  z u * \prod_(i < u) D i = z 0%N * \prod_(i < u) N i.
Proof.
elim: u => [|u IH] h; first by rewrite !big_ord0.
rewrite !big_ord_recr /= mulrCA h // mulrCA mulrA IH ?mulrA // => i hi.
by apply: h; exact: ltnW.
Qed.

(* all chunks; [A t i], [B t i] are the products of the chunk's denominators, numerators *)
Lemma chain_chunks (z A B : nat -> nat -> F) K u :
  z 0%N 0%N = 1 ->
  (forall t, (t.+1 < K)%N -> z t.+1 0%N = z t u) ->
  (forall t i, (t < K)%N -> (i < u)%N -> z t i.+1 * A t i = z t i * B t i) ->
  (0 < K)%N ->
  z K.-1 u * \prod_(t < K) \prod_(i < u) A t i = \prod_(t < K) \prod_(i < u) B t i.
Proof.
move=> z0 zc zr; case: K zc zr => // K zc zr _ /=.
elim: K zc zr => [|K IH] zc zr.
  by rewrite !big_ord_recl !big_ord0 !mulr1 (chain_rows (N := B 0%N)) ?z0 ?mul1r // => i hi; exact: zr.
rewrite big_ord_recr [in RHS]big_ord_recr /= mulrCA (chain_rows (N := B K.+1)); last by move=> i hi; exact: zr.
rewrite zc // mulrA [_ * z K u]mulrC IH // => [t ht|t i ht hi]; first by apply: zc; exact: ltnW.
by apply: zr => //; exact: ltnW.
Qed.

(* If the numerators' product equals the denominators' product, the chain ends in 1. *)
Lemma chain_end (z A B : nat -> nat -> F) K u :
  z 0%N 0%N = 1 ->
  (forall t, (t.+1 < K)%N -> z t.+1 0%N = z t u) ->
  (forall t i, (t < K)%N -> (i < u)%N -> z t i.+1 * A t i = z t i * B t i) ->
  (forall t i, (t < K)%N -> (i < u)%N -> A t i != 0) ->
  (0 < K)%N ->
  \prod_(t < K) \prod_(i < u) A t i = \prod_(t < K) \prod_(i < u) B t i ->
  z K.-1 u = 1.
Proof.
move=> z0 zc zr hA K0 e; have := chain_chunks z0 zc zr K0; rewrite -e => h.
apply: (@mulIf _ (\prod_(t < K) \prod_(i < u) A t i)); last by rewrite mul1r.
by apply/prodf_neq0 => t _; apply/prodf_neq0 => i _; exact: hA.
Qed.
End Chain.

Section Cells.
Variables (F : fieldType) (T : finType) (v id : T -> F) (s : T -> T).
Hypothesis id_inj : injective id.
Hypothesis s_inj : injective s.

Definition num (beta gamma : F) c := v c + beta * id c + gamma.
Definition den (beta gamma : F) c := v c + beta * id (s c) + gamma.

Lemma cells_complete beta gamma : (forall c, v (s c) = v c) ->
  \prod_c den beta gamma c = \prod_c num beta gamma c.
Proof.
move=> h; rewrite [RHS](reindex_inj s_inj) /=.
by apply: eq_bigr => c _; rewrite /num /den h.
Qed.

Definition bad_beta (beta : F) : Prop :=
  exists c d, s c <> d /\ beta = (v d - v c) / (id (s c) - id d).
Let N := #|T|.
Lemma bad_beta_few : at_most (N * N) bad_beta.
Proof.
move=> l ul hl.
pose f (cd : T * T) := (v cd.2 - v cd.1) / (id (s cd.1) - id cd.2).
have : {subset l <= [seq f cd | cd <- enum [finType of T * T]]}.
  by move=> x /hl [c [d [_ ->]]]; apply/mapP; exists (c, d); rewrite ?mem_enum.
by move/(uniq_leq_size ul); rewrite size_map -cardE card_prod.
Qed.

Definition prodP (w : T -> F) : {poly F} := \prod_c ('X + (w c)%:P).
Let wD beta c := v c + beta * id (s c).
Let wN beta c := v c + beta * id c.
Definition bad_gamma (beta gamma : F) : Prop :=
  (prodP (wD beta) != prodP (wN beta) /\ (prodP (wD beta)).[gamma] = (prodP (wN beta)).[gamma]) \/
  exists c, num beta gamma c = 0.

Lemma addXC (a : F) : 'X + a%:P = 'X - (- a)%:P.
Proof. by rewrite polyCN opprK. Qed.
Lemma prodP_monic w : prodP w \is monic.
Proof. by apply: monic_prod => c _; rewrite addXC monicXsubC. Qed.
Lemma prodP_size w : size (prodP w) = N.+1.
Proof.
rewrite /prodP (eq_bigr (fun c => 'X - (- w c)%:P)) => [|c _]; last exact: addXC.
by rewrite size_prod_XsubC /index_enum -enumT -cardE.
Qed.
Lemma horner_prodP w x : (prodP w).[x] = \prod_c (x + w c).
Proof. by rewrite horner_prod; apply: eq_bigr => c _; rewrite !hornerE. Qed.

Lemma bad_gamma_few beta : at_most (2 * N) (bad_gamma beta).
Proof.
move=> l ul hl.
pose p := prodP (wD beta) - prodP (wN beta).
pose Z := prodP (wN beta).
pose Q := (if p == 0 then 1 else p) * Z.
have Qn0 : Q != 0.
  rewrite /Q mulf_neq0 //; last by apply: monic_neq0; exact: prodP_monic.
  by case pe: (p == 0); [exact: oner_neq0|rewrite pe].
have sQ : (size Q <= (2 * N).+1)%N.
  apply: leq_trans (size_mul_leq _ _) _; rewrite prodP_size addnS /= mul2n -addnn -addnS.
  rewrite addnS -addSn leq_add2r.
  case: eqP => [_|_]; first by rewrite size_poly1.
  by apply: leq_trans (size_add _ _) _; rewrite size_opp !prodP_size maxnn.
have rQ : all (root Q) l.
  apply/allP => x /hl [[ne e]|[c e]]; rewrite rootM; apply/orP.
    left; rewrite subr_eq0 (negbTE ne); apply/rootP; by rewrite /p hornerD hornerN e subrr.
  right; apply/rootP; rewrite horner_prodP; apply/eqP; apply/prodf_eq0; exists c => //.
  by move/eqP: e; rewrite /num addrC.
have := max_poly_roots Qn0 rQ ul => h; have := leq_trans h sQ.
by rewrite ltnS.
Qed.

Lemma prodP_root_in w w' c : prodP w = prodP w' -> exists d, w c = w' d.
Proof.
move=> e; have : (prodP w).[- w c] == 0.
  by rewrite horner_prodP; apply/prodf_eq0; exists c => //; rewrite addNr.
rewrite e horner_prodP => /prodf_eq0 [d _]; rewrite addrC subr_eq0 => /eqP h.
by exists d.
Qed.

Lemma cells_sound beta gamma (ze : F) : ze ^+ 2 = ze ->
  ze * \prod_c den beta gamma c = \prod_c num beta gamma c ->
  ~ bad_beta beta -> ~ bad_gamma beta gamma -> forall c, v (s c) = v c.
Proof.
move=> hz h nb ng.
have hN : \prod_c num beta gamma c != 0.
  by apply/prodf_neq0 => c _; apply/eqP => e; apply: ng; right; exists c.
have z1 : ze = 1.
  have : ze != 0 by apply: contraNneq hN => e; rewrite -h e mul0r.
  by move=> zn; apply: (mulfI zn); rewrite mulr1 -expr2.
move: h; rewrite z1 mul1r => h.
have e : prodP (wD beta) = prodP (wN beta).
  apply/eqP; apply: contra_notT ng => ne; left; split=> //.
  rewrite !horner_prodP; move: h; rewrite /den /num => h.
  by rewrite (eq_bigr _ (fun c _ => addrC _ _)) h; apply: eq_bigr => c _; rewrite addrC.
move=> c; have [d hd] := prodP_root_in c e.
rewrite /wD /wN in hd.
case: (eqVneq (s c) d) => [ed|ne].
  by rewrite -ed in hd; move/addIr: hd => <-.
case: nb; exists c, d; split; first exact/eqP.
have n0 : id (s c) - id d != 0 by rewrite subr_eq0 (inj_eq id_inj).
apply: (mulIf n0); rewrite divfK // mulrBr.
apply/eqP; rewrite subr_eq -addrA [- v c + _]addrC addrA -hd addrC addKr //.
Qed.
End Cells.
