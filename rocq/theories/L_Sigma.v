(* Lemmas for C24: the labels and the sigma polynomials. *)
Set Warnings "-notation-overridden,-ambiguous-paths".
From mathcomp Require Import all_ssreflect all_algebra.
From Verif Require Import Util M_Poly M_Assigned M_Selectors L_Selectors M_Copy L_Copy M_Env M_Transcript
  L_Transcript M_Permutation.
Import GRing.Theory.
Set Implicit Arguments.
Unset Strict Implicit.
Local Open Scope ring_scope.

Section Seq.
Variables (A : eqType) (C : Type).
Lemma sequence_map (f : A -> option C) (g : A -> C) (s : seq A) :
  {in s, forall x, f x = Some (g x)} -> sequence (map f s) = Some (map g s).
Proof.
elim: s => //= x s IH h; rewrite h ?mem_head //= IH // => y hy; apply: h.
by rewrite inE hy orbT.
Qed.
End Seq.
Lemma sequence_inv (C : Type) (l : seq (option C)) r : sequence l = Some r -> l = map Some r.
Proof.
elim: l r => [r [<-]|x l IH r] //=.
by case: x => //= c; case e: (sequence l) => [r'|] //= -[<-]; rewrite (IH _ e).
Qed.
Lemma sequence_mapE (A C : Type) (f : A -> option C) (g : A -> C) (s : seq A) :
  (forall x, f x = Some (g x)) -> sequence (map f s) = Some (map g s).
Proof. by move=> h; elim: s => //= x s ->; rewrite h. Qed.
Lemma sequence_map_inv (A C : Type) (f : A -> option C) (s : seq A) r :
  sequence (map f s) = Some r -> size r = size s /\
  forall a c i, (i < size s)%N -> f (nth a s i) = Some (nth c r i).
Proof.
move/sequence_inv => h; have hs : size r = size s by rewrite -(size_map Some) -h size_map.
split=> // a c i hi; have := congr1 (fun l => nth None l i) h.
by rewrite (nth_map a) // (nth_map c) ?hs.
Qed.

Section Labels.
Variable F : fieldType.
Lemma label_inj (delta omega : F) T k : odd T -> T.-primitive_root delta ->
  (2 ^ k).-primitive_root omega -> forall i j i' j', (i < T)%N -> (i' < T)%N ->
  (j < 2 ^ k)%N -> (j' < 2 ^ k)%N ->
  omega ^+ j * delta ^+ i = omega ^+ j' * delta ^+ i' -> i = i' /\ j = j'.
Proof.
move=> oT hd hw i j i' j' hi hi' hj hj' e.
have e1 : delta ^+ (2 ^ k * i) == delta ^+ (2 ^ k * i').
  have := congr1 (fun x => x ^+ (2 ^ k)) e; rewrite !exprMn (exprAC omega j) (exprAC omega j').
  by rewrite (prim_expr_order hw) !expr1n !mul1r -!exprM ![(_ * 2 ^ k)%N]mulnC => ->.
have ei : i = i'.
  move: e1; rewrite (eq_prim_root_expr hd).
  have cop : coprime T (2 ^ k) by rewrite coprimeXr // coprimen2.
  suff key a b : (a < T)%N -> (b < T)%N -> (a <= b)%N -> (2 ^ k * a == 2 ^ k * b %[mod T])%N -> a = b.
    case: (leqP i i') => [le|/ltnW le] h; first exact: key.
    by symmetry; apply: key => //; rewrite eq_sym.
  move: a b => {i i' hi hi' e} i i' hi hi' le.
  rewrite eq_sym eqn_mod_dvd ?leq_mul2l ?le ?orbT // -mulnBr Gauss_dvdr // => hd2.
  have : (i' - i == 0)%N.
    apply: contraTT hd2; rewrite -lt0n => h0; rewrite gtnNdvd //.
    by apply: leq_ltn_trans hi'; exact: leq_subr.
  by rewrite subn_eq0 => h; apply/eqP; rewrite eqn_leq le.
split=> //; move: e; rewrite ei => /mulIf e.
have /e/eqP : delta ^+ i' != 0.
  apply: expf_neq0; apply: contraTneq (oner_neq0 F) => d0; rewrite -(prim_expr_order hd) d0.
  by rewrite expr0n; case: (T) (prim_order_gt0 hd) => //= ? _; rewrite eqxx.
by rewrite (eq_prim_root_expr hw) !modn_small // => /eqP.
Qed.

Lemma nth_powers (w : F) n i : (i < n)%N -> nth 0 (traject (fun c => c * w) 1 n) i = w ^+ i.
Proof.
move=> hi; rewrite (set_nth_default 1) ?size_traject // nth_traject //; elim: i hi => //= i IH hi.
by rewrite IH ?exprSr // ltnW.
Qed.
Lemma size_powers (w : F) n : size (traject (fun c => c * w) 1 n) = n.
Proof. exact: size_traject. Qed.

Lemma deltaomegaE (delta omega : F) m n i j : (i < m)%N -> (j < n)%N ->
  get2 (deltaomega delta omega m n) (i, j) = Some (omega ^+ j * delta ^+ i).
Proof.
move=> hi hj; have e : nth [::] (deltaomega delta omega m n) i = [seq o * delta ^+ i | o <- omega_powers omega n].
  by rewrite (nth_map 0) ?size_powers // nth_powers.
rewrite (get2E 0) /= ?e ?size_map ?size_powers // (nth_map 0) ?size_powers //.
by rewrite nth_powers.
Qed.

Lemma permutation_polysE (delta omega : F) (mapping : seq (seq cell)) m n (next : nat -> nat -> cell) :
  (forall i j, (i < m)%N -> (j < n)%N -> get2 mapping (i, j) = Some (next i j) /\
     ((next i j).1 < m)%N && ((next i j).2 < n)%N) ->
  permutation_polys delta omega mapping m n =
  Some [seq [seq omega ^+ (next i j).2 * delta ^+ (next i j).1 | j <- iota 0 n] | i <- iota 0 m].
Proof.
move=> h; apply: sequence_map => i; rewrite mem_iota => /andP [_ hi].
apply: sequence_map => j; rewrite mem_iota => /andP [_ hj].
have [-> /andP [h1 h2]] := h i j hi hj; rewrite /= -(deltaomegaE _ _ h1 h2).
by case: (next i j).
Qed.
End Labels.
