Set Warnings "-notation-overridden,-ambiguous-paths".
From mathcomp Require Import all_ssreflect all_algebra.
From Verif Require Import Util M_Multiexp.
Import GRing.Theory.
Set Implicit Arguments.
Unset Strict Implicit.
Local Open Scope ring_scope.

(** little-endian values *)
Definition bytes_ok (b : seq nat) := all (fun x => x < 256)%N b.

Lemma le_val_cat a b : le_val (a ++ b) = (le_val a + 256 ^ size a * le_val b)%N.
Proof.
elim: a => [|x a IH] /=; first by rewrite expn0 mul1n.
by rewrite IH expnS mulnDr addnA mulnA.
Qed.

Lemma le_val_lt b : bytes_ok b -> (le_val b < 256 ^ size b)%N.
Proof.
elim: b => [|x b IH] //= /andP[hx hb].
rewrite expnS; apply: (@leq_trans (256 * (le_val b).+1)%N); last first.
  by rewrite leq_mul2l IH // orbT.
by rewrite mulnS -addSn leq_add2r.
Qed.

Lemma le_val_nseq0 n : le_val (nseq n 0%N) = 0%N.
Proof. by elim: n => //= n ->. Qed.

Lemma bytes_ok_take n b : bytes_ok b -> bytes_ok (take n b).
Proof. by rewrite -{1}(cat_take_drop n b) /bytes_ok all_cat => /andP[]. Qed.

Lemma le_val_take n b : bytes_ok b -> le_val (take n b) = (le_val b %% 256 ^ n)%N.
Proof.
move=> hb; case: (leqP (size b) n) => hn.
  rewrite take_oversize // modn_small //.
  apply: leq_trans (le_val_lt hb) _; exact: leq_pexp2l.
have hs : size (take n b) = n by rewrite size_takel // ltnW.
rewrite -{2}(cat_take_drop n b) le_val_cat hs addnC mulnC modnMDl modn_small //.
by rewrite -{2}hs; apply: le_val_lt; apply: bytes_ok_take.
Qed.

Lemma le_val_drop n b : bytes_ok b -> le_val (drop n b) = (le_val b %/ 256 ^ n)%N.
Proof.
move=> hb; case: (leqP (size b) n) => hn.
  rewrite drop_oversize // divn_small //.
  apply: leq_trans (le_val_lt hb) _; exact: leq_pexp2l.
have hs : size (take n b) = n by rewrite size_takel // ltnW.
rewrite -{2}(cat_take_drop n b) le_val_cat hs addnC mulnC divnMDl ?expn_gt0 //.
rewrite divn_small ?addn0 //.
by rewrite -{2}hs; apply: le_val_lt; apply: bytes_ok_take.
Qed.

Lemma modn_exp_div x m s c : (s + c <= m)%N ->
  (x %% 2 ^ m %/ 2 ^ s %% 2 ^ c = x %/ 2 ^ s %% 2 ^ c)%N.
Proof.
move=> h; have [d ->] : exists d, m = (s + c + d)%N by exists (m - (s + c))%N; rewrite subnKC.
rewrite {2}(divn_eq x (2 ^ (s + c + d))) expnD expnD.
set q := (_ %/ (_ * _))%N; set r := (x %% (_ * _))%N.
have -> : (q * (2 ^ s * 2 ^ c * 2 ^ d) = (q * 2 ^ d * 2 ^ c) * 2 ^ s)%N.
  by nring.
by rewrite divnMDl ?expn_gt0 // modnMDl.
Qed.

Lemma exp256 n : (256 ^ n = 2 ^ (n * 8))%N.
Proof. by rewrite mulnC expnM; congr expn. Qed.

Lemma get_atE c seg b : bytes_ok b -> size b = 32%N -> (c <= 57)%N ->
  get_at c seg b = (le_val b %/ 2 ^ (seg * c) %% 2 ^ c)%N.
Proof.
move=> hb hs hc; rewrite /get_at; move: (seg * c)%N => sk.
case: ifP => h32.
  rewrite divn_small ?mod0n //.
  apply: leq_trans (le_val_lt hb) _; rewrite hs exp256; apply: leq_pexp2l => //.
  apply: leq_trans (leq_trunc_div sk 8); by rewrite leq_mul2r h32 orbT.
rewrite le_val_cat le_val_nseq0 muln0 addn0.
have hd : bytes_ok (drop (sk %/ 8) b).
  by move: hb; rewrite -{1}(cat_take_drop (sk %/ 8) b) /bytes_ok all_cat => /andP[].
rewrite le_val_take // le_val_drop // !exp256.
have -> : (sk - sk %/ 8 * 8 = sk %% 8)%N by rewrite {1}(divn_eq sk 8) addKn.
rewrite modn_exp_div; last first.
  apply: (@leq_trans (7 + 57)%N) => //; apply: leq_add => //.
  by rewrite -ltnS ltn_mod.
by rewrite -divnMA -expnD -divn_eq.
Qed.

Section L.
Variables (F : fieldType) (G : lmodType F) (repr : F -> seq nat).
Hypothesis repr_size : forall x, size (repr x) = 32%N.
Hypothesis repr_bytes : forall x, bytes_ok (repr x).
Hypothesis repr_val : forall x, (le_val (repr x))%:R = x.
Variable ceil_ln : nat -> nat.
Implicit Types (coeffs : seq F) (bases : seq G).

Local Notation bucket := (bucket G).
Definition bval (b : bucket) : G :=
  match b with BNone => 0 | BAffine a => a | BProjective a => a end.

Lemma bval_add_assign b x : bval (bucket_add_assign b x) = bval b + x.
Proof. by case: b => //=; rewrite add0r. Qed.
Lemma bucket_addE b x : bucket_add b x = x + bval b.
Proof. by case: b => //=; rewrite addr0. Qed.

(* weighted sum of a bucket list, bucket j counting (j+1) times *)
Definition wsum (bk : seq bucket) : G := \sum_(j < size bk) bval (nth (BNone G) bk j) *+ j.+1.

Lemma wsum_set bk j x : (j < size bk)%N ->
  wsum (set_nth (BNone G) bk j (bucket_add_assign (nth (BNone G) bk j) x)) = wsum bk + x *+ j.+1.
Proof.
move=> hj; rewrite /wsum size_set_nth (maxn_idPr hj).
rewrite (bigD1 (Ordinal hj)) //= [in RHS](bigD1 (Ordinal hj)) //=.
rewrite nth_set_nth /= eqxx bval_add_assign mulrnDl addrAC; congr (_ + _ + _).
by apply: eq_bigr => i /negbTE hi; rewrite nth_set_nth /= -(inj_eq val_inj) /= in hi *; rewrite hi.
Qed.

Lemma buckets_fillE c i bk ps : (c <= 57)%N -> size bk = (2 ^ c - 1)%N ->
  exists2 bk', buckets_fill repr c i bk ps = Some bk' &
    wsum bk' = wsum bk + \sum_(p <- ps) p.2 *+ get_at c i (repr p.1).
Proof.
move=> hc; elim: ps bk => [|[x g] ps IH] bk hs /=.
  by exists bk => //; rewrite big_nil addr0.
rewrite big_cons /=.
case: eqP => [->|/eqP h0] /=.
  by rewrite mulr0n add0r; apply: IH.
have hlt : ((get_at c i (repr x)).-1 < size bk)%N.
  rewrite hs; have : (get_at c i (repr x) < 2 ^ c)%N.
    by rewrite get_atE // ltn_mod expn_gt0.
  by case: (get_at c i (repr x)) h0 => //= n _; rewrite ltn_subRL add1n.
rewrite hlt.
have [|bk' -> hw] := IH (set_nth (BNone G) bk (get_at c i (repr x)).-1
   (bucket_add_assign (nth (BNone G) bk (get_at c i (repr x)).-1) g)).
  by rewrite size_set_nth (maxn_idPr hlt).
exists bk' => //; rewrite hw wsum_set // prednK ?addrA // lt0n //.
Qed.

Lemma wsum_cons b bk : wsum (b :: bk) = wsum bk + \sum_(x <- b :: bk) bval x.
Proof.
rewrite /wsum /= big_ord_recl /= mulr1n big_cons addrCA; congr (_ + _).
rewrite (big_nth (BNone G)) big_mkord -big_split /=; apply: eq_bigr => i _.
by rewrite mulrSr.
Qed.

Lemma sum_by_parts (bk : seq bucket) :
  foldl (fun (st : G * G) b => let sum := bucket_add b st.2 in (st.1 + sum, sum)) (0, 0) (rev bk)
  = (wsum bk, \sum_(x <- bk) bval x).
Proof.
elim: bk => [|b bk IH]; first by rewrite /wsum /= big_ord0 big_nil.
by rewrite rev_cons -cats1 foldl_cat IH /= wsum_cons bucket_addE big_cons [bval b + _]addrC.
Qed.

Definition windows c i (ps : seq (F * G)) : G :=
  \sum_(p <- ps) p.2 *+ (le_val (repr p.1) %/ 2 ^ (i * c) %% 2 ^ c).

Lemma buckets_sumE c coeffs bases i : (c <= 57)%N ->
  buckets_sum repr c coeffs bases i = Some (windows c i (zip coeffs bases)).
Proof.
move=> hc; rewrite /buckets_sum.
have [|bk -> hw] := @buckets_fillE c i (buckets_new G c) (zip coeffs bases) hc.
  by rewrite size_nseq.
rewrite sum_by_parts hw /= ; congr Some.
have -> : wsum (buckets_new G c) = 0.
  rewrite /wsum big1 // => j _; rewrite nth_nseq; case: ifP => _; exact: mul0rn.
rewrite add0r; apply: eq_bigr => p _; by rewrite get_atE.
Qed.

Lemma iter_double n (x : G) : iter n (@double F G) x = x *+ (2 ^ n).
Proof.
elim: n => [|n IH] /=; first by rewrite expn0.
by rewrite IH /double -mulrnDr addnn -mul2n -expnS.
Qed.

(* Horner over the windows *)
Lemma digits_sum c n V : (V < 2 ^ (c * n))%N ->
  (\sum_(i < n) 2 ^ (c * i) * (V %/ 2 ^ (i * c) %% 2 ^ c))%N = V.
Proof.
elim: n V => [|n IH] V.
  by rewrite muln0 expn0 ltnS leqn0 big_ord0 => /eqP.
move=> hV; rewrite big_ord_recl muln0 mul0n !expn0 mul1n divn1.
rewrite [RHS](divn_eq V (2 ^ c)) addnC; congr addn.
rewrite -{1}(IH (V %/ 2 ^ c)%N); last first.
  by rewrite ltn_divLR ?expn_gt0 // -expnD addnC -mulnS.
rewrite big_distrl /=; apply: eq_bigr => i _.
rewrite /bump /= add1n mulnS expnD mulSn expnD divnMA.
by move: (2 ^ c)%N (2 ^ (c * i))%N (_ %% _)%N => u v t; nring.
Qed.

Definition inner (ps : seq (F * G)) : G := \sum_(p <- ps) p.1 *: p.2.

Lemma repr_lt x : (le_val (repr x) < 2 ^ 256)%N.
Proof. by apply: leq_trans (le_val_lt (repr_bytes x)) _; rewrite repr_size exp256. Qed.

Lemma segments_sum c ps : (0 < c)%N ->
  \sum_(i < (256 %/ c).+1) windows c i ps *+ 2 ^ (c * i) = inner ps.
Proof.
move=> c0; rewrite /windows.
under eq_bigr do rewrite -sumrMnl.
rewrite exchange_big /=; apply: eq_bigr => p _.
under eq_bigr do rewrite -mulrnA mulnC.
rewrite sumrMnr digits_sum ?repr_val //.
  by rewrite -{2}(repr_val p.1) scaler_nat.
apply: leq_trans (repr_lt _) _; apply: leq_pexp2l => //.
by apply: ltnW; rewrite mulnC; apply: ltn_ceil.
Qed.

Lemma reduce_segments c coeffs bases t : (c <= 57)%N ->
  reduce (Some 0) (@opt_add F G)
    (fun i => omap (fun acc => iter (c * i) (@double F G) acc)
                   (buckets_sum repr c coeffs bases i)) t
  = Some (\sum_(i <- fringe t) windows c i (zip coeffs bases) *+ 2 ^ (c * i)).
Proof.
move=> hc; elim: t => [|i|l IHl r IHr] /=; first by rewrite big_nil.
  by rewrite buckets_sumE //= iter_double big_seq1.
by rewrite IHl IHr big_cat.
Qed.

Lemma seq_segments c coeffs bases n s : (c <= 57)%N ->
  foldl (fun sum i => opt_add (omap (fun s => iter c (@double F G) s) sum)
                              (buckets_sum repr c coeffs bases i)) (Some s) (rev (iota 0 n))
  = Some (s *+ 2 ^ (c * n) + \sum_(i < n) windows c i (zip coeffs bases) *+ 2 ^ (c * i)).
Proof.
move=> hc; elim: n s => [|n IH] s; first by rewrite muln0 expn0 big_ord0 addr0.
rewrite -addn1 iotaD rev_cat /= add0n buckets_sumE //= IH addn1 iter_double.
congr Some; rewrite mulrnDl -mulrnA -expnD mulnS -addrA; congr (_ + _).
by rewrite big_ord_recr /= addrC.
Qed.

Lemma best_multiexp_correct threads sched coeffs bases :
  size coeffs = size bases ->
  ((32 <= size bases)%N -> (0 < ceil_ln (size bases) <= 57)%N) ->
  perm_eq (fringe sched) (iota 0 (256 %/ window ceil_ln (size bases)).+1) ->
  best_multiexp repr ceil_ln threads sched coeffs bases =
  Some (\sum_(i < size bases) nth 0 coeffs i *: nth 0 bases i).
Proof.
move=> hs hc hf; rewrite /best_multiexp hs eqxx.
set c := window ceil_ln (size bases) in hf *.
have /andP[c0 c57] : (0 < c <= 57)%N.
  by rewrite /c /window; case: (ltnP (size bases) 4) => // _; case: (ltnP (size bases) 32) => //.
have in_sum : inner (zip coeffs bases) = \sum_(i < size bases) nth 0 coeffs i *: nth 0 bases i.
  rewrite /inner (big_nth (0, 0)) big_mkord size_zip hs minnn.
  by apply: eq_bigr => i _; rewrite nth_zip.
rewrite -in_sum -(segments_sum _ c0) (negbTE (lt0n_neq0 c0)).
case: ifP => _.
  rewrite reduce_segments //; congr Some; rewrite (perm_big _ hf) /=.
  by rewrite -(big_mkord xpredT (fun i => windows c i (zip coeffs bases) *+ 2 ^ (c * i)))
    /index_iota subn0.
by rewrite seq_segments // mul0rn add0r.
Qed.

Lemma best_multiexp_unequal threads sched coeffs bases :
  size coeffs <> size bases ->
  best_multiexp repr ceil_ln threads sched coeffs bases = None.
Proof. by move=> /eqP/negbTE h; rewrite /best_multiexp h. Qed.

(** small_multiexp *)
Definition bit (x : F) (B b : nat) : bool := odd (nth 0%N (repr x) B %/ 2 ^ b).

Lemma small_innerE B b coeffs bases acc : (size coeffs <= size bases)%N ->
  small_inner B b [seq repr x | x <- coeffs] bases acc =
  Some (acc + \sum_(p <- zip coeffs bases) p.2 *+ bit p.1 B b).
Proof.
elim: coeffs bases acc => [|x cs IH] bases acc hs /=.
  by case: bases {hs} => [|? ?]; rewrite big_nil addr0.
case: bases hs => [|g bs] //= hs; rewrite big_cons /= /bit.
case: ifP => _; rewrite IH ?mulr1n ?mulr0n ?add0r //.
by rewrite addrA.
Qed.

(* value of the bits processed so far, most significant first *)
Definition bits_val (x : F) (sch : seq (nat * nat)) (v : nat) : nat :=
  foldl (fun v Bb => v.*2 + bit x Bb.1 Bb.2)%N v sch.

Lemma small_foldE sch coeffs bases (vs : F -> nat) : (size coeffs <= size bases)%N ->
  foldl (fun acc Bb => if acc is Some acc then
           small_inner Bb.1 Bb.2 [seq repr x | x <- coeffs] bases (double acc) else None)
        (Some (\sum_(p <- zip coeffs bases) p.2 *+ vs p.1)) sch =
  Some (\sum_(p <- zip coeffs bases) p.2 *+ bits_val p.1 sch (vs p.1)).
Proof.
move=> hs; elim: sch vs => [|[B b] sch IH] vs //=.
rewrite small_innerE // /double -!big_split /=.
rewrite -(IH (fun x => (vs x).*2 + bit x B b)%N); congr (foldl _ (Some _) _).
by apply: eq_bigr => p _; rewrite -addnn !mulrnDr.
Qed.

Lemma byte_bits (y v : nat) : (y < 256)%N ->
  foldl (fun v b => v.*2 + odd (y %/ 2 ^ b))%N v (rev (iota 0 8)) = (v * 256 + y)%N.
Proof.
suff H n w z : (z < 2 ^ n)%N ->
    foldl (fun v b => v.*2 + odd (z %/ 2 ^ b))%N w (rev (iota 0 n)) = (w * 2 ^ n + z)%N.
  by move=> hy; rewrite H.
elim: n w z => [|n IH] w z.
  by rewrite expn0 ltnS leqn0 => /eqP->; rewrite /= muln1 addn0.
move=> hz; rewrite rev_iotaS /=.
have hq : (z %/ 2 ^ n < 2)%N by rewrite ltn_divLR ?expn_gt0 // -expnS.
have ho : odd (z %/ 2 ^ n) = (z %/ 2 ^ n)%N :> nat by case: (z %/ 2 ^ n)%N hq => [|[|]].
rewrite ho.
have -> u : foldl (fun v b => v.*2 + odd (z %/ 2 ^ b))%N u (rev (iota 0 n)) =
         foldl (fun v b => v.*2 + odd ((z %% 2 ^ n) %/ 2 ^ b))%N u (rev (iota 0 n)).
  have : {in rev (iota 0 n), forall b, odd (z %/ 2 ^ b) = odd ((z %% 2 ^ n) %/ 2 ^ b)}.
    move=> b; rewrite mem_rev mem_iota add0n => /= hb.
    have := @modn_exp_div z n b 1; rewrite addn1 => /(_ hb).
    by rewrite expn1 !modn2 => /(congr1 odd); rewrite !oddb.
  elim: (rev _) u => [|b s IHs] u h //=; rewrite h ?mem_head // IHs // => x hx.
  by apply: h; rewrite inE hx orbT.
rewrite IH ?ltn_mod ?expn_gt0 //.
rewrite mulnDl -addnA -divn_eq -muln2 -mulnA -expnS //.
Qed.

Lemma bits_val_full x : bits_val x bit_schedule 0 = le_val (repr x).
Proof.
have H n v : (n <= size (repr x))%N ->
  bits_val x [seq (B, b) | B <- rev (iota 0 n), b <- rev (iota 0 8)] v
  = (v * 256 ^ n + le_val (take n (repr x)))%N.
  elim: n v => [|n IH] v hn; first by rewrite take0 /= expn0 muln1 addn0.
  rewrite (rev_iotaS n) map_cons -cat1s flatten_cat /flatten [foldr _ _ [:: _]]cats0 /bits_val foldl_cat.
  have -> : foldl (fun v Bb => v.*2 + bit x Bb.1 Bb.2)%N v [seq (n, b) | b <- rev (iota 0 8)]
      = (v * 256 + nth 0 (repr x) n)%N.
    rewrite -byte_bits; last by apply: (allP (repr_bytes x)); apply: mem_nth.
    by elim: (rev _) v => [|b s IHs] v //=; rewrite IHs.
  rewrite -/(bits_val _ _ _) IH; last exact: ltnW.
  rewrite (take_nth 0%N) // -cats1 le_val_cat /= size_takel; last exact: ltnW.
  rewrite muln0 addn0 mulnDl -mulnA -expnS -addnA; congr addn.
  by rewrite addnC mulnC.
by rewrite /bit_schedule H ?repr_size // mul0n add0n take_oversize // repr_size.
Qed.

Lemma small_multiexp_correct coeffs bases : (size coeffs <= size bases)%N ->
  small_multiexp repr coeffs bases =
  Some (\sum_(i < size coeffs) nth 0 coeffs i *: nth 0 bases i).
Proof.
move=> hs; rewrite /small_multiexp.
have e : \sum_(p <- zip coeffs bases) p.2 *+ 0 = 0 :> G by rewrite big1.
rewrite -[in LHS]e (small_foldE _ (fun _ => 0%N)) //; congr Some.
under eq_bigr do rewrite bits_val_full.
rewrite (big_nth (0, 0)) big_mkord size_zip (minn_idPl hs).
apply: eq_bigr => i _; rewrite nth_zip_cond size_zip (minn_idPl hs) ltn_ord /=.
by rewrite -{2}(repr_val (nth 0 coeffs i)) scaler_nat.
Qed.
End L.
