(* C49: the second matrix generate_mds returns is the inverse of the first, for every width and
   every stream of field elements. *)
Set Warnings "-notation-overridden,-ambiguous-paths".
From mathcomp Require Import all_ssreflect all_algebra.
From Verif Require Import Util FieldTac L_Poly M_Selectors M_Assigned L_Sigma M_Poseidon Ex_Field Ex_Env.
Import GRing.Theory.
Set Implicit Arguments.
Unset Strict Implicit.
Local Open Scope ring_scope.

Section Cauchy.
Variable F : fieldType.
Add Field Ff : (F_field_theory F).
Implicit Types (xs ys zs : seq F).

(* the Lagrange basis polynomial of a list of points *)
Definition lag xs (j : nat) : {poly F} :=
  \prod_(m < size xs | m != j :> nat) ((nth 0 xs j - nth 0 xs m)^-1 *: ('X - (nth 0 xs m)%:P)).
Lemma lagE xs j x : (lag xs j).[x] =
  \prod_(m < size xs | m != j :> nat) ((x - nth 0 xs m) * (nth 0 xs j - nth 0 xs m)^-1).
Proof. by rewrite horner_prod; apply: eq_bigr => m _; rewrite hornerZ hornerXsubC mulrC. Qed.
Lemma size_prod1 n (P : pred 'I_n) (c a : 'I_n -> F) :
  (size (\prod_(m < n | P m) (c m *: ('X - (a m)%:P)))%R <= #|P|.+1)%N.
Proof.
apply: leq_trans (size_prod_leq _ _) _; rewrite leq_subLR addnS ltnS addnn -muln2 mulnC.
rewrite -[X in (_ <= 2 * X)%N]sum1_card big_distrr /=.
apply: leq_sum => m _; rewrite muln1; apply: leq_trans (size_scale_leq _ _) _; by rewrite size_XsubC.
Qed.
Lemma card_neq n (j : 'I_n) : #|[pred m : 'I_n | m != j]|.+1 = n.
Proof. by rewrite cardC1 card_ord prednK // (leq_ltn_trans _ (ltn_ord j)). Qed.
Lemma size_lag xs j : (j < size xs)%N -> (size (lag xs j) <= size xs)%N.
Proof.
move=> hj; apply: leq_trans (size_prod1 _ _ _) _.
by rewrite (card_neq (Ordinal hj)).
Qed.
Lemma lag_at xs i j : uniq xs -> (i < size xs)%N -> (j < size xs)%N -> (lag xs j).[nth 0 xs i] = (i == j)%:R.
Proof.
move=> hu hi hj; rewrite lagE; case: (eqVneq i j) => [->|ne].
  by apply: big1 => m nm; rewrite mulfV // subr_eq0 nth_uniq // eq_sym.
by rewrite (bigD1 (Ordinal hi)) //= subrr !mul0r.
Qed.
Lemma interpolate zs (Q : {poly F}) x : uniq zs -> (size Q <= size zs)%N ->
  \sum_(k < size zs) Q.[nth 0 zs k] * (lag zs k).[x] = Q.[x].
Proof.
move=> hu hs; have -> : \sum_(k < size zs) Q.[nth 0 zs k] * (lag zs k).[x] = (\sum_(k < size zs) Q.[nth 0 zs k] *: lag zs k).[x].
  by rewrite horner_sum; apply: eq_bigr => k _; rewrite hornerZ.
congr (_.[x]); apply: (poly_interp_unique (points := zs)) => //.
  apply: (leq_trans (size_sum _ _ _)); apply/bigmax_leqP => k _.
  by apply: leq_trans (size_scale_leq _ _) _; apply: size_lag.
move=> z /(nthP 0)[i hi <-]; rewrite horner_sum (bigD1 (Ordinal hi)) //= hornerZ lag_at // eqxx mulr1 big1 ?addr0 //.
move=> k nk; rewrite hornerZ lag_at // eq_sym; have -> : (k == i :> nat) = (k == Ordinal hi) by [].
by rewrite (negbTE nk) mulr0.
Qed.

(* Schechter 1959, Theorem 1 *)
Lemma cauchy_inverse xs zs i j : uniq xs -> uniq zs -> size xs = size zs ->
  (forall a b, (a < size xs)%N -> (b < size zs)%N -> nth 0 xs a - nth 0 zs b != 0) ->
  (i < size xs)%N -> (j < size xs)%N ->
  \sum_(k < size zs) (nth 0 xs i - nth 0 zs k)^-1 *
     ((nth 0 xs j - nth 0 zs k) * (lag xs j).[nth 0 zs k] * (lag zs k).[nth 0 xs j]) = (i == j)%:R.
Proof.
move=> ux uz es hn hi hj; case: (eqVneq i j) => [->|ne].
  have e1 : (lag xs j).[nth 0 xs j] = 1 by rewrite lag_at // eqxx.
  rewrite -[RHS]e1 -(interpolate (zs := zs)) //; last by rewrite -es; apply: size_lag.
  by apply: eq_bigr => k _; rewrite !mulrA mulVf ?mul1r // hn.
pose R : {poly F} := \prod_(m < size xs | (m != j :> nat) && (m != Ordinal hi))
   ((nth 0 xs j - nth 0 xs m)^-1 *: ('X - (nth 0 xs m)%:P)).
pose c := (nth 0 xs j - nth 0 xs i)^-1.
have eA z : (lag xs j).[z] = c * (z - nth 0 xs i) * R.[z].
  by rewrite /lag (bigD1 (Ordinal hi)) //= hornerM hornerZ hornerXsubC.
pose Q := ((nth 0 xs j)%:P - 'X) * R.
have sR : (size R < size xs)%N.
  apply: leq_ltn_trans (size_prod1 _ _ _) _.
  have := card_neq (Ordinal hj); rewrite (cardD1 (Ordinal hi)) !inE -(inj_eq val_inj) /= ne add1n => e.
  rewrite -[X in (_ < X)%N]e !ltnS; apply: eq_leq; apply: eq_card => m.
  by rewrite !inE andbC.
have sQ : (size Q <= size zs)%N.
  rewrite -es; apply: leq_trans (size_mul_leq _ _) _.
  by rewrite -opprB size_opp size_XsubC.
have q0 : Q.[nth 0 xs j] = 0 by rewrite hornerM hornerD hornerN hornerX hornerC subrr mul0r.
transitivity (- c * \sum_(k < size zs) Q.[nth 0 zs k] * (lag zs k).[nth 0 xs j]); last first.
  by rewrite interpolate // q0 mulr0.
rewrite big_distrr; apply: eq_bigr => k _ /=; rewrite eA hornerM hornerD hornerN hornerX hornerC.
have h := hn i k hi (ltn_ord k); rewrite -[nth 0 zs k - nth 0 xs i]opprB.
move: (nth 0 xs i - nth 0 zs k) h (nth 0 xs j - _) (R.[_]) ((lag zs k).[_]) => u h v r l.
rewrite (_ : v * (c * - u * r) * l = - (u * (c * (v * r * l)))); first by rewrite mulrN mulKf ?mulNr.
by clearbody c; clear; fnorm F; ring.
Qed.

(* mds.rs:82-97 *)
Lemma lagrange_basisE xs j x : uniq xs -> (j < size xs)%N -> lagrange_basis xs j x = Some (lag xs j).[x].
Proof.
move=> hu hj; rewrite lagE /lagrange_basis.
have key n : (n <= size xs)%N ->
  foldl (fun acc mx => obind (fun acc =>
      if mx.1 == j then Some acc else
      let denominator := nth 0 xs j - mx.2 in
      if denominator == 0 then None else Some (acc * (x - mx.2) * denominator^-1)) acc)
    (Some 1) (take n (zip (iota 0 (size xs)) xs))
  = Some (\prod_(0 <= m < n | m != j) ((x - nth 0 xs m) * (nth 0 xs j - nth 0 xs m)^-1)).
  elim: n => [|n IH] hn; first by rewrite take0 big_geq.
  have sz : size (zip (iota 0 (size xs)) xs) = size xs by rewrite size_zip size_iota minnn.
  rewrite (take_nth (0%N, 0)) ?sz // -cats1 foldl_cat IH ?(ltnW hn) //= nth_zip ?size_iota // nth_iota // add0n /=.
  rewrite [in RHS]big_mkcond big_nat_recr //= -big_mkcond.
  case: (eqVneq n j) => [->|ne] /=; first by rewrite mulr1.
  by rewrite subr_eq0 nth_uniq // eq_sym (negbTE ne) mulrA.
have := key _ (leqnn _); rewrite take_oversize ?size_zip ?size_iota ?minnn // => ->.
by rewrite big_mkord.
Qed.

Section Generate.
Variables (T : nat) (stream : nat -> F).

Lemma draw_distinctP fuel pos xs ys pos' : draw_distinct T stream fuel pos = Some (xs, ys, pos') ->
  [/\ uniq xs, uniq ys, size xs = T & size ys = T].
Proof.
elim: fuel pos => [//|f IH] pos /=; case: ifP => [hu [<- <- _]|_]; last exact: IH.
move: hu; rewrite -{1}(cat_take_drop T (mkseq _ _)) cat_uniq => /and3P[-> _ ->].
split=> //; last by rewrite size_drop size_mkseq mul2n -addnn addnK.
by apply: size_takel; rewrite size_mkseq mul2n -addnn leq_addr.
Qed.
Lemma select_pointsP fuel select pos xs ys : select_points T stream fuel select pos = Some (xs, ys) ->
  [/\ uniq xs, uniq ys, size xs = T & size ys = T].
Proof.
elim: select pos => [|s IH] pos /=; case e: (draw_distinct _ _ _ _) => [[[xs' ys'] pos']|] //=; last exact: IH.
by case=> <- <-; exact: draw_distinctP e.
Qed.
Lemma sequence_mkseq (A : Type) (x0 : A) n (f : nat -> option A) r : sequence (mkseq f n) = Some r ->
  size r = n /\ forall i, (i < n)%N -> f i = Some (nth x0 r i).
Proof.
move/sequence_map_inv; rewrite size_iota => -[sz h]; split=> // i hi.
by rewrite -(h 0%N) // nth_iota.
Qed.
(* what generate_mds returns *)
Lemma generateP fuel select pos mds inv : generate_mds T stream fuel select pos = Some (mds, inv) ->
  exists xs zs, [/\ uniq xs /\ uniq zs, size xs = T, size zs = T,
    (forall i k, (i < T)%N -> (k < T)%N -> nth 0 xs i - nth 0 zs k != 0) &
    [/\ size mds = T, size inv = T,
     (forall i k, (i < T)%N -> (k < T)%N -> size (nth [::] mds i) = T /\
        nth 0 (nth [::] mds i) k = (nth 0 xs i - nth 0 zs k)^-1) &
     (forall k j, (k < T)%N -> (j < T)%N -> size (nth [::] inv k) = T /\
        nth 0 (nth [::] inv k) j = (nth 0 xs j - nth 0 zs k) * (lag xs j).[nth 0 zs k] * (lag zs k).[nth 0 xs j])]].
Proof.
rewrite /generate_mds; case e: (select_points _ _ _ _ _) => [[xs ys]|] //=.
have [ux uy sx sy] := select_pointsP e.
case ec: (cauchy _ _ _) => [m|] //=; case ei: (cauchy_inv _ _ _) => [v|] //= -[<- <-] {e}.
set zs := [seq - y | y <- ys] in ei.
have uz : uniq zs by rewrite map_inj_uniq //; exact: oppr_inj.
have sz : size zs = T by rewrite size_map.
have nz k : (k < T)%N -> nth 0 zs k = - nth 0 ys k by move=> hk; rewrite (nth_map 0) ?sy.
have [sm hm] := sequence_mkseq [::] ec; have [sv hv] := sequence_mkseq [::] ei.
have entry i k : (i < T)%N -> (k < T)%N -> [/\ size (nth [::] m i) = T, nth 0 xs i - nth 0 zs k != 0 &
    nth 0 (nth [::] m i) k = (nth 0 xs i - nth 0 zs k)^-1].
  move=> hi hk; have [sr hr] := sequence_mkseq 0 (hm i hi); split=> //; move: (hr k hk); rewrite nz // opprK.
    by rewrite /=; case: (nth 0 xs i + nth 0 ys k == 0).
  by rewrite /=; case: (nth 0 xs i + nth 0 ys k == 0) => // -[->].
exists xs, zs; split=> //; first by move=> i k hi hk; case: (entry i k hi hk).
split=> //; first by move=> i k hi hk; case: (entry i k hi hk).
move=> k j hk hj; have [sr hr] := sequence_mkseq 0 (hv k hk); split=> //; move: (hr j hj).
by rewrite !lagrange_basisE ?sx ?sz //= => -[].
Qed.

(* the second matrix is the inverse of the first *)
Theorem C49_inverse fuel select pos mds inv : generate_mds T stream fuel select pos = Some (mds, inv) ->
  forall i j, (i < T)%N -> (j < T)%N ->
    \sum_(0 <= k < T) nth 0 (nth [::] mds i) k * nth 0 (nth [::] inv k) j = (i == j)%:R /\
    \sum_(0 <= k < T) nth 0 (nth [::] inv i) k * nth 0 (nth [::] mds k) j = (i == j)%:R.
Proof.
move/generateP => [xs [zs [[ux uz] sx sz hn [_ _ hm hv]]]].
have left i j : (i < T)%N -> (j < T)%N ->
    \sum_(0 <= k < T) nth 0 (nth [::] mds i) k * nth 0 (nth [::] inv k) j = (i == j)%:R.
  move=> hi hj; rewrite -(cauchy_inverse (xs := xs) (zs := zs)) ?sx ?sz //.
  rewrite big_mkord; apply: eq_bigr => k _.
  by have [_ ->] := hm i k hi (ltn_ord k); have [_ ->] := hv k j (ltn_ord k) hj.
pose M := \matrix_(i < T, j < T) nth 0 (nth [::] mds i) j.
pose V := \matrix_(i < T, j < T) nth 0 (nth [::] inv i) j.
have MV : M *m V = 1%:M.
  apply/matrixP => i j; rewrite !mxE -[RHS]left // big_mkord.
  by apply: eq_bigr => k _; rewrite !mxE.
have VM := mulmx1C MV => i j hi hj; split; first exact: left.
have /matrixP/(_ (Ordinal hi) (Ordinal hj)) := VM; rewrite !mxE big_mkord => <-.
by apply: eq_bigr => k _; rewrite !mxE.
Qed.
Theorem C49_shape fuel select pos mds inv : generate_mds T stream fuel select pos = Some (mds, inv) ->
  [/\ size mds = T, size inv = T & forall i, (i < T)%N -> size (nth [::] mds i) = T /\ size (nth [::] inv i) = T].
Proof.
move/generateP => [xs [zs [_ _ _ _ [sm sv hm hv]]]]; split=> // i hi.
by case: (hm i i hi hi) => -> _; case: (hv i i hi hi).
Qed.

(* the first matrix is MDS: every square submatrix, whichever rows and columns it takes, is invertible *)
Theorem C49_mds fuel select pos mds inv n (rows cols : n.-tuple 'I_T) :
  generate_mds T stream fuel select pos = Some (mds, inv) -> uniq rows -> uniq cols ->
  (\matrix_(a < n, b < n) nth 0 (nth [::] mds (tnth rows a)) (tnth cols b)) \in unitmx.
Proof.
move/generateP => [xs [zs [[ux uz] sx sz hn [_ _ hm _]]]] ur uc.
pose xs' := [seq nth 0 xs (r : 'I_T) | r <- rows]; pose zs' := [seq nth 0 zs (c : 'I_T) | c <- cols].
have inj (l : seq F) : uniq l -> size l = T -> injective (fun r : 'I_T => nth 0 l r).
  by move=> ul sl a b /eqP; rewrite nth_uniq ?sl // => /eqP /val_inj.
have ux' : uniq xs' by rewrite map_inj_uniq //; exact: inj.
have uz' : uniq zs' by rewrite map_inj_uniq //; exact: inj.
have sx' : size xs' = n by rewrite size_map size_tuple.
have sz' : size zs' = n by rewrite size_map size_tuple.
have nx (a : 'I_n) : nth 0 xs' a = nth 0 xs (tnth rows a).
  by rewrite (nth_map (tnth rows a)) ?size_tuple // -tnth_nth.
have nz (a : 'I_n) : nth 0 zs' a = nth 0 zs (tnth cols a).
  by rewrite (nth_map (tnth cols a)) ?size_tuple // -tnth_nth.
pose V := \matrix_(k < n, j < n) ((nth 0 xs' j - nth 0 zs' k) * (lag xs' j).[nth 0 zs' k] * (lag zs' k).[nth 0 xs' j]).
suff e : (\matrix_(a < n, b < n) nth 0 (nth [::] mds (tnth rows a)) (tnth cols b)) *m V = 1%:M.
  by have [] := mulmx1_unit e.
apply/matrixP => i j; rewrite !mxE.
have hn' a b : (a < size xs')%N -> (b < size zs')%N -> nth 0 xs' a - nth 0 zs' b != 0.
  by rewrite sx' sz' => ha hb; rewrite (nx (Ordinal ha)) (nz (Ordinal hb)) hn.
transitivity ((i == j :> nat)%:R : F); last by [].
rewrite -(cauchy_inverse ux' uz' _ hn') ?sx' ?sz' //.
apply: eq_bigr => k _; rewrite !mxE; congr (_ * _); rewrite (nx i) (nz k).
by have [_ ->] := hm (tnth rows i) (tnth cols k) (ltn_ord _) (ltn_ord _).
Qed.
End Generate.
End Cauchy.

Print Assumptions C49_inverse.
Print Assumptions C49_shape.
Print Assumptions C49_mds.

(* a stream whose first draw repeats an element and is rejected; the second set of points is used *)
Definition stream97 (n : nat) : F97 := (nth 0 [:: 1; 2; 3; 1; 5; 6; 7; 8; 20; 30; 4; 9] n)%N%:R.
Example C49_example : omap (fun p => ([seq [seq k_nat x | x <- r] | r <- p.1], [seq [seq k_nat x | x <- r] | r <- p.2]))
    (generate_mds 2 stream97 3 0 0)
  = Some ([:: [:: 89; 15]; [:: 15; 7]], [:: [:: 88; 47]; [:: 47; 38]])%N.
Proof. by vm_compute. Qed.
