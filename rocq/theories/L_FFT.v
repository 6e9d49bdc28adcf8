Set Warnings "-notation-overridden,-ambiguous-paths".
From mathcomp Require Import all_ssreflect all_algebra.
From Verif Require Import Util M_FFT S_FFT.
Import GRing.Theory.
Set Implicit Arguments.
Unset Strict Implicit.
Local Open Scope ring_scope.

(** * bit reversal *)
Lemma bitreverse_loopE l n r :
  bitreverse_loop l n r = (r * 2 ^ l + bitreverse_loop l n 0)%N.
Proof.
elim: l n r => [|l IH] n r /=; first by rewrite expn0 muln1 addn0.
rewrite IH [in RHS]IH addnA; congr addn.
by rewrite add0n expnS mulnA -mulnDl muln2.
Qed.

Lemma bitreverse_low l n :
  bitreverse n l.+1 = (odd n * 2 ^ l + bitreverse n./2 l)%N.
Proof. by rewrite /bitreverse /= bitreverse_loopE add0n. Qed.

Lemma bitreverse_loop_high l n r :
  bitreverse_loop l.+1 n r = ((bitreverse_loop l n r).*2 + odd (n %/ 2 ^ l))%N.
Proof.
elim: l n r => [|l IH] n r; first by rewrite /= expn0 divn1.
rewrite -[LHS]/(bitreverse_loop l.+1 n./2 (r.*2 + odd n)) IH.
congr (_ + odd _)%N.
by rewrite expnS divnMA divn2.
Qed.

Lemma bitreverse_high l n :
  bitreverse n l.+1 = ((bitreverse n l).*2 + odd (n %/ 2 ^ l))%N.
Proof. exact: bitreverse_loop_high. Qed.

Lemma bitreverse_lt l n : (bitreverse n l < 2 ^ l)%N.
Proof.
elim: l n => [|l IH] n; first by rewrite expn0.
rewrite bitreverse_low expnS mul2n -addnn.
case: (odd n); rewrite ?mul1n ?mul0n ?add0n ?ltn_add2l //.
exact: leq_trans (IH _) (leq_addr _ _).
Qed.

Lemma bitreverseK l n : bitreverse (bitreverse n l) l = (n %% 2 ^ l)%N.
Proof.
elim: l n => [|l IH] n; first by rewrite expn0 modn1.
rewrite bitreverse_low bitreverse_high.
have -> : odd ((bitreverse n l).*2 + odd (n %/ 2 ^ l)) = odd (n %/ 2 ^ l).
  by rewrite oddD odd_double oddb.
have -> : ((bitreverse n l).*2 + odd (n %/ 2 ^ l))./2 = bitreverse n l.
  by rewrite addnC half_bit_double.
rewrite IH.
have e : n = (n %/ 2 ^ l %/ 2 * 2 ^ l.+1 + (odd (n %/ 2 ^ l) * 2 ^ l + n %% 2 ^ l))%N.
  by rewrite expnS mulnA addnA -mulnDl -modn2 -divn_eq -divn_eq.
rewrite [in RHS]e modnMDl [RHS]modn_small //.
rewrite expnS mul2n -addnn.
have hm : (n %% 2 ^ l < 2 ^ l)%N by rewrite ltn_mod expn_gt0.
case: (odd _); rewrite ?mul1n ?mul0n ?add0n ?ltn_add2l //.
exact: leq_trans hm (leq_addr _ _).
Qed.

Lemma bitreverse_inv l n : (n < 2 ^ l)%N -> bitreverse (bitreverse n l) l = n.
Proof. by move=> h; rewrite bitreverseK modn_small. Qed.

Lemma bitreverse_mod l n : bitreverse (n %% 2 ^ l) l = bitreverse n l.
Proof. by rewrite -bitreverseK bitreverse_inv // bitreverse_lt. Qed.

Section L.
Variables (F : fieldType) (V : lmodType F).
Implicit Types (a l r : seq V) (w : F) (tw : seq F).

Lemma size_swap a i j : (i < size a)%N -> (j < size a)%N -> size (swap a i j) = size a.
Proof.
move=> hi hj; rewrite /swap !size_set_nth.
by rewrite (maxn_idPr hi) (maxn_idPr hj).
Qed.

Lemma nth_swap a i j k : nth 0 (swap a i j) k =
  if k == j then nth 0 a i else if k == i then nth 0 a j else nth 0 a k.
Proof. by rewrite /swap nth_set_nth /=; case: eqP => // _; rewrite nth_set_nth. Qed.

Lemma bitrev_permute_prefix (l : nat) a m : size a = (2 ^ l)%N -> (m <= size a)%N ->
  let b := foldl (fun a k => let rk := bitreverse k l in
                    if (k < rk)%N then swap a rk k else a) a (iota 0 m) in
  size b = size a /\ forall i, (i < size a)%N ->
    nth 0 b i = if (i < m)%N || (bitreverse i l < m)%N
                then nth 0 a (bitreverse i l) else nth 0 a i.
Proof.
move=> hs; elim: m => [|m IH] hm; first by split.
case: (IH (ltnW hm)) => {IH} hsz hn.
rewrite -addn1 iotaD foldl_cat add0n /=.
set b := foldl _ _ _ in hsz hn *.
have hb : (bitreverse m l < size a)%N by rewrite hs bitreverse_lt.
have Km : bitreverse (bitreverse m l) l = m by rewrite bitreverse_inv -?hs.
case: ltnP => hlt; last first.
  split=> // i hi; rewrite hn // addn1 !ltnS (leq_eqVlt i m) (leq_eqVlt (bitreverse i l) m).
  have Ki : bitreverse (bitreverse i l) l = i by rewrite bitreverse_inv -?hs.
  case: (eqVneq i m) => [->|nim] /=.
    rewrite ltnn /=; case: ltnP => //= h.
    by have -> : bitreverse m l = m by apply/eqP; rewrite eqn_leq hlt h.
  case: (eqVneq (bitreverse i l) m) => [e|nb] //=.
  rewrite orbT; case: ltnP => //= h; case: ltnP => //= h2.
  move: hlt h; rewrite -e Ki => h3 h4.
  by have -> : bitreverse i l = i by apply/eqP; rewrite eqn_leq h3 h4.
split; first by rewrite size_swap hsz.
move=> i hi; rewrite nth_swap addn1 !ltnS.
case: (eqVneq i m) => [->|nim].
  by rewrite leqnn /= hn // Km ltnNge (ltnW hlt) ltnn.
case: (eqVneq i (bitreverse m l)) => [->|nib].
  by rewrite Km leqnn orbT hn // ltnn ltnNge (ltnW hlt).
rewrite hn // (leq_eqVlt i m) (leq_eqVlt (bitreverse i l) m) (negbTE nim) /=.
case: (eqVneq (bitreverse i l) m) => [e|//].
by move: nib; rewrite -e bitreverse_inv ?eqxx -?hs.
Qed.

Lemma size_bitrev_permute (l : nat) a : size a = (2 ^ l)%N ->
  size (bitrev_permute l a) = size a.
Proof. by move=> hs; case: (bitrev_permute_prefix hs (leqnn _)). Qed.

Lemma nth_bitrev_permute (l : nat) a i : size a = (2 ^ l)%N -> (i < size a)%N ->
  nth 0 (bitrev_permute l a) i = nth 0 a (bitreverse i l).
Proof.
by move=> hs hi; case: (bitrev_permute_prefix hs (leqnn _)) => _ ->; rewrite ?hi.
Qed.

(** * even/odd split *)
Definition evens a := mkseq (fun i => nth 0 a i.*2) (size a)./2.
Definition odds a := mkseq (fun i => nth 0 a i.*2.+1) (size a)./2.

Lemma bitrev_split (l : nat) a : size a = (2 ^ l.+1)%N ->
  bitrev_permute l.+1 a = bitrev_permute l (evens a) ++ bitrev_permute l (odds a).
Proof.
move=> hs.
have hh : (size a)./2 = (2 ^ l)%N by rewrite hs expnS mul2n doubleK.
have he : size (evens a) = (2 ^ l)%N by rewrite size_mkseq.
have ho : size (odds a) = (2 ^ l)%N by rewrite size_mkseq.
apply: (@eq_from_nth _ 0).
  by rewrite size_cat !size_bitrev_permute // he ho hs expnS mul2n addnn.
rewrite size_bitrev_permute // => i hi.
rewrite nth_bitrev_permute // nth_cat size_bitrev_permute // he bitreverse_high.
have := hi; rewrite {1}hs expnS mul2n -addnn => hi2.
case: ltnP => hlt.
  rewrite nth_bitrev_permute ?he // nth_mkseq ?hh ?bitreverse_lt //.
  by rewrite divn_small //= addn0.
have hi3 : (i - 2 ^ l < 2 ^ l)%N by rewrite ltn_subLR.
rewrite nth_bitrev_permute ?ho // nth_mkseq ?hh ?bitreverse_lt //.
have -> : (i %/ 2 ^ l = 1)%N.
  rewrite -{1}(subnKC hlt) -{1}[(2 ^ l)%N]mul1n divnMDl ?expn_gt0 //.
  by rewrite divn_small.
rewrite addn1; congr (nth 0 a _.*2.+1).
by rewrite -{1}(subnKC hlt) -[LHS]bitreverse_mod modnDl bitreverse_mod.
Qed.

(** * the pure recursion *)
Variable oob : F.

Fixpoint rbf (tw : seq F) (k tc : nat) a : seq V :=
  if k is k'.+1 then
    butterfly oob tw tc (rbf tw k' (tc * 2)%N (take (2 ^ k') a))
                        (rbf tw k' (tc * 2)%N (drop (2 ^ k') a))
  else a.

Lemma size_butterfly tw tc l r : (0 < size l)%N -> size r = size l ->
  size (butterfly oob tw tc l r) = (size l).*2.
Proof.
case: l r => [|x l] [|y r] //= _ [hs].
rewrite size_cat /= !size_map !size_zip size_iota hs !minnn.
by rewrite addnS addnn doubleS.
Qed.

Lemma size_rbf tw k tc a : size a = (2 ^ k)%N -> size (rbf tw k tc a) = (2 ^ k)%N.
Proof.
elim: k tc a => [|k IH] tc a hs //=.
have ht : size (take (2 ^ k) a) = (2 ^ k)%N.
  by rewrite size_take hs expnS mul2n -addnn -{1}[(2^k)%N]addn0 ltn_add2l expn_gt0.
have hd : size (drop (2 ^ k) a) = (2 ^ k)%N.
  by rewrite size_drop hs expnS mul2n -addnn addnK.
by rewrite size_butterfly IH ?expn_gt0 ?IH // expnS mul2n.
Qed.

Lemma nth_butterfly w tw tc l r i :
  (0 < size l)%N -> size r = size l ->
  (forall j, (j < size l)%N -> (j * tc < size tw)%N) ->
  (forall j, (j < size tw)%N -> nth oob tw j = w ^+ j) ->
  (i < (size l).*2)%N ->
  nth 0 (butterfly oob tw tc l r) i =
  if (i < size l)%N then nth 0 l i + (w ^+ tc) ^+ i *: nth 0 r i
  else nth 0 l (i - size l) - (w ^+ tc) ^+ (i - size l) *: nth 0 r (i - size l).
Proof.
case: l r => [|x l] [|y r] // _ [hs] htc htw.
rewrite /butterfly.
set ps := [seq _ | p <- _].
have sz : size ps = size l by rewrite size_map !size_zip size_iota hs !minnn.
have key j : (j < size l)%N -> nth (0,0) ps j =
   (nth 0 l j + (w ^+ tc) ^+ j.+1 *: nth 0 r j,
    nth 0 l j - (w ^+ tc) ^+ j.+1 *: nth 0 r j).
  move=> hj; rewrite (nth_map (0%N, (0,0))); last by rewrite !size_zip size_iota hs !minnn.
  rewrite !nth_zip ?size_iota ?size_zip ?hs ?minnn //= nth_iota // add0n.
  by rewrite htw ?htc // -exprM [(tc * _)%N]mulnC.
move=> hi; rewrite nth_cat [size (_ :: unzip1 ps)]/= size_map sz.
case: ltnP => hlt.
  case: i hi hlt => [|i] hi hlt /=; first by rewrite expr0 scale1r.
  by rewrite (nth_map (0,0)) ?sz // key.
rewrite [size (x :: l)]/=.
have : (i - (size l).+1 < (size l).+1)%N by rewrite ltn_subLR // addnn.
move: (i - _)%N => j.
case: j => [|j] hj /=; first by rewrite expr0 scale1r.
by rewrite (nth_map (0,0)) ?sz // key.
Qed.

Lemma dft_split w k a : size a = (2 ^ k.+1)%N -> w ^+ (2 ^ k) = -1 ->
  forall i, (i < 2 ^ k)%N ->
  nth 0 (dft w a) i = nth 0 (dft (w ^+ 2) (evens a)) i
                      + w ^+ i *: nth 0 (dft (w ^+ 2) (odds a)) i /\
  nth 0 (dft w a) (i + 2 ^ k) = nth 0 (dft (w ^+ 2) (evens a)) i
                      - w ^+ i *: nth 0 (dft (w ^+ 2) (odds a)) i.
Proof.
move=> hs hw i hi.
have hh : (size a)./2 = (2 ^ k)%N by rewrite hs expnS mul2n doubleK.
have he : size (evens a) = (2 ^ k)%N by rewrite size_mkseq.
have ho : size (odds a) = (2 ^ k)%N by rewrite size_mkseq.
have eo (f : nat -> V) : \sum_(j < 2 ^ k.+1) f j =
    \sum_(j < 2 ^ k) f j.*2 + \sum_(j < 2 ^ k) f j.*2.+1.
  rewrite expnS mul2n; elim: (2 ^ k)%N => [|n IH]; first by rewrite !big_ord0 addr0.
  rewrite doubleS !big_ord_recr /= IH -!addrA; congr (_ + _).
  by rewrite addrCA.
have hlt1 : (i < size a)%N.
  by rewrite hs expnS mul2n -addnn; apply: leq_trans hi (leq_addr _ _).
have hlt2 : (i + 2 ^ k < size a)%N.
  by rewrite hs expnS mul2n -addnn ltn_add2r.
rewrite /dft !nth_mkseq ?he ?ho // hs 
  (eo (fun j => w ^+ (i * j) *: nth 0 a j))
  (eo (fun j => w ^+ ((i + 2 ^ k) * j) *: nth 0 a j)).
have w2 : w ^+ (2 ^ k.+1) = 1 by rewrite expnS mulnC exprM hw sqrrN expr1n.
split; congr (_ + _).
- by apply: eq_bigr => j _; rewrite nth_mkseq ?hh // -exprM -mul2n mulnCA mulnA.
- rewrite scaler_sumr; apply: eq_bigr => j _.
  rewrite nth_mkseq ?hh // scalerA -exprM -exprD -mul2n.
  by rewrite mulnS mulnCA mulnA.
- apply: eq_bigr => j _; rewrite nth_mkseq ?hh // -exprM -mul2n.
  congr (_ *: _); rewrite mulnDl exprD [(2 ^ k * _)%N]mulnA -expnSr.
  rewrite [w ^+ (2 ^ k.+1 * _)]exprM w2 expr1n mulr1.
  by rewrite mulnCA mulnA.
- rewrite -scaleNr scaler_sumr; apply: eq_bigr => j _.
  rewrite nth_mkseq ?hh // scalerA -exprM -mul2n; congr (_ *: _).
  rewrite mulnDl exprD [(2 ^ k * _)%N]mulnS mulnA -expnSr.
  rewrite [w ^+ (2 ^ k + _)]exprD [w ^+ (2 ^ k.+1 * _)]exprM w2 expr1n mulr1 hw.
  by rewrite mulrN1 mulNr -exprD mulnS mulnCA mulnA.
Qed.

Lemma rbf_correct w tw k tc a :
  size a = (2 ^ k)%N -> (0 < tc)%N -> (2 ^ k * tc <= (size tw).*2)%N ->
  (forall j, (j < size tw)%N -> nth oob tw j = w ^+ j) ->
  ((0 < k)%N -> (w ^+ tc) ^+ (2 ^ k.-1) = -1) ->
  rbf tw k tc (bitrev_permute k a) = dft (w ^+ tc) a.
Proof.
elim: k tc a => [|k IH] tc a hs tc0 htw hw hroot.
  case: a hs => [|x [|]] //= _; rewrite /dft /mkseq /= big_ord1 /= mul0n expr0 scale1r.
  by rewrite /bitrev_permute /=.
have hh : (size a)./2 = (2 ^ k)%N by rewrite hs expnS mul2n doubleK.
have he : size (evens a) = (2 ^ k)%N by rewrite size_mkseq.
have ho : size (odds a) = (2 ^ k)%N by rewrite size_mkseq.
rewrite bitrev_split //= take_size_cat ?drop_size_cat ?size_bitrev_permute //.
have htc : (2 ^ k * (tc * 2) <= (size tw).*2)%N.
  by rewrite mulnCA [(2 ^ k * 2)%N]mulnC -expnS mulnC.
have hroot' : ((0 < k)%N -> (w ^+ (tc * 2)) ^+ (2 ^ k.-1) = -1).
  case: k {IH hs hh he ho htw htc} hroot => // k hroot _ /=.
  by rewrite exprM -(hroot isT) [in RHS]expnS /= [in RHS]exprM.
rewrite !IH ?muln_gt0 ?tc0 //.
rewrite [w ^+ (tc * 2)]exprM.
have sd x b : size (dft x b) = size b by rewrite size_mkseq.
have bnd j : (j < 2 ^ k)%N -> (j * tc < size tw)%N.
  move=> hj; rewrite -ltn_double; apply: leq_trans htw.
  by rewrite -muln2 mulnAC expnSr ltn_pmul2r // ltn_pmul2r.
apply: (@eq_from_nth _ 0).
  by rewrite size_butterfly !sd ?he ?ho ?expn_gt0 // hs expnS mul2n.
rewrite size_butterfly ?sd ?he ?ho ?expn_gt0 // => i hi.
have hwk := hroot isT; rewrite /= in hwk.
rewrite (nth_butterfly (w:=w)) ?sd ?he ?ho ?expn_gt0 //.
case: ltnP => hlt.
  by case: (dft_split hs hwk hlt) => ->.
have hlt' : (i - 2 ^ k < 2 ^ k)%N by rewrite ltn_subLR // addnn.
by case: (dft_split hs hwk hlt') => _; rewrite subnK // => ->.
Qed.

(** * the recursive code path is the pure recursion *)
Lemma half_exp k : (2 ^ k.+1)./2 = (2 ^ k)%N.
Proof. by rewrite expnS mul2n doubleK. Qed.

Lemma rbS fuel a n tc tw : recursive_butterfly oob fuel.+1 a n tc tw =
    if (n == 2)%N then
      if a is [:: x; y] then Some [:: x + y; x - y] else None
    else
      match recursive_butterfly oob fuel (take n./2 a) n./2 (tc * 2)%N tw,
            recursive_butterfly oob fuel (drop n./2 a) n./2 (tc * 2)%N tw with
      | Some l, Some r => Some (butterfly oob tw tc l r)
      | _, _ => None
      end.
Proof. by []. Qed.

Lemma recursive_rbf tw fuel k tc a :
  size a = (2 ^ k.+1)%N -> (k < fuel)%N ->
  recursive_butterfly oob fuel a (2 ^ k.+1) tc tw = Some (rbf tw k.+1 tc a).
Proof.
elim: fuel k tc a => [|fuel IH] k tc a hs hf //.
rewrite rbS.
case: k hs hf => [|k] hs hf.
  case: a hs => [|x [|y [|]]] //= _.
have -> : (2 ^ k.+2 == 2)%N = false.
  by apply/negbTE; rewrite -[X in _ != X]/(2 ^ 1)%N eqn_exp2l.
rewrite half_exp.
have ht : size (take (2 ^ k.+1) a) = (2 ^ k.+1)%N.
  by rewrite size_take hs [X in (_ < X)%N]expnS mul2n -addnn -{1}[(2^k.+1)%N]addn0 ltn_add2l expn_gt0.
have hd : size (drop (2 ^ k.+1) a) = (2 ^ k.+1)%N.
  by rewrite size_drop hs [X in (X - _)%N]expnS mul2n -addnn addnK.
by rewrite !IH.
Qed.

(** * the iterative code path is the pure recursion *)
Definition pass tw (chunk tc : nat) a := flatten
   [seq butterfly oob tw tc (take chunk./2 c) (drop chunk./2 c) | c <- chunks chunk a].

Lemma size_pass tw k tc m a : size a = (m * 2 ^ k.+1)%N ->
  size (pass tw (2 ^ k.+1) tc a) = (m * 2 ^ k.+1)%N.
Proof.
rewrite /pass; elim: m a => [|m IH] a hs.
  by rewrite (size0nil hs).
have h0 : (0 < 2 ^ k.+1)%N by rewrite expn_gt0.
have hsz : size (take (2 ^ k.+1) a) = (2 ^ k.+1)%N.
  by rewrite size_takel // hs mulSn leq_addr.
rewrite chunksE ?hs ?mulSn ?addn_gt0 ?h0 //= size_cat IH; last first.
  by rewrite size_drop hs mulSn addKn.
congr addn; rewrite half_exp.
have h1 : size (take (2 ^ k) (take (2 ^ k.+1) a)) = (2 ^ k)%N.
  by rewrite size_takel // hsz expnS leq_pmull.
have h2 : size (drop (2 ^ k) (take (2 ^ k.+1) a)) = (2 ^ k)%N.
  by rewrite size_drop hsz expnS mul2n -addnn addnK.
by rewrite size_butterfly ?h1 ?h2 ?expn_gt0 // expnS mul2n.
Qed.

Lemma pass_cat tw k tc m l r : size l = (m * 2 ^ k.+1)%N ->
  pass tw (2 ^ k.+1) tc (l ++ r) =
  pass tw (2 ^ k.+1) tc l ++ pass tw (2 ^ k.+1) tc r.
Proof.
move=> hs; rewrite /pass (@chunks_cat _ _ m) ?expn_gt0 //.
by rewrite map_cat flatten_cat.
Qed.

(* s passes starting at chunk size 2^(j+1) *)
Fixpoint passes tw (s j tc : nat) a :=
  if s is s'.+1 then passes tw s' j.+1 tc./2 (pass tw (2 ^ j.+1) tc a) else a.

Lemma fft_iter_passes tw s j tc a :
  fft_iter oob s (2 ^ j.+1) tc tw a = passes tw s j tc a.
Proof.
elim: s j tc a => [|s IH] j tc a //=.
by rewrite -(IH j.+1) [(2 ^ j.+2)%N]expnSr.
Qed.

Lemma passes_cat tw s j tc m l r : size l = (m * 2 ^ (s + j))%N ->
  passes tw s j tc (l ++ r) = passes tw s j tc l ++ passes tw s j tc r.
Proof.
elim: s j tc l r => [|s IH] j tc l r hs //=.
have hs' : size l = ((m * 2 ^ s) * 2 ^ j.+1)%N.
  by rewrite hs -mulnA -expnD addSnnS.
rewrite (pass_cat _ _ _ hs') IH //.
by rewrite (size_pass _ _ hs') -mulnA -expnD.
Qed.

Lemma size_passes tw s j tc m a : size a = (m * 2 ^ (s + j))%N ->
  size (passes tw s j tc a) = size a.
Proof.
elim: s j tc a => [|s IH] j tc a hs //=.
have hs' : size a = ((m * 2 ^ s) * 2 ^ j.+1)%N.
  by rewrite hs -mulnA -expnD addSnnS.
by rewrite IH (size_pass _ _ hs') ?hs' // -mulnA -expnD.
Qed.

Lemma passes_last tw s j tc a :
  passes tw s.+1 j (tc * 2 ^ s) a =
  pass tw (2 ^ (s + j).+1) tc (passes tw s j (tc * 2 ^ s) a).
Proof.
elim: s j tc a => [|s IH] j tc a; first by rewrite /= expn0 muln1 add0n.
rewrite -[LHS]/(passes tw s.+1 j.+1 (tc * 2 ^ s.+1)./2 (pass tw (2 ^ j.+1) (tc * 2 ^ s.+1) a)).
rewrite -[passes tw s.+1 j (tc * 2 ^ s.+1) a]/(passes tw s j.+1 (tc * 2 ^ s.+1)./2 (pass tw (2 ^ j.+1) (tc * 2 ^ s.+1) a)).
have -> : (tc * 2 ^ s.+1)./2 = (tc * 2 ^ s)%N by rewrite expnSr mulnA muln2 doubleK.
by rewrite IH addnS.
Qed.

Lemma passes_rbf tw k tc a : size a = (2 ^ k)%N ->
  passes tw k 0 (tc * 2 ^ k.-1) a = rbf tw k tc a.
Proof.
elim: k tc a => [|k IH] tc a hs //.
rewrite [k.+1.-1]/= passes_last addn0.
have ht : size (take (2 ^ k) a) = (2 ^ k)%N.
  by rewrite size_takel // hs expnS leq_pmull.
have hd : size (drop (2 ^ k) a) = (2 ^ k)%N.
  by rewrite size_drop hs [X in (X - _)%N]expnS mul2n -addnn addnK.
rewrite -[a in LHS](cat_take_drop (2 ^ k)) (@passes_cat _ _ _ _ 1); last first.
  by rewrite addn0 mul1n.
have st b : size b = (2 ^ k)%N -> size (passes tw k 0 (tc * 2 ^ k) b) = (2 ^ k)%N.
  by move=> hb; rewrite (@size_passes _ _ _ _ 1) // addn0 mul1n.
rewrite /pass chunks_one ?expn_gt0 //; last first.
  by rewrite size_cat !st // expnS mul2n addnn.
rewrite /= cats0 half_exp take_size_cat ?drop_size_cat ?st //.
case: k IH hs ht hd st => [|k] IH hs ht hd st //.
have e : (tc * 2 ^ k.+1 = tc * 2 * 2 ^ k.+1.-1)%N by rewrite expnS mulnA.
by rewrite e !IH.
Qed.

Lemma mk_twiddlesE (w : F) n j : (j < size (mk_twiddles w n))%N ->
  nth oob (mk_twiddles w n) j = w ^+ j.
Proof.
rewrite /mk_twiddles size_traject => hj; rewrite (set_nth_default 1) ?size_traject // nth_traject //.
elim: j {hj} => [|j IH] //=; by rewrite IH exprSr.
Qed.

Lemma best_fft_correct threads a w k :
  (0 < threads)%N -> size a = (2 ^ k)%N ->
  ((0 < k)%N -> w ^+ (2 ^ k.-1) = -1) ->
  best_fft oob threads a w k = Some (dft w a).
Proof.
move=> ht hs hw; rewrite /best_fft /log2_floor ht hs eqxx.
have htw : (2 ^ k * 1 <= (size (mk_twiddles w (2 ^ k))).*2)%N || (k == 0)%N.
  case: k hs hw => [|k] hs hw; first by rewrite orbT.
  by rewrite muln1 /mk_twiddles size_traject half_exp expnS mul2n leqnn.
have main : rbf (mk_twiddles w (2 ^ k)) k 1 (bitrev_permute k a) = dft w a.
  case: k hs hw htw => [|k] hs hw htw.
    case: a hs => [|x [|]] //= _; rewrite /dft /mkseq /= big_ord1 /= mul0n expr0 scale1r.
    by rewrite /bitrev_permute /=.
  rewrite -[in RHS](expr1 w); apply: rbf_correct => //; first by rewrite orbF in htw.
  exact: mk_twiddlesE.
case: ifP => hlt.
  rewrite -[X in fft_iter _ _ X]/(2 ^ 1)%N fft_iter_passes -main; congr Some.
  rewrite -passes_rbf ?size_bitrev_permute // mul1n.
  by case: k {hs hw htw main hlt} => // k; rewrite half_exp.
case: k hs hw htw main hlt => [|k] // hs hw htw main _.
rewrite recursive_rbf ?size_bitrev_permute ?main //.
by apply: ltnW; apply: ltn_expl.
Qed.
End L.
