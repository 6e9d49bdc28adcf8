(* C48: bit and word conversions. *)
Set Warnings "-notation-overridden,-ambiguous-paths".
From Coq Require Import NArith Nnat Lia.
From mathcomp Require Import all_ssreflect all_algebra.
From Verif Require Import Util M_Env M_Assigned M_Circuit M_Value M_Region M_Utilities S_Digits Ex_Field.
Import GRing.Theory.
Set Implicit Arguments.
Unset Strict Implicit.

(* Specification: F is a prime field, pf_val is the canonical integer, NUM_BITS is the bit
   length of the modulus, and the encoding is long enough. *)
Record prime_field_ok (F : fieldType) (pf : prime_field F) (p : nat) : Prop := PrimeFieldOk {
  pf_prime : prime p;
  pf_lt : forall x, pf_val pf x < p;
  pf_valK : forall x, (pf_val pf x)%:R%R = x;
  pf_natr : forall n, pf_val pf n%:R%R = n %% p;
  pf_bits : 2 ^ (pf_num_bits pf - 1) <= p < 2 ^ pf_num_bits pf;
  pf_repr : pf_num_bits pf <= pf_repr_bits pf }.

Lemma lebs2ip_fromE i acc bits :
  lebs2ip_from i acc bits = acc + 2 ^ i * dval 2 (map nat_of_bool bits).
Proof.
elim: bits i acc => [|b bits IH] i acc /=; first by rewrite dval_nil muln0 addn0.
rewrite IH dval_cons expnS mulnDr addnA mulnA [2 ^ i * 2]mulnC; congr (_ + _ + _).
by case: b; rewrite ?muln1 ?muln0.
Qed.
Lemma all_bits (bs : seq bool) : all (fun d => d < 2) (map nat_of_bool bs).
Proof. by elim: bs => [|[] bs] //=. Qed.

(* lebs2ip is the little-endian value of the bits *)
Theorem C48_lebs2ip bits :
  (size bits <= 64 -> lebs2ip bits = Some (dval 2 (map nat_of_bool bits)) /\
     dval 2 (map nat_of_bool bits) < 2 ^ size bits) /\
  (64 < size bits -> lebs2ip bits = None).
Proof.
split=> h; rewrite /lebs2ip; last by rewrite leqNgt h.
rewrite h lebs2ip_fromE (expn0 2) mul1n; split; first by [].
by have := dval_lt (all_bits bits); rewrite size_map.
Qed.

(* i2lebsp and lebs2ip are mutually inverse, modulo 2^L *)
Theorem C48_roundtrip (L : nat) : L <= 64 ->
  (forall int, exists2 bits, i2lebsp L int = Some bits & size bits = L /\ lebs2ip bits = Some (int %% 2 ^ L)) /\
  (forall bits, size bits = L -> exists2 int, lebs2ip bits = Some int & i2lebsp L int = Some bits).
Proof.
move=> hL; rewrite /i2lebsp hL; split=> [int|bits hs].
  exists [seq bit_of int mask | mask <- iota 0 L] => //; rewrite size_map size_iota; split=> //.
  rewrite /lebs2ip size_map size_iota hL lebs2ip_fromE add0n (expn0 2) mul1n -map_comp.
  by have := bits_dval int 0 L; rewrite expn0 divn1 => <-.
have [h _] := C48_lebs2ip bits; rewrite hs in h; have {h} [e1 lt] := h hL.
exists (dval 2 (map nat_of_bool bits)); first exact: e1.
congr Some; have inj : injective nat_of_bool by case; case.
apply: (inj_map inj); apply: (@dval_inj 2).
- by rewrite !size_map size_iota hs.
- exact: all_bits.
- exact: all_bits.
by rewrite -map_comp; have := bits_dval (dval 2 (map nat_of_bool bits)) 0 L; rewrite expn0 divn1 => ->; rewrite modn_small.
Qed.

Lemma word_of_bitsE bs : word_of_bits bs = dval 2 (map nat_of_bool bs).
Proof.
rewrite /word_of_bits foldl_rev; elim: bs => [|b bs IH] /=; first by rewrite dval_nil.
by rewrite IH dval_cons addnC.
Qed.

Lemma chunks_exact_dval w m (bits : seq bool) : 0 < w -> size bits = w * m ->
  let ds := [seq word_of_bits c | c <- chunks_exact w bits] in
  [/\ size ds = m, all (fun d => d < 2 ^ w) ds & dval (2 ^ w) ds = dval 2 (map nat_of_bool bits)].
Proof.
move=> w0 hs ds; rewrite {}/ds /chunks_exact hs mulKn //.
have key k : k <= m -> let ds := [seq word_of_bits c | c <- [seq take w (drop (w * i) bits) | i <- iota (m - k) k]] in
  [/\ size ds = k, all (fun d => d < 2 ^ w) ds & dval (2 ^ w) ds = dval 2 (map nat_of_bool (drop (w * (m - k)) bits))].
  elim: k => [|k IH] hk /=; first by rewrite subn0 -hs drop_size /= !dval_nil.
  have e : (m - k.+1).+1 = m - k by rewrite subnSK.
  have [h1 h2 h3] := IH (ltnW hk); rewrite e; split; first by rewrite h1.
    rewrite h2 andbT word_of_bitsE.
    have := dval_lt (all_bits (take w (drop (w * (m - k.+1)) bits))); rewrite size_map size_takel //.
    by rewrite size_drop hs -mulnBr subKn // leq_pmulr.
  rewrite dval_cons h3 word_of_bitsE.
  rewrite -[in RHS](cat_take_drop w (drop (w * (m - k.+1)) bits)) map_cat dval_cat size_map size_takel; last first.
    by rewrite size_drop hs -mulnBr subKn // leq_pmulr.
  congr (_ + _ * dval _ (map _ _)); rewrite drop_drop; congr drop.
  by rewrite -e mulnS.
by have := key m (leqnn m); rewrite subnn muln0 drop0.
Qed.

Section Field.
Variables (F : fieldType) (pf : prime_field F) (p : nat).
Hypothesis ok : prime_field_ok pf p.

Lemma size_le_bits x : size (to_le_bits pf x) = pf_repr_bits pf. Proof. by rewrite size_map size_iota. Qed.
Lemma drop_iota' a m n : drop a (iota m n) = iota (m + a) (n - a).
Proof. by elim: a m n => [|a IH] m [|n]; rewrite ?addn0 //= IH addSnnS. Qed.
Lemma take_iota' a m n : a <= n -> take a (iota m n) = iota m a.
Proof. by elim: a m n => [|a IH] m [|n] //= h; rewrite IH. Qed.
Lemma slice_bits x a b : a + b <= pf_repr_bits pf ->
  map nat_of_bool (take b (drop a (to_le_bits pf x))) = [seq nat_of_bool (odd (pf_val pf x %/ 2 ^ i)) | i <- iota a b].
Proof.
by move=> h; rewrite /to_le_bits -map_drop -map_take -map_comp drop_iota' add0n take_iota' // leq_subRL //;
  apply: leq_trans h; rewrite leq_addr.
Qed.

(* the bits a .. b-1 of the canonical integer of x *)
Theorem C48_bitrange_subset x a b : a <= b <= pf_num_bits pf ->
  bitrange_subset pf x a b = Some ((pf_val pf x %/ 2 ^ a) %% 2 ^ (b - a))%:R%R.
Proof.
case/andP=> ab hb; rewrite /bitrange_subset hb ltnNge ab /=; congr Some.
rewrite -bits_dval -slice_bits; last by rewrite subnKC // (leq_trans hb (pf_repr ok)).
rewrite foldl_rev; elim: (take _ _) => [|c s IH] /=; first by rewrite dval_nil.
rewrite IH dval_cons natrD natrM mulr_natl mulr2n addrC.
by case: c; rewrite ?add0r // addrC.
Qed.
Theorem C48_bitrange_subset_panics x a b : bitrange_subset pf x a b = None <-> (pf_num_bits pf < b) || (b < a).
Proof. by rewrite /bitrange_subset -ltnNge; case: ifP. Qed.

(* decompose_word: the base-2^w digits of x mod 2^n *)
Theorem C48_decompose_word x n w : 0 < w <= 8 -> n <= pf_repr_bits pf ->
  exists2 ds, decompose_word pf x n w = Some ds &
    [/\ w * size ds = n + (w - n %% w) %% w, all (fun d => d < 2 ^ w) ds &
        dval (2 ^ w) ds = pf_val pf x %% 2 ^ n].
Proof.
case/andP=> w0 w8 hn; rewrite /decompose_word w8 -leqn0 leqNgt w0 /=.
set pad := (_ - _) %% _.
have hs : size (take n (to_le_bits pf x) ++ nseq pad false) = n + pad.
  by rewrite size_cat size_takel ?size_le_bits // size_nseq.
rewrite hs eqxx /=.
have hm : n + pad = w * ((n + pad) %/ w).
  rewrite mulnC divnK // /dvdn /pad modnDmr -(modnDml n).
  by rewrite subnKC ?modnn // ltnW // ltn_pmod.
have := @chunks_exact_dval w ((n + pad) %/ w) (take n (to_le_bits pf x) ++ nseq pad false) w0.
rewrite hs => /(_ hm); set ds := map _ _ => -[h1 h2 h3]; exists ds => //; split=> //; first by rewrite h1 -hm.
rewrite h3 map_cat dval_cat map_nseq dval_nseq0 muln0 addn0 -(drop0 (to_le_bits pf x)).
by rewrite slice_bits ?add0n // bits_dval expn0 divn1.
Qed.
Theorem C48_decompose_word_panics x n w : decompose_word pf x n w = None <->
  w = 0 \/ 8 < w \/ pf_repr_bits pf < n.
Proof.
rewrite /decompose_word; case: (posnP w) => [->|w0]; first by split; auto.
rewrite orbF -ltnNge; case: ltnP => w8; first by split; auto.
rewrite size_cat size_nseq eqn_add2r size_take size_le_bits.
case: (ltnP n (pf_repr_bits pf)) => hn.
  rewrite eqxx [~~ true]/=; split; first by discriminate.
  case=> [h|[h|h]]; exfalso; first by rewrite h in w0.
    by [].
  by move: (ltn_trans hn h); rewrite ltnn.
case: eqP => [e|ne]; rewrite [~~ _]/=; split; try discriminate; try reflexivity.
  case=> [h|[h|h]]; exfalso; first by rewrite h in w0.
    by [].
  by rewrite e ltnn in h.
by move=> _; right; right; rewrite ltn_neqAle hn andbT; apply/eqP.
Qed.
End Field.

Print Assumptions C48_lebs2ip.
Print Assumptions C48_roundtrip.
Print Assumptions C48_bitrange_subset.
Print Assumptions C48_decompose_word.

(* a prime field meeting the specification, and a decomposition with padding *)
Definition pf97 : prime_field K97_fieldType := PrimeField (fun x : K97_fieldType => k_nat x) 7 8.
Lemma k_natr_small r : r < 97 -> k_nat (r%:R : K97)%R = r.
Proof.
by move=> h; rewrite /k_nat kval_nat N.mod_small ?Nat2N.id //; move/ltP: h => h; lia.
Qed.
Lemma pf97_ok : prime_field_ok pf97 97.
Proof.
split=> [|x|x|n||]; [by vm_compute|exact: k_nat_lt|exact: k_natrK| |by vm_compute|by vm_compute].
have e : (97%:R = 0 :> K97)%R by apply/eqP; vm_compute.
rewrite {1}(divn_eq n 97) natrD natrM e mulr0 add0r; apply: k_natr_small.
by rewrite ltn_pmod.
Qed.
(* 89 = 0b1011001 in windows of 3 bits (7 bits, padded to 9), and two bit ranges of it *)
Example C48_case :
  decompose_word pf97 (89%:R)%R 7 3 = Some [:: 1; 3; 1] /\
  bitrange_subset pf97 (89%:R)%R 3 6 == Some 3%:R%R /\ bitrange_subset pf97 (89%:R)%R 3 9 = None /\
  i2lebsp 5 89 = Some [:: true; false; false; true; true] /\
  lebs2ip [:: true; false; false; true; true] = Some (89 %% 2 ^ 5).
Proof. by vm_compute. Qed.
