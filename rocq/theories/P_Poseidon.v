(* C42: Poseidon hashing equals its specification. *)
Set Warnings "-notation-overridden,-ambiguous-paths".
From mathcomp Require Import all_ssreflect all_algebra.
From Verif Require Import Util M_Selectors M_Assigned L_Sigma M_Poseidon S_Poseidon Ex_Field Ex_Env Ex_Field Ex_Env.
Import GRing.Theory.
Set Implicit Arguments.
Unset Strict Implicit.
Local Open Scope ring_scope.

Section Hash.
Variables (F : fieldType) (T RATE : nat) (S : pspec F).
Let h := (sp_full_rounds S %/ 2)%N.
(* the functions the specification is instantiated with *)
Definition Mx (i j : nat) : F := nth 0 (nth [::] (sp_mds S) i) j.
Definition cx (r : nat) : nat -> F := nth 0 (nth [::] (sp_round_constants S) r).
Definition same (s : seq F) (v : words F) : Prop := size s = T /\ forall i, (i < T)%N -> nth 0 s i = v i.
Definition the_permute := spec_permute T Mx (sp_sbox S) cx (sp_full_rounds S) (sp_partial_rounds S).

Lemma size_apply_mds s : size (apply_mds T S s) = T. Proof. exact: size_mkseq. Qed.
Lemma foldl_sum (f : nat -> F) l a : foldl (fun acc j => acc + f j) a l = a + \sum_(j <- l) f j.
Proof. by elim: l a => [|j l IH] a /=; rewrite ?big_nil ?addr0 // IH big_cons addrA. Qed.
Lemma apply_mdsE s i : (i < T)%N -> nth 0 (apply_mds T S s) i = \sum_(j < T) Mx i j * nth 0 s j.
Proof.
move=> hi; rewrite nth_mkseq // (foldl_sum (fun j => Mx i j * nth 0 s j)) add0r.
by rewrite -(big_mkord xpredT (fun j => Mx i j * nth 0 s j)) /index_iota subn0.
Qed.
Definition the_round (r : nat) (b : bool) : seq F -> seq F -> seq F := if b then part_round T S else full_round T S.
Lemma add_constants_same s rc v : same s v -> same (add_constants s rc) (fun j => v j + nth 0 rc j).
Proof.
case=> hs hv; split; first by rewrite size_mapi.
by move=> i hi; rewrite (nth_mapi _ 0) ?hs // hv.
Qed.
Lemma round_same r b s v : (0 < T)%N -> same s v ->
  same (the_round r b s (nth [::] (sp_round_constants S) r)) (spec_round T Mx (sp_sbox S) cx r b v).
Proof.
move=> T0 hv; have [h1 h2] := add_constants_same (nth [::] (sp_round_constants S) r) hv.
rewrite /the_round; case: b; (split; first exact: size_apply_mds); move=> i hi; rewrite apply_mdsE //;
  apply: eq_bigr => j _; congr (_ * _).
  by rewrite nth_set_nth /= (h2 0%N T0); case: eqP => [->|_] //=; rewrite h2.
by rewrite (nth_map 0) ?h1 ?ltn_ord // h2.
Qed.
Lemma permute_same s v : (0 < T)%N -> size (sp_round_constants S) = (h + sp_partial_rounds S + h)%N -> same s v ->
  same (permute T S s) (the_permute v).
Proof.
move=> T0 hc hv; rewrite /permute /the_permute /spec_permute -/h.
set P := sp_partial_rounds S; pose b r := ((h <= r) && (r < h + P))%N.
have -> : zip (nseq h (full_round T S) ++ nseq P (part_round T S) ++ nseq h (full_round T S)) (sp_round_constants S) =
    [seq (the_round r (b r), nth [::] (sp_round_constants S) r) | r <- iota 0 (h + P + h)].
  have {1}-> : sp_round_constants S = [seq nth [::] (sp_round_constants S) r | r <- iota 0 (h + P + h)].
    by rewrite -hc; apply: (@eq_from_nth _ [::]) => [|i hi]; rewrite ?size_map ?size_iota // (nth_map 0%N) ?size_iota // nth_iota.
  have -> : nseq h (full_round T S) ++ nseq P (part_round T S) ++ nseq h (full_round T S) =
      [seq the_round r (b r) | r <- iota 0 (h + P + h)].
    rewrite !iotaD !map_cat -catA !add0n; congr (_ ++ (_ ++ _)).
    - by apply: (@eq_from_nth _ (full_round T S)) => [|i]; rewrite ?size_map ?size_nseq ?size_iota // => hi;
        rewrite nth_nseq hi (nth_map 0%N) ?size_iota // nth_iota // /the_round /b leqNgt add0n hi.
    - by apply: (@eq_from_nth _ (full_round T S)) => [|i]; rewrite ?size_map ?size_nseq ?size_iota // => hi;
        rewrite nth_nseq hi (nth_map 0%N) ?size_iota // nth_iota // /the_round /b leq_addr ltn_add2l hi.
    - by apply: (@eq_from_nth _ (full_round T S)) => [|i]; rewrite ?size_map ?size_nseq ?size_iota // => hi;
        rewrite nth_nseq hi (nth_map 0%N) ?size_iota // nth_iota // /the_round /b [X in _ && X]ltnNge leq_addr andbF.
  by rewrite zip_map.
elim: (iota _ _) s v hv => //= r l IH s v hv; apply: IH; exact: round_same.
Qed.

(* ------------------------------------------------------------- absorbing *)
Lemma rate_absorbE (xs : seq F) n v :
  rate_absorb (map Some xs ++ nseq n.+1 None) v = Some (map Some (rcons xs v) ++ nseq n None).
Proof. by elim: xs => //= x xs ->. Qed.
Lemma rate_full (xs : seq F) v : rate_absorb (map Some xs) v = None.
Proof. by elim: xs => //= x xs ->. Qed.

Definition add_block (st b : seq F) : seq F := mapi (fun i w => if (i < size b)%N then w + nth 0 b i else w) st.
Lemma sponge_block st b : poseidon_sponge T RATE S st (Some (map Some b)) =
  Some (permute T S (add_block st b), mkseq (fun i => if (i < T)%N then Some (nth 0 (permute T S (add_block st b)) i) else None) RATE).
Proof.
rewrite /poseidon_sponge; set l := mapi _ _; have -> : l = map Some (add_block st b).
  apply: (@eq_from_nth _ None) => [|i]; rewrite ?size_map !size_mapi // => hi.
  rewrite /l (nth_mapi _ 0) //.
  rewrite [RHS](nth_map 0) ?size_mapi // /add_block (nth_mapi _ 0) // size_map.
  by case: ifP => // hb; rewrite (nth_map 0).
by have -> : sequence (map Some (add_block st b)) = Some (add_block st b) by elim: (add_block st b) => //= x r ->.
Qed.
Lemma absorb_some xs ys st : (size xs + size ys <= RATE)%N ->
  absorb_all T RATE S (Sponge (map Some xs ++ nseq (RATE - size xs) None) st) ys =
  Some (Sponge (map Some (xs ++ ys) ++ nseq (RATE - size (xs ++ ys)) None) st).
Proof.
elim: ys xs => [|y ys IH] xs hs; first by rewrite cats0.
rewrite /absorb_all /= /sponge_absorb /=.
have -> : (RATE - size xs = (RATE - size (rcons xs y)).+1)%N.
  by rewrite size_rcons subnSK // (leq_trans _ hs) // -addn1 leq_add2l.
rewrite rate_absorbE -/(absorb_all T RATE S _ _) IH ?cat_rcons //.
by rewrite size_rcons addSnnS.
Qed.
Lemma absorb_all_err l : foldl (fun s v => obind (fun s => sponge_absorb T RATE S s v) s) None l = None.
Proof. by elim: l. Qed.
Lemma absorb_next ys xs st : size ys = RATE -> size xs = RATE -> (0 < RATE)%N ->
  absorb_all T RATE S (Sponge (map Some ys) st) xs = Some (Sponge (map Some xs) (permute T S (add_block st ys))).
Proof.
move=> hy; case: xs => [<- //|x xs hx _].
rewrite -[x :: xs]/([:: x] ++ xs) /absorb_all foldl_cat -/(absorb_all T RATE S _ _).
have -> : absorb_all T RATE S (Sponge (map Some ys) st) [:: x] =
    Some (Sponge (map Some [:: x] ++ nseq (RATE - size [:: x]) None) (permute T S (add_block st ys))).
  by rewrite /absorb_all /= /sponge_absorb /= rate_full sponge_block /= /init_with /init_empty -hx /= subn1.
rewrite -/(absorb_all T RATE S _ _) absorb_some /=; last by rewrite -hx add1n.
by rewrite -hx /= subnn cats0.
Qed.
Lemma absorb_cat s xs ys : absorb_all T RATE S s (xs ++ ys) =
  obind (fun s => absorb_all T RATE S s ys) (absorb_all T RATE S s xs).
Proof.
rewrite /absorb_all foldl_cat; case: (foldl _ _ xs) => //=; exact: absorb_all_err.
Qed.
Definition step (st b : seq F) : seq F := permute T S (add_block st b).
Lemma absorb_blocks ys bs st : (0 < RATE)%N -> size ys = RATE -> all (fun b => size b == RATE) bs ->
  absorb_all T RATE S (Sponge (map Some ys) st) (flatten bs) =
  Some (Sponge (map Some (last ys bs)) (foldl step st (belast ys bs))).
Proof.
move=> R0; elim: bs ys st => [|b bs IH] ys st hy //= /andP[/eqP hb hbs].
by rewrite absorb_cat absorb_next //= IH.
Qed.
Lemma flatten_blocks k (s : seq F) : size s = (k * RATE)%N ->
  flatten (mkseq (fun q => mkseq (fun j => nth 0 s (q * RATE + j)) RATE) k) = s.
Proof.
elim: k s => [|k IH] s; first by case: s.
rewrite mulSn => hs; rewrite -[RHS](cat_take_drop RATE) /mkseq /= [iota 1 k](iotaDl 1 0 k) -map_comp; congr (_ ++ _).
  apply: (@eq_from_nth _ 0) => [|i]; rewrite size_map size_iota ?size_takel ?hs ?leq_addr // => hi.
  by rewrite (nth_map 0%N) ?size_iota // nth_iota // nth_take.
rewrite -[RHS]IH ?size_drop ?hs ?addKn //; congr flatten; apply: eq_map => q /=.
by apply: eq_map => j; rewrite nth_drop mulnDl mul1n addnA.
Qed.

(* the padding completes the last block *)
Lemma paddingE (m : seq F) : (0 < RATE)%N -> exists k, covers RATE k (size m) /\ padding F RATE (size m) = Some (nseq (k * RATE - size m) 0).
Proof.
move=> R0; exists ((size m + RATE - 1) %/ RATE)%N; rewrite /padding /covers eqn0Ngt R0; split=> //.
have h1 := leq_trunc_div (size m + RATE - 1) RATE; have h2 := ltn_ceil (size m + RATE - 1) R0.
apply/andP; split; last by apply: leq_ltn_trans h1 _; rewrite ltn_subrL addn_gt0 R0 orbT.
by move: h2; rewrite mulSnr -ltnS => h2; have := h2; rewrite -(ltn_add2r RATE) addSn => ?; move: h2; rewrite subn1 prednK ?addn_gt0 ?R0 ?orbT // ltnS leq_add2r.
Qed.

Lemma add_block_same st b v : same st v -> (size b <= T)%N ->
  same (add_block st b) (fun j => v j + (if (j < size b)%N then nth 0 b j else 0)).
Proof.
case=> hs hv hb; split; first by rewrite size_mapi.
by move=> i hi; rewrite (nth_mapi _ 0) ?hs //; case: ifP => _; rewrite hv // addr0.
Qed.
Lemma spec_permute_ext v v' : (0 < T)%N -> (forall j, (j < T)%N -> v j = v' j) ->
  forall j, (j < T)%N -> the_permute v j = the_permute v' j.
Proof.
move=> T0; rewrite /the_permute /spec_permute; elim: (iota _ _) v v' => [|r l IH] v v' e j hj /=; first exact: e.
by apply: IH => // i hi; apply: eq_bigr => k _; rewrite (e k).
Qed.
Lemma steps_same message k : (0 < T)%N -> (RATE < T)%N ->
  size (sp_round_constants S) = (h + sp_partial_rounds S + h)%N ->
  same (foldl step (set_nth 0 (nseq T 0) RATE (capacity F (size message)))
         (mkseq (fun q => mkseq (fun j => nth 0 message (q * RATE + j)) RATE) k))
       (spec_state T RATE Mx (sp_sbox S) cx (sp_full_rounds S) (sp_partial_rounds S) message k).
Proof.
move=> T0 hR hc; elim: k => [|k IH].
  split; first by rewrite size_set_nth size_nseq; apply/maxn_idPr.
  by move=> i hi; rewrite nth_set_nth /= nth_nseq hi /capacity.
rewrite /mkseq -{1}addn1 iotaD map_cat foldl_cat /= add0n.
have := add_block_same (b := mkseq (fun j => nth 0 message (k * RATE + j)) RATE) IH.
rewrite size_mkseq => /(_ (ltnW hR)) [h1 h2].
have [h3 h4] := permute_same T0 hc (conj h1 h2); split; first exact: h3.
move=> i hi; rewrite /step h4 //; apply: spec_permute_ext => // j hj.
by case: ifP => // hj'; rewrite nth_mkseq.
Qed.

(* The permutation. *)
Theorem C42_permute : forall (st : seq F) (v : words F),
  (0 < T)%N -> size (sp_round_constants S) = (h + sp_partial_rounds S + h)%N ->
  same st v -> same (permute T S st) (the_permute v).
Proof. by move=> st v; exact: permute_same. Qed.

(* Hashing: a message of length L > 0 is hashed in k blocks, where k is the least number of
   blocks that hold it; the result is the first word of the state after the last block. *)
Theorem C42_hash : forall (message : seq F) (k : nat),
  (0 < RATE)%N -> (RATE < T)%N -> size (sp_round_constants S) = (h + sp_partial_rounds S + h)%N ->
  (0 < size message)%N -> covers RATE k (size message) ->
  hash T RATE S message =
    Some (spec_state T RATE Mx (sp_sbox S) cx (sp_full_rounds S) (sp_partial_rounds S) message k 0%N).
Proof.
move=> m k R0 hR hc m0 hk.
have [k' [hk' ep]] := paddingE m R0; have {hk'} ek : k' = k.
  move: hk hk'; rewrite /covers => /andP[a1 a2] /andP[b1 b2]; apply/eqP; rewrite eqn_leq.
  have h1 : (k' * RATE < k.+1 * RATE)%N by rewrite mulSnr; apply: leq_trans b2 _; rewrite leq_add2r.
  have h2 : (k * RATE < k'.+1 * RATE)%N by rewrite mulSnr; apply: leq_trans a2 _; rewrite leq_add2r.
  by move: h1 h2; rewrite !ltn_pmul2r // !ltnS => -> ->.
subst k'; rewrite /hash /sponge_new hR /= ep /=.
have hle : (size m <= k * RATE)%N by case/andP: hk.
set st0 := set_nth _ _ _ _; set full := m ++ _.
have sf : size full = (k * RATE)%N by rewrite size_cat size_nseq subnKC.
have k0 : (0 < k)%N by case: (k) hle => //; rewrite leqn0; case: (size m) m0.
pose bl q := mkseq (fun j => nth 0 m (q * RATE + j)) RATE.
have ef : full = flatten (mkseq bl k).
  rewrite -{1}(flatten_blocks sf); congr flatten; apply: eq_map => q; apply: eq_map => j.
  by rewrite nth_cat; case: ltnP => // hj; rewrite nth_nseq if_same nth_default.
have hbl (l : seq nat) : all (fun b => size b == RATE) (map bl l) by apply/allP => b /mapP[q _ ->]; rewrite size_mkseq.
case: k k0 {hk sf hle ep} full ef => // k _ _ ->.
rewrite /mkseq [iota 0 k.+1]/= map_cons [flatten _]/= absorb_cat.
have -> : absorb_all T RATE S (Sponge (nseq RATE None) st0) (bl 0%N) = Some (Sponge (map Some (bl 0%N)) st0).
  have := @absorb_some [::] (bl 0%N) st0; rewrite /= subn0 add0n size_mkseq => -> //.
  by rewrite subnn cats0.
rewrite [obind _ _]/= (absorb_blocks _ R0) ?size_mkseq ?hbl // [obind _ _]/= /sponge_finish [sg_mode _]/= [sg_state _]/= sponge_block.
have -> : permute T S (add_block (foldl step st0 (belast (bl 0%N) (map bl (iota 1 k)))) (last (bl 0%N) (map bl (iota 1 k)))) =
   foldl step st0 (mkseq bl k.+1) by rewrite /mkseq /= -/(step st0 (bl 0%N)) -[RHS]/(foldl step st0 (bl 0%N :: map bl (iota 1 k))) lastI -cats1 foldl_cat.
have [h1 h2] := @steps_same m k.+1 (ltn_trans R0 hR) hR hc.
rewrite [omap _ _]/= [obind _ _]/= /sponge_squeeze [sg_mode _]/= -{1}(prednK R0) /mkseq /= (ltn_trans R0 hR) /=.
by rewrite h2 // (ltn_trans R0 hR).
Qed.

(* the empty message is not hashed: there is no block to complete *)
Theorem C42_hash_empty : (0 < RATE)%N -> (RATE < T)%N -> hash T RATE S [::] = None.
Proof.
move=> R0 hR; rewrite /hash /sponge_new hR /= /padding eqn0Ngt R0 /= add0n subn0.
rewrite divn_small ?subn1 ?prednK // mul0n [absorb_all _ _ _ _ _]/= [obind _ _]/= /sponge_finish /poseidon_sponge [sg_state _]/= [sg_mode _]/=.
have : (0 < size (set_nth 0%R (nseq T 0%R) RATE (capacity F 0)))%N.
  by rewrite size_set_nth size_nseq; apply: leq_trans (leq_maxl _ _).
case: (set_nth _ _ _ _) => // x xs _; by rewrite /mapi /= size_nseq R0 nth_nseq R0.
Qed.

(* Squeezing: n squeezes give the first n words of the rate parts of the state and of its
   successive permutations. *)
Definition squeezed (st : seq F) (i : nat) : F := nth 0 (iter (i %/ RATE) (permute T S) st) (i %% RATE).
Lemma size_rounds (l : seq ((seq F -> seq F -> seq F) * seq F)) st : size st = T ->
  (forall x, List.In x (unzip1 l) -> forall s c, size (x s c) = T) ->
  size (foldl (fun state rr => rr.1 state rr.2) st l) = T.
Proof.
elim: l st => [|x l IH] st hst hx //; apply: IH; first by apply: hx; left.
by move=> y hy; apply: hx; right.
Qed.
Lemma in_nseq (A : Type) (x y : A) k : List.In x (nseq k y) -> x = y.
Proof. by elim: k => //= k IH [->|/IH]. Qed.
Lemma in_cat (A : Type) (x : A) s1 s2 : List.In x (s1 ++ s2) -> List.In x s1 \/ List.In x s2.
Proof. by elim: s1 => [|y s1 IH] /=; [right|case=> [->|/IH[]]; auto]. Qed.
Lemma in_unzip1 (A C : Type) (x : A) (s : seq A) (t : seq C) : List.In x (unzip1 (zip s t)) -> List.In x s.
Proof. by elim: s t => [|y s IH] [|z t] //= [->|/IH h1]; [left|right]. Qed.
Lemma size_permute st : size st = T -> size (permute T S st) = T.
Proof.
move=> hst; apply: size_rounds => //.
move=> x hx0 s c; have hx := in_unzip1 hx0.
have [h1|h1] := in_cat hx; first by rewrite (in_nseq h1) size_apply_mds.
by have [h2|h2] := in_cat h1; rewrite (in_nseq h2) size_apply_mds.
Qed.
Lemma rate_squeezeE (a : nat) (ws : seq F) : (a < size ws)%N ->
  rate_squeeze (nseq a None ++ map Some (drop a ws)) = Some (nth 0 ws a, nseq a.+1 None ++ map Some (drop a.+1 ws)).
Proof.
elim: a ws => [|a IH] [|w ws] //= ha; first by rewrite drop0.
by rewrite IH.
Qed.
Lemma rate_empty a : rate_squeeze (nseq a (None : option F)) = None.
Proof. by elim: a => //= a ->. Qed.
Theorem C42_squeeze : forall (n : nat) (st : seq F),
  (0 < RATE)%N -> (RATE < T)%N -> size st = T ->
  sponge_squeezes T RATE S n (Sponge (map Some (take RATE st)) st) = Some (mkseq (squeezed st) n).
Proof.
move=> n st R0 hR hst.
have gen m a st' : size st' = T -> (a <= RATE)%N ->
    sponge_squeezes T RATE S m (Sponge (nseq a None ++ map Some (drop a (take RATE st'))) st') =
    Some (mkseq (fun i => squeezed st' (a + i)) m).
  elim: m a st' => // m IH a st' hs ha; rewrite [sponge_squeezes _ _ _ _ _]/=.
  have szt : size (take RATE st') = RATE by rewrite size_takel // hs ltnW.
  move: ha; rewrite leq_eqVlt => /orP[/eqP ->|ha].
    rewrite drop_oversize ?szt // cats0 /sponge_squeeze rate_empty [obind _ _]/=.
    have szp : size (take RATE (permute T S st')) = RATE by rewrite size_takel // (size_permute hs) ltnW.
    have -> : mkseq (fun i => if (i < T)%N then Some (nth 0 (permute T S st') i) else None) RATE = map Some (take RATE (permute T S st')).
      apply: (@eq_from_nth _ None) => [|i]; rewrite size_mkseq ?size_map ?szp // => hi.
      by rewrite nth_mkseq // (ltn_trans hi hR) (nth_map 0) ?nth_take // szp.
    have := @rate_squeezeE 0 (take RATE (permute T S st')); rewrite [nseq 0 _]/= cat0s drop0 szp => -> //.
    rewrite /=; move: (IH 1%N _ (size_permute hs) R0) => /= -> /=; congr Some.
    rewrite /mkseq /= [iota 1 m](iotaDl 1 0 m) -map_comp; congr (_ :: _).
      by rewrite /squeezed addn0 divnn R0 modnn nth_take.
    apply: eq_map => i /=; rewrite /squeezed [in RHS]modnDl; congr (nth _ _ _).
    by rewrite [in RHS]divnDl ?dvdnn // divnn R0 [(true + _)%N]add1n iterSr.
  rewrite /sponge_squeeze rate_squeezeE ?szt //=; move: (IH a.+1 _ hs ha) => /= -> /=; congr Some.
  rewrite /mkseq /= [iota 1 m](iotaDl 1 0 m) -map_comp; congr (_ :: _).
    by rewrite /squeezed addn0 divn_small // modn_small // nth_take.
  by apply: eq_map => i /=; rewrite add1n addSnnS.
have := gen n 0%N st hst isT; rewrite drop0 => ->.
by congr Some.
Qed.
End Hash.

Lemma pow2_gt0 n : (0 < 2 ^ n)%N. Proof. by rewrite expn_gt0. Qed.
Lemma capacity_inj (F : fieldType) (p z L L' : nat) : p \in [char F] -> (0 < z)%N ->
  (L * z < p)%N -> (L' * z < p)%N -> (L * z)%N%:R = (L' * z)%N%:R :> F -> L = L'.
Proof.
move=> hp z0; wlog hLL : L L' / (L <= L')%N.
  by move=> H h1 h2 e; case: (leqP L L') => [/H|/ltnW/H h]; [apply|apply/esym/h].
move=> _ h2 /eqP; rewrite eq_sym -subr_eq0 -natrB ?leq_pmul2r // -(dvdn_charf hp) -mulnBl => hd.
have : (L' - L == 0)%N.
  rewrite -leqn0 leqNgt; apply/negP => h0; have := dvdn_leq _ hd; rewrite muln_gt0 h0 z0 => /(_ isT).
  by rewrite leqNgt (leq_ltn_trans _ h2) // leq_mul2r leq_subr orbT.
by rewrite subn_eq0 => h; apply/eqP; rewrite eqn_leq hLL.
Qed.
(* Messages of different lengths start from different states, in a field of characteristic
   above every L * 2^64. *)
Theorem C42_capacity : forall (F : fieldType) (p L L' : nat), p \in [char F] ->
  (L * 2 ^ 64 < p)%N -> (L' * 2 ^ 64 < p)%N -> capacity F L = capacity F L' -> L = L'.
Proof. 
move=> F p L L' hp; rewrite /capacity; move: 64%N => e h1 h2.
by rewrite -!natrX -!natrM; exact: (capacity_inj hp (pow2_gt0 e) h1 h2).
Qed.

Print Assumptions C42_permute.
Print Assumptions C42_hash.
Print Assumptions C42_hash_empty.
Print Assumptions C42_squeeze.
Print Assumptions C42_capacity.

(* width 3, rate 2, x^5, four full and three partial rounds over F_97: the hypotheses hold for a message of
   three words, which fills one block and half of another *)
Definition rc97 : seq (seq F97) := mkseq (fun r => mkseq (fun i => (7 * r + 3 * i + 1)%N%:R) 3) 7.
Definition mds97 : seq (seq F97) := [:: [:: 2%:R; 1; 1]; [:: 1; 2%:R; 1]; [:: 1; 1; 3%:R]].
Definition spec97 : pspec F97 := PSpec 4 3 (fun x : F97 => x * x * x * x * x) rc97 mds97.
Example C42_hypotheses97 : [/\ size (sp_round_constants spec97) = (sp_full_rounds spec97 %/ 2 + sp_partial_rounds spec97 + sp_full_rounds spec97 %/ 2)%N
  & covers 2 2 (size [:: 1%:R; 2%:R; 3%:R : F97])].
Proof. by []. Qed.
Example C42_hash97 : omap k_nat (hash 3 2 spec97 [:: 1%:R; 2%:R; 3%:R]) = Some 64%N.
Proof. by vm_compute. Qed.
