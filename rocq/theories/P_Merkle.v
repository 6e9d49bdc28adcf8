(* C55: the Merkle gadget computes the root of a Merkle path. *)
Set Warnings "-notation-overridden,-ambiguous-paths".
From mathcomp Require Import all_ssreflect all_algebra.
From Verif Require Import Util FieldTac M_Env M_Assigned M_Circuit S_Circuit M_Selectors M_Value M_Region S_Region M_Layout S_Layout
  M_Utilities P_Bits L_Region L_Gadget P_RangeCheck P_CondSwap M_Ecc S_Curve P_Ecc M_EccMul M_Sinsemilla S_Sinsemilla L_Sinsemilla P_Sinsemilla M_Merkle S_Merkle.
Import GRing.Theory.
Set Implicit Arguments.
Unset Strict Implicit.
Local Open Scope ring_scope.

Section Words.
Local Open Scope nat_scope.
Lemma words_of_cons K n x : words_of K n.+1 x = x %% 2 ^ K :: words_of K n (x %/ 2 ^ K).
Proof.
rewrite /words_of /= muln0 expn0 divn1; congr (_ :: _); rewrite -[1]addn0 iotaDl -map_comp.
by apply/eq_map => i /=; rewrite add1n mulnS expnD divnMA.
Qed.
Lemma words_of_cat K m n x y : x < 2 ^ (K * m) ->
  words_of K (m + n) (x + 2 ^ (K * m) * y) = words_of K m x ++ words_of K n y.
Proof.
elim: m x => [|m IH] x; first by rewrite muln0 expn0 ltnS leqn0 => /eqP ->; rewrite add0n mul1n.
rewrite mulnS expnD => hx; rewrite addSn !words_of_cons /=.
have -> : x + 2 ^ K * 2 ^ (K * m) * y = 2 ^ (K * m) * y * 2 ^ K + x by rewrite -mulnA mulnC addnC.
by rewrite modnMDl divnMDl ?expn_gt0 // [_ + x %/ _]addnC IH // ltn_divLR ?expn_gt0 // mulnC.
Qed.
Lemma radix a b x y : x < a -> y < b -> x + a * y < a * b.
Proof. by move=> h1 h2; apply: leq_trans (_ : a * y.+1 <= _); rewrite ?leq_mul2l ?h2 ?orbT // mulnS ltn_add2r. Qed.
(* the three pieces are the encoding of l, u and v *)
Lemma layer_words K s w A B C b1 b2 : K = 2 * s -> 0 < K -> A < 2 ^ (K * w.+1) -> B < 2 ^ (K * 2) -> b1 < 2 ^ s ->
  B %/ 2 ^ K = b1 + 2 ^ s * b2 ->
  let n := K * w.+1 + s in
  let u := A %/ 2 ^ K + 2 ^ (K * w) * (B %% 2 ^ K + 2 ^ K * b1) in
  let v := b2 + 2 ^ s * C in
  words_of K ((K + n + n) %/ K) (A %% 2 ^ K + 2 ^ K * u + 2 ^ (K + n) * v) = words_of K w.+1 A ++ words_of K 2 B ++ words_of K w.+1 C.
Proof.
move=> eK K0 hA hB hb hz n u v.
rewrite -words_of_cat // -words_of_cat //; congr words_of.
  have -> : K + n + n = K * (w.+1 + (2 + w.+1)) by rewrite /n; nlia.
  by rewrite mulKn.
rewrite {2}(divn_eq A (2 ^ K)) {1}(divn_eq B (2 ^ K)) hz /u /v.
have e1 : 2 ^ K = 2 ^ s * 2 ^ s by rewrite -expnD addnn -mul2n -eK.
have e2 : 2 ^ (K * w.+1) = 2 ^ K * 2 ^ (K * w) by rewrite mulnS expnD.
have e3 : 2 ^ (K * 2) = 2 ^ K * 2 ^ K by rewrite muln2 -addnn expnD.
have e4 : 2 ^ (K + n) = 2 ^ K * (2 ^ K * 2 ^ (K * w) * 2 ^ s) by rewrite expnD /n expnD e2.
rewrite e3 e4 e2; move: (A %/ 2 ^ K) (A %% 2 ^ K) (B %% 2 ^ K) (2 ^ (K * w)) => a a0 b0 W; rewrite !e1; nring.
Qed.
End Words.

Section Pieces.
Variables (F : fieldType) (pf : prime_field F) (p : nat).
Hypothesis ok : prime_field_ok pf p.
Variables (K : nat) (T : table F) (place : nat -> int) (inst : nat -> nat -> value F).

Definition sub_step (st : option (value F * nat)) (sp : value F * nat) : option (value F * nat) :=
  obind (fun st : value F * nat => let: (acc, bits) := st in
    if ~~ (bits < 64)%N then None else
    Some (v_op2 +%R acc (v_map (fun v : F => (2 ^ bits)%N%:R * v) sp.1), (bits + sp.2)%N)) st.
Lemma sub_none sps : foldl sub_step None sps = None. Proof. by elim: sps. Qed.
Lemma sub_bits sps a b x t : foldl sub_step (Some (a, b)) sps = Some (x, t) -> t = (b + sumn (map snd sps))%N.
Proof.
elim: sps a b => [|sp sps IH] a b /=; first by case=> _ <-; rewrite addn0.
by case: ifP => _; rewrite ?sub_none // => /IH ->; rewrite addnA.
Qed.
Lemma from_subpieces_sound c sps : lsound T place inst (from_subpieces pf K c sps)
  (fun q => pc_words q = (sumn (map snd sps) %/ K)%N /\ (pc_words q * K < pf_num_bits pf)%N).
Proof.
rewrite /from_subpieces -/sub_step; case e: (foldl _ _ _) => [[x t]|]; last exact: lsound_panic.
have := sub_bits e; rewrite add0n => <-.
case: ifP => _; first exact: lsound_panic.
case: ifP => _; first exact: lsound_panic.
apply: lsound_bind; apply: lsound_region => r; apply: rsound_advice.
rewrite /piece_new; case: ifP => h; last exact: lsound_panic.
exact: lsound_ret.
Qed.

Variables (usable : int -> Prop) (lk : lrc).
Hypothesis hp : (2 ^ K * 2 ^ K <= p)%N.
Hypothesis short : gates_hold T [:: lrc_gate F lk K].
Hypothesis range : looked_up T usable [:: lrc_lookup F lk K] [:: table_idx lk].
Hypothesis words : forall row, usable row -> word K (t_cell T Fixed (table_idx lk) row).
Hypothesis rows : forall row, t_selector T (q_lookup lk) row -> usable row.
Hypothesis apart : forall row, t_selector T (q_bitshift lk) row ->
  t_selector T (q_running lk) row = false /\ t_selector T (q_running lk) (row - 1) = false.

Lemma bitrange_bits v a b x n : bitrange_of pf v a b = Some (x, n) -> n = (b - a)%N.
Proof. by rewrite /bitrange_of; case: (inner v) => [y|[_ <-]//]; case: bitrange_subset => //= y' [_ <-]. Qed.
Lemma witness_short_sound v a b : lsound T place inst (witness_short pf K lk v a b)
  (fun t => t.2 = (b - a)%N /\ (pf_val pf (cell_value T place (ac_cell t.1)) < 2 ^ (b - a))%N).
Proof.
rewrite /witness_short; case: ifP => _; first exact: lsound_panic.
case e: (bitrange_of _ _ _ _) => [[x n]|]; last exact: lsound_panic.
rewrite (bitrange_bits e); apply: lsound_bind; apply: (@lsound_weaken _ _ _ _ _ _ (fun c =>
  (pf_val pf (cell_value T place (ac_cell c)) < 2 ^ (b - a))%N)) => [c h|]; first exact: lsound_ret.
apply: lsound_region => r; rewrite /lrc_witness_short_check; case: ifP => _; first exact: rsound_panic.
apply: rsound_bind; apply: rsound_advice; set el := ACell _ _; apply: rsound_bind.
have key : rsound T place inst r (lrc_short_range_check lk K r el (b - a)%N) (fun _ => pf_val pf (cell_value T place (ac_cell el)) < 2 ^ (b - a))%N; last first.
  by apply: rsound_weaken key => u h; apply: rsound_ret.
move=> [] e1 e2; have [_ /(_ e1) ec] := short_inv inst lk K r el (b - a).
have := e2; rewrite ec !respects_cons => -[s0 [s1 [sb _]]].
have [a1 a2] := apart sb; have r01 : place r + 1%N%:Z - 1 = place r + 0%N%:Z by rewrite addrK addr0.
rewrite r01 in a2.
have lk0 row : t_selector T (q_lookup lk) row -> word K (at_row T row (lrc_lookup F lk K)).
  by move=> /rows hu; have [row' hr' e'] := range hu; have [k hk ek] := words hr'; exists k => //; rewrite -ek; case: e'.
apply: (short_sound ok hp e1 erefl e2 a2 a1 (lk0 _ s0) (lk0 _ s1) short).
Qed.
End Pieces.

Section Sound.
Variables (F : fieldType) (pf : prime_field F) (p : nat).
Hypothesis ok : prime_field_ok pf p.
Variables (K : nat) (gens : seq (F * F)) (max_words s w : nat).
Hypothesis eK : K = (2 * s)%N.
Hypothesis hn : pf_num_bits pf = (K * w.+1 + s)%N.
Hypothesis hp : (2 ^ K * 2 ^ K <= p)%N.
Variables (T : table F) (place : nat -> int) (inst : nat -> nat -> value F) (usable : int -> Prop).
Hypothesis two0 : (2%:R : F) != 0.
Let n := pf_num_bits pf.
Let S := nth (0, 0) gens.
Notation at_ a := (cell_value T place (ac_cell a)).

Lemma decompose_sound c l a b c' left right z1_a z1_b b_1 b_2 r : merkle_holds K gens s w T usable c ->
  rsound T place inst r (decompose_region c l a b c' left right z1_a z1_b b_1 b_2 r) (fun _ =>
    [/\ at_ a = l%:R + (2 ^ K)%N%:R * at_ z1_a,
        at_ left = at_ z1_a + (2 ^ (K * w))%N%:R * (at_ b - (2 ^ K)%N%:R * at_ z1_b + (2 ^ K)%N%:R * at_ b_1),
        at_ right = at_ b_2 + (2 ^ s)%N%:R * at_ c' & at_ z1_b = at_ b_1 + (2 ^ s)%N%:R * at_ b_2]).
Proof.
move=> hc; rewrite /decompose_region.
apply: rsound_bind; apply: rsound_enable => hs.
apply: rsound_bind; apply: rsound_advice_constant => e1.
do 9 (apply: rsound_bind; apply: rsound_copy => ?).
apply: rsound_ret.
have := mh_decompose hc (place r + 0%N%:Z).
have r01 : place r + 0%N%:Z + 1 = place r + 1%N%:Z by rewrite addr0.
have two_s : (2 ^ s)%N%:R * (2 ^ s)%N%:R = (2 ^ K)%N%:R :> F by rewrite -natrM -expnD eK mul2n addnn.
rewrite /decompose_gate two_s; cbn [map all].
rewrite !rowE hs !mul1r r01 (addr0 (place r + 0%N%:Z)).
repeat match goal with h : t_cell _ _ _ _ = _ |- _ => rewrite h; clear h end.
rewrite andbT !subr_eq0 => /and4P[/eqP h1 /eqP h2 /eqP h3 /eqP h4].
by split; [rewrite -h1 subrK| | |].
Qed.

Lemma get_running zs1 (zs : seq (acell F)) (x m : nat) : [seq at_ a | a <- zs] = [seq (x %/ 2 ^ (K * j))%N%:R | j <- iota 0 m] ->
  get zs 1 = Some zs1 -> at_ zs1 = (x %/ 2 ^ K)%N%:R.
Proof.
case: zs => [|z0 [|z1 zs]] //= e [<-]; case: m e => [|[|m]] //= [_ -> _].
by rewrite muln1.
Qed.

Lemma layer_sound c Q l left right : (l < 2 ^ K)%N -> merkle_holds K gens s w T usable c ->
  lsound T place inst (hash_layer pf K gens max_words s w c (Some Q) l left right)
    (fun h => parent S Q K n l (at_ left) (at_ right) (at_ h)).
Proof.
move=> hl hc; rewrite /hash_layer.
case e0: (bitrange_of _ _ _ _) => [[a0 na0]|]; last exact: lsound_panic.
case e1: (bitrange_of _ _ _ _) => [[a1 na1]|]; last exact: lsound_panic.
apply: lsound_bind; apply: lsound_weaken (@from_subpieces_sound F pf K T place inst _ _) => qa [wa la].
rewrite /= (bitrange_bits e0) (bitrange_bits e1) !subn0 addn0 -mulnS in wa.
case e2: (bitrange_of _ _ _ _) => [[b0 nb0]|]; last exact: lsound_panic.
have short v a b := @witness_short_sound F pf p ok K T place inst usable (mc_lookup c) hp (mh_short hc) (mh_range hc) (mh_words hc)
  (fun row h => mh_rows hc (introT orP (or_intror h))) (mh_apart hc) v a b.
apply: lsound_bind; apply: lsound_weaken (short _ _ _) => -[b1 nb1] [nb1E hb1].
apply: lsound_bind; apply: lsound_weaken (short _ _ _) => -[b2 nb2] [nb2E hb2].
apply: lsound_bind; apply: lsound_weaken (@from_subpieces_sound F pf K T place inst _ _) => qb [wb lb].
case e3: (bitrange_of _ _ _ _) => [[c0 nc0]|]; last exact: lsound_panic.
apply: lsound_bind; apply: lsound_weaken (@from_subpieces_sound F pf K T place inst _ _) => qc [wc lc].
rewrite /= in nb1E hb1 nb2E hb2; rewrite /= (bitrange_bits e2) nb1E nb2E in wb; rewrite /= (bitrange_bits e3) in wc.
rewrite /message_from; case: ifP => _; last exact: lsound_panic.
refine (lsound_bind _) => r1 [P zss] r2 e4 e5.
have [] := C54_hash_to_point_sound ok two0 (mh_sins hc) (mh_lookup hc) (mh_table hc)
  (fun row h => mh_rows hc (introT orP (or_introl h))) _ _ e4 e5 => //; first by rewrite /= la lb lc.
move=> /and4P[fa fb fc _] ez hash.
case: zss {e4} ez => [|za [|zb [|zc [|? ?]]]] // [ea eb ec].
have -> : obind (fun zs => get zs 1) (get (P, [:: za; zb; zc]).2 0) = get za 1 by [].
have -> : obind (fun zs => get zs 1) (get (P, [:: za; zb; zc]).2 1) = get zb 1 by [].
case ga: (get za 1) => [z1a|]; last exact: lsound_panic.
case gb: (get zb 1) => [z1b|]; last exact: lsound_panic.
have va := get_running ea ga; have vb := get_running eb gb.
apply: lsound_bind; apply: lsound_region => r; apply: rsound_weaken (@decompose_sound _ _ _ _ _ _ _ _ _ _ _ _ hc) => u.
rewrite va vb => -[d1 d2 d3 d4]; apply: lsound_ret.
set A := piece_int pf T place qa in fa ea va d1 d2; set B := piece_int pf T place qb in fb eb vb d2 d4.
set C := piece_int pf T place qc in fc ec.
have K0 : (0 < K)%N by move: la; rewrite wa hn eK; case: (s) => //=; rewrite muln0 !mul0n divn0 mul0n.
rewrite mulKn // in wa; rewrite hn addKn in hb1; rewrite subn0 in hb2.
have wb2 : pc_words qb = 2%N.
  have e : (K * w.+1 - K * w + (pf_num_bits pf - K * w.+1 + (s - 0 + 0)) = 2 * K)%N.
    by rewrite hn addKn mulnS addnK subn0 addn0 addnn -mul2n -eK mul2n addnn.
  by rewrite wb e mulnK.
have wc2 : pc_words qc = w.+1 by rewrite wc hn addnK addn0 mulKn.
rewrite wa in fa; rewrite wb2 in fb; rewrite wc2 in fc.
have hP : (2 ^ K <= p)%N by apply: leq_trans hp; rewrite leq_pmull ?expn_gt0.
set x1 := pf_val pf (at_ b1) in hb1; set x2 := pf_val pf (at_ b2) in hb2.
have b1E : at_ b1 = x1%:R by rewrite (pf_valK ok).
have b2E : at_ b2 = x2%:R by rewrite (pf_valK ok).
have AE : at_ (pc_cell qa) = A%:R by rewrite (pf_valK ok).
have BE : at_ (pc_cell qb) = B%:R by rewrite (pf_valK ok).
have CE : at_ (pc_cell qc) = C%:R by rewrite (pf_valK ok).
have ss : (2 ^ s * 2 ^ s = 2 ^ K)%N by rewrite -expnD addnn -mul2n -eK.
have lE : l = (A %% 2 ^ K)%N.
  apply: (natr_inj ok); [exact: leq_trans hP|by apply: leq_trans hP; rewrite ltn_mod expn_gt0|].
  apply: (addIr ((2 ^ K)%N%:R * (A %/ 2 ^ K)%N%:R)); rewrite -d1 AE -natrM -natrD; congr _%:R.
  by rewrite {1}(divn_eq A (2 ^ K)) mulnC addnC.
have hz : (B %/ 2 ^ K = x1 + 2 ^ s * x2)%N.
  apply: (natr_inj ok); last by rewrite d4 /= b1E b2E natrD natrM.
    by apply: leq_trans hP; rewrite ltn_divLR ?expn_gt0 // -expnD addnn -muln2.
  by apply: leq_trans hP; rewrite -ss; exact: radix.
have := layer_words C eK K0 fa fb hb1 hz; rewrite /= -hn -lE.
set u' := (_ %/ _ + _)%N; set v' := (x2 + _)%N => hw.
exists u', v'; split.
- split; last first.
    rewrite d2 /= BE b1E /u' natrD natrM natrD natrM; congr (_ + _ * (_ + _)).
    have -> : B%:R = (2 ^ K)%N%:R * (B %/ 2 ^ K)%N%:R + (B %% 2 ^ K)%N%:R :> F by rewrite -natrM -natrD mulnC -divn_eq.
    by rewrite addrC addKr.
  rewrite /n hn /u'.
  have ha1 : (A %/ 2 ^ K < 2 ^ (K * w))%N by rewrite ltn_divLR ?expn_gt0 // -expnD addnC -mulnS.
  have hb0 : (B %% 2 ^ K < 2 ^ K)%N by rewrite ltn_mod expn_gt0.
  by rewrite mulnS [(K + _)%N]addnC -addnA !expnD; do 2 apply: radix => //.
- split; last by rewrite d3 /= b2E CE /v' natrD natrM.
  by rewrite /n hn /v' [(_ + s)%N]addnC expnD; exact: radix.
move=> d; rewrite /crh -/n hw; case eh: (hash_to_point_spec _ _ _) => [D|] //= -[<-].
move: (hash D); rewrite /message_words /= wa wb2 wc2 cats0 => /(_ eh).
by rewrite /point_in /=; case: (D) => x y [].
Qed.

Lemma path_valid_rcons Q l x path y b sib z : path_valid S Q K n l x path y ->
  (if b then parent S Q K n (l + size path) sib y z else parent S Q K n (l + size path) y sib z) ->
  path_valid S Q K n l x (rcons path (b, sib)) z.
Proof.
elim: path l x => [|[b' sib'] path IH] l x /=; first by rewrite addn0 => -> h; exists z.
by case=> x' h1 h2 h3; exists x' => //; apply: IH => //; rewrite addSnnS.
Qed.
Lemma iota_split m l1 i l2 : iota 0 m = l1 ++ i :: l2 -> i = size l1 /\ (i < m)%N.
Proof.
move=> e; have hi : (size l1 < m)%N by rewrite -(size_iota 0 m) e size_cat /= addnS ltnS leq_addr.
by have := nth_iota 0 0%N hi; rewrite e nth_cat ltnn subnn /= add0n => ->.
Qed.

Lemma path_layer_sound chips Q m path pos leaf node l path' : List.Forall (merkle_holds K gens s w T usable) chips ->
  (l < 2 ^ K)%N -> size path' = l -> path_valid S Q K n 0 leaf path' (at_ node) ->
  lsound T place inst (path_layer pf K gens max_words s w chips (Some Q) m path pos node l)
    (fun h => exists path, size path = l.+1 /\ path_valid S Q K n 0 leaf path (at_ h)).
Proof.
move=> hc hl sp pv; rewrite /path_layer; case e: (get _ _) => [c|]; last exact: lsound_panic.
have {}hc : merkle_holds K gens s w T usable c.
  by move: (_ %/ _)%N e => i; elim: chips i hc => [|c' chips IH] [|i] // /List.Forall_cons_iff[h1 h2] => [[<-]|/IH]; [|apply].
apply: lsound_bind; rewrite /merkle_swap; apply: lsound_region => r [a b] er hr.
have sw := C44_swap_sound er hr (mh_swap hc).
apply: lsound_weaken (layer_sound hl hc) => h /= hp'.
case: sw => -[_ [ea eb]]; rewrite ea eb in hp'.
- eexists (rcons path' (false, _)); rewrite size_rcons sp; split=> //.
  by apply: path_valid_rcons pv _; rewrite sp; exact: hp'.
- eexists (rcons path' (true, _)); rewrite size_rcons sp; split=> //.
  by apply: path_valid_rcons pv _; rewrite sp; exact: hp'.
Qed.
End Sound.

(* whatever witnesses the prover chooses, the root is reached from the leaf by a path: some position and
   siblings; each node hashed is an encoding of the cell's value with NUM_BITS bits *)
Theorem C55_calculate_root_sound (F : fieldType) (pf : prime_field F) (p : nat) (K : nat) (gens : seq (F * F)) (max_words s w : nat)
    (T : table F) (place : nat -> int) (inst : nat -> nat -> value F) (usable : int -> Prop) chips Q m leaf_pos path leaf r root r' :
  prime_field_ok pf p -> (2%:R : F) != 0 ->
  K = (2 * s)%N -> pf_num_bits pf = (K * w.+1 + s)%N -> (2 ^ K * 2 ^ K <= p)%N -> (m <= 2 ^ K)%N ->
  List.Forall (merkle_holds K gens s w T usable) chips ->
  let prog := calculate_root pf K gens max_words s w chips (Some Q) m leaf_pos path leaf in
  lreturns inst r prog = Ok (root, r') -> lrespects T place inst r prog ->
  let at_ a := cell_value T place (ac_cell a) in
  exists path', size path' = m /\ path_valid (nth (0, 0) gens) Q K (pf_num_bits pf) 0 (at_ leaf) path' (at_ root).
Proof.
move=> ok two0 eK hn hp hm hc /= e1 e2.
suff h : lsound T place inst (calculate_root pf K gens max_words s w chips (Some Q) m leaf_pos path leaf)
  (fun h => exists path', size path' = m /\ path_valid (nth (0, 0) gens) Q K (pf_num_bits pf) 0 (cell_value T place (ac_cell leaf)) path' (cell_value T place (ac_cell h))).
  exact: h e1 e2.
rewrite /calculate_root; case: ifP => _; first exact: lsound_panic.
case: (map_transpose _ _ _) => [pos|]; last exact: lsound_panic.
have := @lsound_fold F T place inst _ _ (path_layer pf K gens max_words s w chips (Some Q) m (v_transpose_array m path) pos) (iota 0 m) leaf
  (fun l1 h => exists path', size path' = size l1 /\ path_valid (nth (0, 0) gens) Q K (pf_num_bits pf) 0 (cell_value T place (ac_cell leaf)) path' (cell_value T place (ac_cell h))).
rewrite size_iota; apply; first by exists [::].
move=> l1 i l2 a /iota_split[-> hi] [path' [sp pv]]; rewrite size_rcons.
apply: (@path_layer_sound F pf p ok K gens max_words s w eK hn hp T place inst usable two0 chips Q m _ pos _ a (size l1) path') => //; exact: leq_trans hm.
Qed.
Print Assumptions C55_calculate_root_sound.
