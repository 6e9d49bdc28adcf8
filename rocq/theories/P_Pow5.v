(* C46: the Pow5 chip and the Poseidon gadgets compute the Poseidon hash. *)
Set Warnings "-notation-overridden,-ambiguous-paths".
From mathcomp Require Import all_ssreflect all_algebra.
From Verif Require Import Util M_Env M_Assigned P_Assigned M_Circuit S_Circuit M_Value M_Region S_Region M_Utilities P_Value
  L_Region M_Layout S_Layout L_Gadget M_Poseidon S_Poseidon P_Poseidon M_Pow5 L_Sigma Ex_Field Ex_Env Ex_Layout.
Import GRing.Theory.
Set Implicit Arguments.
Unset Strict Implicit.
Local Open Scope ring_scope.
Local Arguments at_row : simpl never.
Local Arguments esub : simpl never.
Local Arguments lbind : simpl never.
Local Arguments poseidon_sponge : simpl never.

Section Pow5.
Variables (F : fieldType) (WIDTH RATE : nat).
Notation W := WIDTH.
Implicit Types (T : table F) (place : nat -> int) (c : p5config F).

Definition mulM (m : seq (seq F)) (v : nat -> F) (i : nat) : F := \sum_(j < W) entry m i j * v j.

(* ---------------------------------------------------------------- expressions *)
Lemma at_foldl T row (e : expr F) es : at_row T row (foldl (@ESum F) e es) = at_row T row e + \sum_(x <- [seq at_row T row x | x <- es]) x.
Proof. by elim: es e => [|x es IH] e /=; rewrite ?big_nil ?addr0 // IH at_sum big_cons addrA. Qed.
Lemma at_reduce T row f n : at_row T row (e_reduce (mkseq f n)) = \sum_(i < n) at_row T row (f i).
Proof.
rewrite -(big_mkord xpredT (fun i => at_row T row (f i))) /index_iota subn0 /mkseq.
case: (iota 0 n) => [|i s]; first by rewrite big_nil /e_reduce at_const.
by rewrite /e_reduce [map _ _]/= at_foldl big_cons -map_comp big_map.
Qed.
Lemma at_pow5 T row e : at_row T row (e_pow5 e) = at_row T row e ^+ 5.
Proof. by rewrite /e_pow5 !at_mul !exprS expr0 mulr1 !mulrA. Qed.
Lemma all_mkseq (A : Type) (p : pred A) f n : all p (mkseq f n) <-> forall i, (i < n)%N -> p (f i).
Proof.
split=> [/all_nthP h i hi|h]; first by rewrite -(nth_mkseq (f i) f hi); apply: h; rewrite size_mkseq.
apply/(all_nthP (f 0%N)) => i; rewrite size_mkseq => hi; by rewrite nth_mkseq // h.
Qed.

Section Rows.
Variables (T : table F) (c : p5config F) (m_inv : seq (seq F)) (row : int).
Let x rot i := t_cell T Advice (p5_state c i) (row + rot).
Let A i := t_cell T Fixed (p5_rc_a c i) (row + 0).
Let B i := t_cell T Fixed (p5_rc_b c i) (row + 0).
Let s := t_cell T Advice (p5_partial_sbox c) (row + 0).

Lemma full_polysE : all (fun p => at_row T row p == 0) (full_polys W c) <->
  forall i, (i < W)%N -> x 1 i = mulM (p5_m c) (fun j => (x 0 j + A j) ^+ 5) i.
Proof.
have e i : at_row T row (esub
    (e_reduce (mkseq (fun idx => EScaled (e_pow5 (ESum (EAdvice F 0 (p5_state c idx) 0) (EFixed F 0 (p5_rc_a c idx) 0))) (entry (p5_m c) i idx)) W))
    (EAdvice F 0 (p5_state c i) 1)) = mulM (p5_m c) (fun j => (x 0 j + A j) ^+ 5) i - x 1 i.
  by rewrite at_sub at_reduce; congr (_ - _); apply: eq_bigr => j _; rewrite at_scale at_pow5.
rewrite /full_polys all_mkseq; split=> h i hi; have := h i hi; rewrite e.
  by rewrite subr_eq0 => /eqP ->.
by move=> ->; rewrite subrr eqxx.
Qed.
Definition first_word (first : F) (v : nat -> F) (j : nat) : F := if j == 0%N then first else v j.
Lemma at_mid i : (0 < W)%N -> at_row T row (e_mid W c i) = mulM (p5_m c) (first_word s (fun j => x 0 j + A j)) i.
Proof.
move=> W0; rewrite /e_mid /mulM -(big_mkord xpredT (fun j => entry (p5_m c) i j * first_word s (fun j => x 0 j + A j) j)).
rewrite big_ltn //; set e0 := EScaled _ _.
have -> : entry (p5_m c) i 0 * first_word s (fun j => x 0 j + A j) 0 = at_row T row e0 by [].
rewrite /index_iota subn1; have : all (leq 1) (iota 1 W.-1) by apply/allP => j; rewrite mem_iota => /andP[].
elim: (iota 1 W.-1) e0 => [|j l IH] e0 /=; first by rewrite big_nil addr0.
case/andP=> j0 hl; rewrite IH // big_cons addrA; congr (_ + _ + _).
by rewrite /first_word; case: j j0.
Qed.
Lemma at_next i : at_row T row (e_next W c m_inv i) = mulM m_inv (x 1) i.
Proof. by rewrite at_reduce; apply: eq_bigr => j _; rewrite at_scale. Qed.
Lemma partial_polysE : (0 < W)%N -> all (fun p => at_row T row p == 0) (partial_polys W c m_inv) <->
  s = (x 0 0 + A 0) ^+ 5 /\
  let mid i := mulM (p5_m c) (first_word s (fun j => x 0 j + A j)) i in
  forall i, (i < W)%N -> mulM m_inv (x 1) i = first_word ((mid 0%N + B 0) ^+ 5) (fun i => mid i + B i) i.
Proof.
move=> W0; rewrite /partial_polys /= !at_sub !at_pow5 !at_sum at_mid // at_next !at_adv !at_fixed !subr_eq0.
rewrite all_map -/(x 0 0) -/(A 0) -/(B 0) -/s; split.
  case/and3P=> /eqP h1 /eqP h2 /allP h3; split=> // i hi; rewrite /first_word; case: eqP => [->|/eqP i0] //.
  have := h3 i; rewrite mem_iota lt0n i0 addnC subnK // => /(_ hi); rewrite /= at_sub at_sum at_mid // at_next subr_eq0.
  by move/eqP.
case=> h1 h2; apply/and3P; split; [exact/eqP|by rewrite (h2 0%N W0)|apply/allP => i].
rewrite mem_iota addnC subnK // => /andP[i0 hi]; rewrite /= at_sub at_sum at_mid // at_next subr_eq0 (h2 i hi).
by rewrite /first_word; case: i i0 {hi}.
Qed.
Lemma pad_polysE : all (fun p => at_row T row p == 0) (pad_polys RATE c) <->
  (forall i, (i < RATE)%N -> x 1 i = x (-1) i + x 0 i) /\ x 1 RATE = x (-1) RATE.
Proof.
rewrite /pad_polys all_cat /= andbT at_sub subr_eq0; split.
  case/andP=> /all_mkseq h /eqP e; split=> // i hi; have := h i hi; rewrite at_sub at_sum subr_eq0 => /eqP.
  exact: esym.
case=> h1 h2; apply/andP; split; last by apply/eqP.
by apply/all_mkseq => i hi; rewrite at_sub at_sum !at_adv subr_eq0 -!/(x _ _) h1.
Qed.
End Rows.

(* ---------------------------------------------------------------- the chip *)
Variables (S : pspec F) (m_inv : seq (seq F)).
Variables (state : nat -> nat) (partial_sbox : nat) (rc_a rc_b : nat -> nat) (s_full s_partial s_pad : nat).
Let c : p5config F := P5Config state partial_sbox rc_a rc_b s_full s_partial s_pad
               (sp_full_rounds S %/ 2) (sp_partial_rounds S %/ 2) (sp_round_constants S) (sp_mds S).
Let gates := p5_gates W RATE c m_inv.
Let h := (sp_full_rounds S %/ 2)%N.
Let hp := (sp_partial_rounds S %/ 2)%N.
Let rp := sp_partial_rounds S.
Hypothesis W0 : (0 < W)%N.
Hypothesis eR : RATE = (W - 1)%N.
Hypothesis even_p : ~~ odd (sp_partial_rounds S).
Hypothesis sbox5 : forall x, sp_sbox S x = x ^+ 5.
Hypothesis nrc : size (sp_round_constants S) = (h + rp + h)%N.
Hypothesis right_inv : forall i j, (i < W)%N -> (j < W)%N -> \sum_(k < W) entry (sp_mds S) i k * entry m_inv k j = (i == j)%:R.
Hypothesis left_inv : forall i j, (i < W)%N -> (j < W)%N -> \sum_(k < W) entry m_inv i k * entry (sp_mds S) k j = (i == j)%:R.

Let round r (b : bool) (v : words F) : words F := spec_round W (Mx S) (sp_sbox S) (cx S) r b v.

Lemma mulMV m m' v i : (forall i j, (i < W)%N -> (j < W)%N -> \sum_(k < W) entry m i k * entry m' k j = (i == j)%:R) ->
  (i < W)%N -> mulM m (mulM m' v) i = v i.
Proof.
move=> hm hi; rewrite /mulM; under eq_bigr do rewrite big_distrr /=.
rewrite exchange_big /=; under eq_bigr do under eq_bigr do rewrite mulrA.
under eq_bigr do rewrite -big_distrl /=.
rewrite (bigD1 (Ordinal hi)) //= hm // eqxx mul1r big1 ?addr0 // => j nj.
rewrite hm //; have -> : (i == j) = (Ordinal hi == j) by []; by rewrite eq_sym (negbTE nj) mul0r.
Qed.
Lemma mulM_ext m v v' i : (forall j, (j < W)%N -> v j = v' j) -> mulM m v i = mulM m v' i.
Proof. by move=> e; apply: eq_bigr => j _; rewrite e. Qed.
Lemma round_full r v i : round r false v i = mulM (sp_mds S) (fun j => (v j + cx S r j) ^+ 5) i.
Proof. by apply: eq_bigr => j _; rewrite /= sbox5. Qed.
Lemma round_partial r v i : round r true v i =
  mulM (sp_mds S) (first_word ((v 0%N + cx S r 0%N) ^+ 5) (fun j => v j + cx S r j)) i.
Proof. by apply: eq_bigr => -[[|j] hj] _ //=; rewrite /first_word /= sbox5. Qed.
Lemma round_ext r b v v' i : (forall j, (j < W)%N -> v j = v' j) -> round r b v i = round r b v' i.
Proof. by move=> e; apply: eq_bigr => j _; rewrite e. Qed.

(* ---------------------------------------------------------------- rates *)
Lemma rate_absorb_map (A C : Type) (f : A -> C) m v :
  rate_absorb (map (omap f) m) (f v) = omap (map (omap f)) (rate_absorb m v).
Proof. by elim: m => [|[x|] m IH] //=; rewrite IH; case: (rate_absorb m v). Qed.
Lemma init_with_map (A C : Type) (f : A -> C) v : init_with RATE (f v) = omap (map (omap f)) (init_with RATE v).
Proof. by rewrite /init_with -rate_absorb_map /init_empty map_nseq. Qed.
Lemma rate_absorb_size (A : Type) (m m' : rate A) v : rate_absorb m v = Some m' -> size m' = size m.
Proof.
elim: m m' => [|[x|] m IH] //= m'; last by case=> <-.
by case e: (rate_absorb m v) => [m1|] //= [<-] /=; rewrite (IH m1).
Qed.
Lemma rate_absorb_full (A : Type) (m : rate A) v : rate_absorb m v = None -> all isSome m.
Proof. by elim: m => [|[x|] m IH] //=; case e: (rate_absorb m v) IH => //= ->. Qed.
Lemma rate_some (A : Type) (m : rate A) : all isSome m -> exists ws, m = map Some ws.
Proof. by elim: m => [|[x|] m IH] //=; [exists [::]|case/IH=> ws ->; exists (x :: ws)]. Qed.
Lemma rate_squeeze_map (A C : Type) (f : A -> C) m :
  rate_squeeze (map (omap f) m) = omap (fun r => (f r.1, map (omap f) r.2)) (rate_squeeze m).
Proof. by elim: m => [|[x|] m IH] //=; rewrite IH; case: (rate_squeeze m). Qed.

(* one call of the sponge function on the field elements *)
Lemma sponge_some st v (b : seq F) : same W st v -> size b = RATE -> (RATE < W)%N ->
  exists2 st', same W st' (the_permute W S (fun j => v j + (if (j < RATE)%N then nth 0 b j else 0))) &
    poseidon_sponge W RATE S st (Some (map Some b)) = Some (st', map Some (take RATE st')).
Proof.
move=> hst hb hR; have hp1 := permute_same W0 nrc (add_block_same (b := b) hst ltac:(by rewrite hb; apply: ltnW)).
exists (permute W S (add_block st b)); first by rewrite -hb.
rewrite sponge_block; congr (Some (_, _)); apply: (@eq_from_nth _ None) => [|i].
  by rewrite size_mkseq size_map size_takel // hp1.1 ltnW.
rewrite size_mkseq => hi; rewrite nth_mkseq // (nth_map 0) ?size_takel ?hp1.1 ?(ltnW hR) //.
by rewrite (ltn_trans hi hR) nth_take.
Qed.
Lemma sponge_none st v : same W st v -> (RATE < W)%N ->
  exists2 st', same W st' (the_permute W S v) &
    poseidon_sponge W RATE S st None = Some (st', map Some (take RATE st')).
Proof.
move=> hst hR; have hp1 := permute_same W0 nrc hst; exists (permute W S st) => //; rewrite /poseidon_sponge /=.
congr (Some (_, _)); apply: (@eq_from_nth _ None) => [|i].
  by rewrite size_mkseq size_map size_takel // hp1.1 ltnW.
rewrite size_mkseq => hi; rewrite nth_mkseq // (nth_map 0) ?size_takel ?hp1.1 ?(ltnW hR) //.
by rewrite (ltn_trans hi hR) nth_take.
Qed.

Section Table.
Variables (T : table F) (place : nat -> int) (inst : nat -> nat -> value F).
Definition xs (region o i : nat) : F := t_cell T Advice (state i) (place region + o%:Z).
Definition at_offset (region o : nat) (st : seq (acell F)) : Prop :=
  size st = W /\ forall i a0, (i < W)%N -> ac_cell (nth a0 st i) = Cell region o (Advice, state i).

Lemma rotE region o rot : place region + o%:Z + rot = place region + (o%:Z + rot). Proof. by rewrite addrA. Qed.

(* the gates on a row where their selector is on *)
Lemma gate_full region o : gates_hold T gates -> t_selector T s_full (place region + o%:Z) ->
  all (fun p => at_row T (place region + o%:Z) p == 0) (full_polys W c).
Proof.
move=> /(_ (place region + o%:Z)); rewrite /gates /p5_gates all_cat all_map => /andP[h1 _] hs.
by apply: sub_all h1 => p /=; rewrite at_mul at_sel hs mul1r.
Qed.
Lemma gate_partial region o : gates_hold T gates -> t_selector T s_partial (place region + o%:Z) ->
  all (fun p => at_row T (place region + o%:Z) p == 0) (partial_polys W c m_inv).
Proof.
move=> /(_ (place region + o%:Z)); rewrite /gates /p5_gates !all_cat !all_map => /and3P[_ h1 _] hs.
by apply: sub_all h1 => p /=; rewrite at_mul at_sel hs mul1r.
Qed.
Lemma gate_pad region o : gates_hold T gates -> t_selector T s_pad (place region + o%:Z) ->
  all (fun p => at_row T (place region + o%:Z) p == 0) (pad_polys RATE c).
Proof.
move=> /(_ (place region + o%:Z)); rewrite /gates /p5_gates; move: (pad_polys _ _) => pp; rewrite !all_cat !all_map => /and3P[_ _ h1] hs.
by apply: sub_all h1 => p /=; rewrite at_mul at_sel hs mul1r.
Qed.

(* ---- soundness *)
Lemma load_constants_sound region col offset rcs (Q : seq (acell F) -> Prop) :
  (forall s, (forall i, (i < W)%N -> t_cell T Fixed (col i) (place region + offset%:Z) = nth 0 rcs i) -> Q s) ->
  rsound T place inst region (load_constants W region col offset rcs) Q.
Proof.
move=> hQ; apply: (rsound_map (P := fun i _ => t_cell T Fixed (col i) (place region + offset%:Z) = nth 0 rcs i)).
  by move=> i _; apply: rsound_fixed => e; exact: e.
move=> s _ e; apply: hQ => i hi; have := e i 0%N; rewrite size_iota nth_iota // add0n; apply=> //.
exact: ACell unknown (Cell 0 0 (Advice, 0%N)).
Qed.
Lemma next_state_sound region offset vs (Q : seq (acell F) -> Prop) :
  (forall st, at_offset region (offset + 1) st -> Q st) ->
  rsound T place inst region (next_state W c region offset vs) Q.
Proof.
move=> hQ; apply: (rsound_map (P := fun i a => ac_cell a = Cell region (offset + 1) (Advice, state i))).
  by move=> i _; apply: rsound_advice.
move=> s; rewrite size_iota => e1 e2; apply: hQ; split=> // i a0 hi; by have := e2 i 0%N a0 hi; rewrite nth_iota.
Qed.
Lemma load_state_sound region init (Q : seq (acell F) -> Prop) : size init = W ->
  (forall st, at_offset region 0 st ->
     (forall i a0, (i < W)%N -> xs region 0 i = cell_value T place (ac_cell (nth a0 init i))) -> Q st) ->
  rsound T place inst region (load_state W c region init) Q.
Proof.
move=> si hQ; apply: (rsound_map (P := fun ia a => ac_cell a = Cell region 0 (Advice, state ia.1) /\
    xs region 0 ia.1 = cell_value T place (ac_cell ia.2))).
  by move=> ia _; apply: rsound_copy.
move=> s; rewrite size_zip size_iota si minnn => e1 e2.
have e i a0 : (i < W)%N -> nth (0%N, a0) (zip (iota 0 W) init) i = (i, nth a0 init i).
  by move=> hi; rewrite nth_zip ?size_iota // nth_iota.
by apply: hQ => [|i a0 hi]; [split=> // i a0 hi|]; have := e2 i (0%N, a0) a0 hi; rewrite e // => -[].
Qed.
Hypothesis hg : gates_hold T gates.
Lemma full_round_sound region st r o (v : words F) :
  (forall i, (i < W)%N -> xs region o i = v i) ->
  rsound T place inst region (p5_full_round W c region st r o)
    (fun st' => at_offset region (o + 1) st' /\ forall i, (i < W)%N -> xs region (o + 1) i = round r false v i).
Proof.
move=> hv; apply: rsound_bind; apply: rsound_enable => hs; rewrite /with_constants; case: ifP => // _.
apply: rsound_bind; apply: load_constants_sound => _ hc; apply: next_state_sound => st' hst'; split=> // i hi.
have /full_polysE := gate_full hg hs; move/(_ i hi); rewrite !rotE -PoszD => e.
rewrite /xs e round_full; apply: mulM_ext => j hj; congr ((_ + _) ^+ 5).
  by rewrite addr0; exact: hv.
by rewrite addr0 hc.
Qed.
Lemma partial_round_sound region st r o (v : words F) :
  (forall i, (i < W)%N -> xs region o i = v i) ->
  rsound T place inst region (p5_partial_round W c region st r o)
    (fun st' => at_offset region (o + 1) st' /\
       forall i, (i < W)%N -> xs region (o + 1) i = round r.+1 true (round r true v) i).
Proof.
move=> hv; apply: rsound_bind; apply: rsound_enable => hs; rewrite /with_constants; case: ifP => // _.
apply: rsound_bind; apply: load_constants_sound => _ hca; apply: rsound_bind; apply: rsound_advice; case: ifP => // _.
apply: rsound_bind; apply: load_constants_sound => _ hcb; apply: next_state_sound => st' hst'; split=> // i hi.
have := iffLR (partial_polysE _ _ _ _ W0) (gate_partial hg hs).
rewrite !rotE !addr0 -!PoszD => -[hs0]; rewrite hs0 => /= hn.
have e1 j : (j < W)%N -> mulM (sp_mds S) (first_word ((xs region o 0 + cx S r 0%N) ^+ 5) (fun j => xs region o j + cx S r j)) j = round r true v j.
  by move=> hj; rewrite round_partial; apply: mulM_ext => k hk; rewrite /first_word !hv.
rewrite -(mulMV (fun k => xs region (o + 1) k) right_inv hi) round_partial.
apply: mulM_ext => j hj; rewrite {1}/xs hn //.
have e2 k : mulM (sp_mds S) (first_word ((t_cell T Advice (state 0) (place region + o) + t_cell T Fixed (rc_a 0) (place region + o)) ^+ 5)
     (fun j : nat => t_cell T Advice (state j) (place region + o) + t_cell T Fixed (rc_a j) (place region + o))) k =
  mulM (sp_mds S) (first_word ((xs region o 0 + cx S r 0%N) ^+ 5) (fun j => xs region o j + cx S r j)) k.
  by apply: mulM_ext => l hl; rewrite /first_word !hca.
by rewrite /first_word !e2 !hcb // !e1.
Qed.

(* the first n rounds *)
Definition rounds (n : nat) (v : words F) : words F :=
  foldl (fun v r => round r ((h <= r) && (r < h + rp))%N v) v (iota 0 n).
Lemma roundsS n v : rounds n.+1 v = round n ((h <= n) && (n < h + rp))%N (rounds n v).
Proof. by rewrite /rounds (_ : iota 0 n.+1 = iota 0 n ++ [:: n]) ?foldl_cat // -addn1 iotaD. Qed.
Lemma rounds_all v : rounds (h + rp + h) v = the_permute W S v. Proof. by []. Qed.
Lemma rpE : rp = (hp * 2)%N. Proof. by rewrite /rp /hp divnK // dvdn2. Qed.

(* the cells of a state hold the words v *)
Definition cells_hold (st : seq (acell F)) (v : words F) : Prop :=
  size st = W /\ forall i a0, (i < W)%N -> cell_value T place (ac_cell (nth a0 st i)) = v i.
Definition holds_at region o (v : words F) st : Prop :=
  at_offset region o st /\ forall i, (i < W)%N -> xs region o i = v i.
Lemma holds_at_cells region o v st : holds_at region o v st -> cells_hold st v.
Proof. by move=> [[h1 h2] h3]; split=> // i a0 hi; rewrite h2 //; exact: h3. Qed.

Lemma permute_region_sound region st v : cells_hold st v ->
  rsound T place inst region (p5_permute_region W c st region) (fun st' => cells_hold st' (the_permute W S v)).
Proof.
move=> [hs hv]; apply: rsound_bind; apply: load_state_sound => // st0 h0 e0.
pose I n o s := holds_at region o (rounds n v) s.
have i0 : I 0%N 0%N st0 by split=> // i hi; rewrite (e0 i (nth (ACell unknown (Cell 0 0 (Advice, 0%N))) st 0)) // hv.
apply: rsound_bind; apply: rsound_weaken (rsound_fold (P := fun r => I r r) i0 _) => [st1 i1|r s /andP[_ hr] [hs1 hx]]; last first.
  apply: rsound_weaken (@full_round_sound region s r r _ hx) => s'; rewrite addn1 => -[h1 h2]; split=> // i hi.
  by rewrite h2 // roundsS leqNgt hr.
rewrite add0n /= in i1; apply: rsound_bind.
apply: rsound_weaken (rsound_fold (P := fun r => I (h + 2 * r)%N (h + r)%N) _ _); last 2 first.
- by rewrite muln0 !addn0.
- move=> r s /andP[_ hr] [hs1 hx]; apply: rsound_weaken (@partial_round_sound region s (h + 2 * r)%N (h + r)%N _ hx) => s'; rewrite addn1 -addnS => -[h1 h2]; split=> // i hi.
  have e : ((h <= h + 2 * r) && (h + 2 * r < h + rp))%N by rewrite leq_addr ltn_add2l rpE mulnC ltn_pmul2r.
  have e' : ((h <= (h + 2 * r).+1) && ((h + 2 * r).+1 < h + rp))%N.
    by rewrite -addnS leq_addr ltn_add2l rpE /=; nlia.
  by rewrite h2 // mulnS addnA addn2 addSn addnC [(2 * r + h)%N]addnC !roundsS e e'.
move=> st2; rewrite add0n => i2.
apply: rsound_weaken (rsound_fold (P := fun r => I (h + 2 * hp + r)%N (h + hp + r)%N) _ _); last 2 first.
- by rewrite !addn0.
- move=> r s /andP[_ hr] [hs1 hx]; apply: rsound_weaken (@full_round_sound region s (h + 2 * hp + r)%N (h + hp + r)%N _ hx) => s'; rewrite addn1 -addnS => -[h1 h2]; split=> // i hi.
  by rewrite h2 // addnS roundsS rpE [(hp * 2)%N]mulnC [(_ < h + _)%N]ltnNge leq_addr andbF.
move=> st3; rewrite add0n [p5_half_full c]/= => /holds_at_cells; by rewrite -rounds_all rpE [(hp * 2)%N]mulnC.
Qed.
Lemma permute_sound st v : cells_hold st v ->
  lsound T place inst (p5_permute W c st) (fun st' => cells_hold st' (the_permute W S v)).
Proof. by move=> hv; apply: lsound_region => r; exact: permute_region_sound. Qed.

Definition initial_words (capacity : F) : words F := fun j => if j == RATE then capacity else 0.
Lemma eW : W = RATE.+1. Proof. by rewrite eR subn1 prednK. Qed.
Lemma initial_state_sound cap :
  lsound T place inst (p5_initial_state W RATE c cap) (fun st => cells_hold st (initial_words cap)).
Proof.
apply: lsound_bind; apply: lsound_region => region; apply: rsound_bind.
apply: (rsound_map (P := fun i a => cell_value T place (ac_cell a) = 0)).
  by move=> i _; apply: rsound_advice_constant.
move=> sa; rewrite size_iota => sz hsa; apply: rsound_bind; apply: rsound_advice_constant => hb; apply: rsound_ret.
rewrite size_cat sz /= addn1 -eW eqxx; apply: lsound_ret; split; first by rewrite size_cat sz addn1 -eW.
move=> i a0 hi; rewrite nth_cat sz /initial_words; case: ltngtP => hR; first exact: (hsa i 0%N).
  by move: hi; rewrite eW ltnS leqNgt hR.
by rewrite hR subnn /=; exact: hb.
Qed.

(* the word a padded word stands for *)
Definition pword_value (w : padded_word F) : F :=
  match w with PMessage a => cell_value T place (ac_cell a) | PPadding x => x end.
Definition input_value (w : option (padded_word F)) : F := if w is Some w then pword_value w else 0.
Lemma input_word_sound region i w (Q : acell F -> Prop) :
  (forall a, isSome w -> xs region 1 i = input_value w -> Q a) -> rsound T place inst region (load_input_word c region (i, w)) Q.
Proof.
move=> hQ; case: w hQ => [[a|x]|] hQ //=.
  apply: rsound_bind; apply: rsound_ret; apply: rsound_bind; apply: rsound_advice.
  by apply: rsound_bind; apply: rsound_equal => e; apply: rsound_ret; apply: hQ => //; exact: esym e.
apply: rsound_bind; apply: rsound_bind; apply: rsound_fixed => hx; apply: rsound_ret; apply: rsound_bind; apply: rsound_advice.
by apply: rsound_bind; apply: rsound_equal => e; apply: rsound_ret; apply: hQ => //; rewrite /= -(hx _ erefl); exact: esym e.
Qed.
Definition added (v : words F) (input : seq F) : words F := fun j => v j + (if (j < RATE)%N then nth 0 input j else 0).
Lemma add_input_sound st v input : cells_hold st v -> size input = RATE ->
  lsound T place inst (p5_add_input W RATE c st input) (fun st' => all isSome input /\ cells_hold st' (added v (map input_value input))).
Proof.
move=> [hs hv] si; apply: lsound_region => region; apply: rsound_bind; apply: rsound_enable => hsel.
apply: rsound_bind; apply: load_state_sound => // st0 h0 e0; apply: rsound_bind.
apply: (rsound_map (P := fun iw _ => isSome iw.2 /\ xs region 1 iw.1 = input_value iw.2)).
  by move=> [i w] _; apply: input_word_sound.
move=> si' _ hin; apply: (rsound_map (P := fun i a => ac_cell a = Cell region 2 (Advice, state i))).
  by move=> i _; apply: rsound_advice.
have hin' i (a0 : acell F) : (i < RATE)%N -> isSome (nth None input i) /\ xs region 1 i = input_value (nth None input i).
  move=> hi; have := hin i (0%N, None) a0; rewrite size_zip size_iota si minnn nth_zip ?size_iota // nth_iota //=.
  by move/(_ hi).
move=> s; rewrite size_iota => e1 e2; split.
  apply/(all_nthP None) => i; rewrite si => hi; exact: (hin' i (ACell unknown (Cell 0 0 (Advice, 0%N))) hi).1.
split=> // i a0 hi.
have := e2 i 0%N a0 hi; rewrite nth_iota // => ->; rewrite /cell_value /row_of /= add0n.
have /pad_polysE[g1 g2] := gate_pad hg hsel; rewrite /added.
have r0 : place region + 1 + -1 = place region + 0%N by rewrite addrK addr0.
have r1 : place region + 1 + 0 = place region + 1%N by rewrite addr0.
have r2 : place region + 1 + 1 = place region + 2%N by rewrite -addrA.
rewrite r0 r1 r2 in g1; rewrite r0 r2 in g2.
have e00 j : (j < W)%N -> t_cell T Advice (state j) (place region + 0%N) = v j.
  by move=> hj; rewrite -(hv j a0 hj) -e0.
case: ifP => hR.
  rewrite g1 // e00 //; congr (_ + _).
  by have [_] := hin' i a0 hR; rewrite (nth_map None) // si.
have -> : i = RATE by move: hi; rewrite eW ltnS leq_eqVlt hR orbF => /eqP.
by rewrite g2 e00 ?addr0 // eW.
Qed.

Lemma cells_hold_ext st v v' : (forall j, (j < W)%N -> v j = v' j) -> cells_hold st v -> cells_hold st v'.
Proof. by move=> e [h1 h2]; split=> // i a0 hi; rewrite h2 // e. Qed.
Let cv (a : acell F) := cell_value T place (ac_cell a).
Lemma hR : (RATE < W)%N. Proof. by rewrite eW. Qed.

(* the gadgets follow the functions on field elements *)
Lemma squeezed_mode st v st' : cells_hold st v -> same W st' v ->
  map (omap cv) [seq Some a | a <- take RATE st] = map Some (take RATE st').
Proof.
move=> [h1 h2] [h3 h4]; have hle := ltnW hR.
apply: (@eq_from_nth _ None) => [|i]; rewrite !size_map !size_takel ?h1 ?h3 // => hi.
have hiW := ltn_trans hi hR; have a0 : acell F by case: (st) h1 => // e; move: hiW; rewrite -e.
rewrite -map_comp (nth_map a0) ?size_takel ?h1 // (nth_map 0) ?size_takel ?h3 //.
by rewrite !nth_take //= h4 // -(h2 i a0).
Qed.
Lemma g_sponge_sound st v s input : cells_hold st v -> same W s v ->
  (if input is Some i then size i = RATE else True) ->
  lsound T place inst (g_poseidon_sponge W RATE c st input) (fun sm =>
    exists s' v', [/\ poseidon_sponge W RATE S s (omap (map (omap pword_value)) input) = Some (s', map (omap cv) sm.2),
                   same W s' v', cells_hold sm.1 v' & size sm.2 = RATE]).
Proof.
move=> hst hs hi; apply: lsound_bind.
have fin st1 v1 : cells_hold st1 v1 ->
    (exists2 s', same W s' (the_permute W S v1) & poseidon_sponge W RATE S s (omap (map (omap pword_value)) input) = Some (s', map Some (take RATE s'))) ->
    lsound T place inst (let* state0 := p5_permute W c st1 in LRet (state0, [seq Some a | a <- take RATE state0]))
      (fun sm : seq (acell F) * rate (acell F) => exists s' v', [/\ poseidon_sponge W RATE S s (omap (map (omap pword_value)) input) = Some (s', map (omap cv) sm.2),
                   same W s' v', cells_hold sm.1 v' & size sm.2 = RATE]).
  move=> h1 [s' h2 h3]; apply: lsound_bind; apply: lsound_weaken (permute_sound h1) => st2 h4.
  apply: lsound_ret; exists s', (the_permute W S v1); split=> //; first by rewrite (squeezed_mode h4 h2).
  by rewrite size_map size_takel // h4.1 ltnW ?hR.
case: input hi fin => [input|] hi fin; last by apply: lsound_ret; apply: fin hst _; exact: sponge_none hR.
apply: lsound_weaken (add_input_sound hst hi) => st1 [/rate_some[ws ews] h1]; apply: fin h1 _.
move: hi; rewrite ews size_map => hw; rewrite [omap _ _]/= -!map_comp.
have [s' h2 h3] := sponge_some (b := map pword_value ws) hs ltac:(by rewrite size_map) hR; exists s'.
  case: h2 => h4 h5; split=> // i hiw; rewrite h5 //; exact: spec_permute_ext.
by rewrite -h3 -map_comp.
Qed.
Definition gfollows (gs : gsponge F) (s : sponge F) : Prop :=
  [/\ sg_mode s = map (omap pword_value) (gs_mode gs), size (gs_mode gs) = RATE
    & exists2 v, cells_hold (gs_state gs) v & same W (sg_state s) v].
Lemma g_absorb_sound gs s w : gfollows gs s ->
  lsound T place inst (g_absorb W RATE c gs w) (fun gs' => exists2 s', sponge_absorb W RATE S s (pword_value w) = Some s' & gfollows gs' s').
Proof.
case: gs s => mode st [smode sst] [/= em sm [v hv hs]]; rewrite /g_absorb /sponge_absorb em /= rate_absorb_map.
case e: (rate_absorb mode w) => [m|] /=.
  by apply: lsound_ret; eexists; first by []; split=> //=; [rewrite (rate_absorb_size e)|exists v].
apply: lsound_bind; apply: lsound_weaken (g_sponge_sound (input := Some mode) hv hs sm) => sm' [s' [v' [e1 h1 h2 h3]]].
rewrite /= in e1; rewrite e1 /= init_with_map; case e2: (init_with RATE w) => [m|] //=.
apply: lsound_ret; eexists; first by []; split=> //=; last by exists v'.
by rewrite (rate_absorb_size e2) size_nseq.
Qed.
Lemma hash_sound message : lsound T place inst (g_hash W RATE c message) (fun out => hash W RATE S (map cv message) = Some (cv out)).
Proof.
rewrite /g_hash /g_new; apply: lsound_bind; apply: lsound_bind; apply: lsound_weaken (@initial_state_sound (capacity F (size message))) => st hst; apply: lsound_ret.
rewrite /hash size_map; case ep: (padding F RATE (size message)) => [pad|] //.
rewrite /sponge_new hR [obind _ (Some _)]/=.
have -> : map cv message ++ pad = map pword_value ([seq PMessage a | a <- message] ++ [seq PPadding x | x <- pad]).
  by rewrite map_cat -!map_comp; congr (_ ++ _); rewrite -[LHS]map_id.
move: (_ ++ _) => l; set s0 := Sponge _ _; set gs0 := GSponge _ _; apply: lsound_bind.
apply: lsound_weaken (lsound_fold (P := fun l gs => exists2 s, absorb_all W RATE S s0 (map pword_value l) = Some s & gfollows gs s) _ _).
- move=> gs [s -> [em sm [v hv hs]]]; rewrite [obind _ _]/=; apply: lsound_bind.
  apply: lsound_weaken (g_sponge_sound (input := Some (gs_mode gs)) hv hs sm) => sm' [s' [v' [e1 h1 h2 h3]]].
  rewrite [omap _ _]/= -em in e1; rewrite /sponge_finish e1 [obind _ _]/=; apply: lsound_bind.
  rewrite /g_squeeze /sponge_squeeze [sg_mode _]/= rate_squeeze_map; case: (rate_squeeze sm'.2) => [[a m]|].
    by do 2 apply: lsound_ret.
  rewrite [omap _ None]/=.
  apply: lsound_bind; apply: lsound_weaken (g_sponge_sound (input := None) h2 h1 Logic.I) => sm2 [s2 [v2 [e2 h4 h5 h6]]].
  rewrite [omap _ None]/= in e2; rewrite [sg_state _]/= e2 /= rate_squeeze_map; case: (rate_squeeze sm2.2) => [[a m]|] //=.
  by do 2 apply: lsound_ret.
- exists s0 => //; split; rewrite /= ?size_nseq // ?map_nseq //.
  eexists; first exact: hst; split; first by rewrite size_set_nth size_nseq; apply/maxn_idPr/hR.
  by move=> i hi; rewrite nth_set_nth /= /initial_words; case: eqP => // _; rewrite nth_nseq if_same.
move=> l1 w l2 gs _ [s hs hf]; apply: lsound_weaken (@g_absorb_sound gs s w hf) => gs' [s' hs' hf'].
by exists s' => //; rewrite map_rcons /absorb_all foldl_rcons -/(absorb_all _ _ _ _ _) hs.
Qed.

(* ---- completeness *)
Local Arguments rbindp : simpl never.
Local Arguments assign_advice : simpl never.
Hypothesis mds_rows : size (sp_mds S) = W.
Hypothesis selectors : uniq [:: s_full; s_partial; s_pad].
(* what the gates ask for on a row where a selector is on *)
Definition ok (s : nat) (row : int) : Prop :=
  is_true (if s == s_full then all (fun p => at_row T row p == 0) (full_polys W c)
  else if s == s_partial then all (fun p => at_row T row p == 0) (partial_polys W c m_inv)
  else if s == s_pad then all (fun p => at_row T row p == 0) (pad_polys RATE c) else true).
Lemma ok_gates row : (forall s, s \in [:: s_full; s_partial; s_pad] -> t_selector T s row -> ok s row) ->
  all (fun g => at_row T row g == 0) gates.
Proof.
move=> hk; move: selectors; rewrite /= !inE negb_or andbT => /andP[/andP[n1 n2] n3].
rewrite /gates /p5_gates; move: (hk s_full) (hk s_partial) (hk s_pad).
rewrite /ok !inE !eqxx ?orbT (eq_sym s_partial) (negbTE n1) !(eq_sym s_pad) (negbTE n2) (negbTE n3) => k1 k2 k3.
move: (full_polys _ _) (partial_polys _ _ _) (pad_polys _ _) k1 k2 k3 => p1 p2 p3 k1 k2 k3.
have key s p : (t_selector T s row -> all (fun p => at_row T row p == 0) p) -> all (fun g => at_row T row g == 0) [seq EProduct (ESelector F s true) p | p <- p].
  rewrite all_map; case e1: (t_selector T s row) => hp1.
    by apply: sub_all (hp1 isT) => e; rewrite /= at_mul at_sel e1 mul1r.
  by rewrite (eq_all (a2 := predT)) ?all_predT // => e; rewrite /= at_mul at_sel e1 mul0r eqxx.
by rewrite !all_cat !key //; [apply: k3|apply: k2|apply: k1].
Qed.

(* the words a state carries *)
Definition known_words (st : seq (acell F)) (v : words F) : Prop :=
  size st = W /\ forall i a0, (i < W)%N -> ac_value (nth a0 st i) = known (v i).
Definition known_at region o (v : words F) (st : seq (acell F)) : Prop := known_words st v /\ at_offset region o st.
Definition row_holds region o (v : words F) : Prop := forall i, (i < W)%N -> xs region o i = v i.
Lemma known_at_cells region o v st : known_at region o v st -> row_holds region o v -> cells_hold st v.
Proof. by move=> [_ h2] h3; exact: holds_at_cells (conj h2 h3). Qed.
Let a0 : acell F := ACell unknown (Cell 0 0 (Advice, 0%N)).
Lemma known_seq st v : known_words st v -> [seq ac_value a | a <- st] = map known (mkseq v W).
Proof.
move=> [h1 h2]; apply: (@eq_from_nth _ unknown) => [|i]; rewrite !size_map ?size_iota // h1 => hi.
by rewrite (nth_map a0) ?h1 // (nth_map 0) ?size_mkseq // nth_mkseq // h2.
Qed.
Lemma collect_known (s : seq F) : v_from_iter (map known s) = known s.
Proof. by apply/(C47_from_iter (map known s)).2. Qed.

Lemma load_constants_rhon (H : Prop) region col o rcs :
  rhon T place inst region H (load_constants W region col o rcs) [::] (fun=> True)
    (fun _ => forall i, (i < W)%N -> t_cell T Fixed (col i) (place region + o%:Z) = nth 0 rcs i).
Proof.
apply: (rhon_map (W := fun _ _ => True) (P := fun i _ => t_cell T Fixed (col i) (place region + o%:Z) = nth 0 rcs i)) => //.
  by move=> i _; apply: rhon_fixed.
by move=> s _ _ _ hP i hi; have := hP i 0%N a0; rewrite size_iota nth_iota //; apply.
Qed.
Lemma next_state_rhon (H : Prop) region o vs w : (forall i, (i < W)%N -> nth unknown vs i = known (w i)) ->
  rhon T place inst region H (next_state W c region o vs) [::] (known_at region (o + 1) w) (fun _ => row_holds region (o + 1) w).
Proof.
move=> hvs; apply: (rhon_map (W := fun i a => ac_value a = known (w i) /\ ac_cell a = Cell region (o + 1) (Advice, state i))
   (P := fun i _ => xs region (o + 1) i = w i)).
- move=> i /In_iota hi; rewrite hvs; last by case/andP: hi.
  by apply: rhon_advice.
- move=> s; rewrite size_iota => h1 h2; split; split=> // i b hi; have := h2 i 0%N b hi; rewrite nth_iota //; by case.
by move=> s _ _ _ hP i hi; have := hP i 0%N a0; rewrite size_iota nth_iota //; apply.
Qed.
Lemma load_state_rhon (H : Prop) region init v : known_words init v -> (H -> cells_hold init v) ->
  rhon T place inst region H (load_state W c region init) [::] (known_at region 0 v) (fun _ => row_holds region 0 v).
Proof.
move=> [h1 h2] hc; have hz i b : (i < W)%N -> nth (0%N, b) (zip (iota 0 W) init) i = (i, nth b init i).
  by move=> hi; rewrite nth_zip ?size_iota // nth_iota.
have sz : size (zip (iota 0 W) init) = W by rewrite size_zip size_iota h1 minnn.
apply: (rhon_map (W := fun ia a => ac_value a = known (v ia.1) /\ ac_cell a = Cell region 0 (Advice, state ia.1))
   (P := fun ia _ => xs region 0 ia.1 = v ia.1)).
- move=> ia /(In_nth (0%N, a0)) [i]; rewrite sz => hi <-; rewrite hz //=.
  by apply: (rhon_copy inst (h2 i a0 hi)) => // /hc[_ ->].
- move=> s; rewrite sz => e1 e2; split; split=> // i b hi; have := e2 i (0%N, b) b hi; rewrite hz //; by case.
by move=> s _ _ _ hP i hi; have := hP i (0%N, a0) a0; rewrite sz hz //; apply.
Qed.

Lemma m_apply_size r : size (m_apply c r) = W. Proof. by rewrite size_map. Qed.
Lemma m_applyE f i : (i < W)%N -> nth 0 (m_apply c (mkseq f W)) i = mulM (sp_mds S) f i.
Proof.
move=> hi; rewrite (nth_map [::]) ?mds_rows // size_mkseq /= (foldl_sum (fun j => nth 0 (nth [::] (sp_mds S) i) j * nth 0 (mkseq f W) j)) add0r.
have -> : iota 0 W = index_iota 0 W by rewrite /index_iota subn0.
rewrite big_mkord; apply: eq_bigr => j _; by rewrite nth_mkseq.
Qed.
Lemma m_apply_mkseq f : m_apply c (mkseq f W) = mkseq (mulM (sp_mds S) f) W.
Proof.
apply: (@eq_from_nth _ 0) => [|i]; rewrite m_apply_size ?size_mkseq // => hi.
by rewrite m_applyE // nth_mkseq.
Qed.
Lemma first_sboxE rcs f : first_sbox rcs (mkseq f W) =
  mkseq (first_word ((f 0%N + nth 0 rcs 0) ^+ 5) (fun j => f j + nth 0 rcs j)) W.
Proof.
have hs : size (first_sbox rcs (mkseq f W)) = W.
  by have := size_mkseq f W; case: (mkseq f W) => //= x s <-; rewrite size_mapi.
apply: (@eq_from_nth _ 0) => [|i]; rewrite hs ?size_mkseq // => hi; rewrite nth_mkseq //.
have := size_mkseq f W; have := @nth_mkseq _ 0 f W; case: (mkseq f W) => [|x s] hn sz; first by move: hi; rewrite -sz.
case: i hi => [|i] hi; rewrite /first_word /=; first by rewrite -(hn 0%N W0).
by rewrite (nth_mapi _ 0) -?(hn i.+1 hi) //=; move: hi; rewrite -sz.
Qed.

Lemma full_round_comp (H : Prop) region st r o v : (r < size (sp_round_constants S))%N ->
  known_at region o v st -> (H -> row_holds region o v) ->
  rcomp T place inst region ok H (p5_full_round W c region st r o)
    (known_at region (o + 1) (round r false v)) (fun _ => row_holds region (o + 1) (round r false v)).
Proof.
move=> hr [hk ho] hx; set w := round r false v.
apply: (rcomp_block (L := [:: (s_full, o)] ++ [::] ++ [::])
  (Q := fun _ => (forall i, (i < W)%N -> t_cell T Fixed (rc_a i) (place region + o%:Z) = cx S r i) /\ row_holds region (o + 1) w)).
  apply: (rhon_bind (V1 := fun=> True) (Q1 := fun=> True)); first exact: rhon_enable.
  move=> _ _; rewrite /with_constants hr.
  apply: (rhon_bind (V1 := fun=> True)); first exact: load_constants_rhon.
  move=> ca _; apply: (rhon_keep (Q := fun=> row_holds region (o + 1) w)); last by move=> ? [_ h1] _ h2; exact: (conj h1 h2).
  apply: next_state_rhon => i hi; rewrite nth_mkseq //.
  set q := map _ (zip _ _); have -> : q = map known (mkseq (fun j => v j + cx S r j) W).
    rewrite /q; case: hk => h1 h2; have sz : size (zip (iota 0 (size st)) st) = W by rewrite size_zip size_iota minnn.
    apply: (@eq_from_nth _ unknown) => [|j]; rewrite !size_map ?size_iota ?sz // => hj.
    rewrite (nth_map (0%N, a0)) ?sz // nth_zip ?size_iota // nth_iota ?h1 //= h2 // (nth_map 0) ?size_mkseq // nth_mkseq //.
  set q' := map _ (map known _); have -> : q' = map known (mkseq (fun j => (v j + cx S r j) ^+ 5) W).
    by rewrite /q' /mkseq -!map_comp; apply: eq_map.
  by rewrite collect_known /= /v_map /= m_applyE // /w round_full.
move=> st' hH [_ _] [h1 h2]; split=> // s off; rewrite inE => /eqP[-> ->]; rewrite /ok eqxx.
apply/full_polysE => i hi; rewrite !rotE -PoszD addr0; have := h2 i hi; rewrite /xs => ->.
rewrite /w round_full; apply: mulM_ext => j hj; rewrite h1 //; congr ((_ + _) ^+ 5).
by apply/esym/(hx hH).
Qed.

Lemma partial_round_comp (H : Prop) region st r o v : (r.+1 < size (sp_round_constants S))%N ->
  known_at region o v st -> (H -> row_holds region o v) ->
  let w := round r.+1 true (round r true v) in
  rcomp T place inst region ok H (p5_partial_round W c region st r o)
    (known_at region (o + 1) w) (fun _ => row_holds region (o + 1) w).
Proof.
move=> hr [hk ho] hx w; pose w1 := first_word ((v 0%N + cx S r 0%N) ^+ 5) (fun j => v j + cx S r j).
have e1 j : round r true v j = mulM (sp_mds S) w1 j by rewrite round_partial.
apply: (rcomp_block (L := [:: (s_partial, o)] ++ [::] ++ [::] ++ [::] ++ [::])
  (Q := fun _ => [/\ forall i, (i < W)%N -> t_cell T Fixed (rc_a i) (place region + o%:Z) = cx S r i,
     t_cell T Advice partial_sbox (place region + o%:Z) = w1 0%N,
     forall i, (i < W)%N -> t_cell T Fixed (rc_b i) (place region + o%:Z) = cx S r.+1 i & row_holds region (o + 1) w])).
  apply: (rhon_bind (V1 := fun=> True) (Q1 := fun=> True)); first exact: rhon_enable.
  move=> _ _; rewrite /with_constants (ltnW hr).
  apply: (rhon_bind (V1 := fun=> True)); first exact: load_constants_rhon.
  move=> ca _; rewrite (known_seq hk) collect_known /v_map /= first_sboxE -/(cx S r 0) m_apply_mkseq -/w1 nth_mkseq //.
  apply: (rhon_bind (L1 := [::]) (L2 := [::]) (V1 := fun=> True) (Q1 := fun=> t_cell T Advice partial_sbox (place region + o%:Z) = w1 0%N)).
    by apply: rhon_advice.
  move=> cs _; rewrite hr; apply: (rhon_bind (L1 := [::]) (L2 := [::]) (V1 := fun=> True)); first exact: load_constants_rhon.
  move=> cb _; apply: (rhon_keep (Q := fun=> row_holds region (o + 1) w)); last by move=> ? [[[_ h1] h3] h4] _ h2; split.
  apply: next_state_rhon => i hi; rewrite nth_mkseq // first_sboxE m_applyE // /w round_partial; congr known.
  by apply: mulM_ext => j hj; rewrite /first_word !e1.
move=> st' hH [_ _] [h1 h2 h3 h4]; split=> // s off; rewrite inE => /eqP[-> ->].
move: selectors; rewrite /ok /= !inE negb_or => /andP[/andP[/negbTE n1 _] _]; rewrite eq_sym n1 eqxx.
have r0 : place region + o%:Z + 0 = place region + o%:Z by rewrite addr0.
have r1 : place region + o%:Z + 1 = place region + (o + 1)%N by rewrite -addrA -PoszD.
apply: (iffRL (partial_polysE T c m_inv (place region + o%:Z) W0)).
rewrite r0.
rewrite r1.
rewrite h2; split.
  by rewrite /w1 /first_word /= h1 // -(hx hH).
move=> mid i hi; have em k : mid k = round r true v k.
  rewrite /mid e1; apply: mulM_ext => j hj; rewrite {1}/first_word; case: eqP => [->|] //.
  by rewrite /w1 /first_word => /eqP/negbTE ->; rewrite h1 // -(hx hH).
transitivity (mulM m_inv w i); first by apply: mulM_ext => j hj; exact: h4.
pose fw := first_word ((round r true v 0%N + cx S r.+1 0%N) ^+ 5) (fun j => round r true v j + cx S r.+1 j).
transitivity (fw i).
  by rewrite -(mulMV fw left_inv hi); apply: mulM_ext => j _; rewrite /w round_partial.
rewrite /fw /first_word !em; case: eqP => // _; by rewrite h3.
Qed.

Lemma permute_region_comp (H : Prop) region st v : known_words st v -> (H -> cells_hold st v) ->
  rcomp T place inst region ok H (p5_permute_region W c st region)
    (fun st' => known_words st' (the_permute W S v)) (fun st' => cells_hold st' (the_permute W S v)).
Proof.
move=> hk hc; pose V n o := known_at region o (rounds n v); pose Q n o (_ : seq (acell F)) := row_holds region o (rounds n v).
have hsz : size (sp_round_constants S) = (h + hp * 2 + h)%N by rewrite nrc rpE.
apply: (rcomp_bind (V1 := V 0%N 0%N) (Q1 := Q 0%N 0%N)).
  by apply: (rcomp_block (L := [::]) (load_state_rhon _ hk hc)) => a _ _ h1; split.
move=> st0 i0; apply: (rcomp_bind (V1 := V h h) (Q1 := Q h h)).
  apply: (rcomp_fold0 (V := fun r => V r r) (Q := fun r => Q r r)) => // [[]//|r s hr hv].
  apply: rcomp_weaken (@full_round_comp _ region s r r _ _ hv _) => [s'|s' _| |[_]]; rewrite ?addn1 //.
  - by rewrite /V roundsS leqNgt hr.
  - by rewrite /Q roundsS leqNgt hr.
  by rewrite hsz -addnA; apply: leq_trans hr (leq_addr _ _).
move=> st1 i1; apply: (rcomp_bind (V1 := V (h + 2 * hp)%N (h + hp)%N) (Q1 := Q (h + 2 * hp)%N (h + hp)%N)).
  apply: (rcomp_fold0 (V := fun r => V (h + 2 * r)%N (h + r)%N) (Q := fun r => Q (h + 2 * r)%N (h + r)%N)).
  - by rewrite muln0 !addn0.
  - by rewrite muln0 !addn0; case.
  move=> r s hr hv.
  have e : ((h <= h + 2 * r) && (h + 2 * r < h + rp))%N by rewrite leq_addr ltn_add2l rpE mulnC ltn_pmul2r.
  have e' : ((h <= (h + 2 * r).+1) && ((h + 2 * r).+1 < h + rp))%N.
    by rewrite -addnS leq_addr ltn_add2l rpE /=; nlia.
  have eS u : rounds (h + 2 * r.+1) u = round (h + 2 * r).+1 true (round (h + 2 * r) true (rounds (h + 2 * r) u)).
    have -> : (h + 2 * r.+1 = (h + 2 * r).+2)%N by nlia.
    by rewrite !roundsS e e'.
  apply: rcomp_weaken (@partial_round_comp _ region s (h + 2 * r)%N (h + r)%N _ _ hv _) => [s'|s' _| |[_]] //.
  - by rewrite /V eS (addnS h r) -[(h + r).+1]addn1.
  - by rewrite /Q eS (addnS h r) -[(h + r).+1]addn1.
  by rewrite hsz; case/andP: e' => _ e'; apply: leq_trans e' _; rewrite rpE leq_addr.
move=> st2 i2; apply: (rcomp_weaken (V := V (h + 2 * hp + h)%N (h + hp + h)%N) (Q := Q (h + 2 * hp + h)%N (h + hp + h)%N)).
- by move=> a [h1 _]; rewrite -rounds_all rpE [(hp * 2)%N]mulnC.
- by move=> a h1 h2; rewrite -rounds_all rpE [(hp * 2)%N]mulnC; exact: known_at_cells h1 h2.
apply: (rcomp_fold0 (V := fun r => V (h + 2 * hp + r)%N (h + hp + r)%N) (Q := fun r => Q (h + 2 * hp + r)%N (h + hp + r)%N)).
- by rewrite !addn0.
- by rewrite !addn0; case.
move=> r s hr hv.
have eS u : rounds (h + 2 * hp + r.+1) u = round (h + 2 * hp + r)%N false (rounds (h + 2 * hp + r) u).
  by rewrite addnS roundsS rpE [(hp * 2)%N]mulnC [(_ < h + _)%N]ltnNge leq_addr andbF.
apply: rcomp_weaken (@full_round_comp _ region s (h + 2 * hp + r)%N (h + hp + r)%N _ _ hv _) => [s'|s' _| |[_]] //.
- by rewrite /V eS (addnS (h + hp) r) -[(h + hp + r).+1]addn1.
- by rewrite /Q eS (addnS (h + hp) r) -[(h + hp + r).+1]addn1.
by rewrite hsz [(2 * hp)%N]mulnC ltn_add2l.
Qed.
Lemma permute_comp (H : Prop) st v : known_words st v -> (H -> cells_hold st v) ->
  lcomp T place inst ok H (p5_permute W c st)
    (fun st' => known_words st' (the_permute W S v)) (fun st' => cells_hold st' (the_permute W S v)).
Proof. by move=> hk hc; apply: lcomp_region => r; exact: permute_region_comp. Qed.

Lemma initial_state_comp (H : Prop) cap :
  lcomp T place inst ok H (p5_initial_state W RATE c cap)
    (fun st => known_words st (initial_words cap)) (fun st => cells_hold st (initial_words cap)).
Proof.
apply: (lcomp_bind (V1 := fun st => known_words st (initial_words cap)) (Q1 := fun st => cells_hold st (initial_words cap))); last first.
  by move=> st [h1 h2]; rewrite h1 eqxx; apply: lcomp_ret => // -[].
apply: lcomp_region => region; apply: (rcomp_block (L := [::] ++ [::] ++ [::]) (Q := fun st => cells_hold st (initial_words cap))); last by [].
apply: (rhon_bind (V1 := fun sa => size sa = RATE /\ forall i b, (i < RATE)%N -> ac_value (nth b sa i) = known 0)
  (Q1 := fun sa => forall i b, (i < RATE)%N -> cell_value T place (ac_cell (nth b sa i)) = 0)).
  apply: (rhon_map (W := fun _ a => ac_value a = known 0) (P := fun _ a => cell_value T place (ac_cell a) = 0)).
  - by move=> i _; apply: rhon_advice_constant.
  - by move=> s; rewrite size_iota => h1 h2; split=> // i b hi; exact: (h2 i 0%N b hi).
  by move=> s _; rewrite size_iota => h1 _ h2 i b hi; exact: (h2 i 0%N b hi).
move=> sa [h1 h2]; apply: (rhon_bind (V1 := fun b => ac_value b = known cap) (Q1 := fun b => cell_value T place (ac_cell b) = cap)).
  by apply: rhon_advice_constant.
move=> b hb; apply: rhon_ret => [|[[_ h3] h4]]; (split; first by rewrite size_cat h1 addn1 -eW);
  move=> i d hi; rewrite nth_cat h1 /initial_words; case: ltngtP => hi'.
- exact: h2.
- by move: hi; rewrite eW ltnS leqNgt hi'.
- by rewrite hi' subnn.
- exact: h3.
- by move: hi; rewrite eW ltnS leqNgt hi'.
by rewrite hi' subnn.
Qed.

(* the value a padded word carries *)
Definition pword_known (w : padded_word F) : value F := match w with PMessage a => ac_value a | PPadding x => known x end.
Lemma input_word_rhon (H : Prop) region i w x : pword_known w = known x -> (H -> pword_value w = x) ->
  rhon T place inst region H (load_input_word c region (i, Some w)) [::] (fun a => ac_value a = known x) (fun _ => xs region 1 i = x).
Proof.
move=> hv hw; rewrite /load_input_word /=.
apply: (rhon_bind (L1 := [::]) (L2 := [::]) (V1 := fun cv => cv.2 = known x) (Q1 := fun cv => cell_value T place cv.1 = x)).
  case: w hv hw => [a|y] /= hv hw; first by apply: rhon_ret.
  case: hv => hv; rewrite -hv in hw *.
  apply: (rhon_bind (L1 := [::]) (L2 := [::]) (V1 := fun=> True) (Q1 := fun a => cell_value T place (ac_cell a) = y)); first by apply: rhon_fixed.
  by move=> a _; apply: rhon_ret => // -[].
move=> [cl cvv] /= ->; apply: (rhon_bind (L1 := [::]) (L2 := [::])
  (V1 := eq (ACell (known x) (Cell region 1 (Advice, state i)))) (Q1 := fun _ => xs region 1 i = x)); first by apply: rhon_advice.
move=> _ <-; apply: (rhon_bind (L1 := [::]) (L2 := [::]) (V1 := fun=> True) (Q1 := fun=> True)).
  by apply: rhon_equal => // -[[_ ->] h2]; exact: esym h2.
by move=> _ _; apply: rhon_ret => // -[[]].
Qed.
Lemma add_input_comp (H : Prop) st v ws bs : known_words st v -> (H -> cells_hold st v) -> size ws = RATE ->
  map pword_known ws = map known bs -> (H -> map pword_value ws = bs) ->
  lcomp T place inst ok H (p5_add_input W RATE c st (map Some ws))
    (fun st' => known_words st' (added v bs)) (fun st' => cells_hold st' (added v bs)).
Proof.
move=> hk hc sw hwk hw; apply: lcomp_region => region; pose u := added v bs.
have sb : size bs = RATE by rewrite -sw -(size_map pword_known) hwk size_map.
apply: (rcomp_weaken (V := known_at region 2 u) (Q := fun _ => row_holds region 2 u)).
- by move=> a [].
- by move=> a h1 h2; exact: known_at_cells h1 h2.
apply: (rcomp_block (L := [:: (s_pad, 1%N)] ++ [::] ++ [::] ++ [::])
  (Q := fun _ => [/\ row_holds region 0 v, forall i, (i < RATE)%N -> xs region 1 i = nth 0 bs i & row_holds region 2 u])).
  apply: (rhon_bind (V1 := fun=> True) (Q1 := fun=> True)); first exact: rhon_enable.
  move=> _ _; apply: (rhon_bind (V1 := known_at region 0 v) (Q1 := fun=> row_holds region 0 v)).
    by apply: load_state_rhon => // -[/hc].
  move=> st0 [hk0 _]; apply: (rhon_bind (V1 := fun si => size si = RATE /\ forall i b, (i < RATE)%N -> ac_value (nth b si i) = known (nth 0 bs i))
     (Q1 := fun _ => forall i, (i < RATE)%N -> xs region 1 i = nth 0 bs i)).
    have sz : size (zip (iota 0 RATE) (map Some ws)) = RATE by rewrite size_zip size_iota size_map sw minnn.
    have nz i p0 : (i < RATE)%N -> (nth p0 (zip (iota 0 RATE) (map Some ws)) i).1 = i.
      by move=> hi; case: p0 => p1 p2; rewrite nth_zip ?size_iota ?size_map // nth_iota.
    apply: (rhon_map (W := fun iw a => ac_value a = known (nth 0 bs iw.1)) (P := fun iw _ => xs region 1 iw.1 = nth 0 bs iw.1)).
    - move=> iw /(In_nth (0%N, None)) [i]; rewrite sz => hi <-; rewrite nth_zip ?size_iota ?size_map // nth_iota // add0n.
      rewrite (nth_map (PPadding 0)) ?sw //; apply: input_word_rhon.
        by rewrite -(nth_map _ unknown) ?sw // hwk (nth_map 0) ?sb.
      by move=> [[/hw e _] _]; rewrite -(nth_map _ 0) ?sw // e.
    - by move=> s; rewrite sz => e1 e2; split=> // i b hi; rewrite (e2 i (0%N, None) b) ?nz.
    by move=> s _; rewrite sz => e1 _ e2 i hi; have := e2 i (0%N, None) a0 hi; rewrite nz.
  move=> si [s1 s2]; apply: (rhon_keep (Q := fun=> row_holds region 2 u)); last by move=> ? [[[_ _] h1] h3] _ h4; split.
  apply: (rhon_map (W := fun i a => ac_value a = known (u i) /\ ac_cell a = Cell region 2 (Advice, state i)) (P := fun i _ => xs region 2 i = u i)).
  - move=> i /In_iota /andP[_ hi].
    have -> : v_op2 +%R (nth unknown [seq ac_value a | a <- st0] i) (nth (known 0) [seq ac_value a | a <- si] i) = known (u i); last by apply: rhon_advice.
    rewrite (known_seq hk0) (nth_map 0) ?size_mkseq // nth_mkseq // /u /added; case: ifP => hR'.
      by rewrite (nth_map a0) ?s1 // s2.
    by rewrite nth_default // size_map s1 leqNgt hR'.
  - move=> s; rewrite size_iota => h1 h2; split; split=> // i b hi; have := h2 i 0%N b hi; rewrite nth_iota //; by case.
  by move=> s _ _ _ hP i hi; have := hP i 0%N a0; rewrite size_iota nth_iota //; apply.
move=> st' hH _ [h1 h2 h3]; split=> // s off; rewrite inE => /eqP[-> ->].
move: selectors; rewrite /ok /= !inE negb_or => /andP[/andP[_ /negbTE n1] /andP[/negbTE n2 _]]; rewrite eq_sym n1 eq_sym n2 eqxx.
have r0 : place region + 1 + -1 = place region + 0%N by rewrite addrK addr0.
have r1 : place region + 1 + 0 = place region + 1%N by rewrite addr0.
have r2 : place region + 1 + 1 = place region + 2%N by rewrite -addrA.
apply/pad_polysE; rewrite r0 r1 r2; split.
  move=> i hi; have hiW := ltn_trans hi hR; have := h3 i hiW; rewrite /xs /u /added hi => ->.
  by rewrite -(h1 i hiW) -(h2 i hi).
by have := h3 _ hR; rewrite /xs /u /added ltnn addr0 => ->; rewrite -(h1 _ hR).
Qed.

Lemma g_sponge_comp (H : Prop) st v s ws bs : known_words st v -> (H -> cells_hold st v) -> same W s v -> size ws = RATE ->
  map pword_known ws = map known bs -> (H -> map pword_value ws = bs) ->
  exists s' v', [/\ poseidon_sponge W RATE S s (Some (map Some bs)) = Some (s', map Some (take RATE s')), same W s' v' &
    lcomp T place inst ok H (g_poseidon_sponge W RATE c st (Some (map Some ws)))
      (fun sm => known_words sm.1 v' /\ sm.2 = map Some (take RATE sm.1)) (fun sm => cells_hold sm.1 v')].
Proof.
move=> hk hc hs sw hwk hw; have sb : size bs = RATE by rewrite -sw -(size_map pword_known) hwk size_map.
have [s' h1 h2] := sponge_some hs sb hR; exists s', (the_permute W S (added v bs)); split=> //.
apply: lcomp_bind (add_input_comp hk hc sw hwk hw) _ => st1 hk1.
apply: lcomp_bind (@permute_comp (H /\ cells_hold st1 (added v bs)) st1 _ hk1 _) _ => [[]//|st2 hk2].
by apply: lcomp_ret => // -[].
Qed.
Definition gknown (gs : gsponge F) (s : sponge F) : Prop :=
  [/\ map (omap pword_known) (gs_mode gs) = map (omap known) (sg_mode s), size (gs_mode gs) = RATE
    & exists2 v, known_words (gs_state gs) v & same W (sg_state s) v].
Lemma gfollows_cells gs s v : gfollows gs s -> same W (sg_state s) v -> cells_hold (gs_state gs) v.
Proof.
move=> [_ _ [v' h1 [_ h2]]] [_ h3]; apply: cells_hold_ext h1 => j hj; by rewrite -h2 // h3.
Qed.
Lemma map_Some_inj (A : Type) (s s' : seq A) : map Some s = map Some s' -> s = s'.
Proof. by elim: s s' => [|x s IH] [|y s'] //= [-> /IH ->]. Qed.
Lemma known_some ws bs : map (omap pword_known) (map Some ws) = map (omap known) (map Some bs) -> map pword_known ws = map known bs.
Proof. by rewrite -!map_comp (map_comp Some pword_known ws) (map_comp Some known bs) => /map_Some_inj. Qed.
Lemma g_absorb_comp (H : Prop) gs s w x : (0 < RATE)%N -> gknown gs s -> (H -> gfollows gs s) -> pword_known w = known x -> (H -> pword_value w = x) ->
  exists2 s', sponge_absorb W RATE S s x = Some s' &
    lcomp T place inst ok H (g_absorb W RATE c gs w) (fun gs' => gknown gs' s') (fun gs' => gfollows gs' s').
Proof.
move=> R0; case: gs s => mode st [smode sst] [em sm [v hv hs]] hf hwk hw; rewrite /= in em sm hv hs.
have := rate_absorb_map pword_known mode w; rewrite em hwk rate_absorb_map /g_absorb /sponge_absorb /=.
case e1: (rate_absorb smode x) => [m'|]; case e2: (rate_absorb mode w) => [m|] //=.
  case=> em'; eexists; first by []; apply: lcomp_ret.
    by split=> //=; [rewrite (rate_absorb_size e2)|exists v].
  move=> hH; have hc := gfollows_cells (hf hH) hs; have [e3 _ _] := hf hH; rewrite /= in e3.
  split=> //=; [|by rewrite (rate_absorb_size e2)|by exists v].
  by move: e1; rewrite e3 -(hw hH) rate_absorb_map e2 => -[->].
move=> _; have [ws ew] := rate_some (rate_absorb_full e2); have [bs eb] := rate_some (rate_absorb_full e1); subst mode smode.
have sw : size ws = RATE by rewrite size_map in sm.
have hb : H -> map pword_value ws = bs.
  by move=> /hf [] /= e3 _ _; apply/esym/map_Some_inj; rewrite e3 -!map_comp.
have [s' [v' [h1 h2 h3]]] := g_sponge_comp hv (fun hH => gfollows_cells (hf hH) hs) hs sw (known_some em) hb.
have [m1 em1] : exists m1, init_with RATE x = Some m1 by rewrite /init_with /init_empty; case: (RATE) R0 => // R1 _; exists (Some x :: nseq R1 None).
rewrite h1 /= em1; eexists; first by [].
have := init_with_map pword_known w; rewrite hwk init_with_map em1 /=; case e3: (init_with RATE w) => [m|] // [e4].
have sz : size m = RATE by rewrite (rate_absorb_size e3) size_nseq.
apply: lcomp_bind h3 _ => -[st1 m2] [/= hk1 hm2]; apply: lcomp_ret; first by split=> //; exists v'.
move=> [hH hc1]; split=> //=; last by exists v'.
by have := init_with_map pword_value w; rewrite e3 hw // em1 => -[].
Qed.

Lemma sequence_some (A : Type) (s : seq (option A)) r : sequence s = Some r -> all isSome s.
Proof. by elim: s r => [|[x|] s IH] //= r; case e: (sequence s) => [r'|] // _; exact: IH e. Qed.
Lemma sponge_full st m r : size st = W -> size m = RATE -> poseidon_sponge W RATE S st (Some m) = Some r -> all isSome m.
Proof.
move=> hst hm; rewrite /poseidon_sponge; case e: (sequence _) => [st'|] // _.
apply/(all_nthP None) => i; rewrite hm => hi; have /(all_nthP None) /(_ i) := sequence_some e.
rewrite size_mapi hst (ltn_trans hi hR) => /(_ isT).
by rewrite (nth_mapi _ 0) ?hst ?(ltn_trans hi hR) // hm hi; case: (nth None m i).
Qed.
Lemma hash_comp (H : Prop) message xs y : (0 < RATE)%N -> map (@ac_value F) message = map known xs -> (H -> map cv message = xs) ->
  hash W RATE S xs = Some y ->
  lcomp T place inst ok H (g_hash W RATE c message) (fun out => ac_value out = known y) (fun out => cv out = y).
Proof.
move=> R0 hk hc; have sx : size message = size xs by rewrite -(size_map (@ac_value F)) hk size_map.
rewrite /hash /sponge_new hR [obind _ (Some _)]/= /g_hash /g_new sx; case ep: (padding F RATE (size xs)) => [pad|] //.
rewrite [obind _ (Some pad)]/=; set s0 := Sponge _ _.
case ea: (absorb_all W RATE S s0 (xs ++ pad)) => [s|] //; rewrite [obind _ (Some s)]/=.
rewrite /sponge_finish; case es: (poseidon_sponge W RATE S (sg_state s) (Some (sg_mode s))) => [[fst_ fm]|] //=.
set l := _ ++ _; set ys := xs ++ pad.
have sl : size l = size ys by rewrite !size_cat !size_map sx.
have hl : map pword_known l = map known ys by rewrite map_cat -!map_comp map_cat; congr (_ ++ _); rewrite -hk.
have hlv : H -> map pword_value l = ys.
  by move=> hH; rewrite map_cat -!map_comp -/cv /ys -(hc hH); congr (_ ++ _); rewrite (eq_map (f2 := id)) ?map_id.
move=> hy.
pose V (l1 : seq (padded_word F)) gs := exists2 s, absorb_all W RATE S s0 (take (size l1) ys) = Some s & gknown gs s.
pose Q (l1 : seq (padded_word F)) gs := forall s, absorb_all W RATE S s0 (take (size l1) ys) = Some s -> gfollows gs s.
have si : same W (sg_state s0) (initial_words (capacity F (size xs))).
  split; first by rewrite size_set_nth size_nseq; apply/maxn_idPr/hR.
  by move=> i hi; rewrite nth_set_nth /= /initial_words; case: eqP => // _; rewrite nth_nseq if_same.
apply: (lcomp_bind (V1 := V [::]) (Q1 := Q [::])).
  apply: lcomp_bind (@initial_state_comp H _) _ => st hst; apply: lcomp_ret.
    by exists s0; rewrite ?take0 //; split; rewrite /= ?size_nseq ?map_nseq //; eexists; [exact: hst|].
  move=> [_ hcl] s1; rewrite take0 => -[<-]; split; rewrite /= ?size_nseq ?map_nseq //; by eexists; [exact: hcl|].
move=> gs0 hg0; apply: (lcomp_bind (V1 := V l) (Q1 := Q l)).
  apply: (lcomp_fold (V := V) (Q := Q)) => // [[]//|l1 w l2 gs el [s1 e1 k1]].
  have hi : (size l1 < size ys)%N by rewrite -sl el size_cat /= addnS ltnS leq_addr.
  have nl (A : Type) (d : A) f : nth d (map f l) (size l1) = f w by rewrite el map_cat nth_cat size_map ltnn subnn.
  set x := nth 0 ys (size l1).
  have hx : pword_known w = known x by rewrite -(nl _ unknown) hl (nth_map 0).
  have hxv : H -> pword_value w = x by move=> /hlv e; rewrite -(nl _ 0) e.
  have ts : take (size (rcons l1 w)) ys = rcons (take (size l1) ys) x by rewrite size_rcons (take_nth 0).
  have st s2 : sponge_absorb W RATE S s1 x = Some s2 -> absorb_all W RATE S s0 (take (size (rcons l1 w)) ys) = Some s2.
    by move=> e; rewrite ts /absorb_all foldl_rcons -/(absorb_all _ _ _ _ _) e1.
  have [s2 e2 c2] := @g_absorb_comp ((H /\ Q [::] gs0) /\ Q l1 gs) gs s1 w x R0 k1 (fun hH => hH.2 _ e1) hx (fun hH => hxv hH.1.1).
  apply: lcomp_weaken c2 => gs' hgs'; first by exists s2 => //; exact: st.
  by move=> hf s3; rewrite (st _ e2) => -[<-].
move=> gs [s1]; rewrite sl take_size ea => -[es1] [em sm [v hv hs]]; subst s1.
have sms : size (sg_mode s) = RATE by rewrite -(size_map (omap known)) -em size_map.
have /rate_some[bs eb] := sponge_full hs.1 sms es.
have /rate_some[ws ew] : all isSome (gs_mode gs).
  move: em; rewrite eb; elim: (gs_mode gs) (bs) => [|[w|] m IH] [|b bs'] //= [_ /IH].
  exact.
have sw : size ws = RATE by rewrite -sm ew size_map.
rewrite ew eb in em.
pose H' := ((H /\ Q [::] gs0) /\ Q l gs).
have hf : H' -> gfollows gs s by move=> [_]; apply; rewrite sl take_size.
have hb : H' -> map pword_value ws = bs.
  by move=> /hf [] /= e3 _ _; apply/esym/map_Some_inj; rewrite -eb e3 ew -!map_comp.
have [s' [v' [h1 h2 h3]]] := g_sponge_comp hv (fun hH => gfollows_cells (hf hH) hs) hs sw (known_some em) hb.
rewrite eb h1 in es; case: es => e5 e6; subst fst_ fm.
rewrite /g_finish ew; apply: lcomp_bind h3 _ => -[st1 m1] [/= hk1 ->].
have s1 : (0 < size (take RATE st1))%N by rewrite size_takel ?hk1.1 ?(ltnW hR).
move: hy; rewrite /sponge_squeeze /=; have s2 : (0 < size (take RATE s'))%N by rewrite size_takel ?h2.1 ?(ltnW hR).
have n1 : nth a0 (take RATE st1) 0 = nth a0 st1 0 by rewrite nth_take.
have n2 : nth 0 (take RATE s') 0 = nth 0 s' 0 by rewrite nth_take.
case: (take RATE s') s2 n2 => // z zs _ /= ez [ey]; rewrite /g_squeeze.
case: (take RATE st1) s1 n1 => // b bs1 _ /= eb1.
apply: (lcomp_bind (V1 := fun r => r.1 = b) (Q1 := fun=> True)); first exact: lcomp_ret.
move=> [b' m2] /= ->; have ey' : v' 0%N = y by rewrite -(h2.2 0%N W0) -ez.
apply: lcomp_ret; first by rewrite eb1 hk1.2 // ey'.
by move=> [[_ hcl] _]; rewrite eb1 /cv hcl.2 // ey'.
Qed.

Lemma on_here_gates regions : lon_ok place ok regions -> on_here T place gates [:: s_full; s_partial; s_pad] regions -> gates_hold T gates.
Proof.
move=> hk ho row; case g: (all _ gates) => //; rewrite -g; apply: ok_gates => s hs ht.
have [h1|] := ho s row hs ht; last by rewrite g.
move: h1 hk; rewrite /turned_on /lon_ok; elim: regions {ho} => [|d l IH] /=; first by move=> /List.Exists_nil.
by move=> /List.Exists_cons[[off e ->]|h1] /List.Forall_cons_iff[h2 h3]; [exact: h2|exact: IH].
Qed.
End Table.
End Pow5.

(* ---------------------------------------------------------------- C46 *)
Section C46.
Variables (F : fieldType) (WIDTH RATE : nat) (S : pspec F) (m_inv : seq (seq F)).
Variables (state : nat -> nat) (partial_sbox : nat) (rc_a rc_b : nat -> nat) (s_full s_partial s_pad : nat).
Variables (c : p5config F) (gates : seq (expr F)).
Notation W := WIDTH.
Implicit Types (T : table F) (place : nat -> int) (inst : nat -> nat -> value F).

(* The specification the chip is configured for: S-box x^5, one row of constants per round,
   a WIDTH x WIDTH matrix, and its inverse (C49 shows that generate_mds returns such a pair). *)
Definition pow5_spec : Prop :=
  [/\ forall x, sp_sbox S x = x ^+ 5,
      size (sp_round_constants S) = (sp_full_rounds S %/ 2 + sp_partial_rounds S + sp_full_rounds S %/ 2)%N,
      size (sp_mds S) = W,
      forall i j, (i < W)%N -> (j < W)%N -> \sum_(k < W) entry (sp_mds S) i k * entry m_inv k j = (i == j)%:R &
      forall i j, (i < W)%N -> (j < W)%N -> \sum_(k < W) entry m_inv i k * entry (sp_mds S) k j = (i == j)%:R].
Hypothesis configured : p5_configure W RATE S m_inv state partial_sbox rc_a rc_b s_full s_partial s_pad = Some (c, gates).
Hypothesis hspec : pow5_spec.

Lemma configuredE : [/\ (0 < W)%N, RATE = (W - 1)%N, ~~ odd (sp_partial_rounds S) &
  (c, gates) = (P5Config state partial_sbox rc_a rc_b s_full s_partial s_pad
               (sp_full_rounds S %/ 2) (sp_partial_rounds S %/ 2) (sp_round_constants S) (sp_mds S),
     p5_gates W RATE (P5Config state partial_sbox rc_a rc_b s_full s_partial s_pad
               (sp_full_rounds S %/ 2) (sp_partial_rounds S %/ 2) (sp_round_constants S) (sp_mds S)) m_inv)].
Proof.
move: configured; rewrite /p5_configure; case: ifP => // /andP[/andP[/andP[h1 /eqP h2] _] h4] [<- <-]; by split.
Qed.

(* Any table that satisfies the gates and respects the calls holds the permutation of the input words. *)
Theorem C46_permute_sound : forall T place inst r st st' r' (v : words F),
  gates_hold T gates -> cells_hold W T place st v ->
  lreturns inst r (p5_permute W c st) = Ok (st', r') -> lrespects T place inst r (p5_permute W c st) ->
  cells_hold W T place st' (the_permute W S v).
Proof.
have [W0 eR hp [ec eg]] := configuredE; have [h1 h2 h3 h4 h5] := hspec; rewrite ec eg => T place inst r st st' r' v hg hv e hr.
exact: (permute_sound W0 eR hp h1 h2 h4 hg hv e hr).
Qed.
(* For every input the honest prover's table meets all the constraints of the chip and holds the permutation. *)
Theorem C46_permute_complete : forall T place inst r st (v : words F),
  uniq [:: s_full; s_partial; s_pad] -> known_words W st v -> cells_hold W T place st v ->
  exists st' r', [/\ lreturns inst r (p5_permute W c st) = Ok (st', r'), known_words W st' (the_permute W S v) &
    lhonest T place inst r (p5_permute W c st) -> lselectors_on T place inst r (p5_permute W c st) ->
    on_here T place gates [:: s_full; s_partial; s_pad] (lregions inst r (p5_permute W c st)) ->
    [/\ lrespects T place inst r (p5_permute W c st), gates_hold T gates & cells_hold W T place st' (the_permute W S v)]].
Proof.
have [W0 eR hp [ec eg]] := configuredE; have [h1 h2 h3 h4 h5] := hspec; rewrite ec eg => T place inst r st v hu hk hc.
have [st' [r' [e1 [e2 e3]]]] := @permute_comp F W RATE S m_inv state partial_sbox rc_a rc_b s_full s_partial s_pad
  W0 eR hp h1 h2 h5 T place inst h3 hu True st v hk (fun=> hc) r.
exists st', r'; split=> // g1 g2 g3; have [q1 q2 q3] := e3 Logic.I (conj g1 g2); split=> //.
exact: on_here_gates q2 g3.
Qed.
(* The hash gadget: the output cell is the Poseidon hash of the message cells... *)
Theorem C46_hash_sound : forall T place inst r message out r',
  gates_hold T gates -> lreturns inst r (g_hash W RATE c message) = Ok (out, r') ->
  lrespects T place inst r (g_hash W RATE c message) ->
  hash W RATE S [seq cell_value T place (ac_cell a) | a <- message] = Some (cell_value T place (ac_cell out)).
Proof.
have [W0 eR hp [ec eg]] := configuredE; have [h1 h2 h3 h4 h5] := hspec; rewrite ec eg => T place inst r m out r' hg e hr.
exact: (hash_sound W0 eR hp h1 h2 h4 hg e hr).
Qed.
(* ... and for every message whose length is not 0 the gadget succeeds, with the hash as its value. *)
Theorem C46_hash_complete : forall T place inst r message xs,
  (0 < RATE)%N -> uniq [:: s_full; s_partial; s_pad] -> (0 < size xs)%N ->
  [seq ac_value a | a <- message] = [seq known x | x <- xs] -> [seq cell_value T place (ac_cell a) | a <- message] = xs ->
  exists out y r', [/\ hash W RATE S xs = Some y, lreturns inst r (g_hash W RATE c message) = Ok (out, r'), ac_value out = known y &
    lhonest T place inst r (g_hash W RATE c message) -> lselectors_on T place inst r (g_hash W RATE c message) ->
    on_here T place gates [:: s_full; s_partial; s_pad] (lregions inst r (g_hash W RATE c message)) ->
    [/\ lrespects T place inst r (g_hash W RATE c message), gates_hold T gates & cell_value T place (ac_cell out) = y]].
Proof.
have [W0 eR hp [ec eg]] := configuredE; have [h1 h2 h3 h4 h5] := hspec; rewrite ec eg => T place inst r m xs R0 hu x0 hk hc.
have hR1 : (RATE < W)%N by rewrite eR subn1 prednK.
have [k [hcov _]] := paddingE xs R0.
have ey := C42_hash R0 hR1 h2 x0 hcov; move: (spec_state _ _ _ _ _ _ _ _ _ _) ey => y ey.
have [out [r' [e1 [e2 e3]]]] := @hash_comp F W RATE S m_inv state partial_sbox rc_a rc_b s_full s_partial s_pad
  W0 eR hp h1 h2 h5 T place inst h3 hu True m xs y R0 hk (fun=> hc) ey r.
exists out, y, r'; split=> // g1 g2 g3; have [q1 q2 q3] := e3 Logic.I (conj g1 g2); split=> //.
exact: on_here_gates q2 g3.
Qed.
End C46.
Print Assumptions C46_permute_sound.
Print Assumptions C46_permute_complete.
Print Assumptions C46_hash_sound.
Print Assumptions C46_hash_complete.

(* ---------------------------------------------------------------- example *)
(* Width 2, rate 1 over F_97: the hypotheses of the four theorems hold together in a table. *)
Definition p5spec97 : pspec F97 :=
  PSpec 2 2 (fun x : F97 => x ^+ 5) [:: [:: 1; 2%:R]; [:: 3%:R; 4%:R]; [:: 5%:R; 6%:R]; [:: 7%:R; 8%:R]] [:: [:: 2%:R; 1]; [:: 1; 1]].
Definition p5inv97 : seq (seq F97) := [:: [:: 1; -1]; [:: -1; 2%:R]].
Definition p5conf97 : option (p5config F97 * seq (expr F97)) :=
  p5_configure 2 1 p5spec97 p5inv97 id 2 id (fun i => 2 + i)%N 0 1 2.
Definition p5c97 : p5config F97 := P5Config id 2 id (fun i => 2 + i)%N 0 1 2 1 1 (sp_round_constants p5spec97) (sp_mds p5spec97).
Example p5_configured97 : p5conf97 = Some (p5c97, p5_gates 2 1 p5c97 p5inv97).
Proof. by []. Qed.
Example p5_spec97 : pow5_spec 2 p5spec97 p5inv97.
Proof.
by split=> // -[|[|i]] [|[|j]] // _ _; rewrite !big_ord_recl big_ord0; apply/eqP; vm_compute.
Qed.
(* two message words, in the first region; the regions are 10 rows apart *)
Definition m97 : seq (acell F97) :=
  [:: ACell (known 5%:R) (Cell 0 0 (Advice, 3%N)); ACell (known 9%:R) (Cell 0 1 (Advice, 3%N))].
Definition load97 : rprog F97 (acell F97) := rbindp (assign_advice 0 3 0 (known 5%:R)) (fun _ => assign_advice 0 3 1 (known 9%:R)).
Definition place97 (r : nat) : int := Posz (10 * r).
Definition noinst97 : nat -> nat -> value F97 := fun _ _ => unknown.
Definition hash_calls97 := lregions noinst97 1 (g_hash 2 1 p5c97 m97).
Definition T97 : table F97 := table_of place97 ((0%N, calls noinst97 load97) :: hash_calls97).
Example C46_example97 :
  [/\ lhonest T97 place97 noinst97 1 (g_hash 2 1 p5c97 m97), lselectors_on T97 place97 noinst97 1 (g_hash 2 1 p5c97 m97),
      on_here T97 place97 (p5_gates 2 1 p5c97 p5inv97) [:: 0; 1; 2]%N hash_calls97
    & [seq cell_value T97 place97 (ac_cell a) | a <- m97] = [:: 5%:R; 9%:R]].
Proof.
have [h1 h2] : List.Forall (fun c => honest T97 place97 c.1 c.2) hash_calls97 /\
               List.Forall (fun c => selectors_on T97 place97 c.1 c.2) hash_calls97.
  by apply: honestP; vm_compute.
have c1 : cell_value T97 place97 (Cell 0 0 (Advice, 3%N)) == 5%:R by vm_compute.
have c2 : cell_value T97 place97 (Cell 0 1 (Advice, 3%N)) == 9%:R by vm_compute.
split; [exact: h1|exact: h2| |exact: (congr2 (fun a b : F97 => [:: a; b]) (eqP c1) (eqP c2))].
move=> s row hs ht; left; have := @table_of_only _ place97 ((0%N, calls noinst97 load97) :: hash_calls97) [:: 0; 1; 2]%N s row hs ht.
by move/List.Exists_cons => -[[off]|].
Qed.
(* so the table satisfies all the gates, and its output cell is the hash *)
Example C46_sound97 : exists out r', [/\ gates_hold T97 (p5_gates 2 1 p5c97 p5inv97),
  lreturns noinst97 1 (g_hash 2 1 p5c97 m97) = Ok (out, r'), lrespects T97 place97 noinst97 1 (g_hash 2 1 p5c97 m97) &
  hash 2 1 p5spec97 [:: 5%:R; 9%:R] = Some (cell_value T97 place97 (ac_cell out))].
Proof.
have [h1 h2 h3 h4] := C46_example97.
have hm : [seq ac_value a | a <- m97] = [seq known x | x <- [:: 5%:R; 9%:R : F97]] by [].
have x0 : (0 < size [:: 5%:R; 9%:R : F97])%N by [].
have [out [y [r' [e1 e2 e3 e4]]]] := C46_hash_complete p5_configured97 p5_spec97 noinst97 1 isT isT x0 hm h4.
have [q1 q2 q3] := e4 h1 h2 h3; exists out, r'; split; [exact: q2|exact: e2|exact: q1|by rewrite q3].
Qed.
