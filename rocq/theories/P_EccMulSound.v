(* C50: variable-base scalar multiplication computes [alpha] base, provided the first row of each
   incomplete double-and-add block holds the base point (P_EccMul shows that the circuit does not
   enforce this, and that the claim fails without it). *)
Set Warnings "-notation-overridden,-ambiguous-paths".
From mathcomp Require Import all_ssreflect all_algebra.
From Verif Require Import FieldTac Util M_Env M_Assigned P_Assigned M_Circuit S_Circuit M_Selectors M_Value M_Region S_Region
  M_Layout S_Layout M_Utilities L_Region L_Gadget M_Ecc S_Curve L_Curve L_Group L_Multiples P_Ecc P_CondSwap Ex_Field Ex_Env Ex_Layout
  P_Bits P_RangeCheck M_EccMul P_EccMul L_EccMul S_Digits.
Import GRing.Theory.
Set Implicit Arguments.
Unset Strict Implicit.
Local Open Scope ring_scope.
Local Arguments at_row : simpl never.
Local Arguments esub : simpl never.
Local Arguments padd : simpl never.
Local Arguments pmul : simpl never.

Section Spec.
Variables (F : fieldType) (b : F) (pf : prime_field F) (p : nat) (m : mul_params) (c : mul_config).
(* the lengths and the constant t_q suit the field: F_p, and a group of prime order q = 2^(bits - 1) + t_q *)
Record mul_params_ok : Prop := MulParamsOk {
  mo_prime : prime (2 ^ (mp_bits m - 1) + mp_tq m);
  mo_tq : (mp_tq m <= 2 ^ mp_split m)%N;
  mo_split : (0 < mp_split m <= mp_bits m - 1)%N;
  mo_p : (2 ^ (mp_bits m - 1) <= p)%N;
  mo_p2 : (2 ^ (mp_split m).+1 <= p)%N;
  mo_complete : (2 <= mp_complete m)%N }.
(* region r's rows of incomplete double-and-add start with the base point in x_p and y_p *)
Definition holds_base (T : table F) (place : nat -> int) (r : nat) (B : F * F) (d : dbl_config) : Prop :=
  t_cell T Advice (db_xp d) (place r + 2%N%:Z) = B.1 /\ t_cell T Advice (db_yp d) (place r + 2%N%:Z) = B.2.
Definition mul_sound_if_base_held : Prop :=
  forall (inst : nat -> nat -> value F) (T : table F) (place : nat -> int) (usable : int -> Prop)
         (r : nat) (alpha : acell F) (base : ecpoint F) res n B,
  lreturns inst r (ecc_mul pf m c alpha base) = Ok (res, n) ->
  lrespects T place inst r (ecc_mul pf m c alpha base) ->
  gates_hold T (mul_gates F m c) ->
  looked_up T usable [:: lrc_lookup F (ov_lookup (mu_ovf c)) (mp_K m)] [:: table_idx (ov_lookup (mu_ovf c))] ->
  range_table T usable (table_idx (ov_lookup (mu_ovf c))) (mp_K m) ->
  (forall row, t_selector T (q_lookup (ov_lookup (mu_ovf c))) row -> usable row) ->
  on_curve b (Some B) -> pmul (2 ^ (mp_bits m - 1) + mp_tq m) (Some B) = None ->
  point_in T place base (Some B) ->
  holds_base T place r B (mu_hi c) -> holds_base T place r B (mu_lo c) ->
  point_in T place res.1 (pmul (pf_val pf (cell_value T place (ac_cell alpha))) (Some B)).
End Spec.

(* ---- the overflow check, over the integers *)
Section Overflow.
Variables (F : fieldType) (pf : prime_field F) (p : nat) (m : mul_params).
Hypothesis ok : prime_field_ok pf p.
Hypothesis mo : mul_params_ok p m.
Let N := (mp_bits m - 1)%N.
Let s := mp_split m.
Lemma overflow_ok (k d : nat) (alpha eta sml : F) :
  (k < 2 ^ N.+1)%N -> (d < 2 ^ s)%N ->
  let k_254 := (k %/ 2 ^ N)%:R : F in let z_130 := (k %/ 2 ^ s)%:R : F in
  k%:R - alpha - (mp_tq m)%:R = 0 -> k_254 * (z_130 - 2%:R ^+ (N - s)) = 0 -> k_254 * sml = 0 ->
  (1 - k_254) * (1 - z_130 * eta) * sml = 0 ->
  alpha + k_254 * 2%:R ^+ s = d%:R + (2 ^ s)%:R * sml ->
  k = (pf_val pf alpha + mp_tq m)%N.
Proof.
move=> hk hd k254 z130; rewrite /k254 /z130.
have := pf_lt ok alpha; have := pf_valK ok alpha; set a := pf_val pf alpha => <- ha.
case: mo => _ htq /andP[s0 sN] hp hp2 _; rewrite -/N -/s in htq s0 sN hp hp2.
have hsN : (2 ^ s <= 2 ^ N)%N by rewrite leq_exp2l.
rewrite expnS in hk; rewrite expnS in hp2.
have hdiv : (k %/ 2 ^ s < p)%N.
  apply: leq_trans hp; rewrite ltn_divLR ?expn_gt0 //; apply: leq_trans hk _; rewrite mulnC leq_mul2l.
  by apply/orP; right; rewrite -[X in (X <= _)%N](expn1 2) leq_exp2l.
rewrite -!natrX -addrA -opprD -natrD => /eqP; rewrite subr_eq0 => /eqP e1 e2 e3 e4 e5.
have em : (k = a + mp_tq m %[mod p])%N by rewrite -!(pf_natr ok) e1.
have [hkN|hkN] := ltnP k (2 ^ N).
  move: e2 e3 e4 e5; rewrite divn_small // !mul0r subr0 mul1r addr0 => _ _ e4 e5.
  have hkp : (k < p)%N by apply: leq_trans hp.
  have [hks|hks] := ltnP k (2 ^ s).
    move: e4; rewrite divn_small // mul0r subr0 mul1r => e4; move: e5; rewrite e4 mulr0 addr0 => e5.
    have ea : a = d by apply: (natr_inj ok) e5 => //; apply: leq_trans hd _; nlia.
    by move: em; rewrite !modn_small //; nlia.
  have [hs|hs] := ltnP (a + mp_tq m) p; first by move: em; rewrite !modn_small.
  move: em; rewrite modn_small // -(subnK hs) modnDr modn_small; nlia.
have e254 : (k %/ 2 ^ N = 1)%N.
  by apply/eqP; rewrite eqn_leq -ltnS ltn_divLR ?expn_gt0 // hk divn_gt0 ?expn_gt0.
move: e2 e3 e5; rewrite e254 !mul1r => /eqP; rewrite subr_eq0 => /eqP e2 e3 e5; rewrite {}e3 mulr0 addr0 in e5.
have hd2 : (2 ^ (N - s) * 2 ^ s = 2 ^ N)%N by rewrite -expnD subnK.
have ed : (k %/ 2 ^ s = 2 ^ (N - s))%N.
  apply: (natr_inj ok) e2 => //; apply: leq_trans hp; rewrite -hd2 -[X in (X < _)%N]muln1 ltn_mul2l expn_gt0 /=.
  by rewrite -[1%N](expn0 2) ltn_exp2l.
have hk2 : (k < 2 ^ N + 2 ^ s)%N.
  rewrite (divn_eq k (2 ^ s)) ed hd2 ltn_add2l ltn_pmod // expn_gt0 //.
have ha2 : (p <= a + 2 ^ s)%N.
  rewrite leqNgt; apply/negP => h; move: e5; rewrite -natrD => e5.
  have := natr_inj ok h _ e5; rewrite (leq_trans hd) //; last by nlia.
  by move=> /(_ isT); nlia.
have [h|h] := ltnP (a + mp_tq m) p; have [h'|h'] := ltnP k p.
- by move: em; rewrite !modn_small.
- by move: em; rewrite (modn_small h) -(subnK h') modnDr modn_small; nlia.
- by move: em; rewrite (modn_small h') -(subnK h) modnDr modn_small; nlia.
- by move: em; rewrite -(subnK h) -(subnK h') !modnDr !modn_small; nlia.
Qed.
End Overflow.

Section Sound.
Variables (F : fieldType) (b : F) (pf : prime_field F) (p : nat) (m : mul_params) (c : mul_config).
Hypothesis hc : good_curve b.
Hypothesis ok : prime_field_ok pf p.
Hypothesis mo : mul_params_ok p m.
Hypothesis same_add : co_add (mu_comp c) = mu_add c.
Variables (inst : nat -> nat -> value F) (T : table F) (place : nat -> int).
Hypothesis hg : gates_hold T (mul_gates F m c).
Variable B : F * F.
Hypothesis hB : on_curve b (Some B).
Hypothesis hq : pmul (2 ^ (mp_bits m - 1) + mp_tq m) (Some B) = None.
Notation "'val' a" := (cell_value T place (ac_cell a)) (at level 10, a at level 8).
Let N := (mp_bits m - 1)%N.

Lemma gates_cat (g1 g2 : seq (expr F)) : gates_hold T (g1 ++ g2) -> gates_hold T g1 /\ gates_hold T g2.
Proof. by move=> h; split=> row; have := h row; rewrite all_cat => /andP[]. Qed.
Lemma split_gates : [/\ gates_hold T (add_gates F (mu_add c)), gates_hold T (dbl_gates F (mu_hi c)),
  gates_hold T (dbl_gates F (mu_lo c)), gates_hold T (comp_gates F (mu_comp c)) &
  gates_hold T (ovf_gates F m (mu_ovf c)) /\ gates_hold T (lsb_gates F c)].
Proof.
have [h1 r1] := gates_cat hg; have [h2 r2] := gates_cat r1; have [h3 r3] := gates_cat r2.
by have [h4 r4] := gates_cat r3; have [h5 r5] := gates_cat r4.
Qed.
Lemma last_sums z zs l a : sums T place z (a :: zs) l -> cell_value T place (ac_cell (last a zs)) = (last z l)%:R.
Proof.
have lm (A C : Type) (f : A -> C) x (t : seq A) : last (f x) (map f t) = f (last x t) by elim: t x => //=.
case=> _; case: l => [//|k l] /= [e es].
by have := congr1 (last (cell_value T place (ac_cell a))) es; rewrite (lm _ _ (fun a => cell_value T place (ac_cell a))) e lm.
Qed.
Lemma sums_cat z zs1 zs2 l1 l2 : sums T place z zs1 l1 -> sums T place (last z l1) zs2 l2 ->
  sums T place z (zs1 ++ zs2) (l1 ++ l2).
Proof. by case=> p1 e1 [p2 e2]; split; rewrite ?cat_path ?p1 // !map_cat e1 e2. Qed.

Lemma mul_region_sound r alpha base :
  point_in T place base (Some B) ->
  holds_base T place r B (mu_hi c) -> holds_base T place r B (mu_lo c) ->
  rsound T place inst r (mul_region pf m c r alpha base) (fun t => exists l,
    [/\ size l = mp_bits m, path doubles 0%N l, [seq val a | a <- rev t.2] = [seq k%:R | k <- 0%N :: l] &
        point_in T place t.1 (pmul (2 ^ N + last 0%N l) (Some B))]).
Proof.
move=> hb [hx1 hy1] [hx2 hy2]; have [g1 g2 g3 g4 [g5 g6]] := split_gates.
have pq := mo_prime mo; have hcp := mo_complete mo.
have eN : N = (mp_hi m + mp_lo m + mp_complete m)%N by rewrite /N /mp_bits addn1 subn1.
rewrite /mul_region; case: (decompose_for_scalar_mul _ _ _) => [bits|]; last exact: rsound_panic.
apply: rsound_bind; apply: (rsound_add hc hB hB g1 hb hb) => acc hacc.
apply: rsound_bind; apply: rsound_advice_constant => e0.
apply: rsound_bind; case: acc hacc => ax ay hacc.
apply: rsound_weaken (double_and_add_sound hc hB pq hq (offset := 1%N) (j := 0%N) (z := 0%N) g2 hx1 hy1 _ _ _ _) => //; first last.
- by rewrite /accum -[pmul _ _]/(padd (Some B) (padd (Some B) None)) padd0.
- rewrite add0n; apply: leq_trans (leq_addr _ _); rewrite leq_exp2l // -/N eN; nlia.
move=> [[xa ya] zs_hi] [l1 [s1 hl1 ha1]]; rewrite /= in hl1 ha1.
case: zs_hi hl1 => [|z1 zs1] hl1; first exact: rsound_panic.
have v1 := last_sums hl1.
have b1 : (last 0%N l1 < 2 ^ mp_hi m)%N by rewrite -s1 -[size l1]add0n; apply: path_last_lt => //; case: hl1.
apply: rsound_bind.
apply: rsound_weaken (double_and_add_sound hc hB pq hq (offset := 1%N) g3 hx2 hy2 b1 _ v1 ha1); last first.
  apply: leq_trans (leq_addr _ _); rewrite leq_exp2l // -/N eN; nlia.
move=> [[xa2 ya2] zs_lo] [l2 [s2 hl2 ha2]]; rewrite /= in hl2 ha2.
case: ifP => _; first exact: rsound_panic.
case: zs_lo hl2 => [|z2 zs2] hl2; first exact: rsound_panic.
have v2 := last_sums hl2.
apply: rsound_bind.
have g1' : gates_hold T (add_gates F (co_add (mu_comp c))) by rewrite same_add.
apply: rsound_weaken (comp_region_sound hc hB g4 g1' hb ha2 v2).
move=> [acc3 zs_co] [l3 [s3 hl3 ha3 hc3]]; rewrite /= in hl3 ha3 hc3.
case: zs_co hl3 hc3 => [|z3 zs3] hl3 hc3; first exact: rsound_panic.
have v3 := last_sums hl3.
apply: rsound_bind.
apply: rsound_weaken (process_lsb_sound hc hB g6 g1 hb ha3 v3 _); last by have := hc3 ltac:(by []) z3.
move=> [res z0] [z' hd [vz hres]]; rewrite /= in vz hres.
case: ifP => hs; first exact: rsound_panic.
have hl4 : sums T place (last (last (last 0%N l1) l2) l3) [:: z0] [:: z'] by split; rewrite /= ?hd ?vz.
have [hp he] := sums_cat hl1 (sums_cat hl2 (sums_cat hl3 hl4)).
apply: rsound_ret; exists (l1 ++ l2 ++ l3 ++ [:: z']); split.
- by rewrite !size_cat s1 s2 s3 /= /mp_bits; nlia.
- exact: hp.
- by rewrite /= revK [RHS]/=; congr cons.
- by rewrite /= !last_cat /= eN.
Qed.

(* ---- the overflow check *)
Variable usable : int -> Prop.
Let lc := ov_lookup (mu_ovf c).
Hypothesis hl : looked_up T usable [:: lrc_lookup F lc (mp_K m)] [:: table_idx lc].
Hypothesis ht : range_table T usable (table_idx lc) (mp_K m).
Hypothesis hu : forall row, t_selector T (q_lookup lc) row -> usable row.
Lemma copy_check_words r el nw :
  rsound T place inst r (lrc_copy_check pf lc (mp_K m) r el nw false) (fun zs => exists2 d, (d < 2 ^ (mp_K m * nw))%N &
    size zs = nw.+1 /\ val el = d%:R + (2 ^ (mp_K m * nw))%N%:R * val (nth el zs nw)).
Proof.
rewrite /lrc_copy_check; apply: rsound_bind; apply: rsound_copy; set z0 := ACell _ _ => e zs hret hres.
have words j : (j < nw)%N -> word (mp_K m) (at_row T (place r + j%:Z) (lrc_lookup F lc (mp_K m))).
  move=> hj; have [_ _ _ _ [vs hvs ec]] := lrc_inv hret; move: hres; rewrite ec respects_cat => -[hst _].
  have hj' : (j < size vs)%N by rewrite hvs.
  have [s1 _] := respects_steps hst hj'; rewrite add0n in s1.
  by have [row' hr [->]] := hl (hu s1); case: ht => h1 _; apply: h1.
have [ks hsz [ha he _]] := lrc_sound ok hret erefl hres words.
have [_ hs _ n0 _] := lrc_inv hret.
exists (dval (2 ^ mp_K m) ks); first by rewrite expnM -hsz; apply: dval_lt.
split=> //; move: he; rewrite n0 => he; rewrite -e -[LHS]/(val z0) he; congr (_ + _ * val _).
by apply: set_nth_default; rewrite hs.
Qed.
Lemma s_minus_lo_words sc :
  lsound T place inst (s_minus_lo pf m (mu_ovf c) sc) (fun z => exists2 d, (d < 2 ^ mp_split m)%N &
    val sc = d%:R + (2 ^ mp_split m)%N%:R * val z).
Proof.
rewrite /s_minus_lo; case: ifP => // _; case: ifP => // /negbFE/eqP e.
apply: lsound_bind; apply: lsound_region => r.
have := @copy_check_words r sc (mp_split m %/ mp_K m); rewrite mulnC e => h.
apply: rsound_weaken h => -[|z zs]; first by case=> d _ [].
case=> d hd [hs ev]; apply: lsound_ret; exists d => //; rewrite ev.
by case: hs => <-; rewrite -(last_nth sc).
Qed.
Lemma overflow_check_sound alpha zs k254 z0 z130 :
  get zs N = Some k254 -> get zs 0 = Some z0 -> get zs (mp_split m) = Some z130 ->
  lsound T place inst (overflow_check pf m (mu_ovf c) alpha zs) (fun _ => exists d eta sml,
    (d < 2 ^ mp_split m)%N /\
    [/\ val z0 - val alpha - (mp_tq m)%:R = 0, val k254 * (val z130 - 2%:R ^+ (N - mp_split m)) = 0, val k254 * sml = 0,
        (1 - val k254) * (1 - val z130 * eta) * sml = 0 &
        val alpha + val k254 * 2%:R ^+ mp_split m = d%:R + (2 ^ mp_split m)%:R * sml]).
Proof.
move=> e1 e2 e3; rewrite /overflow_check e1 e2 e3; have [_ _ _ _ [g5 _]] := split_gates.
apply: lsound_bind; apply: lsound_region => r1; apply: rsound_advice; set sc := ACell _ _.
apply: lsound_bind; apply: lsound_weaken (@s_minus_lo_words sc) => sml [d hd es].
apply: lsound_region => r.
apply: rsound_bind; apply: rsound_enable => s1.
apply: rsound_bind; apply: rsound_copy => c1; apply: rsound_bind; apply: rsound_copy => c2.
apply: rsound_bind => _ _ _.
apply: rsound_bind; apply: rsound_copy => c3; apply: rsound_bind; apply: rsound_copy => c4.
apply: rsound_bind; apply: rsound_copy => c5; apply: rsound_bind; apply: rsound_copy => c6.
apply: rsound_ret.
have := g5 (place r + 1%N%:Z); rewrite /ovf_gates /= !rowE s1 !mul1r !addr0 andbT.
have up : place r + 1%N%:Z + 1 = place r + 2%N%:Z by rewrite -addrA -PoszD.
have dn : place r + 1%N%:Z + -1 = place r + 0%N%:Z by rewrite addrK addr0.
rewrite up dn c1 c2 c3 c4 c5 c6 es => /and5P[/eqP h1 /eqP h2 /eqP h3 /eqP h4 /eqP h5].
exists d, (t_cell T Advice (ov_a0 (mu_ovf c)) (place r + 2%N%:Z)), (val sml); split=> //; split=> //.
by apply/esym/eqP; rewrite -subr_eq0; apply/eqP.
Qed.
End Sound.

Lemma get_nth (A : Type) (x0 : A) (s : seq A) i : (i < size s)%N -> get s i = Some (nth x0 s i).
Proof. by rewrite /get; elim: s i => // x s IH [|i] //= h; rewrite ?drop0 // IH. Qed.

(* C50, for every table whose incomplete rows start with the base point *)
Theorem C50_mul_sound_partial (F : fieldType) (b : F) (pf : prime_field F) (p : nat) (m : mul_params) (c : mul_config) :
  good_curve b -> prime_field_ok pf p -> mul_params_ok p m -> co_add (mu_comp c) = mu_add c ->
  mul_sound_if_base_held b pf m c.
Proof.
move=> hc ok mo same_add inst T place usable r alpha base res n B.
rewrite /ecc_mul => hret hres hg hl ht hu hB hq hb h1 h2.
move: hret hres; rewrite lreturns_bind.
case e: (lreturns inst r (assign_region _)) => [[t r1]|//|//]; rewrite [rbind _ _]/= => hret.
case/(lrespects_bind _ _ _ e) => hr1 hr2.
have [er hrr] : returns inst (mul_region pf m c r alpha base) = Ok t /\
    respects T place r (calls inst (mul_region pf m c r alpha base)).
  move: e hr1; rewrite /lrespects /=; case e': (returns inst _) => [t'|//|//] [-> _] [/List.Forall_cons_iff[a1 _] _].
  by split.
have [l [sl pl vl pt]] := mul_region_sound hc mo same_add hg hB hq hb h1 h2 er hrr.
have kl := path_last_lt (j := 0) pl isT; rewrite add0n sl in kl.
set k := last 0%N l in pt kl.
have [a0 _] : exists a0 : acell F, True by exists alpha.
have szs : size t.2 = (mp_bits m).+1.
  by have := congr1 size vl; rewrite !size_map size_rev /= sl.
have zat i : (i <= mp_bits m)%N -> get t.2 i = Some (nth a0 t.2 i) /\
    cell_value T place (ac_cell (nth a0 t.2 i)) = (k %/ 2 ^ i)%:R.
  move=> hi; have hi' : (i < size t.2)%N by rewrite szs.
  split; first exact: get_nth.
  have := congr1 (fun s => nth 0 s (mp_bits m - i)) vl.
  have hb' : (mp_bits m - i < size (rev t.2))%N by rewrite size_rev szs ltnS leq_subr.
  rewrite (nth_map a0) // (nth_map 0%N) ?[size _]/= ?sl ?ltnS ?leq_subr //.
  rewrite nth_rev; last by rewrite szs ltnS leq_subr.
  rewrite szs subSS subKn // => ->; rewrite (path_nth pl) ?sl ?leq_subr // subKn //.
have bN : (mp_bits m - 1 <= mp_bits m)%N by rewrite leq_subr.
have /andP[_ sN] := mo_split mo.
have [g1 v1] := zat _ bN; have [g2 v2] := zat 0%N isT; have [g3 v3] := zat _ (leq_trans sN bN).
have : lsound T place inst (overflow_check pf m (mu_ovf c) alpha t.2 ;* LRet (t.1, alpha)) (fun res => res.1 = t.1 /\
    k = (pf_val pf (cell_value T place (ac_cell alpha)) + mp_tq m)%N).
  apply: lsound_bind; apply: lsound_weaken (@overflow_check_sound _ _ _ _ _ ok inst T place hg usable hl ht hu alpha _ _ _ _ g1 g2 g3) => _ [d [eta [sml [hd]]]].
  rewrite v1 v2 v3 expn0 divn1 => -[o1 o2 o3 o4 o5]; apply: lsound_ret; split=> //.
  apply: (overflow_ok ok mo _ hd o1 o2 o3 o4 o5).
  by apply: leq_trans kl _; rewrite leq_exp2l // /mp_bits addn1 subn1.
move=> /(_ _ _ _ hret hr2)[-> ek]; move: pt; rewrite ek addnCA (pmulD hc _ _ hB) hq padd0 //.
Qed.
Print Assumptions C50_mul_sound_partial.

(* ---------------------------------------------------------------- example *)
Example mp97_ok : mul_params_ok 97 mp97.
Proof. by split; vm_compute. Qed.

(* The honest prover's run over F_97: its table meets every gate and lookup, and holds [alpha] base. *)
Definition alpha_h (x : nat) : acell F97 := ACell (known x%:R) (Cell 1 0 (Advice, 0%N)).
Definition base_h : ecpoint F97 :=
  ECPoint (ECell (known (ATrivial 1)) (Cell 0 0 (Advice, 0%N))) (ECell (known (ATrivial 43%:R)) (Cell 0 0 (Advice, 1%N))).
Definition regions_h (x : nat) : seq (nat * seq (rop F97)) :=
  [:: (0%N, [:: OAdvice 0 0 (known (ATrivial 1)); OAdvice 1 0 (known (ATrivial 43%:R))]);
      (1%N, [:: OAdvice 0 0 (known (ATrivial x%:R))])]
  ++ lregions inst97 2 (ecc_mul pf97 mp97 mulc97 (alpha_h x) base_h).
Definition written_h (x : nat) : seq (nat * int * F97) :=
  flatten [seq pmap (fun o => if writes o is Some (Advice, c, off, y) then Some (c, place97 rc.1 + off%:Z, y) else None) rc.2
          | rc <- regions_h x].
Definition table_h (x : nat) : table F97 :=
  let w := rev (written_h x) in
  let ons := flatten [seq pmap (fun o : rop F97 => if o is OEnable s off then Some (s, place97 rc.1 + off%:Z) else None) rc.2
                     | rc <- regions_h x] in
  Table (fun k col row => match k, row with
           | Fixed, Posz i => if (i < 4)%N then i%:R else 0
           | Advice, _ => if [seq t.2 | t <- w & (t.1.1 == col) && (t.1.2 == row)] is y :: _ then y else 0
           | _, _ => 0 end)
        (fun s row => (s, row) \in ons).
Definition run_ok (x : nat) : bool :=
  let T := table_h x in
  [&& honestb place97 T (regions_h x), all (fun rc => all (respects_opb T place97 rc.1) rc.2) (regions_h x),
      all (fun row => all (fun g => at_row T (Posz row) g == 0) (mul_gates F97 mp97 mulc97)) (iota 0 30),
      all (fun row => (at_row T (Posz row) (lrc_lookup F97 lrc97 2)) \in [:: 0; 1; 2%:R; 3%:R]) (iota 0 30) &
      if lreturns inst97 2 (ecc_mul pf97 mp97 mulc97 (alpha_h x) base_h) is Ok (res, _) then
        (cell_value T place97 (ec_cell (ep_x res.1)), cell_value T place97 (ec_cell (ep_y res.1)))
          == encode (pmul x (Some (1, 43%:R : F97)))
      else false].
Check (ltac:(vm_compute; reflexivity) : all run_ok [:: 0; 1; 5; 48]%N = true).
