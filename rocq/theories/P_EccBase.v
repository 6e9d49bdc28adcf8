(* C62: fixed-base multiplication by a base-field element is sound: the windows are those of the canonical representative. *)
Set Warnings "-notation-overridden,-ambiguous-paths".
From mathcomp Require Import all_ssreflect all_algebra.
From Verif Require Import FieldTac Util M_Env M_Assigned P_Assigned M_Circuit S_Circuit M_Selectors M_Value M_Region S_Region
  M_Layout S_Layout M_Utilities L_Region L_Gadget M_Ecc S_Curve L_Curve L_Group L_Multiples P_Ecc P_CondSwap
  P_Bits P_RangeCheck M_EccMul P_EccMul L_EccMul S_Digits M_Poly P_Poly P_EccMulSound M_EccFixed P_EccFixed M_EccShort P_EccShort M_EccBase.
Import GRing.Theory.
Set Implicit Arguments.
Unset Strict Implicit.
Local Open Scope ring_scope.
Local Arguments at_row : simpl never.
Local Arguments esub : simpl never.
Local Arguments padd : simpl never.
Local Arguments pmul : simpl never.
Local Arguments rbindp : simpl never.

Lemma running_drop (F : fieldType) (H : nat) (ks : seq nat) (v : nat -> F) :
  (forall i, (i < size ks)%N -> v i - v i.+1 * H%:R = (nth 0%N ks i)%:R) -> v (size ks) = 0 ->
  forall i, (i <= size ks)%N -> v i = (dval H (drop i ks))%:R.
Proof.
elim: ks v => [|k ks IH] v h hz [|i] //; try by rewrite hz dval_nil.
  move=> _; rewrite drop0 dval_cons natrD natrM.
  have := h 0%N isT => /= /eqP; rewrite subr_eq => /eqP ->; congr (_ + _).
  have := IH (fun i => v i.+1) (fun i hi => h i.+1 hi) hz 0%N isT; rewrite drop0 => ->; exact: mulrC.
by move=> hi; exact: (IH (fun i => v i.+1) (fun i hi => h i.+1 hi) hz i hi).
Qed.

Section Canon.
Variables (F : fieldType) (pf : prime_field F) (p : nat).
Hypothesis pok : prime_field_ok pf p.
Variables wb nw wm K lw t_p : nat.
Notation H := (2 ^ wb)%N.
Notation E := (H ^ (nw - 1))%N.
Hypothesis w1 : (1 < wb)%N.
Hypothesis hp : p = (4 * E + t_p)%N.
Hypothesis hwm : (wm.+1 < nw)%N.
Hypothesis hlo : (K * lw = wb * wm + 1)%N.
Hypothesis ht : (t_p <= 2 ^ (K * lw))%N.
Variables (ks : seq nat).
Hypothesis sk : size ks = nw.
Hypothesis hk : all (fun k => k < H)%N ks.
Notation A := (dval H ks).
Notation D i := (dval H (drop i ks)).
(* the canonicity checks force the digits to be those of an integer below p *)
Lemma canon (a1 a2 v : nat) (z13 : F) : (a1 < 4)%N -> (a2 < 2)%N -> (v < 2 ^ (K * lw))%N ->
  (D (nw - 1))%:R = a1%:R + a2%:R * 4%:R :> F ->
  a2%:R * a1%:R = 0 :> F -> a2%:R * ((D wm.+1)%:R - (D (nw - 1))%:R * (2 ^ (wb * (nw - 1 - wm.+1)))%N%:R) = 0 :> F ->
  (a2 = 1%N -> (nth 0%N ks wm < 2)%N) -> a2%:R * z13 = 0 ->
  v%:R + (2 ^ (K * lw))%N%:R * z13 = A%:R - (D (nw - 1))%:R * (2 ^ (wb * (nw - 1)))%N%:R + (2 ^ (K * lw))%N%:R - t_p%:R ->
  (A < p)%N.
Proof.
move=> h1 h2 hv etop e12 ehi e43 e13 elo.
have H3 : (4 <= H)%N by rewrite -[4%N]/(2 ^ 2)%N leq_exp2l.
have H0 : (0 < H)%N by rewrite expn_gt0.
have n0 : (0 < nw)%N by apply: leq_trans hwm.
have E0 : (H <= E)%N by rewrite -{1}[H]expn1 leq_exp2l; [move: hwm; case: (nw) => [|[|n]] //|apply: leq_trans H3].
have hEp : (4 * E <= p)%N by rewrite hp leq_addr.
have nl : (nw - 1 < nw)%N by rewrite subn1 prednK.
have top : (D (nw - 1) < H)%N.
  have := @dval_lt H (drop (nw - 1) ks); rewrite size_drop sk subKn // expn1; apply.
  by move: hk; rewrite -{1}[ks](cat_take_drop (nw - 1)) all_cat => /andP[].
have etop' : D (nw - 1) = (a1 + a2 * 4)%N.
  apply: (natr_inj pok); last by rewrite natrD natrM.
    by apply: leq_trans hEp; apply: leq_trans top _; apply: leq_trans E0 _; rewrite leq_pmull.
  apply: leq_trans hEp; have : (a1 + a2 * 4 < 8)%N by case: (a2) h2 => [|[|]] // _; move: h1; case: (a1) => [|[|[|[|]]]].
  move=> h; apply: leq_trans h _; apply: (@leq_trans (4 * 4)) => //; rewrite leq_mul2l /=; exact: leq_trans H3 E0.
have eA i : (i <= nw)%N -> A = (D i * H ^ i + dval H (take i ks))%N.
  by move=> hi; rewrite -{1}[ks](cat_take_drop i) dval_cat size_takel ?sk // addnC mulnC.
have lt i : (i <= nw)%N -> (dval H (take i ks) < H ^ i)%N.
  move=> hi; have := @dval_lt H (take i ks); rewrite size_takel ?sk //; apply.
  by move: hk; rewrite -{1}[ks](cat_take_drop i) all_cat => /andP[].
case: a2 h2 etop etop' e12 ehi e43 e13 => [|[|]] // _ etop etop' e12 ehi e43 e13.
  rewrite addn0 in etop'; rewrite (eA (nw - 1)%N) ?leq_subr // etop'; apply: leq_trans hEp.
  apply: (@leq_trans (a1 * E + E)); first by rewrite ltn_add2l lt // leq_subr.
  by rewrite addnC -mulSn leq_mul2r h1 orbT.
have p4 : (4 < p)%N by apply: leq_trans hEp; apply: (@leq_trans (4 * 4)) => //; rewrite leq_mul2l /=; exact: leq_trans H3 E0.
have a10 : a1 = 0%N.
  by apply: (natr_inj pok); [exact: ltn_trans h1 p4|exact: leq_trans p4|move: e12; rewrite mul1r].
rewrite {}a10 in etop etop' h1; rewrite add0n mul1n in etop'.
rewrite !mul1r in ehi e13.
have hE : E = (H ^ (nw - 1 - wm.+1) * H ^ wm.+1)%N.
  by rewrite -expnD subnK // -ltnS subn1 prednK.
have hhi : D wm.+1 = (4 * H ^ (nw - 1 - wm.+1))%N.
  apply: (natr_inj pok).
  - have := @dval_lt H (drop wm.+1 ks); rewrite size_drop sk => h; apply: (leq_trans (h _)).
      by move: hk; rewrite -{1}[ks](cat_take_drop wm.+1) all_cat => /andP[].
    apply: leq_trans hEp; apply: (@leq_trans E); last by rewrite leq_pmull.
    by rewrite leq_pexp2l // leq_sub2l.
  - apply: leq_trans hEp; rewrite ltn_mul2l /= hE -{1}[(H ^ _)%N]muln1 ltn_mul2l expn_gt0 H0 /= -{1}(expn0 H) ltn_exp2l //.
    exact: leq_trans H3.
  - by move: ehi => /eqP; rewrite subr_eq0 => /eqP ->; rewrite etop' expnM natrM.
have hlow : (2 ^ (K * lw) = H ^ wm * 2)%N by rewrite hlo expnD expnM expn1.
have hwn : (wm < nw)%N by exact: ltnW.
have hwD : D wm = (nth 0%N ks wm + H * D wm.+1)%N by rewrite (drop_nth 0%N) ?sk // dval_cons.
have hA : A = (4 * E + (nth 0%N ks wm * H ^ wm + dval H (take wm ks)))%N.
  rewrite (eA wm) ?(ltnW hwn) // hwD hhi hE expnS mulnDl addnAC [RHS]addnC; congr (_ + _)%N.
  by rewrite mulnCA -!mulnA [(H * _)%N in RHS]mulnC; congr (_ * _)%N; rewrite mulnC -!mulnA [(H ^ wm * H)%N]mulnC.
set A0 := (_ + dval H (take wm ks))%N in hA.
have hA0 : (A0 < 2 ^ (K * lw))%N.
  rewrite hlow muln2 -addnn -addnS; apply: leq_add; last by rewrite lt // ltnW.
  by have := e43 erefl; case: (nth 0%N ks wm) => [|[|]] // _; rewrite mul1n.
clearbody A0.
have hlop : (2 ^ (K * lw) + 2 ^ (K * lw) <= p)%N.
  apply: leq_trans hEp; rewrite addnn -muln2 hlow -mulnA mulnC leq_mul2l /= leq_pexp2l //.
  by move: hwm; case: (nw) => // n; rewrite subn1 /= ltnS => /ltnW.
have : (A0 + 2 ^ (K * lw) = v + t_p)%N.
  apply: (natr_inj pok); first by apply: leq_trans hlop; rewrite ltn_add2r.
    by apply: leq_trans hlop; rewrite -addSn leq_add.
  have eE : (4 * E + A0)%N%:R - 4%:R * E%:R = A0%:R :> F by rewrite natrD natrM addrC addKr.
  by move: elo; rewrite e13 mulr0 addr0 etop' [(2 ^ (wb * (nw - 1)))%N]expnM hA eE !natrD => ->; rewrite subrK.
move=> e; rewrite hp hA ltn_add2l -(ltn_add2r (2 ^ (K * lw))) e addnC ltn_add2l; exact: hv.
Qed.
End Canon.

Section Gates.
Variables (F : fieldType) (b : F) (wb nw wm K lw t_p : nat) (T : table F) (c : base_config).
Hypothesis hg : gates_hold T (base_gates b wb nw wm K lw t_p c).
Lemma base_row_gate : row_gate b wb T (sh_super (ba_rs c)) (rs_word F wb (sh_super (ba_rs c))) (sh_range (ba_rs c)).
Proof.
move=> row hs; split.
  have H0 : (0 < 2 ^ wb)%N by rewrite expn_gt0.
  have := gate_at row hg (or_introl erefl); rewrite /running_sum_gate at_mul at_sel hs mul1r => /(C43_range_check _ _ _ H0)[k hk ek].
  by exists k.
move=> g hi; have hi' := in_map (EProduct (ESelector F (sh_range (ba_rs c)) true)) hi.
have [_ /gates_cat[g2 _]] := @gates_cat _ _ [:: _] _ hg.
by have := gate_at row g2 hi'; rewrite at_mul at_sel hs mul1r.
Qed.
Lemma canon_polys_hold row g : t_selector T (q_mul_fixed_base_field c) row -> List.In g (canon_polys F wb nw wm K lw t_p c) -> at_row T row g = 0.
Proof.
move=> hs hi; have [_ /gates_cat[_ g2]] := @gates_cat _ _ [:: _] _ hg.
by have := gate_at row g2 (in_map (EProduct (ESelector F (q_mul_fixed_base_field c) true)) hi); rewrite at_mul at_sel hs mul1r.
Qed.
End Gates.

Section Words.
Variables (F : fieldType) (pf : prime_field F) (p : nat) (lc : lrc) (K : nat).
Hypothesis pok : prime_field_ok pf p.
Variables (T : table F) (place : nat -> int) (inst : nat -> nat -> value F) (usable : int -> Prop).
Hypothesis hl : looked_up T usable [:: lrc_lookup F lc K] [:: table_idx lc].
Hypothesis ht : range_table T usable (table_idx lc) K.
Hypothesis hu : forall row, t_selector T (q_lookup lc) row -> usable row.
Notation val a := (cell_value T place (ac_cell a)).
Lemma witness_check_words r v nw :
  rsound T place inst r (lrc_witness_check pf lc K r v nw false) (fun zs => size zs = nw.+1 /\ forall d, exists2 x, (x < 2 ^ (K * nw))%N &
    val (nth d zs 0) = x%:R + (2 ^ (K * nw))%N%:R * val (nth d zs nw)).
Proof.
rewrite /lrc_witness_check; apply: rsound_bind; apply: rsound_advice; set z0 := ACell _ _ => zs hret hres.
have words j : (j < nw)%N -> word K (at_row T (place r + j%:Z) (lrc_lookup F lc K)).
  move=> hj; have [_ _ _ _ [vs hvs ec]] := lrc_inv hret; move: hres; rewrite ec respects_cat => -[hst _].
  have hj' : (j < size vs)%N by rewrite hvs.
  have [s1 _] := respects_steps hst hj'; rewrite add0n in s1.
  by have [row' hr [->]] := hl (hu s1); case: ht => h1 _; apply: h1.
have [ks hsz [ha he _]] := lrc_sound pok hret erefl hres words.
have [_ hs _ n0 _] := lrc_inv hret.
split=> // d; exists (dval (2 ^ K) ks); first by rewrite expnM -hsz; apply: dval_lt.
by rewrite !(set_nth_default z0 d) ?hs.
Qed.
Lemma rsound_bits r col o a s e (Q : acell F -> Prop) : (forall v, Q (ACell v (Cell r o (Advice, col)))) ->
  rsound T place inst r (assign_bits pf r col o a s e) Q.
Proof.
move=> h; rewrite /assign_bits; case: (inner _) => [x|]; last by apply: rsound_advice.
by case: (bitrange_subset _ _ _ _) => [y|]; [apply: rsound_advice|apply: rsound_panic].
Qed.
End Words.
Lemma get_nth (A : Type) (s : seq A) i a d : get s i = Some a -> nth d s i = a.
Proof. by rewrite /get; case e: (drop i s) => [|x l] //= -[<-]; rewrite -[i]addn0 -nth_drop e. Qed.

(* C62: the caller's cell holds alpha; the result is [alpha] B for its canonical representative *)
Definition mul_base_is_mul (F : fieldType) (b : F) (pf : prime_field F) (Fs : fieldType) (pfs : prime_field Fs) (q wb nw wm K lw t_p : nat)
    (c : base_config) (B : F * F) (base : fixed_point F) : Prop :=
  forall (inst : nat -> nat -> value F) (T : table F) (place : nat -> int) (usable : int -> Prop) (r r' : nat) (alpha : acell F) res,
  let prog := mul_fixed_base pf pfs q wb nw wm K lw t_p c alpha base in
  lreturns inst r prog = Ok (res, r') -> lrespects T place inst r prog ->
  gates_hold T (base_gates b wb nw wm K lw t_p c ++ inc_gates F (fx_inc (sh_super (ba_rs c))) ++ add_gates F (fx_add (sh_super (ba_rs c)))) ->
  looked_up T usable [:: lrc_lookup F (ba_lookup c) K] [:: table_idx (ba_lookup c)] -> range_table T usable (table_idx (ba_lookup c)) K ->
  (forall row, t_selector T (q_lookup (ba_lookup c)) row -> usable row) ->
  point_in T place res (pmul (pf_val pf (cell_value T place (ac_cell alpha))) (Some B)).
Theorem C62_mul_base_sound (F : fieldType) (b : F) (pf : prime_field F) (p : nat) (Fs : fieldType) (pfs : prime_field Fs)
    (q wb nw wm K lw t_p : nat) (c : base_config) (B : F * F) (base : fixed_point F) :
  good_curve b -> prime_field_ok pf p -> prime_field_ok pfs q -> fixed_base_ok b pfs q wb nw B base -> windows_fit q wb nw ->
  size (fx_lagrange (sh_super (ba_rs c))) = (2 ^ wb)%N ->
  p = (2 ^ (wb * (nw - 1) + 2) + t_p)%N -> (wm.+1 < nw)%N -> (K * lw = wb * wm + 1)%N -> (t_p <= 2 ^ (K * lw))%N ->
  mul_base_is_mul b pf pfs q wb nw wm K lw t_p c B base.
Proof.
move=> hc pok qok fb wf hs ep hwm hlo htp inst T place usable r r' alpha res prog hret hres hg hl ht hu.
have [g1 /gates_cat[g2 g3]] := gates_cat hg; have [w1 n1 _] := wf.
have n0 : (0 < nw)%N by apply: ltnW.
have nl : (nw - 1 < nw)%N by rewrite subn1 prednK.
have ep' : p = (4 * (2 ^ wb) ^ (nw - 1) + t_p)%N by rewrite ep expnD expnM mulnC.
have hp : (2 ^ wb <= p)%N.
  rewrite ep' -[X in (X <= _)%N]addn0 leq_add // -[X in (X <= _)%N]mul1n leq_mul // -{1}[(2 ^ wb)%N]expn1 leq_pexp2l ?expn_gt0 //.
  by rewrite subn_gt0.
have : lsound T place inst prog (fun res => point_in T place res (pmul (pf_val pf (cell_value T place (ac_cell alpha))) (Some B)));
  last by move=> /(_ _ _ _ hret hres).
apply: lsound_bind; apply: lsound_region => r1; apply: rsound_bind; apply: copy_decompose_sound => zs sz hzs hz0 hzn.
apply: rsound_bind; apply: (inner_sound hc pok qok fb wf hp (base_row_gate g1) g2 hs) => ks acc m sk _ hk hwk hacc hm.
apply: rsound_ret; apply: lsound_bind; apply: lsound_region => r2.
have hon1 := pmul_on hc (dval (2 ^ wb) (plus2 (take (nw - 1) ks))) (fb_curve fb).
apply: (rsound_add_cells hc _ _ g3 hm hacc) => [||u hu' _]; try by apply: (pmul_on hc); exact: (fb_curve fb).
rewrite (msb_point hc qok fb wf hp sk) in hu'.
case e0: (get zs 0) => [z0|//]; case e43: (get zs wm) => [z43|//]; case e44: (get zs wm.+1) => [z44|//].
case e84: (get zs (nw - 1)) => [z84|//].
pose col i := t_cell T Advice (fx_window (sh_super (ba_rs c))) (place r1 + i%:Z).
have er i : (i < size ks)%N -> col i - col i.+1 * (2 ^ wb)%N%:R = (nth 0%N ks i)%:R.
  by rewrite sk => hi; have := hwk i hi; rewrite !rowE addr0 mulrC -addrA -[i%:Z + 1]/((i + 1)%N%:Z) addn1 /win => ->.
have ez : forall i, (i <= nw)%N -> col i = (dval (2 ^ wb) (drop i ks))%:R.
  by have := running_drop er; rewrite sk; apply.
have cz i z : (i <= nw)%N -> get zs i = Some z -> cell_value T place (ac_cell z) = (dval (2 ^ wb) (drop i ks))%:R.
  move=> hi e; have ec : ac_cell z = Cell r1 i (Advice, fx_window (sh_super (ba_rs c))) by rewrite -(hzs i z hi) (get_nth z e).
  by rewrite -ez // /cell_value ec.
have hks : all (fun k => k < 2 ^ wb)%N ks by apply/(all_nthP 0%N) => i; rewrite sk; apply: hk.
apply: lsound_bind; apply: lsound_region => r3.
apply: rsound_weaken (@witness_check_words F pf p (ba_lookup c) K pok T place inst usable hl ht hu r3 _ lw) => ws [sw hw].
case w0: (get ws 0) => [a0|//]; case w13: (get ws lw) => [z13|//].
have [v hv ev] := hw a0; rewrite (get_nth _ w0) (get_nth _ w13) in ev.
apply: lsound_bind; apply: lsound_region => r4.
apply: rsound_bind; apply: rsound_enable => hsel.
apply: rsound_bind; apply: rsound_copy => c1; apply: rsound_bind; apply: rsound_copy => c2.
apply: rsound_bind; apply: rsound_copy => c3; apply: rsound_bind; apply: rsound_bits => v1; apply: rsound_bind; apply: rsound_bits => v2.
apply: rsound_bind; apply: rsound_copy => c4; apply: rsound_bind; apply: rsound_copy => c5.
apply: rsound_bind; apply: rsound_copy => c6; apply: rsound_ret; apply: lsound_ret.
have G := @canon_polys_hold F b wb nw wm K lw t_p T c g1 _ _ hsel.
have h1 := G _ (or_introl erefl); have h2 := G _ (or_intror (or_introl erefl)).
have h3 := G _ (or_intror (or_intror (or_introl erefl))); have h4 := G _ (or_intror (or_intror (or_intror (or_introl erefl)))).
have h5 := G _ (or_intror (or_intror (or_intror (or_intror (or_introl erefl))))).
have h6 := G _ (or_intror (or_intror (or_intror (or_intror (or_intror (or_introl erefl)))))).
have h7 := G _ (or_intror (or_intror (or_intror (or_intror (or_intror (or_intror (or_introl erefl))))))).
have h8 := G _ (or_intror (or_intror (or_intror (or_intror (or_intror (or_intror (or_intror (or_introl erefl)))))))).
have [a1 ha1 ea1] := (C43_range_check _ _ _ (isT : 0 < 4)%N).1 h5.
have [a2 ha2 ea2] := (C43_range_check _ _ _ (isT : 0 < 2)%N).1 h6.
have r0 : place r4 + 1%N%:Z + (-1) = place r4 + 0%N%:Z by rewrite -addrA.
have r2' : place r4 + 1%N%:Z + 1 = place r4 + 2%N%:Z by rewrite -addrA.
have wn : (wm <= nw)%N by apply: ltnW; exact: ltnW.
have vA : cell_value T place (ac_cell alpha) = (dval (2 ^ wb) ks)%:R.
  by rewrite -hz0 -[LHS]/(col 0%N) ez // drop0.
have vz0 : cell_value T place (ac_cell z0) = (dval (2 ^ wb) ks)%:R by rewrite (cz _ _ _ e0) // drop0.
have lA : (dval (2 ^ wb) ks < p)%N.
  apply: (@canon F pf p pok wb nw wm K lw t_p w1 ep' hwm hlo htp ks sk hks a1 a2 v (cell_value T place (ac_cell z13))) => //.
  - move: h7; rewrite !rowE in ea1 ea2 *; rewrite r0 ea1 ea2 c2 (cz _ _ _ e84) ?leq_subr // => /eqP.
    by rewrite subr_eq0 => /eqP ->; rewrite [4%:R * _]mulrC.
  - by move: h1; rewrite !rowE in ea1 ea2 *; rewrite ea1 ea2.
  - move: h2; rewrite !rowE in ea1 ea2 *; rewrite r0 r2' ea2 c2 c5 (cz _ _ _ e84) ?leq_subr // (cz _ _ _ e44) //; exact: ltnW.
  - move=> e2; move: h3; rewrite at_mul ea2 e2 mul1r => /(C43_range_check _ _ _ (isT : 0 < 2)%N).1 [k hk2].
    rewrite !rowE r2' c5 c6 (cz _ _ _ e43) // (cz _ _ _ e44) ?(ltnW hwm) //.
    have hwn : (wm < size ks)%N by rewrite sk ltnW.
    rewrite -!ez ?(ltnW hwm) // mulrC /win er // => e; suff -> : nth 0%N ks wm = k by [].
    apply: (natr_inj pok) e; first by apply: leq_trans hp; apply: hk; rewrite -sk.
    by apply: leq_trans hp; apply: leq_trans hk2 _; rewrite -{1}(expn1 2) leq_exp2l // ltnW.
  - by move: h4; rewrite !rowE in ea1 ea2 *; rewrite r2' ea2 c4.
  - rewrite -ev; move: h8; rewrite !rowE r0 [place r4 + 1%N%:Z + 0]addr0 c1 c2 c3 vz0 (cz _ _ _ e84) ?leq_subr // => /eqP; rewrite subr_eq0 => /eqP ->.
    by rewrite mulrC.
by rewrite vA (val_natr pok lA).
Qed.
Print Assumptions C62_mul_base_sound.
