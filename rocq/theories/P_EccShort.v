(* C59: fixed-base multiplication by a short signed scalar is sound; so is multiplication of a point by a sign. *)
Set Warnings "-notation-overridden,-ambiguous-paths".
From mathcomp Require Import all_ssreflect all_algebra.
From Verif Require Import FieldTac Util M_Env M_Assigned P_Assigned M_Circuit S_Circuit M_Selectors M_Value M_Region S_Region
  M_Layout S_Layout M_Utilities L_Region L_Gadget M_Ecc S_Curve L_Curve L_Group L_Multiples P_Ecc P_CondSwap
  P_Bits P_RangeCheck M_EccMul P_EccMul L_EccMul S_Digits M_Poly P_Poly P_EccMulSound M_EccFixed P_EccFixed M_EccShort.
Import GRing.Theory.
Set Implicit Arguments.
Unset Strict Implicit.
Local Open Scope ring_scope.
Local Arguments at_row : simpl never.
Local Arguments esub : simpl never.
Local Arguments padd : simpl never.
Local Arguments pmul : simpl never.
Local Arguments rbindp : simpl never.

Section Spec.
Variables (F : fieldType) (T : table F) (place : nat -> int).
(* the cell of a sign holds 1 or -1, and the cells of a point hold that sign times P *)
Definition signed_in (sign : acell F) (p : ecpoint F) (P : point F) : Prop :=
  cell_value T place (ac_cell sign) = 1 /\ point_in T place p P \/
  cell_value T place (ac_cell sign) = -1 /\ point_in T place p (popp P).
End Spec.

Section Region.
Variables (F : fieldType) (b : F) (pf : prime_field F) (p : nat).
Variables (wb nw lbits : nat) (T : table F) (place : nat -> int) (inst : nat -> nat -> value F) (r : nat) (c : short_config).
Hypothesis hg : gates_hold T (short_gates b wb c).
Notation fx := (sh_super c).
Notation rsound := (rsound T place inst r).

Lemma short_row_gate : row_gate b wb T fx (rs_word F wb fx) (sh_range c).
Proof.
move=> row hs; split.
  have H0 : (0 < 2 ^ wb)%N by rewrite expn_gt0.
  have := gate_at row hg (or_introl erefl); rewrite /running_sum_gate at_mul at_sel hs mul1r => /(C43_range_check _ _ _ H0)[k hk ek].
  by exists k.
move=> g hi; have hi' := in_map (EProduct (ESelector F (sh_range c) true)) hi.
have [_ /gates_cat[g2 _]] := @gates_cat _ _ [:: _] _ hg.
by have := gate_at row g2 hi'; rewrite at_mul at_sel hs mul1r.
Qed.
Lemma sign_gate row (P : point F) x y y' (s : F) : t_selector T (q_mul_fixed_short c) row -> encode P = (x, y) ->
  t_cell T Advice (fx_window fx) row = s -> t_cell T Advice (ad_yqr (fx_add fx)) row = y -> t_cell T Advice (ad_yp (fx_add fx)) row = y' ->
  (exists t : bool, t_cell T Advice (fx_u fx) row = t%:R) /\ (s = 1 /\ (x, y') = encode P \/ s = -1 /\ (x, y') = encode (popp P)).
Proof.
move=> hs eP es ey ey'.
have [_ /gates_cat[_ g2]] := @gates_cat _ _ [:: _] _ hg.
have gate g : List.In g (short_polys F c) -> at_row T row g = 0.
  by move=> hi; have := gate_at row g2 (in_map (EProduct (ESelector F (q_mul_fixed_short c) true)) hi); rewrite at_mul at_sel hs mul1r.
have gl := gate _ (or_introl erefl); have gs := gate _ (or_intror (or_introl erefl)).
have gn := gate _ (or_intror (or_intror (or_intror (or_introl erefl)))).
split.
  have /(C43_range_check _ _ _ (isT : 0 < 2)%N)[k hk] := gl; rewrite at_adv addr0 => ->.
  by case: k hk => [|[|]] // _; [exists false|exists true].
move: gs gn; rewrite /esquare !rowE !addr0 es ey ey' => gs /eqP; rewrite subr_eq0 => /eqP gn.
have : (s - 1) * (s + 1) = 0 by rewrite -subr_sqr expr1n expr2.
move/eqP; rewrite mulf_eq0 => /orP[|]; rewrite ?subr_eq0 ?addr_eq0 => /eqP e; [left|right]; split=> //.
  by rewrite eP -gn e mul1r.
move: gn; rewrite e mulN1r => /eqP; rewrite eqr_oppLR => /eqP ->.
by case: P eP => [[u v]|] /= [<- <-] //; rewrite ?oppr0.
Qed.

Lemma copy_decompose_sound alpha (Q : seq (acell F) -> Prop) :
  (forall zs, size zs = nw.+1 -> (forall j d, (j <= nw)%N -> ac_cell (nth d zs j) = Cell r j (Advice, fx_window fx)) ->
     t_cell T Advice (fx_window fx) (place r + 0%N%:Z) = cell_value T place (ac_cell alpha) ->
     t_cell T Advice (fx_window fx) (place r + nw%:Z) = 0 -> Q zs) ->
  rsound (rs_copy_decompose pf (sh_range c) (fx_window fx) wb r 0 alpha true lbits nw) Q.
Proof.
move=> h; apply: rsound_bind; apply: rsound_copy => e zs hret hres.
have [hs hcell h0 [rest ec]] := rs_inv hret.
have hc j d : (j <= nw)%N -> ac_cell (nth d zs j) = Cell r j (Advice, fx_window fx).
  move=> hj; rewrite (set_nth_default (ACell (ac_value alpha) (Cell r 0 (Advice, fx_window fx)))) ?hs ?ltnS //.
  by case: j hj => [_|j hj]; [rewrite h0|rewrite hcell].
apply: h => //; move: hres; rewrite ec !respects_cat respects_cons => -[_ [_ [hz _]]]; move: hz.
by rewrite /= hc // /cell_value /row_of.
Qed.
Lemma rsound_add_cells p0 q0 o P Q0 (Q : ecpoint F -> Prop) :
  good_curve b -> on_curve b P -> on_curve b Q0 -> gates_hold T (add_gates F (fx_add fx)) ->
  point_in T place p0 P -> point_in T place q0 Q0 ->
  (forall u, point_in T place u (padd P Q0) -> ec_cell (ep_y u) = Cell r (o + 1) (Advice, ad_yqr (fx_add fx)) -> Q u) ->
  rsound (add_region (fx_add fx) r p0 q0 o) Q.
Proof.
move=> hc hP hQ hga p1 q1 h u e hr; apply: h; first exact: (C45_add_sound hc hP hQ e hr hga).
by case: e => <-.
Qed.
End Region.

Lemma running_value (F : fieldType) (H : nat) (ks : seq nat) (v : nat -> F) n : (n <= size ks)%N ->
  (forall i, (i < n)%N -> v i - v i.+1 * H%:R = (nth 0%N ks i)%:R) -> v 0%N = (dval H (take n ks))%:R + (H ^ n)%N%:R * v n.
Proof.
elim: n => [|n IH] hn h; first by rewrite take0 dval_nil expn0 mul1r add0r.
rewrite IH ?(ltnW hn) // => [|i hi]; last by apply: h; exact: ltnW.
have e : v n = (nth 0%N ks n)%:R + v n.+1 * H%:R by rewrite -h // subrK.
rewrite (take_nth 0%N) // dval_rcons size_takel ?(ltnW hn) // e natrD mulrDr addrA natrM [(nth _ _ _)%:R * _]mulrC.
by rewrite expnS natrM [v n.+1 * _]mulrC mulrA [H%:R * _]mulrC.
Qed.

(* C59 *)
Definition mul_short_is_mul (F : fieldType) (b : F) (pf : prime_field F) (Fs : fieldType) (pfs : prime_field Fs) (q wb nw lbits : nat)
    (c : short_config) (B : F * F) (base : fixed_point F) : Prop :=
  forall (inst : nat -> nat -> value F) (T : table F) (place : nat -> int) (r r' : nat) (magnitude sign : acell F) res zs,
  let prog := mul_fixed_short pf pfs q wb nw lbits c magnitude sign base in
  lreturns inst r prog = Ok ((res, zs), r') -> lrespects T place inst r prog ->
  gates_hold T (short_gates b wb c ++ inc_gates F (fx_inc (sh_super c)) ++ add_gates F (fx_add (sh_super c))) ->
  exists k : nat, [/\ (k < 2 ^ (wb * (nw - 1) + 1))%N, cell_value T place (ac_cell magnitude) = k%:R &
    signed_in T place sign res (pmul k (Some B))].
Theorem C59_mul_short_sound (F : fieldType) (b : F) (pf : prime_field F) (p : nat) (Fs : fieldType) (pfs : prime_field Fs)
    (q wb nw lbits : nat) (c : short_config) (B : F * F) (base : fixed_point F) :
  good_curve b -> prime_field_ok pf p -> prime_field_ok pfs q -> fixed_base_ok b pfs q wb nw B base -> windows_fit q wb nw ->
  (2 ^ wb <= p)%N -> size (fx_lagrange (sh_super c)) = (2 ^ wb)%N ->
  mul_short_is_mul b pf pfs q wb nw lbits c B base.
Proof.
move=> hc pok qok fb wf hp hs inst T place r r' magnitude sign res zs prog hret hres hg.
have [g1 /gates_cat[g2 g3]] := gates_cat hg; have [w1 n1 _] := wf.
have n0 : (0 < nw)%N by apply: ltnW.
have nS : (nw - 1).+1 = nw by rewrite subn1 prednK.
have nl : (nw - 1 < nw)%N by rewrite -{2}nS.
have H1 : (1 < 2 ^ wb)%N by rewrite -{1}(expn0 2) ltn_exp2l // ltnW.
have : lsound T place inst prog (fun t => exists k : nat, [/\ (k < 2 ^ (wb * (nw - 1) + 1))%N,
    cell_value T place (ac_cell magnitude) = k%:R & signed_in T place sign t.1 (pmul k (Some B))]); last by move=> /(_ _ _ _ hret hres).
apply: lsound_bind; apply: lsound_region => r1; apply: rsound_bind; apply: copy_decompose_sound => ws sw hws hz0 hzn.
apply: rsound_bind; apply: (inner_sound hc pok qok fb wf hp (short_row_gate g1) g2 hs) => ks acc m sk _ hk hwk hacc hm.
apply: rsound_ret; apply: lsound_bind; apply: lsound_region => r2.
apply: rsound_bind; apply: (rsound_add_cells hc _ _ g3 hm hacc) => [||u hu cu]; try by apply: (pmul_on hc); exact: (fb_curve fb).
rewrite (msb_point hc qok fb wf hp sk) in hu.
apply: rsound_bind; apply: rsound_copy => hsg.
case eg: (get ws (nw - 1)) => [z21|]; last exact: rsound_panic.
have ez : ac_cell z21 = Cell r1 (nw - 1) (Advice, fx_window (sh_super c)).
  by move: eg; rewrite /get; case ed: (drop (nw - 1) ws) => [|z w'] //= -[<-]; rewrite -(hws _ z (ltnW nl)) -[(nw - 1)%N]addn0 -nth_drop ed.
apply: rsound_bind; apply: rsound_copy => hlast; apply: rsound_bind; apply: rsound_enable => hsel.
apply: rsound_bind; apply: rsound_e; apply: rsound_ret; apply: lsound_ret; exists (dval (2 ^ wb) ks).
have er i : (i < nw)%N -> t_cell T Advice (fx_window (sh_super c)) (place r1 + i%:Z) -
    t_cell T Advice (fx_window (sh_super c)) (place r1 + i.+1%:Z) * (2 ^ wb)%N%:R = (nth 0%N ks i)%:R.
  by move=> hi; have := hwk i hi; rewrite !rowE addr0 mulrC -addrA -[i%:Z + 1]/((i + 1)%N%:Z) addn1 /win => ->.
case epk: (encode (pmul (dval (2 ^ wb) ks) (Some B))) => [x y].
move: hu; rewrite /point_in epk => -[hx hy].
have hy' : t_cell T Advice (ad_yqr (fx_add (sh_super c))) (place r2 + 1%N%:Z) = y by rewrite -hy cu.
have [[t et] hsig] := sign_gate g1 hsel epk hsg hy' erefl.
have elast : nth 0%N ks (nw - 1) = t :> nat.
  have := er _ nl; rewrite nS hzn mul0r subr0.
  have := hlast; rewrite /cell_value ez /row_of et => <- e.
  have := congr1 (pf_val pf) e; rewrite !(pf_natr pok) !modn_small ?(leq_trans (hk _ nl)) //.
  by apply: leq_trans hp; apply: leq_ltn_trans H1; case: (t).
have ek : dval (2 ^ wb) ks = (dval (2 ^ wb) (take (nw - 1) ks) + t * (2 ^ wb) ^ (nw - 1))%N.
  have e : take (nw - 1).+1 ks = ks by rewrite take_oversize // sk nS.
  by rewrite -[in LHS]e (take_nth 0%N) ?sk // dval_rcons size_takel ?sk ?(ltnW nl) // elast.
split.
- rewrite ek expnD expnM expn1 muln2 -addnn -addSn; apply: leq_add; last by case: (t); rewrite ?mul1n.
  have -> : (nw - 1 = size (take (nw - 1) ks))%N by rewrite size_takel // sk ltnW.
  rewrite size_takel ?sk ?(ltnW nl) //.
  have := @dval_lt (2 ^ wb) (take (nw - 1) ks); rewrite size_takel ?sk ?(ltnW nl) //; apply.
  apply/(all_nthP 0%N) => i; rewrite size_takel ?sk ?(ltnW nl) // => hi; rewrite nth_take //; apply: hk; exact: ltn_trans hi nl.
- rewrite -hz0 (running_value (ks := ks) (v := fun i => t_cell T Advice (fx_window (sh_super c)) (place r1 + i%:Z)) (n := nw) _ er) ?sk //.
  by rewrite hzn mulr0 addr0 take_oversize ?sk.
- case: hsig => -[h1 h2]; [left|right]; rewrite /point_in -h2 hx; split=> //; by rewrite -hsg.
Qed.
Print Assumptions C59_mul_short_sound.

(* multiplying any point by a sign *)
Theorem C59_sign_sound (F : fieldType) (b : F) (wb : nat) (c : short_config) (inst : nat -> nat -> value F) (T : table F)
    (place : nat -> int) (sign : acell F) (p res : ecpoint F) (P : point F) r r' :
  lreturns inst r (assign_scalar_sign c sign p) = Ok (res, r') -> lrespects T place inst r (assign_scalar_sign c sign p) ->
  gates_hold T (short_gates b wb c) -> point_in T place p P -> signed_in T place sign res P.
Proof.
move=> hret hres hg hP.
have : lsound T place inst (assign_scalar_sign c sign p) (fun res => signed_in T place sign res P); last by move=> /(_ _ _ _ hret hres).
apply: lsound_region => r1; apply: rsound_bind; apply: rsound_enable => hsel.
apply: rsound_bind; apply: rsound_advice_constant => _; apply: rsound_bind; apply: rsound_copy => hs.
apply: rsound_bind; apply: rsound_copy_e => hy; apply: rsound_bind; apply: rsound_e; apply: rsound_ret.
case eP: (encode P) => [x y]; move: hP; rewrite /point_in eP => -[hx hy'].
have [_ hsig] := sign_gate hg hsel eP hs (etrans hy hy') erefl.
case: hsig => -[h1 h2]; [left|right]; rewrite /point_in -h2 hx; split=> //; by rewrite -hs.
Qed.
Print Assumptions C59_sign_sound.
