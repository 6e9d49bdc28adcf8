(* C56: for an honest prover, variable-base scalar multiplication returns [alpha] base and
   meets every constraint. *)
Set Warnings "-notation-overridden,-ambiguous-paths".
From mathcomp Require Import all_ssreflect all_algebra.
From Verif Require Import FieldTac Util M_Env M_Assigned P_Assigned M_Circuit S_Circuit M_Selectors M_Value M_Region S_Region
  M_Layout S_Layout M_Utilities L_Region L_Gadget M_Ecc S_Curve L_Curve L_Group L_Multiples P_Ecc P_CondSwap Ex_Field Ex_Env Ex_Layout
  S_Digits P_Bits P_RangeCheck M_EccMul P_EccMul L_EccMul P_EccMulSound S_Sinsemilla L_Sinsemilla P_SinsemillaComplete L_EccMulComplete.
Import GRing.Theory.
Set Implicit Arguments.
Unset Strict Implicit.
Local Open Scope ring_scope.
Local Arguments at_row : simpl never.
Local Arguments esub : simpl never.
Local Arguments padd : simpl never.
Local Arguments pmul : simpl never.
Local Arguments rbindp : simpl never.
Local Arguments assign_advice : simpl never.

Section Spec.
Variables (F : fieldType) (p : nat) (m : mul_params) (c : mul_config).
(* the lengths and the constant t_q suit the field: with q = 2^(bits - 1) + t_q the prime order of the group,
   alpha + t_q fits, and exceeds 2^(bits - 1) by less than 2^split *)
Record mul_params_fit : Prop := MulParamsFit {
  mf_prime : prime (2 ^ (mp_bits m - 1) + mp_tq m);
  mf_split : (0 < mp_split m <= mp_bits m - 1)%N;
  mf_p : (2 ^ mp_split m <= p)%N;
  mf_p2 : (p + mp_tq m <= 2 ^ (mp_bits m - 1) + 2 ^ mp_split m)%N;
  mf_p3 : (2 ^ (mp_bits m - mp_split m) <= p)%N;
  mf_complete : (2 <= mp_complete m)%N;
  mf_hi : (0 < mp_hi m <= mp_lo m)%N;
  mf_K : (0 < mp_K m <= 64)%N /\ (mp_K m %| mp_split m)%N }.
(* the selectors of the chip *)
Definition mul_sels : seq nat :=
  [:: q_add (mu_add c); q_mul_1 (mu_hi c); q_mul_2 (mu_hi c); q_mul_3 (mu_hi c); q_mul_1 (mu_lo c); q_mul_2 (mu_lo c);
      q_mul_3 (mu_lo c); q_mul_decompose_var (mu_comp c); q_mul_overflow (mu_ovf c); q_mul_lsb c;
      q_lookup (ov_lookup (mu_ovf c)); q_running (ov_lookup (mu_ovf c))].
Variables (T : table F) (place : nat -> int).
(* every gate of the chip holds in this row, and what it looks up is a K-bit word *)
Definition mul_row_passes (row : int) : Prop :=
  all (fun g => at_row T row g == 0) (mul_gates F m c) /\
  word (mp_K m) (at_row T row (lrc_lookup F (ov_lookup (mu_ovf c)) (mp_K m))).
(* where a selector of the chip is on, it was turned on here, or the row passes for another reason (for
   example another use of the chip) *)
Definition mul_on_here (regions : seq (nat * seq (rop F))) : Prop :=
  forall s row, s \in mul_sels -> t_selector T s row -> turned_on place regions s row \/ mul_row_passes row.
End Spec.

(* ---- the bits *)
Lemma zsum_cat z b1 b2 : zsum z (b1 ++ b2) = zsum z b1 ++ zsum (last z (zsum z b1)) b2.
Proof. by elim: b1 z => //= t b1 IH z; rewrite IH. Qed.
Lemma zsum_path z bs : path doubles z (zsum z bs).
Proof. by elim: bs z => //= t bs IH z; rewrite IH andbT /doubles; case: t; rewrite ?addn0 ?eqxx ?orbT. Qed.
Lemma last_of (A C D : Type) (f : A -> C) (g : D -> C) a s d l : map f (a :: s) = map g l -> f (last a s) = g (last d l).
Proof. by case: l => //= d' l [e es]; rewrite -(last_map f) -(last_map g) e es. Qed.

Section Complete.
Variables (F : fieldType) (b : F) (pf : prime_field F) (p : nat) (m : mul_params) (c : mul_config).
Hypothesis hc : good_curve b.
Hypothesis pok : prime_field_ok pf p.
Hypothesis mf : mul_params_fit p m.
Hypothesis same_add : co_add (mu_comp c) = mu_add c.
Variables (inst : nat -> nat -> value F) (T : table F) (place : nat -> int).
Variable B : F * F.
Hypothesis hB : on_curve b (Some B).
Hypothesis hq : pmul (2 ^ (mp_bits m - 1) + mp_tq m) (Some B) = None.
Notation "'val' a" := (cell_value T place (ac_cell a)) (at level 10, a at level 8).
Notation N := (mp_bits m - 1)%N.
Notation q := (2 ^ (mp_bits m - 1) + mp_tq m)%N.
Variable ok : nat -> int -> Prop.
Notation holds row ps := (all (fun g => at_row T row g == 0) ps).
Hypothesis oka : forall row, holds row (add_gates F (mu_add c)) -> ok (q_add (mu_add c)) row.
Hypothesis okh1 : forall row, holds row (polys1 F (mu_hi c)) -> ok (q_mul_1 (mu_hi c)) row.
Hypothesis okh2 : forall row, holds row (polys2 F (mu_hi c)) -> ok (q_mul_2 (mu_hi c)) row.
Hypothesis okh3 : forall row, holds row (polys3 F (mu_hi c)) -> ok (q_mul_3 (mu_hi c)) row.
Hypothesis okl1 : forall row, holds row (polys1 F (mu_lo c)) -> ok (q_mul_1 (mu_lo c)) row.
Hypothesis okl2 : forall row, holds row (polys2 F (mu_lo c)) -> ok (q_mul_2 (mu_lo c)) row.
Hypothesis okl3 : forall row, holds row (polys3 F (mu_lo c)) -> ok (q_mul_3 (mu_lo c)) row.
Hypothesis okd : forall row, holds row (compolys F (mu_comp c)) -> ok (q_mul_decompose_var (mu_comp c)) row.
Hypothesis oks : forall row, holds row (lsbpolys F c) -> ok (q_mul_lsb c) row.

Lemma some_mult a : (0 < a < q)%N -> exists A, pmul a (Some B) = Some A.
Proof.
move=> ha; have nB : Some B <> None by [].
by have := order_neq hc hB nB (mf_prime mf) hq ha; case: (pmul a _) => // A _; exists A.
Qed.
Lemma eN : N = (mp_hi m + mp_lo m + mp_complete m)%N. Proof. by rewrite /mp_bits addn1 subn1. Qed.

Section Region.
Variables (r : nat) (alpha : acell F) (base : ecpoint F) (x : F).
Hypothesis va : ac_value alpha = known x.
Hypotheses (hb : point_is base (Some B)) (hbi : point_in T place base (Some B)).
Let k := (pf_val pf x + mp_tq m)%N.
Let bs := rev (scalar_bits pf m x).
Lemma size_bs : size bs = mp_bits m. Proof. by rewrite size_rev size_map size_iota. Qed.
Lemma k_lt : (k < 2 ^ mp_bits m)%N.
Proof.
have := mf_p2 mf; have := pf_lt pok x; have /andP[_ hs] := mf_split mf.
have : (2 ^ mp_split m <= 2 ^ N)%N by rewrite leq_exp2l.
have -> : (2 ^ mp_bits m = 2 * 2 ^ N)%N by rewrite -expnS eN /mp_bits addn1.
rewrite /k; move: (2 ^ N)%N (2 ^ mp_split m)%N => u v; clear; nlia.
Qed.
Lemma last_bs : last 0%N (zsum 0 bs) = k.
Proof.
rewrite last_zsum mul0n add0n /bs revK /scalar_bits -map_comp.
have := bits_dval k 0 (mp_bits m); rewrite expn0 divn1 modn_small ?k_lt // => <-; congr dval.
Qed.
Lemma bits_known : decompose_for_scalar_mul pf m (ac_value alpha) = Some [seq known t | t <- bs].
Proof.
by rewrite va /decompose_for_scalar_mul /v_transpose_vec /= size_map size_iota eqxx /= /bs map_rev.
Qed.
Lemma bs_split : exists b1 b2 b3 t, bs = b1 ++ b2 ++ b3 ++ [:: t] /\ [/\ size b1 = mp_hi m, size b2 = mp_lo m & size b3 = mp_complete m].
Proof.
have hs := size_bs; rewrite /mp_bits in hs.
set b1 := take (mp_hi m) bs; set r1 := drop (mp_hi m) bs; set b2 := take (mp_lo m) r1; set r2 := drop (mp_lo m) r1.
set b3 := take (mp_complete m) r2; set r3 := drop (mp_complete m) r2.
have s3 : size r3 = 1%N by rewrite !size_drop hs; clear; nlia.
have [t et] : exists t, r3 = [:: t] by case: r3 s3 => [|t [|]] //; exists t.
exists b1, b2, b3, t; rewrite -et !cat_take_drop; split=> //.
by split; rewrite size_takel // ?size_drop hs; clear; nlia.
Qed.

Lemma mul_region_comp : rcomp T place inst r ok True (mul_region pf m c r alpha base)
  (fun t => point_is t.1 (pmul (2 ^ N + k) (Some B)) /\ [seq ac_value a | a <- rev t.2] = [seq known i%:R | i <- 0%N :: zsum 0 bs])
  (fun t => point_in T place t.1 (pmul (2 ^ N + k) (Some B)) /\ [seq val a | a <- rev t.2] = [seq i%:R | i <- 0%N :: zsum 0 bs]).
Proof.
have pq := mf_prime mf; have hcp := mf_complete mf; have /andP[h0 hlo] := mf_hi mf.
have qge n : (n + 2 <= N)%N -> (2 ^ (n + 2) <= q)%N.
  by move=> h; apply: leq_trans (leq_addr _ _); rewrite leq_exp2l.
rewrite /mul_region bits_known; have [b1 [b2 [b3 [t [eb [s1 s2 s3]]]]]] := bs_split.
have -> : take (mp_hi m) [seq known t | t <- bs] = [seq known t | t <- b1] by rewrite eb map_cat take_size_cat ?size_map.
have -> : take (mp_lo m) (drop (mp_hi m) [seq known t | t <- bs]) = [seq known t | t <- b2].
  by rewrite eb map_cat drop_size_cat ?size_map // map_cat take_size_cat ?size_map.
have -> : take (mp_complete m) (drop (mp_hi m + mp_lo m) [seq known t | t <- bs]) = [seq known t | t <- b3].
  by rewrite eb map_cat map_cat catA drop_size_cat ?size_cat ?size_map ?s1 ?s2 // map_cat take_size_cat ?size_map.
have -> : nth unknown [seq known t | t <- bs] (mp_bits m - 1) = known t.
  rewrite (nth_map false) ?size_bs ?subn1 ?prednK //; last by rewrite /mp_bits addn1.
  by rewrite eb !catA cats1 nth_rcons !size_cat s1 s2 s3 -subn1 eN ltnn eqxx.
set l1 := zsum 0 b1; set z1 := last 0%N l1; set l2 := zsum z1 b2; set z2 := last z1 l2; set l3 := zsum z2 b3; set z3 := last z2 l3.
have sl1 : size l1 = mp_hi m by rewrite size_zsum.
have sl2 : size l2 = mp_lo m by rewrite size_zsum.
have sl3 : size l3 = mp_complete m by rewrite size_zsum.
have ebs : zsum 0 bs = l1 ++ l2 ++ l3 ++ [:: (2 * z3 + t)%N] by rewrite eb !zsum_cat.
have ek : (2 * z3 + t)%N = k by rewrite -last_bs ebs !last_cat.
have z1lt : (z1 < 2 ^ mp_hi m)%N by rewrite /z1 /l1 -s1 -[size b1]add0n; apply: zsum_lt.
have z2lt : (z2 < 2 ^ (mp_hi m + mp_lo m))%N by rewrite /z2 /l2 -s2; apply: zsum_lt.
apply: (rcomp_bind (rcomp_add _ _ _ hc hB hB oka hb hb _ _)) => // -[ax ay] hacc.
have pq2 := expn_gt0 2 N.
have e2 : padd (Some B) (Some B) = pmul (2 ^ 0 + 1 + 2 * 0) (Some B) by rewrite -[RHS]/(padd (Some B) (padd (Some B) None)) padd0.
have q4 : (4 <= q)%N by apply: (qge 0%N); rewrite eN; clear -hcp; nlia.
rewrite e2 in hacc *; have [A1 eA1] := @some_mult 2 ltac:(by apply: leq_trans q4).
rewrite -[(2 ^ 0 + 1 + 2 * 0)%N]/2%N eA1 in hacc *.
pose zi : acell F := ACell (known 0) (Cell r 1 (Advice, db_z (mu_hi c))).
apply: (rcomp_bind (V1 := eq zi) (Q1 := fun=> val zi = 0)).
  by apply: rcomp_rhon; apply: rhon_advice_constant.
move=> _ <-.
apply: (rcomp_bind (dbl_comp _ _ hc hB pq hq okh1 okh2 okh3 (j := 0) (z := 0) _ s1 h0 _ _ eA1 hb hacc _ _ _)) => //.
- by rewrite add0n; apply: qge; rewrite eN; clear -hcp; nlia.
- by case=> -[].
- by case.
rewrite -/l1 -/z1 add0n => -[[xa ya] zs1] [/= ha1 vz1].
case: zs1 vz1 => [e|c1 zs1 vz1]; first by have := congr1 size e; rewrite !size_map sl1 => e'; rewrite -e' in h0.
have vc1 : ac_value (last c1 zs1) = known z1%:R by exact: (last_of 0%N vz1).
have [A2 eA2] : exists A, pmul (2 ^ mp_hi m + 1 + 2 * z1) (Some B) = Some A.
  apply: some_mult; have := @qge (mp_hi m) ltac:(by rewrite eN; clear -hcp; nlia); rewrite expnD -[(2 ^ 2)%N]/4%N; have := expn_gt0 2 (mp_hi m).
  by move: z1lt; clear; move: (2 ^ mp_hi m)%N q => u v; nlia.
rewrite eA2 in ha1 *.
apply: (rcomp_bind (dbl_comp _ _ hc hB pq hq okl1 okl2 okl3 _ s2 _ z1lt _ eA2 hb ha1 _ vc1 _)) => //.
- exact: leq_trans h0 hlo.
- by apply: qge; rewrite eN; clear -hcp; nlia.
- by case=> _ [].
- by case=> _ [_ h]; exact: (last_of (f := fun a => val a) 0%N h).
rewrite -/l2 -/z2 => -[[xa2 ya2] zs2] [/= ha2 vz2].
rewrite hlo [~~ true]/=; case: zs2 vz2 => [e|c2 zs2 vz2].
  by have := congr1 size e; rewrite !size_map sl2 => e'; move: (leq_trans h0 hlo); rewrite -e'.
have vc2 : ac_value (last c2 zs2) = known z2%:R by exact: (last_of z1 vz2).
have oka' row : holds row (add_gates F (co_add (mu_comp c))) -> ok (q_add (co_add (mu_comp c))) row by rewrite same_add; exact: oka.
apply: (rcomp_bind (comp_region_comp _ _ hc hB _ oka' okd s3 hb _ ha2 _ vc2 _)) => //.
- by case=> _ [].
- by case=> _ [_ h]; exact: (last_of (f := fun a => val a) z1 h).
rewrite -/l3 -/z3 -eN => -[acc3 zs3] [/= ha3 vz3 cz3].
case: zs3 vz3 cz3 => [e|c3 zs3 vz3 cz3].
  by have := congr1 size e; rewrite !size_map sl3 => e'; rewrite -e' in hcp.
have vc3 : ac_value (last c3 zs3) = known z3%:R by exact: (last_of z2 vz3).
have cc3 : ac_cell (last c3 zs3) = Cell r (1 + mp_lo m + 2 + mp_complete m * 2) (Advice, z_complete (mu_comp c)).
  rewrite (last_of (f := @ac_cell F) 0%N cz3); congr Cell.
  have -> : last 0%N (iota 0 (mp_complete m)) = (mp_complete m - 1)%N.
    by case: (mp_complete m) hcp => // n _; rewrite -addn1 iotaD last_cat /= addnK.
  by clear -hcp; nlia.
apply: (rcomp_bind (process_lsb_comp _ hc hB t oka oks hb _ ha3 _ vc3 _)) => //.
- by case=> _ [].
- case=> _ [_ h]; have := last_of (f := fun a => val a) z2 h; rewrite /cell_value cc3 /row_of; exact.
rewrite ek => -[res z0] [/= hres vz0].
case: ifP => [/eqP e|_].
  case: e; have := congr1 size vz1; have := congr1 size vz2; have := congr1 size vz3; rewrite !size_map sl1 sl2 sl3 => e3 e4 e5.
  by rewrite /= !size_cat /= !size_cat /= size_cat /mp_bits; rewrite /= in e3 e4 e5; clear -e3 e4 e5; rewrite /=; nlia.
have key (C : Type) (f : acell F -> C) (g : nat -> C) : f zi = g 0%N -> map f (c1 :: zs1) = map g l1 -> map f (c2 :: zs2) = map g l2 ->
    map f (c3 :: zs3) = map g l3 -> f z0 = g k ->
    map f (zi :: (c1 :: zs1) ++ (c2 :: zs2) ++ (c3 :: zs3) ++ [:: z0]) = map g (0%N :: zsum 0 bs).
  move=> k1 k2 k3 k4 k5; rewrite ebs ek -(cat1s zi) -(cat1s 0%N) !map_cat k2 k3 k4; congr (_ ++ _); first by rewrite /= k1.
  by rewrite /= k5.
apply: rcomp_ret => [|h]; (split; [|cbn [fst snd]; rewrite revK; apply: key => //]) => //; tauto.
Qed.
End Region.

(* ---- the overflow check *)
Notation lc := (ov_lookup (mu_ovf c)).
Notation K := (mp_K m).
Hypothesis op : odd p.
Hypothesis okw : forall row, t_selector T (q_lookup lc) row -> word K (at_row T row (lrc_lookup F lc K)) -> ok (q_lookup lc) row.
Hypothesis okr : forall row, ok (q_running lc) row.
Lemma zvals_last (D : nat) (y : F) ds : D%:R != 0 :> F ->
  y = (dval D ds)%:R + (D ^ size ds)%N%:R * last y (zvals D%:R^-1 y ds).
Proof.
move=> hD; elim: ds y => [|d ds IH] y; cbn [size zvals last]; first by rewrite dval_nil add0r mul1r.
set y' := (y - d%:R) / D%:R; have e : y = d%:R + D%:R * y' by rewrite /y' [D%:R * _]mulrC mulfVK // addrC subrK.
rewrite {1}e {1}(IH y') dval_cons expnS !natrD !natrM mulrDr !mulrA addrA; congr (_ + _ + _).
Qed.
Lemma copy_check_comp r (H : Prop) el x nw : (nw * K <= pf_num_bits pf - 1)%N -> (0 < K <= 64)%N ->
  ac_value el = known x -> (H -> val el = x) ->
  rcomp T place inst r ok H (lrc_copy_check pf lc K r el nw false)
    (fun zs => exists z0 zs', zs = z0 :: zs' /\ ac_value (last z0 zs') = known (pf_val pf x %/ 2 ^ (K * nw))%:R)
    (fun zs => if zs is z0 :: zs' then val (last z0 zs') = (pf_val pf x %/ 2 ^ (K * nw))%:R else True).
Proof.
move=> hw hK ve hv; rewrite /lrc_copy_check; set z0 : acell F := ACell (known x) (Cell r 0 (Advice, running_sum lc)).
apply: (rcomp_bind (V1 := eq z0) (Q1 := fun=> val z0 = x)); first by apply: rcomp_rhon; apply: (rhon_copy _ ve).
move=> _ <-.
have hr : (nw * K <= pf_repr_bits pf)%N by apply: leq_trans hw _; apply: leq_trans (leq_subr _ _) (pf_repr pok).
have [ds eds [hn hall hd]] := lrc_wordsE x hK hr.
have hD := pow2_neq0 pok K op.
have hp : (2 ^ (K * nw) <= p)%N.
  have /andP[h _] := pf_bits pok; apply: leq_trans h; by rewrite leq_exp2l // mulnC.
rewrite /lrc_range_check hw [~~ _]/=.
have -> : map_transpose (lrc_words pf K (nw * K)) (ac_value z0) nw = Some [seq known y | y <- [seq d%:R | d <- ds]].
  by rewrite /map_transpose /= eds /= /v_transpose_vec /= size_map hn eqxx.
rewrite (negbTE hD).
have [h1 h2] := lrc_assignE inst lc r ((2 ^ K)%N%:R^-1) z0 0 [seq known y | y <- [seq d%:R | d <- ds]].
rewrite lsums_known in h1 h2; set ys := zvals _ _ _ in h1 h2; have hys : size ys = nw by rewrite size_zvals hn.
set cells := mapi_from 0 _ _ in h2.
have elast : last x ys = (pf_val pf x %/ 2 ^ (K * nw))%:R.
  have := zvals_last x ds hD; rewrite -/ys hd hn -expnM => e.
  have n0 : (2 ^ (K * nw))%N%:R != 0 :> F by exact: pow2_neq0 pok _ op.
  apply: (mulfI n0); move: e; rewrite -{1}(pf_valK pok x) {1}(divn_eq (pf_val pf x) (2 ^ (K * nw))) natrD natrM addrC => /addrI e.
  by rewrite -e mulrC.
have hl : ac_value (last z0 cells) = known (last x ys) /\ ac_cell (last z0 cells) = Cell r nw (Advice, running_sum lc).
  rewrite (last_nth z0) /cells size_mapi_from size_map hys (last_nth 0) hys; case: (nw) hys => // n' hys /=.
  by rewrite (nth_mapi_from _ _ unknown) ?size_map ?hys //= (nth_map 0) ?hys // add0n addn1.
exists (z0 :: cells); first by rewrite returns_bind h2.
split; first by exists z0, cells; split=> //; case: hl => ->; rewrite elast.
rewrite (calls_bind _ h2) h1 cats0 => -[hH hv0] [hh hs].
have hcell j : (j <= nw)%N -> t_cell T Advice (running_sum lc) (place r + (0 + j)%N%:Z) = nth 0 (x :: ys) j.
  case: j => [_|j hj]; first by rewrite addn0 -hv0 /cell_value /row_of.
  by rewrite (honest_steps hh) ?hys.
have hres : respects T place r (flatten (mapi_from 0 (lrc_step lc) [seq known y | y <- ys])).
  elim: ys 0%N hs {h1 h2 hys cells elast hl hh hcell} => [|y ys IH] o; first by constructor.
  cbn [map mapi_from flatten foldr cat lrc_step] => /List.Forall_cons_iff[g1 /List.Forall_cons_iff[g2 /List.Forall_cons_iff[_ g3]]].
  apply: List.Forall_cons; first exact: g1.
  by apply: List.Forall_cons; [exact: g2|apply: List.Forall_cons => //; exact: IH].
split=> //.
  move=> s off; rewrite lrc_enabled size_map hys add0n => /andP[/orP[/eqP <-|/eqP <-] ho]; last exact: okr.
  have ho' : (off < size [seq known y | y <- ys])%N by rewrite size_map hys.
  have [g1 g2] := respects_steps hres ho'; rewrite add0n in g1 g2; apply: okw => //.
  rewrite lookup_input_running // -[off%:Z]/((0 + off)%N%:Z) row_succ !hcell ?(ltnW ho) // zvals_step ?hn //.
  by exists (nth 0%N ds off) => //; apply: (all_nthP 0%N hall); rewrite hn.
by case: hl => _ e; rewrite /cell_value e /row_of -elast -[nw%:Z]/((0 + nw)%N%:Z) hcell // -hys (last_nth 0).
Qed.

Notation sp := (mp_split m).
Lemma overflow_nums (x : F) :
  let k := (pf_val pf x + mp_tq m)%N in let k254 := (k %/ 2 ^ N)%:R : F in let z130 := (k %/ 2 ^ sp)%:R : F in
  let sml := (pf_val pf (x + k254 * 2%:R ^+ sp) %/ 2 ^ sp)%:R : F in
  [/\ k%:R - x - (mp_tq m)%:R = 0, k254 * (z130 - 2%:R ^+ (N - sp)) = 0, k254 * sml = 0 &
      (1 - k254) * (1 - z130 * z130^-1) * sml = 0].
Proof.
case: mf => _ /andP[s0 sN] hp hp2 hp3 _ _ _; have := pf_lt pok x; set a := pf_val pf x => ha k.
have ex : x = a%:R by rewrite (pf_valK pok).
have hsN : (2 ^ sp <= 2 ^ N)%N by rewrite leq_exp2l.
have s1 := expn_gt0 2 sp; have N1 := expn_gt0 2 N.
have hd2 : (2 ^ (N - sp) * 2 ^ sp = 2 ^ N)%N by rewrite -expnD subnK.
have eB : (2 ^ mp_bits m = 2 * 2 ^ N)%N by rewrite -expnS eN /mp_bits addn1.
have e1 : k%:R - x - (mp_tq m)%:R = 0 :> F by rewrite /k natrD ex addrAC addrK subrr.
have [kN|kN] := ltnP k (2 ^ N).
  have e2 : (k %/ 2 ^ N = 0)%N by rewrite divn_small.
  rewrite e2 /=; split; rewrite ?mul0r // subr0 mul1r addr0 -/a.
  have [ks|ks] := ltnP k (2 ^ sp).
    have as_ : (a < 2 ^ sp)%N by apply: leq_ltn_trans ks; rewrite leq_addr.
    by rewrite (divn_small as_) mulr0.
  rewrite mulfV ?subrr ?mul0r // (natr_eq0 pok); apply/negP => /dvdn_leq; rewrite divn_gt0 // ks => /(_ isT).
  rewrite leqNgt (leq_trans _ hp3) // ltn_divLR // -expnD subnK; last by apply: leq_trans sN _; rewrite leq_subr.
  by rewrite eB; apply: leq_trans kN _; rewrite leq_pmull.
have klt : (k < 2 ^ N + 2 ^ sp)%N by apply: leq_trans hp2; rewrite /k ltn_add2r.
have e2 : (k %/ 2 ^ N = 1)%N.
  apply/eqP; rewrite eqn_leq divn_gt0 // kN andbT -ltnS ltn_divLR //; apply: leq_trans klt _; move: hsN; clear; nlia.
have e3 : (k %/ 2 ^ sp = 2 ^ (N - sp))%N.
  rewrite -(subnK kN) addnC -hd2 divnMDl // divn_small ?addn0 // hd2; move: klt kN; clear; nlia.
have h1 : (p <= a + 2 ^ sp)%N by move: kN hp2; rewrite /k; clear; nlia.
have ev : pf_val pf (x + 1 * 2%:R ^+ sp) = (a + 2 ^ sp - p)%N.
  rewrite mul1r -natrX ex -natrD (pf_natr pok) -{1}(subnK h1) modnDr modn_small //; move: ha hp; clear; nlia.
have e4 : ((a + 2 ^ sp - p) %/ 2 ^ sp = 0)%N by rewrite divn_small //; move: ha h1; clear; nlia.
by rewrite e2 e3 [1%:R]mulr1n => u v w; rewrite /w /v /u ev e4 -natrX !subrr !mulr0.
Qed.

Definition ovfpolys : seq (expr F) :=
  let o := mu_ovf c in
  let z_0 := EAdvice F 0 (ov_a0 o) (-1) in let z_130 := EAdvice F 0 (ov_a0 o) 0 in let eta := EAdvice F 0 (ov_a0 o) 1 in
  let k_254 := EAdvice F 0 (ov_a1 o) (-1) in let alpha := EAdvice F 0 (ov_a1 o) 0 in let sml := EAdvice F 0 (ov_a1 o) 1 in
  let sc := EAdvice F 0 (ov_a2 o) 0 in
  [:: esub sc (ESum alpha (EProduct k_254 (EConstant (2%:R ^+ sp)))); esub (esub z_0 alpha) (EConstant (mp_tq m)%:R);
      EProduct k_254 (esub z_130 (EConstant (2%:R ^+ (N - sp)))); EProduct k_254 sml;
      EProduct (EProduct (esub (EConstant 1) k_254) (esub (EConstant 1) (EProduct z_130 eta))) sml].
Hypothesis oko : forall row, holds row ovfpolys -> ok (q_mul_overflow (mu_ovf c)) row.
Hypothesis hbits : (sp <= pf_num_bits pf - 1)%N.

Lemma s_minus_lo_comp (H : Prop) sc y : ac_value sc = known y -> (H -> val sc = y) ->
  lcomp T place inst ok H (s_minus_lo pf m (mu_ovf c) sc)
    (fun a => ac_value a = known (pf_val pf y %/ 2 ^ sp)%:R) (fun a => val a = (pf_val pf y %/ 2 ^ sp)%:R).
Proof.
move=> vs hs; have [hK hd] := mf_K mf; rewrite /s_minus_lo; case: ifP => [/eqP e|_]; first by rewrite e in hK.
rewrite divnK // eqxx [~~ _]/=.
have hn : (sp %/ K * K <= pf_num_bits pf - 1)%N by rewrite divnK.
have := fun r => copy_check_comp r hn hK vs hs; rewrite [(K * _)%N]mulnC divnK // => h.
apply: (lcomp_bind (lcomp_region h)) => zs [z0 [zs' [-> vl]]].
by apply: lcomp_ret => // -[].
Qed.
Lemma overflow_comp (H : Prop) alpha x zs c254 c0 c130 : ac_value alpha = known x -> (H -> val alpha = x) ->
  let k := (pf_val pf x + mp_tq m)%N in
  get zs N = Some c254 -> ac_value c254 = known (k %/ 2 ^ N)%:R -> (H -> val c254 = (k %/ 2 ^ N)%:R) ->
  get zs 0 = Some c0 -> ac_value c0 = known k%:R -> (H -> val c0 = k%:R) ->
  get zs sp = Some c130 -> ac_value c130 = known (k %/ 2 ^ sp)%:R -> (H -> val c130 = (k %/ 2 ^ sp)%:R) ->
  lcomp T place inst ok H (overflow_check pf m (mu_ovf c) alpha zs) (fun=> True) (fun=> True).
Proof.
move=> va ha k g1 v1 w1 g2 v2 w2 g3 v3 w3; rewrite /overflow_check g1 g2 g3.
have [n1 n2 n3 n4] := overflow_nums x; rewrite -/k in n1 n2 n3 n4.
set k254 := (k %/ 2 ^ N)%:R in v1 w1 n2 n3 n4 *; set z130 := (k %/ 2 ^ sp)%:R in v3 w3 n2 n4; set sv := x + k254 * 2%:R ^+ sp in n3 n4.
apply: (@lcomp_bind _ T place inst ok _ _ _ _ _ (fun a => ac_value a = known sv) (fun a => val a = sv)).
  apply: lcomp_region => r; rewrite va v1 !vE [_.1]/= [_.2]/=.
  by apply: rcomp_rhon; apply: rhon_advice.
move=> sc vs; apply: (lcomp_bind (s_minus_lo_comp vs _)) => [[]//|sm vm].
set sml := (pf_val pf sv %/ 2 ^ sp)%:R in vm n3 n4 *.
apply: lcomp_region => r; pose at_ col o := t_cell T Advice col (place r + (o)%N%:Z).
apply: (@rcomp_block _ T place inst r ok _ _ _ [:: (q_mul_overflow (mu_ovf c), 1%N)] _
  (fun=> holds (place r + 1%N%:Z) ovfpolys)); last first.
  by move=> _ _ _ h; split=> // s off; rewrite inE => /eqP[-> ->]; exact: oko.
apply: (@rhon_bind _ T place inst r _ _ _ _ _ [:: _] [::] (fun=> True) (fun=> True)); first exact: rhon_enable.
move=> _ _; apply: (@rhon_bind _ T place inst r _ _ _ _ _ [::] [::] (fun=> True) (fun=> at_ (ov_a0 (mu_ovf c)) 0%N = k%:R)).
  by apply: (rhon_copy _ v2) => //; tauto.
move=> _ _; apply: (@rhon_bind _ T place inst r _ _ _ _ _ [::] [::] (fun=> True) (fun=> at_ (ov_a0 (mu_ovf c)) 1%N = z130)).
  by apply: (rhon_copy _ v3) => //; tauto.
move=> _ _; apply: (@rhon_bind _ T place inst r _ _ _ _ _ [::] [::] (fun=> True) (fun=> at_ (ov_a0 (mu_ovf c)) 2%N = z130^-1)).
  rewrite v3 !vE; exists (ACell (known (a_evaluate (a_invert (ATrivial z130)))) (Cell r 2 (Advice, ov_a0 (mu_ovf c)))) => //.
  split=> // _ [/honest_cons[hv _] _]; split; first exact: respects_one.
  by rewrite /at_ (hv (a_invert (ATrivial z130)) erefl) inv0E.
move=> _ _; apply: (@rhon_bind _ T place inst r _ _ _ _ _ [::] [::] (fun=> True) (fun=> at_ (ov_a1 (mu_ovf c)) 0%N = k254)).
  by apply: (rhon_copy _ v1) => //; tauto.
move=> _ _; apply: (@rhon_bind _ T place inst r _ _ _ _ _ [::] [::] (fun=> True) (fun=> at_ (ov_a1 (mu_ovf c)) 1%N = x)).
  by apply: (rhon_copy _ va) => //; tauto.
move=> _ _; apply: (@rhon_bind _ T place inst r _ _ _ _ _ [::] [::] (fun=> True) (fun=> at_ (ov_a1 (mu_ovf c)) 2%N = sml)).
  by apply: (rhon_copy _ vm) => //; tauto.
move=> _ _; apply: (@rhon_bind _ T place inst r _ _ _ _ _ [::] [::] (fun=> True) (fun=> at_ (ov_a2 (mu_ovf c)) 1%N = sv)).
  by apply: (rhon_copy _ vs) => //; tauto.
move=> _ _; apply: rhon_ret => // -[[[[[[[_ c1] c2] c3] c4] c5] c6] c7]; rewrite /at_ in c1 c2 c3 c4 c5 c6 c7.
rewrite /ovfpolys /= !rowE !addr0 up down c1 c2 c3 c4 c5 c6 c7 n1 n2 n3 n4 /sv subrr eqxx.
by [].
Qed.

Lemma zs_get (zs : seq (acell F)) x i : (i <= mp_bits m)%N ->
  let k := (pf_val pf x + mp_tq m)%N in let l := (0%N :: zsum 0 (rev (scalar_bits pf m x))) in
  [seq ac_value a | a <- rev zs] = [seq known j%:R | j <- l] ->
  exists2 a, get zs i = Some a & ac_value a = known (k %/ 2 ^ i)%:R /\
    ([seq val a | a <- rev zs] = [seq j%:R | j <- l] -> val a = (k %/ 2 ^ i)%:R).
Proof.
move=> hi k l e; have sl : size l = (mp_bits m).+1 by rewrite /= size_zsum size_bs.
have sz : size zs = (mp_bits m).+1 by move/(congr1 size): e; rewrite !size_map size_rev sl.
pose d : acell F := ACell unknown (Cell 0 0 (Advice, 0%N)).
have nl : nth 0%N l (mp_bits m - i) = (k %/ 2 ^ i)%N.
  have ez : size (zsum 0 (rev (scalar_bits pf m x))) = mp_bits m by rewrite size_zsum size_bs.
  by rewrite /l path_nth ?zsum_path ?ez ?leq_subr // last_bs subKn.
have nz : nth d zs i = nth d (rev zs) (mp_bits m - i).
  by rewrite nth_rev sz ?ltnS ?leq_subr // subSS subKn.
exists (nth d zs i); first by apply: get_nth; rewrite sz ltnS.
rewrite nz -nl; split.
  have := congr1 (fun s => nth unknown s (mp_bits m - i)) e.
  by rewrite (nth_map d) ?size_rev ?sz ?ltnS ?leq_subr // (nth_map 0%N) ?sl ?ltnS ?leq_subr.
move=> e2; have := congr1 (fun s => nth 0 s (mp_bits m - i)) e2.
by rewrite (nth_map d) ?size_rev ?sz ?ltnS ?leq_subr // (nth_map 0%N) ?sl ?ltnS ?leq_subr.
Qed.

Lemma ecc_mul_comp alpha base x : ac_value alpha = known x -> val alpha = x ->
  point_is base (Some B) -> point_in T place base (Some B) ->
  lcomp T place inst ok True (ecc_mul pf m c alpha base)
    (fun t => point_is t.1 (pmul (pf_val pf x) (Some B)) /\ t.2 = alpha)
    (fun t => point_in T place t.1 (pmul (pf_val pf x) (Some B))).
Proof.
move=> va ha hb hbi.
have ek : pmul (2 ^ N + (pf_val pf x + mp_tq m)) (Some B) = pmul (pf_val pf x) (Some B).
  by rewrite addnCA (pmulD hc) // hq padd0.
apply: (lcomp_bind (lcomp_region (fun r => mul_region_comp r va hb hbi))) => t [h1 h2].
have le1 : (sp <= mp_bits m)%N by have /andP[_ h] := mf_split mf; apply: leq_trans h (leq_subr _ _).
have [c1 g1 [v1 w1]] := zs_get (leq_subr 1 (mp_bits m)) h2.
have [c0 g0 [v0 w0]] := zs_get (leq0n _) h2; rewrite expn0 divn1 in v0 w0.
have [c2 g2 [v2 w2]] := zs_get le1 h2.
apply: (@lcomp_bind _ T place inst ok _ _ _ _ _ (fun=> True) (fun=> True)).
  by apply: (overflow_comp va _ g1 v1 _ g0 v0 _ g2 v2) => // -[_ []].
by move=> _ _; apply: lcomp_ret => [|[[_ [h _]] _]]; rewrite -ek.
Qed.
End Complete.

Section Rows.
Variables (F : fieldType) (m : mul_params) (c : mul_config) (T : table F) (place : nat -> int).
Hypothesis un : uniq (mul_sels c).
Let sels := mul_sels c.
Let polys : seq (seq (expr F)) := [:: add_polys F (mu_add c); polys1 F (mu_hi c); polys2 F (mu_hi c); polys3 F (mu_hi c);
  polys1 F (mu_lo c); polys2 F (mu_lo c); polys3 F (mu_lo c); compolys F (mu_comp c); ovfpolys F m c; lsbpolys F c].
Definition block i : seq (expr F) := [seq EProduct (ESelector F (nth 0%N sels i) true) g | g <- nth [::] polys i].
Notation holds row ps := (all (fun g => at_row T row g == 0) ps).
Notation K := (mp_K m).
Notation lc := (ov_lookup (mu_ovf c)).
Lemma gates_blocks : mul_gates F m c = flatten (mkseq block 10).
Proof. by []. Qed.
Lemma holds_blocks row : holds row (mul_gates F m c) <-> forall i, (i < 10)%N -> holds row (block i).
Proof.
have h n : holds row (flatten (mkseq block n)) <-> forall i, (i < n)%N -> holds row (block i).
  elim: n => [|n IH]; first by split.
  rewrite /mkseq -[n.+1]addn1 iotaD map_cat flatten_cat all_cat /= cats0; split.
    by move=> /andP[/IH h1 h2] i; rewrite addn1 ltnS leq_eqVlt => /orP[/eqP ->|/h1].
  by move=> h; apply/andP; split; [apply/IH => i hi; apply: h; rewrite addn1; exact: ltnW|apply: h; rewrite addn1].
by rewrite gates_blocks; exact: h.
Qed.
(* what a selector of the chip asks of a row *)
Definition okm (s : nat) (row : int) : Prop :=
  (forall i, (i < 10)%N -> s = nth 0%N sels i -> holds row (block i)) /\
  (s = q_lookup lc -> word K (at_row T row (lrc_lookup F lc K))).
Lemma okm_block i row : (i < 10)%N -> holds row (block i) -> okm (nth 0%N sels i) row.
Proof.
move=> hi h; split=> [j hj /eqP|]; first by rewrite nth_uniq ?(ltn_trans hi) ?(ltn_trans hj) // => /eqP <-.
by move=> /eqP e; move: e; rewrite -[q_lookup lc]/(nth 0%N sels 10) nth_uniq ?(ltn_trans hi) // => /eqP e; rewrite e in hi.
Qed.
Lemma okm_poly i row : (i < 10)%N -> holds row (nth [::] polys i) -> okm (nth 0%N sels i) row.
Proof.
move=> hi h; apply: okm_block => //; rewrite /block all_map; apply: sub_all h => g /= /eqP e.
by rewrite at_mul e mulr0.
Qed.
Lemma okm_word row : word K (at_row T row (lrc_lookup F lc K)) -> okm (q_lookup lc) row.
Proof.
move=> h; split=> // i hi /eqP; rewrite -[q_lookup lc]/(nth 0%N sels 10) nth_uniq ?(ltn_trans hi) // => /eqP e.
by rewrite -e in hi.
Qed.
Lemma okm_running row : okm (q_running lc) row.
Proof.
split=> [i hi|] /eqP; rewrite -[q_running lc]/(nth 0%N sels 11) -?[q_lookup lc]/(nth 0%N sels 10) nth_uniq ?(ltn_trans hi) // => /eqP e.
by rewrite -e in hi.
Qed.
Lemma rows_pass regions : lon_ok place okm regions -> mul_on_here m c T place regions ->
  forall row, mul_row_passes m c T row.
Proof.
move=> hk ho row.
have key q : q \in mul_sels c -> mul_row_passes m c T row \/ (t_selector T q row -> okm q row).
  move=> hq; case e: (t_selector T q row); last by right.
  have [h1|] := ho q row hq e; last by left.
  right=> _; move: h1 hk; rewrite /turned_on /lon_ok; elim: (regions) => [|e' l IH] /=; first by move=> /List.Exists_nil.
  by move=> /List.Exists_cons[[off ee ->]|h1] /List.Forall_cons_iff[h2 h3]; [exact: h2|exact: IH].
split.
  apply/holds_blocks => i hi; have [|[/holds_blocks h _]|h] := key (nth 0%N sels i); [|exact: h|].
    by rewrite mem_nth // (ltn_trans hi).
  case e: (t_selector T (nth 0%N sels i) row); last exact: gated_off.
  by have [h' _] := h e; apply: h'.
have [|[]//|h] := key (q_lookup lc); first by rewrite !inE eqxx ?orbT.
case e: (t_selector T (q_lookup lc) row); first by have [_ h'] := h e; apply: h'.
by rewrite lookup_off //; exists 0%N; rewrite ?expn_gt0.
Qed.
End Rows.

(* C56: with valid lengths, an honest prover who multiplies a point B of the curve, whose order divides q, by any
   field element alpha gets the point [alpha] B, keeps every copy constraint, and in every row each gate of the chip
   holds and each looked-up value is a K-bit word. *)
Theorem C56_mul_complete (F : fieldType) (b : F) (pf : prime_field F) (p : nat) (m : mul_params) (c : mul_config)
    (inst : nat -> nat -> value F) (T : table F) (place : nat -> int) (alpha : acell F) (base : ecpoint F) (x : F) (B : F * F) r :
  good_curve b -> prime_field_ok pf p -> odd p -> mul_params_fit p m -> (mp_split m <= pf_num_bits pf - 1)%N ->
  co_add (mu_comp c) = mu_add c -> uniq (mul_sels c) ->
  on_curve b (Some B) -> pmul (2 ^ (mp_bits m - 1) + mp_tq m) (Some B) = None ->
  holds_value T place alpha x ->
  point_is base (Some B) -> point_in T place base (Some B) ->
  let prog := ecc_mul pf m c alpha base in
  exists res r', [/\ lreturns inst r prog = Ok (res, r'), point_is res.1 (pmul (pf_val pf x) (Some B)), res.2 = alpha &
    lhonest T place inst r prog -> lselectors_on T place inst r prog ->
    mul_on_here m c T place (lregions inst r prog) ->
    [/\ lrespects T place inst r prog, forall row, mul_row_passes m c T row &
        point_in T place res.1 (pmul (pf_val pf x) (Some B))]].
Proof.
move=> hc pok op mf hbits sa un hB hq [va ha] hb hbi prog.
have hp i row := @okm_poly F m c T un i row.
have [res [r' [e [[v1 v2] h]]]] := @ecc_mul_comp F b pf p m c hc pok mf sa inst T place B hB hq (okm m c T)
  (fun row => @okm_block F m c T un 0 row isT) (fun row => hp 1%N row isT) (fun row => hp 2%N row isT) (fun row => hp 3%N row isT)
  (fun row => hp 4%N row isT) (fun row => hp 5%N row isT) (fun row => hp 6%N row isT) (fun row => hp 7%N row isT)
  (fun row => hp 9%N row isT) op (fun row _ => @okm_word F m c T un row) (okm_running m T un) (fun row => hp 8%N row isT) hbits
  alpha base x va ha hb hbi r.
exists res, r'; split=> // g1 g2 g3; have [q1 q2 q3] := h Logic.I (conj g1 g2); split=> //.
exact: rows_pass q2 g3.
Qed.
Print Assumptions C56_mul_complete.

(* ---- the hypotheses are met *)
Lemma pow_le i j : (i <= j)%N -> (2 ^ i <= 2 ^ j)%N. Proof. by move=> h; rewrite leq_exp2l. Qed.
Lemma sum_le a i j k : (i + j <= k)%N -> (a + i + j <= a + k)%N. Proof. by rewrite -addnA leq_add2l. Qed.
(* the lengths of the code (mul.rs:36-46) with any base field and group order just above 2^254 *)
Example pallas_fit tp tq : (tp < 2 ^ 126)%N -> (tq < 2 ^ 126)%N -> prime (2 ^ 254 + tq) ->
  mul_params_fit (2 ^ 254 + tp) (MulParams 125 126 3 tq 130 10).
Proof.
have e1 : (mp_bits (MulParams 125 126 3 tq 130 10) - 1 = 254)%N by [].
have e2 : mp_split (MulParams 125 126 3 tq 130 10) = 130%N by [].
have e3 : (mp_bits (MulParams 125 126 3 tq 130 10) - 130 = 125)%N by [].
have e4 : mp_tq (MulParams 125 126 3 tq 130 10) = tq by [].
have l1 := @pow_le 130 254 isT; have l2 := @pow_le 125 254 isT.
have l3 := @pow_le 127 130 isT; rewrite expnS mul2n -addnn in l3.
move=> h1 h2 h3; have l4 := leq_trans (leq_add (ltnW h1) (ltnW h2)) l3.
split; rewrite ?e1 ?e2 ?e3 ?e4; [exact: h3|exact: isT|exact: leq_trans l1 (leq_addr _ _)| |exact: leq_trans l2 (leq_addr _ _)|exact: isT|exact: isT|exact: (conj isT isT)].
exact: sum_le l4.
Qed.
Definition mp97c : mul_params := MulParams 1 2 3 15 6 2.
Example mp97c_fit : mul_params_fit 97 mp97c /\ uniq (mul_sels mulc97) /\ co_add (mu_comp mulc97) = mu_add mulc97 /\
  on_curve b97 (Some (1, 43%:R)) /\ pmul (2 ^ (mp_bits mp97c - 1) + mp_tq mp97c) (Some (1, 43%:R : F97)) = None.
Proof. by split; [split|split; [|split; [|split]]]; vm_compute. Qed.
(* the honest prover's table for alpha = x *)
Definition regions_c (x : nat) : seq (nat * seq (rop F97)) :=
  [:: (0%N, [:: OAdvice 0 0 (known (ATrivial 1)); OAdvice 1 0 (known (ATrivial 43%:R))]);
      (1%N, [:: OAdvice 0 0 (known (ATrivial x%:R))])]
  ++ lregions inst97 2 (ecc_mul pf97 mp97c mulc97 (alpha_h x) base_h).
Definition table_c (x : nat) : table F97 :=
  let w := rev (flatten [seq pmap (fun o => if writes o is Some (Advice, c, off, y) then Some (c, place97 rc.1 + off%:Z, y) else None) rc.2
                        | rc <- regions_c x]) in
  let ons := flatten [seq pmap (fun o : rop F97 => if o is OEnable s off then Some (s, place97 rc.1 + off%:Z) else None) rc.2
                     | rc <- regions_c x] in
  Table (fun k col row => match k, row with
           | Fixed, Posz i => if (i < 4)%N then i%:R else 0
           | Advice, _ => if [seq t.2 | t <- w & (t.1.1 == col) && (t.1.2 == row)] is y :: _ then y else 0
           | _, _ => 0 end)
        (fun s row => (s, row) \in ons).
(* it is honest, and what the theorem says about it is true *)
Definition complete_ok (x : nat) : bool :=
  let T := table_c x in
  [&& honestb place97 T (regions_c x), all (fun rc => all (respects_opb T place97 rc.1) rc.2) (regions_c x),
      all (fun row => all (fun g => at_row T (Posz row) g == 0) (mul_gates F97 mp97c mulc97)) (iota 0 40),
      all (fun row => (at_row T (Posz row) (lrc_lookup F97 lrc97 2)) \in [:: 0; 1; 2%:R; 3%:R]) (iota 0 40) &
      if lreturns inst97 2 (ecc_mul pf97 mp97c mulc97 (alpha_h x) base_h) is Ok (res, _) then
        (cell_value T place97 (ec_cell (ep_x res.1)), cell_value T place97 (ec_cell (ep_y res.1)))
          == encode (pmul x (Some (1, 43%:R : F97)))
      else false].
(* without and with k_254 *)
Check (ltac:(vm_compute; reflexivity) : all complete_ok [:: 5; 96]%N = true).
