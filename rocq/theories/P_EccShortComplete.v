(* C60: for an honest prover, fixed-base multiplication by a short signed scalar returns [sign * magnitude] B and meets every
   constraint; so does multiplication of a point by a sign. *)
Set Warnings "-notation-overridden,-ambiguous-paths".
From mathcomp Require Import all_ssreflect all_algebra.
From Verif Require Import FieldTac Util M_Env M_Assigned P_Assigned M_Circuit S_Circuit M_Selectors M_Value M_Region S_Region
  M_Layout S_Layout M_Utilities L_Region L_Gadget M_Ecc S_Curve L_Curve L_Group L_Multiples P_Ecc P_CondSwap
  P_Bits P_RangeCheck M_EccMul P_EccMul L_EccMul S_Digits M_Poly P_Poly P_EccMulSound S_Sinsemilla L_Sinsemilla P_SinsemillaComplete
  L_EccMulComplete M_EccFixed P_EccFixed P_EccFixedComplete M_EccShort P_EccShort.
Import GRing.Theory.
Set Implicit Arguments.
Unset Strict Implicit.
Local Open Scope ring_scope.
Local Arguments at_row : simpl never.
Local Arguments esub : simpl never.
Local Arguments padd : simpl never.
Local Arguments pmul : simpl never.
Local Arguments rbindp : simpl never.
Local Arguments assign_advice : simpl never.

Section Spec.
Variables (F : fieldType) (b : F) (wb : nat) (c : short_config).
Definition short_sels : seq nat :=
  [:: sh_range c; q_mul_fixed_short c; q_add_incomplete (fx_inc (sh_super c)); q_add (fx_add (sh_super c))].
Definition short_all_gates : seq (expr F) :=
  short_gates b wb c ++ inc_gates F (fx_inc (sh_super c)) ++ add_gates F (fx_add (sh_super c)).
(* the field element of a sign, and the point with that sign *)
Definition sign_of (neg : bool) : F := if neg then -1 else 1.
Definition psigned (neg : bool) (P : point F) : point F := if neg then popp P else P.
End Spec.

Lemma short_digits (F : fieldType) (pf : prime_field F) (wb nw lbits : nat) (x : F) : (0 < wb <= 8)%N -> (0 < nw)%N ->
  lbits = (wb * (nw - 1) + 1)%N -> (lbits <= pf_repr_bits pf)%N -> (pf_val pf x < 2 ^ lbits)%N ->
  exists2 ds, decompose_word pf x lbits wb = Some ds &
  [/\ size ds = nw, (forall i, (i < nw)%N -> (nth 0%N ds i < 2 ^ wb)%N), dval (2 ^ wb) ds = pf_val pf x & (nth 0%N ds (nw - 1) < 2)%N].
Proof.
move=> hw n0 hl hr hx; have [ds e [h1 h2 h3]] := C48_decompose_word x hw hr; exists ds => //.
have [w0 _] := andP hw; rewrite modn_small // in h3.
have sk : size ds = nw.
  have [h4 h5] : (wb * (nw - 1) < wb * size ds)%N /\ (wb * size ds < wb * nw.+1)%N.
    have -> : (wb * nw.+1 = wb * (nw - 1) + wb + wb)%N by rewrite -{1}(subnK n0) -addnS mulnDr muln2 -addnn addnA.
    rewrite h1; have := ltn_pmod (wb - lbits %% wb) w0; move: (_ %% wb)%N => pad; rewrite hl; move: (wb * _)%N => A.
    by clear; move=> h; split; nlia.
  by move: h4 h5; rewrite !ltn_pmul2l // => h4 h5; clear -h4 h5 n0; nlia.
have hk i : (i < nw)%N -> (nth 0%N ds i < 2 ^ wb)%N by move=> hi; apply: (all_nthP 0%N h2); rewrite sk.
split=> //.
have nS : (nw - 1).+1 = nw by rewrite subn1 prednK.
have ek : dval (2 ^ wb) ds = (dval (2 ^ wb) (take (nw - 1) ds) + nth 0%N ds (nw - 1) * (2 ^ wb) ^ (nw - 1))%N.
  have e' : take (nw - 1).+1 ds = ds by rewrite take_oversize // sk nS.
  by rewrite -[in LHS]e' (take_nth 0%N) ?sk ?nS // dval_rcons size_takel // sk leq_subr.
have P0 : (0 < (2 ^ wb) ^ (nw - 1))%N by rewrite !expn_gt0.
rewrite -(ltn_pmul2r P0); apply: leq_ltn_trans (_ : _ <= dval (2 ^ wb) ds)%N _; first by rewrite ek leq_addl.
by rewrite h3 -expnM -expnS -[(wb * _).+1]addn1 -hl.
Qed.

Section Complete.
Variables (F : fieldType) (b : F) (pf : prime_field F) (p : nat) (Fs : fieldType) (pfs : prime_field Fs) (q wb nw lbits : nat).
Hypothesis hc : good_curve b.
Hypothesis pok : prime_field_ok pf p.
Hypothesis op : odd p.
Hypothesis qok : prime_field_ok pfs q.
Variables (B : F * F) (base : fixed_point F).
Hypothesis fb : fixed_base_ok b pfs q wb nw B base.
Hypothesis us : fixed_base_us pfs wb nw B base.
Hypothesis wf : windows_fit q wb nw.
Hypothesis hp : (2 ^ wb <= p)%N.
Hypothesis nb : (wb <= pf_repr_bits pfs)%N.
Hypothesis hl : lbits = (wb * (nw - 1) + 1)%N.
Variables (inst : nat -> nat -> value F) (T : table F) (place : nat -> int) (c : short_config).
Notation fx := (sh_super c).
Hypothesis hsize : size (fx_lagrange fx) = (2 ^ wb)%N.
Notation word := (rs_word F wb fx).
Variable ok : nat -> int -> Prop.
Notation holds row ps := (all (fun g => at_row T row g == 0) ps).
Hypothesis okf : forall row, holds row (fullpolys b wb fx word) -> ok (sh_range c) row.
Hypothesis oks : forall row, holds row (short_polys F c) -> ok (q_mul_fixed_short c) row.
Hypothesis oki : forall row, holds row (inc_gates F (fx_inc fx)) -> ok (q_add_incomplete (fx_inc fx)) row.
Hypothesis oka : forall row, holds row (add_gates F (fx_add fx)) -> ok (q_add (fx_add fx)) row.
Notation H := (2 ^ wb)%N.

(* the sign gate *)
Lemma one_neq_m1 : (1 == -1 :> F) = false.
Proof. by apply/negbTE; rewrite -addr_eq0 -mulr2n; exact: (pow2_neq0 pok 1 op). Qed.
Lemma sign_row row (t : nat) neg y : (t < 2)%N -> t_cell T Advice (fx_u fx) row = t%:R ->
  t_cell T Advice (fx_window fx) row = sign_of F neg -> t_cell T Advice (ad_yqr (fx_add fx)) row = y ->
  t_cell T Advice (ad_yp (fx_add fx)) row = sign_of F neg * y -> holds row (short_polys F c).
Proof.
move=> ht hu hs hy hy'; rewrite /short_polys /=; apply/and5P; split=> //.
- by apply/eqP/(C43_range_check _ _ _ (isT : 0 < 2)%N); exists t => //; rewrite at_adv addr0.
- by rewrite /esquare !rowE !addr0 hs /sign_of; case: neg {hs hy'}; rewrite ?mulrNN mulr1 subrr.
- by rewrite !rowE !addr0 hy hy' /sign_of; case: neg {hs hy'}; rewrite ?mulN1r ?mul1r ?addNr ?subrr ?mulr0 ?mul0r.
- by rewrite !rowE !addr0 hy hy' hs /sign_of; case: neg {hs hy'}; rewrite ?mulN1r ?mul1r ?opprK subrr.
Qed.
Lemma signedE neg v y : denote v = y -> exists2 w, signed_y (known (sign_of F neg)) (known v) = known w & denote w = sign_of F neg * y.
Proof.
move=> e; rewrite /signed_y /v_and_then /= /sign_of; case: neg; rewrite ?eqxx ?one_neq_m1.
  by exists (a_neg v) => //; rewrite C09_neg e mulN1r.
by exists v => //; rewrite mul1r.
Qed.
Lemma encode_signed neg (P : point F) : encode (psigned neg P) = ((encode P).1, sign_of F neg * (encode P).2).
Proof. by case: neg; case: P => [[x y]|]; rewrite /= ?mulN1r ?mul1r ?oppr0. Qed.

Section Digits.
Variables (x : F) (ds : seq nat).
Hypotheses (sk : size ds = nw) (hk : forall i, (i < nw)%N -> (nth 0%N ds i < H)%N).
Hypothesis eds : decompose_word pf x lbits wb = Some ds.
Hypothesis ex : x = (dval H ds)%:R.
Hypothesis hlast : (nth 0%N ds (nw - 1) < 2)%N.
Section Region.
Variable r : nat.
Notation at_ col w := (t_cell T Advice col (place r + (w)%N%:Z)).
Definition zcell (i : nat) : acell F := ACell (known (dval H (drop i ds))%:R) (Cell r i (Advice, fx_window fx)).
Lemma sums_hon (P : Prop) es i cur : ac_value cur = known (dval H es)%:R ->
  rhon T place inst r P (assign_sums r (fx_window fx) 0 (H%:R^-1) cur i [seq known d | d <- es]) [::]
    (eq [seq ACell (known (dval H (drop j.+1 es))%:R) (Cell r (i + j + 1) (Advice, fx_window fx)) | j <- iota 0 (size es)])
    (fun=> forall j, (j < size es)%N -> at_ (fx_window fx) (i + j + 1) = (dval H (drop j.+1 es))%:R).
Proof.
have hB : H%:R != 0 :> F := pow2_neq0 pok wb op.
elim: es P i cur => [|d es IH] P i cur ev; first exact: rhon_ret.
cbn [assign_sums map]; rewrite ev; pose z : F := ((dval H (d :: es))%:R - d%:R) * H%:R^-1.
have ez : z = (dval H es)%:R by rewrite /z dval_cons natrD natrM addrC addKr mulrC mulKf.
set cell := ACell (known z) (Cell r (0 + i + 1) (Advice, fx_window fx)).
apply: (@rhon_bind _ T place inst r _ _ _ _ _ [::] [::] (eq cell) (fun=> at_ (fx_window fx) (0 + i + 1) = z)).
  exact: rhon_advice.
have hv : ac_value cell = known (dval H es)%:R by rewrite /cell ez.
move=> _ <-; apply: (@rhon_bind _ T place inst r _ _ _ _ _ [::] [::] _ _ _ _ (IH _ i.+1 cell hv)) => _ <-.
apply: rhon_ret.
  rewrite /cell ez [size _]/= -[iota 0 _]/(0%N :: iota 1 (size es)) map_cons /= drop0 addn0; congr cons; rewrite (iotaDl 1 0) -map_comp; apply: eq_map => j /=.
  by congr (ACell _ (Cell _ _ _)); nlia.
move=> [[_ h1] h2] [_|j hj]; first by rewrite -[drop 1 _]/(drop 0 es) drop0 addn0 -ez -h1.
by have := h2 j hj; rewrite addSnnS.
Qed.
Lemma decompose_hon (P : Prop) mag : ac_value mag = known x -> (P -> cell_value T place (ac_cell mag) = x) ->
  rhon T place inst r P (rs_copy_decompose pf (sh_range c) (fx_window fx) wb r 0 mag true lbits nw) [seq (sh_range c, i) | i <- iota 0 nw]
    (eq [seq zcell i | i <- iota 0 nw.+1]) (fun=> forall i, (i <= nw)%N -> at_ (fx_window fx) i = (dval H (drop i ds))%:R).
Proof.
move=> hv hm; have hB : H%:R != 0 :> F := pow2_neq0 pok wb op.
have [w1 n1 _] := wf.
have e0 : zcell 0 = ACell (known x) (Cell r 0 (Advice, fx_window fx)) by rewrite /zcell drop0 -ex.
rewrite /rs_copy_decompose.
apply: (@rhon_bind _ T place inst r _ _ _ _ _ [::] _ (eq (zcell 0)) (fun=> at_ (fx_window fx) 0 = x)).
  by rewrite e0; apply: (rhon_copy _ hv).
move=> _ <-; rewrite /rs_decompose.
have -> : (wb * nw < lbits + wb)%N.
  by rewrite hl; have -> : (wb * nw = wb * (nw - 1) + wb)%N by [rewrite -{1}(subnK (ltnW n1)) mulnDr muln1]; nlia.
rewrite [~~ _]/= -[[seq (sh_range c, i) | i <- iota 0 nw]]cats0.
apply: (@rhon_bind _ T place inst r _ _ _ _ _ [seq (sh_range c, i) | i <- iota 0 nw] [::] (fun=> True) (fun=> True)).
  have -> : [seq (sh_range c, i) | i <- iota 0 nw] = [seq (sh_range c, (0 + i)%N) | i <- iota 0 nw] by [].
  exact: rhon_enable_rows.
move=> _ _; have -> : map_transpose (fun w => decompose_word pf w lbits wb) (ac_value (zcell 0)) nw = Some [seq known d | d <- ds].
  by rewrite e0 /map_transpose /= eds /= /v_transpose_vec /= sk eqxx.
rewrite (negbTE hB).
have h0 : ac_value (zcell 0) = known (dval H ds)%:R by rewrite /zcell drop0.
apply: (@rhon_bind _ T place inst r _ _ _ _ _ [::] [::] _ _ _ _ (sums_hon _ 0 h0)) => _ <-.
set rest := map _ _.
have er : zcell 0 :: rest = [seq zcell i | i <- iota 0 nw.+1].
  rewrite /rest sk /= (iotaDl 1 0) -map_comp; congr cons; apply: eq_map => j /=.
  by rewrite /zcell add0n addn1 add1n.
have sr : size rest = nw by rewrite /rest size_map size_iota sk.
rewrite [size (_ :: _)]/= sr eqxx [~~ _]/=.
have el : last (zcell 0) rest = zcell nw.
  have <- : last (zcell 0) (zcell 0 :: rest) = last (zcell 0) rest by [].
  by rewrite er -nth_last size_map size_iota [_.-1]/= (nth_map 0%N) ?size_iota // nth_iota.
have key : (((P /\ at_ (fx_window fx) 0 = x) /\ True) /\ (forall j, (j < size ds)%N -> at_ (fx_window fx) (0 + j + 1) = (dval H (drop j.+1 ds))%:R)) ->
    forall i, (i <= nw)%N -> at_ (fx_window fx) i = (dval H (drop i ds))%:R.
  move=> [[[_ h1] _] h2] [_|i hi]; first by rewrite h1 drop0.
  by have := h2 i; rewrite sk add0n addn1; exact.
apply: (@rhon_bind _ T place inst r _ _ _ _ _ [::] [::] (fun=> True) (fun=> True)).
  apply: rhon_constant => // /key h; rewrite el /cell_value /row_of /= h // drop_oversize ?sk // dval_nil //.
by move=> _ _; apply: rhon_ret => [//|[/key]].
Qed.

Lemma zstep i : (i < nw)%N -> (dval H (drop i ds))%:R - (dval H (drop i.+1 ds))%:R * H%:R = (nth 0%N ds i)%:R :> F.
Proof. by move=> hi; rewrite (drop_nth 0%N) ?sk // dval_cons natrD natrM mulrC addrK. Qed.
Lemma windows_known : rs_windows pf Fs q wb [seq zcell i | i <- iota 0 nw.+1] = Some [seq known k%:R | k <- ds].
Proof.
rewrite /rs_windows size_map size_iota subn1 /=.
set g := fun idx => _.
have -> : [seq g i | i <- iota 0 nw] = [seq Some z | z <- [seq known k%:R | k <- ds]].
  apply: (@eq_from_nth _ None) => [|i]; rewrite !size_map ?size_iota ?sk // => hi.
  rewrite (nth_map 0%N) ?size_iota // nth_iota // add0n (nth_map unknown) ?size_map ?sk // (nth_map 0%N) ?sk // /g.
  have eg j : (j < nw.+1)%N -> get (zcell 0 :: [seq zcell k | k <- iota 1 nw]) j = Some (zcell j).
    move=> hj; have -> : zcell 0 :: [seq zcell k | k <- iota 1 nw] = [seq zcell k | k <- iota 0 nw.+1] by [].
    by rewrite /get -map_drop drop_iota subSn //=.
  rewrite !eg ?ltnS ?(ltnW hi) //= zstep //.
  have hd := hk hi; rewrite (pf_natr pok) modn_small ?(leq_trans hd) //; exact: (Hq wf).
by elim: [seq known k%:R | k <- ds] => //= z l ->.
Qed.
Lemma zvaluesE : [seq ac_value a | a <- [seq zcell i | i <- iota 0 nw.+1]] = [seq known (dval H (drop i ds))%:R | i <- iota 0 nw.+1].
Proof. by rewrite -map_comp. Qed.
Lemma get_last : get [seq zcell i | i <- iota 0 nw.+1] (nw - 1) = Some (zcell (nw - 1)).
Proof.
have [_ n1 _] := wf.
by rewrite /get -map_drop drop_iota subSn ?leq_subr //=.
Qed.
Lemma zlast : dval H (drop (nw - 1) ds) = nth 0%N ds (nw - 1).
Proof.
have [_ n1 _] := wf; have nS : (nw - 1).+1 = nw by rewrite subn1 prednK // ltnW.
have hn : (nw - 1 < size ds)%N by rewrite sk -[X in (_ < X)%N]nS.
by rewrite (drop_nth 0%N hn) nS dval_cons drop_oversize ?sk // dval_nil muln0 addn0.
Qed.
End Region.

Lemma rcomp_add_cells r (P : Prop) p0 q0 o P0 Q0 : on_curve b P0 -> on_curve b Q0 ->
  point_is p0 P0 -> point_is q0 Q0 -> (P -> point_in T place p0 P0) -> (P -> point_in T place q0 Q0) ->
  rcomp T place inst r ok P (add_region (fx_add fx) r p0 q0 o)
    (fun u => point_is u (padd P0 Q0) /\ ec_cell (ep_y u) = Cell r (o + 1) (Advice, ad_yqr (fx_add fx)))
    (fun u => point_in T place u (padd P0 Q0)).
Proof.
move=> h1 h2 h3 h4 h5 h6; have [u e [v h]] := rcomp_add inst r o hc h1 h2 oka h3 h4 h5 h6; exists u => //; split=> //; split=> //.
by case: e => <-.
Qed.

Lemma mul_short_comp (P : Prop) mag sign neg : ac_value mag = known x -> ac_value sign = known (sign_of F neg) ->
  (P -> cell_value T place (ac_cell mag) = x) -> (P -> cell_value T place (ac_cell sign) = sign_of F neg) ->
  lcomp T place inst ok P (mul_fixed_short pf pfs q wb nw lbits c mag sign base)
    (fun t => point_is t.1 (psigned neg (pmul (dval H ds) (Some B))) /\
       [seq ac_value a | a <- t.2] = [seq known (dval H (drop i ds))%:R | i <- iota 0 nw.+1])
    (fun t => point_in T place t.1 (psigned neg (pmul (dval H ds) (Some B)))).
Proof.
move=> vm vs hm hs; have [_ n1 _] := wf; have nl : (nw - 1 < nw)%N by rewrite subn1 prednK // ltnW.
have em : padd (Some (pt pfs wb nw B ds (nw - 1))) (pmul (dval H (plus2 (take (nw - 1) ds))) (Some B)) = pmul (dval H ds) (Some B).
  by rewrite -(msb_point hc qok fb wf hp sk) (ptE pok fb hp hk).
have hon : on_curve b (pmul (dval H (plus2 (take (nw - 1) ds))) (Some B)) by apply: (pmul_on hc); exact: (fb_curve fb).
apply: (@lcomp_bind _ T place inst ok _ _ _ _ _
  (fun t => [/\ exists r1, t.1 = [seq zcell r1 i | i <- iota 0 nw.+1], point_is t.2.1 (pmul (dval H (plus2 (take (nw - 1) ds))) (Some B)) & point_is t.2.2 (Some (pt pfs wb nw B ds (nw - 1)))])
  (fun t => [/\ point_in T place t.2.1 (pmul (dval H (plus2 (take (nw - 1) ds))) (Some B)), point_in T place t.2.2 (Some (pt pfs wb nw B ds (nw - 1))) &
     forall r1, t.1 = [seq zcell r1 i | i <- iota 0 nw.+1] -> cell_value T place (ac_cell (zcell r1 (nw - 1))) = (nth 0%N ds (nw - 1))%:R])).
  apply: lcomp_region => r.
  apply: (rcomp_defer (decompose_hon r vm hm) (Q := fun t =>
    [/\ point_in T place t.2.1 (pmul (dval H (plus2 (take (nw - 1) ds))) (Some B)), point_in T place t.2.2 (Some (pt pfs wb nw B ds (nw - 1))),
       t.1 = [seq zcell r i | i <- iota 0 nw.+1] &
       forall w, (w < nw)%N -> holds (place r + w%:Z) (fullpolys b wb fx word)])); last first.
    move=> _ t _ _ hz _ [h1 h2 h3 h4]; split=> [s' off /mapP[w]|].
      by rewrite mem_iota add0n => /andP[_ hw] [-> ->]; apply: okf; exact: h4.
    split=> // r1; rewrite h3 => -[<- _]; rewrite /cell_value /row_of /= hz ?zlast //; exact: leq_subr.
  move=> _ <-; rewrite windows_known.
  apply: (rcomp_bind (inner_comp hc pok qok fb us wf hp nb inst hsize okf oki sk hk _)) => [[_ hz] i hi|u [h1 h2]].
    rewrite !rowE addr0 mulrC -addrA -[i%:Z + 1]/((i + 1)%N%:Z) addn1 /win !hz ?(ltnW hi) //; exact: zstep.
  by apply: rcomp_ret => [|[_ [? ? ?]]]; split=> //; exists r.
case=> l [acc m] [[r1 el] h2 h3]; rewrite /= in h2 h3; cbn [fst] in el; subst l.
apply: (@lcomp_bind _ T place inst ok _ _ _ _ _ (fun u => point_is u (psigned neg (pmul (dval H ds) (Some B))))
  (fun u => point_in T place u (psigned neg (pmul (dval H ds) (Some B))))); last first.
  move=> u hu; apply: lcomp_ret => [|[_ h]] //; split=> //.
  exact: zvaluesE.
apply: lcomp_region => r; rewrite /short_msb_region.
have ha := rcomp_add_cells r 0 (pt_on hc pok fb hp hk nl) hon h3 h2.
apply: (rcomp_bind (ha _ (fun h => let: And3 _ h2 _ := proj2 h in h2) (fun h => let: And3 h1 _ _ := proj2 h in h1))) => u [].
rewrite em => -[[vx ex' dx] [vy ey dy]] cu.
have [w ew dw] := signedE neg dy.
apply: (rcomp_block (L := [::] ++ [::] ++ [:: (q_mul_fixed_short c, 1%N)] ++ [::] ++ [::])
  (V := fun u => point_is u (psigned neg (pmul (dval H ds) (Some B))))
  (Q := fun u => [/\ t_cell T Advice (fx_window fx) (place r + 1%N%:Z) = sign_of F neg,
       t_cell T Advice (fx_u fx) (place r + 1%N%:Z) = (nth 0%N ds (nw - 1))%:R,
       t_cell T Advice (ad_yqr (fx_add fx)) (place r + 1%N%:Z) = (encode (pmul (dval H ds) (Some B))).2,
       t_cell T Advice (ad_yp (fx_add fx)) (place r + 1%N%:Z) = sign_of F neg * (encode (pmul (dval H ds) (Some B))).2 &
       point_in T place u (psigned neg (pmul (dval H ds) (Some B)))])); last first.
  move=> a _ _ [k1 k2 k3 k4 k5]; split=> // s' off; rewrite inE => /eqP[-> ->]; apply: oks.
  exact: (sign_row hlast k2 k1 k3 k4).
apply: (@rhon_bind _ T place inst r _ _ _ _ _ [::] _ (fun a => ac_value a = known (sign_of F neg)) (fun=> t_cell T Advice (fx_window fx) (place r + 1%N%:Z) = sign_of F neg)).
  by apply: (rhon_copy _ vs) => [[[h _] _]|//|//]; exact: hs.
move=> s1 es1; rewrite (get_last r1).
apply: (@rhon_bind _ T place inst r _ _ _ _ _ [::] _ (fun=> True) (fun=> t_cell T Advice (fx_u fx) (place r + 1%N%:Z) = (nth 0%N ds (nw - 1))%:R)).
  apply: (@rhon_copy _ T place inst r _ _ (nth 0%N ds (nw - 1))%:R) => //; first by rewrite /zcell zlast.
  by move=> [[[_ [_ _ h]] _] _]; exact: h.
move=> _ _; apply: (@rhon_bind _ T place inst r _ _ _ _ _ [:: (q_mul_fixed_short c, 1%N)] _ (fun=> True) (fun=> True)); first exact: rhon_enable.
move=> _ _; rewrite es1 ey ew.
apply: (@rhon_bind _ T place inst r _ _ _ _ _ [::] [::] (eq (ECell (known w) (Cell r 1 (Advice, ad_yp (fx_add fx)))))
   (fun=> t_cell T Advice (ad_yp (fx_add fx)) (place r + 1%N%:Z) = denote w)); first by apply: rhon_e.
move=> _ <-; apply: rhon_ret.
  by rewrite /point_is encode_signed; split; [exists vx|exists w].
move=> [[[[[hP hu] k1] k2] _] k3]; rewrite dw in k3.
move: hu; rewrite /point_in => hu; have [hx hy] : cell_value T place (ec_cell (ep_x u)) = (encode (pmul (dval H ds) (Some B))).1 /\
   cell_value T place (ec_cell (ep_y u)) = (encode (pmul (dval H ds) (Some B))).2 by rewrite -hu.
split=> //; first by rewrite -hy cu.
by rewrite encode_signed /= hx /cell_value /row_of /= k3.
Qed.
End Digits.
End Complete.

(* ---------------------------------------------------------------- rows *)
Section Rows.
Variables (F : fieldType) (b : F) (wb : nat) (c : short_config) (T : table F) (place : nat -> int).
Hypothesis un : uniq (short_sels c).
Notation holds row ps := (all (fun g => at_row T row g == 0) ps).
Let block (i : nat) : seq (expr F) :=
  nth [::] [:: running_sum_gate F (sh_range c) (fx_window (sh_super c)) wb :: rs_coords_gates b wb c; short_gate F c;
               inc_gates F (fx_inc (sh_super c)); add_gates F (fx_add (sh_super c))] i.
Definition oky (s : nat) (row : int) : Prop := forall i, (i < 4)%N -> s = nth 0%N (short_sels c) i -> holds row (block i).
Lemma oky_block i row : (i < 4)%N -> holds row (block i) -> oky (nth 0%N (short_sels c) i) row.
Proof. by move=> hi h j hj /eqP; rewrite nth_uniq // => /eqP <-. Qed.
Lemma gated_on (s : nat) row ps : holds row ps -> holds row [seq EProduct (ESelector F s true) g | g <- ps].
Proof. by rewrite all_map; apply: sub_all => g /= /eqP e; rewrite at_mul e mulr0. Qed.
Lemma oky_range row : holds row (fullpolys b wb (sh_super c) (rs_word F wb (sh_super c))) -> oky (sh_range c) row.
Proof.
rewrite /fullpolys all_rcons => /andP[/eqP h1 h2]; apply: (@oky_block 0) => //.
rewrite /block [nth _ _ _]/= -cat1s all_cat; apply/andP; split; last exact: gated_on.
by rewrite all_seq1 /running_sum_gate at_mul; apply/eqP; have -> : at_row T row (range_check _ _) = 0 := h1; rewrite mulr0.
Qed.
Lemma oky_sign row : holds row (short_polys F c) -> oky (q_mul_fixed_short c) row.
Proof. by move=> h; apply: (@oky_block 1) => //; exact: gated_on. Qed.
Lemma short_block_off i row : (i < 4)%N -> ~~ t_selector T (nth 0%N (short_sels c) i) row -> holds row (block i).
Proof.
move=> hi /negbTE h; have key ps : block i = [seq EProduct (ESelector F (nth 0%N (short_sels c) i) true) g | g <- ps] -> holds row (block i).
  by move=> ->; apply: gated_off.
case: i hi h key => [|[|[|[|]]]] // _ _; last 3 first; try by apply.
by move=> key; apply: (key (range_check (rs_word F wb (sh_super c)) (win wb) :: coords_check b wb (sh_super c) (rs_word F wb (sh_super c)))).
Qed.
Lemma short_rows regions : lon_ok place oky regions ->
  on_here T place (short_all_gates b wb c) (short_sels c) regions -> forall row, holds row (short_all_gates b wb c).
Proof.
move=> hk ho row.
have split4 : holds row (short_all_gates b wb c) <-> forall i, (i < 4)%N -> holds row (block i).
  have -> : short_all_gates b wb c = block 0 ++ block 1 ++ block 2 ++ block 3 by rewrite /short_all_gates /short_gates -cat_cons -catA.
  rewrite !all_cat; split=> [/and4P[h1 h2 h3 h4] [|[|[|[|]]]] //|h].
  by apply/and4P; split; [exact: (h 0%N)|exact: (h 1%N)|exact: (h 2%N)|exact: (h 3%N)].
apply/split4 => i hi; case e: (t_selector T (nth 0%N (short_sels c) i) row); last by apply: short_block_off => //; rewrite e.
have hm : nth 0%N (short_sels c) i \in short_sels c by apply: mem_nth.
have [h1|/split4] := ho _ row hm e; last exact.
move: h1 hk; rewrite /turned_on /lon_ok; elim: (regions) => [|e' l IH] /=; first by move=> /List.Exists_nil.
by move=> /List.Exists_cons[[off ee ->]|h1] /List.Forall_cons_iff[h2 h3]; [exact: h2 ee _ hi erefl|exact: IH].
Qed.
End Rows.

(* C60: for every known magnitude x below 2^lbits and every sign the program returns [sign * x] B and the running sums of x,
   and in a table that holds the arguments and what the program assigned, with the selectors on only where it turned them on
   (or where these gates hold anyway), every copy constraint and in every row every gate of the chips holds. *)
Theorem C60_mul_short_complete (F : fieldType) (b : F) (pf : prime_field F) (p : nat) (Fs : fieldType) (pfs : prime_field Fs)
    (q wb nw lbits : nat) (c : short_config) (B : F * F) (base : fixed_point F)
    (inst : nat -> nat -> value F) (T : table F) (place : nat -> int) (x : F) (neg : bool) (magnitude sign : acell F) r :
  good_curve b -> prime_field_ok pf p -> odd p -> prime_field_ok pfs q -> fixed_base_ok b pfs q wb nw B base -> fixed_base_us pfs wb nw B base ->
  windows_fit q wb nw -> (2 ^ wb <= p)%N -> (wb <= 8)%N -> (wb <= pf_repr_bits pfs)%N ->
  lbits = (wb * (nw - 1) + 1)%N -> (lbits <= pf_repr_bits pf)%N ->
  size (fx_lagrange (sh_super c)) = (2 ^ wb)%N -> uniq (short_sels c) ->
  ac_value magnitude = known x -> ac_value sign = known (sign_of F neg) -> (pf_val pf x < 2 ^ lbits)%N ->
  let prog := mul_fixed_short pf pfs q wb nw lbits c magnitude sign base in
  exists res zs r', [/\ lreturns inst r prog = Ok ((res, zs), r'),
    point_is res (psigned neg (pmul (pf_val pf x) (Some B))),
    [seq ac_value a | a <- zs] = [seq known (pf_val pf x %/ 2 ^ (wb * i))%:R | i <- iota 0 nw.+1] &
    cell_value T place (ac_cell magnitude) = x -> cell_value T place (ac_cell sign) = sign_of F neg ->
    lhonest T place inst r prog -> lselectors_on T place inst r prog ->
    on_here T place (short_all_gates b wb c) (short_sels c) (lregions inst r prog) ->
    [/\ lrespects T place inst r prog, forall row, all (fun g => at_row T row g == 0) (short_all_gates b wb c) &
        point_in T place res (psigned neg (pmul (pf_val pf x) (Some B)))]].
Proof.
move=> hc pok op qok fb us wf hp w8 nr hl hr hs un vm vs hx prog; have [w1 n1 _] := wf.
have hw : (0 < wb <= 8)%N by rewrite w8 (ltn_trans _ w1).
have [ds eds [sk hk ek hlast]] := short_digits hw (ltnW n1) hl hr hx.
have ex : x = (dval (2 ^ wb) ds)%:R by rewrite ek (pf_valK pok).
have [[res zs] [r' [e [[v1 v2] h]]]] := mul_short_comp hc pok op qok fb us wf hp nr hl inst hs (@oky_range F b wb c T un)
  (@oky_sign F b wb c T un) (fun row => @oky_block F b wb c T un 2 row isT) (fun row => @oky_block F b wb c T un 3 row isT) sk hk eds ex hlast
  (P := cell_value T place (ac_cell magnitude) = x /\ cell_value T place (ac_cell sign) = sign_of F neg) vm vs (fun h => proj1 h) (fun h => proj2 h) r.
exists res, zs, r'; rewrite -ek; split=> //.
  rewrite v2; apply/eq_in_map => i; rewrite mem_iota add0n ltnS => /andP[_ hi].
  rewrite expnM dval_drop ?expn_gt0 ?sk //; apply/(all_nthP 0%N) => j; rewrite sk; exact: hk.
move=> h1 h2 g1 g2 g3; have [q1 q2 q3] := h (conj h1 h2) (conj g1 g2); split=> //.
exact: (short_rows q2 g3).
Qed.
Print Assumptions C60_mul_short_complete.

(* the same for the multiplication of a point by a sign *)
Theorem C60_sign_complete (F : fieldType) (pf : prime_field F) (p : nat) (c : short_config) (inst : nat -> nat -> value F) (T : table F)
    (place : nat -> int) (neg : bool) (sign : acell F) (u : ecpoint F) (P : point F) r :
  prime_field_ok pf p -> odd p -> ac_value sign = known (sign_of F neg) -> point_is u P ->
  let prog := assign_scalar_sign c sign u in
  exists res r', [/\ lreturns inst r prog = Ok (res, r'), point_is res (psigned neg P) &
    cell_value T place (ac_cell sign) = sign_of F neg -> point_in T place u P ->
    lhonest T place inst r prog -> lselectors_on T place inst r prog ->
    on_here T place (short_gate F c) [:: q_mul_fixed_short c] (lregions inst r prog) ->
    [/\ lrespects T place inst r prog, forall row, all (fun g => at_row T row g == 0) (short_gate F c) & point_in T place res (psigned neg P)]].
Proof.
move=> pok op vs [[vx ex dx] [vy ey dy]] prog.
have [w ew dw] := signedE pok op neg dy.
pose ok (s : nat) (row : int) := s = q_mul_fixed_short c -> all (fun g => at_row T row g == 0) (short_gate F c).
pose Hyp := cell_value T place (ac_cell sign) = sign_of F neg /\ point_in T place u P.
have : lcomp T place inst ok Hyp prog (fun res => point_is res (psigned neg P)) (fun res => point_in T place res (psigned neg P)).
  apply: lcomp_region => r1.
  apply: (rcomp_block (L := [:: (q_mul_fixed_short c, 0%N)] ++ [::] ++ [::] ++ [::] ++ [::] ++ [::])
    (Q := fun res => [/\ t_cell T Advice (fx_u (sh_super c)) (place r1 + 0%N%:Z) = 0, t_cell T Advice (fx_window (sh_super c)) (place r1 + 0%N%:Z) = sign_of F neg,
       t_cell T Advice (ad_yqr (fx_add (sh_super c))) (place r1 + 0%N%:Z) = (encode P).2,
       t_cell T Advice (ad_yp (fx_add (sh_super c))) (place r1 + 0%N%:Z) = sign_of F neg * (encode P).2 & point_in T place res (psigned neg P)])); last first.
    move=> a _ _ [k1 k2 k3 k4 k5]; split=> // s' off; rewrite inE => /eqP[-> ->] _; apply: gated_on.
    exact: (sign_row (t := 0%N) isT k1 k2 k3 k4).
  apply: (@rhon_bind _ T place inst r1 _ _ _ _ _ [:: (q_mul_fixed_short c, 0%N)] _ (fun=> True) (fun=> True)); first exact: rhon_enable.
  move=> _ _; apply: (@rhon_bind _ T place inst r1 _ _ _ _ _ [::] _ (fun=> True) (fun=> t_cell T Advice (fx_u (sh_super c)) (place r1 + 0%N%:Z) = 0)).
    exact: rhon_advice_constant.
  move=> _ _; apply: (@rhon_bind _ T place inst r1 _ _ _ _ _ [::] _ (fun=> True) (fun=> t_cell T Advice (fx_window (sh_super c)) (place r1 + 0%N%:Z) = sign_of F neg)).
    by apply: (rhon_copy _ vs) => // -[[[]]].
  have hP : Hyp -> cell_value T place (ec_cell (ep_x u)) = (encode P).1 /\ cell_value T place (ec_cell (ep_y u)) = (encode P).2.
    by move=> [_]; rewrite /point_in => <-.
  move=> _ _; apply: (@rhon_bind _ T place inst r1 _ _ _ _ _ [::] _ (fun=> True) (fun=> t_cell T Advice (ad_yqr (fx_add (sh_super c))) (place r1 + 0%N%:Z) = denote vy)).
    by apply: (rhon_copy_e _ ey) => // -[[[/hP[_ ->]]]].
  move=> _ _; rewrite vs ey ew.
  apply: (@rhon_bind _ T place inst r1 _ _ _ _ _ [::] [::] (eq (ECell (known w) (Cell r1 0 (Advice, ad_yp (fx_add (sh_super c))))))
     (fun=> t_cell T Advice (ad_yp (fx_add (sh_super c))) (place r1 + 0%N%:Z) = denote w)); first by apply: rhon_e.
  move=> _ <-; apply: rhon_ret; first by rewrite /point_is encode_signed; split; [exists vx|exists w].
  move=> [[[[[/hP[hx hy] _] k1] k2] k3] k4]; rewrite dy in k3; rewrite dw in k4; split=> //.
  by rewrite /point_in encode_signed /= hx /cell_value /row_of /= k4.
move=> /(_ r) [res [r' [e [v h]]]]; exists res, r'; split=> // h1 h2 h3 h4 h5.
have [q1 q2 q3] := h (conj h1 h2) (conj h3 h4); split=> // row.
case es: (t_selector T (q_mul_fixed_short c) row); last exact: gated_off.
have [h6|//] := h5 _ row (mem_head _ _) es.
move: h6 q2; rewrite /turned_on /lon_ok; elim: (lregions _ _ _) => [|e' l IH] /=; first by move=> /List.Exists_nil.
by move=> /List.Exists_cons[[off ee ->]|h7] /List.Forall_cons_iff[h8 h9]; [exact: h8 ee erefl|exact: IH].
Qed.
Print Assumptions C60_sign_complete.
