(* Lemmas for Params and MSM *)
Set Warnings "-notation-overridden,-ambiguous-paths".
From mathcomp Require Import all_ssreflect all_algebra.
From Verif Require Import Util FieldTac ModTac M_FFT S_FFT L_FFT M_Multiexp M_Poly L_Poly M_Domain L_Domain M_Env M_Commit.
Import GRing.Theory.
Set Implicit Arguments.
Unset Strict Implicit.
Local Open Scope ring_scope.

Section DotG.
Variables (F : fieldType) (G : lmodType F).
Implicit Types (cs c : seq F) (bs b : seq G).

Lemma dotG_nil cs : dotG cs ([::] : seq G) = 0.
Proof. by rewrite /dotG big_ord0. Qed.
Lemma dotG_cons (c : F) cs (b : G) bs : dotG (c :: cs) (b :: bs) = c *: b + dotG cs bs.
Proof. by rewrite /dotG /= big_ord_recl. Qed.
Lemma dotG_nil0 bs : dotG ([::] : seq F) bs = 0.
Proof. by rewrite /dotG big1 // => i _; rewrite nth_nil scale0r. Qed.
Lemma dotG_cat c1 c2 b1 b2 : size c1 = size b1 -> dotG (c1 ++ c2) (b1 ++ b2) = dotG c1 b1 + dotG c2 b2.
Proof.
elim: c1 b1 => [|c c1 IH] [|b b1] //= => [_|[hs]]; first by rewrite dotG_nil add0r.
by rewrite !dotG_cons IH // addrA.
Qed.
Lemma dotG_seq1 (c : F) (b : G) : dotG [:: c] [:: b] = c *: b.
Proof. by rewrite dotG_cons dotG_nil addr0. Qed.
Lemma dotG_scale z cs bs : dotG [seq x * z | x <- cs] bs = z *: dotG cs bs.
Proof.
rewrite /dotG scaler_sumr; apply: eq_bigr => i _; rewrite scalerA mulrC.
case: (ltnP i (size cs)) => h; first by rewrite (nth_map 0).
by rewrite [cs`_i]nth_default // mul0r [X in X *: _]nth_default ?size_map.
Qed.
Lemma dotG_scalel z cs bs : dotG [seq z * x | x <- cs] bs = z *: dotG cs bs.
Proof. by rewrite -dotG_scale; congr dotG; apply: eq_map => x; rewrite mulrC. Qed.
Lemma dotG_add c1 c2 c3 bs : (forall i, (i < size bs)%N -> c3`_i = c1`_i + c2`_i) ->
  dotG c3 bs = dotG c1 bs + dotG c2 bs.
Proof. by move=> h; rewrite /dotG -big_split; apply: eq_bigr => i _; rewrite h // scalerDl. Qed.
Lemma dotG_ext c1 c2 bs : (forall i, (i < size bs)%N -> c1`_i = c2`_i) -> dotG c1 bs = dotG c2 bs.
Proof. by move=> h; rewrite /dotG; apply: eq_bigr => i _; rewrite h. Qed.
Lemma dotG0 n bs : dotG (nseq n 0) bs = 0.
Proof. by rewrite /dotG big1 // => i _; rewrite nth_nseq if_same scale0r. Qed.
Lemma dotG_bscale z cs bs : dotG cs [seq z *: x | x <- bs] = z *: dotG cs bs.
Proof.
elim: bs cs => [|b bs IH] [|c cs]; rewrite ?dotG_nil ?dotG_nil0 ?scaler0 //= !dotG_cons IH.
by rewrite scalerDr !scalerA mulrC.
Qed.
End DotG.

Lemma size_le_bytes len n : size (le_bytes len n) = len.
Proof. by elim: len n => //= l IH n; rewrite IH. Qed.
Lemma le_bytesK len n : (n < 256 ^ len)%N -> le_val (le_bytes len n) = n.
Proof.
elim: len n => [|l IH] n /=; first by case: n.
move=> h; rewrite /le_val /= -/(le_val _) IH.
  by rewrite addnC mulnC -divn_eq.
by rewrite ltn_divLR // mulnC -expnS.
Qed.

Section L.
Variables (F B : fieldType) (G : lmodType F) (E : env B G).
Hypothesis ok : env_ok E.
Add Field Ff : (F_field_theory F).

Lemma mapi_from_constf T U (f : T -> U) b s : mapi_from b (fun _ => f) s = map f s.
Proof. by elim: s b => //= x s IH b; rewrite IH. Qed.
Lemma parallelize_gmap (v : seq G) (g : G -> G) : (0 < size v)%N ->
  parallelize (e_threads E) v (fun c _ => map g c) = Some (map g v).
Proof.
move=> hv; have := parallelize_mapi (fun _ => g) (ok_threads ok) hv.
rewrite /mapi mapi_from_constf => <-; rewrite /parallelize; case: ifP => // _.
congr (Some (flatten _)); rewrite /mapi.
by elim: (chunks _ _) 0%N => //= c cs IH m; rewrite IH mapi_from_constf.
Qed.

(* MSM *)
Variable ps : params G.

Definition pt (x y : B) : G := odflt 0 (e_from_xy E x y).
Definition oval (l : seq (B * (F * B))) : G := \sum_(e <- l) e.2.1 *: pt e.1 e.2.2.
Definition ovalid (l : seq (B * (F * B))) : bool := all (fun e => e_from_xy E e.1 e.2.2 != None) l.

Lemma pt_coords x y P : e_coords E P = Some (x, y) -> pt x y = P.
Proof. by move=> h; rewrite /pt (proj2 (ok_from_xy ok x y P) h). Qed.
Lemma valid_coords x y : e_from_xy E x y != None -> e_coords E (pt x y) = Some (x, y).
Proof.
rewrite /pt; case e: (e_from_xy E x y) => [P|] // _ /=.
exact: (proj1 (ok_from_xy ok x y P)).
Qed.
Lemma coords_valid x y P : e_coords E P = Some (x, y) -> e_from_xy E x y != None.
Proof. by move=> /(proj2 (ok_from_xy ok x y P)) ->. Qed.

Lemma other_addE l x s y : ovalid l -> e_from_xy E x y != None ->
  exists2 l', other_add l x s y = Some l' & ovalid l' /\ oval l' = oval l + s *: pt x y.
Proof.
move=> + hv; elim: l => [_|[x' [s' y']] l IH] /=.
  by exists [:: (x, (s, y))] => //; rewrite /ovalid /oval /= hv big_seq1 big_nil add0r.
move=> /andP [h1 h2]; case: eqP => [ex|_].
  have := ok_coords ok (valid_coords hv) (y' := y') (Q := pt x' y').
  rewrite ex in h1 *; move=> /(_ (valid_coords h1)).
  case: eqP => [ey _|ny].
    exists ((x, (s' + s, y')) :: l) => //; split; first by rewrite /ovalid /= h1.
    by rewrite /oval !big_cons /= ey scalerDl addrAC.
  case: (_ =P -y) => //= _ /eqP e; eexists; first by [].
  split; first by rewrite /ovalid /= h1.
  by rewrite /oval !big_cons /= scalerBl [- (s *: _)](_ : _ = s *: pt x y) 1?addrAC // e scalerN opprK.
have [l' -> /= [v' e]] := IH h2; eexists; first by [].
by rewrite /ovalid /= h1; split=> //; rewrite /oval !big_cons -/(oval l') e addrA.
Qed.

Definition mvalid (m : msm F B) : Prop :=
  ovalid (m_other m) /\ (if m_g m is Some g then size g = p_n ps else True).
Definition mval (m : msm F B) : G :=
  oval (m_other m) + odflt 0 (m_w m) *: p_w ps + odflt 0 (m_u m) *: p_u ps
  + dotG (odflt [::] (m_g m)) (p_g ps).

Hypothesis pn0 : (0 < p_n ps)%N.
Hypothesis psz : size (p_g ps) = p_n ps.

Lemma msm_newE : mvalid msm_new /\ mval msm_new = 0.
Proof. by split=> //; rewrite /mval /oval /= big_nil !scale0r dotG_nil0 !addr0. Qed.

Lemma append_termE m s P : mvalid m ->
  exists2 m', append_term E m s P = Some m' & mvalid m' /\ mval m' = mval m + s *: P.
Proof.
move=> [vo vg]; rewrite /append_term; case: eqP => [->|/eqP nz].
  by exists m => //; rewrite scaler0 addr0.
have := ok_coords0 ok P; rewrite (negbTE nz); case ec: (e_coords E P) => [[x y]|] // _.
have [l' -> /= [v' e]] := other_addE s vo (coords_valid ec); eexists; first by [].
split=> //; rewrite /mval /= e (pt_coords ec).
by abel F G.
Qed.

Lemma add_constant_termE m c : mvalid m ->
  exists2 m', add_constant_term ps m c = Some m' & mvalid m' /\ mval m' = mval m + c *: (p_g ps)`_0.
Proof.
move=> [vo vg]; rewrite /add_constant_term.
set v := (if m_g m is Some v then v else _).
have sv : size v = p_n ps by rewrite /v; case: (m_g m) vg => //; rewrite size_nseq.
have ev : dotG (odflt [::] (m_g m)) (p_g ps) = dotG v (p_g ps).
  by rewrite /v; case: (m_g m) => //=; rewrite dotG_nil0 dotG0.
move: sv ev; case: v => [|v0 v] /=; first by move=> h; move: pn0; rewrite -h.
move=> sv ev; eexists; first by []; split; first by split.
rewrite /mval /= ev -!addrA; do 3!congr (_ + _).
case: (p_g ps) psz => [|g0 g] //= h; first by move: pn0; rewrite -h.
by rewrite !dotG_cons scalerDl addrAC.
Qed.

Lemma add_to_g_scalarsE m v : mvalid m -> size v = p_n ps ->
  exists2 m', add_to_g_scalars ps m v = Some m' & mvalid m' /\ mval m' = mval m + dotG v (p_g ps).
Proof.
move=> [vo vg] hs; rewrite /add_to_g_scalars hs eqxx; eexists; first by [].
case: m vo vg => [[g|] w u o] /= vo vg.
  split; first by split=> //=; rewrite size_mapi.
  rewrite /mval /= -!addrA; do !congr (_ + _); apply: dotG_add => i hi.
  by rewrite (nth_mapi _ 0) ?vg; rewrite -?psz ?hi.
by split=> //; rewrite /mval /= dotG_nil0 addr0.
Qed.

Lemma add_to_w_scalarE m s : mvalid m ->
  mvalid (add_to_w_scalar m s) /\ mval (add_to_w_scalar m s) = mval m + s *: p_w ps.
Proof.
move=> [vo vg]; split=> //; rewrite /mval /=.
by case: (m_w m) => [a|] /=; abel F G.
Qed.
Lemma add_to_u_scalarE m s : mvalid m ->
  mvalid (add_to_u_scalar m s) /\ mval (add_to_u_scalar m s) = mval m + s *: p_u ps.
Proof.
move=> [vo vg]; split=> //; rewrite /mval /=.
by case: (m_u m) => [a|] /=; abel F G.
Qed.

Lemma other_foldE l1 l2 : ovalid l1 -> ovalid l2 ->
  exists2 l', foldl (fun acc e => obind (fun l => other_add l e.1 e.2.1 e.2.2) acc) (Some l1) l2 = Some l'
  & ovalid l' /\ oval l' = oval l1 + oval l2.
Proof.
elim: l2 l1 => [|[x [s y]] l2 IH] l1 v1 /=; first by exists l1 => //; rewrite /oval big_nil addr0.
move=> /andP [h1 h2]; have [l' -> /= [v' e]] := other_addE s v1 h1.
have [l'' -> [v'' e'']] := IH _ v' h2; exists l'' => //; split=> //.
by rewrite e'' e /oval big_cons addrA.
Qed.

Lemma add_msmE m o : mvalid m -> mvalid o ->
  exists2 m', add_msm ps m o = Some m' & mvalid m' /\ mval m' = mval m + mval o.
Proof.
move=> vm [vo vg]; rewrite /add_msm.
have [l' -> /= [v' e]] := other_foldE (proj1 vm) vo.
set m1 := with_other m l'.
have vm1 : mvalid m1 by split=> //; case: vm.
have e1 : mval m1 = mval m + oval (m_other o) by rewrite /mval /= e; abel F G.
have [m2 -> /= [vm2 e2]] : exists2 m2, (if m_g o is Some g then add_to_g_scalars ps m1 g else Some m1) = Some m2
   & mvalid m2 /\ mval m2 = mval m1 + dotG (odflt [::] (m_g o)) (p_g ps).
  case: (m_g o) vg => [g|] vg /=; first exact: add_to_g_scalarsE.
  by exists m1 => //; rewrite dotG_nil0 addr0.
eexists; first by [].
have [m3 -> [vm3 e3]] : exists2 m3, (if m_w o is Some w then add_to_w_scalar m2 w else m2) = m3 &
    mvalid m3 /\ mval m3 = mval m2 + odflt 0 (m_w o) *: p_w ps.
  case: (m_w o) => [w|] /=; first by eexists; [|exact: add_to_w_scalarE].
  by exists m2 => //; rewrite scale0r addr0.
have [m4 -> [vm4 e4]] : exists2 m4, (if m_u o is Some w then add_to_u_scalar m3 w else m3) = m4 &
    mvalid m4 /\ mval m4 = mval m3 + odflt 0 (m_u o) *: p_u ps.
  case: (m_u o) => [w|] /=; first by eexists; [|exact: add_to_u_scalarE].
  by exists m3 => //; rewrite scale0r addr0.
split=> //; rewrite e4 e3 e2 e1 /mval; abel F G.
Qed.

Lemma msm_scaleE m z : mvalid m -> mvalid (msm_scale m z) /\ mval (msm_scale m z) = z *: mval m.
Proof.
move=> [vo vg]; split.
  split; first by rewrite /ovalid /= all_map; apply: sub_all vo => e.
  by rewrite /=; case: (m_g m) vg => //= g; rewrite size_map.
rewrite /mval /= !scalerDr; congr (_ + _ + _ + _).
- rewrite /oval big_map scaler_sumr; apply: eq_bigr => e _ /=; by rewrite scalerA mulrC.
- by case: (m_w m) => [w|] /=; rewrite ?scale0r ?scaler0 // scalerA mulrC.
- by case: (m_u m) => [w|] /=; rewrite ?scale0r ?scaler0 // scalerA mulrC.
by case: (m_g m) => [w|] /=; rewrite ?dotG_nil0 ?scaler0 // dotG_scale.
Qed.

Lemma other_basesE l : ovalid l ->
  foldr (fun e => ocons (e_from_xy E e.1 e.2.2)) (Some [::]) l = Some [seq pt e.1 e.2.2 | e <- l].
Proof.
elim: l => //= [[x [s y]]] l IH /andP [h1 h2]; rewrite IH //=.
by move: h1; rewrite /pt /=; case: (e_from_xy E x y).
Qed.

Lemma msm_evalE m : mvalid m -> msm_eval E ps m = Some (mval m == 0).
Proof.
move=> [vo vg]; rewrite /msm_eval other_basesE //= multiexpE //; last first.
  rewrite !size_cat !size_map; congr (_ + (_ + (_ + _)))%N; first by case: (m_w m).
    by case: (m_u m).
  by case: (m_g m) vg => // g ->; rewrite psz.
congr (Some (_ == 0)); rewrite /mval -!addrA dotG_cat ?size_map //; congr (_ + _).
  rewrite /oval; elim: (m_other m) => [|e l IH] /=; first by rewrite dotG_nil big_nil.
  by rewrite dotG_cons IH big_cons.
rewrite dotG_cat; last by case: (m_w m).
congr (_ + _); first by case: (m_w m) => [w|] /=; rewrite ?dotG_seq1 // dotG_nil scale0r.
rewrite dotG_cat; last by case: (m_u m).
congr (_ + _); first by case: (m_u m) => [w|] /=; rewrite ?dotG_seq1 // dotG_nil scale0r.
by case: (m_g m) => [w|] //=; rewrite dotG_nil dotG_nil0.
Qed.

Lemma commitE poly r : size poly = size (p_g ps) ->
  commit E ps poly r = Some (dotG poly (p_g ps) + r *: p_w ps).
Proof.
by move=> h; rewrite /commit multiexpE ?size_cat ?h // dotG_cat // dotG_seq1.
Qed.
Lemma commit_lagrangeE poly r : size poly = size (p_gl ps) ->
  commit_lagrange E ps poly r = Some (dotG poly (p_gl ps) + r *: p_w ps).
Proof.
by move=> h; rewrite /commit_lagrange multiexpE ?size_cat ?h // dotG_cat // dotG_seq1.
Qed.
End L.
