(* Lemmas for the inner product argument *)
Set Warnings "-notation-overridden,-ambiguous-paths".
From mathcomp Require Import all_ssreflect all_algebra.
From Verif Require Import Util FieldTac ModTac M_FFT M_Multiexp M_Poly L_Poly M_Domain L_Domain.
From Verif Require Import M_Env M_Transcript L_Transcript M_Commit S_Commit L_Commit M_IPA.
Import GRing.Theory.
Set Implicit Arguments.
Unset Strict Implicit.
Local Open Scope ring_scope.

Section Vec.
Variables (F : fieldType) (V : lmodType F).
Add Field Ff : (F_field_theory F).
Implicit Types (p us : seq F) (v : seq V).

(* one folding step *)
Definition foldv (half : nat) (u : F) (v : seq V) : seq V :=
  [seq v`_i + u *: v`_(i + half) | i <- iota 0 half].
Fixpoint svec us : seq F :=
  if us is u :: us' then svec us' ++ [seq x * u | x <- svec us'] else [:: 1].
Lemma size_svec us : size (svec us) = (2 ^ size us)%N.
Proof. by elim: us => //= u us IH; rewrite size_cat size_map IH expnS mul2n addnn. Qed.

Lemma dotG_halves h p v : size p = (h + h)%N -> size v = (h + h)%N ->
  dotG p v = \sum_(i < h) (p`_i *: v`_i + p`_(i + h) *: v`_(i + h)).
Proof.
move=> sp sv; rewrite /dotG sv big_split_ord /= -big_split /=.
by apply: eq_bigr => i _; rewrite [(h + i)%N]addnC.
Qed.
Lemma dotG_ll h p v : size p = (h + h)%N -> size v = (h + h)%N ->
  dotG (take h p) (take h v) = \sum_(i < h) p`_i *: v`_i.
Proof.
move=> sp sv; rewrite /dotG size_takel ?sv ?leq_addr //.
by apply: eq_bigr => i _; rewrite !nth_take.
Qed.
Lemma size_take2 (T : Type) h (s : seq T) : size s = (h + h)%N -> size (take h s) = h.
Proof. by move=> hs; rewrite size_takel // hs leq_addr. Qed.
Lemma size_drop2 (T : Type) h (s : seq T) : size s = (h + h)%N -> size (drop h s) = h.
Proof. by move=> hs; rewrite size_drop hs addnK. Qed.
Lemma dotG_hl h p v : size p = (h + h)%N -> size v = (h + h)%N ->
  dotG (drop h p) (take h v) = \sum_(i < h) p`_(i + h) *: v`_i.
Proof.
move=> sp sv; rewrite /dotG (size_take2 sv).
by apply: eq_bigr => i _; rewrite nth_take // nth_drop addnC.
Qed.
Lemma dotG_lh h p v : size p = (h + h)%N -> size v = (h + h)%N ->
  dotG (take h p) (drop h v) = \sum_(i < h) p`_i *: v`_(i + h).
Proof.
move=> sp sv; rewrite /dotG (size_drop2 sv).
by apply: eq_bigr => i _; rewrite nth_take // nth_drop addnC.
Qed.

(* the folding identity of one round *)
Lemma fold_round h u p v : u != 0 -> size p = (h + h)%N -> size v = (h + h)%N ->
  dotG [seq p`_i + p`_(i + h) * u^-1 | i <- iota 0 h] (foldv h u v) =
  dotG p v + u^-1 *: dotG (drop h p) (take h v) + u *: dotG (take h p) (drop h v).
Proof.
move=> u0 sp sv; rewrite (dotG_halves sp sv) (dotG_hl sp sv) (dotG_lh sp sv).
rewrite /dotG /foldv size_map size_iota !scaler_sumr -!big_split /=; apply: eq_bigr => i _.
rewrite !(nth_map 0%N) ?size_iota // nth_iota // add0n.
by modsplit F V; fnorm F; field; apply/eqP.
Qed.

Lemma fold_svec us u v : size v = (2 ^ size us + 2 ^ size us)%N ->
  dotG (svec us) (foldv (2 ^ size us) u v) = dotG (svec (u :: us)) v.
Proof.
move=> sv; rewrite [svec (u :: us)]/= -{2}(cat_take_drop (2 ^ size us) v) dotG_cat; last first.
  by rewrite size_svec (size_take2 sv).
rewrite dotG_scale /dotG (size_take2 sv) (size_drop2 sv) /foldv size_map size_iota.
rewrite scaler_sumr -big_split /=; apply: eq_bigr => i _.
rewrite (nth_map 0%N) ?size_iota // nth_iota // add0n nth_take // nth_drop [(_ + i)%N]addnC.
by modsplit F V; fnorm F; ring.
Qed.
End Vec.

Section S.
Variable F : fieldType.
Add Field Ff : (F_field_theory F).
Implicit Types (p us : seq F).
Local Notation Fo := [lmodType F of F^o].

Lemma zip_rcons_iota (T : Type) (s : seq T) (x : T) n : size s = n ->
  zip (iota 0 n.+1) (rcons s x) = rcons (zip (iota 0 n) s) (n, x).
Proof. by move=> <-; rewrite -addn1 iotaD /= add0n cats1 zip_rcons ?size_iota. Qed.

Lemma compute_s_fold us N init : (2 ^ size us <= N)%N ->
  foldl (@s_step F) (set_nth 0 (nseq N 0) 0 init) (zip (iota 0 (size us)) (rev us)) =
  [seq init * x | x <- svec us] ++ nseq (N - 2 ^ size us) 0.
Proof.
elim: us => [|u us IH] hN.
  by case: N hN => // N _ /=; rewrite mulr1 subn1.
have hN' : (2 ^ size us <= N)%N by apply: leq_trans hN; rewrite leq_exp2l //= leqnSn.
rewrite rev_cons [size (_ :: _)]/= zip_rcons_iota ?size_rev // foldl_rcons IH //.
rewrite /s_step /= take_size_cat ?size_map ?size_svec //.
rewrite map_cat -!map_comp -!catA; congr cat; congr cat.
  by apply: eq_map => x /=; rewrite mulrA.
rewrite drop_cat size_map size_svec ltnNge leq_addr /= addKn drop_nseq.
by rewrite -subnDA addnn -mul2n -expnS.
Qed.
Lemma compute_sE us init : (0 < size us)%N -> compute_s us init = Some [seq init * x | x <- svec us].
Proof.
move=> h; have := @compute_s_fold us (2 ^ size us) init (leqnn _).
by rewrite subnn cats0; case: us h => //= u us _ ->.
Qed.

Definition powers (x : F) n : seq Fo := mkseq (fun i => x ^+ i : Fo) n.

Lemma compute_b_st us (x : F) :
  foldl (fun st u_j => (st.1 * (1 + u_j * st.2), st.2 * st.2)) (1, x) (rev us) =
  (dotG (svec us) (powers x (2 ^ size us)), x ^+ (2 ^ size us)).
Proof.
elim: us => [|u us IH].
  by rewrite /dotG size_mkseq big_ord1 /= scale1r.
rewrite rev_cons foldl_rcons IH /=; congr pair; last first.
  by rewrite -exprD addnn -mul2n -expnS.
have hs : size (powers x (2 ^ (size us).+1)) = (2 ^ size us + 2 ^ size us)%N.
  by rewrite size_mkseq addnn -mul2n -expnS.
rewrite -{1}(cat_take_drop (2 ^ size us) (powers x (2 ^ (size us).+1))) dotG_cat; last first.
  by rewrite size_svec (size_take2 hs).
have e1 : take (2 ^ size us) (powers x (2 ^ (size us).+1)) = powers x (2 ^ size us).
  apply: (@eq_from_nth _ 0) => [|i]; rewrite (size_take2 hs) ?size_mkseq // => hi.
  by rewrite nth_take // !nth_mkseq // (leq_trans hi) // leq_exp2l.
have e2 : drop (2 ^ size us) (powers x (2 ^ (size us).+1)) =
          [seq x ^+ (2 ^ size us) *: y | y <- powers x (2 ^ size us)].
  apply: (@eq_from_nth _ 0) => [|i]; rewrite (size_drop2 hs) ?size_map ?size_iota // => hi.
  rewrite nth_drop (nth_map 0) ?size_mkseq // !nth_mkseq //; last first.
    by rewrite expnS mul2n -addnn ltn_add2l.
  by rewrite exprD.
rewrite e1 e2 dotG_bscale dotG_scale.
set d := dotG _ _; rewrite -[LHS]/((d : F) * (1 + u * x ^+ (2 ^ size us))).
rewrite -[RHS]/((d : F) + x ^+ (2 ^ size us) * (u * (d : F))).
move: (d : F) (x ^+ (2 ^ size us)) => {d} d y.
by fnorm F; ring.
Qed.
Lemma compute_bE us (x : F) : compute_b x us = dotG (svec us) (powers x (2 ^ size us)).
Proof. by rewrite /compute_b compute_b_st. Qed.

Lemma trajectE (x : F) n : traject (fun cur => cur * x) 1 n = powers x n.
Proof.
apply: (@eq_from_nth F 0); rewrite size_traject ?size_mkseq // => i hi.
rewrite (set_nth_default 1) ?size_traject // (nth_traject _ hi) /powers (nth_mkseq _ _ hi).
elim: i {hi} => //= i IH; by rewrite IH exprSr.
Qed.
Lemma dotG_powers p (x : F) n : size p = n -> dotG p (powers x n) = eval_polynomial p x.
Proof.
move=> hs; rewrite eval_polynomial_horner horner_PolyE hs /dotG size_mkseq.
by apply: eq_bigr => i _; rewrite nth_mkseq.
Qed.
Lemma inner_productE p (b : seq F) : size p = size b ->
  compute_inner_product p b = Some (dotG p (b : seq Fo)).
Proof.
move=> h; rewrite /compute_inner_product h eqxx; congr Some.
suff H acc : foldl (fun acc q => acc + q.1 * q.2) acc (zip p b) = acc + dotG p (b : seq Fo).
  by rewrite H add0r.
elim: p b h acc => [|x p IH] [|y b] //= => [_|[h]] acc; first by rewrite dotG_nil addr0.
by rewrite IH // dotG_cons addrA.
Qed.
End S.

(* parallelize with a closure that acts pointwise on every slice of the vector *)
Lemma parallelize_slice T threads (v : seq T) (f : seq T -> nat -> seq T) (g : nat -> T -> T) :
  (0 < threads)%N -> (0 < size v)%N ->
  (forall pre c post, v = pre ++ c ++ post -> f c (size pre) = mapi_from (size pre) g c) ->
  parallelize threads v f = Some (mapi g v).
Proof.
move=> ht hv hf; rewrite -(parallelize_mapi g ht hv) /parallelize; case: ifP => // /negbT c0.
move: c0; rewrite -lt0n; set chunk := (if (_ < _)%N then _ else _) => c0.
congr (Some (flatten _)); rewrite /mapi.
suff H : forall n s m pre, (size s <= n)%N -> v = pre ++ s -> (s = [::]) \/ size pre = (m * chunk)%N ->
  mapi_from m (fun num c => f c (num * chunk)%N) (chunks chunk s) =
  mapi_from m (fun i c => mapi_from (i * chunk) g c) (chunks chunk s).
  by apply: (H (size v) v 0%N [::]) => //; right; rewrite mul0n.
elim=> [|n IH] s m pre hs ev hp; first by move: hs; rewrite leqn0 => /eqP /size0nil ->.
case: hp => [->//|hp]; case: (posnP (size s)) => [/size0nil->//|s0].
rewrite chunksE //=; congr cons.
  by rewrite -hp; apply: (hf pre _ (drop chunk s)); rewrite cat_take_drop.
apply: (IH _ _ (pre ++ take chunk s)); first by rewrite size_drop; nlia.
  by rewrite -catA cat_take_drop.
case: (leqP (size s) chunk) => h; first by left; rewrite drop_oversize.
by right; rewrite size_cat hp size_takel ?(ltnW h) // mulSn addnC.
Qed.

Section PolyOps.
Variables (F : fieldType) (threads : nat).
Hypothesis ht : (0 < threads)%N.
Lemma poly_addE (l r : seq F) : (0 < size l)%N -> size r = size l ->
  poly_add threads l r = Some [seq l`_i + r`_i | i <- iota 0 (size l)].
Proof.
move=> h0 hs; rewrite /poly_add parallelize_mapi //; congr Some.
apply: (@eq_from_nth _ 0) => [|i]; rewrite size_mapi ?size_map ?size_iota // => hi.
by rewrite (nth_mapi _ 0) // hs hi (nth_map 0%N) ?size_iota // nth_iota.
Qed.
Lemma poly_scaleE (l : seq F) z : (0 < size l)%N ->
  poly_scale threads l z = Some [seq x * z | x <- l].
Proof.
move=> h0; rewrite /poly_scale (parallelize_slice (g := fun _ x => x * z)) //; last first.
  by move=> pre c post _; rewrite mapi_from_map.
by rewrite /mapi mapi_from_map.
Qed.
End PolyOps.

Section Main.
Variables (F B : fieldType) (G : lmodType F) (E : env B G) (ps : params G).
Hypothesis ok : env_ok E.
Add Field Ff : (F_field_theory F).
Local Notation Fo := [lmodType F of F^o].

Lemma generator_collapseE h (g : seq G) u : (0 < h)%N -> size g = (h + h)%N ->
  generator_collapse E g u = Some (foldv h u g).
Proof.
move=> h0 hs; rewrite /generator_collapse hs addnn doubleK.
rewrite (parallelize_slice (g := fun i x => x + u *: (drop h g)`_i)) ?(ok_threads ok) ?(size_take2 hs) //.
  congr Some; apply: (@eq_from_nth _ 0) => [|i]; rewrite size_mapi ?(size_take2 hs) ?size_map ?size_iota // => hi.
  rewrite (nth_mapi _ 0) ?(size_take2 hs) // (nth_map 0%N) ?size_iota // nth_iota // nth_take //.
  by rewrite nth_drop addnC.
move=> pre c post e.
have hl : (size pre + size c <= size (drop h g))%N.
  by rewrite (size_drop2 hs) -(size_take2 hs) e !size_cat addnA leq_addr.
move: (drop h g) hl => d hl {e}; elim: c pre hl => [|x c IH] pre hl /=; first by case: drop.
move: hl; rewrite /= => hl.
case ed: (drop (size pre) d) => [|y l].
  by move/(congr1 size): ed => /=; rewrite size_drop; nlia.
rewrite /=; congr (_ :: _).
  by rewrite -[y]/(nth 0 (y :: l) 0) -ed nth_drop addn0.
have := IH (rcons pre x); rewrite size_rcons => <-; last by rewrite addSnnS.
by congr map; congr zip; rewrite -addn1 addnC -drop_drop ed /= drop0.
Qed.

Notation rnd := (G * G * F * seq nat)%type.
Definition ru (r : rnd) : F := r.1.2.

Lemma ipa_roundsP z m i p b g f s res s' :
  size p = (2 ^ m)%N -> size b = (2 ^ m)%N -> size g = (2 ^ m)%N ->
  ipa_rounds E ps z m p b g f s = Ok (res, s') ->
  exists c f' (rounds : seq rnd),
   [/\ res = ([:: c], f'), size rounds = m,
       all (fun r => ru r != 0) rounds,
       replays s s' (mmap (fun _ => read_round E) (iota i m)) rounds &
       let us := [seq ru r | r <- rounds] in
       c *: dotG (svec us) g + (z * (c * dotG (svec us) (b : seq Fo))) *: p_u ps + f' *: p_w ps =
       dotG p g + (z * dotG p (b : seq Fo)) *: p_u ps + f *: p_w ps
       + \sum_(r <- rounds) ((ru r)^-1 *: r.1.1.1 + ru r *: r.1.1.2)].
Proof.
elim: m i p b g f s => [|m IH] i p b g f s sp sb sg /=.
  case=> <- <-; case: p sp => [|c []] //= _; case: b sb => [|b0 []] //= _; case: g sg => [|g0 []] //= _.
  exists c, f, [::]; split=> //; first exact: replays_ret.
  by rewrite big_nil addr0 !dotG_seq1 /= !scale1r.
have dbl : (2 ^ m.+1 = 2 ^ m + 2 ^ m)%N by rewrite addnn -mul2n -expnS.
rewrite dbl in sp sb sg; have h0 : (0 < 2 ^ m)%N by rewrite expn_gt0.
move=> h.
ubind h l; rewrite multiexpE ?(size_drop2 sp) ?(size_take2 sg) // => -[el].
ubind h r; rewrite multiexpE ?(size_take2 sp) ?(size_drop2 sg) // => -[er].
ubind h vl; rewrite inner_productE ?(size_drop2 sp) ?(size_take2 sb) // => -[evl].
ubind h vr; rewrite inner_productE ?(size_take2 sp) ?(size_drop2 sb) // => -[evr].
sbind h lr s1 => /draw_silent d1; sbind h rr s2 => /draw_silent d2.
ubind h l'; rewrite multiexpE // => -[el'].
ubind h r'; rewrite multiexpE // => -[er'].
have [[] [s3 [/(write_point_replay ok) [_ wl] {}h]]] := mbind_inv h.
have [[] [s4 [/(write_point_replay ok) [_ wr] {}h]]] := mbind_inv h.
have [u [s5 [/squeeze_encoded_replay [packed rp cp] {}h]]] := mbind_inv h.
move: h; case: eqP => // /eqP u0 h.
ubind h g'; rewrite (generator_collapseE _ h0 sg) => -[eg'].
have eb1 : [seq b`_i + b`_(i + 2 ^ m) * u | i <- iota 0 (2 ^ m)] = foldv (V := Fo) (2 ^ m) u b.
  by apply: eq_map => j; rewrite [_ * u]mulrC.
rewrite eb1 in h.
have [||| c [f' [rounds [-> sr hu rep eq]]]] := IH i.+1 _ _ _ _ _ _ _ _ h.
- by rewrite size_map size_iota.
- by rewrite size_map size_iota.
- by rewrite -eg' size_map size_iota.
exists c, f', ((l + l', r + r', u, packed) :: rounds); split=> //=.
- by rewrite sr.
- by rewrite u0 hu.
- apply: (replays_bind (s1 := s5)).
    apply: (replays_bind (s1 := s3)).
      apply: replays_map_err; apply: (replays_silent (silent_trans d1 d2)) wl.
    apply: (replays_bind (replays_map_err _ wr)).
    apply: (replays_bind rp).
    by apply: (replays_bind (replays_lift _ cp)); exact: replays_ret.
  by apply: (replays_bind rep); exact: replays_ret.
have su : size [seq ru r0 | r0 <- rounds] = m by rewrite size_map.
have := @fold_svec F G [seq ru r | r <- rounds] u g; rewrite su => /(_ sg) /= f1.
have := @fold_svec F Fo [seq ru r | r <- rounds] u b; rewrite su => /(_ sb) /= f2.
move: eq; rewrite -eg' big_cons /= f1 f2 [ru (_, _, u, _)]/= => ->.
rewrite (fold_round (V := G) u0 sp sg) (fold_round (V := Fo) u0 sp sb).
rewrite -el' -er' !dotG_cons !dotG_nil el er evl evr.
move: (\sum_(j <- rounds) _) => S.
rewrite /ru [(_, _, u, _).1.2]/= [(_ *: p_w ps + 0)]addr0 [(rr *: p_w ps + 0)]addr0.
move: (dotG p (b : seq Fo)) => d.
rewrite -[d + _ *: _ + _ *: _]/((d : F) + u^-1 * vl + u * vr); move: (d : F) => {}d.
by modsplit F G; fnorm F; field; apply/eqP.
Qed.

Hypothesis pok : params_ok E ps.
Let pn0 : (0 < p_n ps)%N. Proof. by rewrite (ps_n pok) expn_gt0. Qed.
Let psz : size (p_g ps) = p_n ps. Proof. by rewrite (ps_g pok) (ps_n pok). Qed.

Lemma rounds_foldE m (rounds : seq rnd) : mvalid E ps m ->
  exists2 m', foldl (fun om (ri : rnd * F) =>
      let: ((l, r, u_j, _), u_j_inv) := ri in
      obind (fun m => append_term E m u_j r) (obind (fun m => append_term E m u_j_inv l) om))
    (Some m) (zip rounds (batch_invert [seq r.1.2 | r <- rounds])) = Some m' &
  mvalid E ps m' /\ mval E ps m' = mval E ps m + \sum_(r <- rounds) ((ru r)^-1 *: r.1.1.1 + ru r *: r.1.1.2).
Proof.
elim: rounds m => [|[[[l r] u] pk] rounds IH] m vm /=.
  by exists m => //; rewrite big_nil addr0.
have [m1 -> [v1 e1]] := append_termE ok u^-1 l vm; rewrite /=.
have [m2 -> [v2 e2]] := append_termE ok u r v1.
have [m3 e [v3 e3]] := IH _ v2; exists m3 => //; split=> //.
by rewrite e3 e2 e1 big_cons /ru /= -!addrA.
Qed.

(* what the guard returned by verify_proof stands for *)
Lemma use_challengesE gd : mvalid E ps (gd_msm gd) -> size (gd_u gd) = p_k ps -> (0 < p_k ps)%N ->
  exists2 m', use_challenges ps gd = Some m' & mvalid E ps m' /\
    mval E ps m' = mval E ps (gd_msm gd) + gd_neg_c gd *: dotG (svec (gd_u gd)) (p_g ps).
Proof.
move=> vm su k0; rewrite /use_challenges compute_sE ?su //= -dotG_scalel.
by apply: add_to_g_scalarsE => //; rewrite size_map size_svec su (ps_n pok).
Qed.
Lemma compute_gE (gd : guard F B) : size (gd_u gd) = p_k ps -> (0 < p_k ps)%N ->
  compute_g E ps gd = Some (dotG (svec (gd_u gd)) (p_g ps)).
Proof.
move=> su k0; rewrite /compute_g compute_sE ?su //= multiexpE ?size_map ?size_svec ?su ?(ps_g pok) //.
by rewrite dotG_scalel scale1r.
Qed.

Lemma draws_silent n i s r s' : mmap (fun _ => draw (E := E)) (iota i n) s = Ok (r, s') ->
  silent s s' /\ size r = n.
Proof.
elim: n i s r s' => [|n IH] i s r s'; first by case=> <- <-.
move=> h; sbind h x s1 => /draw_silent d1; sbind h l s2 => /IH [d2 e2].
by case: h => <- <-; split; [exact: silent_trans d1 d2 | rewrite /= e2].
Qed.

Lemma dotG_sub_const (V : lmodType F) (p : seq F) x q (g : seq V) : sub_const p x = Some q ->
  size p = size g -> size q = size p /\ dotG q g = dotG p g - x *: g`_0.
Proof.
case: p g => [|c p] [|g0 g] //= [<-] [e]; split=> //.
by rewrite !dotG_cons scalerBl addrAC.
Qed.

Lemma ipa_complete p r x m v s s' :
  (0 < p_k ps)%N -> mvalid E ps m -> mval E ps m = dotG p (p_g ps) + r *: p_w ps ->
  ipa_create_proof E ps p r x s = Ok (tt, s') ->
  exists gd, [/\ replays s s' (ipa_verify_proof E ps m x v) gd,
    mvalid E ps (gd_msm gd), size (gd_u gd) = p_k ps &
    mval E ps (gd_msm gd) + gd_neg_c gd *: dotG (svec (gd_u gd)) (p_g ps) =
      (eval_polynomial p x - v) *: (p_g ps)`_0].
Proof.
move=> k0 vm em; rewrite /ipa_create_proof; case: eqP => // sp h.
have p0 : (0 < size p)%N by rewrite sp.
sbind h s0 s1 => /draws_silent [d1 ss0].
ubind h sp1 => hs1.
have [ss1 _] := dotG_sub_const (g := p_g ps) hs1 (etrans ss0 (etrans sp (esym psz))).
sbind h sb s2 => /draw_silent d2.
ubind h sc; rewrite commitE //; last by rewrite ss1 ss0 sp psz.
move=> -[esc]; sbind h t s3 => /(write_point_replay ok) [_ wsc].
sbind h xi s4 => /squeeze_replay rxi; sbind h z s5 => /squeeze_replay rz.
ubind h pp; rewrite poly_scaleE ?(ok_threads ok) ?ss1 ?ss0 //= poly_addE ?(ok_threads ok) ?size_map ?ss1 ?ss0 //.
move=> -[epp].
have spp : size pp = size p by rewrite -epp size_map size_iota.
ubind h p1 => hp1.
move: h; case: eqP => // sp1' h.
have dlin (V : lmodType F) (g : seq V) : size g = size p -> dotG pp g = xi *: dotG sp1 g + dotG p g.
  move=> sg; rewrite -dotG_scale; apply: dotG_add => i; rewrite sg -epp => hi.
  by rewrite (nth_map 0%N) ?size_iota // nth_iota.
have sx : dotG sp1 (powers x (size p)) = 0.
  have [_ ->] := dotG_sub_const (g := powers x (size p)) hs1 (etrans ss0 (esym (size_mkseq _ _))).
  rewrite dotG_powers ?ss0 // nth_mkseq // expr0.
  by rewrite -[_ *: 1]/(eval_polynomial s0 x * 1) mulr1 subrr.
have ex : eval_polynomial pp x = eval_polynomial p x.
  by rewrite -(@dotG_powers _ _ _ (size p) spp) dlin ?size_mkseq // sx scaler0 add0r dotG_powers.
have [_ eg] := dotG_sub_const (g := p_g ps) hp1 (etrans spp (etrans sp (esym psz))).
have [_ eb] := dotG_sub_const (g := powers x (size p)) hp1 (etrans spp (esym (size_mkseq _ _))).
move: eb; rewrite (dotG_powers x spp) nth_mkseq // expr0.
rewrite -[_ *: 1]/(eval_polynomial pp x * 1) mulr1 subrr => eb.
move: h; rewrite trajectE => h; sbind h out s6 => hr.
move: (ps_n pok) (ps_g pok) => hn hg.
have [c [f' [rounds [eres sr hu rep eq]]]] := ipa_roundsP 0 (etrans sp1' hn) (size_mkseq _ _) hg hr.
rewrite eres /= in h; sbind h t' s7 => /(write_scalar_replay ok) wc.
move: h => /(write_scalar_replay ok) wf.
have [m1 am1 [v1 e1]] := add_constant_termE pn0 psz (- v) vm.
have [m2 am2 [v2 e2]] := append_termE ok xi sc v1.
have [m3 am3 [v3 e3]] := rounds_foldE rounds v2.
have [v4 e4] := add_to_u_scalarE (- c * compute_b x [seq r.1.2 | r <- rounds] * z) v3.
have [v5 e5] := add_to_w_scalarE (- f') v4.
eexists; split.
- rewrite /ipa_verify_proof.
  apply: (replays_bind (replays_lift _ _)); first by rewrite am1.
  apply: (replays_bind (replays_silent (silent_trans d1 d2) (replays_map_err _ wsc))).
  apply: (replays_bind rxi).
  apply: (replays_bind (replays_lift _ _)); first by rewrite am2.
  apply: (replays_bind rz); apply: (replays_bind rep).
  apply: (replays_bind (replays_lift _ _)); first by rewrite am3.
  apply: (replays_bind (replays_map_err _ wc)).
  apply: (replays_bind (replays_map_err _ wf)).
  exact: replays_ret.
- exact: v5.
- by rewrite /= size_map.
rewrite /= e5 e4 e3 e2 e1 em -esc.
have -> : [seq r.1.2 | r <- rounds] = [seq ru r | r <- rounds] by [].
rewrite compute_bE size_map sr -hn -sp.
move: eq; rewrite /= -hn -sp eb mulr0 scale0r addr0 eg dlin ?psz ?sp // ex.
move: (\sum_(r <- rounds) _) (dotG (svec _) (p_g ps)) (dotG (svec _) (powers x _)).
move: (dotG sp1 (p_g ps)) (dotG p (p_g ps)) (eval_polynomial p x) => P Q e S D b eq.
have key : forall b0 : F, c *: D + (z * (c * b0)) *: p_u ps + f' *: p_w ps =
      xi *: P + Q - e *: (p_g ps)`_0 + (sb * xi + r) *: p_w ps + S ->
    Q + r *: p_w ps + - v *: (p_g ps)`_0 + xi *: (P + sb *: p_w ps) + S +
    (- c * b0 * z) *: p_u ps + - f' *: p_w ps + - c *: D = (e - v) *: (p_g ps)`_0.
  move=> b0 /esym; rewrite [_ + S]addrC => /(canRL (addrK _)) ->.
  by abel F G.
exact: key eq.
Qed.
End Main.
