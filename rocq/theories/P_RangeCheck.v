(* C43: the running-sum decompositions and the range checks enforce the range. *)
Set Warnings "-notation-overridden,-ambiguous-paths".
From mathcomp Require Import all_ssreflect all_algebra.
From Verif Require Import FieldTac Util M_Env M_Assigned P_Assigned M_Circuit S_Circuit M_Value M_Region S_Region
  M_Utilities L_Region S_Digits P_Bits.
Import GRing.Theory.
Set Implicit Arguments.
Unset Strict Implicit.
Local Open Scope ring_scope.

Local Arguments at_row : simpl never.
Local Arguments esub : simpl never.

Section RangeCheck.
Variables (F : fieldType) (pf : prime_field F) (p : nat).
Hypothesis ok : prime_field_ok pf p.
Add Field Ff : (F_field_theory F).
Implicit Types (T : table F) (place : nat -> int).

(* ---------------------------------------------------------------- arithmetic in F *)
Lemma natr_inj m n : (m < p)%N -> (n < p)%N -> m%:R = n%:R :> F -> m = n.
Proof. by move=> hm hn /(congr1 (pf_val pf)); rewrite !(pf_natr ok) !modn_small. Qed.
Lemma val_natr n : (n < p)%N -> pf_val pf n%:R = n.
Proof. by move=> h; rewrite (pf_natr ok) modn_small. Qed.
Lemma natr_eq0 n : (n%:R == 0 :> F) = (p %| n)%N.
Proof.
apply/eqP/idP => [h|/dvdnP[q ->]].
  by rewrite /dvdn -(pf_natr ok) h -[0](mulr0n 1) (pf_natr ok) mod0n.
rewrite -[LHS](pf_valK ok) (pf_natr ok) modnMl //.
Qed.
Lemma pow2_neq0 K : odd p -> (2 ^ K)%N%:R != 0 :> F.
Proof.
move=> op; rewrite natr_eq0; apply/negP => h.
have := pf_prime ok => pp; move: h; rewrite Euclid_dvdX // => /andP[h _].
by move: h; rewrite dvdn_prime2 // => /eqP e; rewrite e in op.
Qed.

Lemma row_succ (a : int) o j : a + (o + j)%N%:Z + 1 = a + (o + j.+1)%N%:Z.
Proof. by rewrite -addrA; congr (_ + _); rewrite addnS -addn1 PoszD. Qed.

Lemma scale_back (a b d : F) : d != 0 -> b * d * a * d^-1 = a * b.
Proof. by move=> h; rewrite [b * d * a]mulrC mulrA mulfK. Qed.

(* ---------------------------------------------------------------- range_check *)
Theorem C43_range_check T row (word : expr F) range : (0 < range)%N ->
  at_row T row (range_check word range) = 0 <-> exists2 i, (i < range)%N & at_row T row word = i%:R.
Proof.
case: range => // n _; rewrite /range_check subn1 /=.
elim: n => [|n IH].
  split=> [h|]; first by exists 0%N.
  by case=> -[|i] // _ ->.
rewrite -{1}[n.+1]addn1 iotaD foldl_cat /= rowE; split.
  move/eqP; rewrite mulf_eq0 => /orP[/eqP/IH[i hi ->]|]; first by exists i => //; rewrite ltnW.
  by rewrite !rowE subr_eq0 add1n => /eqP <-; exists n.+1.
case=> i; rewrite ltnS leq_eqVlt => /orP[/eqP ->|hi] e.
  by rewrite !rowE e add1n subrr mulr0.
suff -> : at_row T row (foldl (fun acc i => EProduct acc (esub (EConstant i%:R) word)) word (iota 1 n)) = 0.
  by rewrite mul0r.
by apply/IH; exists i.
Qed.

(* ---------------------------------------------------------------- a chain of running sums *)
Lemma chain (B n : nat) (c : nat -> F) :
  (forall j, (j < n)%N -> exists2 k, (k < B)%N & c j - B%:R * c j.+1 = k%:R) ->
  exists2 ks, size ks = n & all (fun k => (k < B)%N) ks /\
    (forall j, (j <= n)%N -> c j = (dval B (drop j ks))%:R + (B ^ (n - j))%N%:R * c n).
Proof.
elim: n c => [|n IH] c h.
  by exists [::] => //; split=> // -[|j] //= _; rewrite dval_nil expn0 add0r mul1r.
have [ks hs [ha hc]] := IH (fun j => c j.+1) (fun j hj => h j.+1 hj).
have [k hk e] := h 0%N isT.
exists (k :: ks); first by rewrite /= hs.
split; first by rewrite /= hk.
case=> [_|j hj] /=; last exact: hc.
have := hc 0%N isT; rewrite drop0 !subn0 => h1.
have -> : c 0%N = k%:R + B%:R * c 1%N by rewrite -e subrK.
by rewrite h1 dval_cons natrD natrM expnS natrM mulrDr mulrA addrA.
Qed.

(* ---------------------------------------------------------------- the running sum's cells *)
Variable inst : nat -> nat -> value F.
Fixpoint sums (inv : F) (cur : value F) (words : seq (value nat)) : seq (value F) :=
  if words is word :: words' then
    let nxt := v_op2 *%R (v_op2 (fun x y : F => x - y) cur (v_map (fun w => w%:R) word)) (known inv) in
    nxt :: sums inv nxt words'
  else [::].
Lemma size_sums inv cur words : size (sums inv cur words) = size words.
Proof. by elim: words cur => //= w ws IH cur; rewrite IH. Qed.
Lemma assign_sumsE region z offset inv cur i words :
  calls inst (assign_sums region z offset inv cur i words)
    = mapi_from (offset + i + 1) (fun o v => OAdvice z o (v_of_field v)) (sums inv (ac_value cur) words)
  /\ returns inst (assign_sums region z offset inv cur i words)
    = Ok (mapi_from (offset + i + 1) (fun o v => ACell v (Cell region o (Advice, z))) (sums inv (ac_value cur) words)).
Proof.
elim: words cur i => //= w ws IH cur i.
set a := ACell _ _; have [h1 h2] := IH a i.+1.
have e : (offset + i.+1 + 1 = (offset + i + 1).+1)%N by rewrite !addn1 addnS.
by rewrite e in h1 h2; rewrite (calls_bind _ h2) returns_bind h1 h2 /= cats0.
Qed.

(* what rs_decompose does when it returns *)
Lemma rs_inv q z K region offset z_0 strict wbits nwin zs :
  returns inst (rs_decompose pf q z K region offset z_0 strict wbits nwin) = Ok zs ->
  [/\ size zs = nwin.+1, (forall j, (0 < j <= nwin)%N -> ac_cell (nth z_0 zs j) = Cell region (offset + j) (Advice, z)),
      nth z_0 zs 0 = z_0 &
      exists rest, calls inst (rs_decompose pf q z K region offset z_0 strict wbits nwin)
        = [seq OEnable q (offset + j) | j <- iota 0 nwin] ++ rest
          ++ (if strict then [:: OConstrainConstant (ac_cell (nth z_0 zs nwin)) (ATrivial 0)] else [::])].
Proof.
rewrite /rs_decompose; case: ifP => // _; have [e1 e2] := @enable_rowsE F inst q offset nwin.
rewrite returns_bind (calls_bind _ e2) e1 e2 /=.
case: (map_transpose _ _ _) => [words|] //; case: ifP => // _.
have [h1 h2] := assign_sumsE region z offset ((2 ^ K)%N%:R^-1) z_0 0 words.
rewrite returns_bind (calls_bind _ h2) h1 h2 /= addn0.
set ss := sums _ _ _; have hs : size ss = size words by exact: size_sums.
rewrite size_mapi_from hs eqSS; case: eqP => // e.
set cells := mapi_from _ _ _.
have hz : returns inst (if strict then (constrain_constant (ac_cell (last z_0 cells)) 0 ;+ RRet F (z_0 :: cells))
  else RRet F (z_0 :: cells)) = Ok (z_0 :: cells) by case: strict.
rewrite hz => -[<-]; split=> //; first by rewrite /= size_mapi_from hs e.
  case=> [|j] //= hj; rewrite (nth_mapi_from _ _ unknown) ?hs ?e //=.
  by congr Cell; rewrite addn1 addSn addnS.
exists (mapi_from (offset + 1) (fun o v => OAdvice z o (v_of_field v)) ss).
congr (_ ++ (_ ++ _)); case: (strict) => //=; congr [:: OConstrainConstant (ac_cell _) _].
by rewrite -e -hs -[in RHS](size_mapi_from (fun o v => ACell v (Cell region o (Advice, z))) (offset + 1) ss)
  -/cells -[RHS]/(nth z_0 (z_0 :: cells) (size cells)) -nth_last /=; case: (cells).
Qed.

(* C43: the running sum.  For every table in which the region's selectors and constraints are
   respected and the gate holds, whatever the prover put in the advice cells. *)
Theorem C43_running_sum_sound T place q z K region offset z_0 strict wbits nwin zs :
  returns inst (rs_decompose pf q z K region offset z_0 strict wbits nwin) = Ok zs ->
  ac_cell z_0 = Cell region offset (Advice, z) ->
  respects T place region (calls inst (rs_decompose pf q z K region offset z_0 strict wbits nwin)) ->
  gates_hold T [:: running_sum_gate F q z K] ->
  let v j := cell_value T place (ac_cell (nth z_0 zs j)) in
  exists2 ks, size ks = nwin & [/\ all (fun k => (k < 2 ^ K)%N) ks,
    v 0%N = (dval (2 ^ K) ks)%:R + (2 ^ (K * nwin))%N%:R * v nwin &
    strict -> v 0%N = (dval (2 ^ K) ks)%:R /\
      ((2 ^ (K * nwin) <= p)%N ->
       (pf_val pf (v 0%N) < 2 ^ (K * nwin))%N /\
       forall j, (j <= nwin)%N -> v j = (pf_val pf (v 0%N) %/ 2 ^ (K * j))%:R)].
Proof.
move=> /rs_inv[hsz hcells h0 [rest ->]] hz0 hres hg v.
have hcell j : (j <= nwin)%N -> v j = t_cell T Advice z (place region + (offset + j)%N%:Z).
  by case: j => [_|j hj]; rewrite /v ?h0 ?hz0 ?addn0 // hcells.
move: hres; rewrite !respects_cat => -[hen [_ hst]].
have step j : (j < nwin)%N -> exists2 k, (k < 2 ^ K)%N & v j - (2 ^ K)%N%:R * v j.+1 = k%:R.
  move=> hj; have hsel := respects_rows hen hj.
  have := gate_at (place region + (offset + j)%N%:Z) hg (or_introl erefl).
  rewrite /running_sum_gate at_mul at_sel hsel mul1r => /C43_range_check[]; first by rewrite expn_gt0.
  move=> k hk; rewrite !rowE addr0 => e; exists k => //.
  have er := row_succ (place region) offset j.
  by rewrite (hcell j) ?(ltnW hj) // (hcell j.+1) // -er.
have [ks hs [ha hc]] := chain step.
have e0 := hc 0%N isT; rewrite drop0 subn0 -expnM in e0.
exists ks => //; split=> // hstr; rewrite hstr /= in hst.
have vn0 : v nwin = 0.
  by move: hst; rewrite respects_cons => -[+ _] /=; rewrite /v => ->; rewrite /denote /= .
have e1 : v 0%N = (dval (2 ^ K) ks)%:R by rewrite e0 vn0 mulr0 addr0.
split=> // hp.
have hlt : (dval (2 ^ K) ks < 2 ^ (K * nwin))%N by rewrite expnM -hs; apply: dval_lt.
have ev : pf_val pf (v 0%N) = dval (2 ^ K) ks by rewrite e1 val_natr // (leq_trans hlt hp).
rewrite ev; split=> // j hj; rewrite hc // vn0 mulr0 addr0 expnM.
by rewrite dval_drop ?hs ?expn_gt0.
Qed.

(* ---------------------------------------------------------------- the honest prover *)
(* z_1, z_2, ... computed from z_0 = x *)
Fixpoint zvals (inv x : F) (ds : seq nat) : seq F :=
  if ds is d :: ds' then let y := (x - d%:R) * inv in y :: zvals inv y ds' else [::].
Lemma size_zvals inv x ds : size (zvals inv x ds) = size ds.
Proof. by elim: ds x => //= d ds IH x; rewrite IH. Qed.
Lemma sums_known inv x ds : sums inv (known x) [seq known d | d <- ds] = [seq known y | y <- zvals inv x ds].
Proof. by elim: ds x => //= d ds IH x; rewrite -IH. Qed.
Lemma zvals_step (B : nat) x ds j : B%:R != 0 :> F -> (j < size ds)%N ->
  nth 0 (x :: zvals B%:R^-1 x ds) j - B%:R * nth 0 (x :: zvals B%:R^-1 x ds) j.+1 = (nth 0%N ds j)%:R.
Proof.
move=> hB; elim: ds x j => // d ds IH x [|j] hj; last exact: IH.
by rewrite /= mulrCA mulfV // mulr1 subKr.
Qed.
Lemma zvals_dval (B : nat) x ds j : B%:R != 0 :> F -> x = (dval B ds)%:R -> (j <= size ds)%N ->
  nth 0 (x :: zvals B%:R^-1 x ds) j = (dval B (drop j ds))%:R.
Proof.
move=> hB; elim: ds x j => [|d ds IH] x [|j] //= hx hj; apply: IH => //.
by rewrite hx dval_cons natrD natrM addrC addKr mulrC mulKf.
Qed.
Lemma honest_column T place r z o ys j :
  honest T place r (mapi_from o (fun o v => OAdvice z o (v_of_field v)) [seq known y | y <- ys]) ->
  (j < size ys)%N -> t_cell T Advice z (place r + (o + j)%N%:Z) = nth 0 ys j.
Proof.
elim: ys o j => // y ys IH o j /=; rewrite honest_cons => -[h1 h2].
case: j => [_|j hj]; last by rewrite addnS -addSn (IH _ _ h2).
by rewrite addn0 (h1 (ATrivial y)).
Qed.

Theorem C43_running_sum_complete T place q z K region offset z_0 x strict wbits nwin :
  odd p -> (0 < K <= 8)%N -> (wbits <= pf_repr_bits pf)%N -> (wbits <= K * nwin < wbits + K)%N ->
  ac_cell z_0 = Cell region offset (Advice, z) -> holds_value T place z_0 x ->
  exists2 zs, returns inst (rs_decompose pf q z K region offset z_0 strict wbits nwin) = Ok zs &
  honest T place region (calls inst (rs_decompose pf q z K region offset z_0 strict wbits nwin)) ->
  (forall j, (j < nwin)%N -> at_row T (place region + (offset + j)%N%:Z) (running_sum_gate F q z K) = 0) /\
  ((pf_val pf x < 2 ^ wbits)%N ->
    (forall j, (j <= nwin)%N -> holds_value T place (nth z_0 zs j) (pf_val pf x %/ 2 ^ (K * j))%:R) /\
    (* so the strict constraint z_W = 0 is met *)
    cell_value T place (ac_cell (nth z_0 zs nwin)) = 0).
Proof.
move=> op hK hw /andP[hw1 hw2] hc [hv0 hv1].
have [K0 _] := andP hK.
have [ds eds [hsz hall hd]] := C48_decompose_word x hK hw.
have hn : size ds = nwin.
  have : (K * size ds < K * nwin.+1)%N /\ (K * nwin < K * (size ds).+1)%N.
    rewrite hsz !mulnS hsz; have := ltn_pmod (K - wbits %% K) K0; set pad := ((K - _) %% K)%N => hp.
    split; last by rewrite addnC (leq_trans hw2) // leq_add2r leq_addr.
    by rewrite addnC -addSn leq_add.
  by rewrite !ltn_pmul2l // !ltnS => -[h1 h2]; apply/eqP; rewrite eqn_leq h1 h2.
have hB := pow2_neq0 K op.
rewrite /rs_decompose hw2 [~~ _]/=; have [e1 e2] := @enable_rowsE F inst q offset nwin.
rewrite returns_bind (calls_bind _ e2) e1 e2 {e1 e2} [rbind _ _]/=.
have -> : map_transpose (fun w => decompose_word pf w wbits K) (ac_value z_0) nwin = Some [seq known d | d <- ds].
  by rewrite hv0 /map_transpose /= eds /= /v_transpose_vec /= hn eqxx.
rewrite (negbTE hB).
have [h1 h2] := assign_sumsE region z offset ((2 ^ K)%N%:R^-1) z_0 0 [seq known d | d <- ds].
rewrite returns_bind (calls_bind _ h2) h1 h2 {h1 h2} [rbind _ _]/= addn0 hv0 sums_known.
set ys := zvals _ _ _; have hys : size ys = nwin by rewrite size_zvals hn.
rewrite [size _]/= size_mapi_from size_map hys eqxx [~~ _]/=.
set cells := mapi_from _ _ _.
have hz : returns inst (if strict then (constrain_constant (ac_cell (last z_0 cells)) 0 ;+ RRet F (z_0 :: cells))
  else RRet F (z_0 :: cells)) = Ok (z_0 :: cells) by case: strict.
exists (z_0 :: cells) => //; rewrite !honest_cat => -[_ [hh _]].
have hcell j : (j <= nwin)%N -> t_cell T Advice z (place region + (offset + j)%N%:Z) = nth 0 (x :: ys) j.
  case: j => [_|j hj]; first by rewrite addn0 -hv1 /cell_value hc.
  by rewrite addnS -addn1 -addnA [(j + 1)%N]addnC addnA (honest_column hh) ?hys.
have hnth j : (j <= nwin)%N -> nth z_0 (z_0 :: cells) j = ACell (known (nth 0 (x :: ys) j)) (Cell region (offset + j) (Advice, z)).
  case: j => [_|j hj] /=; first by rewrite addn0 -hc -hv0; case: (z_0).
  rewrite (nth_mapi_from _ _ unknown) ?size_map ?hys // (nth_map 0) ?hys //.
  by rewrite addn1 addSn addnS.
split=> [j hj|hx].
  rewrite /running_sum_gate at_mul (_ : at_row _ _ (range_check _ _) = 0) ?mulr0 //.
  apply/C43_range_check; first by rewrite expn_gt0.
  exists (nth 0%N ds j); first by apply: (all_nthP 0%N hall); rewrite hn.
  have er : place region + (offset + j)%N%:Z + 1 = place region + (offset + j.+1)%N%:Z.
    exact: row_succ.
  by rewrite !rowE addr0 er !hcell ?(ltnW hj) // zvals_step ?hn.
have hxd : x = (dval (2 ^ K) ds)%:R by rewrite hd modn_small // (pf_valK ok).
have hv j : (j <= nwin)%N -> nth 0 (x :: ys) j = (pf_val pf x %/ 2 ^ (K * j))%:R.
  by move=> hj; rewrite zvals_dval ?hn // -dval_drop ?hn ?expn_gt0 // -expnM hd modn_small.
split=> [j hj|]; last first.
  rewrite hnth // /cell_value /row_of hcell // hv // divn_small //.
  by rewrite (leq_trans hx) // leq_exp2l.
by rewrite hnth // hv //; split=> //; rewrite /cell_value /row_of hcell // hv.
Qed.

(* ---------------------------------------------------------------- the lookup range check *)
Implicit Types c : lrc.
Fixpoint lsums (inv : F) (cur : value F) (words : seq (value F)) : seq (value F) :=
  if words is word :: words' then
    let nxt := v_map (fun zw : F * F => (zw.1 - zw.2) * inv) (v_zip cur word) in
    nxt :: lsums inv nxt words'
  else [::].
Lemma size_lsums inv cur words : size (lsums inv cur words) = size words.
Proof. by elim: words cur => //= w ws IH cur; rewrite IH. Qed.
Definition lrc_step c (idx : nat) (v : value F) : seq (rop F) :=
  [:: OEnable (q_lookup c) idx; OEnable (q_running c) idx; OAdvice (running_sum c) (idx + 1) (v_of_field v)].
Lemma lrc_assignE c region inv cur idx words :
  calls inst (lrc_assign c region inv cur idx words)
    = flatten (mapi_from idx (lrc_step c) (lsums inv (ac_value cur) words))
  /\ returns inst (lrc_assign c region inv cur idx words)
    = Ok (mapi_from idx (fun o v => ACell v (Cell region (o + 1) (Advice, running_sum c)))
            (lsums inv (ac_value cur) words)).
Proof.
elim: words cur idx => //= w ws IH cur idx.
set a := ACell _ _; have [h1 h2] := IH a idx.+1.
by rewrite (calls_bind _ h2) returns_bind h1 h2 /= cats0.
Qed.
Lemma respects_steps T place r c b vs j : respects T place r (flatten (mapi_from b (lrc_step c) vs)) ->
  (j < size vs)%N ->
  t_selector T (q_lookup c) (place r + (b + j)%N%:Z) /\ t_selector T (q_running c) (place r + (b + j)%N%:Z).
Proof.
elim: vs b j => // v vs IH b j /=; rewrite !respects_cons => -[h1 [h2 [_ h3]]].
case: j => [_|j hj]; first by rewrite addn0.
by rewrite addnS -addSn; apply: (IH _ _ h3).
Qed.
Lemma honest_steps T place r c b ys j :
  honest T place r (flatten (mapi_from b (lrc_step c) [seq known y | y <- ys])) ->
  (j < size ys)%N -> t_cell T Advice (running_sum c) (place r + (b + j.+1)%N%:Z) = nth 0 ys j.
Proof.
elim: ys b j => // y ys IH b j /=; rewrite !honest_cons => -[_ [_ [h1 h2]]].
case: j => [_|j hj]; last by rewrite addnS -addSn (IH _ _ h2).
by rewrite (h1 (ATrivial y)).
Qed.
Lemma lrc_enabled c b (vs : seq (value F)) s o :
  enabled_in (flatten (mapi_from b (lrc_step c) vs)) s o
    = ((q_lookup c == s) || (q_running c == s)) && (b <= o < b + size vs)%N.
Proof.
elim: vs b => [|v vs IH] b /=; first by rewrite addn0; case: leqP => h; rewrite ?andbF //= ltnNge h !andbF.
rewrite [enabled_in _ _ _]/= -/(enabled_in _ s o) IH addnS addSn.
case: (q_lookup c == s) => /=; case: (q_running c == s) => //=; rewrite ?orbF;
  by case: (ltngtP b o) => h //=; rewrite ?h ?ltnS ?leq_addr ?andbT //= ?orbF.
Qed.

Lemma lrc_inv c K region element nw strict zs :
  returns inst (lrc_range_check pf c K region element nw strict) = Ok zs ->
  [/\ (nw * K <= pf_num_bits pf - 1)%N, size zs = nw.+1,
      (forall j, (0 < j <= nw)%N -> ac_cell (nth element zs j) = Cell region j (Advice, running_sum c)),
      nth element zs 0 = element &
      exists2 vs, size vs = nw & calls inst (lrc_range_check pf c K region element nw strict)
        = flatten (mapi_from 0 (lrc_step c) vs)
          ++ (if strict then [:: OConstrainConstant (ac_cell (nth element zs nw)) (ATrivial 0)] else [::])].
Proof.
rewrite /lrc_range_check; case: ifP => // /negbFE hb.
case hm: (map_transpose _ _ _) => [words|] //; case: ifP => // _.
have hw : size words = nw.
  move: hm; rewrite /map_transpose; case: (inner _) => [y|] /=.
    case: (lrc_words _ _ _ _) => //= ws; rewrite /v_transpose_vec /=; case: eqP => // <- [<-].
    by rewrite size_map.
  by rewrite /v_transpose_vec /= => -[<-]; rewrite size_map size_iota.
have [h1 h2] := lrc_assignE c region ((2 ^ K)%N%:R^-1) element 0 words.
rewrite returns_bind (calls_bind _ h2) h1 h2 [rbind _ _]/=.
set ss := lsums _ _ _; have hs : size ss = nw by rewrite size_lsums.
set cells := mapi_from _ _ _; have hcs : size cells = nw by rewrite size_mapi_from.
have hz : returns inst (if strict then (constrain_constant (ac_cell (last element cells)) 0 ;+ RRet F (element :: cells))
  else RRet F (element :: cells)) = Ok (element :: cells) by case: strict.
rewrite hz => -[<-]; split=> //; first by rewrite /= hcs.
  case=> [|j] //= hj; rewrite (nth_mapi_from _ _ unknown) ?hs //=.
  by rewrite add0n addn1.
exists ss => //; congr (_ ++ _); case: (strict) => //=; congr [:: OConstrainConstant (ac_cell _) _].
by rewrite -{1}hcs -[RHS]/(nth element (element :: cells) (size cells)) -nth_last /=; case: (cells).
Qed.

Lemma lookup_input_running T row c K : t_selector T (q_lookup c) row -> t_selector T (q_running c) row ->
  at_row T row (lrc_lookup F c K)
    = t_cell T Advice (running_sum c) row - (2 ^ K)%N%:R * t_cell T Advice (running_sum c) (row + 1).
Proof. by move=> h1 h2; rewrite /lrc_lookup !rowE h1 h2 addr0 /= subrr mul0r addr0 !mul1r. Qed.
Lemma lookup_input_short T row c K : t_selector T (q_lookup c) row -> t_selector T (q_running c) row = false ->
  at_row T row (lrc_lookup F c K) = t_cell T Advice (running_sum c) row.
Proof. by move=> h1 h2; rewrite /lrc_lookup !rowE h1 h2 addr0 /= subr0 mul0r add0r !mul1r. Qed.

(* the K-bit words *)
Definition word (K : nat) (x : F) : Prop := exists2 k, (k < 2 ^ K)%N & x = k%:R.
(* the looked-up table column holds the K-bit words and nothing else *)
Definition range_table T (usable : int -> Prop) (col K : nat) : Prop :=
  (forall row, usable row -> word K (t_cell T Fixed col row)) /\
  (forall k, (k < 2 ^ K)%N -> exists2 row, usable row & t_cell T Fixed col row = k%:R).

(* what C43 says of the cells z_0, z_1, ..., z_W of a W-word decomposition *)
Definition decomposes (K nw : nat) (strict : bool) (v : nat -> F) : Prop :=
  exists2 ks, size ks = nw & [/\ all (fun k => (k < 2 ^ K)%N) ks,
    v 0%N = (dval (2 ^ K) ks)%:R + (2 ^ (K * nw))%N%:R * v nw &
    strict -> (pf_val pf (v 0%N) < 2 ^ (K * nw))%N /\
      forall j, (j <= nw)%N -> v j = (pf_val pf (v 0%N) %/ 2 ^ (K * j))%:R].

Lemma lrc_sound T place c K region element nw strict zs :
  returns inst (lrc_range_check pf c K region element nw strict) = Ok zs ->
  ac_cell element = Cell region 0 (Advice, running_sum c) ->
  respects T place region (calls inst (lrc_range_check pf c K region element nw strict)) ->
  (forall j, (j < nw)%N -> word K (at_row T (place region + j%:Z) (lrc_lookup F c K))) ->
  decomposes K nw strict (fun j => cell_value T place (ac_cell (nth element zs j))).
Proof.
move=> /lrc_inv[hb hsz hcells h0 [vs hvs ->]] hz0 hres hw; set v := fun j => _.
have hcell j : (j <= nw)%N -> v j = t_cell T Advice (running_sum c) (place region + (0 + j)%N%:Z).
  by rewrite add0n; case: j => [_|j hj]; rewrite /v ?h0 ?hz0 // hcells.
move: hres; rewrite !respects_cat => -[hen hst].
have step j : (j < nw)%N -> exists2 k, (k < 2 ^ K)%N & v j - (2 ^ K)%N%:R * v j.+1 = k%:R.
  move=> hj; have hj' : (j < size vs)%N by rewrite hvs.
  have [s1 s2] := respects_steps hen hj'.
  have [k hk] := hw _ hj; rewrite -[j%:Z]/((0 + j)%N%:Z) lookup_input_running //.
  rewrite (hcell j) ?(ltnW hj) // (hcell j.+1) // row_succ => e; by exists k.
have [ks hs [ha hc]] := chain step.
have e0 := hc 0%N isT; rewrite drop0 subn0 -expnM in e0.
exists ks => //; split=> // hstr; rewrite hstr /= in hst.
have vn0 : v nw = 0.
  by move: hst; rewrite respects_cons => -[+ _] /=; rewrite /v => ->; rewrite /denote /= .
have e1 : v 0%N = (dval (2 ^ K) ks)%:R by rewrite e0 vn0 mulr0 addr0.
have hp : (2 ^ (K * nw) <= p)%N.
  have /andP[hp _] := pf_bits ok; apply: leq_trans hp.
  by rewrite leq_exp2l // mulnC.
have hlt : (dval (2 ^ K) ks < 2 ^ (K * nw))%N by rewrite expnM -hs; apply: dval_lt.
have ev : pf_val pf (v 0%N) = dval (2 ^ K) ks by rewrite e1 val_natr // (leq_trans hlt hp).
rewrite ev; split=> // j hj; rewrite hc // vn0 mulr0 addr0 expnM.
by rewrite dval_drop ?hs ?expn_gt0.
Qed.

Theorem C43_lookup_sound T place usable c K region element nw strict zs :
  returns inst (lrc_range_check pf c K region element nw strict) = Ok zs ->
  ac_cell element = Cell region 0 (Advice, running_sum c) ->
  respects T place region (calls inst (lrc_range_check pf c K region element nw strict)) ->
  looked_up T usable [:: lrc_lookup F c K] [:: table_idx c] -> range_table T usable (table_idx c) K ->
  (forall j, (j < nw)%N -> usable (place region + j%:Z)) ->
  decomposes K nw strict (fun j => cell_value T place (ac_cell (nth element zs j))).
Proof.
move=> h1 h2 h3 hl [ht _] hu; apply: (lrc_sound h1 h2 h3) => j hj.
by have [row' hr [->]] := hl _ (hu _ hj); apply: ht.
Qed.

Lemma lrc_wordsE K nw x : (0 < K <= 64)%N -> (nw * K <= pf_repr_bits pf)%N ->
  exists2 ds, lrc_words pf K (nw * K) x = Some [seq d%:R | d <- ds] &
    [/\ size ds = nw, all (fun d => (d < 2 ^ K)%N) ds & dval (2 ^ K) ds = (pf_val pf x %% 2 ^ (K * nw))%N].
Proof.
case/andP=> K0 K64 hn; rewrite /lrc_words -leqn0 leqNgt K0 /=.
set bits := take _ _; have hs : size bits = (K * nw)%N.
  by rewrite size_takel 1?mulnC // /to_le_bits size_map size_iota mulnC.
have [h1 h2 h3] := chunks_exact_dval K0 hs.
exists [seq word_of_bits ch | ch <- chunks_exact K bits]; last split=> //.
  rewrite (_ : map _ (chunks_exact _ _) = [seq Some x | x <- [seq d%:R : F | d <- [seq word_of_bits ch | ch <- chunks_exact K bits]]]).
    by move: [seq _%:R | _ <- _] => l; elim: l => //= y ys ->.
  rewrite -!map_comp; apply: eq_map => i /=; set ch := take K _.
  have hsz : (size ch <= 64)%N.
    by apply: leq_trans K64; rewrite size_take; case: ltnP.
  by have [/(_ hsz)[-> _] _] := C48_lebs2ip ch; rewrite /= word_of_bitsE.
rewrite h3.
have := @slice_bits F pf x 0 (nw * K); rewrite add0n drop0 -/bits => -> //.
by rewrite bits_dval expn0 divn1 mulnC.
Qed.
Lemma lsums_known inv x ds :
  lsums inv (known x) [seq known y | y <- [seq d%:R | d <- ds]] = [seq known y | y <- zvals inv x ds].
Proof. by elim: ds x => //= d ds IH x; rewrite -IH. Qed.

Theorem C43_lookup_complete T place usable c K region element x nw strict :
  odd p -> (0 < K <= 64)%N -> (nw * K <= pf_num_bits pf - 1)%N ->
  ac_cell element = Cell region 0 (Advice, running_sum c) -> holds_value T place element x ->
  exists2 zs, returns inst (lrc_range_check pf c K region element nw strict) = Ok zs &
  let ops := calls inst (lrc_range_check pf c K region element nw strict) in
  honest T place region ops -> only_enabled T place region nw [:: q_lookup c; q_running c] ops ->
  range_table T usable (table_idx c) K ->
  (forall j, (j < nw)%N -> exists2 row', usable row' &
     at_row T (place region + j%:Z) (lrc_lookup F c K) = t_cell T Fixed (table_idx c) row') /\
  ((pf_val pf x < 2 ^ (K * nw))%N ->
    (forall j, (j <= nw)%N -> holds_value T place (nth element zs j) (pf_val pf x %/ 2 ^ (K * j))%:R) /\
    cell_value T place (ac_cell (nth element zs nw)) = 0).
Proof.
move=> op hK hb hc [hv0 hv1].
have hr : (nw * K <= pf_repr_bits pf)%N.
  by apply: leq_trans hb _; apply: leq_trans (leq_subr _ _) (pf_repr ok).
have [ds eds [hn hall hd]] := lrc_wordsE x hK hr.
have hB := pow2_neq0 K op.
rewrite /lrc_range_check hb [~~ _]/=.
have -> : map_transpose (lrc_words pf K (nw * K)) (ac_value element) nw = Some [seq known y | y <- [seq d%:R | d <- ds]].
  by rewrite hv0 /map_transpose /= eds /= /v_transpose_vec /= size_map hn eqxx.
rewrite (negbTE hB).
have [h1 h2] := lrc_assignE c region ((2 ^ K)%N%:R^-1) element 0 [seq known y | y <- [seq d%:R | d <- ds]].
rewrite returns_bind (calls_bind _ h2) h1 h2 {h1 h2} [rbind _ _]/= hv0 lsums_known.
set ys := zvals _ _ _; have hys : size ys = nw by rewrite size_zvals hn.
set cells := mapi_from _ _ _.
have hz : returns inst (if strict then (constrain_constant (ac_cell (last element cells)) 0 ;+ RRet F (element :: cells))
  else RRet F (element :: cells)) = Ok (element :: cells) by case: strict.
exists (element :: cells) => //; set ops := _ ++ _; cbv zeta => hh hon [_ htab].
have hst s off : s \in [:: q_lookup c; q_running c] -> (off < nw)%N -> t_selector T s (place region + off%:Z).
  move=> hs ho; rewrite hon // enabled_cat lrc_enabled size_map hys add0n ho /= andbT.
  by move: hs; rewrite !inE [q_lookup c == s]eq_sym [q_running c == s]eq_sym => ->.
move: hh; rewrite honest_cat => -[hh _].
have hcell j : (j <= nw)%N -> t_cell T Advice (running_sum c) (place region + (0 + j)%N%:Z) = nth 0 (x :: ys) j.
  case: j => [_|j hj]; first by rewrite addn0 -hv1 /cell_value hc.
  by rewrite (honest_steps hh) ?hys.
have hnth j : (j <= nw)%N -> nth element (element :: cells) j = ACell (known (nth 0 (x :: ys) j)) (Cell region j (Advice, running_sum c)).
  case: j => [_|j hj] /=; first by rewrite -hc -hv0; case: (element).
  by rewrite (nth_mapi_from _ _ unknown) ?size_map ?hys // (nth_map 0) ?hys // add0n addn1.
split=> [j hj|hx].
  have hdj : (nth 0%N ds j < 2 ^ K)%N by apply: (all_nthP 0%N hall); rewrite hn.
  have [row' hu e] := htab _ hdj.
  exists row' => //; rewrite e lookup_input_running; try by apply: hst; rewrite ?inE ?eqxx ?orbT.
  by rewrite -[j%:Z]/((0 + j)%N%:Z) row_succ !hcell ?(ltnW hj) // zvals_step ?hn.
have hxd : x = (dval (2 ^ K) ds)%:R by rewrite hd modn_small // (pf_valK ok).
have hv j : (j <= nw)%N -> nth 0 (x :: ys) j = (pf_val pf x %/ 2 ^ (K * j))%:R.
  by move=> hj; rewrite zvals_dval ?hn // -dval_drop ?hn ?expn_gt0 // -expnM hd modn_small.
have hcv j : (j <= nw)%N -> cell_value T place (Cell region j (Advice, running_sum c)) = nth 0 (x :: ys) j.
  by move=> hj; rewrite -hcell.
split=> [j hj|]; last by rewrite hnth // hcv // hv // divn_small.
by rewrite hnth // hv //; split=> //; rewrite hcv // hv.
Qed.

(* ---------------------------------------------------------------- short range checks *)
Lemma short_inv c K region element nb :
  (returns inst (lrc_short_range_check c K region element nb) = Ok tt <->
     (nb <= K)%N /\ (2 ^ nb)%N%:R != 0 :> F) /\
  (returns inst (lrc_short_range_check c K region element nb) = Ok tt ->
   calls inst (lrc_short_range_check c K region element nb) =
   [:: OEnable (q_lookup c) 0; OEnable (q_lookup c) 1; OEnable (q_bitshift c) 1;
       OAdvice (running_sum c) 1 (v_mul_f (v_of_field (ac_value element)) (2 ^ (K - nb))%N%:R);
       OAdviceConstant (running_sum c) 2 (ATrivial (2 ^ nb)%N%:R^-1)]).
Proof.
rewrite /lrc_short_range_check /= ltnNge; case: (nb <= K)%N => /=; last by split=> //; split=> // -[].
by case: eqP => //= h; split=> //; split=> // -[].
Qed.

Lemma short_sound T place c K region element nb :
  (2 ^ K * 2 ^ K <= p)%N ->
  returns inst (lrc_short_range_check c K region element nb) = Ok tt ->
  ac_cell element = Cell region 0 (Advice, running_sum c) ->
  respects T place region (calls inst (lrc_short_range_check c K region element nb)) ->
  t_selector T (q_running c) (place region + 0%N%:Z) = false ->
  t_selector T (q_running c) (place region + 1%N%:Z) = false ->
  word K (at_row T (place region + 0%N%:Z) (lrc_lookup F c K)) ->
  word K (at_row T (place region + 1%N%:Z) (lrc_lookup F c K)) ->
  gates_hold T [:: lrc_gate F c K] ->
  (pf_val pf (cell_value T place (ac_cell element)) < 2 ^ nb)%N.
Proof.
move=> hp hret hc; have [[h1 _] h2] := short_inv c K region element nb.
have [hnb hne] := h1 hret; rewrite (h2 hret) !respects_cons.
move=> [sel0 [sel1 [selb [_ [hconst _]]]]] r0 r1.
rewrite !lookup_input_short // => -[k0 hk0 e0] [k1 hk1 e1] hg.
have := gate_at (place region + 1%N%:Z) hg (or_introl erefl).
rewrite /lrc_gate !rowE selb mul1r addr0.
have -> : place region + 1%N%:Z - 1 = place region + 0%N%:Z by rewrite addrK addr0.
have -> : place region + 1%N%:Z + 1 = place region + 2%N%:Z by rewrite -addrA.
rewrite e0 e1 hconst [denote _]/= => /eqP; rewrite subr_eq0 => /eqP e.
rewrite hc /cell_value /row_of /= e0.
have hK : (2 ^ K = 2 ^ (K - nb) * 2 ^ nb)%N by rewrite -expnD subnK.
have e' : ((k0 * 2 ^ (K - nb))%N%:R : F) = k1%:R.
  by rewrite -e hK !natrM scale_back.
have hk : (k0 * 2 ^ (K - nb) < 2 ^ K * 2 ^ K)%N.
  apply: (@leq_trans (2 ^ K * 2 ^ (K - nb))); first by rewrite ltn_pmul2r ?expn_gt0.
  by rewrite leq_pmul2l ?expn_gt0 // leq_exp2l // leq_subr.
have ek : (k0 * 2 ^ (K - nb) = k1)%N.
  apply: natr_inj => //; first exact: leq_trans hp.
  by apply: leq_trans hk1 (leq_trans _ hp); rewrite leq_pmulr ?expn_gt0.
have hlt : (k0 < 2 ^ nb)%N.
  by move: hk1; rewrite -ek hK [in X in (_ < X)%N -> _]mulnC ltn_pmul2r ?expn_gt0.
by rewrite (pf_natr ok) (leq_ltn_trans (leq_mod _ _)).
Qed.

Theorem C43_short_sound T place usable c K region element nb :
  (2 ^ K * 2 ^ K <= p)%N -> uniq [:: q_lookup c; q_running c; q_bitshift c] ->
  let ops := calls inst (lrc_short_range_check c K region element nb) in
  returns inst (lrc_short_range_check c K region element nb) = Ok tt ->
  ac_cell element = Cell region 0 (Advice, running_sum c) ->
  respects T place region ops -> only_enabled T place region 2 [:: q_running c] ops ->
  looked_up T usable [:: lrc_lookup F c K] [:: table_idx c] -> range_table T usable (table_idx c) K ->
  gates_hold T [:: lrc_gate F c K] ->
  (forall j, (j < 2)%N -> usable (place region + j%:Z)) ->
  (pf_val pf (cell_value T place (ac_cell element)) < 2 ^ nb)%N.
Proof.
move=> hp hu ops hret hc hres hon hl [ht _] hg us.
have hr j : (j < 2)%N -> t_selector T (q_running c) (place region + j%:Z) = false.
  move=> hj; rewrite hon ?inE // /ops; have [_ /(_ hret) ->] := short_inv c K region element nb.
  move: hu; rewrite /= !inE !negb_or andbT => /andP[/andP[a1 a2] a3].
  by rewrite (negbTE a1) (eq_sym (q_bitshift c)) (negbTE a3).
by apply: (short_sound hp hret hc hres _ _ _ _ hg); rewrite ?hr //;
  [have [row' hr' [->]] := hl _ (us 0%N isT) | have [row' hr' [->]] := hl _ (us 1%N isT)]; apply: ht.
Qed.

Theorem C43_short_complete T place usable c K region element x nb :
  odd p -> (nb <= K)%N -> uniq [:: q_lookup c; q_running c; q_bitshift c] ->
  let ops := calls inst (lrc_short_range_check c K region element nb) in
  ac_cell element = Cell region 0 (Advice, running_sum c) -> holds_value T place element x ->
  (pf_val pf x < 2 ^ nb)%N ->
  returns inst (lrc_short_range_check c K region element nb) = Ok tt /\
  (honest T place region ops -> only_enabled T place region 2 [:: q_lookup c; q_running c; q_bitshift c] ops ->
   range_table T usable (table_idx c) K ->
   forall j, (j < 2)%N ->
     at_row T (place region + j%:Z) (lrc_gate F c K) = 0 /\
     exists2 row', usable row' &
       at_row T (place region + j%:Z) (lrc_lookup F c K) = t_cell T Fixed (table_idx c) row').
Proof.
move=> op hnb hu ops hc [hv0 hv1] hx; have [[_ h1] h2] := short_inv c K region element nb.
have hret := h1 (conj hnb (pow2_neq0 nb op)); split=> // hh hon [_ htab].
move: hh hon; rewrite /ops (h2 hret) !honest_cons => -[_ [_ [_ [hsh [hcst _]]]]] hon.
move: hu; rewrite /= !inE !negb_or andbT => /andP[/andP[a1 a2] a3].
have v0 : t_cell T Advice (running_sum c) (place region + 0%N%:Z) = x by rewrite -hv1 hc.
have v1 : t_cell T Advice (running_sum c) (place region + 1%N%:Z) = x * (2 ^ (K - nb))%N%:R.
  by rewrite hv0 in hsh; rewrite (hsh (ATrivial (x * (2 ^ (K - nb))%N%:R))).
have v2 : t_cell T Advice (running_sum c) (place region + 2%N%:Z) = (2 ^ nb)%N%:R^-1 by exact: hcst.
have hK : (2 ^ K = 2 ^ (K - nb) * 2 ^ nb)%N by rewrite -expnD subnK.
have tab k : (k < 2 ^ K)%N -> forall y, y = k%:R -> exists2 row', usable row' & y = t_cell T Fixed (table_idx c) row'.
  by move=> /htab[row' ? ?] y ->; exists row'.
case=> [|[|//]] _; rewrite ?lookup_input_short; try (rewrite hon ?inE ?eqxx ?orbT //=;
  by rewrite ?eqxx ?(negbTE a1) ?(eq_sym (q_bitshift c)) ?(negbTE a3)).
- split; first by rewrite /lrc_gate at_mul at_sel hon ?inE ?eqxx ?orbT //= (negbTE a2) ?andbF /= ?mul0r ?eqxx ?andbF ?mul0r.
  rewrite v0; apply: (tab (pf_val pf x)); last by rewrite (pf_valK ok).
  by apply: leq_trans hx _; rewrite leq_exp2l.
split.
  rewrite /lrc_gate !rowE addr0.
  have -> : place region + 1%N%:Z - 1 = place region + 0%N%:Z by rewrite addrK addr0.
  have -> : place region + 1%N%:Z + 1 = place region + 2%N%:Z by rewrite -addrA.
  rewrite v0 v1 v2 hK natrM.
  apply/eqP; rewrite mulf_eq0 subr_eq0; apply/orP; right; apply/eqP.
  by rewrite scale_back // pow2_neq0.
rewrite v1; apply: (tab (pf_val pf x * 2 ^ (K - nb))%N); last by rewrite natrM (pf_valK ok).
by rewrite hK mulnC ltn_pmul2l ?expn_gt0.
Qed.

(* ---------------------------------------------------------------- the 4- and 5-bit variant *)
Implicit Type cc : lrc45.
(* the table: K-bit words tagged 0, 4-bit words tagged 4, 5-bit words tagged 5 *)
Definition tag_ok (K t k : nat) : Prop :=
  [\/ t = 0%N /\ (k < 2 ^ K)%N, t = 4%N /\ (k < 2 ^ 4)%N | t = 5%N /\ (k < 2 ^ 5)%N].
Definition tagged_table T (usable : int -> Prop) cc (K : nat) : Prop :=
  (forall row, usable row -> exists t k, tag_ok K t k /\
     t_cell T Fixed (table_idx (base cc)) row = k%:R /\ t_cell T Fixed (table_range_check_tag cc) row = t%:R) /\
  (forall t k, tag_ok K t k -> exists2 row, usable row &
     t_cell T Fixed (table_idx (base cc)) row = k%:R /\ t_cell T Fixed (table_range_check_tag cc) row = t%:R).
Definition looks_up45 T usable cc K : Prop :=
  looked_up T usable [:: (lrc45_lookup F cc K).1; (lrc45_lookup F cc K).2]
    [:: table_idx (base cc); table_range_check_tag cc].

Lemma lookup45_plain T row cc K :
  t_selector T (q_range_check_4 cc) row = false -> t_selector T (q_range_check_5 cc) row = false ->
  at_row T row (lrc45_lookup F cc K).1 = at_row T row (lrc_lookup F (base cc) K) /\
  at_row T row (lrc45_lookup F cc K).2 = 0.
Proof.
by move=> h4 h5; rewrite /lrc45_lookup /lrc_lookup /= !rowE h4 h5 /= ?(subr0, mul1r, subrr, mul0r, addr0, mulr0).
Qed.
Lemma lookup45_tag T row cc K : t_selector T (q_lookup (base cc)) row ->
  t_selector T (q_range_check_4 cc) row || t_selector T (q_range_check_5 cc) row ->
  at_row T row (lrc45_lookup F cc K).1 = t_cell T Advice (running_sum (base cc)) row /\
  at_row T row (lrc45_lookup F cc K).2 = (if t_selector T (q_range_check_5 cc) row then 5 else 4)%N%:R.
Proof.
move=> hl; rewrite /lrc45_lookup /= !rowE hl addr0 /=.
by case: (t_selector T (q_range_check_4 cc) row); case: (t_selector T (q_range_check_5 cc) row) => //= _;
  rewrite ?subr0 ?subrr ?mul0r ?mulr0 ?subr0 ?subrr ?mul0r ?mulr0 ?mul1r ?add0r ?addr0 ?mul1r.
Qed.

Lemma tags_differ t t' : (5 < p)%N -> (t <= 5)%N -> (t' <= 5)%N -> t%:R = t'%:R :> F -> t = t'.
Proof. by move=> hp h h'; apply: natr_inj; apply: leq_ltn_trans hp. Qed.

Lemma plain45 T usable cc K row : (5 < p)%N -> looks_up45 T usable cc K -> tagged_table T usable cc K -> usable row ->
  t_selector T (q_range_check_4 cc) row = false -> t_selector T (q_range_check_5 cc) row = false ->
  word K (at_row T row (lrc_lookup F (base cc) K)).
Proof.
move=> hp hl [ht _] hu h4 h5; have [row' hu' [e1 e2]] := hl _ hu; have [t [k [hk [ek et]]]] := ht _ hu'.
have [p1 p2] := lookup45_plain K h4 h5; exists k; last by rewrite -p1 e1.
have t0 : t = 0%N.
  apply: tags_differ => //; first by case: hk => -[-> _].
  by rewrite -et -e2 p2.
by case: hk; rewrite t0 => -[].
Qed.

Theorem C43_lookup45_sound T place usable cc K region element nw strict zs :
  let c := base cc in
  let ops := calls inst (lrc_range_check pf c K region element nw strict) in
  (5 < p)%N ->
  uniq [:: q_lookup c; q_running c; q_range_check_4 cc; q_range_check_5 cc] ->
  returns inst (lrc_range_check pf c K region element nw strict) = Ok zs ->
  ac_cell element = Cell region 0 (Advice, running_sum c) ->
  respects T place region ops -> only_enabled T place region nw [:: q_range_check_4 cc; q_range_check_5 cc] ops ->
  looks_up45 T usable cc K -> tagged_table T usable cc K ->
  (forall j, (j < nw)%N -> usable (place region + j%:Z)) ->
  decomposes K nw strict (fun j => cell_value T place (ac_cell (nth element zs j))).
Proof.
move=> c ops hp hun h1 h2 h3 hon hl ht hu; apply: (lrc_sound h1 h2 h3) => j hj.
have [_ _ _ _ [vs hvs eops]] := lrc_inv h1.
have off s : s \in [:: q_range_check_4 cc; q_range_check_5 cc] -> t_selector T s (place region + j%:Z) = false.
  move=> hs; rewrite hon // /ops eops enabled_cat lrc_enabled.
  have -> : enabled_in (if strict then [:: OConstrainConstant (ac_cell (nth element zs nw)) (ATrivial 0)] else [::]) s j = false.
    by case: (strict).
  rewrite orbF; apply/negbTE; move: hun hs; rewrite /= !inE !negb_or andbT.
  case/andP=> /and3P[_ a1 a2] /andP[/andP[a3 a4] _] /orP[/eqP ->|/eqP ->].
    by rewrite (negbTE a1) (negbTE a3).
  by rewrite (negbTE a2) (negbTE a4).
by apply: (plain45 hp hl ht (hu _ hj)); apply: off; rewrite !inE eqxx ?orbT.
Qed.

Lemma short45E cc K region (element : acell F) nb : nb != 4%N -> nb != 5%N ->
  lrc45_short_range_check cc K region element nb = lrc_short_range_check (base cc) K region element nb.
Proof. by rewrite /lrc45_short_range_check => /negbTE -> /negbTE ->. Qed.

(* the rows of the region that the check needs *)
Definition short45_rows (nb : nat) : nat := if (nb == 4%N) || (nb == 5%N) then 1%N else 2%N.
Definition selectors45 cc : seq nat :=
  [:: q_lookup (base cc); q_running (base cc); q_bitshift (base cc); q_range_check_4 cc; q_range_check_5 cc].

Theorem C43_short45_sound T place usable cc K region element nb :
  let c := base cc in
  let ops := calls inst (lrc45_short_range_check cc K region element nb) in
  (2 ^ K * 2 ^ K <= p)%N -> (5 < p)%N -> uniq (selectors45 cc) ->
  returns inst (lrc45_short_range_check cc K region element nb) = Ok tt ->
  ac_cell element = Cell region 0 (Advice, running_sum c) ->
  respects T place region ops ->
  only_enabled T place region (short45_rows nb) [:: q_running c; q_range_check_4 cc; q_range_check_5 cc] ops ->
  looks_up45 T usable cc K -> tagged_table T usable cc K ->
  gates_hold T [:: lrc_gate F c K] ->
  (forall j, (j < short45_rows nb)%N -> usable (place region + j%:Z)) ->
  (pf_val pf (cell_value T place (ac_cell element)) < 2 ^ nb)%N.
Proof.
move=> c ops hp2 hp hun hret hc hres hon hl ht hg hu.
move: (hun); rewrite /= !inE !negb_or andbT.
case/and4P=> /and4P[lr lb l4 l5] /and3P[rb r4 r5] /andP[b4 b5] q45.
have tagged t : nb = t -> (t == 4%N) || (t == 5%N) -> t_selector T (q_lookup c) (place region + 0%N%:Z) ->
   t_selector T (q_range_check_4 cc) (place region + 0%N%:Z) = (t == 4)%N ->
   t_selector T (q_range_check_5 cc) (place region + 0%N%:Z) = (t == 5)%N ->
   (pf_val pf (cell_value T place (ac_cell element)) < 2 ^ nb)%N.
  move=> en et hsel h4 h5.
  have hu0 : usable (place region + 0%N%:Z) by apply: hu; rewrite /short45_rows; case: ifP.
  have h45 : t_selector T (q_range_check_4 cc) (place region + 0%N%:Z) || t_selector T (q_range_check_5 cc) (place region + 0%N%:Z).
    by rewrite h4 h5.
  have [e1 e2] := lookup45_tag K hsel h45; have [row' hu' []] := hl _ hu0.
  rewrite e1 e2 h5 => v1 v2; have [t' [k [hk [ek et']]]] := ht.1 _ hu'.
  rewrite hc /cell_value /row_of /= v1 ek (pf_natr ok); apply: leq_ltn_trans (leq_mod _ _) _.
  have ett : t = t'.
    apply: tags_differ => //; [by case/orP: et => /eqP -> | by case: hk => -[-> _] |].
    by rewrite -et' -v2; case/orP: et => /eqP ->.
  by rewrite en; case: hk => -[ek' hk]; move: et hk; rewrite ett ek'.
case: (eqVneq nb 4%N) => e4.
  have eops : ops = [:: OEnable (q_lookup c) 0; OEnable (q_range_check_4 cc) 0] by rewrite /ops /lrc45_short_range_check e4.
  move: hres hon; rewrite eops !respects_cons => -[s1 [s2 _]] hon.
  apply: (tagged 4%N) => //; rewrite hon ?inE ?eqxx ?orbT //; try by rewrite /short45_rows e4.
  by rewrite /= (negbTE l5) (negbTE q45).
case: (eqVneq nb 5%N) => e5.
  have eops : ops = [:: OEnable (q_lookup c) 0; OEnable (q_range_check_5 cc) 0] by rewrite /ops /lrc45_short_range_check e5.
  move: hres hon; rewrite eops !respects_cons => -[s1 [s2 _]] hon.
  apply: (tagged 5%N) => //; rewrite hon ?inE ?eqxx ?orbT //; try by rewrite /short45_rows e5.
  by rewrite /= (negbTE l4) (eq_sym (q_range_check_5 cc)) (negbTE q45).
move: hret hres hon; rewrite /ops short45E // => hret hres hon.
have rows2 : short45_rows nb = 2%N by rewrite /short45_rows (negbTE e4) (negbTE e5).
rewrite rows2 in hon hu.
have off j s : (j < 2)%N -> s \in [:: q_running c; q_range_check_4 cc; q_range_check_5 cc] ->
    t_selector T s (place region + j%:Z) = false.
  move=> hj hs; rewrite hon //; have [_ /(_ hret) ->] := short_inv (base cc) K region element nb.
  rewrite /enabled_in /= -/c; move: hs; rewrite !inE => /or3P[] /eqP ->.
  - by rewrite (negbTE lr) (eq_sym (q_bitshift c)) (negbTE rb).
  - by rewrite (negbTE l4) (negbTE b4).
  - by rewrite (negbTE l5) (negbTE b5).
apply: (short_sound hp2 hret hc hres _ _ _ _ hg); try (by apply: off; rewrite ?inE ?eqxx);
  by apply: (plain45 hp hl ht); [exact: hu| |]; apply: off; rewrite ?inE ?eqxx ?orbT.
Qed.

Theorem C43_short45_complete T place usable cc K region element x nb :
  let ops := calls inst (lrc45_short_range_check cc K region element nb) in
  (nb == 4%N) || (nb == 5%N) -> uniq (selectors45 cc) ->
  ac_cell element = Cell region 0 (Advice, running_sum (base cc)) -> holds_value T place element x ->
  (pf_val pf x < 2 ^ nb)%N ->
  returns inst (lrc45_short_range_check cc K region element nb) = Ok tt /\
  (only_enabled T place region 1 (selectors45 cc) ops -> tagged_table T usable cc K ->
   at_row T (place region + 0%N%:Z) (lrc_gate F (base cc) K) = 0 /\
   exists2 row', usable row' &
     at_row T (place region + 0%N%:Z) (lrc45_lookup F cc K).1 = t_cell T Fixed (table_idx (base cc)) row' /\
     at_row T (place region + 0%N%:Z) (lrc45_lookup F cc K).2 = t_cell T Fixed (table_range_check_tag cc) row').
Proof.
move=> ops hnb hun hc [hv0 hv1] hx.
have hret : returns inst (lrc45_short_range_check cc K region element nb) = Ok tt.
  by rewrite /lrc45_short_range_check; case/orP: hnb => /eqP ->.
split=> // hon [_ ht]; have hx0 : t_cell T Advice (running_sum (base cc)) (place region + 0%N%:Z) = x by rewrite -hv1 hc.
move: (hun); rewrite /= !inE !negb_or andbT.
case/and4P=> /and4P[lr lb l4 l5] /and3P[rb r4 r5] /andP[b4 b5] q45.
have eops : ops = [:: OEnable (q_lookup (base cc)) 0; OEnable (if nb == 4%N then q_range_check_4 cc else q_range_check_5 cc) 0].
  by rewrite /ops /lrc45_short_range_check; case/orP: hnb => /eqP ->.
rewrite eops in hon.
have sl : t_selector T (q_lookup (base cc)) (place region + 0%N%:Z) by rewrite hon ?inE ?eqxx //= eqxx.
have sb : t_selector T (q_bitshift (base cc)) (place region + 0%N%:Z) = false.
  rewrite hon ?inE ?eqxx ?orbT //= (negbTE lb).
  by case: ifP => _; rewrite ?(eq_sym _ (q_bitshift (base cc))) ?(negbTE b4) ?(negbTE b5).
have s5 : t_selector T (q_range_check_5 cc) (place region + 0%N%:Z) = (nb == 5%N).
  rewrite hon ?inE ?eqxx ?orbT //= (negbTE l5).
  by case/orP: hnb => /eqP -> /=; rewrite ?(negbTE q45) ?eqxx.
have s4 : t_selector T (q_range_check_4 cc) (place region + 0%N%:Z) = (nb == 4%N).
  rewrite hon ?inE ?eqxx ?orbT //= (negbTE l4).
  by case/orP: hnb => /eqP -> /=; rewrite ?(eq_sym (q_range_check_5 cc)) ?(negbTE q45) ?eqxx.
split; first by rewrite /lrc_gate at_mul at_sel sb mul0r.
have hs : t_selector T (q_range_check_4 cc) (place region + 0%N%:Z) || t_selector T (q_range_check_5 cc) (place region + 0%N%:Z).
  by rewrite s4 s5.
have [e1 e2] := lookup45_tag K sl hs.
have [|row' hu [c1 c2]] := ht nb (pf_val pf x).
  by case/orP: hnb => /eqP e; rewrite e in hx *; [apply: Or32|apply: Or33].
exists row' => //; rewrite e1 e2 c1 c2 hx0 (pf_valK ok) s5; split=> //.
by case/orP: hnb => /eqP ->.
Qed.

(* ---------------------------------------------------------------- the public entry points *)
(* copy_check / witness_check: the range constraint reaches the caller's own cell *)
Theorem C43_copy_check_sound T place usable c K region element nw zs :
  returns inst (lrc_copy_check pf c K region element nw true) = Ok zs ->
  respects T place region (calls inst (lrc_copy_check pf c K region element nw true)) ->
  looked_up T usable [:: lrc_lookup F c K] [:: table_idx c] -> range_table T usable (table_idx c) K ->
  (forall j, (j < nw)%N -> usable (place region + j%:Z)) ->
  (pf_val pf (cell_value T place (ac_cell element)) < 2 ^ (K * nw))%N.
Proof.
rewrite /lrc_copy_check; set z0 := ACell (ac_value element) (Cell region 0 (Advice, running_sum c)).
have e : returns inst (copy_advice region element (running_sum c) 0) = Ok z0 by [].
rewrite returns_bind (calls_bind _ e) e [rbind _ _]/= => hret.
rewrite respects_cat => -[hcopy hres] hl ht hu.
have [ks _ [_ _ /(_ isT)[h0 _]]] := C43_lookup_sound hret erefl hres hl ht hu.
have [_ _ _ n0 _] := lrc_inv hret; rewrite n0 in h0.
suff -> : cell_value T place (ac_cell element) = cell_value T place (ac_cell z0) by [].
by move: hcopy; rewrite /= !respects_cons => -[_ [h _]]; rewrite /= in h.
Qed.

Theorem C43_copy_short_check_sound T place usable cc K region element nb :
  let p45 := lrc_copy_short_check (fun e n => lrc45_short_range_check cc K region e n) (base cc) K region element nb in
  (2 ^ K * 2 ^ K <= p)%N -> (5 < p)%N -> uniq (selectors45 cc) ->
  returns inst p45 = Ok tt ->
  respects T place region (calls inst p45) ->
  only_enabled T place region (short45_rows nb)
    [:: q_running (base cc); q_range_check_4 cc; q_range_check_5 cc] (calls inst p45) ->
  looks_up45 T usable cc K -> tagged_table T usable cc K ->
  gates_hold T [:: lrc_gate F (base cc) K] ->
  (forall j, (j < short45_rows nb)%N -> usable (place region + j%:Z)) ->
  (pf_val pf (cell_value T place (ac_cell element)) < 2 ^ nb)%N.
Proof.
move=> p45; rewrite {}/p45 /lrc_copy_short_check; case: ifP => // _ hp2 hp hun.
set z0 := ACell (ac_value element) (Cell region 0 (Advice, running_sum (base cc))).
have e : returns inst (copy_advice region element (running_sum (base cc)) 0) = Ok z0 by [].
rewrite returns_bind (calls_bind _ e) e [rbind _ _]/= => hret.
rewrite respects_cat => -[hcopy hres] hon hl ht hg hu.
have -> : cell_value T place (ac_cell element) = cell_value T place (ac_cell z0).
  by move: hcopy; rewrite /= !respects_cons => -[_ [h _]]; rewrite /= in h.
by apply: (C43_short45_sound hp2 hp hun hret erefl hres _ hl ht hg hu) => s o hs ho; rewrite hon // enabled_cat.
Qed.

Theorem C43_copy_decompose_sound T place q z K region offset alpha wbits nwin zs :
  returns inst (rs_copy_decompose pf q z K region offset alpha true wbits nwin) = Ok zs ->
  respects T place region (calls inst (rs_copy_decompose pf q z K region offset alpha true wbits nwin)) ->
  gates_hold T [:: running_sum_gate F q z K] -> (2 ^ (K * nwin) <= p)%N ->
  (pf_val pf (cell_value T place (ac_cell alpha)) < 2 ^ (K * nwin))%N.
Proof.
rewrite /rs_copy_decompose; set z0 := ACell (ac_value alpha) (Cell region offset (Advice, z)).
have e : returns inst (copy_advice region alpha z offset) = Ok z0 by [].
rewrite returns_bind (calls_bind _ e) e [rbind _ _]/= => hret.
rewrite respects_cat => -[hcopy hres] hg hp.
have [ks _ [_ _ /(_ isT)[_ /(_ hp)[h0 _]]]] := C43_running_sum_sound hret erefl hres hg.
have [_ _ n0 _] := rs_inv hret; rewrite n0 in h0.
suff -> : cell_value T place (ac_cell alpha) = cell_value T place (ac_cell z0) by [].
by move: hcopy; rewrite /= !respects_cons => -[_ [h _]]; rewrite /= in h.
Qed.
End RangeCheck.

(* ---------------------------------------------------------------- a concrete case *)
From Verif Require Import Ex_Field Ex_Env.
Section Case.
(* 45 = 1 + 3*4 + 2*16 over GF(97), three windows of two bits: z = 45, 11, 2, 0 *)
Definition ex_T : table F97 :=
  Table (fun kind c row => match kind, row with Advice, Posz n => (nth 0 [:: 45; 11; 2; 0] n)%N%:R | _, _ => 0 end)
        (fun s row => match row with Posz n => (s == 0%N) && (n < 3)%N | _ => false end).
Definition ex_z0 : acell F97 := ACell (known 45%:R) (Cell 0 0 (Advice, 0%N)).
Definition ex_inst : nat -> nat -> value F97 := fun _ _ => unknown.
Example C43_case :
  exists zs, [/\ returns ex_inst (rs_decompose pf97 0 0 2 0 0 ex_z0 true 6 3) = Ok zs,
    respects ex_T (fun _ => 0) 0 (calls ex_inst (rs_decompose pf97 0 0 2 0 0 ex_z0 true 6 3)),
    gates_hold ex_T [:: running_sum_gate F97 0 0 2] & (2 ^ (2 * 3) <= 97)%N].
Proof.
have hv : holds_value ex_T (fun _ => 0) ex_z0 45%:R by split; [|apply/eqP; vm_compute].
have hop : odd 97 by [].
have h1 : (0 < 2 <= 8)%N by [].
have h2 : (6 <= pf_repr_bits pf97)%N by [].
have h3 : (6 <= 2 * 3 < 6 + 2)%N by [].
have [zs hret _] := @C43_running_sum_complete _ _ _ pf97_ok ex_inst ex_T (fun _ => 0) 0 0 2 0 0 ex_z0 45%:R true 6 3
  hop h1 h2 h3 erefl hv.
exists zs; split=> //.
- have hl : all (fun o : rop F97 => match o with
     | OEnable s off => t_selector ex_T s (Posz off)
     | OConstrainConstant c x => cell_value ex_T (fun _ => 0) c == denote x
     | OAdvice _ _ _ => true | _ => false end) (calls ex_inst (rs_decompose pf97 0 0 2 0 0 ex_z0 true 6 3)).
    by vm_compute.
  move: hl; elim: (calls _ _) => [_|o l IH] /=; first by constructor.
  case/andP=> ho hl; constructor; last exact: IH.
  by case: o ho => //= [c x] /eqP ->.
- have off row : t_selector ex_T 0 row = false -> all (fun g => at_row ex_T row g == 0) [:: running_sum_gate F97 0 0 2].
    by move=> e; rewrite /= /running_sum_gate at_mul at_sel e mul0r eqxx.
  case=> [[|[|[|n]]]|n]; last 2 first.
  + by apply: off.
  + by apply: off.
  + by vm_compute.
  + by vm_compute.
  + by vm_compute.
Qed.
End Case.
Print Assumptions C43_range_check.
Print Assumptions C43_running_sum_sound.
Print Assumptions C43_running_sum_complete.
Print Assumptions C43_lookup_sound.
Print Assumptions C43_lookup_complete.
Print Assumptions C43_short_sound.
Print Assumptions C43_short_complete.
Print Assumptions C43_lookup45_sound.
Print Assumptions C43_short45_sound.
Print Assumptions C43_short45_complete.
Print Assumptions C43_copy_check_sound.
Print Assumptions C43_copy_short_check_sound.
Print Assumptions C43_copy_decompose_sound.
