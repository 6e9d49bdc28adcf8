(* A run of the permutation prover's commit. *)
Set Warnings "-notation-overridden,-ambiguous-paths".
From mathcomp Require Import all_ssreflect all_algebra.
From Verif Require Import Util M_Poly L_Poly M_Domain L_Domain P_Domain M_Assigned M_Evaluator L_Evaluator
  M_Env M_Transcript L_Transcript L_WP L_WPR M_Commit S_Commit L_Commit P_Commit L_IPA M_Multiopen M_Circuit M_Selectors
  L_Selectors M_Copy M_Keys M_Permutation L_Sigma L_Chunks S_Permutation.
Import GRing.Theory.
Set Implicit Arguments.
Unset Strict Implicit.
Local Open Scope ring_scope.

Section Vec.
Variables (F B : fieldType) (G : lmodType F) (E : env B G).
Hypothesis ok : env_ok E.
Notation delta := (e_delta E).

Lemma eq_in_mkseq (T : Type) (f g : nat -> T) n : (forall i, (i < n)%N -> f i = g i) -> mkseq f n = mkseq g n.
Proof. by move=> h; apply/eq_in_map => i; rewrite mem_iota => /andP [_ hi]; exact: h. Qed.
Lemma mapi_mkseq (T U : Type) (g : nat -> T -> U) (f : nat -> T) n :
  mapi g (mkseq f n) = mkseq (fun i => g i (f i)) n.
Proof.
case: n => // n; rewrite (mapiE (f 0%N)) size_mkseq.
by apply/eq_in_map => i; rewrite mem_iota => /andP [_ hi]; rewrite nth_mkseq.
Qed.

Lemma mul_denominatorE beta gamma values permuted f n : (0 < n)%N ->
  size values = n -> size permuted = n ->
  mul_denominator E beta gamma values permuted (mkseq f n) =
  Some (mkseq (fun i => f i * (beta * permuted`_i + gamma + values`_i)) n).
Proof.
move=> n0 sv sp; rewrite /mul_denominator parallelize_mapi ?size_mkseq ?(ok_threads ok) //.
rewrite mapi_mkseq; congr Some; apply: eq_in_mkseq => i hi.
by rewrite sv sp hi.
Qed.

Lemma mul_numeratorE beta gamma omega dom values f n : (0 < n)%N -> size values = n ->
  mul_numerator E beta gamma omega dom values (mkseq f n) =
  Some (mkseq (fun i => f i * (dom * omega ^+ i * beta + gamma + values`_i)) n).
Proof.
move=> n0 sv; rewrite /mul_numerator.
rewrite (parallelize_slice (g := fun i mv => if (i < size values)%N
  then mv * (dom * omega ^+ i * beta + gamma + values`_i) else mv)) ?size_mkseq ?(ok_threads ok) //.
  rewrite mapi_mkseq; congr Some; apply: eq_in_mkseq => i hi.
  by rewrite sv hi.
move=> pre c post _; rewrite !(mapi_fromE 0); apply/eq_in_map => i; rewrite mem_iota => /andP [_ hi].
by rewrite scan_mulE addKn nth_mkseq // exprD [dom * (_ * _)]mulrA.
Qed.

(* the fractions of one chunk *)
Lemma perm_fractionsE n beta gamma omega dom (vals perms : seq (seq F)) : (0 < n)%N ->
  all (fun v => size v == n) vals -> all (fun v => size v == n) perms ->
  perm_fractions E n beta gamma omega dom vals perms =
  Some (mkseq (fun i =>
     (\prod_(e <- zip vals perms) (beta * e.2`_i + gamma + e.1`_i))^-1 *
     \prod_(q < size vals) (dom * delta ^+ q * omega ^+ i * beta + gamma + (nth [::] vals q)`_i)) n,
     dom * delta ^+ size vals).
Proof.
move=> n0 sv sp; rewrite /perm_fractions.
have den : forall (L : seq (seq F * seq F)) f, all (fun e => (size e.1 == n) && (size e.2 == n)) L ->
  foldl (fun acc vp => obind (mul_denominator E beta gamma vp.1 vp.2) acc) (Some (mkseq f n)) L =
  Some (mkseq (fun i => f i * \prod_(e <- L) (beta * e.2`_i + gamma + e.1`_i)) n).
  elim=> [|e L IH] f /=.
    by move=> _; congr Some; apply: eq_mkseq => i; rewrite big_nil mulr1.
  move=> /andP [/andP [/eqP h1 /eqP h2] h]; rewrite mul_denominatorE // IH //.
  by congr Some; apply: eq_mkseq => i; rewrite big_cons mulrA.
have -> : nseq n (1 : F) = mkseq (fun=> 1) n by exact: nseq_mkseq.
rewrite den /=; last first.
  elim: (vals) (perms) sv sp => [|v l IH] [|p l'] //= /andP [-> h1] /andP [-> h2]; exact: IH.
have nu : forall (L : seq (seq F)) f d, all (fun v => size v == n) L ->
  foldl (fun acc v => obind (fun st : seq F * F =>
        omap (fun m => (m, st.2 * delta)) (mul_numerator E beta gamma omega st.2 v st.1)) acc)
   (Some (mkseq f n, d)) L =
  Some (mkseq (fun i => f i * \prod_(q < size L) (d * delta ^+ q * omega ^+ i * beta + gamma + (nth [::] L q)`_i)) n,
        d * delta ^+ size L).
  elim=> [|v L IH] f d /=.
    by move=> _; rewrite mulr1; congr (Some (_, _)); apply: eq_mkseq => i; rewrite big_ord0 mulr1.
  move=> /andP [/eqP h1 h]; rewrite mul_numeratorE //= IH // -mulrA -exprS.
  congr (Some (_, _)); apply: eq_mkseq => i; rewrite big_ord_recl /= expr0 mulr1 mulrA; congr (_ * _).
  by apply: eq_bigr => q _; rewrite /= -[d * delta * _]mulrA -exprS.
have -> : forall f, batch_invert (mkseq f n) = mkseq (fun i => (f i : F)^-1) n.
  by move=> f; rewrite /batch_invert -map_comp.
rewrite nu //; congr (Some (_, _)); apply: eq_mkseq => i; by rewrite mul1r.
Qed.

Lemma scanl_nth (x : F) (s : seq F) i : (i <= size s)%N ->
  nth 0 (x :: scanl *%R x s) i = x * \prod_(q < i) s`_q.
Proof.
elim: s x i => [|y s IH] x [|i] //= hi; rewrite ?big_ord0 ?mulr1 //.
by rewrite big_ord_recl /= mulrA -IH.
Qed.
End Vec.

(* Facts about a vector of n values once its domain and its parameters are fixed. *)
Section Commit.
Variables (F B : fieldType) (G : lmodType F) (E : env B G) (ps : params G).
Hypotheses (ok : env_ok E) (pok : params_ok E ps).
Variables (j : nat) (d : domain F).
Hypothesis hd : domain_new (e_rou E) (e_zeta E) (e_S E) j (p_k ps) = Some d.
Notation n := (2 ^ p_k ps)%N.
Notation omega := (d_omega d).

Lemma fc : field_constants (e_rou E) (e_zeta E) (e_S E).
Proof. by have [] := ok_zeta ok; split; [exact: ok_rou|split]. Qed.
Lemma dok : dom_ok (e_rou E) (e_zeta E) (e_S E) j (p_k ps) d.
Proof. by case: fc => h1 [h2 h3]; exact: domain_new_inv hd. Qed.

Definition coset_of (zp : seq F) : seq F :=
  mkseq (fun i => (Poly zp).[e_zeta E * d_ext_omega d ^+ i]) (2 ^ d_ek d).
Definition commitment_of (zp : seq F) (blind : F) : G := dotG zp (p_g ps) + blind *: p_w ps.

Lemma eval_Poly (c : seq F) x : eval_polynomial c x = (Poly c).[x].
Proof. exact: eval_polynomial_horner. Qed.

Lemma coset_ofE zp : size zp = n -> coeff_to_extended (e_threads E) d zp = Some (coset_of zp).
Proof. by move=> h; rewrite (C04_coeff_to_extended fc (ok_threads ok) hd h). Qed.

(* The registered polynomials: cosets of polynomials of n coefficients.  [poly] is registered
   as leaf [leaf]; a list is extended by such cosets only. *)
Definition registered (polys : seq (seq F)) (poly : seq F) (leaf : nat) : Prop :=
  [/\ size poly = n, (leaf < size polys)%N & coeff_to_extended (e_threads E) d poly = Some (nth [::] polys leaf)].
Definition extends (polys polys' : seq (seq F)) : Prop :=
  exists2 more, polys' = polys ++ more &
    forall c, c \in more -> exists2 p, size p = n & coeff_to_extended (e_threads E) d p = Some c.

Lemma lagrange_facts z : size z = n -> exists zp,
  [/\ size zp = n, lagrange_to_coeff (e_threads E) d z = Some zp,
      forall i, (i < n)%N -> (Poly zp).[omega ^+ i] = z`_i &
      forall blind, commit_lagrange E ps z blind = Some (commitment_of zp blind)].
Proof.
move=> hs; have [zp e [sz [hv _]]] := C03_lagrange_to_coeff fc (ok_threads ok) hd hs.
exists zp; split=> // [i hi|blind]; first by rewrite -eval_Poly hv.
have [-> _] := C11_commit_lagrange_agrees ok pok blind (ok_threads ok) hd e.
by rewrite commitE ?(ps_g pok).
Qed.

Lemma wpr_blind_tail bl z s (Q : seq F -> wst -> Prop) : (bl <= size z)%N ->
  (forall z' s', silent s s' -> size z' = size z ->
     (forall i, (i < size z - bl)%N -> z'`_i = z`_i) -> Q z' s') ->
  wp (blind_tail E bl z) s Q.
Proof.
move=> hb h; rewrite /blind_tail hb /=; apply: wp_bind; apply: wpr_draws => rs s' h1 hs.
apply: wp_ret; apply: h => //.
  by rewrite size_cat size_takel ?leq_subr // hs size_iota subnK.
move=> i hi; rewrite nth_cat size_take_min (minn_idPl (leq_subr _ _)) hi nth_take //.
Qed.

Variable pk : pkey G.
Notation bf := (blinding_factors (vk_cs (pk_vk pk))).
Notation u := (n - (bf + 1))%N.
Hypothesis hdom : vk_domain (pk_vk pk) = d.
Hypothesis hbf : (bf + 1 <= n)%N.
Variables (vals_of : column -> option (seq F)) (beta gamma : F).

Definition frac (dom : F) (vals perms : seq (seq F)) (i : nat) : F :=
  (\prod_(e <- zip vals perms) (beta * e.2`_i + gamma + e.1`_i))^-1 *
  \prod_(q < size vals) (dom * e_delta E ^+ q * omega ^+ i * beta + gamma + (nth [::] vals q)`_i).

Lemma perm_chunk_run dom lz sets polys cols perms vals s :
  sequence [seq vals_of c | c <- cols] = Some vals ->
  all (fun v => size v == n) vals -> all (fun v => size v == n) perms ->
  wp (perm_commit_chunk E ps pk vals_of beta gamma (dom, lz, sets, polys) (cols, perms)) s
   (fun r s' => exists zp blind,
     [/\ size zp = n,
         r = (dom * e_delta E ^+ size cols, (Poly zp).[omega ^+ u],
              rcons sets (PSet zp (size polys) blind), rcons polys (coset_of zp)),
         replays s s' (read_point E) (commitment_of zp blind),
         (Poly zp).[omega ^+ 0] = lz &
         forall i, (i < u)%N ->
           (Poly zp).[omega ^+ i.+1] = (Poly zp).[omega ^+ i] * frac dom vals perms i]).
Proof.
move=> ev sv sp; rewrite /perm_commit_chunk hdom.
have n0 : (0 < n)%N by rewrite expn_gt0.
have un : (u < n)%N by rewrite ltn_subrL n0 addn1.
have scols : size cols = size vals by have [-> _] := sequence_map_inv ev.
apply: wp_bind; apply: (wp_unwrap ev).
apply: wp_bind; apply: wp_unwrap; first by rewrite (ps_n pok) perm_fractionsE.
rewrite -[mkseq _ _]/(mkseq (frac dom vals perms) n).
apply: wp_bind; apply: wp_unwrap; first by rewrite /running_product /= (ps_n pok) size_mkseq leq_pred.
rewrite /=; set z0 := lz :: _.
have sz0 : size z0 = n.
  by rewrite /z0 /= size_scanl size_takel ?size_mkseq ?leq_pred // prednK.
have vz0 i : (i < n)%N -> z0`_i = lz * \prod_(q < i) frac dom vals perms q.
  move=> hi; rewrite /z0 scanl_nth; last first.
    by rewrite size_takel ?size_mkseq ?leq_pred // -ltnS prednK.
  congr (_ * _); apply: eq_bigr => q _.
  have hq : (q < n.-1)%N by apply: leq_trans (ltn_ord q) _; rewrite -ltnS prednK.
  by rewrite nth_take // nth_mkseq // (leq_trans hq (leq_pred _)).
rewrite -[(size _).+1]/(size z0) sz0 (ok_n dok) eqxx /=.
have bn : (bf <= n)%N by apply: leq_trans hbf; exact: leq_addr.
apply: wp_bind; apply: wpr_blind_tail; rewrite sz0 // => z s1 h1 sz hz.
rewrite (ps_n pok) hbf /=.
have hz' i : (i <= u)%N -> z`_i = lz * \prod_(q < i) frac dom vals perms q.
  by move=> hi; rewrite hz ?vz0 ?(leq_ltn_trans hi un) // (leq_ltn_trans hi) // subnDA subn1 prednK // subn_gt0 -addn1.
apply: wp_bind; apply: wp_unwrap; first by apply: (getE 0); rewrite sz.
apply: wp_bind; apply: wpr_draw => blind s2 h2.
have [zp [szp el vzp hc]] := lagrange_facts sz.
apply: wp_bind; apply: wp_unwrap; first exact: hc.
apply: wp_bind; apply: (wp_unwrap el).
apply: wp_bind; apply: (wp_unwrap (coset_ofE szp)).
apply: wp_bind; apply: (wpr_write_point ok) => s3 h3; apply: wp_ret.
exists zp, blind; split=> //.
- by rewrite scols vzp.
- exact: replays_silent (silent_trans h1 h2) h3.
- by rewrite vzp // hz' // big_ord0 mulr1.
move=> i hi; have hi1 : (i < n)%N := ltn_trans hi un.
rewrite !vzp ?(leq_ltn_trans hi un) // !hz' // 1?ltnW //.
by rewrite big_ord_recr /= mulrA.
Qed.

Lemma mmap_const S A C D (x : M S D) (l : seq A) (l' : seq C) : size l = size l' ->
  mmap (fun _ => x) l = mmap (fun _ => x) l'.
Proof. by elim: l l' => [|a l IH] [|b l'] //= [h]; rewrite (IH _ h). Qed.

Notation len := (vk_cs_degree (pk_vk pk) - 2)%N.
Notation cols := (permutation (vk_cs (pk_vk pk))).
Notation m := (size cols).
Hypothesis len0 : (0 < len)%N.
Variables (vf : nat -> seq F) (sigma : seq (seq F)).
Hypothesis hvals : forall q, (q < m)%N -> vals_of (nth (Advice, 0%N) cols q) = Some (vf q) /\ size (vf q) = n.
Hypothesis hsig : size sigma = m.
Hypothesis hsigs : forall q, (q < m)%N -> size (nth [::] sigma q) = n.

Notation pzero := ([::] : seq F, 0 : F).
(* row i of the product polynomial e *)
Definition zat (zs : seq (seq F * F)) (t i : nat) : F := (Poly (nth pzero zs t).1).[omega ^+ i].
Definition cfrac (t i : nat) : F :=
  (\prod_(q <- ch len m t) ((vf q)`_i + beta * (nth [::] sigma q)`_i + gamma))^-1 *
  \prod_(q <- ch len m t) ((vf q)`_i + beta * (e_delta E ^+ q * omega ^+ i) + gamma).

Lemma fracE t i : (t < nch len m)%N ->
  frac (e_delta E ^+ (t * len)) [seq vf q | q <- ch len m t] [seq nth [::] sigma q | q <- ch len m t] i = cfrac t i.
Proof.
move=> ht; rewrite /frac /cfrac; congr (_^-1 * _).
  have -> : zip [seq vf q | q <- ch len m t] [seq nth [::] sigma q | q <- ch len m t] =
            [seq (vf q, nth [::] sigma q) | q <- ch len m t] by elim: (ch len m t) => //= a l ->.
  by rewrite big_map; apply: eq_bigr => q _ /=; rewrite addrC addrA.
have [l el _] := chE len0 ht; rewrite el size_map size_iota.
rewrite (_ : \prod_(q <- iota (t * len) l) _ = \prod_(q < l) ((vf (t * len + q)%N)`_i +
   beta * (e_delta E ^+ (t * len + q) * omega ^+ i) + gamma)); last first.
  have -> : iota (t * len) l = [seq (t * len + q)%N | q <- iota 0 l] by rewrite -iotaDl addn0.
  by rewrite big_map -(big_mkord xpredT (fun q => (vf (t * len + q)%N)`_i +
       beta * (e_delta E ^+ (t * len + q) * omega ^+ i) + gamma)) /index_iota subn0.
apply: eq_bigr => q _; rewrite (nth_map 0%N) ?size_iota // nth_iota // -exprD.
by rewrite addrC addrA [_ * beta]mulrC.
Qed.

Lemma perm_fold_run r t0 lz sets polys s : (t0 + r = nch len m)%N ->
  wp (mfold (perm_commit_chunk E ps pk vals_of beta gamma) (e_delta E ^+ (t0 * len), lz, sets, polys)
       [seq ([seq nth (Advice, 0%N) cols q | q <- ch len m t], [seq nth [::] sigma q | q <- ch len m t]) | t <- iota t0 r]) s
   (fun st s' => exists zs : seq (seq F * F),
     [/\ size zs = r /\ all (fun e => size e.1 == n) zs,
         st.1.2 = sets ++ mapi (fun i e => PSet e.1 (size polys + i)%N e.2) zs /\
         st.2 = polys ++ [seq coset_of e.1 | e <- zs],
         replays s s' (mmap (fun _ => read_point E) (iota t0 r)) [seq commitment_of e.1 e.2 | e <- zs],
         ((0 < r)%N -> zat zs 0 0 = lz) /\
         (forall t, (t.+1 < r)%N -> zat zs t.+1 0 = zat zs t u) &
         forall t i, (t < r)%N -> (i < u)%N -> zat zs t i.+1 = zat zs t i * cfrac (t0 + t) i]).
Proof.
elim: r t0 lz sets polys s => [|r IH] t0 lz sets polys s er.
  apply: wp_ret; exists [::]; split=> //; first by rewrite !cats0.
  exact: replays_ret.
have ht : (t0 < nch len m)%N by rewrite -er addnS ltnS leq_addr.
apply: wp_bind.
have hv : sequence [seq vals_of c | c <- [seq nth (Advice, 0%N) cols q | q <- ch len m t0]] =
   Some [seq vf q | q <- ch len m t0].
  rewrite -map_comp; apply: sequence_map => q hq /=.
  by have [-> _] := hvals (mem_ch len0 ht hq).
apply: wp_weaken (perm_chunk_run (e_delta E ^+ (t0 * len)) lz sets polys s hv _ _); first last.
- by rewrite all_map; apply/allP => q hq /=; rewrite hsigs // (mem_ch len0 ht hq).
- by rewrite all_map; apply/allP => q hq /=; have [_ ->] := hvals (mem_ch len0 ht hq).
move=> st s1 [zp [bl [sz -> rp z0 zr]]].
have -> : e_delta E ^+ (t0 * len) * e_delta E ^+ size [seq nth (Advice, 0%N) cols q | q <- ch len m t0] =
          e_delta E ^+ (t0 * len + size (ch len m t0)) by rewrite exprD size_map.
case: r IH er => [|r] IH er.
  apply: wp_ret; exists [:: (zp, bl)]; split=> //=.
  - by rewrite sz eqxx.
  - by rewrite /mapi /= addn0 !cats1.
  - by apply: replays_bind rp _; apply: (replays_bind (replays_ret _ [::])); exact: replays_ret.
  by move=> [|t] i // _ hi; rewrite /zat /= zr // fracE // addn0.
have -> : (t0 * len + size (ch len m t0) = t0.+1 * len)%N.
  by rewrite ch_full ?mulSn 1?addnC // -er !addnS !ltnS leq_addr.
apply: wp_weaken (IH t0.+1 _ _ _ s1 _); last by rewrite addSnnS.
move=> st' s2 [zs [[h1 h2] [h3 h4] h5 [h6 h7] h8]]; exists ((zp, bl) :: zs); split.
- by rewrite /= h1 sz eqxx.
- rewrite h3 h4 -!cats1 -!catA; split=> //; congr (_ ++ _).
  have mc (f : nat -> seq F * F -> pset F) a l : mapi f (a :: l) = f 0%N a :: mapi (fun i => f i.+1) l.
    by rewrite -[LHS]/(f 0%N a :: mapi_from 1 f l) !(mapiE pzero) (mapi_fromE pzero).
  by rewrite mc addn0 /= !(mapiE pzero); congr (_ :: _); apply: eq_map => i; rewrite size_cat addn1 addSnnS.
- by apply: replays_bind rp _; apply: replays_bind h5 _; exact: replays_ret.
- split=> // -[|t] ht'; first by rewrite /zat /=; exact: h6.
  exact: h7.
move=> [|t] i ht' hi; first by rewrite /zat /= zr // fracE // addn0.
by rewrite addnS -addSn; exact: h8.
Qed.

Hypothesis hpk : pk_permutations pk = sigma.
Lemma nchE : nch len m = size (chunks len cols).
Proof. by rewrite (size_chunks _ (m := m)). Qed.

Lemma perm_commit_run advice fixed instance polys s : any_of advice fixed instance = vals_of ->
  wp (perm_commit E ps pk advice fixed instance beta gamma polys) s
   (fun r s' => exists zs : seq (seq F * F),
     [/\ size zs = nch len m /\ all (fun e => size e.1 == n) zs,
         r.1 = mapi (fun i e => PSet e.1 (size polys + i)%N e.2) zs /\
         r.2 = polys ++ [seq coset_of e.1 | e <- zs],
         replays s s' (perm_read_commitments E (pk_vk pk)) [seq commitment_of e.1 e.2 | e <- zs],
         ((0 < m)%N -> zat zs 0 0 = 1) /\
         (forall t, (t.+1 < nch len m)%N -> zat zs t.+1 0 = zat zs t u) &
         forall t i, (t < nch len m)%N -> (i < u)%N -> zat zs t i.+1 = zat zs t i * cfrac t i]).
Proof.
move=> ea; rewrite /perm_commit.
have l3 : (2 < vk_cs_degree (pk_vk pk))%N by rewrite -subn_gt0.
rewrite l3 /=; apply: wp_bind.
have -> : zip (chunks len cols) (chunks len (pk_permutations pk)) =
  [seq ([seq nth (Advice, 0%N) cols q | q <- ch len m t], [seq nth [::] sigma q | q <- ch len m t])
   | t <- iota 0 (nch len m)].
  have s1 : size (chunks len cols) = nch len m by apply: size_chunks.
  have s2 : size (chunks len sigma) = nch len m by apply: size_chunks.
  apply: (@eq_from_nth _ ([::], [::])); first by rewrite size_zip hpk s1 s2 size_map size_iota minnn.
  move=> t; rewrite size_zip hpk s1 s2 minnn => ht.
  rewrite nth_zip ?s1 ?s2 // (nth_map 0%N) ?size_iota // nth_iota // add0n.
  by rewrite (nth_chunks (Advice, 0%N) erefl ht) (nth_chunks [::] hsig ht).
have e1 : (1 : F) = e_delta E ^+ (0 * len) by rewrite mul0n expr0.
rewrite ea [X in (X, 1, _, _)]e1.
apply: wp_weaken (perm_fold_run 1 [::] polys s (erefl : (0 + nch len m = nch len m)%N)).
move=> st s1 [zs [h1 [h2 h3] h4 [h5 h6] h7]]; apply: wp_ret; exists zs; split=> //.
- rewrite /perm_read_commitments l3 /= -(mmap_const _ (l := iota 0 (nch len m))) //.
  by rewrite size_iota nchE.
by split=> // m0; apply: h5; rewrite nch_gt0.
Qed.
End Commit.
