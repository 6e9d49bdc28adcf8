(* C16 (grouping of opening queries), C17 (the multi-point opening argument is complete and
   its two sides agree). *)
Set Warnings "-notation-overridden,-ambiguous-paths".
From mathcomp Require Import all_ssreflect all_algebra.
From Verif Require Import Util M_FFT M_Multiexp M_Poly L_Poly M_Domain L_Domain.
From Verif Require Import M_Env M_Transcript L_Transcript L_Mono L_WP M_Commit S_Commit L_Commit P_Commit M_IPA L_IPA P_IPA.
From Verif Require Import M_Multiopen L_Multiopen L_MoProof Ex_Env.
Import GRing.Theory.
Set Implicit Arguments.
Unset Strict Implicit.

Section C16.
Variables (K P : eqType) (D V : Type).
Implicit Types (qs : seq (query K P D V)).

Lemma qs_default qs : qs = [::] \/ exists d0 : D, exists p0 : P, exists v0 : V, True.
Proof. by case: qs => [|q qs]; [left | right; exists (q_data q), (q_point q), (q_eval q)]. Qed.

(* It never panics, and answers None exactly when some (commitment, point) pair is queried twice. *)
Theorem C16_sets_total : forall qs,
  exists o, construct_intermediate_sets qs = Ok o /\
    (o = None <-> ~~ uniq [seq (q_key q, q_point q) | q <- qs]).
Proof.
move=> qs; case: (qs_default qs) => [->|[d0 [p0 [v0 _]]]]; first by exists (Some ([::], [::])).
by rewrite (cisE d0 p0 v0) /qpairs; case: uniq; eexists; split=> //; split.
Qed.

Lemma firstsE (T : eqType) (s : seq T) : firsts s = rev (undup (rev s)).
Proof.
elim/last_ind: s => // s x IH; rewrite firsts_rcons rev_rcons /= mem_rev IH.
by case: ifP => // _; rewrite rev_cons.
Qed.

(* The commitments are listed once each, in order of first appearance, with the data of
   their first query; each refers to an existing set and has one evaluation per point of the
   set; no set has a repeated point, no two sets have the same points, every set is used. *)
Theorem C16_sets_shape : forall qs cds sets,
  construct_intermediate_sets qs = Ok (Some (cds, sets)) ->
  [/\ [seq e.1 | e <- cds] = rev (undup (rev [seq q_key q | q <- qs])),
      (forall e, List.In e cds ->
         [/\ (cd_set_index e.2.2 < size sets)%N,
             size (cd_evals e.2.2) = size (nth [::] sets (cd_set_index e.2.2)) &
             exists pre q post, [/\ qs = pre ++ q :: post, q_key q = e.1, q_data q = e.2.1 &
                                    e.1 \notin [seq q_key q | q <- pre]]]),
      all uniq sets,
      (forall i j, (i < size sets)%N -> (j < size sets)%N ->
         nth [::] sets i =i nth [::] sets j -> i = j) &
      (forall i, (i < size sets)%N -> exists2 e, List.In e cds & cd_set_index e.2.2 = i)].
Proof.
move=> qs cds sets; case: (qs_default qs) => [->|[d0 [p0 [v0 _]]]]; first by case=> <- <-; split.
rewrite (cisE d0 p0 v0); case: ifP => // hu [<- <-] {cds sets}.
set kp := qpairs qs in hu *; set keys := firsts (qkeys qs).
have ekeys : keys = firsts (map fst kp) by rewrite /keys map_fst_pairs.
have hin e : List.In e (cis_cdata d0 v0 qs) -> exists2 k, k \in keys & e = (k, (qdata d0 qs k, CData (kp_si kp k) (kp_pi kp k)
       [seq qeval v0 qs k p | p <- kp_pset kp k])).
  move=> /List.in_map_iff [k [<- hk]]; exists k => //.
  by move: hk; rewrite -/keys; elim: (keys) => //= a l IH [->|/IH]; rewrite inE ?eqxx // => ->; rewrite orbT.
have hin2 k : k \in keys -> List.In (k, (qdata d0 qs k, CData (kp_si kp k) (kp_pi kp k)
       [seq qeval v0 qs k p | p <- kp_pset kp k])) (cis_cdata d0 v0 qs).
  move=> hk; apply/List.in_map_iff; exists k; split=> //; rewrite -/keys.
  by move: hk; elim: (keys) => //= a l IH; rewrite inE => /orP [/eqP ->|/IH]; [left | right].
have ssets : size (kp_point_sets p0 kp) = size (kp_sets kp) by rewrite size_map.
have silt k : k \in keys -> (kp_si kp k < size (kp_sets kp))%N.
  by rewrite ekeys => h; rewrite index_mem mem_firsts; apply/mapP; exists k.
have nsets k : k \in keys -> nth [::] (kp_point_sets p0 kp) (kp_si kp k) = kp_pset kp k.
  move=> h; rewrite /kp_point_sets (nth_map [::]) ?silt // nth_index ?kp_sets_pts //.
  by rewrite mem_firsts; apply/mapP; exists k => //; rewrite -ekeys.
have used i : (i < size (kp_sets kp))%N -> exists2 k, k \in keys & kp_si kp k = i.
  move=> hi; have /mapP [k hk ek] : nth [::] (kp_sets kp) i \in [seq kp_ps kp k | k <- firsts (map fst kp)].
    by rewrite -mem_firsts; exact: mem_nth.
  by exists k; rewrite ?ekeys // /kp_si -ek index_uniq ?firsts_uniq.
split.
- by rewrite -map_comp map_id -firstsE.
- move=> e /hin [k hk ->] /=; rewrite ssets silt // nsets // size_map; split=> //.
  have : k \in qkeys qs by rewrite -mem_firsts.
  rewrite /qdata; elim: (qs) => //= q qs' IH; rewrite inE; case: (eqVneq k (q_key q)) => [-> _|hne /= /IH].
    by exists [::], q, qs'.
  move=> [pre [q' [post [e1 e2 e3 e4]]]].
  by exists (q :: pre), q', post; rewrite /= {1}e1 inE negb_or hne.
- apply/(all_nthP [::]) => i; rewrite ssets => /used [k hk <-]; by rewrite nsets // pset_uniq.
- move=> i j; rewrite ssets => /used [k hk <-] /used [k' hk' <-]; rewrite !nsets // => h.
  have -> // : kp_si kp k = kp_si kp k'.
  rewrite /kp_si !(kp_psE p0) (_ : kp_pset kp k = kp_pset kp k') //.
  by apply: eq_in_filter => p _; rewrite -!mem_pset h.
by move=> i; rewrite ssets => /used [k hk <-]; eexists; first exact: (hin2 k hk).
Qed.
End C16.

Lemma qeval_uniq (K P V : eqType) (D : Type) (v0 : V) (pre l : seq (query K P D V)) q :
  uniq (qpairs (pre ++ q :: l)) -> qeval v0 (pre ++ q :: l) (q_key q) (q_point q) = q_eval q.
Proof.
rewrite /qeval; elim: pre => [|q' pre IH] /=; first by rewrite !eqxx.
move=> /andP [h /IH <-]; case: ifP => // /andP [/eqP e1 /eqP e2].
by move: h; rewrite e1 e2 /qpairs map_cat mem_cat /= in_cons eqxx orbT.
Qed.

(* Nothing is lost, added or moved: listing for each commitment the points of its set with the
   evaluations stored for it gives back exactly the queries. *)
Theorem C16_sets_faithful : forall (K P V : eqType) (D : Type) (qs : seq (query K P D V)) cds sets,
  construct_intermediate_sets qs = Ok (Some (cds, sets)) ->
  perm_eq [seq (q_key q, q_point q, q_eval q) | q <- qs]
          (flatten [seq [seq (e.1, pe.1, pe.2) | pe <- zip (nth [::] sets (cd_set_index e.2.2)) (cd_evals e.2.2)]
                   | e <- cds]).
Proof.
move=> K P V D qs cds sets; case: (qs_default qs) => [->|[d0 [p0 [v0 _]]]]; first by case=> <- <-.
move=> h; have := h; rewrite (cisE d0 p0 v0); case: ifP => // hu [ecd esets].
rewrite -{}ecd -{}esets.
set kp := qpairs qs in hu *.
have ekp : kp = [seq (e.1, e.2) | e <- kp] by rewrite -[LHS]map_id; apply: eq_map => -[].
have silt k : k \in firsts (map fst kp) -> (kp_si kp k < size (kp_sets kp))%N.
  by move=> hk; rewrite index_mem mem_firsts; apply/mapP; exists k.
have nsets k : k \in firsts (map fst kp) -> nth [::] (kp_point_sets p0 kp) (kp_si kp k) = kp_pset kp k.
  move=> hk; rewrite /kp_point_sets (nth_map [::]) ?silt // nth_index ?kp_sets_pts //.
  by rewrite mem_firsts; apply/mapP; exists k.
have -> : [seq (q_key q, q_point q, q_eval q) | q <- qs] = [seq (e.1, e.2, qeval v0 qs e.1 e.2) | e <- kp].
  rewrite /kp -map_comp; suff H l pre : qs = pre ++ l -> [seq (q_key q, q_point q, q_eval q) | q <- l] =
    [seq (q_key q, q_point q, qeval v0 qs (q_key q) (q_point q)) | q <- l] by exact: (H qs [::]).
  elim: l pre => //= q l IH pre e; rewrite (IH (rcons pre q)) ?cat_rcons //.
  by rewrite {2}e qeval_uniq // -e.
rewrite /cis_cdata -map_comp -map_fst_pairs -/kp.
have -> : [seq ((fun e : K * (D * cdata V) =>
         [seq (e.1, pe.1, pe.2) | pe <- zip (nth [::] (kp_point_sets p0 kp) (cd_set_index e.2.2)) (cd_evals e.2.2)])
     \o (fun k => (k, (qdata d0 qs k, CData (kp_si kp k) (kp_pi kp k) [seq qeval v0 qs k p | p <- kp_pset kp k])))) k
    | k <- firsts (map fst kp)] =
   [seq [seq (e.1, e.2, qeval v0 qs e.1 e.2) | e <- [seq (k, p) | p <- kp_pset kp k]] | k <- firsts (map fst kp)].
  apply/eq_in_map => k hk /=; rewrite nsets // -map_comp.
  by elim: (kp_pset kp k) => //= p l ->.
rewrite (map_comp (map (fun e : K * P => (e.1, e.2, qeval v0 qs e.1 e.2))) (fun k => [seq (k, p) | p <- kp_pset kp k])).
rewrite -map_flatten; apply: perm_map; apply: uniq_perm => //.
  by apply: allpairs_uniq_dep => [|k _|[k p] [k' p'] _ _ /= [-> ->]]; rewrite ?firsts_uniq ?pset_uniq.
move=> [k p]; apply/idP/allpairsPdep => [h2|[k' [p' [_ + ->]]]]; last by rewrite mem_pset.
by exists k, p; rewrite mem_firsts mem_pset; split=> //; apply/mapP; exists (k, p).
Qed.

(* The grouping depends only on which queries share a commitment and which share a point. *)
Section Pattern.
Variables (K P K' P' : eqType) (fK : K -> K') (fP : P -> P').
Lemma firsts_map (T T' : eqType) (f : T -> T') s : {in s &, injective f} -> firsts (map f s) = map f (firsts s).
Proof.
elim/last_ind: s => // s x IH hf; rewrite map_rcons !firsts_rcons.
have hf' : {in s &, injective f} by move=> a b ha hb; apply: hf; rewrite mem_rcons inE ?ha ?hb orbT.
rewrite IH // (_ : (f x \in map f s) = (x \in s)); first by case: ifP => // _; rewrite map_rcons.
apply/mapP/idP => [[y hy] |]; last by exists x.
by move/hf => -> //; rewrite mem_rcons inE ?eqxx ?hy ?orbT.
Qed.
Lemma index_map_in (T T' : eqType) (f : T -> T') s x : {in s &, injective f} -> x \in s -> index (f x) (map f s) = index x s.
Proof.
elim: s => //= y s IH hf; rewrite inE => hx; case: (eqVneq x y) hx => [->|hne /= hx]; first by rewrite !eqxx.
have hf' : {in s &, injective f} by move=> a b ha hb; apply: hf; rewrite inE ?ha ?hb orbT.
rewrite (_ : (f y == f x) = false) ?IH //.
by apply/eqP => /hf e; move: hne; rewrite -e ?eqxx // inE ?eqxx ?hx ?orbT.
Qed.

Variable kp : seq (K * P).
Hypothesis iK : {in map fst kp &, injective fK}.
Hypothesis iP : {in map snd kp &, injective fP}.
Let kp' := [seq (fK e.1, fP e.2) | e <- kp].
Let e1 : map fst kp' = map fK (map fst kp). Proof. by rewrite -!map_comp. Qed.
Let e2 : map snd kp' = map fP (map snd kp). Proof. by rewrite -!map_comp. Qed.
Lemma kp_idx_map p : p \in map snd kp -> kp_idx kp' (fP p) = kp_idx kp p.
Proof.
move=> h; rewrite /kp_idx e2 firsts_map // index_map_in ?mem_firsts //.
by move=> a b; rewrite !mem_firsts; exact: iP.
Qed.
Lemma kp_pi_map k : k \in map fst kp -> kp_pi kp' (fK k) = kp_pi kp k.
Proof.
move=> hk; rewrite /kp_pi filter_map -map_comp.
have -> : [seq e <- kp | preim (fun e : K * P => (fK e.1, fP e.2)) (fun e => e.1 == fK k) e] = [seq e <- kp | e.1 == k].
  apply: eq_in_filter => e he /=; apply/eqP/eqP => [/iK -> //|-> //]; exact: map_f.
by apply/eq_in_map => e; rewrite mem_filter => /andP [_ he] /=; apply: kp_idx_map; exact: map_f.
Qed.
Lemma kp_ps_map k : k \in map fst kp -> kp_ps kp' (fK k) = kp_ps kp k.
Proof. by move=> h; rewrite /kp_ps kp_pi_map. Qed.
Lemma kp_sets_map : kp_sets kp' = kp_sets kp.
Proof.
rewrite /kp_sets e1 firsts_map // -map_comp; congr firsts; apply/eq_in_map => k; rewrite mem_firsts; exact: kp_ps_map.
Qed.
Lemma kp_si_map k : k \in map fst kp -> kp_si kp' (fK k) = kp_si kp k.
Proof. by move=> h; rewrite /kp_si kp_sets_map kp_ps_map. Qed.
Lemma kp_point_sets_map p0 : kp_point_sets (fP p0) kp' = map (map fP) (kp_point_sets p0 kp).
Proof.
rewrite /kp_point_sets kp_sets_map e2 firsts_map // -map_comp; apply/eq_in_map => s.
rewrite mem_firsts => /mapP [k]; rewrite mem_firsts => hk -> /=; rewrite -map_comp; apply/eq_in_map => i.
rewrite mem_bset => /mapP [e]; rewrite mem_filter => /andP [_ he] -> /=.
by rewrite (nth_map p0) // index_mem mem_firsts; exact: map_f.
Qed.
End Pattern.

Theorem C16_sets_pattern : forall (K P K' P' : eqType) (D V D' V' : Type) (fK : K -> K') (fP : P -> P')
    (qs : seq (query K P D V)) (qs' : seq (query K' P' D' V')) cds sets,
  {in [seq q_key q | q <- qs] &, injective fK} -> {in [seq q_point q | q <- qs] &, injective fP} ->
  [seq (q_key q, q_point q) | q <- qs'] = [seq (fK (q_key q), fP (q_point q)) | q <- qs] ->
  construct_intermediate_sets qs = Ok (Some (cds, sets)) ->
  exists2 cds', construct_intermediate_sets qs' = Ok (Some (cds', [seq [seq fP p | p <- s] | s <- sets])) &
    [seq (e.1, cd_set_index e.2.2, cd_point_indices e.2.2) | e <- cds'] =
    [seq (fK e.1, cd_set_index e.2.2, cd_point_indices e.2.2) | e <- cds].
Proof.
move=> K P K' P' D V D' V' fK fP qs qs' cds sets iK iP e.
case: (qs_default qs) => [eq0|[d0 [p0 [v0 _]]]].
  by move: e; rewrite eq0; case: qs' => //= _ [<- <-]; exists [::].
case: (qs_default qs') => [eq0|[d0' [p0' [v0' _]]]].
  by move: e; rewrite eq0; case: qs {iK iP} => //= _ [<- <-]; exists [::].
have ekp : qpairs qs' = [seq (fK x.1, fP x.2) | x <- qpairs qs] by rewrite /qpairs -map_comp.
rewrite -/(qkeys qs) -map_fst_pairs in iK; rewrite -/(qpts qs) -map_snd_pairs in iP.
rewrite (cisE d0 p0 v0) (cisE d0' (fP p0) v0'); case: ifP => // hu [<- <-].
have -> : uniq (qpairs qs').
  rewrite ekp map_inj_in_uniq // => -[k p] [k' p'] h h' [/= /iK ek /iP ep].
  congr (_, _); [apply: ek | apply: ep]; [exact: map_f h | exact: map_f h' | exact: map_f h | exact: map_f h'].
exists (cis_cdata d0' v0' qs'); first by rewrite ekp kp_point_sets_map.
have ek : qkeys qs' = map fK (map fst (qpairs qs)) by rewrite -map_fst_pairs ekp -!map_comp.
rewrite /cis_cdata ek firsts_map // -(map_fst_pairs qs) -!map_comp ekp.
apply/eq_in_map => k; rewrite mem_firsts => hk /=.
have hk' : k \in map fst (qpairs qs) by rewrite -map_comp.
by rewrite (kp_si_map iK iP hk') (kp_pi_map iK iP hk').
Qed.
Print Assumptions C16_sets_total.
Print Assumptions C16_sets_shape.
Print Assumptions C16_sets_faithful.
Print Assumptions C16_sets_pattern.

Local Open Scope ring_scope.
Section C17.
Variables (F B : fieldType) (G : lmodType F) (E : env B G) (ps : params G) (K : eqType).
Hypothesis ok : env_ok E.
Hypothesis pok : params_ok E ps.
Let pn0 : (0 < p_n ps)%N. Proof. by rewrite (ps_n pok) expn_gt0. Qed.
Let psz : size (p_g ps) = p_n ps. Proof. by rewrite (ps_g pok) (ps_n pok). Qed.

(* The verifier's decision: verify_proof, then use_challenges, then MSM evaluation. *)
Definition mo_decide (queries : seq (vquery B G K)) (m : msm F B) (st : rst) : res (bool * rst) :=
  rbind (mo_verify_proof E ps queries m st) (fun q =>
  rbind (unwrap (use_challenges ps q.1)) (fun m' =>
  rbind (unwrap (msm_eval E ps m')) (fun b => Ok (b, q.2)))).

(* m was built by MSM operations and stands for v *)
Definition stands_for (m : msm F B) (v : G) : Prop :=
  exists ops, [/\ all (op_ok (p_n ps)) ops, ops_run E ps msm_new ops = Some m & ops_value ps ops = v].
(* a commitment reference, plain or MSM, to the polynomial and blind pb *)
Definition commits_to (c : cref B G) (pb : seq F * F) : Prop :=
  match c with
  | CCommitment p => commit E ps pb.1 pb.2 = Some p
  | CMsm m => exists2 p, stands_for m p & commit E ps pb.1 pb.2 = Some p
  end.

Lemma stands_forE m v : stands_for m v -> mvalid E ps m /\ mval E ps m = v.
Proof.
move=> [ops [h1 h2 <-]]; have [v0 e0] := msm_newE E ps.
have [m' em' [vm mv]] := ops_runE ok pok v0 h1.
by move: em'; rewrite h2 => -[->]; split=> //; rewrite mv e0.
Qed.
Lemma commits_toE c pb : size pb.1 = p_n ps -> commits_to c pb ->
  cref_ok E ps c /\ cref_val E ps c = dotG pb.1 (p_g ps) + pb.2 *: p_w ps.
Proof.
move=> sp; case: c => [p|m] /=; first by rewrite commitE ?sp ?psz // => -[->].
by move=> [p /stands_forE [vm ->]]; rewrite commitE ?sp ?psz // => -[->].
Qed.

Section Run.
(* The queries: (commitment, point) pairs.  dat gives the prover's polynomial and blind of a
   commitment, cr the verifier's reference to it. *)
Variables (kp : seq (K * F)) (dat : K -> seq F * F) (cr : K -> cref B G).
Hypothesis k0 : (0 < p_k ps)%N.
Hypothesis sizes : forall k, k \in map fst kp -> size (dat k).1 = p_n ps.
Hypothesis commits : forall k, k \in map fst kp -> commits_to (cr k) (dat k).
Let pqueries : seq (pquery F K) := [seq Query e.1 (dat e.1) e.2 tt | e <- kp].
Let vqueries (claim : K -> F -> F) : seq (vquery B G K) := [seq Query e.1 (cr e.1) e.2 (claim e.1 e.2) | e <- kp].

Lemma decideE gd claim m s s' : replays s s' (mo_verify_proof E ps (vqueries claim) m) gd ->
  mvalid E ps (gd_msm gd) -> size (gd_u gd) = p_k ps ->
  exists2 bytes, w_out s' = w_out s ++ bytes & forall rest,
  mo_decide (vqueries claim) m (Rst (w_abs s) (bytes ++ rest)) =
  Ok (mval E ps (gd_msm gd) + gd_neg_c gd *: dotG (svec (gd_u gd)) (p_g ps) == 0, Rst (w_abs s') rest).
Proof.
move=> [bytes eb hr] vg su; exists bytes => // rest; rewrite /mo_decide hr [rbind _ _]/=.
have [m1 -> [v1 e1]] := use_challengesE pok vg su k0.
by rewrite [rbind _ _]/= (msm_evalE ok psz v1) [rbind _ _]/= e1.
Qed.

(* For all queries, polynomials, blinds, points, transcript states and random tapes: the
   verifier, given the true evaluations and the bytes the prover appended, reads exactly these
   bytes, ends in the prover's hash state and accepts.  The exception is a challenge
   x_3, squeezed during the run, that equals a queried point: then it panics. *)
Theorem C17_multiopen_complete : forall (m : msm F B) (s s' : wst),
  stands_for m 0 -> mo_create_proof E ps pqueries s = Ok (tt, s') ->
  exists x3, squeezed E s s' x3 /\
  exists2 bytes, w_out s' = w_out s ++ bytes & forall rest,
    mo_decide (vqueries (fun k p => (Poly (dat k).1).[p])) m (Rst (w_abs s) (bytes ++ rest)) =
    if x3 \in map snd kp then Panic else Ok (true, Rst (w_abs s') rest).
Proof.
move=> m s s' /stands_forE [vm em] hp.
have hcr k : k \in map fst kp -> cref_ok E ps (cr k) /\ cref_val E ps (cr k) = dotG (dat k).1 (p_g ps) + (dat k).2 *: p_w ps.
  by move=> hk; apply: commits_toE; [exact: sizes | exact: commits].
have [x1 [x2 [x3 [x4 [[hu h1 h2 h3 h4] hv]]]]] := mo_run ok pok k0 sizes hcr vm em hp.
exists x3; split=> //; have [hbad hgood] := hv (fun k p => (Poly (dat k).1).[p]).
case: (boolP (x3 \in map snd kp)) => [/hbad [bytes eb h]|/hgood [gd [D [hr vg su hD ev]]]].
  by exists bytes => // rest; rewrite /mo_decide h.
have [bytes eb hd] := decideE hr vg su; exists bytes => // rest; rewrite hd ev.
rewrite (_ : hsumF x2 _ = 0); first by rewrite mulr0 scale0r eqxx.
have z i : i \in iota 0 (size (kp_point_sets 0%R kp)) -> (D i).[x3] / (\prod_(p <- nth [::] (kp_point_sets 0%R kp) i) ('X - p%:P)).[x3] = 0.
  rewrite mem_iota add0n => /andP [_ hi]; have [sD vD] := hD i hi.
  suff -> : D i = 0 by rewrite horner0 mul0r.
  have hi' : (i < size (kp_sets kp))%N by rewrite -(size_point_sets kp).
  apply: (poly_interp_unique (set_uniq hi')) => //; first by rewrite size_poly0.
  move=> p /vD ->; rewrite horner0; elim/last_ind: (keys_of kp i) => // l k IH.
  by rewrite map_rcons hsumF_rcons IH subrr mulr0 addr0.
move: z; elim/last_ind: (iota _ _) => // l i IH z; rewrite map_rcons hsumF_rcons z ?mem_rcons ?mem_head // IH ?mulr0 ?addr0 //.
by move=> j hj; apply: z; rewrite mem_rcons inE hj orbT.
Qed.

(* One wrong claimed evaluation is rejected, whenever the challenges of the run are not zero and the
   first generator is not the identity. *)
Theorem C17_one_wrong_evaluation_rejected : forall (m : msm F B) (s s' : wst) (k1 : K) (p1 : F) (claim : K -> F -> F),
  (forall st, e_uniform E (e_blake E st) != 0) -> (p_g ps)`_0 != 0 ->
  (k1, p1) \in kp ->
  (forall k p, (k, p) \in kp -> (claim k p == (Poly (dat k).1).[p]) = ((k, p) != (k1, p1))) ->
  stands_for m 0 -> mo_create_proof E ps pqueries s = Ok (tt, s') ->
  exists x3, squeezed E s s' x3 /\
  exists2 bytes, w_out s' = w_out s ++ bytes & forall rest,
    mo_decide (vqueries claim) m (Rst (w_abs s) (bytes ++ rest)) =
    if x3 \in map snd kp then Panic else Ok (false, Rst (w_abs s') rest).
Proof.
move=> m s s' k1 p1 claim nz g0 h1 hcl /stands_forE [vm em] hp.
have hcr k : k \in map fst kp -> cref_ok E ps (cr k) /\ cref_val E ps (cr k) = dotG (dat k).1 (p_g ps) + (dat k).2 *: p_w ps.
  by move=> hk; apply: commits_toE; [exact: sizes | exact: commits].
have [x1 [x2 [x3 [x4 [[hu q1 q2 q3 q4] hv]]]]] := mo_run ok pok k0 sizes hcr vm em hp.
exists x3; split=> //; have [hbad hgood] := hv claim.
case: (boolP (x3 \in map snd kp)) => [/hbad [bytes eb h]|hx3].
  by exists bytes => // rest; rewrite /mo_decide h.
have [gd [D [hr vg su hD ev]]] := hgood hx3.
have [bytes eb hd] := decideE hr vg su; exists bytes => // rest; rewrite hd ev.
have nzs x : squeezed E s s' x -> x != 0 by move=> [a [b [_ ->]]].
rewrite scaler_eq0 (negbTE g0) orbF mulf_eq0 expf_eq0 (negbTE (nzs _ q4)) andbF /=.
have hk1 : k1 \in map fst kp by apply/mapP; exists (k1, p1).
pose i1 := kp_si kp k1.
have hi1 : (i1 < size (kp_point_sets 0%R kp))%N by rewrite size_point_sets; exact: kp_si_lt.
set t := fun i => (D i).[x3] / (\prod_(p <- nth [::] (kp_point_sets 0%R kp) i) ('X - p%:P)).[x3].
have hkey i k : k \in keys_of kp i -> forall p, p \in nth [::] (kp_point_sets 0%R kp) i -> (k, p) \in kp.
  by move=> /keys_ofP [hk <-] p; rewrite nth_point_sets // mem_pset.
have hz i : (i < size (kp_point_sets 0%R kp))%N -> i != i1 -> t i = 0.
  move=> hi hne; have [sD vD] := hD i hi; rewrite /t.
  suff -> : D i = 0 by rewrite horner0 mul0r.
  have hi' : (i < size (kp_sets kp))%N by rewrite -(size_point_sets kp).
  apply: (poly_interp_unique (set_uniq hi')) => //; first by rewrite size_poly0.
  move=> p hp'; rewrite vD // horner0.
  have : forall k, k \in keys_of kp i -> claim k p - (Poly (dat k).1).[p] = 0.
    move=> k hk; apply/eqP; rewrite subr_eq0 hcl ?(hkey i) //; apply/eqP => -[ek _].
    by move: hk hne => /keys_ofP [_ <-]; rewrite ek eqxx.
  elim/last_ind: (keys_of kp i) => // l k IH z.
  rewrite map_rcons hsumF_rcons z ?mem_rcons ?mem_head // IH ?mulr0 ?addr0 // => k' hk'.
  by apply: z; rewrite mem_rcons inE hk' orbT.
have nz1 : t i1 != 0.
  have [sD vD] := hD i1 hi1.
  have hi' : (i1 < size (kp_sets kp))%N by rewrite -(size_point_sets kp).
  have hus := set_uniq hi'; set pts := nth [::] _ i1 in sD vD hus *.
  have hp1 : p1 \in pts by rewrite /pts /i1 nth_point_sets // mem_pset.
  have hk1i : k1 \in keys_of kp i1 by rewrite mem_filter eqxx mem_firsts.
  have d1 : (D i1).[p1] != 0.
    rewrite vD //.
    have : forall k, k \in keys_of kp i1 -> (claim k p1 - (Poly (dat k).1).[p1] == 0) = (k != k1).
      by move=> k hk; rewrite subr_eq0 hcl ?(hkey i1) // xpair_eqE eqxx andbT.
    have : uniq (keys_of kp i1) by apply: filter_uniq; exact: firsts_uniq.
    elim: (keys_of kp i1) hk1i => // k l IH; rewrite inE => hk /= /andP [hkl hul] z.
    rewrite hsumF_cons size_map; have zk := z k (mem_head _ _).
    have zl k' : k' \in l -> (claim k' p1 - (Poly (dat k').1).[p1] == 0) = (k' != k1).
      by move=> h; apply: z; rewrite inE h orbT.
    case: (eqVneq k1 k) hk zk => [ek _|hne /= hk].
      move=> /negbT zk.
      rewrite (_ : hsumF _ _ = 0); first by rewrite addr0 mulf_neq0 // expf_neq0 // nzs.
      rewrite -ek in hkl; move: {IH z hul} hkl zl; elim/last_ind: l => // l k' IHl.
      rewrite mem_rcons inE negb_or => /andP [hne hkl] zl; rewrite map_rcons hsumF_rcons IHl ?mulr0 ?add0r //.
        by apply/eqP; rewrite zl ?mem_rcons ?mem_head // eq_sym.
      by move=> k2 h2; apply: zl; rewrite mem_rcons inE h2 orbT.
    move=> /eqP ->.
    by rewrite mulr0 add0r; apply: IH.
  rewrite /t mulf_neq0 ?invr_eq0 //; last first.
    rewrite horner_prod prodf_seq_neq0; apply/allP => p hp' /=; rewrite hornerXsubC subr_eq0.
    apply: contraNneq hx3 => ->; rewrite mem_sets; apply/hasP; exists pts => //; exact: mem_nth.
  apply: contraNneq d1 => z3.
  have hx3' : x3 \notin rem p1 pts.
    apply: contra hx3 => /mem_rem h; rewrite mem_sets; apply/hasP; exists pts => //; exact: mem_nth.
  suff -> : D i1 = 0 by rewrite horner0.
  have hun : uniq (x3 :: rem p1 pts) by rewrite /= hx3' rem_uniq.
  apply: (poly_interp_unique hun); rewrite ?size_poly0 //.
  - by rewrite /= size_rem // prednK //; case: (pts) hp1.
  move=> p; rewrite horner0 inE => /orP [/eqP -> //|hpr].
  rewrite vD; last exact: mem_rem hpr.
  have hne : p != p1 by apply: contraTneq hpr => ->; rewrite mem_rem_uniqF.
  have : forall k, k \in keys_of kp i1 -> claim k p - (Poly (dat k).1).[p] = 0.
    move=> k hk; apply/eqP; rewrite subr_eq0 hcl ?(hkey i1) ?xpair_eqE ?negb_and ?hne ?orbT //.
    exact: mem_rem hpr.
  elim/last_ind: (keys_of kp i1) => // l k IH z.
  rewrite map_rcons hsumF_rcons z ?mem_rcons ?mem_head // IH ?mulr0 ?addr0 // => k' hk'.
  by apply: z; rewrite mem_rcons inE hk' orbT.
suff -> : (hsumF x2 [seq t i | i <- iota 0 (size (kp_point_sets 0%R kp))] == 0) = false by [].
have : forall i, i \in iota 0 (size (kp_point_sets 0%R kp)) -> (t i == 0) = (i != i1).
  move=> i; rewrite mem_iota add0n => /andP [_ hi]; case: (eqVneq i i1) => [->|/hz ->//]; last by rewrite eqxx.
  exact: negbTE.
have : i1 \in iota 0 (size (kp_point_sets 0%R kp)) by rewrite mem_iota add0n.
elim: (iota _ _) (iota_uniq 0 (size (kp_point_sets 0%R kp))) => // i l IH /= /andP [hil hul].
rewrite inE hsumF_cons size_map => hi z; have zi := z i (mem_head _ _).
have zl j : j \in l -> (t j == 0) = (j != i1) by move=> h; apply: z; rewrite inE h orbT.
case: (eqVneq i1 i) hi zi => [ei _|hne /= hi].
  move=> /negbT zi.
  rewrite (_ : hsumF _ _ = 0); first by rewrite addr0; apply/negbTE; rewrite mulf_neq0 // expf_neq0 // nzs.
  rewrite -ei in hil; move: {IH z hul} hil zl; elim/last_ind: l => // l j IHl.
  rewrite mem_rcons inE negb_or => /andP [hne hil] zl; rewrite map_rcons hsumF_rcons IHl ?mulr0 ?add0r //.
    by apply/eqP; rewrite zl ?mem_rcons ?mem_head // eq_sym.
  by move=> j2 h2; apply: zl; rewrite mem_rcons inE h2 orbT.
move=> /eqP ->.
by rewrite mulr0 add0r; apply: IH.
Qed.

(* A (commitment, point) pair queried twice is refused by both sides. *)
Theorem C17_duplicate_query_refused : forall (m : msm F B) (s : wst) (st : rst) claim, ~~ uniq kp ->
  mo_create_proof E ps pqueries s = Err EIo /\ mo_verify_proof E ps (vqueries claim) m st = Err EOpening.
Proof.
move=> m s st claim /negbTE hu; split.
  rewrite /mo_create_proof; have [x [s1 [e1 _]]] := squeezeE ok s; rewrite (mbindE _ e1).
  have [x' [s2 [e2 _]]] := squeezeE ok s1; rewrite (mbindE _ e2).
  by rewrite -[pqueries]/(pqs_of kp dat) cis_pqs hu.
rewrite /mo_verify_proof.
have sq st0 : exists x st', r_squeeze E st0 = Ok (x, st').
  rewrite /r_squeeze /mbind /= /mlift /challenge_scalar /challenge_bytes (ok_repr ok) /=.
  by eexists; eexists.
have [x [s1 e1]] := sq st; rewrite (mbindE _ e1); have [x' [s2 e2]] := sq s1; rewrite (mbindE _ e2).
by rewrite -[vqueries claim]/(vqs_of kp cr claim) cis_vqs hu.
Qed.

(* The prover does not panic: for at least one query, no duplicates and at most n points per
   commitment, it succeeds or reports that a point to hash was the identity. *)
Theorem C17_create_no_panic : forall (s : wst),
  (forall st, e_uniform E (e_blake E st) != 0) ->
  kp != [::] -> uniq kp -> (forall k, (count (fun e => e.1 == k) kp <= p_n ps)%N) ->
  (exists s', mo_create_proof E ps pqueries s = Ok (tt, s')) \/ mo_create_proof E ps pqueries s = Err EIo.
Proof.
move=> s nz kp0 hu hcount.
suff : wp (mo_create_proof E ps pqueries) s (fun _ _ => True).
  by rewrite /wp; case: mo_create_proof => [[[] s']|[]|] // _; [left; exists s' | right].
rewrite /mo_create_proof; apply: wp_bind; apply: (wp_squeeze ok nz) => x1 s1 _.
apply: wp_bind; apply: (wp_squeeze ok nz) => x2 s2 _.
apply: wp_bind; apply: wp_lift; first by rewrite -[pqueries]/(pqs_of kp dat) cis_pqs hu.
set sets := kp_point_sets 0%R kp.
apply: wp_bind; apply: wp_unwrap.
  apply: (p_accE ok pok).
  rewrite all_map; apply/allP => k; rewrite mem_firsts => hk /=.
  by rewrite size_point_sets kp_si_lt //= /ipoly /= sizes ?eqxx.
pose q i := odflt [::] (hpoly (p_n ps) x1 [seq (dat k).1 | k <- keys_of kp i]).
have hq i : (i < size sets)%N -> hpoly (p_n ps) x1 [seq (dat k).1 | k <- keys_of kp i] = Some (q i) /\ size (q i) = p_n ps.
  rewrite size_point_sets => hi; have hne := keys_of_nonempty hi.
  have [| |r er [sr hr]] := @hpolyP _ (p_n ps) x1 [seq (dat k).1 | k <- keys_of kp i].
  - by rewrite all_map; apply/allP => k /keys_ofP [hk _] /=; rewrite sizes.
  - by rewrite size_map.
  by rewrite /q er.
have hsi i : i \in iota 0 (size sets) -> (i < size sets)%N by rewrite mem_iota add0n => /andP [].
have -> : [seq hpoly (p_n ps) x1 [seq ipoly e | e <- bucket i (pitems kp dat)] | i <- iota 0 (size sets)] =
           [seq Some (q i) | i <- iota 0 (size sets)].
  by apply/eq_in_map => i /hsi hi; rewrite bucket_pitems -map_comp; have [<-] := hq i hi.
set bs := [seq hsumF x1 _ | i <- _].
have [q' eq' sq'] : exists2 q', obind id (foldl (q_prime_step E ps x2) (Some None) (zip sets [seq Some (q i) | i <- iota 0 (size sets)])) = Some q'
    & size q' = p_n ps.
  have -> : zip sets [seq Some (q i) | i <- iota 0 (size sets)] = [seq (nth [::] sets i, Some (q i)) | i <- iota 0 (size sets)].
    by rewrite -{1}[sets](take_size sets) -{1}(map_nth_iota0 [::]) // zip_mapiota.
  have h0 : (0 < size (iota 0 (size sets)))%N.
    rewrite size_iota size_point_sets; case: (kp) kp0 => // e l _.
    by apply: leq_ltn_trans (leq0n _) (kp_si_lt (k := e.1) _); rewrite inE eqxx.
  have hsz i : i \in iota 0 (size sets) -> (i < size sets)%N by exact: hsi.
  move: h0 hsz; elim/last_ind: (iota _ _) => // l i IH _ hin.
  have hi := hin i; rewrite mem_rcons mem_head in hi; move: (hi isT) => {}hi.
  have [_ sqi] := hq i hi.
  have [Q eQ] : exists Q, foldl (fun o point => obind (fun poly : seq F => kate_division poly point) o) (Some (q i)) (nth [::] sets i) = Some Q.
    apply: kate_fold_ok; rewrite sqi; move: hi; rewrite size_point_sets => hi.
    have := keys_of_nonempty hi; case ek: (keys_of kp i) => [|k l'] // _.
    have [hk <-] : k \in map fst kp /\ kp_si kp k = i by apply: keys_ofP; rewrite ek mem_head.
    rewrite nth_point_sets //; apply: leq_trans (hcount k).
    rewrite -size_filter -(size_map snd); apply: uniq_leq_size; first exact: pset_uniq.
    by move=> p; rewrite mem_pset => h; apply/mapP; exists (k, p) => //; rewrite mem_filter eqxx.
  rewrite map_rcons -cats1 foldl_cat.
  case: (posnP (size l)) => [/size0nil ->|l0].
    by rewrite /= eQ /=; eexists; first by []; rewrite size_resize.
  have [|q'' + sq''] := IH l0; first by move=> j hj; apply: hin; rewrite mem_rcons inE hj orbT.
  case: (foldl _ _ _) => // -[q0|] //= [->]; rewrite eQ /= (poly_fma pn0) ?size_resize ?(ok_threads ok) //.
  by eexists; first by []; rewrite size_addscale.
apply: wp_bind; apply: wp_unwrap; first exact: eq'.
apply: wp_bind; apply: wp_draw => b' s3.
apply: wp_bind; apply: wp_unwrap; first by apply: (commitE ok); rewrite psz.
apply: wp_bind; apply: wp_write_point => s4.
apply: wp_bind; apply: (wp_squeeze ok nz) => x3 s5 _.
apply: wp_bind.
have hm l s0 (Q : seq unit -> wst -> Prop) : (forall r s', Q r s') -> wp
  (mmap (fun o => let! q := mlift (unwrap o) in write_scalar E (eval_polynomial q x3)) [seq Some (q i) | i <- l]) s0 Q.
  elim: l s0 Q => [|i l IH] s0 Q hQ; first exact: wp_ret.
  apply: wp_bind; apply: wp_bind; apply: wp_unwrap; first by [].
  apply: wp_write_scalar => s0'; apply: wp_bind; apply: IH => r s'; exact: wp_ret.
apply: hm => r6 s6.
apply: wp_bind; apply: (wp_squeeze ok nz) => x4 s7 _.
apply: wp_bind; apply: wp_unwrap.
  rewrite /bs zip_mapiota; apply: (final_foldE ok pok) => // i /hsi hi; by have [] := hq i hi.
have := C14_ipa_create_no_panic ok pok; rewrite /wp.
set pf := foldl _ _ _; set bf := hsumF _ _ => H.
have spf : size pf = p_n ps.
  have [|//] := @hpoly_fold _ (p_n ps) x4 q' [seq q i | i <- iota 0 (size sets)] sq'.
  by rewrite all_map; apply/allP => i /hsi hi /=; have [_ ->] := hq i hi.
by have [[s' ->]|->] := H pf bf x3 s7 nz spf.
Qed.
End Run.
End C17.
Print Assumptions C17_multiopen_complete.
Print Assumptions C17_one_wrong_evaluation_rejected.
Print Assumptions C17_duplicate_query_refused.
Print Assumptions C17_create_no_panic.

(* Non-vacuity: three commitments over F_97 with k = 2, one opened at two points, two at one
   point, one of the references being an MSM. *)
Definition mo_dat97 (k : nat) : seq F97 * F97 :=
  match k with 0%N => ([:: 1; 2%:R; 0; 7%:R], 3%:R) | 1%N => ([:: 5%:R; 0; 1; 1], 4%:R) | _ => ([:: 0; 9%:R; 3%:R; 2%:R], 8%:R) end.
Definition mo_kp97 : seq (nat * F97) := [:: (0%N, 5%:R); (1%N, 5%:R); (0%N, 6%:R); (2%N, 5%:R)].
Definition mo_cr97 ps (k : nat) : cref F97 G97 :=
  if commit E97 ps (mo_dat97 k).1 (mo_dat97 k).2 is Some c then
    if k == 1%N then CMsm G97 (odflt msm_new (ops_run E97 ps msm_new [:: OTerm 1 c])) else CCommitment F97 c
  else CCommitment F97 0.
Definition mo_run97 (bad : nat) : option bool :=
  if params_new E97 2 is Some ps then
    match mo_create_proof E97 ps [seq Query e.1 (mo_dat97 e.1) e.2 tt | e <- mo_kp97] (Wst [:: 9%N] [:: 1%N] 0) with
    | Ok (tt, s') =>
      if mo_decide E97 ps [seq Query e.1 (mo_cr97 ps e.1) e.2
           (eval_polynomial (mo_dat97 e.1).1 e.2 + (if e.1 == bad then 1 else 0)) | e <- mo_kp97] msm_new
           (Rst [:: 9%N] (behead (w_out s'))) is Ok (b, _) then Some b else None
    | _ => None
    end
  else None.
Example C17_true_values : mo_run97 7 = Some true.
Proof. by vm_compute. Qed.
Example C17_wrong_value : mo_run97 2 = Some false.
Proof. by vm_compute. Qed.
Example C17_commits : exists ps, [/\ params_ok E97 ps, (0 < p_k ps)%N, params_new E97 2 = Some ps,
  stands_for E97 ps msm_new 0 &
  forall k, k \in map fst mo_kp97 -> size (mo_dat97 k).1 = p_n ps /\ commits_to E97 ps (mo_cr97 ps k) (mo_dat97 k)].
Proof.
have [ps eps [pok [ek _]]] := @C11_params_new _ _ _ E97 E97_ok 2 isT isT.
have en : p_n ps = 4%N by rewrite (ps_n pok) ek.
have sg : size (p_g ps) = 4%N by rewrite (ps_g pok) ek.
have hm c : exists2 m, ops_run E97 ps msm_new [:: OTerm 1 c] = Some m & True.
  have [v0 _] := msm_newE E97 ps; have [m h _] := ops_runE E97_ok pok v0 (isT : all (op_ok (p_n ps)) [:: OTerm 1 c]).
  by exists m.
exists ps; split; rewrite ?ek //; first by exists [::].
move=> k; rewrite !inE => /or4P [] /eqP ->; rewrite en; split=> //; rewrite /commits_to /mo_cr97 commitE ?sg //=; try exact: E97_ok.
move: (dotG _ _ + _) => c; exists c => //; have [m em _] := hm c; move: (em) => /= ->.
by exists [:: OTerm 1 c]; rewrite /ops_value /= add0r scale1r.
Qed.
Example C16_ex : construct_intermediate_sets
  [:: Query 0%N 10%N 7%N 1%N; Query 1%N 11%N 7%N 2%N; Query 0%N 12%N 8%N 3%N; Query 2%N 13%N 7%N 4%N] =
  Ok (Some ([:: (0%N, (10%N, CData 0 [:: 0; 1]%N [:: 1; 3]%N)); (1%N, (11%N, CData 1 [:: 0]%N [:: 2]%N));
               (2%N, (13%N, CData 1 [:: 0]%N [:: 4]%N))], [:: [:: 7; 8]%N; [:: 7]%N])).
Proof. by vm_compute. Qed.
