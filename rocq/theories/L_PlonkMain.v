(* create_proof up to the opening argument, and verify_proof replaying it. *)
Set Warnings "-notation-overridden,-ambiguous-paths".
From mathcomp Require Import all_ssreflect all_algebra.
From Verif Require Import Util L_Chunks M_Poly L_Poly M_Domain L_Domain P_Domain M_Evaluator S_Evaluator P_Evaluator M_Assigned M_Env M_Transcript
  L_Transcript M_Commit S_Commit L_Commit P_Commit L_WP L_WPR M_IPA M_Multiopen P_Multiopen M_Circuit S_Circuit P_Circuit M_Selectors S_Selectors L_Selectors M_Copy L_Copy
  M_Keys M_Permutation S_Permutation M_Lookup L_Sigma P_Sigma L_PermCommit P_Permutation S_Plonk L_Expr P_Lookup M_Vanishing P_Vanishing
  M_Plonk M_Assign M_Keygen S_Mock P_Prove L_Wpe L_PlonkEval L_PlonkLeaves L_PlonkRun L_PlonkQuot L_PlonkDeg L_PlonkKey L_PlonkStages L_PlonkLk L_PlonkPerm
  L_PlonkCirc L_PlonkQ L_PlonkAfter.
Import GRing.Theory.
Set Implicit Arguments.
Unset Strict Implicit.
Local Open Scope ring_scope.

Section Evals.
Variables (F B : fieldType) (G : lmodType F) (E : env B G) (ps : params G).
Hypotheses (ok : env_ok E).
Variable A : error -> Prop.
Hypothesis hA : A EIo.
(* each step writes what the corresponding reader reads, with a known result *)
Lemma wpe_mmap_fun (T C D H : Type) (t0 : T) (c0 : C) (d0 : D) (h0 : H) (f : T -> W C) (g : D -> R H) (l : seq T) (l' : seq D)
    (v : nat -> H) s : size l' = size l ->
  (forall i s, (i < size l)%N -> wp (f (nth t0 l i)) s (fun c s' => replays s s' (g (nth d0 l' i)) (v i))) ->
  wpe A (mmap f l) s (fun _ s' => replays s s' (mmap g l') (mkseq v (size l))).
Proof.
move=> sz h; have := @wpe_mmap A T C D H t0 c0 d0 h0 f g l l' (fun i _ h => h = v i) s sz.
move=> h2; apply: wpe_weaken (h2 _) => [c s' [_ [hs hr [shs hv]]]|i s1 hi]; last first.
  by apply: wpe_wp => //; apply: wp_weaken (h i s1 hi) => c s' hr; exists (v i).
suff -> : mkseq v (size l) = hs by [].
by apply: (@eq_from_nth _ h0); rewrite ?size_mkseq ?shs // => i hi; rewrite nth_mkseq // hv.
Qed.
End Evals.

Section Main.
Variables (F B : fieldType) (G : lmodType F) (E : env B G) (ps : params G).
Hypotheses (ok : env_ok E) (pok : params_ok E ps).
Variables (d : domain F) (pk : pkey G) (calls : seq copy_call).
Notation n := (2 ^ p_k ps)%N.
Notation vk := (pk_vk pk).
Notation m := (vk_cs vk).
Notation D := (vk_cs_degree vk).
Notation bf := (blinding_factors m).
Notation u := (n - (bf + 1))%N.
Notation omega := (d_omega d).
Notation nc := (ncols m).
Notation lkd := (Lookup [::] [::] : lookup F).
Notation lk j := (nth lkd (lookups m) j).
Notation nlk := (size (lookups m)).
Notation lp0 := (LPermuted [::] (AConstantTerm 0) [::] [::] 0 0 [::] (AConstantTerm 0) [::] [::] 0 0 : lpermuted F).
Notation lc0 := (LCommitted lp0 [::] 0 0 : lcommitted F).
Notation set0 := (PSet [::] 0 0 : pset F).
Notation is0 := (ISingle [::] [::] [::] : isingle F).
Notation as0 := (ASingle [::] [::] [::] [::] : asingle F).
Hypothesis hk : key_ok E ps d pk calls.
Notation hd := (ko_new hk).
Variables (advs instances : seq (seq (seq F))).
Hypothesis hin : inputs_ok ps pk advs instances.
Notation np := (size instances).
Notation inst i := (nth [::] instances i).
Notation adv i := (nth [::] advs i).
Notation ics := (map (ic_of E ps d pk) instances).
Variable A : error -> Prop.
Hypothesis hA : A EIo.
Hypothesis hAl : forall i T lk, (i < np)%N ->
  prover_table n u (pk_fixed_values pk) (adv i) (map (padded ps) (inst i)) T ->
  List.In lk (lookups m) -> ~ lookup_holds n u T lk -> A EConstraintSystemFailure.

Lemma col_leaves_ext ia aa p q i l : extends E ps d p q -> col_leaves E ps d pk ia aa p i l -> col_leaves E ps d pk ia aa q i l.
Proof. by move=> e h a; have [h1 h2] := h a; split=> // c hc; exact: registered_ext e (h2 c hc). Qed.
Lemma sel_leaves_ext p q sigma l0 lb ll p0 pb pl : extends E ps d p q ->
  sel_leaves E ps d pk p sigma l0 lb ll p0 pb pl -> sel_leaves E ps d pk q sigma l0 lb ll p0 pb pl.
Proof.
move=> e [h1 h2 h3 h4 h5]; split=> //; try by exact: registered_ext e _.
by move=> j hj; exact: registered_ext e (h2 j hj).
Qed.
Lemma inst_all : all (fun i : seq (seq F) => size i == num_instance m) instances.
Proof. by apply/(all_nthP [::]) => i hi; have [-> _] := in_inst hin hi. Qed.

Section EvalStages.
Variables (ia : seq (isingle F)) (aa : seq (asingle F)) (acs : seq (seq G)).
Hypotheses (sia : size ia = np) (saa : size aa = np).
Hypothesis hia : forall i, (i < np)%N -> inst_ok E ps d pk instances i (nth is0 ia i).
Hypothesis haa : forall i, (i < np)%N -> adv_ok E ps d pk advs i (nth as0 aa i) (nth [::] acs i).
Variables (x : F) (pp : seq (seq (pset F))) (cs : seq (seq G)) (lcs : seq (seq (lcommitted F))) (zs : seq (seq (G * G * G))).
Hypotheses (spp : size pp = np) (scs : size cs = np) (slcs : size lcs = np) (szs : size zs = np).
Hypothesis hpp : forall i, (i < np)%N -> size (nth [::] cs i) = size (nth [::] pp i).
Hypothesis hlk : forall i, (i < np)%N -> size (nth [::] zs i) = size (nth [::] lcs i).
Lemma inst_evals s : wpe A (mmap (fun i => write_evals E (query_evals d x (is_polys i) (instance_queries m))) ia) s (fun _ s' =>
  replays s s' (mmap (fun _ => read_n_scalars E (size (instance_queries m))) (iota 0 np)) (mkseq (evi d pk ia aa x Instance) np)).
Proof.
have := @wpe_mmap_fun A hA _ _ _ _ is0 tt 0%N [::] (fun i => write_evals E (query_evals d x (is_polys i) (instance_queries m)))
  (fun _ => read_n_scalars E (size (instance_queries m))) ia (iota 0 np) (evi d pk ia aa x Instance) s.
rewrite sia size_iota => h; apply: h => // i s0 hi; have [co _ _ _] := hia hi.
refine (write_evals_run ok hd x s0 _); apply/allP => q hq; rewrite (co_polys co).
by have /andP [] := within_query hk (a := Instance) hq.
Qed.
Lemma adv_evals s : wpe A (mmap (fun a => write_evals E (query_evals d x (as_polys a) (advice_queries m))) aa) s (fun _ s' =>
  replays s s' (mmap (fun _ => read_n_scalars E (size (advice_queries m))) (iota 0 np)) (mkseq (evi d pk ia aa x Advice) np)).
Proof.
have := @wpe_mmap_fun A hA _ _ _ _ as0 tt 0%N [::] (fun i => write_evals E (query_evals d x (as_polys i) (advice_queries m)))
  (fun _ => read_n_scalars E (size (advice_queries m))) aa (iota 0 np) (evi d pk ia aa x Advice) s.
rewrite saa size_iota => h; apply: h => // i s0 hi; have [co _ _ _ _] := haa hi.
refine (write_evals_run ok hd x s0 _); apply/allP => q hq; rewrite (co_polys co).
by have /andP [] := within_query hk (a := Advice) hq.
Qed.
Lemma fixed_evals s : wp (write_evals E (query_evals d x (pk_fixed_polys pk) (fixed_queries m))) s (fun _ s' =>
  replays s s' (read_n_scalars E (size (fixed_queries m))) (fev d pk x)).
Proof.
have [co _] := fixed_cols ok pok hk.
refine (write_evals_run ok hd x s _); apply/allP => q hq; rewrite (co_polys co).
by have /andP [] := within_query hk (a := Fixed) hq.
Qed.
Lemma perm_evals s : wpe A (mmap (fun sets => perm_evaluate E d bf x sets) pp) s (fun _ s' =>
  replays s s' (mmap (perm_read_evals E) cs) (mkseq (pev_sets d pk pp cs x) np)).
Proof.
have := @wpe_mmap_fun A hA _ _ _ _ [::] tt [::] [::] (fun sets => perm_evaluate E d bf x sets)
  (perm_read_evals E) pp cs (pev_sets d pk pp cs x) s.
rewrite spp scs => h; apply: h => // i s0 hi; exact: (perm_evaluate_run ok hd m x s0 (hpp hi)).
Qed.
Lemma look_evals_one (ls : seq (lcommitted F)) (z' : seq (G * G * G)) s : size z' = size ls ->
  wp (mmap (lookup_evaluate E d x) ls) s (fun _ s' => replays s s' (mmap (lookup_read_evals E) z') [seq vlookup_of d x z.1 z.2 | z <- zip ls z']).
Proof.
elim: ls z' s => [|l ls IH] [|z z'] s0.
- move=> _; refine (wp_ret _); exact: replays_ret.
- by move=> e; discriminate e.
- by move=> e; discriminate e.
move=> e; have hz : size z' = size ls by case: e.
refine (wp_bind _); refine (wp_weaken _ (lookup_evaluate_run ok hd x l z s0)); move=> a1 s1 h1.
refine (wp_bind _); refine (wp_weaken _ (IH z' s1 hz)); move=> a2 s2 h2; refine (wp_ret _).
refine (replays_bind h1 _); refine (replays_bind h2 _); exact: replays_ret.
Qed.
Lemma look_evals s : wpe A (mmap (fun ls => mmap (lookup_evaluate E d x) ls) lcs) s (fun _ s' =>
  replays s s' (mmap (fun ls => mmap (lookup_read_evals E) ls) zs) (mkseq (lev d lcs zs x) np)).
Proof.
have := @wpe_mmap_fun A hA _ _ _ _ [::] [::] [::] [::] (fun ls => mmap (lookup_evaluate E d x) ls)
  (fun ls => mmap (lookup_read_evals E) ls) lcs zs (lev d lcs zs x) s.
rewrite slcs szs => h; apply: h => // i s0 hi.
refine (look_evals_one s0 (hlk hi)).
Qed.
End EvalStages.

Definition claim_of (dat : qkey -> seq F * F) (err : F) (k : qkey) (pt : F) : F :=
  (Poly (dat k).1).[pt] + (if k.1 == 8%N then err else 0).
Definition post (s : wst) (t : ptrace F) (s' : wst) : Prop :=
  (forall i, (i < np)%N -> prover_table n u (pk_fixed_values pk) (adv i) (map (padded ps) (inst i))
     (tab pk (pt_instance t) (pt_advice t) i)) /\
  (pt_x t ^+ n != 1 -> exists vt pcs dat cr err,
    [/\ replays s s' (verify_proof_trace E ps vk instances) vt,
        [/\ vt_theta vt = pt_theta t, vt_beta vt = pt_beta t, vt_gamma vt = pt_gamma t, vt_y vt = pt_y t & vt_x vt = pt_x t],
        cosets E ps d (pt_polys t) pcs /\
        vt_expressions vt = [seq expr_at omega (nth 0 [seq Poly p | p <- pcs]) (pt_x t) a | a <- pt_expressions t],
        paired E ps dat cr (claim_of dat err) (pt_queries t) (vt_queries vt) &
        (forall i, (i < np)%N -> good_circuit E ps d pk calls (pt_instance t) (pt_advice t) (pt_theta t) (pt_beta t) (pt_gamma t) i) ->
        err = 0]).

Lemma main_run s : wpe A (create_proof_trace E ps pk [seq Ok a | a <- advs] instances) s (post s).
Proof.
rewrite /create_proof_trace; cbv zeta; rewrite (ko_dom hk) size_map (in_adv hin) eqxx inst_all.
refine (wpe_bind _); refine (wpe_wp hA _); refine (wpr_common_scalar _); move=> s1 r1.
refine (wpe_bind _); refine (wpe_weaken _ (instances_run ok pok hk hin hA s1)); move=> ia s2 [sia [oi r2 hia]].
refine (wpe_bind _); refine (wpe_weaken _ (advice_run ok pok hk hin hA s2)); move=> aa s3 [saa [acs r3 [sacs haa]]].
have [p0 [pb [pl [[z0 zb zl] [e0 eb el] hp0 hpl hpb]]]] := row_selector_polys ok pok hk.
have := value_leaves ok pok hk sia saa hia haa; have := coset_leaves ok pok hk sia saa hia haa z0 zb zl e0 eb el.
cbv zeta.
case: (register_all [::] (pk_fixed_values pk)) => vp1 fvl; cbn [fst snd].
case: (register_each vp1 _) => vp2 avl; cbn [fst snd].
case: (register_each vp2 _) => vp ivl; cbn [fst snd].
case: (register_all [::] (pk_fixed_cosets pk)) => cp1 fcl; cbn [fst snd].
case: (register_each cp1 _) => cp2 acl; cbn [fst snd].
case: (register_each cp2 _) => cp3 icl; cbn [fst snd].
case: (register_all cp3 _) => cp4 sigma; cbn [fst snd].
case: (register cp4 _) => cp5 l0; cbn [fst snd].
case: (register cp5 _) => cp6 lb; cbn [fst snd].
case: (register cp6 _) => cp ll; cbn [fst snd].
move=> [sac sic [pcs0 hcos0] hsel0 hcol0] [sav siv hvn hvp].
refine (wpe_bind _); refine (wpe_wp hA _); refine (wpr_squeeze ok _); move=> theta s4 r4 _.
have hfail i j : (i < np)%N -> (j < nlk)%N -> ~ lookup_holds n u (tab pk ia aa i) (lk j) -> A EConstraintSystemFailure.
  by move=> hi hj; apply: (hAl hi (tab_table hin hia haa hi) (nth_In lkd hj)).
have hlc0 i : (i < np)%N -> forall a, size (leaves_of (lci icl acl fcl i) a) = nc a.
  by move=> hi a; have [] := hcol0 i hi a.
refine (wpe_bind _); refine (wpe_weaken _ (permuted_run ok pok hk siv sic sav sac hvn hvp hlc0 hA hfail theta cp s4)).
move=> [lps lp2] s5; cbn [fst snd]; move=> [slp ext1 [hs r5 [shs hlp]]].
refine (wpe_bind _); refine (wpe_wp hA _); refine (wpr_squeeze ok _); move=> beta s6 r6 _.
refine (wpe_bind _); refine (wpe_wp hA _); refine (wpr_squeeze ok _); move=> gamma s7 r7 _.
refine (wpe_bind _); refine (wpe_weaken _ (perm_run ok pok hk sia saa hia haa hA beta gamma lp2 s7)).
move=> [pp pp2] s8; cbn [fst snd]; move=> [spp ext2 [cs r8 [scs hpp0]]].
refine (wpe_bind _); refine (wpe_weaken _ (product_run hA beta gamma slp shs hlp pp2 s8)).
move=> [lcs lc2] s9; cbn [fst snd]; move=> [slc ext3 [zs r9 [szs hlcs]]].
refine (wpe_bind _); refine (wpe_wp hA _); refine (wp_weaken _ (C30_random_commitment ok pok hd s9)).
move=> vc s10 [srp [rc r10 crp]].
refine (wpe_bind _); refine (wpe_wp hA _); refine (wpr_squeeze ok _); move=> y s11 r11 _.
have ext23 := extends_trans ext2 ext3; have ext13 := extends_trans ext1 ext23.
have [more hcos] := cosets_ext ok hd ext13 hcos0; set pcs := pcs0 ++ more in hcos.
have hsel := sel_leaves_ext ext13 hsel0.
have hcol i (hi : (i < np)%N) := col_leaves_ext ext13 (hcol0 i hi).
have hpp i (hi : (i < np)%N) := sets_ok_ext ext3 (hpp0 i hi).
have hlk i : (i < np)%N -> [/\ size (nth [::] lcs i) = nlk, size (nth [::] zs i) = nlk &
  forall j, (j < nlk)%N -> look_ok E ps d pk ia aa lc2 icl acl fcl theta beta gamma i j
    (nth lc0 (nth [::] lcs i) j) (nth (0, 0, 0) (nth [::] zs i) j)].
  move=> hi; have [a1 a2 a3] := hlcs i hi; have [b1 b2 b3] := hlp i hi; split.
  - exact a1.
  - exact a2.
  move=> j hj; have [c1 c2 c3 c4 c5] := a3 j hj; split.
    rewrite c1 c2; exact: (permuted_ok_ext ext23 (b3 j hj)).
  split; [exact c3|exact c4|exact c5].
have [gas [pas hex]] := exprs_exist ok pok hk hia haa hcos hsel hp0 hpl hpb hcol hpp hlk.
refine (wpe_bind _); refine (wpe_unwrap _ (prover_perm sic sac spp hex) _).
refine (wpe_bind _); refine (wpe_unwrap _ (prover_exprs sic sac slc hex) _).
have hexin := exs_in hex; have hexdeg := exs_deg hk hcos hex; have hexv := exs_vanish hex.
have vex x := verifier_exprs ok pok hk hcos hsel hcol hpp hlk hex x.
have vfl x : flatten _ = _ := verifier_flat d instances pcs l0 lb ll beta gamma lcs gas pas x.
set exs := flatten _ in hexin hexdeg hexv vfl *.
have epolys : lc2 = [seq mkseq (fun i => p.[e_zeta E * d_ext_omega d ^+ i]) (2 ^ d_ek d) | p : {poly F} <- [seq Poly p | p <- pcs]].
  by rewrite -map_comp; case: hcos.
have [l0n _] := regP ok hk hcos (sl_l0 hsel).
have nePs : [seq Poly p | p <- pcs] != [::] by case: (pcs) l0n.
have inn : all (fun a => all (fun l => (l.1 < size [seq Poly p | p <- pcs])%N && (`|l.2| <= n)%N) (leaves a)) exs by rewrite size_map.
have Wv := wp_imp (vanishing_construct_any ok pok hd y vc s11 (ko_dom hk) nePs inn)
  (fun H => C30_quotient ok pok hd y vc s11 (ko_dom hk) nePs inn hexdeg H).
rewrite -epolys in Wv.
refine (wpe_bind _); refine (wpe_wp hA _); refine (wp_weaken _ Wv); move=> vn s12 [[v1 [v2 v3] v4 [hcs r12 hcomm]] hq] {Wv}.
refine (wpe_bind _); refine (wpe_wp hA _); refine (wpr_squeeze ok _); move=> x s13 r13 _.
rewrite (ps_n pok).
refine (wpe_bind _); refine (wpe_weaken _ (inst_evals aa sia hia x s13)); move=> _ s14 r14.
refine (wpe_bind _); refine (wpe_weaken _ (adv_evals ia saa haa x s14)); move=> _ s15 r15.
refine (wpe_bind _); refine (wpe_wp hA _); refine (wp_weaken _ (fixed_evals x s15)); move=> _ s16 r16.
refine (wpe_bind _); refine (wpe_wp hA _); refine (wp_weaken _ (C30_evaluate ok hd x _ s16 v3)).
move=> ve s17 [shp php hbl hxe [vev r17]].
have [_ spm _ svm _] := perm_key ok pok hk.
refine (wpe_bind _); refine (wpe_wp hA _); refine (wp_weaken _ (perm_pk_evaluate_run ok d x s17 (etrans svm (esym spm)))); move=> _ s18 r18.
refine (wpe_bind _); refine (wpe_weaken _ (perm_evals x spp scs _ s18)); last first.
  by move=> i hi; have [a1 a2 _ _ _] := hpp i hi; rewrite a1 a2.
move=> _ s19 r19.
refine (wpe_bind _); refine (wpe_weaken _ (look_evals x slc szs _ s19)); last first.
  by move=> i hi; have [a1 a2 _] := hlk i hi; rewrite a1 a2.
move=> _ s20 r20.
have [hm ehm chm] := C30_h_commitment ok pok v3 (etrans v4 (esym v2)) hcomm shp php hbl.
set P := nth (0 : {poly F}) [seq Poly p | p <- pcs].
pose exv := [seq expr_at omega P x a | a <- exs].
pose eh := foldl (fun h v => h * y + v) 0 exv * (x ^+ n - 1)^-1.
have [pqs [vqs [fq [vfq [q1 q2 q3 q4 q5]]]]] :=
  queries_all ok pok hk sia saa sacs hia haa spp hpp slc hlk x shp chm srp crp (eh - (Poly (ve_poly ve)).[x]).
refine (wpe_bind _); refine (wpe_unwrap _ q1 _); refine (wpe_bind _); refine (wpe_unwrap _ q2 _); refine (wpe_ret _ _).
split.
  move=> i hi; exact: (tab_table hin hia haa hi).
cbn [pt_x]; move=> hx.
have eeh : expected_h_eval exv y (x ^+ n) = Some eh by rewrite /expected_h_eval subr_eq0 (negbTE hx).
have evc : ve_committed ve = vc by rewrite vev.
exists (VTrace theta beta gamma y x exv (flatten vqs ++ vfq ++ perm_common_queries B vk [seq pev d x p 0 | p <- pk_perm_polys pk] x ++
  vanishing_queries x (VVerified hm rc eh (Poly (vc_random_poly vc)).[x]))).
exists pcs, (dat pk ia aa pp lcs (ve_poly ve) (ve_blind ve) (vc_random_poly vc) (vc_random_blind vc)).
exists (cr E ps d pk instances acs cs zs hm rc), (eh - (Poly (ve_poly ve)).[x]).
split.
- rewrite /verify_proof_trace; cbv zeta; rewrite (ko_dom hk) inst_all (ps_n pok).
  refine (replays_bind (replays_lift _ (icsE ok pok hk hin)) _); rewrite size_map.
  refine (replays_bind r1 _); refine (replays_bind r2 _); refine (replays_bind r3 _); refine (replays_bind r4 _).
  refine (replays_bind r5 _); refine (replays_bind r6 _); refine (replays_bind r7 _); refine (replays_bind r8 _).
  refine (replays_bind r9 _); refine (replays_bind r10 _); refine (replays_bind r11 _); refine (replays_bind r12 _).
  refine (replays_bind r13 _); refine (replays_bind r14 _); refine (replays_bind r15 _); refine (replays_bind r16 _).
  rewrite v1 in r17.
  refine (replays_bind r17 _); refine (replays_bind r18 _); refine (replays_bind r19 _); refine (replays_bind r20 _).
  have el1 := congr1 (@unwrap _) (lagr ok pok hk hcos hsel hp0 hpl hpb hx).
  refine (replays_bind (replays_lift _ el1) _); cbv beta iota.
  refine (replays_bind (replays_lift _ (congr1 (@unwrap _) (vex x))) _); rewrite vfl.
  have el2 : vanishing_verify E hcs rc (Poly (vc_random_poly vc)).[x] exv y (x ^+ n) = Some (VVerified hm rc eh (Poly (vc_random_poly vc)).[x]).
    by rewrite /vanishing_verify eeh /= ehm.
  refine (replays_bind (replays_lift _ (congr1 (@unwrap _) el2)) _).
  refine (replays_bind (replays_lift _ (congr1 (@unwrap _) q3)) _).
  refine (replays_bind (replays_lift _ (congr1 (@unwrap _) q4)) _).
  exact: replays_ret.
- by split.
- split; [exact hcos|reflexivity].
- cbn [pt_queries vt_queries]; rewrite /vanishing_open /vanishing_queries evc /=.
  have ea : (Poly (ve_poly ve)).[x] + (eh - (Poly (ve_poly ve)).[x]) = eh by rewrite addrCA subrr addr0.
  by move: q5; rewrite ea.
- cbn [pt_instance pt_advice pt_theta pt_beta pt_gamma]; move=> hgood.
  have [_ _ _ hrec _] := hq (hexv hgood).
  rewrite -(size_map (expr_poly omega P) exs) in hrec.
  have := C30_expected_value (ps := ps) x hrec.
  rewrite -map_comp (negbTE hx) -[map _ exs]/exv eeh => -[->].
  by rewrite hxe ?subrr.
Qed.
End Main.
