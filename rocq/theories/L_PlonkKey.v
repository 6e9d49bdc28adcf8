(* What create_proof and verify_proof rely on in the keys, and what follows for the polynomials
   registered with the evaluators. *)
Set Warnings "-notation-overridden,-ambiguous-paths".
From mathcomp Require Import all_ssreflect all_algebra.
From Verif Require Import Util L_Chunks M_Poly L_Poly M_Domain L_Domain P_Domain M_Evaluator S_Evaluator P_Evaluator M_Assigned M_Env M_Transcript
  L_Transcript M_Commit S_Commit L_Commit P_Commit L_WP L_WPR M_Multiopen M_Circuit S_Circuit P_Circuit M_Selectors S_Selectors L_Selectors M_Copy L_Copy
  M_Keys M_Permutation S_Permutation M_Lookup L_Sigma P_Sigma L_PermCommit P_Permutation S_Plonk L_Expr P_Lookup M_Vanishing P_Vanishing
  M_Plonk M_Assign M_Keygen S_Mock L_Wpe L_PlonkEval L_PlonkLeaves L_PlonkRun L_PlonkDeg.
Import GRing.Theory.
Set Implicit Arguments.
Unset Strict Implicit.
Local Open Scope ring_scope.

Section Key.
Variables (F B : fieldType) (G : lmodType F) (E : env B G) (ps : params G).
Hypotheses (ok : env_ok E) (pok : params_ok E ps).
Variables (d : domain F) (pk : pkey G) (calls : seq copy_call).
Notation n := (2 ^ p_k ps)%N.
Notation vk := (pk_vk pk).
Notation m := (vk_cs vk).
Notation D := (vk_cs_degree vk).
Notation bf := (blinding_factors m).
Notation u := (n - (bf + 1))%N.
Notation omega := (d_omega d).
Notation threads := (e_threads E).
Notation mapping := (a_mapping (run_copies (assembly_new n (permutation m)) calls).1).

(* the keys belong together, to this domain and to a constraint system without selectors *)
Record key_ok : Prop := KeyOk {
  ko_dom : vk_domain vk = d;
  ko_new : domain_new (e_rou E) (e_zeta E) (e_S E) D (p_k ps) = Some d;
  ko_deg : cs_degree m = Some D;
  ko_rows : (minimum_rows m <= n)%N;
  ko_nfix : size (pk_fixed_values pk) = num_fixed m;
  ko_fixed : all (fun v => size v == n) (pk_fixed_values pk);
  ko_fpolys : sequence [seq lagrange_to_coeff threads d v | v <- pk_fixed_values pk] = Some (pk_fixed_polys pk);
  ko_fcosets : sequence [seq coeff_to_extended threads d p | p <- pk_fixed_polys pk] = Some (pk_fixed_cosets pk);
  ko_fcomm : sequence [seq commit_lagrange E ps v (blind_default F) | v <- pk_fixed_values pk] = Some (vk_fixed_commitments vk);
  ko_perm : perm_build_pk E ps d mapping (size (permutation m)) =
              Some (pk_permutations pk, pk_perm_polys pk, pk_perm_cosets pk);
  ko_vperm : perm_build_vk E ps d mapping (size (permutation m)) = Some (vk_permutation vk);
  ko_calls : List.Forall (fun c => (cc_lr c < u)%N && (cc_rr c < u)%N) calls;
  ko_l0 : to_coset E d (l0_values F n) = Some (pk_l0 pk);
  ko_l_blind : to_coset E d (l_blind_values F n bf) = Some (pk_l_blind pk);
  ko_l_last : obind (to_coset E d) (l_last_values F n bf) = Some (pk_l_last pk);
  ko_exprs : cs_exprs_ok m;
  ko_within : queries_within n m;
  ko_gates : all (fun g => all (@selector_free F) (g_polys g)) (gates m);
  ko_lookups : all (fun l => all (@selector_free F) (lk_input l) && all (@selector_free F) (lk_table l)) (lookups m);
  ko_pcols : forall c, c \in permutation m -> get_any_query_index m c <> None;
  ko_cols : (0 < num_fixed m + num_advice m + num_instance m)%N }.
Hypothesis hk : key_ok.
Notation nc := (ncols m).

Lemma k_hd : domain_new (e_rou E) (e_zeta E) (e_S E) D (p_k ps) = Some d. Proof. exact: ko_new. Qed.
Lemma k_D : (2 < D)%N. Proof. by have [] := cs_degree_bounds (ko_deg hk). Qed.
Lemma k_bf : (bf + 1 < n)%N.
Proof. by apply: leq_trans (ko_rows hk); rewrite /minimum_rows !addn1. Qed.
Lemma k_bf1 : (bf + 1 <= n)%N. Proof. exact: ltnW k_bf. Qed.
Lemma k_n : (1 < n)%N. Proof. by apply: leq_trans k_bf; rewrite addn1. Qed.

(* columns of the expressions *)
Lemma within_query a q : q \in queries_of m a -> (q.1 < nc a)%N && (`|q.2| <= n)%N.
Proof. by have /and3P [/allP h1 /allP h2 /allP h3] := ko_within hk; case: a => [/h2|/h1|/h3]. Qed.
Lemma expr_ok_within e : expr_ok m e -> selector_free e -> expr_within n nc e.
Proof.
have hq a i c r : (i < size (queries_of m a))%N && (nth (0%N, 0) (queries_of m a) i == (c, r)) -> (c < nc a)%N && (`|r| <= n)%N.
  by move=> /andP [hi /eqP e2]; have := within_query (mem_nth (0%N, 0) hi); rewrite e2.
elim: e => [c|i b|i c r|i c r|i c r|e IH|e1 IH1 e2 IH2|e1 IH1 e2 IH2|e IH f] //=.
- by move=> h _; exact: (hq Fixed _ _ _ h).
- by move=> h _; exact: (hq Advice _ _ _ h).
- by move=> h _; exact: (hq Instance _ _ _ h).
- by move=> /andP [h1 h2] /andP [h3 h4]; rewrite IH1 ?IH2.
- by move=> /andP [h1 h2] /andP [h3 h4]; rewrite IH1 ?IH2.
Qed.
Lemma all_within es : all (expr_ok m) es -> all (@selector_free F) es -> all (expr_within n nc) es.
Proof. by elim: es => //= e es IH /andP [h1 h2] /andP [h3 h4]; rewrite expr_ok_within ?IH. Qed.
Notation gate_exprs := (flatten [seq g_polys g | g <- gates m]).
Lemma gates_ok : all (expr_ok m) gate_exprs.
Proof. by have /andP [h _] := ko_exprs hk; elim: (gates m) h => //= g gs IH /andP [h1 /IH h2]; rewrite all_cat h1. Qed.
Lemma gates_within : all (expr_within n nc) gate_exprs.
Proof.
apply: all_within gates_ok _; have := ko_gates hk.
by elim: (gates m) => //= g gs IH /andP [h1 /IH h2]; rewrite all_cat h1.
Qed.
Notation lkd := (Lookup [::] [::] : lookup F).
Notation lk j := (nth lkd (lookups m) j).
Lemma lookup_okj j : (j < size (lookups m))%N ->
  [/\ all (expr_ok m) (lk_input (lk j)), all (expr_ok m) (lk_table (lk j)), lookup_within n nc (lk j) &
      exists2 k, lookup_required_degree (lk j) = Some k & (k <= D)%N].
Proof.
move=> hj; have /andP [_ /(all_nthP lkd)/(_ j hj)/andP [h1 h2]] := ko_exprs hk.
have /(all_nthP lkd)/(_ j hj)/andP [h3 h4] := ko_lookups hk.
have [_ _ /(all_nthP lkd)/(_ j hj)] := cs_degree_bounds (ko_deg hk).
case e: lookup_required_degree => [k|] // hkD; split=> //; last by exists k.
rewrite /lookup_within !all_within // !andbT.
by move: e; rewrite /lookup_required_degree; case: ifP.
Qed.

(* the columns of the permutation *)
Lemma perm_cols c : c \in permutation m -> get_any_query_index m c <> None /\ (c.2 < nc c.1)%N.
Proof.
move=> hc; have h := ko_pcols hk hc; split=> //; case: c {hc} h => a c /=.
case: a => /=; rewrite /get_any_query_index /= ?/get_advice_query_index ?/get_fixed_query_index ?/get_instance_query_index find_queryP;
  case: ifP => // h _.
- by have /andP [] := @within_query Advice _ h.
- by have /andP [] := @within_query Fixed _ h.
- by have /andP [] := @within_query Instance _ h.
Qed.

(* fixed columns *)
Lemma fixed_cols : cols_ok E ps d (num_fixed m) (pk_fixed_values pk) (pk_fixed_polys pk) (pk_fixed_cosets pk) /\
  size (vk_fixed_commitments vk) = num_fixed m /\
  forall c, (c < num_fixed m)%N -> nth 0 (vk_fixed_commitments vk) c = commitment_of ps (nth [::] (pk_fixed_polys pk) c) 1.
Proof.
have [polys [csts [e1 e2 co hc]]] := cols_okI ok pok (ko_new hk) (ko_fixed hk).
move: e1; rewrite (ko_fpolys hk) => -[ep]; subst polys.
move: e2; rewrite (ko_fcosets hk) => -[ep]; subst csts.
rewrite (ko_nfix hk) in co hc; split=> //.
have [hs hq] := sequence_map_inv (ko_fcomm hk); split; first by rewrite hs (ko_nfix hk).
move=> c hc'; have := hq [::] 0 c; rewrite (ko_nfix hk) => /(_ hc').
by rewrite (hc c (blind_default F) hc') => -[<-].
Qed.

(* the permutation polynomials *)
Lemma perm_key : [/\ size (pk_permutations pk) = size (permutation m), size (pk_perm_polys pk) = size (permutation m),
  size (pk_perm_cosets pk) = size (permutation m), size (vk_permutation vk) = size (permutation m) &
  forall i, (i < size (permutation m))%N -> [/\ size (nth [::] (pk_perm_polys pk) i) = n,
    forall r c, (r < n)%N -> get2 mapping (i, r) = Some c -> (Poly (nth [::] (pk_perm_polys pk) i)).[omega ^+ r] = label (e_delta E) omega c,
    nth [::] (pk_perm_cosets pk) i = coset_of E d (nth [::] (pk_perm_polys pk) i) &
    nth 0 (vk_permutation vk) i = commitment_of ps (nth [::] (pk_perm_polys pk) i) 1]].
Proof.
have [sigma [polys [csts [e1 [s1 s2 s3 h]]]]] := C24_build_pk ok pok (ko_new hk) (permutation m) calls.
move: (e1); rewrite (ko_perm hk) => -[a1 a2 a3]; subst sigma polys csts.
have [sigma [polys [csts [comms [e3 [e4 [s4 h4]]]]]]] := C24_build_vk ok pok (ko_new hk) (permutation m) calls.
move: (e3); rewrite (ko_perm hk) => -[a1 a2 a3]; subst sigma polys csts.
move: (e4); rewrite (ko_vperm hk) => -[a4]; subst comms; split=> // i hi.
have [h1 h2 h3 h5] := h i hi; split=> //.
- move=> r c hr e; have [c' + [_ h6]] := h3 r hr; rewrite e => -[ec].
  by rewrite -eval_Poly h6 ec.
- by have := h4 i hi; rewrite commitE ?(ps_g pok) // => -[<-].
Qed.

(* the row selectors *)
Lemma to_cosetE v c : size v = n -> to_coset E d v = Some c -> exists p,
  [/\ size p = n, c = coset_of E d p & forall i, (i < n)%N -> (Poly p).[omega ^+ i] = nth 0 v i].
Proof.
move=> hv; have [zp [sz ez vz cz]] := lagrange_facts ok pok (ko_new hk) hv.
by rewrite /to_coset ez /= (coset_ofE ok (ko_new hk) sz) => -[<-]; exists zp.
Qed.
Lemma row_selector_polys : exists p0 pb pl,
  [/\ [/\ size p0 = n, size pb = n & size pl = n],
      [/\ pk_l0 pk = coset_of E d p0, pk_l_blind pk = coset_of E d pb & pk_l_last pk = coset_of E d pl],
      forall i, (i < n)%N -> (Poly p0).[omega ^+ i] = (i == 0%N)%:R,
      forall i, (i < n)%N -> (Poly pl).[omega ^+ i] = (i == u)%:R &
      forall i, (i < n)%N -> (Poly pb).[omega ^+ i] = (u < i)%:R].
Proof.
have n0 : (0 < n)%N by rewrite expn_gt0.
have un : (u < n)%N by rewrite ltn_subrL n0 addn1.
have [||p0 [s0 c0 h0]] := @to_cosetE (l0_values F n) (pk_l0 pk); [by rewrite size_upd size_nseq|exact: ko_l0|].
have sb : size (l_blind_values F n bf) = n.
  by rewrite size_cat !size_nseq (minn_idPl _) ?subnK // (leq_trans _ k_bf1) ?leq_addr.
have [//||pb [s1 c1 h1]] := @to_cosetE (l_blind_values F n bf) (pk_l_blind pk); first exact: ko_l_blind.
have := ko_l_last hk; rewrite /l_last_values k_bf1 /= -subnDA => el.
have [|pl [s2 c2 h2]] := to_cosetE _ el; first by rewrite size_upd size_nseq.
exists p0, pb, pl; split=> //; move=> i hi.
- by rewrite h0 // /l0_values nth_upd ?size_nseq // nth_nseq hi; case: eqP.
- by rewrite h2 // nth_upd ?size_nseq // nth_nseq hi; case: eqP.
- rewrite h1 // /l_blind_values nth_cat size_nseq.
  have hb := k_bf1; have -> : (u < i)%N = ~~ (i < n - bf)%N by rewrite -leqNgt addn1 subnS prednK // subn_gt0 -addn1.
  case: ltnP => hi2 /=; first by rewrite nth_nseq hi2.
  rewrite nth_nseq (minn_idPl _); last by rewrite (leq_trans _ hb) ?leq_addr.
  by rewrite ltn_subLR // subnK ?hi // (leq_trans _ hb) ?leq_addr.
Qed.
End Key.
