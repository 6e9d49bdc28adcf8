(* What the verifier computes from the evaluations at x is what the prover's expressions take
   at x: gates, the permutation argument, the lookup argument and the Lagrange polynomials. *)
Set Warnings "-notation-overridden,-ambiguous-paths".
From mathcomp Require Import all_ssreflect all_algebra.
From Verif Require Import Util FieldTac L_Chunks M_Poly M_Domain M_Evaluator S_Evaluator L_Domain L_Evaluator P_Domain P_Evaluator M_Assigned
  M_Env M_Transcript M_Commit M_Multiopen M_Circuit S_Circuit M_Selectors L_Selectors P_Circuit M_Keys M_Permutation M_Lookup L_Sigma
  S_Permutation L_PermRows L_PermCommit S_Plonk L_Expr M_Vanishing P_Lookup S_Commit L_Poly L_Multiopen M_Plonk L_Wpe.
Import GRing.Theory.
Set Implicit Arguments.
Unset Strict Implicit.
Local Open Scope ring_scope.

Definition queries_of (F : fieldType) (m : cs F) (a : any) : seq (nat * int) :=
  match a with Advice => advice_queries m | Fixed => fixed_queries m | Instance => instance_queries m end.

Section At.
Variables (F : fieldType) (w : F) (P : nat -> {poly F}) (x : F).
(* leaf idx at rotation r *)
Definition ev (idx : nat) (r : int) : F := (P idx).[x * w ^ r].
Lemma ev_rotated idx r : (rotated (w ^ r) (P idx)).[x] = ev idx r.
Proof. by rewrite /rotated /ev horner_comp hornerZ hornerX mulrC. Qed.
Lemma interp_ext (L L' : nat -> int -> F) X a : (forall i r, L i r = L' i r) -> interp L X id a = interp L' X id a.
Proof.
move=> h; elim/ast_ind': a => //= [a b -> ->|a b -> ->|a s ->|ts s IH] //.
elim: ts IH (0 : F) => //= t ts IH [e1 e2] z; by rewrite e1 IH.
Qed.
Lemma expr_atE a : expr_at w P x a = interp ev x id a.
Proof. by rewrite /expr_at interp_horner; apply: interp_ext => i r; exact: ev_rotated. Qed.

Variables (n : nat) (m : cs F) (nc : any -> nat) (l : lleaves).
Hypothesis hl : forall a c, (c < nc a)%N -> (c < size (leaves_of l a))%N.
(* the evaluations the prover sends *)
Variable evs : any -> seq F.
Hypothesis hev : forall a, evs a = [seq ev (nth 0%N (leaves_of l a) q.1) q.2 | q <- queries_of m a].

Lemma get_evs a i c r : (i < size (queries_of m a))%N -> nth (0%N, 0) (queries_of m a) i = (c, r) ->
  get (evs a) i = Some (ev (nth 0%N (leaves_of l a) c) r).
Proof.
by move=> hi e; rewrite hev (getE 0) ?size_map // (nth_map (0%N, 0)) // e.
Qed.

Lemma expr_val_at e : expr_ok m e -> expr_within n nc e -> exists2 a, leaf_ast l e = Some a &
  expr_val (evs Advice) (evs Fixed) (evs Instance) e = Some (expr_at w P x a).
Proof.
move=> ho hw; have [a [ea _ hi]] := leaf_astE hl hw; exists a => //.
rewrite expr_atE hi /expr_val /meaning {a ea hi}; elim: e ho hw => //=.
- by move=> c _ _; rewrite /GRing.scale /= mulr1.
- by move=> i c r /andP [h /eqP e] _; exact: (@get_evs Fixed).
- by move=> i c r /andP [h /eqP e] _; exact: (@get_evs Advice).
- by move=> i c r /andP [h /eqP e] _; exact: (@get_evs Instance).
- by move=> a IH h1 h2; rewrite (IH h1 h2).
- by move=> a IHa b IHb /andP [h1 h2] /andP [h3 h4]; rewrite (IHa h1 h3) (IHb h2 h4).
- by move=> a IHa b IHb /andP [h1 h2] /andP [h3 h4]; rewrite (IHa h1 h3) (IHb h2 h4).
by move=> a IH s h1 h2; rewrite (IH h1 h2) /= /GRing.scale /= mulrC.
Qed.

Lemma exprs_val_at es asts : all (expr_ok m) es -> all (expr_within n nc) es ->
  sequence [seq leaf_ast l e | e <- es] = Some asts ->
  sequence [seq expr_val (evs Advice) (evs Fixed) (evs Instance) e | e <- es] = Some [seq expr_at w P x a | a <- asts].
Proof.
elim: es asts => [|e es IH] asts /=; first by move=> _ _ [<-].
move=> /andP [h1 h2] /andP [h3 h4]; have [a -> ->] := expr_val_at h1 h3.
by case e1: sequence => [r|] //= [<-]; rewrite (IH _ h2 h4 e1).
Qed.

(* the column of a permutation *)
Lemma column_val_at (c : column) : get_any_query_index m c <> None -> (c.2 < nc c.1)%N ->
  any_of (ll_advice l) (ll_fixed l) (ll_instance l) c = Some (nth 0%N (leaves_of l c.1) c.2) /\
  obind (get (match c.1 with Advice => evs Advice | Fixed => evs Fixed | Instance => evs Instance end))
    (get_any_query_index m c) = Some (ev (nth 0%N (leaves_of l c.1) c.2) 0).
Proof.
move=> hq hc; have hs := hl hc; split; first by case: c hq hc hs => -[] c /= hq hc hs; rewrite /any_of /= (getE 0%N).
move: hq; case: c {hc hs} => a c; rewrite /get_any_query_index.
rewrite /get_advice_query_index /get_fixed_query_index /get_instance_query_index.
case: a => /=; rewrite find_queryP; case: ifP => // h _ /=; rewrite add0n.
- by apply: (@get_evs Advice); rewrite ?index_mem // nth_index.
- by apply: (@get_evs Fixed); rewrite ?index_mem // nth_index.
- by apply: (@get_evs Instance); rewrite ?index_mem // nth_index.
Qed.

(* ---------------------------------------------------------------- lookups *)
Lemma compress_cosets_at theta asts : expr_at w P x (compress_cosets theta asts) =
  foldl (fun acc e => acc * theta + e) 0 [seq expr_at w P x a | a <- asts].
Proof.
rewrite expr_atE /compress_cosets.
suff gen : forall acc z, interp ev x id acc = z -> interp ev x id
    (foldl (fun acc e => AAdd (AMul acc (AConstantTerm theta)) e) acc asts) =
    foldl (fun acc e => acc * theta + e) z [seq expr_at w P x a | a <- asts] by exact: gen.
elim: asts => //= a asts IH acc z e.
by apply: IH; rewrite /= e expr_atE.
Qed.


Variables (B : fieldType) (G : lmodType F) (E : env B G).
(* the evaluations of one lookup argument *)
Record lookup_evals_ok (c : lcommitted F) (v : vlookup G) : Prop := LookupEvalsOk {
  le_product : vl_product_eval v = ev (lc_leaf c) 0;
  le_product_next : vl_product_next_eval v = ev (lc_leaf c) rot_next;
  le_pinput : vl_pinput_eval v = ev (lp_pinput_leaf (lc_permuted c)) 0;
  le_pinput_inv : vl_pinput_inv_eval v = ev (lp_pinput_leaf (lc_permuted c)) rot_prev;
  le_ptable : vl_ptable_eval v = ev (lp_ptable_leaf (lc_permuted c)) 0 }.

Lemma lookup_expressions_at theta beta gamma l0 l_blind l_last (lk : lookup F) (c : lcommitted F) (v : vlookup G) :
  all (expr_ok m) (lk_input lk) -> all (expr_ok m) (lk_table lk) -> lookup_within n nc lk ->
  compressed_asts lk l theta (lc_permuted c) -> lookup_evals_ok c v ->
  lookup_expressions v (ev l0 0) (ev l_last 0) (ev l_blind 0) lk theta beta gamma (evs Advice) (evs Fixed) (evs Instance) =
  Some [seq expr_at w P x a | a <- lookup_construct beta gamma l0 l_blind l_last c].
Proof.
move=> oi ot /and3P [_ wi wt] [ia [ta [ei et hi ht]]] [v1 v2 v3 v4 v5].
rewrite /lookup_expressions /compress_evals (exprs_val_at oi wi ei) (exprs_val_at ot wt et) /=.
rewrite !expr_atE /= -!expr_atE hi ht !compress_cosets_at v1 v2 v3 v4 v5.
rewrite !mulrN1; congr (Some [:: _; _; _; _; _]).
- exact: mulrC.
- by rewrite mulrC expr2.
- by rewrite mulrC.
Qed.

(* ---------------------------------------------------------------- permutations *)
Variable bf : nat.
Record perm_evals_ok (sets : seq (pset F)) (vs : seq (vset G)) : Prop := PermEvalsOk {
  pe_size : size vs = size sets;
  pe_eval : forall t s v, get sets t = Some s -> get vs t = Some v -> v_eval v = ev (s_coset s) 0;
  pe_next : forall t s v, get sets t = Some s -> get vs t = Some v -> v_next_eval v = ev (s_coset s) rot_next;
  pe_last : forall t s v, get sets t = Some s -> get vs t = Some v ->
    v_last_eval v = if (t.+1 < size sets)%N then Some (ev (s_coset s) (rot_last bf)) else None }.

Lemma perm_left_at beta gamma vals sigmas acc : 
  interp ev x id (foldl (perm_left beta gamma) acc (zip vals sigmas)) =
  foldl (fun left vp => left * (vp.1 + beta * vp.2 + gamma)) (interp ev x id acc)
    (zip [seq ev v 0 | v <- vals] [seq ev s 0 | s <- sigmas]).
Proof. by elim: vals sigmas acc => [|v vals IH] [|s sigmas] acc //=; rewrite IH. Qed.
Lemma perm_right_at gamma vals (st : ast F * F) :
  interp ev x id (foldl (perm_right E gamma) st vals).1 =
  (foldl (fun (st : F * F) v => (st.1 * (v + st.2 + gamma), st.2 * e_delta E))
     (interp ev x id st.1, st.2 * x) [seq ev v 0 | v <- vals]).1.
Proof.
elim: vals st => [|v vals IH] [a z] //=; rewrite IH /=; congr (foldl _ _ _).1; congr pair.
exact: mulrAC.
Qed.

Lemma perm_product_at beta gamma len k l_blind l_last leaf vals sigmas :
  expr_at w P x (perm_product_ast E l_blind l_last beta gamma len k leaf vals sigmas) =
  (foldl (fun left vp => left * (vp.1 + beta * vp.2 + gamma)) (ev leaf rot_next)
     (zip [seq ev v 0 | v <- vals] [seq ev s 0 | s <- sigmas])
   - (foldl (fun (st : F * F) v => (st.1 * (v + st.2 + gamma), st.2 * e_delta E))
       (ev leaf 0, (beta * x) * e_delta E ^+ (k * len)) [seq ev v 0 | v <- vals]).1)
  * (1 - (ev l_last 0 + ev l_blind 0)).
Proof.
rewrite expr_atE /= !mulrN1 perm_left_at perm_right_at /=.
by rewrite (mulrAC beta).
Qed.

Section Perm.
Variables (pk : pkey G) (sets : seq (pset F)) (vs : seq (vset G)) (sigma : seq nat).
Notation vk := (pk_vk pk).
Hypothesis hm : vk_cs vk = m.
Hypothesis hbf : bf = blinding_factors m.
Hypothesis hcols : forall c, c \in permutation m -> get_any_query_index m c <> None /\ (c.2 < nc c.1)%N.
Hypothesis hvs : perm_evals_ok sets vs.

Let col_eval (c : column) : option F :=
    obind (get (match c.1 with Advice => evs Advice | Fixed => evs Fixed | Instance => evs Instance end))
          (get_any_query_index (vk_cs vk) c).
Lemma columns_at cs : {subset cs <= permutation m} -> exists2 vals,
  sequence [seq any_of (ll_advice l) (ll_fixed l) (ll_instance l) c | c <- cs] = Some vals &
  sequence [seq col_eval c | c <- cs] = Some [seq ev v 0 | v <- vals].
Proof.
rewrite /col_eval hm; elim: cs => [|c cs IH] h; first by exists [::].
have [h1 h2] := hcols (h c (mem_head _ _)); have [e1 e2] := column_val_at h1 h2.
have [|vals e3 e4] := IH; first by move=> c' hc; apply: h; rewrite inE hc orbT.
exists (nth 0%N (leaves_of l c.1) c.2 :: vals); rewrite /= ?e1 ?e3 //= e2 /= e4 //.
Qed.

Lemma products_at beta gamma len l_blind l_last k (ss : seq (pset F)) (vv : seq (vset G)) (cc : seq (seq column)) (sig : seq (seq nat)) prods :
  size vv = size ss ->
  (forall t s v, get ss t = Some s -> get vv t = Some v -> v_eval v = ev (s_coset s) 0 /\ v_next_eval v = ev (s_coset s) rot_next) ->
  (forall cs, cs \in cc -> {subset cs <= permutation m}) ->
  sequence (mapi_from k (fun chunk_index scc =>
        omap (fun vals => perm_product_ast E l_blind l_last beta gamma len chunk_index
                            (s_coset scc.1.1) vals scc.2)
             (sequence [seq any_of (ll_advice l) (ll_fixed l) (ll_instance l) c | c <- scc.1.2]))
      (zip (zip ss cc) sig)) = Some prods ->
  sequence (mapi_from k (fun chunk_index scc =>
        let: ((set, columns), permutation_evals) := scc in
        omap (fun vals =>
          let left := foldl (fun left vp => left * (vp.1 + beta * vp.2 + gamma))
                            (v_next_eval set) (zip vals permutation_evals) in
          let right := (foldl (fun (st : F * F) v => (st.1 * (v + st.2 + gamma), st.2 * e_delta E))
             (v_eval set, (beta * x) * e_delta E ^+ (chunk_index * len)) vals).1 in
          (left - right) * (1 - (ev l_last 0 + ev l_blind 0)))
          (sequence [seq col_eval c | c <- columns]))
      (zip (zip vv cc) [seq [seq ev s 0 | s <- sg] | sg <- sig])) = Some [seq expr_at w P x a | a <- prods].
Proof.
elim: ss vv cc sig k prods => [|s ss IH] [|v vv] [|c cc] [|sg sig] k prods //=; try by move=> _ _ _ [<-].
move=> [hsz] h hc; have [vals e1 e2] := columns_at (hc c (mem_head _ _)); rewrite e1 e2 /=.
case e3: sequence => [r|] //= [<-].
rewrite (IH _ _ _ _ _ hsz _ _ e3) /=; last first.
- by move=> cs hcs; apply: hc; rewrite inE hcs orbT.
- by move=> t; exact: (h t.+1).
have [-> ->] := h 0%N s v erefl erefl.
by rewrite perm_product_at.
Qed.

Lemma chain_at l0 (ss : seq (pset F)) (vv : seq (vset G)) : size vv = size ss ->
  (forall t s v, get ss t = Some s -> get vv t = Some v -> v_eval v = ev (s_coset s) 0) ->
  (forall t s v, get ss t = Some s -> get vv t = Some v ->
    v_last_eval v = if (t.+1 < size ss)%N then Some (ev (s_coset s) (rot_last bf)) else None) ->
  sequence [seq omap (fun prev_last => (v_eval p.1 - prev_last) * ev l0 0) (v_last_eval p.2) | p <- zip (behead vv) vv] =
  Some [seq expr_at w P x a | a <- [seq AMul (ast_sub (APoly (s_coset p.1) 0) (APoly (s_coset p.2) (rot_last bf)))
                         (APoly l0 0) | p <- zip (behead ss) ss]].
Proof.
elim: ss vv => [|s ss IH] [|v vv] //=; case: ss vv IH => [|s1 ss] [|v1 vv] IH //= [hsz] h1 h2.
have := IH (v1 :: vv); rewrite /= => ->; first last.
- by move=> t; exact: (h2 t.+1).
- by move=> t; exact: (h1 t.+1).
- by rewrite hsz.
rewrite (h2 0%N s v erefl erefl) /=.
by rewrite (h1 1%N s1 v1 erefl erefl) expr_atE /= mulrN1.
Qed.

Lemma perm_expressions_at beta gamma l0 l_blind l_last asts : (0 < vk_cs_degree vk - 2)%N ->
  perm_construct E pk sets (ll_advice l) (ll_fixed l) (ll_instance l) sigma l0 l_blind l_last beta gamma = Some asts ->
  perm_expressions E vk vs [seq ev s 0 | s <- sigma] (evs Advice) (evs Fixed) (evs Instance)
    (ev l0 0) (ev l_last 0) (ev l_blind 0) beta gamma x = Some [seq expr_at w P x a | a <- asts].
Proof.
move=> len0; rewrite /perm_construct /perm_expressions; case e: sequence => [prods|] //= [<-].
have [hs h1 h2 h3] := hvs.
rewrite (chain_at l0 hs h1 h3) /= -/col_eval size_chunks_map.
rewrite /mapi (products_at hs _ _ e) => [|t s v g1 g2|cs hcs c hc]; last 2 first.
- by split; [exact: h1 g1 g2|exact: h2 g1 g2].
- rewrite -hm -(flatten_chunks (permutation (vk_cs vk)) len0); apply/flattenP; by exists cs.
rewrite /= hm -hbf !map_cat; congr (Some (_ ++ _ ++ _ ++ _)).
- move: hs h1; case: (sets) (vs) => [|s ss] [|v vv] //= _ h; rewrite (h 0%N s v erefl erefl) expr_atE /=.
  by rewrite mulrN1 mulrC.
- move: hs h1; case/lastP: (sets) => [|ss s]; case/lastP: (vs) => [|vv v] //; rewrite ?size_rcons // => -[hsz] h.
  rewrite !rev_rcons /= (h (size ss) s v) ?(getE s) ?(getE v) ?size_rcons -?hsz ?ltnSn ?nth_rcons ?ltnn ?eqxx ?hsz ?ltnn ?eqxx //.
  by rewrite expr_atE /= mulrN1 expr2.
Qed.
End Perm.
End At.

(* ---------------------------------------------------------------- Lagrange polynomials *)
Section Lagrange.
Variables (F B : fieldType) (G : lmodType F) (E : env B G) (ps : params G).
Hypotheses (ok : env_ok E) (pok : params_ok E ps).
Variables (qd : nat) (d : domain F) (bf : nat).
Hypothesis hd : domain_new (e_rou E) (e_zeta E) (e_S E) qd (p_k ps) = Some d.
Notation n := (2 ^ p_k ps)%N.
Notation u := (n - (bf + 1))%N.
Notation omega := (d_omega d).
Hypothesis hbf : (bf + 1 <= n)%N.

Lemma domain_points_uniq : uniq [seq omega ^+ i | i <- iota 0 n].
Proof.
have hw := ok_omega_prim (dok ok hd); rewrite map_inj_in_uniq ?iota_uniq // => i j.
rewrite !mem_iota !add0n => /andP [_ hi] /andP [_ hj] /eqP.
by rewrite (eq_prim_root_expr hw) !modn_small // => /eqP.
Qed.
Lemma same_on_domain (p q : {poly F}) : (size p <= n)%N -> (size q <= n)%N ->
  (forall i, (i < n)%N -> p.[omega ^+ i] = q.[omega ^+ i]) -> p = q.
Proof.
move=> hp hq h; apply: (poly_interp_unique domain_points_uniq); rewrite ?size_map ?size_iota //.
by move=> y /mapP [i]; rewrite mem_iota => /andP [_ hi] ->; exact: h.
Qed.
Lemma indicator_poly i : (i < n)%N -> exists2 p : {poly F}, (size p <= n)%N &
  forall j, (j < n)%N -> p.[omega ^+ j] = (j == i)%:R.
Proof.
move=> hi; have [|zp [sz _ h _]] := lagrange_facts ok pok hd (z := mkseq (fun j => (j == i)%:R) n).
  by rewrite size_mkseq.
exists (Poly zp) => [|j hj]; first by apply: leq_trans (size_Poly _) _; rewrite sz.
by rewrite h // nth_mkseq.
Qed.

Lemma lagrange_evals_at (L0 Lblind Llast : {poly F}) x : x ^+ n != 1 ->
  (size L0 <= n)%N -> (size Lblind <= n)%N -> (size Llast <= n)%N ->
  (forall i, (i < n)%N -> L0.[omega ^+ i] = (i == 0%N)%:R) ->
  (forall i, (i < n)%N -> Llast.[omega ^+ i] = (i == u)%:R) ->
  (forall i, (i < n)%N -> Lblind.[omega ^+ i] = (u < i)%:R) ->
  lagrange_evals d bf x (x ^+ n) = Some (Llast.[x], Lblind.[x], L0.[x]).
Proof.
move=> hx s0 sb sl h0 hl hb; have dk := dok ok hd; have hw := ok_omega_prim dk.
have n0 : (0 < n)%N by rewrite expn_gt0.
have wn : omega ^+ n = 1 := prim_expr_order hw.
have w0 : omega != 0 by apply: contra_eq_neq wn => ->; rewrite expr0n eqn0Ngt n0 eq_sym oner_eq0.
set rs := [seq (i%:Z - (bf + 1)%N%:Z) | i <- iota 0 (bf + 2)].
have srs : size rs = (bf + 2)%N by rewrite size_map size_iota.
have [sz hr] := C06_l_i_range (fc ok) hd rs hx.
have lt2 i : (i <= bf + 1)%N -> (i < bf + 2)%N by move=> hi; rewrite -[(bf + 2)%N]/(bf + 1.+1)%N addnS ltnS.
have wr i : (i <= bf + 1)%N -> omega ^ nth 0 rs i = omega ^+ ((u + i) %% n)%N.
  move=> hi; rewrite (nth_map 0%N) ?size_iota ?nth_iota ?lt2 // add0n.
  rewrite (prim_expr_mod hw) -[RHS]/(omega ^ (u + i)%N%:Z).
  have -> : (u + i)%N%:Z = n%:Z + (i%:Z - (bf + 1)%N%:Z).
    by rewrite PoszD -subzn // addrC [n%:Z - _]addrC addrA addrC.
  by rewrite [RHS]expfzDr // -[omega ^ n%:Z]/(omega ^+ n) wn mul1r.
have key i (l : {poly F}) : (i <= bf + 1)%N -> (size l <= n)%N ->
    (forall j, (j < n)%N -> l.[omega ^+ j] = (j == ((u + i) %% n)%N)%:R) -> nth 0 (l_i_range d x (x ^+ n) rs) i = l.[x].
  move=> hi hs h; apply: hr => //; rewrite ?srs ?lt2 //.
    by rewrite wr // h ?ltn_mod // eqxx.
  move=> q; rewrite wr // -(prim_expr_mod hw q) => hq; rewrite h ?ltn_mod //.
  by case: eqP => // e; move: hq; rewrite e eqxx.
rewrite /lagrange_evals -/rs sz srs addnC eqxx /=.
rewrite (getE 0) ?sz ?srs ?addn2 //= (getE 0) ?sz ?srs ?addn2 ?add1n //=; congr (Some (_, _, _)).
- apply: key => // j hj; rewrite addn0 modn_small ?hl // ltn_subrL n0 addn1 //.
- set ls := l_i_range _ _ _ _.
  have hex i : (i < bf)%N -> exists2 p : {poly F}, (size p <= n)%N & forall j, (j < n)%N -> p.[omega ^+ j] = (j == (u + i.+1)%N)%:R.
    move=> hi; apply: indicator_poly; move: hbf hi; nlia.
  have [ip hip] : exists ip : nat -> {poly F}, forall i, (i < bf)%N -> (size (ip i) <= n)%N /\
      forall j, (j < n)%N -> (ip i).[omega ^+ j] = (j == (u + i.+1)%N)%:R.
    by apply: (@fin_choice _ 0 (fun i (p : {poly F}) => (size p <= n)%N /\ forall j, (j < n)%N -> p.[omega ^+ j] = (j == (u + i.+1)%N)%:R)) => i /hex [p h1 h2]; exists p.
  have -> : foldl +%R 0 (take bf (drop 1 ls)) = \sum_(i < bf) (ip i).[x].
    have -> : take bf (drop 1 ls) = [seq (ip i).[x] | i <- iota 0 bf].
      apply: (@eq_from_nth _ 0); rewrite ?size_takel ?size_drop ?sz ?srs ?size_map ?size_iota //; first nlia; last first.
        by nlia.
      move=> i hi; rewrite nth_take // nth_drop (nth_map 0%N) ?size_iota // nth_iota // add0n add1n.
      have [h1 h2] := hip i hi; apply: key => //; first by rewrite addn1 ltnW.
      move=> j hj; rewrite h2 // modn_small //; move: hbf hi; nlia.
    rewrite foldl_idx /= big_map -{1}[bf]subn0 -/(index_iota 0 bf) big_mkord //.
  have {1}-> : Lblind = \sum_(i < bf) ip i; last by rewrite horner_sum.
  apply: same_on_domain => //.
    elim/big_ind: _ => [|p q h1 h2|i _]; [by rewrite size_poly0| |by have [] := hip i (ltn_ord i)].
    by apply: leq_trans (size_add _ _) _; rewrite geq_max h1 h2.
  move=> j hj; rewrite hb // horner_sum.
  under eq_bigr => i _ do rewrite (hip i (ltn_ord i)).2 //.
  case: (ltnP u j) => hj'.
    have hj2 : (j - u.+1 < bf)%N by move: hbf hj hj'; nlia.
    rewrite (bigD1 (Ordinal hj2)) //= big1 => [|i]; first by rewrite (_ : j == _) ?addr0 //; apply/eqP; nlia.
    rewrite -val_eqE /= => /eqP hi; case: eqP => // e; by case: hi; rewrite e; nlia.
  rewrite big1 // => i _; case: eqP => // e; move: hj'; rewrite e; nlia.
- apply: key => //; first by rewrite addn1.
  move=> j hj; rewrite h0 //; by rewrite -[bf.+1]addn1 subnK // modnn.
Qed.
End Lagrange.
