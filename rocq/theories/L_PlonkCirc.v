(* The expressions of one circuit: they exist, their leaves are registered, their degrees are
   bounded, they vanish on the domain when the circuit is satisfied, and the verifier computes
   their values. *)
Set Warnings "-notation-overridden,-ambiguous-paths".
From mathcomp Require Import all_ssreflect all_algebra.
From Verif Require Import Util L_Chunks M_Poly L_Poly M_Domain L_Domain P_Domain M_Evaluator S_Evaluator P_Evaluator M_Assigned M_Env M_Transcript
  L_Transcript M_Commit S_Commit L_Commit P_Commit L_WP L_WPR M_Multiopen M_Circuit S_Circuit P_Circuit M_Selectors S_Selectors L_Selectors M_Copy L_Copy
  M_Keys M_Permutation S_Permutation M_Lookup L_Sigma P_Sigma L_PermCommit P_Permutation S_Plonk L_Expr P_Lookup M_Vanishing P_Vanishing
  M_Plonk M_Assign M_Keygen S_Mock P_Prove L_Wpe L_PlonkEval L_PlonkLeaves L_PlonkRun L_PlonkQuot L_PlonkDeg L_PlonkKey L_PlonkStages.
Import GRing.Theory.
Set Implicit Arguments.
Unset Strict Implicit.
Local Open Scope ring_scope.

Section Bounds.
Variables (F B : fieldType) (G : lmodType F) (E : env B G) (N n : nat).
Hypothesis n1 : (1 < n)%N.
Definition leaf_in (q : nat * int) : bool := (q.1 < N)%N && (`|q.2| <= n)%N.
Definition ast_in (a : ast F) : bool := all leaf_in (leaves a).
Lemma n1' : (1 <= n)%N. Proof. exact: ltnW. Qed.
Lemma lin0 l : (l < N)%N -> leaf_in (l, 0).
Proof. by move=> h; rewrite /leaf_in h. Qed.
Lemma lin1 l : (l < N)%N -> leaf_in (l, rot_next).
Proof. by move=> h; rewrite /leaf_in h n1'. Qed.
Lemma linp l : (l < N)%N -> leaf_in (l, rot_prev).
Proof. by move=> h; rewrite /leaf_in h n1'. Qed.
Lemma linl l bf : (bf + 1 <= n)%N -> (l < N)%N -> leaf_in (l, rot_last bf).
Proof. by move=> hb h; rewrite /leaf_in h /= /rot_last abszN absz_nat. Qed.

Lemma perm_left_in beta gamma vals sigmas acc : ast_in acc -> all (fun l => l < N)%N vals -> all (fun l => l < N)%N sigmas ->
  ast_in (foldl (perm_left beta gamma) acc (zip vals sigmas)).
Proof.
elim: vals sigmas acc => [|v vals IH] [|s sigmas] acc h //= /andP [h1 h2] /andP [h3 h4]; apply: IH => //.
by move: h; rewrite /ast_in /= all_cat => -> /=; rewrite !lin0.
Qed.
Lemma perm_right_in gamma vals (st : ast F * F) : ast_in st.1 -> all (fun l => l < N)%N vals ->
  ast_in (foldl (perm_right E gamma) st vals).1.
Proof.
elim: vals st => [|v vals IH] st h //= /andP [h1 h2]; apply: IH => //.
by move: h; rewrite /ast_in /= all_cat => -> /=; rewrite !lin0.
Qed.
Lemma all_drop_take (p : pred nat) len (s : seq nat) : (0 < len)%N -> all p s -> all (all p) (chunks len s).
Proof.
move=> l0 h; apply/allP => c hc; apply/allP => y hy; apply: (allP h); rewrite -(flatten_chunks s l0); apply/flattenP; by exists c.
Qed.
Lemma perm_construct_in (pk : pkey G) sets la lf li sigma l0 l_blind l_last beta gamma asts :
  (blinding_factors (vk_cs (pk_vk pk)) + 1 <= n)%N -> (2 < vk_cs_degree (pk_vk pk))%N ->
  List.Forall (fun st : pset F => s_coset st < N)%N sets ->
  (forall c leaf, c \in permutation (vk_cs (pk_vk pk)) -> any_of la lf li c = Some leaf -> (leaf < N)%N) ->
  all (fun l => l < N)%N sigma -> (l0 < N)%N -> (l_blind < N)%N -> (l_last < N)%N ->
  perm_construct E pk sets la lf li sigma l0 l_blind l_last beta gamma = Some asts -> all ast_in asts.
Proof.
move=> hbf hD hs hc hsig h0 hb hl; rewrite /perm_construct; set D := vk_cs_degree _ in hD *; set len := (D - 2)%N.
case e: (sequence _) => [prods|] //= [<-]; rewrite !all_cat.
have len0 : (0 < len)%N by rewrite subn_gt0.
apply/and4P; split.
- by case: hs {e} => //= s ss h _; rewrite /ast_in /= !lin0.
- have : List.Forall (fun st : pset F => s_coset st < N)%N (rev sets).
    by rewrite -[rev sets]/(catrev sets [::]); elim: hs [::] (List.Forall_nil (fun st : pset F => s_coset st < N)%N) => //= s ss h _ IH acc ha; apply: IH; constructor.
  by case=> //= s ss h _; rewrite /ast_in /= !lin0.
- have : forall s', List.Forall (fun st : pset F => s_coset st < N)%N s' -> all ast_in [seq AMul (ast_sub (APoly (s_coset p.1) 0) (APoly (s_coset p.2) (rot_last (blinding_factors (vk_cs (pk_vk pk))))))
                         (APoly l0 0) | p <- zip s' sets].
    elim: hs {e} => [|s ss h _ IH] s' [|t s'' ht hs''] //=; rewrite IH // /ast_in /= !lin0 //= linl //.
  move=> h; apply: h; case: hs {e} => [|s ss _ hss]; [exact: List.Forall_nil|exact: hss].
move: e; rewrite /mapi; move: 0%N => k.
have hcc : all (fun c : seq column => all (fun q => q \in permutation (vk_cs (pk_vk pk))) c) (chunks len (permutation (vk_cs (pk_vk pk)))).
  apply/allP => c hc'; apply/allP => q hq; rewrite -(flatten_chunks (permutation (vk_cs (pk_vk pk))) len0); apply/flattenP; by exists c.
have := all_drop_take len0 hsig.
elim: hs (chunks len (permutation _)) hcc (chunks len sigma) k prods => [|s ss h1 hss IH] [|c cc] hcc [|sg sig] k prods //=;
  try by move=> _ [<-].
move=> /andP [h3 h4]; move: hcc => /= /andP [h5 h6]; case e1: (sequence [seq any_of _ _ _ _ | _ <- c]) => [vals|] //=.
case e2: (sequence _) => [r|] //= [<-] /=; rewrite (IH cc h6 sig k.+1) // andbT.
have hv : all (fun l => l < N)%N vals.
  apply: (sequence_all (p := fun q => q \in permutation (vk_cs (pk_vk pk)))) e1 => // q y hq; exact: hc.
rewrite /perm_product_ast /ast_in /= !all_cat /= !lin0 // !andbT.
apply/andP; split; first by apply: perm_left_in => //; rewrite /ast_in /= lin1.
by apply: perm_right_in => //; rewrite /ast_in /= lin0.
Qed.

Lemma compress_cosets_in theta asts : all ast_in asts -> ast_in (compress_cosets theta asts).
Proof.
rewrite /compress_cosets; have : ast_in (AConstantTerm (0 : F)) by [].
elim: asts (AConstantTerm _) => //= a asts IH acc h1 /andP [h2 h3]; apply: IH => //.
by move: h1 h2; rewrite /ast_in /= !all_cat => -> ->.
Qed.
Variables (nc : any -> nat) (l : lleaves).
Hypothesis hl : forall a c, (c < nc a)%N -> (c < size (leaves_of l a))%N.
Hypothesis hlN : forall a, all (fun q => q < N)%N (leaves_of l a).
Lemma leaf_ast_in e a : expr_within n nc e -> leaf_ast l e = Some a -> ast_in a.
Proof.
move=> hw; have [a' [-> h _]] := leaf_astE hl hw => -[<-]; apply: sub_all h => q /andP [h1 h2].
rewrite /leaf_in h2 andbT; case/orP: h1 => [/orP []|]; [exact: (allP (hlN Advice))|exact: (allP (hlN Fixed))|exact: (allP (hlN Instance))].
Qed.
Lemma lookup_construct_in (lk : lookup F) theta (c : lcommitted F) beta gamma l0 l_blind l_last :
  lookup_within n nc lk -> compressed_asts lk l theta (lc_permuted c) ->
  (lp_pinput_leaf (lc_permuted c) < N)%N -> (lp_ptable_leaf (lc_permuted c) < N)%N -> (lc_leaf c < N)%N ->
  (l0 < N)%N -> (l_blind < N)%N -> (l_last < N)%N ->
  all ast_in (lookup_construct beta gamma l0 l_blind l_last c).
Proof.
move=> /and3P [_ wi wt] [ia [ta [e1 e2 e3 e4]]] h1 h2 h3 h4 h5 h6.
have hi : ast_in (lp_input_coset (lc_permuted c)).
  rewrite e3; apply: compress_cosets_in; apply: (sequence_all (p := expr_within n nc)) e1 => // e a; exact: leaf_ast_in.
have ht : ast_in (lp_table_coset (lc_permuted c)).
  rewrite e4; apply: compress_cosets_in; apply: (sequence_all (p := expr_within n nc)) e2 => // e a; exact: leaf_ast_in.
move: hi ht; rewrite /lookup_construct /ast_in; cbn -[leaf_in lp_input_coset lp_table_coset lp_pinput_leaf lp_ptable_leaf lc_leaf rot_next rot_prev].
by rewrite ?all_cat /= ?cats0 ?all_cat => -> ->; rewrite /= !lin0 // ?lin1 // ?linp.
Qed.
End Bounds.

Section Circuit.
Variables (F B : fieldType) (G : lmodType F) (E : env B G) (ps : params G).
Hypotheses (ok : env_ok E) (pok : params_ok E ps).
Variables (d : domain F) (pk : pkey G) (calls : seq copy_call).
Notation n := (2 ^ p_k ps)%N.
Notation vk := (pk_vk pk).
Notation m := (vk_cs vk).
Notation D := (vk_cs_degree vk).
Notation bf := (blinding_factors m).
Notation u := (n - (bf + 1))%N.
Notation omega := (d_omega d).
Notation nc := (ncols m).
Notation lkd := (Lookup [::] [::] : lookup F).
Notation lk j := (nth lkd (lookups m) j).
Notation nlk := (size (lookups m)).
Notation lp0 := (LPermuted [::] (AConstantTerm 0) [::] [::] 0 0 [::] (AConstantTerm 0) [::] [::] 0 0 : lpermuted F).
Notation lc0 := (LCommitted lp0 [::] 0 0 : lcommitted F).
Hypothesis hk : key_ok E ps d pk calls.
Notation hd := (ko_new hk).
Notation gate_exprs := (flatten [seq g_polys g | g <- gates m]).

(* the registered polynomials *)
Variables (polys pcs : seq (seq F)).
Hypothesis hcos : cosets E ps d polys pcs.
Notation Ps := [seq Poly p | p <- pcs].
Notation P := (nth (0 : {poly F}) Ps).
Lemma regP poly leaf : registered E ps d polys poly leaf -> (leaf < size pcs)%N /\ P leaf = Poly poly.
Proof.
move=> h; have [h1 h2] := registered_cosets ok hd (ltnW (k_D hk)) hcos h; split=> //.
by rewrite (nth_map [::]) // h2.
Qed.
Lemma P_size l : (size (P l) <= n)%N.
Proof.
case: (ltnP l (size pcs)) => h; last by rewrite nth_default ?size_map // size_poly0.
rewrite (nth_map [::]) //; apply: leq_trans (size_Poly _) _; have [_ /(all_nthP [::])/(_ l h)/eqP ->] := hcos; exact: leqnn.
Qed.

(* the selectors *)
Variables (sigma : seq nat) (l0 lb ll : nat) (p0 pb pl : seq F).
Hypothesis hsel : sel_leaves E ps d pk polys sigma l0 lb ll p0 pb pl.
Hypothesis hp0 : forall i, (i < n)%N -> (Poly p0).[omega ^+ i] = (i == 0%N)%:R.
Hypothesis hpl : forall i, (i < n)%N -> (Poly pl).[omega ^+ i] = (i == u)%:R.
Hypothesis hpb : forall i, (i < n)%N -> (Poly pb).[omega ^+ i] = (u < i)%:R.
Lemma sel_rows : row_selectors (p_k ps) omega u P l0 lb ll.
Proof.
have [_ e0] := regP (sl_l0 hsel); have [_ eb] := regP (sl_lb hsel); have [_ el] := regP (sl_ll hsel).
by split=> i hi; rewrite ?e0 ?eb ?el ?hp0 ?hpb ?hpl.
Qed.
Lemma lagr x : x ^+ n != 1 -> lagrange_evals d bf x (x ^+ n) = Some (ev omega P x ll 0, ev omega P x lb 0, ev omega P x l0 0).
Proof.
have [_ e0] := regP (sl_l0 hsel); have [_ eb] := regP (sl_lb hsel); have [_ el] := regP (sl_ll hsel).
move=> hx; rewrite /ev e0 eb el expr0z mulr1; apply: (lagrange_evals_at ok pok hd (k_bf1 hk)) => //;
  apply: leq_trans (size_Poly _) _.
- by have [-> _ _] := sl_l0 hsel.
- by have [-> _ _] := sl_lb hsel.
- by have [-> _ _] := sl_ll hsel.
Qed.
Lemma sigma_at j : (j < size (permutation m))%N -> (nth 0%N sigma j < size pcs)%N /\ P (nth 0%N sigma j) = Poly (nth [::] (pk_perm_polys pk) j).
Proof. by move=> hj; exact: (regP (sl_sigma hsel hj)). Qed.

(* one circuit: its columns, ... *)
Variables (T : any -> nat -> nat -> F) (cp : any -> nat -> seq F) (l : lleaves).
Hypothesis hsz : forall a, size (leaves_of l a) = nc a.
Hypothesis hreg : forall a c, (c < nc a)%N -> registered E ps d polys (cp a c) (nth 0%N (leaves_of l a) c).
Hypothesis hcp : forall a c row, (c < nc a)%N -> (row < n)%N -> (Poly (cp a c)).[omega ^+ row] = T a c row.
Lemma leaf_cols : leaf_columns n nc l (fun leaf row => (P leaf).[omega ^+ row]) T.
Proof.
move=> a c hc; rewrite hsz; split=> // row hr; have [_ ->] := regP (hreg hc); exact: hcp.
Qed.
Lemma leaf_lt a c : (c < nc a)%N -> (c < size (leaves_of l a))%N. Proof. by rewrite hsz. Qed.
Lemma leaf_bound a : all (fun q => q < size pcs)%N (leaves_of l a).
Proof. by apply/(all_nthP 0%N) => c; rewrite hsz => hc; have [] := regP (hreg hc). Qed.
(* ... permutation argument, ... *)
Variables (v : cell -> F) (sets : seq (pset F)) (beta gamma theta : F).
Hypothesis hv : forall j r, (j < size (permutation m))%N ->
  v (j, r) = T (nth (Advice, 0%N) (permutation m) j).1 (nth (Advice, 0%N) (permutation m) j).2 r.
Hypothesis hsets : List.Forall (fun st => registered E ps d polys (s_poly st) (s_coset st)) sets.
Hypothesis hcons : forall (P : nat -> {poly F}) ladvice lfixed linstance sigma l0 l_blind l_last,
      leaves_ok E pk (p_k ps) omega calls v P ladvice lfixed linstance sigma l0 l_blind l_last ->
      List.Forall (fun st => P (s_coset st) = Poly (s_poly st)) sets ->
      exists2 asts, perm_construct E pk sets ladvice lfixed linstance sigma l0 l_blind l_last beta gamma = Some asts &
        copies_hold ps pk calls v -> ~ degenerate E ps d pk calls v beta gamma -> vanish_on_domain omega n P asts.
(* ... and lookups *)
Variable lks : seq (lcommitted F).
Notation lki j := (nth lc0 lks j).
Hypothesis slks : size lks = nlk.
Hypothesis hlks : forall j, (j < nlk)%N ->
  [/\ registered E ps d polys (lp_pinput_poly (lc_permuted (lki j))) (lp_pinput_leaf (lc_permuted (lki j))),
      registered E ps d polys (lp_ptable_poly (lc_permuted (lki j))) (lp_ptable_leaf (lc_permuted (lki j))),
      registered E ps d polys (lc_poly (lki j)) (lc_leaf (lki j)),
      compressed_asts (lk j) l theta (lc_permuted (lki j)) &
      forall (P : nat -> {poly F}) l0 l_blind l_last,
      ~ lk_degenerate ps pk T (lk j) theta beta gamma ->
      row_selectors (p_k ps) omega u P l0 l_blind l_last ->
      leaf_columns n nc l (fun leaf row => (P leaf).[omega ^+ row]) T ->
      P (lp_pinput_leaf (lc_permuted (lki j))) = Poly (lp_pinput_poly (lc_permuted (lki j))) ->
      P (lp_ptable_leaf (lc_permuted (lki j))) = Poly (lp_ptable_poly (lc_permuted (lki j))) ->
      P (lc_leaf (lki j)) = Poly (lc_poly (lki j)) ->
      vanish_on_domain omega n P (lookup_construct beta gamma l0 l_blind l_last (lki j))].

Notation lexprs := [seq lookup_construct beta gamma l0 lb ll c | c <- lks].
Lemma vanish_cat (a b : seq (ast F)) : vanish_on_domain omega n P a -> vanish_on_domain omega n P b -> vanish_on_domain omega n P (a ++ b).
Proof. by move=> h1 h2 i hi; rewrite all_cat h1 ?h2. Qed.

(* the gates *)
Lemma gates_circuit : exists gas, [/\ gate_asts m (ll_advice l) (ll_fixed l) (ll_instance l) = Some gas,
  sequence [seq leaf_ast l e | e <- gate_exprs] = Some gas,
  all (ast_in (size pcs) n) gas, all (deg_ok D) gas &
  (forall g gt, get (gates m) g = Some gt -> gate_holds n T gt) -> vanish_on_domain omega n P gas].
Proof.
have hw := gates_within hk; have [_ hdeg _] := cs_degree_bounds (ko_deg hk).
have [gas eg] : exists gas, sequence [seq leaf_ast l e | e <- gate_exprs] = Some gas.
  elim: gate_exprs hw => [|e es IH] /=; first by exists [::].
  by move=> /andP [h1 /IH [gas ->]]; have [a [-> _ _]] := leaf_astE leaf_lt h1; exists (a :: gas).
exists gas; split=> //.
- apply: (sequence_all (p := expr_within n nc)) eg => // e a; exact: leaf_ast_in (leaf_lt) leaf_bound _ _.
- apply: (sequence_all (p := fun e => degree e <= D)%N) eg => // e a hdg /leaf_ast_deg [h1 h2].
  by rewrite /deg_ok h1 (leq_trans h2).
move=> hg i hi.
have hg' : all (fun e => row_value n T i e == 0) gate_exprs.
  have : forall gs, (forall g gt, get gs g = Some gt -> gate_holds n T gt) -> all (fun e => row_value n T i e == 0) (flatten [seq g_polys g | g <- gs]).
    elim=> //= g gs IH h; rewrite all_cat (h 0%N g erefl i hi) /=; apply: IH => g' gt e; exact: (h g'.+1).
  exact.
apply: (sequence_all (p := fun e => expr_within n nc e && (row_value n T i e == 0))) eg => [e a /andP [h1 /eqP h2] ea|].
  by rewrite (at_leaf_ast (ok_omega_prim (dok ok hd)) leaf_cols i h1 ea) h2.
by move: hw hg'; elim: gate_exprs => //= e es IH /andP [-> h1] /andP [-> h2]; exact: IH.
Qed.

(* the permutation argument *)
Lemma perm_leaves : leaves_ok E pk (p_k ps) omega calls v P (ll_advice l) (ll_fixed l) (ll_instance l) sigma l0 lb ll.
Proof.
have [r1 r2 r3] := sel_rows; split=> //.
- move=> j hj; have [_ hc] := perm_cols hk (mem_nth (Advice, 0%N) hj).
  exists (nth 0%N (leaves_of l (nth (Advice, 0%N) (permutation m) j).1) (nth (Advice, 0%N) (permutation m) j).2).
    by move: hc; rewrite /any_of; case: (nth _ _ j) => -[] c hc; apply: getE; [exact: (leaf_lt (a := Advice))|exact: (leaf_lt (a := Fixed))|exact: (leaf_lt (a := Instance))].
  move=> i hi; rewrite hv //; have [_ ->] := regP (hreg hc); apply: hcp => //; exact: leq_trans hi (leq_subr _ _).
- exact: sl_nsigma hsel.
- move=> j i c hj hi e; have [_ ->] := sigma_at hj; have [_ _ _ _ h] := perm_key ok pok hk.
  have [_ h2 _ _] := h j hj; apply: h2 => //; exact: leq_trans hi (leq_subr _ _).
Qed.
Lemma perm_circuit : exists pas, [/\
  perm_construct E pk sets (ll_advice l) (ll_fixed l) (ll_instance l) sigma l0 lb ll beta gamma = Some pas,
  all (ast_in (size pcs) n) pas, all (deg_ok D) pas &
  copies_hold ps pk calls v -> ~ degenerate E ps d pk calls v beta gamma -> vanish_on_domain omega n P pas].
Proof.
have [|pas e h] := hcons perm_leaves; first by elim: hsets => // st ss h _ IH; constructor=> //; have [] := regP h.
have [l1 _] := regP (sl_l0 hsel); have [l2 _] := regP (sl_lb hsel); have [l3 _] := regP (sl_ll hsel).
exists pas; split=> //; last exact: perm_construct_deg (k_D hk) e.
apply: (perm_construct_in (k_n hk) (k_bf1 hk) (k_D hk) _ _ _ l1 l2 l3 e).
- by elim: hsets => // st ss h1 _ IH; constructor=> //; have [] := regP h1.
- move=> c leaf hc; have [_ hc2] := perm_cols hk hc; rewrite /any_of; case: c hc2 {hc} => -[] c hc.
  + by rewrite (getE 0%N) ?(leaf_lt (a := Advice) hc) // => -[<-]; have [] := regP (hreg (a := Advice) hc).
  + by rewrite (getE 0%N) ?(leaf_lt (a := Fixed) hc) // => -[<-]; have [] := regP (hreg (a := Fixed) hc).
  + by rewrite (getE 0%N) ?(leaf_lt (a := Instance) hc) // => -[<-]; have [] := regP (hreg (a := Instance) hc).
- by apply/(all_nthP 0%N) => j; rewrite (sl_nsigma hsel) => hj; have [] := sigma_at hj.
Qed.
(* the lookups *)
Lemma flatten_all_nth (p : pred (ast F)) : (forall j, (j < nlk)%N -> all p (lookup_construct beta gamma l0 lb ll (lki j))) -> all p (flatten lexprs).
Proof. by move=> h; rewrite all_flattenE all_map; apply/(all_nthP lc0) => j; rewrite slks => hj; exact: h. Qed.
Lemma lookups_circuit : [/\ all (ast_in (size pcs) n) (flatten lexprs), all (deg_ok D) (flatten lexprs) &
  (forall j, (j < nlk)%N -> ~ lk_degenerate ps pk T (lk j) theta beta gamma) -> vanish_on_domain omega n P (flatten lexprs)].
Proof.
have [l1 _] := regP (sl_l0 hsel); have [l2 _] := regP (sl_lb hsel); have [l3 _] := regP (sl_ll hsel).
split.
- apply: flatten_all_nth => j hj; have [r1 r2 r3 hc _] := hlks hj; have [_ _ hw _] := lookup_okj hk hj.
  have [i1 _] := regP r1; have [i2 _] := regP r2; have [i3 _] := regP r3.
  exact: (lookup_construct_in (k_n hk) leaf_lt leaf_bound _ _ hw hc).
- apply: flatten_all_nth => j hj; have [r1 r2 r3 hc _] := hlks hj; have [_ _ _ [k e1 e2]] := lookup_okj hk hj.
  exact: lookup_construct_deg hc e1 e2.
move=> hn i hi; apply: flatten_all_nth => j hj; have [r1 r2 r3 hc h] := hlks hj.
have [_ i1] := regP r1; have [_ i2] := regP r2; have [_ i3] := regP r3.
exact: (h P l0 lb ll (hn j hj) sel_rows leaf_cols i1 i2 i3 i hi).
Qed.

(* the verifier's values of the expressions *)
Variable x : F.
Notation qs a := (queries_of m a).
Definition evs a : seq F := [seq pev d x (cp a q.1) q.2 | q <- qs a].
Lemma evsE a : evs a = [seq ev omega P x (nth 0%N (leaves_of l a) q.1) q.2 | q <- qs a].
Proof.
apply/eq_in_map => q /(within_query hk)/andP [hq _]; rewrite /pev /ev; by have [_ ->] := regP (hreg hq).
Qed.
Lemma gates_at gas : sequence [seq leaf_ast l e | e <- gate_exprs] = Some gas ->
  gate_evals m (evs Advice) (evs Fixed) (evs Instance) = Some [seq expr_at omega P x a | a <- gas].
Proof. exact: (exprs_val_at leaf_lt evsE (gates_ok hk) (gates_within hk)). Qed.
Lemma perm_at comms pas :
  perm_construct E pk sets (ll_advice l) (ll_fixed l) (ll_instance l) sigma l0 lb ll beta gamma = Some pas ->
  perm_expressions E vk (mkseq (vset_of d m x sets comms) (size sets)) [seq pev d x p 0 | p <- pk_perm_polys pk]
    (evs Advice) (evs Fixed) (evs Instance) (ev omega P x l0 0) (ev omega P x ll 0) (ev omega P x lb 0) beta gamma x =
  Some [seq expr_at omega P x a | a <- pas].
Proof.
move=> e.
have -> : [seq pev d x p 0 | p <- pk_perm_polys pk] = [seq ev omega P x s 0 | s <- sigma].
  have [_ sp _ _ _] := perm_key ok pok hk; apply: (@eq_from_nth _ 0); rewrite !size_map sp ?(sl_nsigma hsel) // => j hj.
  rewrite (nth_map [::]) ?sp // (nth_map 0%N) ?(sl_nsigma hsel) // /ev /pev; by have [_ ->] := sigma_at hj.
have hst t st : get sets t = Some st -> (t < size sets)%N /\ st = nth (PSet [::] 0 0) sets t.
  case: (ltnP t (size sets)) => ht; first by rewrite (getE (PSet [::] 0 0)) // => -[<-].
  by rewrite /get drop_oversize.
have hP t : (t < size sets)%N -> P (s_coset (nth (PSet [::] 0 0) sets t)) = Poly (s_poly (nth (PSet [::] 0 0) sets t)).
  move=> ht; have h : registered E ps d polys (s_poly (nth (PSet [::] 0 0) sets t)) (s_coset (nth (PSet [::] 0 0) sets t)).
    by elim: hsets t ht => // st ss h _ IH [|t] //= ht; exact: IH.
  by have [] := regP h.
have gv t vv : get (mkseq (vset_of d m x sets comms) (size sets)) t = Some vv -> (t < size sets)%N -> vv = vset_of d m x sets comms t.
  by move=> + ht; rewrite (getE (vset_of d m x sets comms 0)) ?size_mkseq // nth_mkseq // => -[].
apply: (perm_expressions_at leaf_lt evsE _ _ (perm_cols hk) _ _ e).
- by [].
- by [].
- split; first by rewrite size_mkseq.
  + by move=> t st vv /hst [ht ->] /gv ->; rewrite // /= /ev hP.
  + by move=> t st vv /hst [ht ->] /gv ->; rewrite // /= /ev hP.
  + by move=> t st vv /hst [ht ->] /gv ->; rewrite // /= /ev hP.
- by rewrite subn_gt0 (k_D hk).
Qed.
Lemma lookups_at (cs : seq (G * G * G)) : size cs = nlk ->
  sequence [seq lookup_expressions p.1 (ev omega P x l0 0) (ev omega P x ll 0) (ev omega P x lb 0) p.2 theta beta gamma
     (evs Advice) (evs Fixed) (evs Instance) | p <- zip [seq vlookup_of d x z.1 z.2 | z <- zip lks cs] (lookups m)] =
  Some [seq [seq expr_at omega P x a | a <- lookup_construct beta gamma l0 lb ll c] | c <- lks].
Proof.
move=> sc.
have -> : zip [seq vlookup_of d x z.1 z.2 | z <- zip lks cs] (lookups m) =
    mkseq (fun j => (vlookup_of d x (lki j) (nth (0, 0, 0) cs j), lk j)) nlk.
  rewrite [lookups m in LHS](seq_mkseq lkd) [lks in LHS](seq_mkseq lc0) [cs in LHS](seq_mkseq (0, 0, 0)).
  by rewrite slks sc zip_mkseq map_mkseq zip_mkseq.
have -> : [seq [seq expr_at omega P x a | a <- lookup_construct beta gamma l0 lb ll c] | c <- lks] =
    mkseq (fun j => [seq expr_at omega P x a | a <- lookup_construct beta gamma l0 lb ll (lki j)]) nlk.
  by rewrite [lks in LHS](seq_mkseq lc0) slks map_mkseq.
rewrite map_mkseq; apply: sequence_mkseq => j hj.
have [o1 o2 hw _] := lookup_okj hk hj; have [r1 r2 r3 hc _] := hlks hj.
have [_ i1] := regP r1; have [_ i2] := regP r2; have [_ i3] := regP r3.
apply: (lookup_expressions_at leaf_lt evsE _ _ _ _ _ o1 o2 hw hc).
by split; rewrite /= /pev /ev ?i1 ?i2 ?i3.
Qed.
End Circuit.
