(* The constraints behind the values the verifier computes, for any bytes: if the opening
   claims are true then these values are the values at x of polynomials which vanish on the
   domain only if the circuit is satisfied, up to bad challenges. *)
Set Warnings "-notation-overridden,-ambiguous-paths".
From mathcomp Require Import all_ssreflect all_algebra.
From Verif Require Import Util L_Chunks M_Poly L_Poly M_Domain L_Domain P_Domain M_Evaluator S_Evaluator P_Evaluator M_Assigned M_Env M_Transcript
  L_Transcript M_Commit S_Commit L_Commit P_Commit L_WP L_WPR M_IPA M_Multiopen P_Multiopen M_Circuit S_Circuit P_Circuit M_Selectors S_Selectors L_Selectors M_Copy L_Copy
  M_Keys M_Permutation S_Permutation M_Lookup L_Sigma P_Sigma L_PermRows L_PermCommit P_Permutation S_Plonk L_Expr P_Lookup M_Vanishing P_Vanishing
  M_Plonk M_Assign M_Keygen S_Mock P_Prove L_Wpe L_PlonkEval L_PlonkDeg L_PlonkKey L_PlonkStages L_PlonkTrace S_Count.
Import GRing.Theory.
Set Implicit Arguments.
Unset Strict Implicit.
Local Open Scope ring_scope.

Lemma sum_const (l : seq nat) k : (\sum_(i <- l) k = size l * k)%N.
Proof. by rewrite big_const_seq count_predT iter_addn_0 mulnC. Qed.

Section Sound.
Variables (F B : fieldType) (G : lmodType F) (E : env B G) (ps : params G).
Hypotheses (ok : env_ok E) (pok : params_ok E ps).
Variables (pk : pkey G) (calls : seq copy_call).
Notation n := (2 ^ p_k ps)%N.
Notation vk := (pk_vk pk).
Notation m := (vk_cs vk).
Notation d := (vk_domain vk).
Notation D := (vk_cs_degree vk).
Notation bf := (blinding_factors m).
Notation u := (n - (bf + 1))%N.
Notation omega := (d_omega d).
Notation nc := (ncols m).
Notation cols := (permutation m).
Notation lkd := (Lookup [::] [::] : lookup F).
Notation lk j := (nth lkd (lookups m) j).
Notation nlk := (size (lookups m)).
Notation nset := (size (chunks (D - 2) cols)).
Notation gate_exprs := (flatten [seq g_polys g | g <- gates m]).
Notation vs0 := (VSet 0 0 0 None : vset G).
Notation vl0 := (VLookup 0 0 0 0 0 0 0 0 : vlookup G).
Hypothesis hk : key_ok E ps d pk calls.
Notation hd := (ko_new hk).
Variables (instances : seq (seq (seq F))).
Notation np := (size instances).

(* the polynomials of the columns and of the arguments *)
Variable cp : qkey -> {poly F}.
Hypothesis cp_size : forall k, (size (cp k) <= n)%N.
Variables L0 Lb Ll : {poly F}.
Hypotheses (s_l0 : (size L0 <= n)%N) (s_lb : (size Lb <= n)%N) (s_ll : (size Ll <= n)%N).
Hypothesis cp_l0 : forall i, (i < n)%N -> L0.[omega ^+ i] = (i == 0%N)%:R.
Hypothesis cp_lb : forall i, (i < n)%N -> Lb.[omega ^+ i] = (u < i)%:R.
Hypothesis cp_ll : forall i, (i < n)%N -> Ll.[omega ^+ i] = (i == u)%:R.
Hypothesis cp_sigma : forall j, (j < size cols)%N -> cp (7, (0, j))%N = Poly (nth [::] (pk_perm_polys pk) j).

Definition lcode : qkey + nat -> nat := locked (@pickle _).
Definition leaf (k : qkey) : nat := lcode (inl k).
Definition P (idx : nat) : {poly F} :=
  match @unpickle [countType of (nat * (nat * nat) + nat)%type] idx with
  | Some (inl k) => cp k
  | Some (inr 0%N) => L0
  | Some (inr 1%N) => Lb
  | Some (inr _) => Ll
  | None => 0
  end.
Lemma P_leaf k : P (leaf k) = cp k. Proof. by rewrite /P /leaf /lcode -lock pickleK. Qed.
Lemma P_size l : (size (P l) <= n)%N.
Proof. by rewrite /P; case: unpickle => [[k|[|[|k]]]|]; rewrite ?cp_size ?s_l0 ?s_lb ?s_ll // size_poly0. Qed.
Definition l0 : nat := lcode (inr 0%N).
Definition lb : nat := lcode (inr 1%N).
Definition ll : nat := lcode (inr 2%N).
Lemma P_l0 : P l0 = L0. Proof. by rewrite /P /l0 /lcode -lock pickleK. Qed.
Lemma P_lb : P lb = Lb. Proof. by rewrite /P /lb /lcode -lock pickleK. Qed.
Lemma P_ll : P ll = Ll. Proof. by rewrite /P /ll /lcode -lock pickleK. Qed.
Definition kind (a : any) : nat := match a with Instance => 0 | Advice => 1 | Fixed => 6 end.
Definition colkey (i : nat) (a : any) (c : nat) : qkey := (kind a, (if a is Fixed then 0 else i, c))%N.
Definition lcol i a : seq nat := [seq leaf (colkey i a c) | c <- iota 0 (nc a)].
Definition lc i := LLeaves (lcol i Advice) (lcol i Fixed) (lcol i Instance).
Lemma leaves_lc i a : leaves_of (lc i) a = lcol i a. Proof. by case: a. Qed.
Lemma lc_size i a : size (leaves_of (lc i) a) = nc a. Proof. by rewrite leaves_lc size_map size_iota. Qed.
Lemma lc_nth i a c : (c < nc a)%N -> nth 0%N (leaves_of (lc i) a) c = leaf (colkey i a c).
Proof. by move=> h; rewrite leaves_lc (nth_map 0%N) ?size_iota // nth_iota. Qed.
Lemma lc_lt i a c : (c < nc a)%N -> (c < size (leaves_of (lc i) a))%N. Proof. by rewrite lc_size. Qed.

Section Chal.
Variables theta beta gamma : F.
Definition sigma : seq nat := [seq leaf (7, (0, j))%N | j <- iota 0 (size cols)].
Lemma size_sigma : size sigma = size cols. Proof. by rewrite size_map size_iota. Qed.
Lemma nth_sigma j : (j < size cols)%N -> nth 0%N sigma j = leaf (7, (0, j))%N.
Proof. by move=> hj; rewrite (nth_map 0%N) ?size_iota // nth_iota. Qed.
Definition sets i : seq (pset F) := mkseq (fun t => PSet [::] (leaf (2, (i, t))%N) 0) nset.
Definition casts i es : seq (ast F) := odflt [::] (sequence [seq leaf_ast (lc i) e | e <- es]).
Definition lcom i j : lcommitted F := LCommitted
  (LPermuted [::] (compress_cosets theta (casts i (lk_input (lk j)))) [::] [::] (leaf (4, (i, j))%N) 0
             [::] (compress_cosets theta (casts i (lk_table (lk j)))) [::] [::] (leaf (5, (i, j))%N) 0)
  [::] (leaf (3, (i, j))%N) 0.
Definition gas i : seq (ast F) := casts i gate_exprs.
Definition pas i : seq (ast F) :=
  odflt [::] (perm_construct E pk (sets i) (lcol i Advice) (lcol i Fixed) (lcol i Instance) sigma l0 lb ll beta gamma).
Definition las i j : seq (ast F) := lookup_construct beta gamma l0 lb ll (lcom i j).
Definition exs i : seq (ast F) := gas i ++ pas i ++ flatten (mkseq (las i) nlk).
Definition all_exs : seq (ast F) := flatten (mkseq exs np).

Lemma castsE i es : all (expr_within n nc) es -> sequence [seq leaf_ast (lc i) e | e <- es] = Some (casts i es).
Proof.
rewrite /casts; elim: es => //= e es IH /andP [h1 /IH]; have [a [-> _ _]] := leaf_astE (@lc_lt i) h1.
by case: sequence => [r|] //=.
Qed.
Lemma pasE i : perm_construct E pk (sets i) (lcol i Advice) (lcol i Fixed) (lcol i Instance) sigma l0 lb ll beta gamma = Some (pas i).
Proof.
rewrite /pas; have len0 : (0 < D - 2)%N by rewrite subn_gt0 (k_D hk).
have hsz : size (sets i) = nch (D - 2) (size cols) by rewrite size_mkseq (size_chunks _ (m := size cols)).
have hlf j : (j < size cols)%N -> any_of (lcol i Advice) (lcol i Fixed) (lcol i Instance) (nth (Advice, 0%N) cols j) =
    Some (leaf (colkey i (nth (Advice, 0%N) cols j).1 (nth (Advice, 0%N) cols j).2)).
  move=> hj; have [_] := perm_cols hk (mem_nth (Advice, 0%N) hj); case: (nth _ cols j) => a c /= hc.
  have := @getE _ 0%N (leaves_of (lc i) a) c; rewrite lc_size lc_nth // => /(_ hc).
  by case: a hc.
by rewrite (perm_constructE E len0 l0 lb ll hsz size_sigma hlf).
Qed.
Lemma lasE i j : (j < nlk)%N -> compressed_asts (lk j) (lc i) theta (lc_permuted (lcom i j)).
Proof.
move=> hj; have [_ _ /and3P [_ wi wt] _] := lookup_okj hk hj.
by exists (casts i (lk_input (lk j))), (casts i (lk_table (lk j))); split=> //; exact: castsE.
Qed.

Lemma exs_size i : (size (exs i) <= size gate_exprs + (2 * nset + 1) + 5 * nlk)%N.
Proof.
rewrite /exs !size_cat addnA; apply: leq_add; first apply: leq_add.
- by rewrite /gas (sequence_size (castsE i (gates_within hk))) size_map.
- have := pasE i; rewrite /perm_construct; case e: sequence => [prods|] //= [<-].
  have sp : (size prods <= nset)%N.
    rewrite (sequence_size e) (mapiE (PSet [::] 0 0, [::], [::])) size_map size_iota !size_zip.
    by apply: leq_trans (geq_minl _ _) (geq_minr _ _).
  rewrite !size_cat size_map size_zip size_behead size_mkseq.
  have h1 (T : Type) (l : seq T) : (size (if l is s :: _ then [:: s] else [::]) <= 1)%N by case: l.
  have -> : size (if sets i is s :: _ then [:: AMul (ast_sub (ast_one F) (APoly (s_coset s) 0)) (APoly l0 0)] else [::]) =
    (0 < nset)%N :> nat by rewrite /sets; case: nset.
  set q := size (if rev (sets i) is s :: _ then _ else _).
  have -> : q = (0 < nset)%N :> nat.
    rewrite /q; have : size (rev (sets i)) = nset by rewrite size_rev size_mkseq.
    by case: rev => [|a b] <-.
  have := geq_minl (nset.-1) nset; move: sp; case: (nset) => [|k] /=; nlia.
rewrite size_flatten /shape map_mkseq sumnE big_map.
rewrite (eq_bigr (fun _ => 5%N)) => [|j _] //.
by rewrite sum_const size_iota mulnC.
Qed.
Lemma exs_deg : all (fun e : {poly F} => size e <= (D * n.-1).+1)%N [seq expr_poly omega P a | a <- all_exs].
Proof.
rewrite all_map all_flattenE; apply/(all_nthP [::]) => i; rewrite size_mkseq => hi; rewrite nth_mkseq //.
suff h : all (deg_ok D) (exs i) by apply: sub_all h => a /=; apply: deg_okP; [exact: k_n hk|exact: P_size].
rewrite /exs !all_cat; apply/and3P; split.
- have [_ hdeg _] := cs_degree_bounds (ko_deg hk).
  apply: (sequence_all (p := fun e => degree e <= D)%N) (castsE i (gates_within hk)) => // e a hdg /leaf_ast_deg [h1 h2].
  by rewrite /deg_ok h1 (leq_trans h2).
- exact: perm_construct_deg (k_D hk) (pasE i).
rewrite all_flattenE; apply/(all_nthP [::]) => j; rewrite size_mkseq => hj; rewrite nth_mkseq //.
have [_ _ _ [k e1 e2]] := lookup_okj hk hj; exact: lookup_construct_deg (lasE i hj) e1 e2.
Qed.

(* ---------------------------------------------------------------- the verifier's values *)
Section Run.
Variables (vt : vtrace B G) (v : vparts B G) (h : {poly F}).
Hypotheses (hsh : vshape vk instances v) (hco : vcomputed E ps vk vt v).
Hypotheses (hth : vt_theta vt = theta) (hbe : vt_beta vt = beta) (hga : vt_gamma vt = gamma).
Notation x := (vt_x vt).
Definition op (k : qkey) : {poly F} := if k.1 == 8%N then h else cp k.
Hypothesis hop : all (opened op) (vt_queries vt).
Notation e_ l r := (ev omega P x l r).
Lemma hrot z r : rotate_omega d z r = z * omega ^ r. Proof. exact: rotate_omegaE (dok ok hd) _ _. Qed.
Lemma pn : p_n ps = n. Proof. exact: ps_n pok. Qed.

Definition evs i a : seq F := [seq e_ (nth 0%N (leaves_of (lc i) a) q.1) q.2 | q <- queries_of m a].
Lemma evsE i a : [seq (op (colkey i a q.1)).[x * omega ^ q.2] | q <- queries_of m a] = evs i a.
Proof.
apply/eq_in_map => q /(within_query hk)/andP [hq _]; rewrite /ev lc_nth // P_leaf.
by rewrite /op; case: a hq.
Qed.
Lemma xn1 : x ^+ n != 1.
Proof.
have := vc_van hco; rewrite /vanishing_verify /expected_h_eval pn; case: ifP => //.
by rewrite subr_eq0 => ->.
Qed.
Lemma lagr : q_l v = (e_ ll 0, e_ lb 0, e_ l0 0).
Proof.
have := vc_l hco; rewrite pn (lagrange_evals_at ok pok hd (k_bf1 hk) (L0 := L0) (Lblind := Lb) (Llast := Ll)) // ?xn1 //.
by rewrite /ev P_l0 P_lb P_ll expr0z mulr1 => -[<-].
Qed.
Lemma circuit_exprs i : (i < np)%N -> nth [::] (q_exprs v) i = [seq expr_at omega P x a | a <- exs i].
Proof.
move=> hi; have [sic sac [sie hie] [sae hae] _ _ [sst hst] [slk hlk]] := hsh.
have [e1 e2 e3 e4] := circuit_opened hsh hco hrot hop hi.
have ef := fixed_opened hsh hco hrot hop; have es := sigma_opened hsh hco hop.
have ef' : q_fe v = evs i Fixed by rewrite ef -evsE.
have e1' : nth [::] (q_ie v) i = evs i Instance by rewrite e1 -evsE.
have e2' : nth [::] (q_ae v) i = evs i Advice by rewrite e2 -evsE.
have es' : q_sig v = [seq e_ s 0 | s <- sigma].
  have [_ _ _ svp _] := perm_key ok pok hk; rewrite es svp /sigma -map_comp; apply/eq_in_map => j _ /=.
  by rewrite /op /ev P_leaf.
set z0 : seq F * seq F * seq (vset G) * seq (vlookup G) := ([::], [::], [::], [::]).
have := vc_exprs hco => /sequence_map_inv; rewrite /zip4 !size_zip sae sie sst slk !minnn => -[sq].
move=> /(_ z0 [::] i hi); rewrite !nth_zip ?size_zip ?sic ?sie ?sac ?sae ?sst ?slk ?minnn //.
rewrite lagr e1' e2' ef' es' hth hbe hga; cbn [fst snd].
have hg : gate_evals m (evs i Advice) (evs i Fixed) (evs i Instance) = Some [seq expr_at omega P x a | a <- gas i].
  exact: (exprs_val_at (@lc_lt i) (fun a => erefl (evs i a)) (gates_ok hk) (gates_within hk) (castsE i (gates_within hk))).
rewrite hg; cbn [obind omap oapp].
have hp : perm_expressions E vk (nth [::] (q_sets v) i) [seq e_ s 0 | s <- sigma] (evs i Advice) (evs i Fixed) (evs i Instance)
    (e_ l0 0) (e_ ll 0) (e_ lb 0) beta gamma x = Some [seq expr_at omega P x a | a <- pas i].
  apply: (perm_expressions_at (@lc_lt i) (fun a => erefl (evs i a)) _ _ (perm_cols hk) _ _ (pasE i)); [by []|by []| |by rewrite subn_gt0 (k_D hk)].
  have [s1 s2] := hst i hi.
  have gs t st : get (sets i) t = Some st -> (t < nset)%N /\ st = PSet [::] (leaf (2, (i, t))%N) 0.
    case: (ltnP t nset) => ht; last by rewrite /get drop_oversize // size_mkseq.
    by rewrite (getE (PSet [::] 0 0)) ?size_mkseq // nth_mkseq // => -[<-].
  have gv t w : (t < nset)%N -> get (nth [::] (q_sets v) i) t = Some w -> w = nth vs0 (nth [::] (q_sets v) i) t.
    by move=> ht; rewrite (getE vs0) ?s1 // => -[].
  split.
  - by rewrite s1 size_mkseq.
  - by move=> t st w /gs [ht ->] /(gv t w ht) ->; have [-> _ _] := e3 t ht; rewrite /op /ev P_leaf.
  - by move=> t st w /gs [ht ->] /(gv t w ht) ->; have [_ -> _] := e3 t ht; rewrite /op /ev P_leaf.
  - by move=> t st w /gs [ht ->] /(gv t w ht) ->; have [_ _ ->] := e3 t ht; rewrite size_mkseq /op /ev P_leaf.
rewrite hp; cbn [obind omap oapp].
have hl : sequence [seq lookup_expressions p.1 (e_ l0 0) (e_ ll 0) (e_ lb 0) p.2 theta beta gamma
     (evs i Advice) (evs i Fixed) (evs i Instance) | p <- zip (nth [::] (q_lks v) i) (lookups m)] =
  Some (mkseq (fun j => [seq expr_at omega P x a | a <- las i j]) nlk).
  have -> : zip (nth [::] (q_lks v) i) (lookups m) = mkseq (fun j => (nth vl0 (nth [::] (q_lks v) i) j, lk j)) nlk.
    by rewrite [lookups m in LHS](seq_mkseq lkd) [nth [::] (q_lks v) i in LHS](seq_mkseq vl0) hlk // zip_mkseq.
  rewrite map_mkseq; apply: sequence_mkseq => j hj.
  have [o1 o2 hw _] := lookup_okj hk hj.
  apply: (lookup_expressions_at (@lc_lt i) (fun a => erefl (evs i a)) _ _ _ _ _ o1 o2 hw (lasE i hj)).
  have [f1 f2 f3 f4 f5] := e4 j hj.
  by split; cbn [fst snd]; [rewrite f1|rewrite f2|rewrite f3|rewrite f4|rewrite f5]; rewrite /op /ev P_leaf.
rewrite hl; cbn [obind omap oapp] => -[<-].
by rewrite /exs !map_cat map_flatten map_mkseq.
Qed.
Lemma trace_exprs : vt_expressions vt = [seq e.[x] | e <- [seq expr_poly omega P a | a <- all_exs]] /\
  expected_h_eval (vt_expressions vt) (vt_y vt) (x ^+ n) = Some h.[x].
Proof.
have hh := h_opened hco hop; rewrite (vc_exprs' hco); split; last by rewrite -pn hh /op.
have sz : size (q_exprs v) = np.
  have [_ _ [sie _] [sae _] _ _ [sst _] [slk _]] := hsh.
  by have /sequence_map_inv [-> _] := vc_exprs hco; rewrite /zip4 !size_zip sae sie sst slk !minnn.
rewrite -map_comp /all_exs map_flatten map_mkseq; congr flatten.
apply: (@eq_from_nth _ [::]); rewrite ?size_mkseq // => i; rewrite sz => hi; rewrite nth_mkseq // circuit_exprs //.
Qed.
End Run.

(* ---------------------------------------------------------------- what vanishing means *)
Section Vanish.
Variable i : nat.
Hypothesis hi : (i < np)%N.
Variable T : any -> nat -> nat -> F.
Hypothesis hT : forall a c row, (c < nc a)%N -> (row < n)%N -> (cp (colkey i a c)).[omega ^+ row] = T a c row.
Hypothesis hvan : vanish_on_domain omega n P (exs i).
Lemma homega : n.-primitive_root omega. Proof. exact: ok_omega_prim (dok ok hd). Qed.
Lemma leaf_cols : leaf_columns n nc (lc i) (fun leaf row => (P leaf).[omega ^+ row]) T.
Proof. by move=> a c hc; rewrite lc_size; split=> // row hr; rewrite lc_nth // P_leaf hT. Qed.
Lemma sel_rows : row_selectors (p_k ps) omega u P l0 lb ll.
Proof. by split=> r hr; rewrite ?P_l0 ?P_lb ?P_ll ?cp_l0 ?cp_lb ?cp_ll. Qed.
Lemma van_gates gt : List.In gt (gates m) -> gate_holds n T gt.
Proof.
move=> hin r hr; have := hvan hr; rewrite /exs all_cat => /andP [hg _].
have hw := gates_within hk; have hs := castsE i hw.
have : all (fun e => row_value n T r e == 0) gate_exprs.
  move: hg; rewrite /gas; move: hs; move: (casts i gate_exprs); elim: gate_exprs hw => //= e es IH /andP [h1 h2] as_.
  case ea: leaf_ast => [a|] //=; case es': sequence => [r'|] //= [<-] /= /andP [h3 h4].
  by rewrite -(at_leaf_ast homega leaf_cols r h1 ea) h3 (IH h2 r').
by elim: (gates m) hin => //= g gs IH [->|/IH h]; rewrite all_cat => /andP [h1 h2] //; exact: h.
Qed.
Definition cellv (c : cell) : F := let col := nth (Advice, 0%N) cols c.1 in T col.1 col.2 c.2.
Lemma leaves_i : leaves_ok E pk (p_k ps) omega calls cellv P (lcol i Advice) (lcol i Fixed) (lcol i Instance) sigma l0 lb ll.
Proof.
have [r1 r2 r3] := sel_rows; split=> //.
- move=> j hj; have [_ hc] := perm_cols hk (mem_nth (Advice, 0%N) hj).
  exists (leaf (colkey i (nth (Advice, 0%N) cols j).1 (nth (Advice, 0%N) cols j).2)).
    move: hc; rewrite /any_of; case: (nth _ cols j) => a c /= hc.
    have := @getE _ 0%N (leaves_of (lc i) a) c; rewrite lc_size lc_nth // => /(_ hc).
    by case: a hc.
  by move=> r hr; rewrite P_leaf hT // (leq_trans hr) ?leq_subr.
- exact: size_sigma.
- move=> j r c hj hr e; rewrite nth_sigma // P_leaf cp_sigma //; have [_ _ _ _ h] := perm_key ok pok hk.
  have [_ h2 _ _] := h j hj; apply: h2 => //; exact: leq_trans hr (leq_subr _ _).
Qed.
Lemma van_pas : vanish_on_domain omega n P (pas i).
Proof. by move=> r hr; have := hvan hr; rewrite /exs !all_cat => /and3P []. Qed.
Lemma van_las j : (j < nlk)%N -> vanish_on_domain omega n P (las i j).
Proof.
move=> hj r hr; have := hvan hr; rewrite /exs !all_cat => /and3P [_ _].
by rewrite all_flattenE => /(all_nthP [::]) /(_ j); rewrite size_mkseq nth_mkseq //; apply.
Qed.
End Vanish.
End Chal.
End Sound.
