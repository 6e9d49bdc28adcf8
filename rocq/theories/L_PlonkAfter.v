(* The expressions, their values and the queries of all the circuits, once everything is committed. *)
Set Warnings "-notation-overridden,-ambiguous-paths".
From mathcomp Require Import all_ssreflect all_algebra.
From Verif Require Import Util L_Chunks M_Poly L_Poly M_Domain L_Domain P_Domain M_Evaluator S_Evaluator P_Evaluator M_Assigned M_Env M_Transcript
  L_Transcript M_Commit S_Commit L_Commit P_Commit L_WP L_WPR M_IPA M_Multiopen P_Multiopen M_Circuit S_Circuit P_Circuit M_Selectors S_Selectors L_Selectors M_Copy L_Copy
  M_Keys M_Permutation S_Permutation M_Lookup L_Sigma P_Sigma L_PermCommit P_Permutation S_Plonk L_Expr P_Lookup M_Vanishing P_Vanishing
  M_Plonk M_Assign M_Keygen S_Mock P_Prove L_Wpe L_PlonkEval L_PlonkLeaves L_PlonkRun L_PlonkDeg L_PlonkKey L_PlonkStages L_PlonkLk L_PlonkPerm
  L_PlonkCirc L_PlonkQ.
Import GRing.Theory.
Set Implicit Arguments.
Unset Strict Implicit.
Local Open Scope ring_scope.

Lemma seqE (T : Type) (x0 : T) (s : seq T) k : size s = k -> s = mkseq (nth x0 s) k.
Proof. by move=> <-; exact: seq_mkseq. Qed.

Section After.
Variables (F B : fieldType) (G : lmodType F) (E : env B G) (ps : params G).
Hypotheses (ok : env_ok E) (pok : params_ok E ps).
Variables (d : domain F) (pk : pkey G) (calls : seq copy_call).
Notation n := (2 ^ p_k ps)%N.
Notation vk := (pk_vk pk).
Notation m := (vk_cs vk).
Notation D := (vk_cs_degree vk).
Notation bf := (blinding_factors m).
Notation u := (n - (bf + 1))%N.
Notation omega := (d_omega d).
Notation nc := (ncols m).
Notation lkd := (Lookup [::] [::] : lookup F).
Notation lk j := (nth lkd (lookups m) j).
Notation nlk := (size (lookups m)).
Notation lp0 := (LPermuted [::] (AConstantTerm 0) [::] [::] 0 0 [::] (AConstantTerm 0) [::] [::] 0 0 : lpermuted F).
Notation lc0 := (LCommitted lp0 [::] 0 0 : lcommitted F).
Notation set0 := (PSet [::] 0 0 : pset F).
Notation is0 := (ISingle [::] [::] [::] : isingle F).
Notation as0 := (ASingle [::] [::] [::] [::] : asingle F).
Hypothesis hk : key_ok E ps d pk calls.
Notation hd := (ko_new hk).
Variables (advs instances : seq (seq (seq F))).
Hypothesis hin : inputs_ok ps pk advs instances.
Notation np := (size instances).
Notation ics := (map (ic_of E ps d pk) instances).
Variables (ia : seq (isingle F)) (aa : seq (asingle F)) (acs : seq (seq G)).
Hypotheses (sia : size ia = np) (saa : size aa = np) (sacs : size acs = np).
Hypothesis hia : forall i, (i < np)%N -> inst_ok E ps d pk instances i (nth is0 ia i).
Hypothesis haa : forall i, (i < np)%N -> adv_ok E ps d pk advs i (nth as0 aa i) (nth [::] acs i).
Notation T := (tab pk ia aa).
Notation cp := (pol pk ia aa).
Variables (polys pcs : seq (seq F)).
Hypothesis hcos : cosets E ps d polys pcs.
Notation Ps := [seq Poly p | p <- pcs].
Notation P := (nth (0 : {poly F}) Ps).
Variables (sigma : seq nat) (l0 lb ll : nat) (p0 pb pl : seq F).
Hypothesis hsel : sel_leaves E ps d pk polys sigma l0 lb ll p0 pb pl.
Hypothesis hp0 : forall i, (i < n)%N -> (Poly p0).[omega ^+ i] = (i == 0%N)%:R.
Hypothesis hpl : forall i, (i < n)%N -> (Poly pl).[omega ^+ i] = (i == u)%:R.
Hypothesis hpb : forall i, (i < n)%N -> (Poly pb).[omega ^+ i] = (u < i)%:R.
Variables (icl acl : seq (seq nat)) (fcl : seq nat).
Hypotheses (sic : size icl = np) (sac : size acl = np).
Notation lc := (lci icl acl fcl).
Hypothesis hcol : forall i, (i < np)%N -> col_leaves E ps d pk ia aa polys i (lc i).
Variables (theta beta gamma : F).
Variables (pp : seq (seq (pset F))) (cs : seq (seq G)).
Hypotheses (spp : size pp = np) (scs : size cs = np).
Hypothesis hpp : forall i, (i < np)%N -> sets_ok E ps d pk calls ia aa beta gamma i (nth [::] pp i) (nth [::] cs i) polys.
Variables (lcs : seq (seq (lcommitted F))) (zs : seq (seq (G * G * G))).
Hypotheses (slcs : size lcs = np) (szs : size zs = np).
Definition look_ok i j (c : lcommitted F) (z : G * G * G) : Prop :=
  permuted_ok E ps d pk T icl acl fcl theta i j (lc_permuted c) z.1 polys /\
  [/\ registered E ps d polys (lc_poly c) (lc_leaf c), commit E ps (lc_poly c) (lc_blind c) = Some z.2 &
      product_ok ps d pk T icl acl fcl theta beta gamma i j c].
Hypothesis hlk : forall i, (i < np)%N -> [/\ size (nth [::] lcs i) = nlk, size (nth [::] zs i) = nlk &
  forall j, (j < nlk)%N -> look_ok i j (nth lc0 (nth [::] lcs i) j) (nth (0, 0, 0) (nth [::] zs i) j)].

Definition lexprs i : seq (seq (ast F)) := [seq lookup_construct beta gamma l0 lb ll c | c <- nth [::] lcs i].
(* what is required of the circuits and challenges for the expressions to vanish *)
Definition good_circuit i : Prop :=
  [/\ forall g gt, get (gates m) g = Some gt -> gate_holds n (T i) gt,
      copies_hold ps pk calls (cell_val pk ia aa i),
      ~ degenerate E ps d pk calls (cell_val pk ia aa i) beta gamma &
      forall j, (j < nlk)%N -> ~ lk_degenerate ps pk (T i) (lk j) theta beta gamma].
Record exprs_ok (i : nat) (gas pas : seq (ast F)) : Prop := ExprsOk {
  eo_gates : gate_asts m (nth [::] acl i) fcl (nth [::] icl i) = Some gas;
  eo_leaf : sequence [seq leaf_ast (lc i) e | e <- flatten [seq g_polys g | g <- gates m]] = Some gas;
  eo_perm : perm_construct E pk (nth [::] pp i) (nth [::] acl i) fcl (nth [::] icl i) sigma l0 lb ll beta gamma = Some pas;
  eo_in : all (ast_in (size pcs) n) (gas ++ pas ++ flatten (lexprs i));
  eo_deg : all (deg_ok D) (gas ++ pas ++ flatten (lexprs i));
  eo_vanish : good_circuit i -> vanish_on_domain omega n P (gas ++ pas ++ flatten (lexprs i)) }.

Lemma hsz i : (i < np)%N -> forall a, size (leaves_of (lc i) a) = nc a.
Proof. by move=> hi a; have [] := hcol hi a. Qed.
Lemma hreg i : (i < np)%N -> forall a c, (c < nc a)%N -> registered E ps d polys (cp i a c) (nth 0%N (leaves_of (lc i) a) c).
Proof. by move=> hi a; have [] := hcol hi a. Qed.
Lemma hcpe i : (i < np)%N -> forall a c row, (c < nc a)%N -> (row < n)%N -> (Poly (cp i a c)).[omega ^+ row] = T i a c row.
Proof. by move=> hi a c row; exact: (pol_eval ok pok hk hia haa hi). Qed.
Lemma hlks i : (i < np)%N -> forall j, (j < nlk)%N -> let c := nth lc0 (nth [::] lcs i) j in
  [/\ registered E ps d polys (lp_pinput_poly (lc_permuted c)) (lp_pinput_leaf (lc_permuted c)),
      registered E ps d polys (lp_ptable_poly (lc_permuted c)) (lp_ptable_leaf (lc_permuted c)),
      registered E ps d polys (lc_poly c) (lc_leaf c),
      compressed_asts (lk j) (lc i) theta (lc_permuted c) &
      forall (P : nat -> {poly F}) l0 l_blind l_last,
      ~ lk_degenerate ps pk (T i) (lk j) theta beta gamma ->
      row_selectors (p_k ps) omega u P l0 l_blind l_last ->
      leaf_columns n nc (lc i) (fun leaf row => (P leaf).[omega ^+ row]) (T i) ->
      P (lp_pinput_leaf (lc_permuted c)) = Poly (lp_pinput_poly (lc_permuted c)) ->
      P (lp_ptable_leaf (lc_permuted c)) = Poly (lp_ptable_poly (lc_permuted c)) ->
      P (lc_leaf c) = Poly (lc_poly c) ->
      vanish_on_domain omega n P (lookup_construct beta gamma l0 l_blind l_last c)].
Proof.
move=> hi j hj; cbv zeta; have [_ _ h] := hlk hi; have [[[h1 h2] h3 _ _] [h4 _ h5]] := h j hj.
split.
- exact h1.
- exact h2.
- exact h4.
- exact h3.
- exact h5.
Qed.
Lemma exprs_one i : (i < np)%N -> exists gp, exprs_ok i gp.1 gp.2.
Proof.
move=> hi; have [gas [g1 g2 g3 g4 g5]] := gates_circuit ok hk hcos (hsz hi) (hreg hi) (hcpe hi).
have [s1 s2 s3 s4 s5] := hpp hi; have [z1 z2 _] := hlk hi.
have hv : forall j r, (j < size (permutation m))%N ->
  cell_val pk ia aa i (j, r) = T i (nth (Advice, 0%N) (permutation m) j).1 (nth (Advice, 0%N) (permutation m) j).2 r by [].
have [pas [q1 q2 q3 q4]] := perm_circuit ok pok hk hcos hsel hp0 hpl hpb (hsz hi) (hreg hi) (hcpe hi) hv s3 s5.
have [k1 k2 k3] := lookups_circuit ok hk hcos hsel hp0 hpl hpb (hsz hi) (hreg hi) (hcpe hi) z1 (hlks hi).
exists (gas, pas); split=> //=.
- by rewrite !all_cat g3 q2 k1.
- by rewrite !all_cat g4 q3 k2.
- move=> [c1 c2 c3 c4]; apply: vanish_cat; [exact: g5|apply: vanish_cat; [exact: q4|exact: k3]].
Qed.
Lemma exprs_exist : exists gas pas : nat -> seq (ast F), forall i, (i < np)%N -> exprs_ok i (gas i) (pas i).
Proof.
have [f hf] := fin_choice ([::], [::]) exprs_one.
by exists (fun i => (f i).1), (fun i => (f i).2).
Qed.

Section Given.
Variables gas pas : nat -> seq (ast F).
Hypothesis hex : forall i, (i < np)%N -> exprs_ok i (gas i) (pas i).
Notation ex i := (gas i ++ pas i ++ flatten (lexprs i)).
Lemma prover_perm : sequence [seq perm_construct E pk z.1.1 z.1.2 fcl z.2 sigma l0 lb ll beta gamma | z <- zip (zip pp acl) icl] =
  Some (mkseq pas np).
Proof.
rewrite {1}(seqE [::] spp) {1}(seqE [::] sac) {1}(seqE [::] sic) !zip_mkseq map_mkseq; apply: sequence_mkseq => i hi /=; exact: eo_perm (hex hi).
Qed.
Lemma prover_exprs : sequence
    [seq omap (fun gs => gs ++ z.1.2 ++ flatten z.2) (gate_asts m z.1.1.1 fcl z.1.1.2)
    | z <- zip4 acl icl (mkseq pas np) [seq [seq lookup_construct beta gamma l0 lb ll l | l <- ls] | ls <- lcs]] =
  Some (mkseq (fun i => ex i) np).
Proof.
rewrite /zip4 {1}(seqE [::] sac) {1}(seqE [::] sic) {1}(seqE [::] slcs) map_mkseq !zip_mkseq map_mkseq; apply: sequence_mkseq => i hi /=; by rewrite (eo_gates (hex hi)).
Qed.
Notation exs := (flatten (mkseq (fun i => ex i) np)).
Lemma all_exs (p : pred (ast F)) : (forall i, (i < np)%N -> all p (ex i)) -> all p exs.
Proof. by move=> h; rewrite all_flattenE; apply/(all_nthP [::]) => i; rewrite size_mkseq => hi; rewrite nth_mkseq ?h. Qed.
Lemma exs_in : all (ast_in (size pcs) n) exs.
Proof. by apply: all_exs => i hi; exact: eo_in (hex hi). Qed.
Lemma exs_deg : all (fun a => size (expr_poly omega P a) <= (D * n.-1).+1)%N exs.
Proof.
apply: all_exs => i hi; apply: sub_all (eo_deg (hex hi)) => a; apply: deg_okP; first exact: k_n hk.
exact: (P_size hcos).
Qed.
Lemma exs_vanish : (forall i, (i < np)%N -> good_circuit i) -> vanish_on_domain omega n P exs.
Proof. by move=> h i hi; apply: all_exs => t ht; exact: (eo_vanish (hex ht) (h t ht) hi). Qed.

Variable x : F.
Definition evi a i : seq F := evs d pk (cp i) x a.
Definition fev : seq F := [seq pev d x (nth [::] (pk_fixed_polys pk) q.1) q.2 | q <- fixed_queries m].
Definition pev_sets i : seq (vset G) := mkseq (vset_of d m x (nth [::] pp i) (nth [::] cs i)) (size (nth [::] pp i)).
Definition lev i : seq (vlookup G) := [seq vlookup_of d x z.1 z.2 | z <- zip (nth [::] lcs i) (nth [::] zs i)].
Lemma verifier_exprs : sequence
    [seq (let: (advice_evals, instance_evals, permutation, lks) := z in
      obind (fun gs => obind (fun pe => omap (fun le => gs ++ pe ++ flatten le)
        (sequence [seq lookup_expressions p.1 (ev omega P x l0 0) (ev omega P x ll 0) (ev omega P x lb 0) p.2 theta beta gamma advice_evals fev instance_evals
                  | p <- zip lks (lookups m)]))
        (perm_expressions E vk permutation [seq pev d x p 0 | p <- pk_perm_polys pk] advice_evals fev instance_evals
           (ev omega P x l0 0) (ev omega P x ll 0) (ev omega P x lb 0) beta gamma x))
      (gate_evals m advice_evals fev instance_evals))
    | z <- zip4 (mkseq (evi Advice) np) (mkseq (evi Instance) np) (mkseq pev_sets np) (mkseq lev np)] =
  Some (mkseq (fun i => [seq expr_at omega P x a | a <- ex i]) np).
Proof.
rewrite /zip4 !zip_mkseq map_mkseq; apply: sequence_mkseq => i hi.
have [s1 s2 s3 s4 s5] := hpp hi; have [z1 z2 _] := hlk hi.
have := gates_at ok hk hcos (hsz hi) (hreg hi) x (eo_leaf (hex hi)).
rewrite -[gate_evals _ _ _ _]/(gate_evals m (evi Advice i) fev (evi Instance i)) => ->.
have := perm_at ok pok hk hcos hsel (hsz hi) (hreg hi) s3 x (nth [::] cs i) (eo_perm (hex hi)).
rewrite -[perm_expressions _ _ _ _ _ _ _ _ _ _ _ _ _]/(perm_expressions E vk (pev_sets i) [seq pev d x p 0 | p <- pk_perm_polys pk] (evi Advice i) fev (evi Instance i)
           (ev omega P x l0 0) (ev omega P x ll 0) (ev omega P x lb 0) beta gamma x) => e; rewrite /= e {e} /=.
have := lookups_at ok hk hcos l0 lb ll (hsz hi) (hreg hi) z1 (hlks hi) x z2.
rewrite -[LHS]/(sequence [seq lookup_expressions p.1 (ev omega P x l0 0) (ev omega P x ll 0) (ev omega P x lb 0) p.2 theta beta gamma
     (evi Advice i) fev (evi Instance i) | p <- zip (lev i) (lookups m)]) => -> /=.
congr Some; rewrite !map_cat; congr (_ ++ (_ ++ _)); rewrite map_flatten /lexprs -map_comp //.
Qed.
Lemma verifier_flat : flatten (mkseq (fun i => [seq expr_at omega P x a | a <- ex i]) np) = [seq expr_at omega P x a | a <- exs].
Proof. by rewrite map_flatten map_mkseq. Qed.

(* the queries *)
Variables (hp : seq F) (hb : F) (hm : msm F B) (rp : seq F) (rb : F) (rc : G).
Definition dat (k : qkey) : seq F * F :=
  let: i := k.2.1 in let: c := k.2.2 in
  match k.1 with
  | 0%N => (nth [::] (is_polys (nth is0 ia i)) c, blind_default F)
  | 1%N => (nth [::] (as_polys (nth as0 aa i)) c, nth 0 (as_blinds (nth as0 aa i)) c)
  | 2%N => (s_poly (nth set0 (nth [::] pp i) c), s_blind (nth set0 (nth [::] pp i) c))
  | 3%N => (lc_poly (nth lc0 (nth [::] lcs i) c), lc_blind (nth lc0 (nth [::] lcs i) c))
  | 4%N => (lp_pinput_poly (lc_permuted (nth lc0 (nth [::] lcs i) c)), lp_pinput_blind (lc_permuted (nth lc0 (nth [::] lcs i) c)))
  | 5%N => (lp_ptable_poly (lc_permuted (nth lc0 (nth [::] lcs i) c)), lp_ptable_blind (lc_permuted (nth lc0 (nth [::] lcs i) c)))
  | 6%N => (nth [::] (pk_fixed_polys pk) c, blind_default F)
  | 7%N => (nth [::] (pk_perm_polys pk) c, blind_default F)
  | 8%N => (hp, hb)
  | _ => (rp, rb)
  end.
Definition cr (k : qkey) : cref B G :=
  let: i := k.2.1 in let: c := k.2.2 in
  match k.1 with
  | 0%N => CCommitment B (nth 0 (nth [::] ics i) c)
  | 1%N => CCommitment B (nth 0 (nth [::] acs i) c)
  | 2%N => CCommitment B (nth 0 (nth [::] cs i) c)
  | 3%N => CCommitment B (nth (0, 0, 0) (nth [::] zs i) c).2
  | 4%N => CCommitment B (nth (0, 0, 0) (nth [::] zs i) c).1.1
  | 5%N => CCommitment B (nth (0, 0, 0) (nth [::] zs i) c).1.2
  | 6%N => CCommitment B (nth 0 (vk_fixed_commitments vk) c)
  | 7%N => CCommitment B (nth 0 (vk_permutation vk) c)
  | 8%N => CMsm G hm
  | _ => CCommitment B rc
  end.
Hypotheses (shp : size hp = n) (chp : commits_to E ps (CMsm G hm) (hp, hb)).
Hypotheses (srp : size rp = n) (crp : commit E ps rp rb = Some rc).
(* the verifier's claim: right everywhere, but for the error [err] in the value of h *)
Variable err : F.
Definition claim (k : qkey) (pt : F) : F := (Poly (dat k).1).[pt] + (if k.1 == 8%N then err else 0).
Notation gd := (good E ps dat cr).
Notation pair := (paired E ps dat cr claim).
Lemma claim8 k pt : k.1 != 8%N -> claim k pt = (Poly (dat k).1).[pt].
Proof. by rewrite /claim => /negbTE ->; rewrite addr0. Qed.
Lemma commit_n p b : size p = n -> commit E ps p b = Some (commitment_of ps p b).
Proof. by move=> h; rewrite commitE ?(ps_g pok). Qed.
Lemma good_inst i c : (i < np)%N -> (c < num_instance m)%N -> gd (0, (i, c))%N.
Proof.
move=> hi hc; have [co _ _ h] := hia hi; split; rewrite /=; first exact: (co_npolys co).
by rewrite h // commit_n //; exact: (co_npolys co).
Qed.
Lemma good_adv i c : (i < np)%N -> (c < num_advice m)%N -> gd (1, (i, c))%N.
Proof.
move=> hi hc; have [co _ _ h _] := haa hi; split; rewrite /=; first exact: (co_npolys co).
by rewrite h // commit_n //; exact: (co_npolys co).
Qed.
Lemma good_fixed c : (c < num_fixed m)%N -> gd (6, (0, c))%N.
Proof.
move=> hc; have [co [_ h]] := fixed_cols ok pok hk; split; rewrite /=; first exact: (co_npolys co).
by rewrite h // commit_n //; exact: (co_npolys co).
Qed.
Lemma good_sigma c : (c < size (permutation m))%N -> gd (7, (0, c))%N.
Proof. by move=> hc; have [_ _ _ _ h] := perm_key ok pok hk; have [h1 _ _ h4] := h c hc; split; rewrite //= h4 commit_n. Qed.
Lemma good_set i t : (i < np)%N -> (t < size (nth [::] pp i))%N -> gd (2, (i, t))%N.
Proof.
move=> hi ht; have [s1 s2 s3 s4 _] := hpp hi; split; rewrite /=.
  by elim: s3 t ht => // st ss [h _ _] _ IH [|t] //= ht; exact: IH.
have := congr1 (fun l => nth None l t) s4.
by rewrite (nth_map set0) // (nth_map 0) // s2 -s1.
Qed.
Lemma good_look i j : (i < np)%N -> (j < nlk)%N -> [/\ gd (3, (i, j))%N, gd (4, (i, j))%N & gd (5, (i, j))%N].
Proof.
move=> hi hj; have [_ _ h] := hlk hi; have [[[[h1 _ _] [h2 _ _]] _ [h3 h4] _] [[h5 _ _] h6 _]] := h j hj.
split; (split; [assumption|assumption]).
Qed.
Lemma good_h : gd (8, (0, 0))%N. Proof. by split. Qed.
Lemma good_r : gd (9, (0, 0))%N. Proof. by split. Qed.

Lemma queries_one i : (i < np)%N -> exists pv,
  [/\ obind (fun iq => omap (fun aq => iq ++ aq ++ perm_open d bf i x (nth [::] pp i) ++
           flatten (mapi (fun j l => lookup_open d i j x l) (nth [::] lcs i)))
         (open_columns d x 1 i (as_polys (nth as0 aa i)) (get (as_blinds (nth as0 aa i))) (advice_queries m)))
         (open_columns d x 0 i (is_polys (nth is0 ia i)) (fun _ => Some (blind_default F)) (instance_queries m)) = Some pv.1,
      obind (fun iq => obind (fun aq => omap (fun pq => iq ++ aq ++ pq ++
           flatten (mapi (fun j l => lookup_queries B d i j x l) (lev i)))
         (perm_queries B d bf i x (pev_sets i)))
         (column_queries B d x 1 i (nth [::] acs i) (evi Advice i) (advice_queries m)))
         (column_queries B d x 0 i (nth [::] ics i) (evi Instance i) (instance_queries m)) = Some pv.2 &
      pair pv.1 pv.2].
Proof.
move=> hi; have [ci _ si _] := hia hi; have [ca sb sa _ _] := haa hi; have [z1 z2 _] := hlk hi.
have [|iq [viq [e1 e2 e3]]] := paired_columns (dat := dat) (cr := cr) ok hd claim8 x (kind := 0%N) (i := i) (polys := is_polys (nth is0 ia i)) (blinds := fun _ => Some (blind_default F))
  (bl := fun _ => blind_default F) (comms := nth [::] ics i) (qs := instance_queries m) isT.
  move=> q hq; have /andP [hc _] := within_query hk (a := Instance) hq; rewrite (co_polys ci) si.
  by split=> //; split=> //; exact: good_inst.
have [|aq [vaq [e4 e5 e6]]] := paired_columns (dat := dat) (cr := cr) ok hd claim8 x (kind := 1%N) (i := i) (polys := as_polys (nth as0 aa i)) (blinds := get (as_blinds (nth as0 aa i)))
  (bl := nth 0 (as_blinds (nth as0 aa i))) (comms := nth [::] acs i) (qs := advice_queries m) isT.
  move=> q hq; have /andP [hc _] := within_query hk (a := Advice) hq; rewrite (co_polys ca) sa.
  split=> //; last by split=> //; exact: good_adv.
  by rewrite (getE (0 : F)) // sb.
have [|vpq e7 e8] := paired_perm (dat := dat) (cr := cr) ok hd claim8 x m (i := i) (sets := nth [::] pp i) (comms := nth [::] cs i).
  by move=> t ht; split=> //; exact: good_set.
have e9 : pair (flatten (mapi (fun j l => lookup_open d i j x l) (nth [::] lcs i))) (flatten (mapi (fun j l => lookup_queries B d i j x l) (lev i))).
  refine (paired_lookups ok hd claim8 x _ _); first by rewrite z1 z2.
  move=> j; rewrite z1 => hj; cbv zeta; have [g3 g4 g5] := good_look hi hj.
  split; (split; [reflexivity|reflexivity|assumption]).
rewrite e1 /= e4 /=.
rewrite -[evi Advice i]/[seq pev d x (nth [::] (as_polys (nth as0 aa i)) q.1) q.2 | q <- advice_queries m] e5.
rewrite -[evi Instance i]/[seq pev d x (nth [::] (is_polys (nth is0 ia i)) q.1) q.2 | q <- instance_queries m] e2 /=.
rewrite -/(pev_sets i) in e7; rewrite e7 /=.
eexists (_, _); split; [reflexivity|reflexivity|].
by apply: paired_cat => //; apply: paired_cat => //; apply: paired_cat.
Qed.
Lemma queries_all : exists pqs vqs fq vfq,
  [/\ sequence (mapi (fun i z =>
       let: (instance, advice, sets, ls) := z in
       obind (fun iq => omap (fun aq => iq ++ aq ++ perm_open d bf i x sets ++
           flatten (mapi (fun j l => lookup_open d i j x l) ls))
         (open_columns d x 1 i (as_polys advice) (get (as_blinds advice)) (advice_queries m)))
         (open_columns d x 0 i (is_polys instance) (fun _ => Some (blind_default F)) (instance_queries m)))
      (zip4 ia aa pp lcs)) = Some pqs,
      open_columns d x 6 0 (pk_fixed_polys pk) (fun _ => Some (blind_default F)) (fixed_queries m) = Some fq,
      sequence (mapi (fun i z =>
       let: (((ic, ie), ac), ae, permutation, lks) := z in
       obind (fun iq => obind (fun aq => omap (fun pq => iq ++ aq ++ pq ++
           flatten (mapi (fun j l => lookup_queries B d i j x l) lks))
         (perm_queries B d bf i x permutation))
         (column_queries B d x 1 i ac ae (advice_queries m)))
         (column_queries B d x 0 i ic ie (instance_queries m)))
      (zip4 (zip (zip ics (mkseq (evi Instance) np)) acs) (mkseq (evi Advice) np) (mkseq pev_sets np) (mkseq lev np))) = Some vqs,
      column_queries B d x 6 0 (vk_fixed_commitments vk) fev (fixed_queries m) = Some vfq &
      pair (flatten pqs ++ fq ++ perm_pk_open pk x ++
              [:: Query (8, (0, 0))%N (hp, hb) x tt; Query (9, (0, 0))%N (rp, rb) x tt])
           (flatten vqs ++ vfq ++ perm_common_queries B vk [seq pev d x p 0 | p <- pk_perm_polys pk] x ++
              [:: Query (8, (0, 0))%N (CMsm G hm) x ((Poly hp).[x] + err); Query (9, (0, 0))%N (CCommitment B rc) x (Poly rp).[x]])].
Proof.
have [f hf] := fin_choice ([::], [::]) queries_one.
have [co [sf _]] := fixed_cols ok pok hk; have [_ sp _ sv _] := perm_key ok pok hk.
have [|fq [vfq [e1 e2 e3]]] := paired_columns (dat := dat) (cr := cr) ok hd claim8 x (kind := 6%N) (i := 0%N) (polys := pk_fixed_polys pk) (blinds := fun _ => Some (blind_default F))
  (bl := fun _ => blind_default F) (comms := vk_fixed_commitments vk) (qs := fixed_queries m) isT.
  move=> q hq; have /andP [hc _] := within_query hk (a := Fixed) hq; rewrite (co_polys co) sf.
  by split=> //; split=> //; exact: good_fixed.
exists (mkseq (fun i => (f i).1) np), (mkseq (fun i => (f i).2) np), fq, vfq; split=> //.
- rewrite /zip4 {1}(seqE is0 sia) {1}(seqE as0 saa) {1}(seqE [::] spp) {1}(seqE [::] slcs) !zip_mkseq mapi_mkseq; apply: sequence_mkseq => i hi; by have [h _ _] := hf i hi.
- rewrite /zip4 {1}(seqE [::] (size_map (ic_of E ps d pk) instances)) {1}(seqE [::] sacs) !zip_mkseq mapi_mkseq; apply: sequence_mkseq => i hi; by have [_ h _] := hf i hi.
apply: paired_cat; first by apply: paired_flatten => i hi; have [_ _ h] := hf i hi.
apply: paired_cat => //; apply: paired_cat.
  refine (@paired_sigma _ _ _ E ps d dat cr claim claim8 x pk _ _); first by rewrite sv sp.
  by move=> j; rewrite sp => hj; split=> //; exact: good_sigma.
refine (paired_cons (erefl _) (erefl _) _ good_h _); first by rewrite /claim.
refine (paired_cons (erefl _) (erefl _) _ good_r (paired_nil _ _ _ _ _)); by rewrite /claim addr0.
Qed.
End Given.
End After.
