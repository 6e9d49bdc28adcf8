(* The prover's and the verifier's queries correspond one to one. *)
Set Warnings "-notation-overridden,-ambiguous-paths".
From mathcomp Require Import all_ssreflect all_algebra.
From Verif Require Import Util L_Chunks M_Poly L_Poly M_Domain L_Domain P_Domain M_Evaluator S_Evaluator P_Evaluator M_Assigned M_Env M_Transcript
  L_Transcript M_Commit S_Commit L_Commit P_Commit L_WP L_WPR M_IPA M_Multiopen P_Multiopen M_Circuit S_Circuit P_Circuit M_Selectors S_Selectors L_Selectors M_Copy L_Copy
  M_Keys M_Permutation S_Permutation M_Lookup L_Sigma P_Sigma L_PermCommit P_Permutation S_Plonk L_Expr P_Lookup M_Vanishing P_Vanishing
  M_Plonk M_Assign M_Keygen S_Mock P_Prove L_Wpe L_PlonkEval L_PlonkLeaves L_PlonkRun.
Import GRing.Theory.
Set Implicit Arguments.
Unset Strict Implicit.
Local Open Scope ring_scope.

Section Paired.
Variables (F B : fieldType) (G : lmodType F) (E : env B G) (ps : params G).
Hypotheses (ok : env_ok E) (pok : params_ok E ps).
Variables (qd : nat) (d : domain F).
Hypothesis hd : domain_new (e_rou E) (e_zeta E) (e_S E) qd (p_k ps) = Some d.
Notation n := (2 ^ p_k ps)%N.
Notation omega := (d_omega d).
(* what a key refers to: the prover's polynomial and blind, the verifier's commitment, and the
   value the verifier expects at a point *)
Variables (dat : qkey -> seq F * F) (cr : qkey -> cref B G) (claim : qkey -> F -> F).
Definition good (k : qkey) : Prop := size (dat k).1 = n /\ commits_to E ps (cr k) (dat k).
Definition paired (pq : seq (pquery F qkey_eqType)) (vq : seq (vquery B G qkey_eqType)) : Prop :=
  exists kp : seq (qkey * F), [/\ pq = [seq Query (e.1 : qkey_eqType) (dat e.1) e.2 tt | e <- kp],
    vq = [seq Query (e.1 : qkey_eqType) (cr e.1) e.2 (claim e.1 e.2) | e <- kp] &
    forall k, k \in map fst kp -> good k].
Lemma paired_nil : paired [::] [::]. Proof. by exists [::]. Qed.
Lemma paired_cat p1 v1 p2 v2 : paired p1 v1 -> paired p2 v2 -> paired (p1 ++ p2) (v1 ++ v2).
Proof.
move=> [k1 [-> -> g1]] [k2 [-> -> g2]]; exists (k1 ++ k2); rewrite !map_cat; split=> // k.
by rewrite mem_cat => /orP [/g1|/g2].
Qed.
Lemma paired_cons k pb c pt e pq vq : dat k = pb -> cr k = c -> claim k pt = e -> good k -> paired pq vq ->
  paired (Query k pb pt tt :: pq) (Query k c pt e :: vq).
Proof.
move=> <- <- <- g [kp [-> -> h]]; exists ((k, pt) :: kp); split=> // k'.
by rewrite /= inE => /orP [/eqP ->|/h].
Qed.
Lemma paired_flatten f g N : (forall i, (i < N)%N -> paired (f i) (g i)) -> paired (flatten (mkseq f N)) (flatten (mkseq g N)).
Proof.
elim: N => [|N IH] h; first exact: paired_nil.
rewrite !mkseqS -!cats1 !flatten_cat; apply: paired_cat; first by apply: IH => i hi; apply: h; exact: ltnW.
by rewrite /= !cats0; apply: h.
Qed.
Lemma paired_map (U : eqType) (f : U -> pquery F qkey_eqType) (g : U -> vquery B G qkey_eqType) (l : seq U) :
  (forall t, t \in l -> paired [:: f t] [:: g t]) -> paired (map f l) (map g l).
Proof.
elim: l => [|t l IH] h; first exact: paired_nil.
rewrite /= -[f t :: _]/([:: f t] ++ _) -[g t :: _]/([:: g t] ++ _); apply: paired_cat; first by apply: h; rewrite inE eqxx.
by apply: IH => t' ht; apply: h; rewrite inE ht orbT.
Qed.

Hypothesis hclaim : forall k pt, k.1 != 8%N -> claim k pt = (Poly (dat k).1).[pt].
Variable x : F.
Lemma claim_at k poly b r : k.1 != 8%N -> dat k = (poly, b) -> claim k (rotate_omega d x r) = pev d x poly r.
Proof. by move=> h e; rewrite hclaim // e /= (rotE ok hd). Qed.
Lemma claim_x k poly b : k.1 != 8%N -> dat k = (poly, b) -> claim k x = pev d x poly 0.
Proof. by move=> h e; rewrite hclaim // e /= /pev expr0z mulr1. Qed.

Lemma paired_columns kind i polys (blinds : nat -> option F) (bl : nat -> F) (comms : seq G) (qs : seq (nat * int)) :
  kind != 8%N ->
  (forall q, q \in qs -> [/\ (q.1 < size polys)%N, (q.1 < size comms)%N, blinds q.1 = Some (bl q.1) &
     [/\ dat (kind, (i, q.1))%N = (nth [::] polys q.1, bl q.1), cr (kind, (i, q.1))%N = CCommitment B (nth 0 comms q.1) & good (kind, (i, q.1))%N]]) ->
  exists pq vq, [/\ open_columns d x kind i polys blinds qs = Some pq,
    column_queries B d x kind i comms [seq pev d x (nth [::] polys q.1) q.2 | q <- qs] qs = Some vq & paired pq vq].
Proof.
move=> hk8 h.
pose pq := [seq (Query (kind, (i, q.1))%N (nth [::] polys q.1, bl q.1) (rotate_omega d x q.2) tt : pquery F qkey_eqType) | q <- qs].
pose vq := [seq (Query (kind, (i, q.1))%N (CCommitment B (nth 0 comms q.1)) (rotate_omega d x q.2) (pev d x (nth [::] polys q.1) q.2) : vquery B G qkey_eqType) | q <- qs].
exists pq, vq; split.
- by apply: sequence_map => q /h [h1 h2 h3 _]; rewrite (getE [::]) //= h3.
- rewrite /column_queries (mapiE (0%N, 0)) /vq [qs in RHS](seq_mkseq (0%N, 0)) map_mkseq; apply: sequence_mkseq => t ht.
  have [h1 h2 _ _] := h _ (mem_nth (0%N, 0) ht).
  by rewrite (getE (0 : G)) /= ?(getE (0 : F)) ?size_map //= (nth_map (0%N, 0)).
- apply: paired_map => q /h [_ _ _ [e1 e2 e3]]; apply: (paired_cons e1 e2 _ e3 paired_nil); exact: (claim_at _ _ e1).
Qed.

Notation set0 := (PSet [::] 0 0 : pset F).
Lemma behead_rev_mkseq (U : Type) (f : nat -> U) N : behead (rev (mkseq f N)) = [seq f t | t <- rev (iota 0 N.-1)].
Proof. by case: N => [|N] //; rewrite mkseqS rev_rcons /= map_rev. Qed.
Lemma paired_perm (m : cs F) i (sets : seq (pset F)) (comms : seq G) :
  (forall t, (t < size sets)%N -> [/\ dat (2, (i, t))%N = (s_poly (nth set0 sets t), s_blind (nth set0 sets t)),
     cr (2, (i, t))%N = CCommitment B (nth 0 comms t) & good (2, (i, t))%N]) ->
  exists2 vq, perm_queries B d (blinding_factors m) i x (mkseq (vset_of d m x sets comms) (size sets)) = Some vq &
    paired (perm_open d (blinding_factors m) i x sets) vq.
Proof.
move=> h; rewrite /perm_queries /perm_open size_mkseq.
have -> : zip (iota 0 (size sets)) sets = mkseq (fun t => (t, nth set0 sets t)) (size sets).
  by rewrite [sets in zip _ sets](seq_mkseq set0) -[iota 0 _](map_id) zip_mkseq.
have -> : zip (iota 0 (size sets)) (mkseq (vset_of d m x sets comms) (size sets)) = mkseq (fun t => (t, vset_of d m x sets comms t)) (size sets).
  by rewrite -[iota 0 _](map_id) zip_mkseq.
rewrite !behead_rev_mkseq !map_mkseq -!map_comp.
set lasts := [seq (Query (2, (i, t))%N (CCommitment B (nth 0 comms t)) (rotate_omega d x (rot_last (blinding_factors m)))
   (pev d x (s_poly (nth set0 sets t)) (rot_last (blinding_factors m))) : vquery B G qkey_eqType) | t <- rev (iota 0 (size sets).-1)].
have hlast t : t \in rev (iota 0 (size sets).-1) -> (t.+1 < size sets)%N.
  by rewrite mem_rev mem_iota add0n => /andP [_]; case: (size sets).
have -> : sequence [seq ((fun iset : nat * vset G => omap (fun e => Query (2, (i, iset.1))%N (CCommitment B (v_commitment iset.2)) (rotate_omega d x (rot_last (blinding_factors m))) e : vquery B G qkey_eqType) (v_last_eval iset.2)) \o (fun t => (t, vset_of d m x sets comms t))) t | t <- rev (iota 0 (size sets).-1)] = Some lasts.
  by apply: sequence_map => t /hlast ht; rewrite /= ht.
eexists; first by reflexivity.
apply: paired_cat.
  apply: paired_flatten => t ht; have [e1 e2 g] := h t ht.
  apply: (paired_cons e1 e2 _ g _); first exact: (claim_x _ e1).
  apply: (paired_cons e1 e2 _ g paired_nil); exact: (claim_at _ _ e1).
apply: paired_map => t /hlast ht; have [e1 e2 g] := h t (ltnW ht); apply: (paired_cons e1 e2 _ g paired_nil); exact: (claim_at _ _ e1).
Qed.

Notation lp0 := (LPermuted [::] (AConstantTerm 0) [::] [::] 0 0 [::] (AConstantTerm 0) [::] [::] 0 0 : lpermuted F).
Notation lc0 := (LCommitted lp0 [::] 0 0 : lcommitted F).
Lemma paired_lookup i j (c : lcommitted F) (cs : G * G * G) :
  [/\ dat (3, (i, j))%N = (lc_poly c, lc_blind c), cr (3, (i, j))%N = CCommitment B cs.2 & good (3, (i, j))%N] ->
  [/\ dat (4, (i, j))%N = (lp_pinput_poly (lc_permuted c), lp_pinput_blind (lc_permuted c)), cr (4, (i, j))%N = CCommitment B cs.1.1 & good (4, (i, j))%N] ->
  [/\ dat (5, (i, j))%N = (lp_ptable_poly (lc_permuted c), lp_ptable_blind (lc_permuted c)), cr (5, (i, j))%N = CCommitment B cs.1.2 & good (5, (i, j))%N] ->
  paired (lookup_open d i j x c) (lookup_queries B d i j x (vlookup_of d x c cs)).
Proof.
move=> [a1 a2 a3] [b1 b2 b3] [c1 c2 c3]; rewrite /lookup_open /lookup_queries /vlookup_of; cbv zeta.
refine (paired_cons a1 a2 (claim_x _ a1) a3 _) => //.
refine (paired_cons b1 b2 (claim_x _ b1) b3 _) => //.
refine (paired_cons c1 c2 (claim_x _ c1) c3 _) => //.
refine (paired_cons b1 b2 (claim_at _ _ b1) b3 _) => //.
refine (paired_cons a1 a2 (claim_at _ _ a1) a3 paired_nil) => //.
Qed.
Lemma paired_lookups i (ls : seq (lcommitted F)) (cs : seq (G * G * G)) : size cs = size ls ->
  (forall j, (j < size ls)%N -> let c := nth lc0 ls j in let z := nth (0, 0, 0) cs j in
    [/\ [/\ dat (3, (i, j))%N = (lc_poly c, lc_blind c), cr (3, (i, j))%N = CCommitment B z.2 & good (3, (i, j))%N],
        [/\ dat (4, (i, j))%N = (lp_pinput_poly (lc_permuted c), lp_pinput_blind (lc_permuted c)), cr (4, (i, j))%N = CCommitment B z.1.1 & good (4, (i, j))%N] &
        [/\ dat (5, (i, j))%N = (lp_ptable_poly (lc_permuted c), lp_ptable_blind (lc_permuted c)), cr (5, (i, j))%N = CCommitment B z.1.2 & good (5, (i, j))%N]]) ->
  paired (flatten (mapi (fun j l => lookup_open d i j x l) ls))
    (flatten (mapi (fun j l => lookup_queries B d i j x l) [seq vlookup_of d x z.1 z.2 | z <- zip ls cs])).
Proof.
move=> sc h; rewrite [ls in mapi _ ls](seq_mkseq lc0) mapi_mkseq.
rewrite [ls in zip ls _](seq_mkseq lc0) [cs in zip _ cs](seq_mkseq (0, 0, 0)) sc zip_mkseq map_mkseq mapi_mkseq.
by apply: paired_flatten => j hj; have [a b c] := h j hj; exact: paired_lookup.
Qed.
Lemma paired_sigma (pk : pkey G) : size (vk_permutation (pk_vk pk)) = size (pk_perm_polys pk) ->
  (forall j, (j < size (pk_perm_polys pk))%N -> [/\ dat (7, (0, j))%N = (nth [::] (pk_perm_polys pk) j, blind_default F),
     cr (7, (0, j))%N = CCommitment B (nth 0 (vk_permutation (pk_vk pk)) j) & good (7, (0, j))%N]) ->
  paired (perm_pk_open pk x) (perm_common_queries B (pk_vk pk) [seq pev d x p 0 | p <- pk_perm_polys pk] x).
Proof.
move=> sz h; rewrite /perm_pk_open /perm_common_queries.
rewrite (mapiE [::]) (mapiE (0, 0)) size1_zip ?size_map sz //.
apply: paired_map => j; rewrite mem_iota add0n => /andP [_ hj]; have [e1 e2 g] := h j hj.
rewrite nth_zip ?size_map // (nth_map [::]) //.
apply: (paired_cons e1 e2 _ g paired_nil); exact: (claim_x _ e1).
Qed.
End Paired.
