(* The lookup stages of create_proof for a list of circuits: the permuted columns and the
   running products, each with what the verifier reads back. *)
Set Warnings "-notation-overridden,-ambiguous-paths".
From mathcomp Require Import all_ssreflect all_algebra.
From Verif Require Import Util L_Chunks M_Poly L_Poly M_Domain L_Domain P_Domain M_Evaluator S_Evaluator P_Evaluator M_Assigned M_Env M_Transcript
  L_Transcript M_Commit S_Commit L_Commit P_Commit L_WP L_WPR M_Multiopen M_Circuit S_Circuit P_Circuit M_Selectors S_Selectors L_Selectors M_Copy L_Copy
  M_Keys M_Permutation S_Permutation M_Lookup L_Sigma P_Sigma L_PermCommit P_Permutation S_Plonk L_Expr P_Lookup M_Vanishing P_Vanishing
  M_Plonk M_Assign M_Keygen S_Mock P_Prove L_Wpe L_PlonkEval L_PlonkLeaves L_PlonkRun L_PlonkQuot L_PlonkDeg L_PlonkKey L_PlonkStages.
Import GRing.Theory.
Set Implicit Arguments.
Unset Strict Implicit.
Local Open Scope ring_scope.

Section Lk.
Variables (F B : fieldType) (G : lmodType F) (E : env B G) (ps : params G).
Hypotheses (ok : env_ok E) (pok : params_ok E ps).
Variables (d : domain F) (pk : pkey G) (calls : seq copy_call).
Notation n := (2 ^ p_k ps)%N.
Notation vk := (pk_vk pk).
Notation m := (vk_cs vk).
Notation D := (vk_cs_degree vk).
Notation bf := (blinding_factors m).
Notation u := (n - (bf + 1))%N.
Notation omega := (d_omega d).
Notation nc := (ncols m).
Notation lkd := (Lookup [::] [::] : lookup F).
Notation lk j := (nth lkd (lookups m) j).
Notation nlk := (size (lookups m)).
Hypothesis hk : key_ok E ps d pk calls.
Notation hd := (ko_new hk).
Variables (np : nat) (T : nat -> any -> nat -> nat -> F) (vp : seq (seq F)).
Variables (ivl icl avl acl : seq (seq nat)) (fvl fcl : seq nat).
Hypotheses (siv : size ivl = np) (sic : size icl = np) (sav : size avl = np) (sac : size acl = np).
Definition lvi i := LLeaves (nth [::] avl i) fvl (nth [::] ivl i).
Definition lci i := LLeaves (nth [::] acl i) fcl (nth [::] icl i).
Hypothesis hvn : all (fun p => size p == n) vp.
Hypothesis hvp : forall i, (i < np)%N -> (vp != [::]) /\
    (forall a, all (fun leaf => leaf < size vp)%N (leaves_of (lvi i) a)) /\
    leaf_columns n nc (lvi i) (fun leaf row => nth 0 (nth [::] vp leaf) row) (T i).
Hypothesis hlc : forall i, (i < np)%N -> forall a, size (leaves_of (lci i) a) = nc a.
Variable A : error -> Prop.
Hypothesis hA : A EIo.
Hypothesis hfail : forall i j, (i < np)%N -> (j < nlk)%N -> ~ lookup_holds n u (T i) (lk j) -> A EConstraintSystemFailure.

(* what the running product of one lookup gives *)
Definition product_ok theta beta gamma i j (c : lcommitted F) : Prop :=
  forall (P : nat -> {poly F}) l0 l_blind l_last,
  ~ lk_degenerate ps pk (T i) (lk j) theta beta gamma ->
  row_selectors (p_k ps) omega u P l0 l_blind l_last ->
  leaf_columns n nc (lci i) (fun leaf row => (P leaf).[omega ^+ row]) (T i) ->
  P (lp_pinput_leaf (lc_permuted c)) = Poly (lp_pinput_poly (lc_permuted c)) ->
  P (lp_ptable_leaf (lc_permuted c)) = Poly (lp_ptable_poly (lc_permuted c)) ->
  P (lc_leaf c) = Poly (lc_poly c) ->
  vanish_on_domain omega n P (lookup_construct beta gamma l0 l_blind l_last c).
(* what the permuted columns of one lookup give *)
Definition permuted_ok theta i j (c : lpermuted F) (h : G * G) (polys : seq (seq F)) : Prop :=
  [/\ registered E ps d polys (lp_pinput_poly c) (lp_pinput_leaf c) /\
      registered E ps d polys (lp_ptable_poly c) (lp_ptable_leaf c),
      compressed_asts (lk j) (lci i) theta c,
      commit E ps (lp_pinput_poly c) (lp_pinput_blind c) = Some h.1 /\
      commit E ps (lp_ptable_poly c) (lp_ptable_blind c) = Some h.2 &
      forall beta gamma polys1 s1, wp (commit_product E ps pk beta gamma c polys1) s1 (fun r s2 =>
        [/\ lc_permuted r.1 = c, extends E ps d polys1 r.2, registered E ps d r.2 (lc_poly r.1) (lc_leaf r.1),
            exists2 z, replays s1 s2 (read_point E) z & commit E ps (lc_poly r.1) (lc_blind r.1) = Some z &
            product_ok theta beta gamma i j r.1])].
Lemma permuted_one theta i j cp s : (i < np)%N -> (j < nlk)%N ->
  wpe A (commit_permuted E ps pk vp (lvi i) (lci i) theta (lk j) cp) s (fun r s' => extends E ps d cp r.2 /\
    exists2 h, replays s s' (read_permuted_commitments E) h & permuted_ok theta i j r.1 h r.2).
Proof.
move=> hi hj; have [v0 [hl hv]] := hvp hi; have [_ _ hw _] := lookup_okj hk hj.
have hlc' a c : (c < nc a)%N -> (c < size (leaves_of (lci i) a))%N by rewrite hlc.
have hbf : (bf + 1 < n)%N := k_bf hk.
pose ct := all (fun i0 => has (fun j0 => compress theta [seq row_value n (T i) i0 e | e <- lk_input (lk j)] ==
   compress theta [seq row_value n (T i) j0 e | e <- lk_table (lk j)]) (iota 0 u)) (iota 0 u).
case hct : ct; last first.
  have hnc : exists2 i0, (i0 < u)%N & forall j0, (j0 < u)%N -> compress theta [seq row_value n (T i) i0 e | e <- lk_input (lk j)] <>
     compress theta [seq row_value n (T i) j0 e | e <- lk_table (lk j)].
    move/negbT: hct; rewrite -has_predC => /hasP [i0]; rewrite mem_iota add0n => hi0 /= /hasPn h; exists i0 => // j0 hj0.
    by apply/eqP; apply: h; rewrite mem_iota.
  rewrite /wpe (C28_lookup_rejected ok pok hd (ko_dom hk) hbf hw v0 hvn hl hv hlc' cp s hnc).
  apply: (hfail hi hj) => hh; case: hnc => i0 hi0 hn.
  by have [j0 hj0 e] := lookup_holds_contained theta hh hi0; exact: (hn j0 hj0 e).
have hc : contained ps pk (T i) (lk j) theta.
  move=> i0 hi0; have /allP /(_ i0) := hct; rewrite mem_iota => /(_ hi0) /hasP [j0]; rewrite mem_iota => hj0 /eqP e.
  by exists j0.
apply: wpe_wp => //.
apply: wp_weaken (C28_lookup_compressed ok pok hd (ko_dom hk) hbf hw v0 hvn hl hv hlc' cp s hc).
move=> r s' [h1 h2 h3 [c1 [c2 [h4 h5 h6]]] h7]; split=> //; exists (c1, c2) => //; split=> //.
move=> beta gamma polys1 s1; apply: wp_weaken (h7 beta gamma polys1 s1) => r2 s2 [e1 e2 e3 e4 e5]; split=> //.
by rewrite /product_ok e1.
Qed.

(* all lookups of all circuits *)
Notation lp0 := (LPermuted [::] (AConstantTerm 0) [::] [::] 0 0 [::] (AConstantTerm 0) [::] [::] 0 0 : lpermuted F).
Notation lc0 := (LCommitted lp0 [::] 0 0 : lcommitted F).
Lemma permuted_ok_ext theta i j c h p q : extends E ps d p q -> permuted_ok theta i j c h p -> permuted_ok theta i j c h q.
Proof. by move=> e [[h1 h2] h3 h4 h5]; split=> //; split; exact: registered_ext e _. Qed.
Lemma permuted_circuit theta i cp s : (i < np)%N ->
  wpe A (mmap_acc (fun l cp => commit_permuted E ps pk vp (lvi i) (lci i) theta l cp) (lookups m) cp) s (fun r s' =>
    extends E ps d cp r.2 /\ exists2 hs, replays s s' (mmap (fun _ => read_permuted_commitments E) (lookups m)) hs &
    [/\ size r.1 = nlk, size hs = nlk & forall j, (j < nlk)%N -> permuted_ok theta i j (nth lp0 r.1 j) (nth (0, 0) hs j) r.2]).
Proof.
move=> hi.
have := @wpe_mmap_acc A _ _ _ _ _ lkd lp0 lkd (0, 0) (fun l cp => commit_permuted E ps pk vp (lvi i) (lci i) theta l cp)
  (fun _ => read_permuted_commitments E) (lookups m) (lookups m) (extends E ps d) (permuted_ok theta i) cp s
  (@extends_refl _ _ _ E ps d) (@extends_trans _ _ _ E ps d) (@permuted_ok_ext theta i) erefl.
move=> h; apply: wpe_weaken (h _) => [r s' [h1 h2 [hs h3 [h4 h5]]]|j p0 s0 hj _]; first by split=> //; exists hs.
exact: permuted_one.
Qed.
Lemma permuted_run theta cp s :
  wpe A (mmap_acc (fun z cp =>
      let: (instance_values, instance_cosets, advice_values, advice_cosets) := z in
      mmap_acc (fun l cp => commit_permuted E ps pk vp
          (LLeaves advice_values fvl instance_values)
          (LLeaves advice_cosets fcl instance_cosets) theta l cp) (lookups m) cp)
    (zip4 ivl icl avl acl) cp) s (fun r s' => [/\ size r.1 = np, extends E ps d cp r.2 &
    exists2 hs, replays s s' (mmap (fun _ => mmap (fun _ => read_permuted_commitments E) (lookups m)) (iota 0 np)) hs &
    size hs = np /\ forall i, (i < np)%N -> [/\ size (nth [::] r.1 i) = nlk, size (nth [::] hs i) = nlk &
      forall j, (j < nlk)%N -> permuted_ok theta i j (nth lp0 (nth [::] r.1 i) j) (nth (0, 0) (nth [::] hs i) j) r.2]]).
Proof.
have sz : size (zip4 ivl icl avl acl) = np by rewrite /zip4 !size2_zip ?siv ?sic ?sav ?sac.
have := @wpe_mmap_acc A _ _ _ _ _ ([::], [::], [::], [::]) [::] 0%N [::] (fun z cp =>
      let: (instance_values, instance_cosets, advice_values, advice_cosets) := z in
      mmap_acc (fun l cp => commit_permuted E ps pk vp
          (LLeaves advice_values fvl instance_values)
          (LLeaves advice_cosets fcl instance_cosets) theta l cp) (lookups m) cp)
  (fun _ => mmap (fun _ => read_permuted_commitments E) (lookups m)) (zip4 ivl icl avl acl) (iota 0 np) (extends E ps d)
  (fun i c h p => [/\ size c = nlk, size h = nlk & forall j, (j < nlk)%N -> permuted_ok theta i j (nth lp0 c j) (nth (0, 0) h j) p]) cp s
  (@extends_refl _ _ _ E ps d) (@extends_trans _ _ _ E ps d).
rewrite sz size_iota => h; apply: h => //.
  by move=> i c h p q e [h1 h2 h3]; split=> // j hj; exact: permuted_ok_ext e (h3 j hj).
move=> i p0 s0 hi _; rewrite /zip4 !nth_zip ?size2_zip ?siv ?sic ?sav ?sac //; exact: permuted_circuit.
Qed.

Definition committed_ok theta beta gamma i j (p : lpermuted F) (h : G * G) (c : lcommitted F) (z : G * G * G) (polys : seq (seq F)) : Prop :=
  [/\ lc_permuted c = p, z.1 = h, registered E ps d polys (lc_poly c) (lc_leaf c),
      commit E ps (lc_poly c) (lc_blind c) = Some z.2 & product_ok theta beta gamma i j c].
Lemma committed_ok_ext theta beta gamma i j p h c z q q' : extends E ps d q q' ->
  committed_ok theta beta gamma i j p h c z q -> committed_ok theta beta gamma i j p h c z q'.
Proof. by move=> e [h1 h2 h3 h4 h5]; split=> //; exact: registered_ext e _. Qed.
Section Product.
Variables (theta beta gamma : F) (lps : seq (seq (lpermuted F))) (hs : seq (seq (G * G))) (lp2 : seq (seq F)).
Hypotheses (slp : size lps = np) (shs : size hs = np).
Hypothesis hlp : forall i, (i < np)%N -> [/\ size (nth [::] lps i) = nlk, size (nth [::] hs i) = nlk &
      forall j, (j < nlk)%N -> permuted_ok theta i j (nth lp0 (nth [::] lps i) j) (nth (0, 0) (nth [::] hs i) j) lp2].
Notation lpi i j := (nth lp0 (nth [::] lps i) j).
Notation hsi i j := (nth (0, 0) (nth [::] hs i) j).
Lemma product_one i j cp s : (i < np)%N -> (j < nlk)%N ->
  wpe A (commit_product E ps pk beta gamma (lpi i j) cp) s (fun r s' => extends E ps d cp r.2 /\
    exists2 z, replays s s' (let! z := read_point E in mret (hsi i j, z)) z &
      committed_ok theta beta gamma i j (lpi i j) (hsi i j) r.1 z r.2).
Proof.
move=> hi hj; have [_ _ /(_ j hj) [_ _ _ h]] := hlp hi; apply: wpe_wp => //.
apply: wp_weaken (h beta gamma cp s) => r s' [e1 e2 e3 [z e4 e5] e6]; split=> //.
exists (nth (0, 0) (nth [::] hs i) j, z) => //; apply: replays_bind e4 _; exact: replays_ret.
Qed.
Lemma product_circuit i cp s : (i < np)%N ->
  wpe A (mmap_acc (fun l cp => commit_product E ps pk beta gamma l cp) (nth [::] lps i) cp) s (fun r s' => extends E ps d cp r.2 /\
    exists2 zs, replays s s' (mmap (fun l => let! z := read_point E in mret (l, z)) (nth [::] hs i)) zs &
    [/\ size r.1 = nlk, size zs = nlk & forall j, (j < nlk)%N ->
        committed_ok theta beta gamma i j (lpi i j) (hsi i j) (nth lc0 r.1 j) (nth (0, 0, 0) zs j) r.2]).
Proof.
move=> hi; have [s1 s2 _] := hlp hi.
have := @wpe_mmap_acc A _ _ _ _ _ lp0 lc0 (0, 0) (0, 0, 0) (fun l cp => commit_product E ps pk beta gamma l cp)
  (fun l => let! z := read_point E in mret (l, z)) (nth [::] lps i) (nth [::] hs i) (extends E ps d)
  (fun j c z p => committed_ok theta beta gamma i j (lpi i j) (hsi i j) c z p) cp s
  (@extends_refl _ _ _ E ps d) (@extends_trans _ _ _ E ps d).
rewrite s1 s2 => h; apply: wpe_weaken (h _ erefl _) => [r s' [h1 h2 [zs h3 [h4 h5]]]||j p0 s0 hj _].
- by split=> //; exists zs.
- by move=> j c z p q e; exact: committed_ok_ext.
- exact: product_one.
Qed.
Lemma product_run cp s :
  wpe A (mmap_acc (fun ls cp => mmap_acc (fun l cp => commit_product E ps pk beta gamma l cp) ls cp) lps cp) s (fun r s' =>
    [/\ size r.1 = np, extends E ps d cp r.2 &
    exists2 zs, replays s s' (mmap (fun ls => mmap (fun l => let! z := read_point E in mret (l, z)) ls) hs) zs &
    size zs = np /\ forall i, (i < np)%N -> [/\ size (nth [::] r.1 i) = nlk, size (nth [::] zs i) = nlk &
      forall j, (j < nlk)%N -> committed_ok theta beta gamma i j (lpi i j) (hsi i j) (nth lc0 (nth [::] r.1 i) j) (nth (0, 0, 0) (nth [::] zs i) j) r.2]]).
Proof.
have := @wpe_mmap_acc A _ _ _ _ _ [::] [::] [::] [::] (fun ls cp => mmap_acc (fun l cp => commit_product E ps pk beta gamma l cp) ls cp)
  (fun ls => mmap (fun l => let! z := read_point E in mret (l, z)) ls) lps hs (extends E ps d)
  (fun i c z p => [/\ size c = nlk, size z = nlk & forall j, (j < nlk)%N ->
     committed_ok theta beta gamma i j (lpi i j) (hsi i j) (nth lc0 c j) (nth (0, 0, 0) z j) p]) cp s
  (@extends_refl _ _ _ E ps d) (@extends_trans _ _ _ E ps d).
rewrite slp shs => h; apply: h => //.
  by move=> i c z p q e [h1 h2 h3]; split=> // j hj; exact: committed_ok_ext e (h3 j hj).
by move=> i p0 s0 hi _; exact: product_circuit.
Qed.
End Product.
End Lk.
