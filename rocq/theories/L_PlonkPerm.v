(* The permutation stage of create_proof for a list of circuits, with what the verifier reads back. *)
Set Warnings "-notation-overridden,-ambiguous-paths".
From mathcomp Require Import all_ssreflect all_algebra.
From Verif Require Import Util L_Chunks M_Poly L_Poly M_Domain L_Domain P_Domain M_Evaluator S_Evaluator P_Evaluator M_Assigned M_Env M_Transcript
  L_Transcript M_Commit S_Commit L_Commit P_Commit L_WP L_WPR M_Multiopen M_Circuit S_Circuit P_Circuit M_Selectors S_Selectors L_Selectors M_Copy L_Copy
  M_Keys M_Permutation S_Permutation M_Lookup L_Sigma P_Sigma L_PermCommit P_Permutation S_Plonk L_Expr P_Lookup M_Vanishing P_Vanishing
  M_Plonk M_Assign M_Keygen S_Mock P_Prove L_Wpe L_PlonkEval L_PlonkLeaves L_PlonkRun L_PlonkQuot L_PlonkDeg L_PlonkKey L_PlonkStages.
Import GRing.Theory.
Set Implicit Arguments.
Unset Strict Implicit.
Local Open Scope ring_scope.

Section Perm.
Variables (F B : fieldType) (G : lmodType F) (E : env B G) (ps : params G).
Hypotheses (ok : env_ok E) (pok : params_ok E ps).
Variables (d : domain F) (pk : pkey G) (calls : seq copy_call).
Notation n := (2 ^ p_k ps)%N.
Notation vk := (pk_vk pk).
Notation m := (vk_cs vk).
Notation D := (vk_cs_degree vk).
Notation bf := (blinding_factors m).
Notation u := (n - (bf + 1))%N.
Notation omega := (d_omega d).
Notation nc := (ncols m).
Hypothesis hk : key_ok E ps d pk calls.
Notation hd := (ko_new hk).
Variables (advs instances : seq (seq (seq F))).
Notation np := (size instances).
Notation is0 := (ISingle [::] [::] [::] : isingle F).
Notation as0 := (ASingle [::] [::] [::] [::] : asingle F).
Variables (ia : seq (isingle F)) (aa : seq (asingle F)) (acs : seq (seq G)).
Hypothesis sia : size ia = np.
Hypothesis saa : size aa = np.
Hypothesis hia : forall i, (i < np)%N -> inst_ok E ps d pk instances i (nth is0 ia i).
Hypothesis haa : forall i, (i < np)%N -> adv_ok E ps d pk advs i (nth as0 aa i) (nth [::] acs i).
Variable A : error -> Prop.
Hypothesis hA : A EIo.

(* the value of a cell of the permutation *)
Definition cell_val (i : nat) (c : cell) : F :=
  let col := nth (Advice, 0%N) (permutation m) c.1 in tab pk ia aa i col.1 col.2 c.2.
Notation nchunks := (size (chunks (D - 2) (permutation m))).
Notation set0 := (PSet [::] 0 0 : pset F).
Definition sets_ok beta gamma i (sets : seq (pset F)) (comms : seq G) (polys : seq (seq F)) : Prop :=
  [/\ size sets = nchunks,
      size comms = nchunks,
      List.Forall (fun st => registered E ps d polys (s_poly st) (s_coset st)) sets,
      [seq commit E ps (s_poly st) (s_blind st) | st <- sets] = [seq Some c | c <- comms] &
      forall (P : nat -> {poly F}) ladvice lfixed linstance sigma l0 l_blind l_last,
      leaves_ok E pk (p_k ps) omega calls (cell_val i) P ladvice lfixed linstance sigma l0 l_blind l_last ->
      List.Forall (fun st => P (s_coset st) = Poly (s_poly st)) sets ->
      exists2 asts, perm_construct E pk sets ladvice lfixed linstance sigma l0 l_blind l_last beta gamma = Some asts &
        copies_hold ps pk calls (cell_val i) -> ~ degenerate E ps d pk calls (cell_val i) beta gamma ->
        vanish_on_domain omega n P asts].
Lemma sets_ok_ext beta gamma i sets comms p q : extends E ps d p q -> sets_ok beta gamma i sets comms p -> sets_ok beta gamma i sets comms q.
Proof.
move=> e [h1 h2 h3 h4 h5]; split=> //; elim: h3 => // x l h _ IH; constructor=> //; exact: registered_ext e h.
Qed.
Lemma perm_one beta gamma i cp s : (i < np)%N ->
  wpe A (perm_commit E ps pk (as_values (nth as0 aa i)) (pk_fixed_values pk) (is_values (nth is0 ia i)) beta gamma cp) s (fun r s' =>
    extends E ps d cp r.2 /\ exists2 comms, replays s s' (perm_read_commitments E vk) comms & sets_ok beta gamma i r.1 comms r.2).
Proof.
move=> hi; have [ca _ _ _ _] := haa hi; have [ci _ _ _] := hia hi; have [cf _] := fixed_cols ok pok hk.
have hv j : (j < size (permutation m))%N -> exists2 vec,
    any_of (as_values (nth as0 aa i)) (pk_fixed_values pk) (is_values (nth is0 ia i)) (nth (Advice, 0%N) (permutation m) j) = Some vec &
    size vec = n /\ forall r, (r < u)%N -> nth 0 vec r = cell_val i (j, r).
  move=> hj; have [_ hc] := perm_cols hk (mem_nth (Advice, 0%N) hj); move: hc.
  rewrite /any_of /cell_val /tab; case: (nth _ _ j) => -[] c /= hc.
  - exists (nth [::] (as_values (nth as0 aa i)) c); first by apply: getE; rewrite (co_vals ca).
    by split=> //; exact: co_nvals ca _ hc.
  - exists (nth [::] (pk_fixed_values pk) c); first by apply: getE; rewrite (co_vals cf).
    by split=> //; exact: co_nvals cf _ hc.
  - exists (nth [::] (is_values (nth is0 ia i)) c); first by apply: getE; rewrite (co_vals ci).
    by split=> //; exact: co_nvals ci _ hc.
apply: wpe_wp => //.
apply: wp_weaken (C25_permutation_complete ok pok hd (ko_dom hk) (k_D hk) (k_bf1 hk) (ko_calls hk) (ko_perm hk) hv beta gamma cp s).
move=> r s' [[h1 h2] h3 [comms h4 h5] h6]; split=> //; exists comms => //; split=> //.
- by rewrite -h1 -(size_map (fun st => commit E ps (s_poly st) (s_blind st))) h5 size_map.
- by elim: h3 => // x l [_ h] _ IH; constructor.
Qed.
Lemma perm_run beta gamma cp s :
  wpe A (mmap_acc (fun z cp => perm_commit E ps pk (as_values z.2) (pk_fixed_values pk) (is_values z.1) beta gamma cp) (zip ia aa) cp) s
    (fun r s' => [/\ size r.1 = np, extends E ps d cp r.2 &
    exists2 cs, replays s s' (mmap (fun _ => perm_read_commitments E vk) (iota 0 np)) cs &
    size cs = np /\ forall i, (i < np)%N -> sets_ok beta gamma i (nth [::] r.1 i) (nth [::] cs i) r.2]).
Proof.
have sz : size (zip ia aa) = np by rewrite size2_zip ?sia ?saa.
have := @wpe_mmap_acc A _ _ _ _ _ (is0, as0) [::] 0%N [::] (fun z cp => perm_commit E ps pk (as_values z.2) (pk_fixed_values pk) (is_values z.1) beta gamma cp)
  (fun _ => perm_read_commitments E vk) (zip ia aa) (iota 0 np) (extends E ps d) (fun i c h p => sets_ok beta gamma i c h p) cp s
  (@extends_refl _ _ _ E ps d) (@extends_trans _ _ _ E ps d).
rewrite sz size_iota => h; apply: h => //.
  by move=> i c h p q e; exact: sets_ok_ext.
by move=> i p0 s0 hi _; rewrite nth_zip ?sia ?saa //; exact: perm_one.
Qed.
End Perm.
