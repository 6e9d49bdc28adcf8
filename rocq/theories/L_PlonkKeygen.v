(* The keys made by keygen_vk and keygen_pk are as assumed in L_PlonkKey. *)
Set Warnings "-notation-overridden,-ambiguous-paths".
From mathcomp Require Import all_ssreflect all_algebra.
From Verif Require Import Util L_Chunks M_Poly L_Poly M_Domain L_Domain P_Domain M_Evaluator S_Evaluator P_Evaluator M_Assigned P_Assigned M_Env M_Transcript
  L_Transcript M_Commit S_Commit L_Commit P_Commit L_WP L_WPR M_Multiopen M_Circuit S_Circuit P_Circuit M_Selectors S_Selectors L_Selectors P_Selectors M_Copy L_Copy P_Copy
  M_Keys M_Permutation S_Permutation M_Lookup L_Sigma P_Sigma L_PermCommit P_Permutation S_Plonk L_Expr P_Lookup M_Vanishing P_Vanishing
  M_Plonk M_Value M_Assign M_Keygen M_Mock S_Floor S_Assign L_Assign P_Assign S_Mock L_MockRun P_Prove L_Wpe L_PlonkEval L_PlonkLeaves L_PlonkRun L_PlonkDeg L_PlonkKey.
Import GRing.Theory.
Set Implicit Arguments.
Unset Strict Implicit.
Local Open Scope ring_scope.

Section Keys.
Variables (F B : fieldType) (G : lmodType F) (E : env B G) (ps : params G).
Hypotheses (ok : env_ok E) (pok : params_ok E ps).
Variable digest : domain F -> seq G -> seq G -> cs F -> F.
Variables (ops : seq (cs_op F)) (m : cs F) (D : nat) (kg : synth F).
Hypothesis cf : configured (p_k ps) ops m D.
Hypothesis hcols : (0 < num_fixed m + num_advice m + num_instance m)%N.
Notation n := (2 ^ p_k ps)%N.

Lemma frame_pcols new m' : frame m m' new -> forall c, c \in permutation m' -> get_any_query_index m' c <> None.
Proof.
move=> [_ rfq _ [ra _ ri] [rp _ _]] -[t c]; rewrite rp; have [_ _ _ hp] := C21_query_no_panic (cf_run cf) => /hp.
rewrite /get_any_query_index; case: t => /=.
- by rewrite /get_advice_query_index ra.
- by rewrite /get_fixed_query_index !find_queryP rfq mem_cat; case: ifP => // ->.
- by rewrite /get_instance_query_index ri.
Qed.

(* the calls of the synthesis given to key generation, and the keys *)
Lemma keygen_key_ok vk pk : keygen_vk E ps digest m kg = Ok vk -> keygen_pk E ps vk m kg = Ok pk ->
  exists tr, [/\ pk_vk pk = vk, performed (fun _ _ => unknown) kg = Ok tr, key_ok E ps (vk_domain vk) pk (copies tr),
    exists new, frame m (vk_cs vk) new &
    forall c, List.In c (copies tr) -> [&& cc_lc c \in permutation m, cc_rc c \in permutation m,
      (cc_lr c < n - (blinding_factors (vk_cs vk) + 1))%N & (cc_rr c < n - (blinding_factors (vk_cs vk) + 1))%N]].
Proof.
have pn := ps_n pok.
rewrite /keygen_vk; case hd: (create_domain E ps m) => [d|] //=; case ha: assemble => [a||] //=.
have hnew : domain_new (e_rou E) (e_zeta E) (e_S E) D (p_k ps) = Some d by move: hd; rewrite /create_domain (cf_degree cf).
have hn : d_n d = n := L_Domain.ok_n (dok ok hnew).
move: (ha); rewrite /assemble pn hn; case: ltnP => // hrows.
have hb : (blinding_factors m + 1 <= n)%N by apply: leq_trans hrows; rewrite /minimum_rows -addnA leq_addr.
rewrite /usable_rows hb /=; set u := (n - _)%N => hrun.
have [tr [htr ks _]] := C36_keygen (leq_subr _ _) hrun.
case hf: (fixed_columns d m a) => [[fixed m']|] //=.
case hpv: perm_build_vk => [pc|] //=; case hfc: (sequence _) => [fc|] //=.
rewrite /vk_from_parts; case hdeg: (cs_degree m') => [dg|] //= [evk].
move: hf; rewrite /fixed_columns C10_batch_invert_assigned /=.
have [ssz srows] := ks_srect ks.
have hall : all (fun x => size x == n) (ka_selectors a) by apply/(all_nthP [::]) => i hi; rewrite srows // -ssz.
have hbuilt := C22_configured (cf_built cf) (cf_run cf).
have [m2 [polys [e1 [h1 fr] [hdeg2 h3] [h4 h5] _]]] := C22_compress hbuilt (cf_degree cf) (cf_char cf) ssz hall.
rewrite e1 /= hn h1 => -[efix em]; subst m2.
move: hdeg2; rewrite hdeg => -[edg]; subst dg.
have [rf rfq [ra ri rs] [rqa rnq rqi] [rp rc rd]] := fr.
have ebf : blinding_factors m' = blinding_factors m by rewrite /blinding_factors rnq.
have [krect1 krect2] := ks_rect ks.
have hfix2 : fixed_columns d m a = Some (fixed, m') by rewrite /fixed_columns C10_batch_invert_assigned /= e1 /= hn h1 efix.
rewrite /keygen_pk -evk /= ha /= hfix2 /=.
case hfp: (sequence _) => [fp|] //=; case hfcs: (sequence _) => [fcs|] //=.
case hpp: perm_build_pk => [[[sg pp] pcs]|] //=.
rewrite hn expn_gt0 /=; case hl0: (to_coset E d (l0_values F n)) => [l0|] //=.
case hlb: (to_coset E d _) => [lb|] //=; case hll: (obind _ _) => [ll|] //= [epk].
have [cst cres] := ks_perm ks.
have hcalls c : List.In c (copies tr) -> [&& cc_lc c \in permutation m, cc_rc c \in permutation m, (cc_lr c < u)%N & (cc_rr c < u)%N].
  move=> hc; have [hr _] := C23_copies (permutation m) n (copies tr); rewrite cres in hr.
  have e : expected (permutation m) n c = Ok tt.
    elim: (copies tr) hr hc => //= c' cs IH [e1' e2] [<-//|]; exact: IH.
  move: e; rewrite /expected; case: ifP => // /andP [-> ->]; case: ifP => // _ _ /=.
  have : List.In (ACopy F (cc_lc c) (cc_lr c) (cc_rc c) (cc_rr c)) tr.
    move: hc; rewrite /copies; elim: (tr) => //= o t IH; case: o => [||? ?|? ? ?|? ? ?|a' b c1 d'|? ? ?] /=; try by move=> /IH; right.
    by case=> [<-|/IH]; [left|right].
  by move=> /(ks_rows ks) /=; rewrite andbT; apply.
exists tr; rewrite -epk /=; split=> //; last 2 first.
- by exists (size polys).
- by rewrite ebf.
split=> /=; rewrite ?ebf //.
- by rewrite /minimum_rows ebf.
- by rewrite -efix size_cat size_map krect1 rf.
- rewrite -efix all_cat h1 andbT all_map; apply/(all_nthP [::]) => i hi /=.
  by rewrite size_map krect2 // -krect1.
- by rewrite rp -cst -hpp rp.
- by rewrite rp -cst -hpv rp.
- by apply/List.Forall_forall => c /hcalls /and4P [_ _ -> ->].
- by rewrite -ebf.
- by rewrite -pn -ebf.
- exact/h3/(C21_expressions_stay_valid (cf_exprs cf) (cf_run cf)).
- exact: compress_within fr (cf_within cf).
- by apply: (F2_all _ h4) => g g' [_ _ h]; apply: (F2_all _ h) => e e' [].
- by apply: (F2_all _ h5) => l l' [h6 h7]; apply/andP; split; [apply: (F2_all _ h6)|apply: (F2_all _ h7)] => e e' [].
- exact: frame_pcols fr.
- by rewrite rf ra ri; apply: leq_trans hcols _; rewrite -!addnA leq_add2l leq_addl.
Qed.
End Keys.
