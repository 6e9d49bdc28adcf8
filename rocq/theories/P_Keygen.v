(* C51: key generation.  Its outcome is that of the circuit's synthesis, the keys hold what the synthesis wrote,
   and they do not depend on the witness. *)
Set Warnings "-notation-overridden,-ambiguous-paths".
From mathcomp Require Import all_ssreflect all_algebra.
From Verif Require Import Util L_Chunks M_Poly L_Poly M_Domain L_Domain P_Domain M_Evaluator S_Evaluator P_Evaluator M_Assigned P_Assigned M_Env M_Transcript
  L_Transcript M_Commit S_Commit L_Commit P_Commit L_WP L_WPR M_Multiopen M_Circuit S_Circuit P_Circuit M_Selectors S_Selectors L_Selectors P_Selectors M_Copy L_Copy P_Copy
  M_Keys M_Permutation S_Permutation M_Lookup L_Sigma P_Sigma L_PermCommit P_Permutation S_Plonk L_Expr P_Lookup M_Vanishing P_Vanishing
  M_Plonk M_Value M_Assign M_Keygen M_Mock S_Floor S_Assign L_Assign P_Assign S_Mock L_MockRun P_Prove L_Wpe L_PlonkEval L_PlonkLeaves L_PlonkRun L_PlonkDeg L_PlonkKey L_PlonkKeygen.
Import GRing.Theory.
Set Implicit Arguments.
Unset Strict Implicit.
Local Open Scope ring_scope.

Section Outcome.
Variables (F B : fieldType) (G : lmodType F) (E : env B G) (ps : params G).
Hypotheses (ok : env_ok E) (pok : params_ok E ps).
Variable digest : domain F -> seq G -> seq G -> cs F -> F.
Variables (ops : seq (cs_op F)) (m : cs F) (D : nat) (d : domain F).
Hypothesis cf : configured (p_k ps) ops m D.
Hypothesis hd : create_domain E ps m = Some d.
Notation n := (2 ^ p_k ps)%N.

(* What the keys hold, for the calls tr made by the circuit given to key generation and u usable rows:
   the fixed columns contain the last values written, 0 elsewhere; after them come columns which are not zero in the
   rows where a selector was enabled; the verifying key has commitments to these columns. *)
Record keys_hold (u : nat) (tr : seq (aop F)) (vk : vkey G) (pk : pkey G) : Prop := KeysHold {
  kh_vk : pk_vk pk = vk;
  kh_domain : vk_domain vk = d;
  kh_sizes : [/\ size (pk_fixed_values pk) = num_fixed (vk_cs vk), size (vk_fixed_commitments vk) = num_fixed (vk_cs vk) &
    all (fun c => size c == n) (pk_fixed_values pk)];
  kh_fixed : forall c row, (c < num_fixed m)%N -> (row < n)%N ->
    if fixed_written u tr c row is Some v then exists2 x, v = known x & nth 0 (nth [::] (pk_fixed_values pk) c) row = a_evaluate x
    else nth 0 (nth [::] (pk_fixed_values pk) c) row = 0;
  kh_selectors : forall s, (s < num_selectors m)%N -> exists c, [/\ (num_fixed m <= c < num_fixed (vk_cs vk))%N,
    nth 0%N (selector_map (vk_cs vk)) s = c &
    forall row, (row < n)%N -> selected tr s row -> nth 0 (nth [::] (pk_fixed_values pk) c) row != 0];
  kh_commitments : forall c, (c < num_fixed (vk_cs vk))%N ->
    commit_lagrange E ps (nth [::] (pk_fixed_values pk) c) (blind_default F) = Some (nth 0 (vk_fixed_commitments vk) c) }.

Theorem C51_keygen_outcome kg :
  match assemble ps d m kg with
  | Ok _ => exists vk pk tr, [/\ keygen_vk E ps digest m kg = Ok vk, keygen_pk E ps vk m kg = Ok pk,
      performed (fun _ _ => unknown) kg = Ok tr & keys_hold (n - (blinding_factors m + 1)) tr vk pk]
  | Err e => keygen_vk E ps digest m kg = Err e
  | Panic => keygen_vk E ps digest m kg = Panic
  end.
Proof.
have pn := ps_n pok; rewrite /keygen_vk hd /=; case ha: assemble => [a||] //=.
have hnew : domain_new (e_rou E) (e_zeta E) (e_S E) D (p_k ps) = Some d by move: hd; rewrite /create_domain (cf_degree cf).
have hn : d_n d = n := L_Domain.ok_n (dok ok hnew).
move: (ha); rewrite /assemble pn hn; case: ltnP => // hrows.
have hb : (blinding_factors m + 1 <= n)%N by apply: leq_trans hrows; rewrite /minimum_rows -addnA leq_addr.
rewrite /usable_rows hb /=; set u := (n - _)%N => hrun.
have [tr [htr ks _]] := C36_keygen (leq_subr _ _) hrun.
have [ssz srows] := ks_srect ks; have [fsz frows] := ks_rect ks.
have hall : all (fun x => size x == n) (ka_selectors a) by apply/(all_nthP [::]) => i hi; rewrite srows // -ssz.
have hbuilt := C22_configured (cf_built cf) (cf_run cf).
have [m' [polys [e1 [h1 fr] [hdeg _] _ [hsm1 hsm]]]] := C22_compress hbuilt (cf_degree cf) (cf_char cf) ssz hall.
pose fixed := [seq [seq a_evaluate x | x <- col] | col <- ka_fixed a] ++ polys.
have hf : fixed_columns d m a = Some (fixed, m').
  by rewrite /fixed_columns C10_batch_invert_assigned /= e1 /= hn h1.
have hfn : all (fun v => size v == n) fixed.
  rewrite all_cat h1 andbT all_map; apply/(all_nthP [::]) => i hi /=.
  by rewrite size_map frows // -fsz.
have [fp [fcs [efp efcs _ hcomm]]] := cols_okI ok pok hnew hfn.
have [rf rfq [ra ri rs] [rqa rnq rqi] [rp rc rd]] := fr.
have ebf : blinding_factors m' = blinding_factors m by rewrite /blinding_factors rnq.
have [cst cres] := ks_perm ks.
have [sg [pp [pcs [comms [epp [epv _]]]]]] := C24_build_vk ok pok hnew (permutation m) (copies tr).
pose comm p := odflt 0 (commit_lagrange E ps p (blind_default F)).
have hc p : p \in fixed -> commit_lagrange E ps p (blind_default F) = Some (comm p).
  by move=> /(nthP [::]) [c hc <-]; rewrite /comm hcomm.
have efc := sequence_map hc.
have tcs v : size v = n -> exists c, to_coset E d v = Some c.
  by move=> sv; have [zp [sz ez _ _]] := lagrange_facts ok pok hnew sv; rewrite /to_coset ez /= (coset_ofE ok hnew sz); eexists.
have [|l0 el0] := tcs (l0_values F n); first by rewrite size_upd size_nseq ?expn_gt0.
have [|lb elb] := tcs (l_blind_values F n (blinding_factors m)).
  by rewrite size_cat !size_nseq (minn_idPl _) ?subnK // (leq_trans _ hb) ?leq_addr.
have [|ll ell] := tcs (upd (nseq n 0) (n - blinding_factors m - 1) 1); first by rewrite size_upd size_nseq ?ltn_subrL ?expn_gt0 // -subnDA ltn_subrL expn_gt0 addn1.
rewrite hf /= rp cst epv /= efc /= /vk_from_parts hdeg /=.
eexists; eexists; exists tr; split; [reflexivity| |exact: htr|].
  rewrite /keygen_pk /= ha /= hf /= efp /= efcs /= rp cst epp /= hn expn_gt0 /= el0 /= ebf elb /=.
  by rewrite /l_last_values pn hb /= ell.
have sfx : size fixed = num_fixed m' by rewrite size_cat size_map fsz rf.
split=> //=.
- by rewrite size_map sfx.
- move=> c row hcn hr; have := ks_fixed ks hcn hr.
  rewrite /fixed nth_cat size_map fsz hcn (nth_map [::]) ?fsz // (nth_map (ATrivial 0)) ?frows //.
  by case: (fixed_written _ _ _ _) => [v|] /= => [->|-> //]; eexists.
- move=> s hs; have [c [h2 h3 h4]] := hsm s hs; exists (num_fixed m + c)%N; split=> //.
    by rewrite leq_addr rf ltn_add2l.
  move=> row hr hsel; rewrite /fixed nth_cat size_map fsz ltnNge leq_addr /= addKn; apply: h4 => //.
  by rewrite (ks_sel ks).
- by move=> c hcn; rewrite (nth_map [::]) ?sfx // hc // mem_nth ?sfx.
Qed.
End Outcome.

(* Two circuits given to key generation that differ only in the values of their advice cells. *)
Section Witness.
Variables (F B : fieldType) (G : lmodType F) (E : env B G) (ps : params G).
Variable digest : domain F -> seq G -> seq G -> cs F -> F.
Fixpoint same_shape (p q : synth F) : Prop :=
  match p, q with
  | SDone, SDone | SPanic, SPanic => True
  | SErr e, SErr e' => e = e'
  | SOp o p', SOp o' q' => alike o o' /\ same_shape p' q'
  | SQuery c r p', SQuery c' r' q' => [/\ c = c', r = r' & same_shape (p' unknown) (q' unknown)]
  | _, _ => False
  end.
Lemma shape_run u p q (a : kassembly F) : same_shape p q -> keygen_run u p a = keygen_run u q a.
Proof.
elim: p q a => [|e||o k IH|c r k IH] [|e'||o' k'|c' r' k'] //= a.
- by move=> ->.
- move=> [ho hk]; rewrite /keygen_run /=.
  have -> : keygen_op u o a = keygen_op u o' a 
    by case: o ho => [||q r|c r v|c r v|c r c' r'|c r v] /=; try (by move=> <-); case: o'.
  by case: keygen_op => //= a'; exact: IH.
- move=> [<- <- hk]; rewrite /keygen_run /= /keygen_query; case: ifP => //= _; exact: IH.
Qed.
Theorem C51_keys_witness_independent m kg kg' : same_shape kg kg' ->
  keygen_vk E ps digest m kg = keygen_vk E ps digest m kg' /\
  forall vk, keygen_pk E ps vk m kg = keygen_pk E ps vk m kg'.
Proof.
move=> h; have ea d : assemble ps d m kg = assemble ps d m kg'.
  by rewrite /assemble; case: ifP => // _; case: usable_rows => //= u; exact: shape_run.
by split=> [|vk]; rewrite ?/keygen_vk ?/keygen_pk ?ea //; case: create_domain => //= d; rewrite ea.
Qed.
End Witness.
Print Assumptions C51_keygen_outcome.
Print Assumptions C51_keys_witness_independent.
