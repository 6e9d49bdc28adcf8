(* Every MSM the verifier builds, from any bytes whatever, is well formed. *)
Set Warnings "-notation-overridden,-ambiguous-paths".
From mathcomp Require Import all_ssreflect all_algebra.
From Verif Require Import Util M_FFT M_Multiexp M_Poly M_Domain M_Assigned.
From Verif Require Import M_Env M_Transcript L_Transcript L_WP M_Commit S_Commit L_Commit P_Commit M_IPA L_IPA.
From Verif Require Import M_Multiopen L_Multiopen L_MoProof M_Selectors M_Circuit M_Keys M_Permutation M_Lookup
  M_Vanishing M_Plonk.
Import GRing.Theory.
Set Implicit Arguments.
Unset Strict Implicit.
Local Open Scope ring_scope.

Lemma all_sequence (T : Type) (P : pred T) (l : seq (option T)) s : sequence l = Some s ->
  all (fun o => if o is Some x then P x else true) l -> all P s.
Proof.
elim: l s => [|[x|] l IH] //= s; first by case=> <-.
by case: (sequence l) IH => //= s' IH [<-] /andP[h1 h2] /=; rewrite h1 (IH s').
Qed.
Lemma all_mapi (T U : Type) (P : pred U) (f : nat -> T -> U) s : (forall i x, P (f i x)) -> all P (mapi f s).
Proof. by move=> h; rewrite /mapi; elim: s 0%N => //= x s IH b; rewrite h IH. Qed.
Lemma all_mapE (T U : Type) (P : pred U) (f : T -> U) s : (forall x, P (f x)) -> all P (map f s).
Proof. by move=> h; elim: s => //= x s IH; rewrite h IH. Qed.
Lemma all_flatten (T : Type) (P : pred T) s : all (all P) s -> all P (flatten s).
Proof. by elim: s => //= x s IH /andP[h1 h2]; rewrite all_cat h1 IH. Qed.

Section Valid.
Variables (F B : fieldType) (G : lmodType F) (E : env B G) (ps : params G).
Hypothesis ok : env_ok E.
Hypothesis pok : params_ok E ps.
Let pn0 : (0 < p_n ps)%N. Proof. by rewrite (ps_n pok) expn_gt0. Qed.
Let psz : size (p_g ps) = p_n ps. Proof. by rewrite (ps_g pok) (ps_n pok). Qed.

Definition mvb (m : msm F B) : bool := ovalid E (m_other m) && (if m_g m is Some g then size g == p_n ps else true).
Lemma mvbP m : reflect (mvalid E ps m) (mvb m).
Proof.
by apply: (iffP andP) => -[h1 h2]; split=> //; move: h2; case: (m_g m) => // g /eqP.
Qed.
Definition crb (c : cref B G) : bool := match c with CCommitment _ => true | CMsm m => mvb m end.

Lemma append_valid m s P m' : mvb m -> append_term E m s P = Some m' -> mvb m'.
Proof.
by move=> /mvbP h; have [m1 -> [v _]] := append_termE ok s P h => -[<-]; apply/mvbP.
Qed.
Lemma add_valid m o m' : mvb m -> mvb o -> add_msm ps m o = Some m' -> mvb m'.
Proof.
by move=> /mvbP h /mvbP h'; have [m1 -> [v _]] := add_msmE ok psz h h' => -[<-]; apply/mvbP.
Qed.
Lemma scale_valid m z : mvb m -> mvb (msm_scale m z).
Proof. by move=> /mvbP h; apply/mvbP; have [] := msm_scaleE z h. Qed.
Lemma new_valid : mvb msm_new. Proof. by []. Qed.

Lemma ipa_valid m x v st gd st' : mvb m -> ipa_verify_proof E ps m x v st = Ok (gd, st') ->
  mvb (gd_msm gd) /\ size (gd_u gd) = p_k ps.
Proof.
move=> /mvbP vm h; rewrite /ipa_verify_proof in h.
ubind h m1 => h1; have [m1' + [v1 _]] := add_constant_termE pn0 psz (- v) vm.
rewrite h1 => -[?]; subst m1'; sbind h sc s1 => _; sbind h xi s2 => _.
ubind h m2 => h2; have [m2' + [v2 _]] := append_termE ok xi sc v1.
rewrite h2 => -[?]; subst m2'; sbind h z s3 => _; sbind h rounds s4 => hr.
ubind h m3 => h3; have [m3' + [v3 _]] := rounds_foldE ok rounds v2.
rewrite h3 => -[?]; subst m3'; sbind h c s5 => _; sbind h f s6 => _.
case: h => <- _ /=; split.
  by apply/mvbP; apply: (proj1 (add_to_w_scalarE _ _)); apply: (proj1 (add_to_u_scalarE _ _)).
rewrite size_map; move: {h1 h2 h3} (p_k ps) 0%N hr => n i.
elim: n i s3 s4 rounds => [|n IH] i t t' l; first by case=> <-.
by move=> h; sbind h a t1 => _; sbind h b t2 => /IH <-; case: h => <-.
Qed.

Section Multi.
Variable K : eqType.
Implicit Types qs : seq (vquery B G K).
Lemma vec_upd_all (T : Type) (P : pred T) (v : seq T) i f v' : vec_upd v i f = Some v' ->
  (forall x, P x -> P (f x)) -> all P v -> all P v'.
Proof.
elim: v i v' => [|x v IH] [|i] v' //= => [[<-] h /andP[h1 h2]|]; first by rewrite /= h ?h1.
by case e: (vec_upd v i f) => [w|] //= [<-] h /andP[h1 h2]; rewrite /= h1 (IH _ _ e).
Qed.
Lemma v_acc_valid x1 st (e : K * (cref B G * cdata F)) st' : v_accumulate E ps x1 st e = Some st' ->
  all (fun q : msm F B * F => mvb q.1) st.1 -> crb e.2.1 -> all (fun q : msm F B * F => mvb q.1) st'.1.
Proof.
case: st => qc qe; case: e => k [c cd] /=; case: ifP => // hi; case en: (nth _ _ _) => [q pw].
set o := match c with CCommitment _ => _ | CMsm _ => _ end; case eo: o => [m|] //=.
case eu: (vec_upd qc _ _) => [qc'|] //=; case: (vec_upd qe _ _) => [qe'|] //= [<-] /= ha hc.
have hq : mvb q.
  have -> : q = (nth (msm_new, 0) qc (cd_set_index cd)).1 by rewrite en.
  exact: (all_nthP (msm_new, 0) ha).
have hm : mvb m.
  move: eo hc; rewrite /o; case: (c) => [p|m0] /=; first by move=> h _; exact: append_valid h.
  by move=> h h'; apply: add_valid h => //; apply: scale_valid.
exact: (vec_upd_all eu).
Qed.

Lemma mo_valid qs m st gd st' : all (fun q : vquery B G K => crb (q_data q)) qs -> mvb m ->
  mo_verify_proof E ps qs m st = Ok (gd, st') -> mvb (gd_msm gd) /\ size (gd_u gd) = p_k ps.
Proof.
move=> hq hm h; rewrite /mo_verify_proof in h.
sbind h x1 s1 => _; sbind h x2 s2 => _.
sbind h sets s3 => hs; case: sets hs h => cm pts hs h.
have hcm : all (fun e : K * (cref B G * cdata F) => crb e.2.1) cm.
  move: hs; rewrite /mlift (@cisE _ _ _ _ (CCommitment B 0) 0 0) /=; case: ifP => //= _ [<- _ _].
  rewrite /cis_cdata; apply: all_mapE => k /=; rewrite /qdata.
  elim: qs hq {h} => //= q qs IH /andP[h1 h2]; case: ifP => _ //=; exact: IH.
ubind h q => hf; case: q hf h => qc qe hf h.
have hqc : all (fun q : msm F B * F => mvb q.1) qc.
  move: hf; set st0 := (_, _); have : all (fun q : msm F B * F => mvb q.1) st0.1.
    by rewrite /st0 /=; elim: (size pts) => //= n ->.
  have : all (fun e : K * (cref B G * cdata F) => crb e.2.1) (rev cm) by rewrite all_rev.
  elim: (rev cm) st0 => [|e l IH] st0 /=; first by move=> _ h0 [e0]; move: h0; rewrite e0.
  case/andP=> he hl h0; case ea: (v_accumulate E ps x1 st0 e) => [st1|]; last first.
    by move=> hbad; exfalso; move: hbad; clear; elim: l => //= a l IH.
  by apply: IH => //; apply: (v_acc_valid ea).
sbind h qp s4 => _; sbind h x3 s5 => _; sbind h u s6 => _; ubind h ev => _; sbind h x4 s7 => _.
ubind h m1 => /(append_valid hm) h1; ubind h mv => hmv.
suff : mvb mv.1 by move=> h2; apply: (ipa_valid h2 h).
move: hmv; set st0 := (m1, ev); have : mvb st0.1 by [].
move: st0; clear h hf; elim: qc u hqc => [|[q pw] qc IH] [|y u] /=; try by move=> _ st0 h0 [<-].
case/andP=> hq1 hq2 st0 h0; case ea: (add_msm _ _ _) => [m2|] /=; last first.
  by move=> hbad; exfalso; move: hbad; clear; elim: (zip qc u) => //= a l IH.
by apply: IH => //; apply: (add_valid _ _ ea) => //; apply: scale_valid.
Qed.
End Multi.

Definition qok (q : vquery B G qkey_eqType) : bool := crb (q_data q).
Lemma column_queries_valid d x kind proof cs es qs l :
  column_queries B d x kind proof cs es qs = Some l -> all qok l.
Proof.
move=> h; apply: (all_sequence h); apply: all_mapi => i q.
by case: (get cs q.1) => //= c; case: (get es i).
Qed.
Lemma perm_queries_valid d bf proof x sets l : perm_queries B d bf proof x sets = Some l -> all qok l.
Proof.
rewrite /perm_queries; case e: (sequence _) => [lasts|] //= [<-].
rewrite all_cat (all_sequence e) ?andbT; first by apply: all_flatten; apply: all_mapE.
by apply: all_mapE => s; case: (v_last_eval _).
Qed.
Lemma h_msm_valid hs xn m : h_commitment_msm E hs xn = Some m -> mvb m.
Proof.
rewrite /h_commitment_msm; have : mvb (@msm_new F B) by [].
elim: (rev hs) msm_new => [|c l IH] m0 h0 /=; first by case=> <-.
case e: (append_term _ _ _ _) => [m1|] /=; last first.
  by move=> hbad; exfalso; move: hbad; clear; elim: l.
by apply: IH; apply: append_valid e; apply: scale_valid.
Qed.
Lemma trace_valid vk insts st t st' : verify_proof_trace E ps vk insts st = Ok (t, st') -> all qok (vt_queries t).
Proof.
rewrite /verify_proof_trace; case: ifP => // _ h.
sbind h ic s1 => _; sbind h u1 s2 => _; sbind h u2 s3 => _; sbind h ac s4 => _; sbind h theta s5 => _.
sbind h lp s6 => _; sbind h beta s7 => _; sbind h gamma s8 => _; sbind h pc s9 => _; sbind h lc s10 => _.
sbind h rc s11 => _; sbind h y s12 => _; sbind h hc s13 => _; sbind h x s14 => _; sbind h ie s15 => _.
sbind h ae s16 => _; sbind h fe s17 => _; sbind h re s18 => _; sbind h pcm s19 => _; sbind h pe s20 => _.
sbind h lev s21 => _; ubind h ls => _; case: ls h => [[ll lb] l0] h.
ubind h exs => _; ubind h van => hv; ubind h qs => hq; ubind h fq => hf.
case: h => <- _ /=; rewrite !all_cat (column_queries_valid hf) /=.
have hvan : mvb (vv_h_commitment van).
  move: hv; rewrite /vanishing_verify; case: (expected_h_eval _ _ _) => //= a.
  by case e: (h_commitment_msm _ _ _) => [hm|] //= [<-] /=; apply: (h_msm_valid e).
rewrite /qok /= hvan /= andbT; apply/andP; split; last by apply: all_mapi.
apply: all_flatten; apply: (all_sequence hq); apply: all_mapi => i [[[[[a1 a2] a3] a4] a5] a6].
case e1: (column_queries _ _ _ _ _ _ _ _) => [q1|] //=; case e2: (column_queries _ _ _ _ _ _ _ _) => [q2|] //=.
case e3: (perm_queries _ _ _ _ _ _) => [q3|] //=.
rewrite !all_cat (column_queries_valid e1) (column_queries_valid e2) (perm_queries_valid e3) /=.
by apply: all_flatten; apply: all_mapi.
Qed.
End Valid.
