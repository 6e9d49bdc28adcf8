(* C14 (the opening argument is complete and deterministic), C15 (the two guards agree). *)
Set Warnings "-notation-overridden,-ambiguous-paths".
From mathcomp Require Import all_ssreflect all_algebra.
From Verif Require Import Util M_FFT M_Multiexp M_Poly L_Poly M_Domain L_Domain.
From Verif Require Import M_Env M_Transcript L_Transcript L_WP M_Commit S_Commit L_Commit P_Commit M_IPA L_IPA Ex_Env.
Import GRing.Theory.
Set Implicit Arguments.
Unset Strict Implicit.
Local Open Scope ring_scope.

Section C14.
Variables (F B : fieldType) (G : lmodType F) (E : env B G) (ps : params G).
Hypothesis ok : env_ok E.
Hypothesis pok : params_ok E ps.
Let pn0 : (0 < p_n ps)%N. Proof. by rewrite (ps_n pok) expn_gt0. Qed.
Let psz : size (p_g ps) = p_n ps. Proof. by rewrite (ps_g pok) (ps_n pok). Qed.

(* The verifier's decision on a proof: read it with verify_proof, resolve the guard with
   use_challenges and evaluate the MSM (what SingleVerifier does). *)
Definition ipa_decide (m : msm F B) (x v : F) (st : rst) : res (bool * rst) :=
  rbind (ipa_verify_proof E ps m x v st) (fun q =>
  rbind (unwrap (use_challenges ps q.1)) (fun m' =>
  rbind (unwrap (msm_eval E ps m')) (fun b => Ok (b, q.2)))).

(* Completeness.  For every polynomial p with n coefficients, blind r, point x, every MSM m
   (built by any operations) standing for the commitment to p with blind r, every transcript
   state and every random tape: if create_proof succeeds, it has only appended bytes to the
   output, and the verifier, started in the transcript state in which the prover started, reads exactly those
   bytes (whatever follows them), ends in the prover's hash state, and its decision on the
   claim p(x) = v is "v is the true evaluation", provided the first generator is not the
   identity (for the true value v the proviso is not needed). *)
Theorem C14_ipa_complete : forall (p : seq F) (r x : F) (ops : seq (mop G)) (m : msm F B) (s s' : wst),
  (0 < p_k ps)%N ->
  all (op_ok (p_n ps)) ops -> ops_run E ps msm_new ops = Some m ->
  Some (ops_value ps ops) = commit E ps p r ->
  ipa_create_proof E ps p r x s = Ok (tt, s') ->
  exists2 bytes, w_out s' = w_out s ++ bytes &
  forall v rest,
    ipa_decide m x v (Rst (w_abs s) (bytes ++ rest)) =
    Ok ((v == (Poly p).[x]) || ((p_g ps)`_0 == 0), Rst (w_abs s') rest).
Proof.
move=> p r x ops m s s' k0 hops hrun hval hp.
have sp : size p = p_n ps by move: hp; rewrite /ipa_create_proof; case: eqP.
have [v0 e0] := msm_newE E ps; have [m' em' [vm mv]] := ops_runE ok pok v0 hops.
move: em'; rewrite hrun => -[em]; subst m'.
move: hval; rewrite commitE ?sp ?psz // => -[hval].
rewrite e0 -/(ops_value ps ops) hval in mv.
have [gd0 [[bytes hb _] _ _ _]] := ipa_complete ok pok 0 k0 vm mv hp.
exists bytes => // v rest.
have [gd [[bytes' hb' hr] vg su ev]] := ipa_complete ok pok v k0 vm mv hp.
have eb : bytes' = bytes by move/eqP: hb'; rewrite hb eqseq_cat // eqxx /= => /eqP ->.
subst bytes'; rewrite /ipa_decide hr [rbind _ _]/=.
have [m1 -> [v1 e1]] := use_challengesE pok vg su k0.
rewrite [rbind _ _]/= (msm_evalE ok psz v1) [rbind _ _]/= e1 ev scaler_eq0 subr_eq0.
by rewrite eval_polynomial_horner [v == _]eq_sym.
Qed.

(* create_proof cannot panic: on a polynomial of n coefficients, if the hash never returns
   the challenge 0, it succeeds or reports the I/O error of hashing an identity point. *)
Theorem C14_ipa_create_no_panic : forall (p : seq F) (r x : F) (s : wst),
  (forall st, e_uniform E (e_blake E st) != 0) -> size p = p_n ps ->
  (exists s', ipa_create_proof E ps p r x s = Ok (tt, s')) \/ ipa_create_proof E ps p r x s = Err EIo.
Proof.
move=> p r x s nz sp.
suff : wp (ipa_create_proof E ps p r x) s (fun _ _ => True).
  by rewrite /wp; case: ipa_create_proof => [[[] s']|[]|] // _; [left; exists s' | right].
rewrite /ipa_create_proof sp eqxx [~~ _]/=.
have rounds : forall z m (p b : seq F) (g : seq G) f s,
    size p = (2 ^ m)%N -> size b = (2 ^ m)%N -> size g = (2 ^ m)%N ->
    wp (ipa_rounds E ps z m p b g f) s (fun q _ => size q.1 = 1%N).
  move=> z; elim=> [|m IH] {p s sp} p b g f s sp sb sg; first by apply: wp_ret.
  have dbl : (2 ^ m.+1 = 2 ^ m + 2 ^ m)%N by rewrite addnn -mul2n -expnS.
  rewrite dbl in sp sb sg; have h0 : (0 < 2 ^ m)%N by rewrite expn_gt0.
  rewrite /=; apply: wp_bind; apply: wp_unwrap; first by apply: (multiexpE ok); rewrite (size_drop2 sp) (size_take2 sg).
  apply: wp_bind; apply: wp_unwrap; first by apply: (multiexpE ok); rewrite (size_take2 sp) (size_drop2 sg).
  apply: wp_bind; apply: wp_unwrap; first by apply: compute_inner_productE; rewrite (size_drop2 sp) (size_take2 sb).
  apply: wp_bind; apply: wp_unwrap; first by apply: compute_inner_productE; rewrite (size_take2 sp) (size_drop2 sb).
  apply: wp_bind; apply: wp_draw => lr s1; apply: wp_bind; apply: wp_draw => rr s2.
  apply: wp_bind; apply: wp_unwrap; first exact: (multiexpE ok).
  apply: wp_bind; apply: wp_unwrap; first exact: (multiexpE ok).
  apply: wp_bind; apply: wp_write_point => s3; apply: wp_bind; apply: wp_write_point => s4.
  apply: wp_bind; apply: (wp_squeeze ok nz) => u s5 u0; rewrite (negbTE u0).
  apply: wp_bind; apply: wp_unwrap; first exact: (generator_collapseE ok _ h0 sg).
  by apply: IH; rewrite size_map size_iota.
apply: wp_bind; rewrite /draws.
have draws : forall n i s, wp (mmap (fun=> draw (E := E)) (iota i n)) s (fun q _ => size q = n).
  elim=> [|n IH] i s1; first by apply: wp_ret.
  apply: wp_bind; apply: wp_draw => a s2; apply: wp_bind; apply: wp_weaken (IH _ _) => l s3 hl.
  by apply: wp_ret; rewrite /= hl.
apply: wp_weaken (draws _ _ _) => s0 s1 ss0.
case: s0 ss0 => [|c s0] ss0; first by move: pn0; rewrite -ss0.
apply: wp_bind; apply: wp_unwrap; first by [].
apply: wp_bind; apply: wp_draw => sb s2.
apply: wp_bind; apply: wp_unwrap; first by apply: (commitE ok); rewrite psz -ss0.
apply: wp_bind; apply: wp_write_point => s3.
apply: wp_bind; apply: (wp_squeeze ok nz) => xi s4 _; apply: wp_bind; apply: (wp_squeeze ok nz) => z s5 _.
apply: wp_bind; apply: wp_unwrap.
  rewrite poly_scaleE ?(ok_threads ok) // [obind _ _]/= poly_addE ?(ok_threads ok) ?size_map //.
  by rewrite sp -ss0 /= size_map.
set pp := map _ _.
have spp : size pp = p_n ps by rewrite /pp size_map size_iota -ss0 /= size_map.
case: pp spp => [|c' pp] spp; first by move: pn0; rewrite -spp.
apply: wp_bind; apply: wp_unwrap; first by [].
move: (spp) => /= ->; rewrite eqxx /=.
apply: wp_bind.
apply: (@wp_weaken _ _ _ _ (fun q _ => size q.1 = 1%N)); last first.
  by apply: rounds; rewrite ?size_traject ?(ps_g pok) -?(ps_n pok) -?spp.
by move=> [[|c0 [|c1 l]] f] s6.
Qed.
End C14.
Print Assumptions C14_ipa_complete.
Print Assumptions C14_ipa_create_no_panic.

Section C15.
Variables (F B : fieldType) (G : lmodType F) (E : env B G) (ps : params G).
Hypothesis ok : env_ok E.
Hypothesis pok : params_ok E ps.
Let pn0 : (0 < p_n ps)%N. Proof. by rewrite (ps_n pok) expn_gt0. Qed.
Let psz : size (p_g ps) = p_n ps. Proof. by rewrite (ps_g pok) (ps_n pok). Qed.

(* bit j of i *)
Definition bit (i j : nat) : bool := odd (i %/ 2 ^ j).

(* compute_s: entry i of compute_s(u, init) is init times the product of the challenges
   u_j selected by the bits of i, the first challenge belonging to the highest bit. *)
Theorem C15_compute_s : forall (u : seq F) (init : F), (0 < size u)%N ->
  compute_s u init = Some [seq init * \prod_(j < size u) (if bit i (size u - 1 - j) then u`_j else 1)
                          | i <- iota 0 (2 ^ size u)].
Proof.
move=> u init u0; rewrite compute_sE // {u0}; congr Some.
rewrite (_ : svec u = [seq \prod_(j < size u) (if bit i (size u - 1 - j) then u`_j else 1) | i <- iota 0 (2 ^ size u)]) -?map_comp //.
elim: u => [|a u IH] /=; first by rewrite big_ord0.
set n := size u; have idx0 : (n.+1 - 1 - (ord0 : 'I_n.+1) = n)%N by rewrite subn1 subn0.
have idxS (j : 'I_n) : (n.+1 - 1 - lift ord0 j = n - 1 - j)%N.
  by rewrite subn1 -subnDA /= /bump /= add1n.
rewrite IH -/n expnS mul2n -addnn iotaD map_cat add0n; congr cat.
  apply/eq_in_map => i; rewrite mem_iota add0n => /andP [_ hi].
  rewrite [RHS]big_ord_recl idx0 {2}/bit divn_small // mul1r.
  by apply: eq_bigr => j _; rewrite idxS.
rewrite -[X in _ = map _ (iota X _)](addn0 (2 ^ n)%N) iotaDl -!map_comp; apply/eq_in_map => i.
rewrite mem_iota add0n => /andP [_ hi]; rewrite [RHS]big_ord_recl idx0 {2}/bit.
rewrite divnDl // divnn expn_gt0 /= divn_small //= mulrC; congr (_ * _).
apply: eq_bigr => j _; rewrite idxS /bit /=.
set e := (n - 1 - j)%N.
have he : (e < n)%N by rewrite /e; move: (ltn_ord j); move: (nat_of_ord j) => j' hj; rewrite -subnDA ltn_subrL add1n /= (leq_ltn_trans _ hj).
have -> : (2 ^ n = 2 * 2 ^ (n - e.+1) * 2 ^ e)%N by rewrite -mulnA -expnD -expnS -addnS (subnK he).
rewrite divnMDl ?expn_gt0 //.
by rewrite oddD oddM.
Qed.

(* compute_s panics on an empty challenge list (parameters with k = 0) *)
Theorem C15_compute_s_empty_panics : forall init : F, compute_s [::] init = None.
Proof. by []. Qed.

(* compute_b(x, u) = <compute_s(u, 1), (1, x, x^2, ...)> *)
Theorem C15_compute_b : forall (u : seq F) (x : F) (s : seq F),
  compute_s u 1 = Some s ->
  compute_b x u = \sum_(i < 2 ^ size u) s`_i * x ^+ i.
Proof.
move=> u x s hs; have u0 : (0 < size u)%N by case: u hs.
move: hs; rewrite compute_sE // => -[<-]; rewrite compute_bE /dotG size_mkseq.
by apply: eq_bigr => i _; rewrite (nth_map 0) ?size_svec // mul1r nth_mkseq.
Qed.

(* compute_g = <compute_s(u, 1), g> for every guard with k challenges *)
Theorem C15_compute_g : forall (gd : guard F B) (s : seq F),
  size (gd_u gd) = p_k ps -> compute_s (gd_u gd) 1 = Some s ->
  compute_g E ps gd = Some (\sum_(i < 2 ^ p_k ps) s`_i *: (p_g ps)`_i).
Proof.
move=> gd s su hs; have u0 : (0 < p_k ps)%N by rewrite -su; case: (gd_u gd) hs.
rewrite (compute_gE ok pok su u0); move: hs; rewrite compute_sE ?su // => -[<-].
congr Some; rewrite /dotG (ps_g pok); apply: eq_bigr => i _.
by rewrite (nth_map 0) ?size_svec ?su // mul1r.
Qed.

(* Every guard that verify_proof returns (for any MSM built from operations, any claimed
   value, any transcript bytes, honest or not): resolving it with use_challenges, or with
   use_g on the point compute_g returns, gives MSMs with the same eval, and use_g's
   accumulator holds that point and the encoded challenges. *)
Theorem C15_guards_agree : forall (ops : seq (mop G)) (m : msm F B) (x v : F) (st st' : rst) (gd : guard F B),
  (0 < p_k ps)%N -> all (op_ok (p_n ps)) ops -> ops_run E ps msm_new ops = Some m ->
  ipa_verify_proof E ps m x v st = Ok (gd, st') ->
  exists m1 g m2 b,
  [/\ use_challenges ps gd = Some m1, compute_g E ps gd = Some g,
      use_g E gd g = Some (m2, (g, gd_packed gd)),
      msm_eval E ps m1 = Some b & msm_eval E ps m2 = Some b].
Proof.
move=> ops m x v st st' gd k0 hops hrun h.
have [v0 e0] := msm_newE E ps; have [m' em' [vm mv]] := ops_runE ok pok v0 hops.
move: em'; rewrite hrun => -[em]; subst m'.
have [vg su] : mvalid E ps (gd_msm gd) /\ size (gd_u gd) = p_k ps.
  rewrite /ipa_verify_proof in h.
  ubind h m1 => h1; have [m1' + [v1 _]] := add_constant_termE pn0 psz (- v) vm.
  rewrite h1 => -[?]; subst m1'; sbind h sc s1 => _; sbind h xi s2 => _.
  ubind h m2 => h2; have [m2' + [v2 _]] := append_termE ok xi sc v1.
  rewrite h2 => -[?]; subst m2'; sbind h z s3 => _; sbind h rounds s4 => hr.
  ubind h m3 => h3; have [m3' + [v3 _]] := rounds_foldE ok rounds v2.
  rewrite h3 => -[?]; subst m3'; sbind h c s5 => _; sbind h f s6 => _.
  case: h => <- _ /=; split.
    by apply: (proj1 (add_to_w_scalarE _ _)); apply: (proj1 (add_to_u_scalarE _ _)).
  rewrite size_map; move: {h1 h2 h3} (p_k ps) 0%N hr => n i.
  elim: n i s3 s4 rounds => [|n IH] i t t' l; first by case=> <-.
  by move=> h; sbind h a t1 => _; sbind h b t2 => /IH <-; case: h => <-.
have [m1 e1 [v1 f1]] := use_challengesE pok vg su k0.
have eg := compute_gE ok pok su k0.
have [m2 e2 [v2 f2]] := append_termE ok (gd_neg_c gd) (dotG (svec (gd_u gd)) (p_g ps)) vg.
exists m1, (dotG (svec (gd_u gd)) (p_g ps)), m2, (mval E ps m1 == 0); split=> //.
- by rewrite /use_g e2.
- exact: msm_evalE.
by rewrite (msm_evalE ok psz v2) f1 f2.
Qed.
End C15.
Print Assumptions C15_compute_s.
Print Assumptions C15_compute_b.
Print Assumptions C15_compute_g.
Print Assumptions C15_guards_agree.

(* Non-vacuity: a run over F_97 with k = 2 in which create_proof succeeds, and the verifier's
   decisions on the true value and on a wrong one. *)
Definition ipa_run97 (v : F97) : option bool :=
  if params_new E97 2 is Some ps then
    let p : seq F97 := [:: 1; 2%:R; 0; 7%:R] in
    match commit E97 ps p 3%:R, ipa_create_proof E97 ps p 3%:R 5%:R (Wst [:: 9%N] [:: 1%N] 0) with
    | Some c, Ok (tt, s') =>
      if ops_run E97 ps msm_new [:: OTerm 1 c] is Some m then
        if ipa_decide E97 ps m 5%:R v (Rst [:: 9%N] (behead (w_out s'))) is Ok (b, _) then Some b else None
      else None
    | _, _ => None
    end
  else None.
Example C14_true_value : ipa_run97 ((Poly [:: 1; 2%:R; 0; 7%:R]).[5%:R]) = Some true.
Proof. by rewrite -eval_polynomial_horner; vm_compute. Qed.
Example C14_wrong_value : ipa_run97 6%:R = Some false.
Proof. by vm_compute. Qed.
Example C14_nonzero_challenges : forall st, e_uniform E97 (e_blake E97 st) != 0.
Proof. exact: E97_nz. Qed.
Example C15_compute_s_ex : compute_s [:: 2%:R; 3%:R : F97] 5%:R = Some [:: 5%:R; 15%:R; 10%:R; 30%:R].
Proof. by apply/eqP; vm_compute. Qed.
