(* C11 (commitments), C12 (Params serialisation), C13 (MSM). *)
Set Warnings "-notation-overridden,-ambiguous-paths".
From mathcomp Require Import all_ssreflect all_algebra.
From Verif Require Import Util M_FFT S_FFT L_FFT M_Multiexp M_Poly L_Poly M_Domain L_Domain P_Domain.
From Verif Require Import M_Env M_Commit S_Commit L_Commit Ex_Env.
Import GRing.Theory.
Set Implicit Arguments.
Unset Strict Implicit.
Local Open Scope ring_scope.

Section C11.
Variables (F B : fieldType) (G : lmodType F) (E : env B G).
Hypothesis ok : env_ok E.

Lemma rou_k k : (k <= e_S E)%N -> (2 ^ k).-primitive_root (e_rou E ^+ (2 ^ (e_S E - k))).
Proof.
move=> h; have := dvdn_prim_root (ok_rou ok) (dvdn_exp2l 2 h).
by rewrite -{1}(subnK h) expnD mulnK ?expn_gt0.
Qed.

(* Params::new(k) gives n = 2^k generators hashed from their index, two more generators,
   and the Lagrange generators; it panics for k >= 32. *)
Theorem C11_params_new : forall k, (k < 32)%N -> (k <= e_S E)%N ->
  exists2 ps, params_new E k = Some ps &
    params_ok E ps /\ p_k ps = k /\ p_w ps = e_h2c E [:: 1%N] /\ p_u ps = e_h2c E [:: 2%N] /\
    (forall i, (i < 2 ^ k)%N -> (p_g ps)`_i = e_h2c E (0%N :: le_bytes 4 i)).
Proof.
move=> k k32 kS; rewrite /params_new k32 parallelize_mapi ?size_nseq ?expn_gt0 //=; last exact: ok_threads ok.
have [sm nm] : size (mapi (fun i (_ : G) => generator E i) (nseq (2 ^ k) 0)) = (2 ^ k)%N /\
   forall i, (i < 2 ^ k)%N -> (mapi (fun i (_ : G) => generator E i) (nseq (2 ^ k) 0))`_i = e_h2c E (0%N :: le_bytes 4 i).
  rewrite size_mapi size_nseq; split=> // i hi; by rewrite (nth_mapi _ 0) ?size_nseq.
move: (mapi _ _) sm nm => g sm nm.
have hw := rou_k kS.
rewrite iter_square (exprVn (e_rou E)) best_fft_correct //; first last.
- exact: prim_inv_half hw.
- exact: ok_threads ok.
rewrite /= parallelize_gmap //; last by rewrite size_mkseq sm expn_gt0.
eexists; first by []; split; last by [].
split=> //=; first by rewrite size_map /dft size_mkseq sm.
move=> i hi.
rewrite (nth_map 0) ?size_mkseq ?sm // nth_mkseq ?sm // scaler_sumr.
by apply: eq_bigr => j _; rewrite scalerA natrX -(exprVn 2%:R).
Qed.

Theorem C11_params_new_panics : forall k, (32 <= k)%N -> params_new E k = None.
Proof. by move=> k; rewrite /params_new ltnNge => ->. Qed.

Variable ps : params G.
Hypothesis pok : params_ok E ps.

(* commit is the Pedersen vector commitment *)
Theorem C11_commit : forall (a : seq F) (r : F), size a = (2 ^ p_k ps)%N ->
  commit E ps a r = Some (\sum_(i < 2 ^ p_k ps) a`_i *: (p_g ps)`_i + r *: p_w ps).
Proof. by move=> a r hs; rewrite commitE ?(ps_g pok) // /dotG (ps_g pok). Qed.

Theorem C11_commit_wrong_length_panics : forall (a : seq F) (r : F), size a <> (2 ^ p_k ps)%N ->
  commit E ps a r = None /\ commit_lagrange E ps a r = None.
Proof.
move=> a r hs; rewrite /commit /commit_lagrange !multiexp_bad //;
  by rewrite !size_cat ?(ps_g pok) ?(ps_gl pok) => /addIn.
Qed.

Theorem C11_commit_additive : forall (a b c : seq F) (r s : F) P Q,
  size a = (2 ^ p_k ps)%N -> size b = (2 ^ p_k ps)%N -> size c = (2 ^ p_k ps)%N ->
  (forall i, (i < 2 ^ p_k ps)%N -> c`_i = a`_i + b`_i) ->
  commit E ps a r = Some P -> commit E ps b s = Some Q ->
  commit E ps c (r + s) = Some (P + Q).
Proof.
move=> a b c r s P Q ha hb hc h; rewrite !commitE ?(ps_g pok) // => [[<-]] [<-].
rewrite (@dotG_add _ _ a b) ?(ps_g pok) // scalerDl; congr Some.
by rewrite -!addrA; congr (_ + _); rewrite addrCA.
Qed.

Theorem C11_commit_scales : forall (a : seq F) (r z : F) P, size a = (2 ^ p_k ps)%N ->
  commit E ps a r = Some P -> commit E ps [seq z * x | x <- a] (z * r) = Some (z *: P).
Proof.
move=> a r z P hs; rewrite !commitE ?size_map ?(ps_g pok) // => [[<-]].
by rewrite dotG_scalel scalerDr scalerA.
Qed.

Theorem C11_commit_lagrange_agrees : forall (threads j : nat) (d : domain F) (a c : seq F) (r : F),
  (0 < threads)%N ->
  domain_new (e_rou E) (e_zeta E) (e_S E) j (p_k ps) = Some d ->
  lagrange_to_coeff threads d a = Some c ->
  commit_lagrange E ps a r = commit E ps c r /\ exists P, commit E ps c r = Some P.
Proof.
move=> th j d a c r th0 hd; have [z3 z1] := ok_zeta ok.
have dok := domain_new_inv (ok_rou ok) z3 z1 hd.
case: (eqVneq (size a) (2 ^ p_k ps)%N) => hs; last first.
  by rewrite /lagrange_to_coeff (ok_k dok) (negbTE hs).
rewrite (lagrange_to_coeffE th0 dok hs) => [[<-]].
rewrite commitE ?size_mkseq ?(ps_g pok) // commit_lagrangeE ?(ps_gl pok) //; split; last by eexists.
congr (Some (_ + _)); rewrite /dotG (ps_g pok) (ps_gl pok).
under eq_bigr => i _ do rewrite (ps_lagrange pok) // scaler_sumr.
rewrite exchange_big /=; apply: eq_bigr => i _.
rewrite nth_mkseq ?hs // mulr_suml scaler_suml; apply: eq_bigr => m _.
have -> : d_omega d = e_rou E ^+ (2 ^ (e_S E - p_k ps)).
  rewrite (ok_omega dok) (ok_ext_rou dok) -exprM -expnD.
  by rewrite addnBA ?(ok_kek dok) // subnK ?(ok_ekS dok).
rewrite scalerA; congr (_ *: _); rewrite [(m * i)%N]mulnC.
by rewrite [_ * a`_m]mulrC mulrCA mulrA mulrC mulrA mulrC mulrA [a`_m * _]mulrC.
Qed.
End C11.
Print Assumptions C11_params_new.
Print Assumptions C11_commit.
Print Assumptions C11_commit_additive.
Print Assumptions C11_commit_scales.
Print Assumptions C11_commit_lagrange_agrees.
Print Assumptions C11_commit_wrong_length_panics.

Section C12.
Variables (F B : fieldType) (G : lmodType F) (E : env B G).
Hypothesis ok : env_ok E.
Implicit Types (l : seq G) (inp rest : seq nat).

Lemma curve_readE P rest : curve_read E (e_to_bytes E P ++ rest) = Ok (P, rest).
Proof.
rewrite /curve_read size_cat (ok_bytes_size ok) ltnNge leq_addr /=.
by rewrite take_size_cat ?(ok_bytes_size ok) // drop_size_cat ?(ok_bytes_size ok) // (ok_bytes ok).
Qed.
Lemma curve_read_nE l rest :
  curve_read_n E (size l) (flatten [seq e_to_bytes E g | g <- l] ++ rest) = Ok (l, rest).
Proof. by elim: l => //= P l IH; rewrite -catA curve_readE /= IH. Qed.

(* a proper prefix of the encodings of l (then anything shorter than one encoding) fails *)
Lemma size_enc l : size (flatten [seq e_to_bytes E g | g <- l]) = (32 * size l)%N.
Proof. by elim: l => //= P l IH; rewrite size_cat IH (ok_bytes_size ok) mulnS. Qed.
Lemma curve_read_short inp : (size inp < 32)%N -> curve_read E inp = Err EIo.
Proof. by rewrite /curve_read => ->. Qed.
Lemma curve_read_n_short l m : (m < 32 * size l)%N ->
  curve_read_n E (size l) (take m (flatten [seq e_to_bytes E g | g <- l])) = Err EIo.
Proof.
elim: l m => [|P l IH] m //= hm; rewrite take_cat (ok_bytes_size ok).
case: ltnP => h; first by rewrite curve_read_short // size_take (ok_bytes_size ok) h.
by rewrite curve_readE /= IH // ltn_subLR // -mulnS.
Qed.

Definition params_wf (ps : params G) : Prop :=
  [/\ (p_k ps < 64)%N, p_n ps = (2 ^ p_k ps)%N, size (p_g ps) = (2 ^ p_k ps)%N &
      size (p_gl ps) = (2 ^ p_k ps)%N].

Lemma params_read_hdr k body : (k < 64)%N ->
  params_read E (le_bytes 4 k ++ body) =
  rbind (curve_read_n E (2 ^ k) body) (fun g => rbind (curve_read_n E (2 ^ k) g.2) (fun gl =>
  rbind (curve_read E gl.2) (fun w => rbind (curve_read E w.2) (fun u =>
    Ok ({| p_k := k; p_n := 2 ^ k; p_g := g.1; p_gl := gl.1; p_w := w.1; p_u := u.1 |}, u.2))))).
Proof.
move=> k64; have k4 : (k < 256 ^ 4)%N.
  by apply: leq_trans k64 _; apply: (@leq_trans (256 ^ 1)%N) => //; rewrite leq_exp2l.
have := le_bytesK k4; move: (le_bytes _ _) (size_le_bytes 4 k) => L sL vL.
rewrite /params_read size_cat sL ltnNge leq_addr.
by rewrite take_size_cat // drop_size_cat // vL leqNgt k64.
Qed.

(* read (write p) = p, leaving whatever follows unread *)
Theorem C12_params_roundtrip : forall ps rest, params_wf ps ->
  params_read E (params_write E ps ++ rest) = Ok (ps, rest).
Proof.
move=> [k n g gl w u] rest [/= k64 -> sg sgl]; rewrite /params_write -catA params_read_hdr // -!catA.
rewrite -{1}sg curve_read_nE /= -{1}sgl curve_read_nE /=.
by rewrite curve_readE /= curve_readE.
Qed.


(* every proper prefix of an encoding is rejected with an error *)
Theorem C12_params_truncated : forall ps m, params_wf ps -> (m < size (params_write E ps))%N ->
  params_read E (take m (params_write E ps)) = Err EIo.
Proof.
move=> ps m [k64 _ sg sgl]; rewrite /params_write !size_cat !size_enc size_le_bytes.
rewrite !(ok_bytes_size ok) => hm; case: (ltnP m 4) => h4.
  by rewrite /params_read size_take size_cat size_le_bytes (leq_trans h4) ?leq_addr // h4.
rewrite take_cat size_le_bytes ltnNge h4 params_read_hdr //.
move: hm; rewrite -ltn_subLR // => hm.
move: (m - 4)%N hm => {h4}m hm; rewrite take_cat size_enc.
case: ltnP => h1; first by rewrite -{1}sg curve_read_n_short.
rewrite -{1}sg curve_read_nE /=; move: hm; rewrite -ltn_subLR // => hm.
move: (m - _)%N hm => {h1}m hm; rewrite take_cat size_enc.
case: ltnP => h1; first by rewrite -{1}sgl curve_read_n_short.
rewrite -{1}sgl curve_read_nE /=; move: hm; rewrite -ltn_subLR // => hm.
move: (m - _)%N hm => {h1}m hm; rewrite take_cat (ok_bytes_size ok).
case: ltnP => h1; first by rewrite curve_read_short // size_take (ok_bytes_size ok) h1.
rewrite curve_readE /=; move: hm; rewrite -ltn_subLR // => hm.
by rewrite curve_read_short // size_take (ok_bytes_size ok) hm.
Qed.

Lemma curve_read_inv inp P rest : curve_read E inp = Ok (P, rest) -> inp = e_to_bytes E P ++ rest.
Proof.
rewrite /curve_read; case: ltnP => // h; case e: (e_from_bytes E _) => [Q|] //= [<- <-].
by rewrite (ok_bytes_canon ok e) cat_take_drop.
Qed.
Lemma curve_read_n_inv n inp l rest : curve_read_n E n inp = Ok (l, rest) ->
  size l = n /\ inp = flatten [seq e_to_bytes E g | g <- l] ++ rest.
Proof.
elim: n inp l rest => [|n IH] inp l rest /=; first by case=> <- <-.
case e: (curve_read E inp) => [[P r]||] //=; have -> := curve_read_inv e.
case e': (curve_read_n E n r) => [[l' r']||] //= [<- <-].
by have [<- ->] := IH _ _ _ e'; rewrite /= catA.
Qed.

(* whatever read accepts is the encoding of the well-formed parameters it returns *)
Theorem C12_params_read_sound : forall inp ps rest, all (fun b => (b < 256)%N) inp ->
  params_read E inp = Ok (ps, rest) -> params_wf ps /\ inp = params_write E ps ++ rest.
Proof.
move=> inp ps rest hb; rewrite /params_read; case: ltnP => // h4; case: leqP => // k64.
case eg: (curve_read_n _ _ _) => [[g r]||] //=; have [sg hg] := curve_read_n_inv eg.
case egl: (curve_read_n _ _ _) => [[gl r2]||] //=; have [sgl hgl] := curve_read_n_inv egl.
case ew: (curve_read _ _) => [[w r3]||] //=; have hw := curve_read_inv ew.
case eu: (curve_read _ _) => [[u r4]||] //= [<- <-]; have hu := curve_read_inv eu.
split; first by split.
rewrite /params_write /p_k /p_g /p_gl /p_w /p_u -!catA -hu -hw -hgl -hg.
move: h4 hb; clear; case: inp => [|a [|b [|c [|d inp]]]] // _.
rewrite /= !take0 /= drop0 => /and5P [ha hb hc hd _]; rewrite /le_val /=.
rewrite muln0 addn0.
have M x y : (x < 256 -> (x + 256 * y) %% 256 = x)%N.
  by move=> hx; rewrite mulnC addnC modnMDl modn_small.
have D x y : (x < 256 -> (x + 256 * y) %/ 256 = y)%N.
  by move=> hx; rewrite mulnC addnC divnMDl // divn_small // addn0.
by rewrite !(M, D) // modn_small.
Qed.
End C12.
Print Assumptions C12_params_roundtrip.
Print Assumptions C12_params_truncated.
Print Assumptions C12_params_read_sound.

Section C13.
Variables (F B : fieldType) (G : lmodType F) (E : env B G) (ps : params G).
Hypothesis ok : env_ok E.
Hypothesis pok : params_ok E ps.

Let pn0 : (0 < p_n ps)%N. Proof. by rewrite (ps_n pok) expn_gt0. Qed.
Let psz : size (p_g ps) = p_n ps. Proof. by rewrite (ps_g pok) (ps_n pok). Qed.

Section mop_ind.
Variable P : mop G -> Prop.
Hypothesis H1 : forall s Q, P (OTerm s Q).
Hypothesis H2 : forall s, P (OConst G s).
Hypothesis H3 : forall s, P (OG G s).
Hypothesis H4 : forall s, P (OW G s).
Hypothesis H5 : forall s, P (OU G s).
Hypothesis H6 : forall s, P (OScale G s).
Hypothesis H7 : forall l, (forall i, (i < size l)%N -> P (nth (OW G 0) l i)) -> P (OAdd l).
Fixpoint mop_ind' (o : mop G) : P o :=
  match o with
  | OTerm s Q => H1 s Q | OConst s => H2 s | OG s => H3 s | OW s => H4 s | OU s => H5 s
  | OScale s => H6 s
  | OAdd l => H7 ((fix go l : forall i, (i < size l)%N -> P (nth (OW G 0) l i) :=
      match l return forall i, (i < size l)%N -> P (nth (OW G 0) l i) with
      | [::] => fun i hi => False_ind _ (Bool.diff_false_true hi)
      | o :: l' => fun i => match i with 0 => fun _ => mop_ind' o | i'.+1 => fun hi => go l' i' hi end
      end) l)
  end.
End mop_ind.

Lemma op_runE o m : mvalid E ps m -> op_ok (p_n ps) o ->
  exists2 m', op_run E ps m o = Some m' & mvalid E ps m' /\ mval E ps m' = op_value ps (mval E ps m) o.
Proof.
elim/mop_ind': o m => [s Q|s|s|s|s|s|l IH] m vm /=.
- by move=> _; exact: append_termE.
- by move=> _; exact: add_constant_termE.
- by move=> /eqP h; exact: add_to_g_scalarsE.
- by move=> _; eexists; [|exact: add_to_w_scalarE].
- by move=> _; eexists; [|exact: add_to_u_scalarE].
- by move=> _; eexists; [|exact: msm_scaleE].
move=> hl.
have [v0 e0] := msm_newE E ps.
suff [o' -> [vo eo]] : exists2 m', (fix go (m : msm F B) (l : seq (mop G)) : option (msm F B) :=
          if l is o :: l' then obind (fun m => go m l') (op_run E ps m o) else Some m) msm_new l = Some m' &
    mvalid E ps m' /\ mval E ps m' = (fix go (v : G) (l : seq (mop G)) : G :=
                     if l is o :: l' then go (op_value ps v o) l' else v) 0 l.
  by rewrite -eo; exact: add_msmE.
rewrite -e0; move: msm_new v0 => m0; elim: l m0 IH hl => [|o l IHl] m0 IH /= => [_|/andP [ho hl]] v0.
  by exists m0.
have [m1 -> [v1 <-]] := IH 0%N isT m0 v0 ho.
by apply: IHl => // i hi; exact: (IH i.+1 hi).
Qed.

Lemma ops_runE l m : mvalid E ps m -> all (op_ok (p_n ps)) l ->
  exists2 m', ops_run E ps m l = Some m' & mvalid E ps m' /\ mval E ps m' = foldl (op_value ps) (mval E ps m) l.
Proof.
elim: l m => [|o l IH] m vm /=; first by exists m.
move=> /andP [ho hl]; have [m1 -> [v1 <-]] := op_runE vm ho.
exact: IH.
Qed.

(* After any operation sequence on a new MSM, eval says whether the formal linear
   combination is the identity. *)
Theorem C13_msm_eval : forall l : seq (mop G), all (op_ok (p_n ps)) l ->
  obind (msm_eval E ps) (ops_run E ps msm_new l) = Some (ops_value ps l == 0).
Proof.
move=> l hl; have [v0 e0] := msm_newE E ps; have [m -> [vm em]] := ops_runE v0 hl.
by rewrite /= msm_evalE // em e0.
Qed.

(* terms with equal, opposite or identity points *)
Theorem C13_merge : forall (l : seq (mop G)) (s t : F) (P : G), all (op_ok (p_n ps)) l ->
  obind (msm_eval E ps) (ops_run E ps msm_new (rcons (rcons l (OTerm s P)) (OTerm t P))) =
  obind (msm_eval E ps) (ops_run E ps msm_new (rcons l (OTerm (s + t) P))) /\
  obind (msm_eval E ps) (ops_run E ps msm_new (rcons (rcons l (OTerm s P)) (OTerm t (- P)))) =
  obind (msm_eval E ps) (ops_run E ps msm_new (rcons l (OTerm (s - t) P))) /\
  obind (msm_eval E ps) (ops_run E ps msm_new (rcons l (OTerm s 0))) =
  obind (msm_eval E ps) (ops_run E ps msm_new l).
Proof.
move=> l s t P hl; rewrite !C13_msm_eval ?all_rcons /= ?hl // /ops_value !foldl_rcons /=.
by rewrite scalerDl scalerBl scalerN scaler0 addr0 !addrA.
Qed.
End C13.
Print Assumptions C13_msm_eval.

(* Non-vacuity: F_97 with k = 3 *)
Example params_F97 : exists2 ps, params_new E97 3 = Some ps & params_ok E97 ps.
Proof. by have [ps h [hok _]] := @C11_params_new _ _ _ _ E97_ok 3 isT isT; exists ps. Qed.
Example C13_ops_ok (P Q : G97) :
  all (op_ok 8) [:: OTerm 3%:R P; OG G97 (nseq 8 1); OAdd [:: OTerm 2%:R (- P); OScale G97 5%:R]; OW G97 1].
Proof. by []. Qed.
