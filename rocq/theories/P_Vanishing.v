(* C30: the vanishing argument. *)
Set Warnings "-notation-overridden,-ambiguous-paths".
From mathcomp Require Import all_ssreflect all_algebra.
From Verif Require Import FieldTac Util M_Poly L_Poly M_Domain L_Domain P_Domain M_Evaluator S_Evaluator L_Evaluator P_Evaluator
  M_Assigned M_Env M_Transcript L_Transcript M_Commit S_Commit L_Commit P_Commit L_WP L_WPR M_IPA L_IPA
  M_Multiopen L_MoProof P_Multiopen M_Circuit M_Keys S_Count L_Sigma S_Permutation L_PermCommit S_Plonk L_LookupMath P_Lookup
  M_Vanishing Ex_Field Ex_Env.
Import GRing.Theory.
Set Implicit Arguments.
Unset Strict Implicit.
Local Open Scope ring_scope.

Section Spec.
Variable F : fieldType.
(* h(X) = sum_i X^(n i) h_i(X) *)
Definition recombine (n : nat) (pieces : seq (seq F)) : {poly F} :=
  \sum_(i < size pieces) 'X^(n * i) * Poly (nth [::] pieces i).
(* the polynomial an expression stands for *)
Definition expr_poly (omega : F) (P : nat -> {poly F}) (a : ast F) : {poly F} :=
  interp (fun idx r => rotated (omega ^ r) (P idx)) 'X polyC a.
End Spec.

Section Math.
Variable F : fieldType.
Implicit Types (p q f : {poly F}).

Lemma vanish_dvd n (w : F) f : n.-primitive_root w -> (forall i, (i < n)%N -> f.[w ^+ i] = 0) ->
  ('X^n - 1) %| f.
Proof.
move=> hw h; rewrite -(factor_Xn_sub_1 hw).
have -> : \prod_(0 <= i < n) ('X - (w ^+ i)%:P) = \prod_(z <- [seq w ^+ i | i <- iota 0 n]) ('X - z%:P).
  by rewrite big_map /index_iota subn0.
apply: uniq_roots_dvdp; last by rewrite uniq_rootsE; exact: prim_points_uniq.
by apply/allP => x /mapP [i]; rewrite mem_iota add0n => hi ->; rewrite rootE h.
Qed.


Lemma quotient_size n j f : (0 < n)%N -> (0 < j)%N -> (size f <= (j * n.-1).+1)%N ->
  (size (f %/ ('X^n - 1))%R <= n * (j - 1))%N.
Proof.
move=> n0 j0 hf; have s1 := size_Xn_sub_1 F n0.
rewrite size_divp; last by rewrite -size_poly_eq0 s1.
rewrite s1 /= leq_subLR; apply: leq_trans hf _.
clear -n0 j0; by case: n n0 => // n _; case: j j0 => // j _; rewrite subn1 /= mulSn; nnia.
Qed.

Lemma recombine_cons n (p : seq F) ps : recombine n (p :: ps) = Poly p + 'X^n * recombine n ps :> {poly F}.
Proof.
rewrite /recombine big_ord_recl muln0 expr0 mul1r; congr (_ + _).
by rewrite mulr_sumr; apply: eq_bigr => i _; rewrite lift0 mulnS exprD mulrA.
Qed.
Lemma Poly_cat (a b : seq F) : Poly (a ++ b) = Poly a + 'X^(size a) * Poly b.
Proof.
elim: a => [|x a IH]; first by rewrite /= add0r mul1r.
by rewrite [_ ++ _]/= !Poly_cons_def IH /= exprSr mulrDl -addrA -addrA -!mulrA ['X * _]mulrC [_%:P + _]addrC.
Qed.
Lemma pieces_ok n m (s : seq F) : (0 < n)%N -> size s = (n * m)%N ->
  [/\ all (fun c => size c == n) (chunks n s), size (chunks n s) = m & recombine n (chunks n s) = Poly s].
Proof.
move=> n0; elim: m s => [|m IH] s hs.
  by move: hs; rewrite muln0 => /size0nil ->; rewrite chunks_nil /recombine big_ord0.
rewrite chunksE ?hs ?muln_gt0 ?n0 //.
have hd : size (drop n s) = (n * m)%N by rewrite size_drop hs mulnS addKn.
have [h1 h2 h3] := IH _ hd.
have ht : size (take n s) = n by rewrite size_takel // hs mulnS leq_addr.
by split; rewrite /= ?ht ?eqxx ?h2 // recombine_cons h3 -{3}(cat_take_drop n s) Poly_cat ht.
Qed.
Lemma horner_combine (x y : F) (es : seq {poly F}) :
  (\sum_(i < size es) y ^+ (size es - i.+1) *: es`_i).[x] = compress y [seq e.[x] | e <- es].
Proof.
rewrite /compress; elim/last_ind: es => [|es e IH]; first by rewrite big_ord0 horner0.
rewrite map_rcons foldl_rcons -IH size_rcons big_ord_recr /= subnn expr0 scale1r hornerD nth_rcons ltnn eqxx.
congr (_ + _); rewrite mulrC -hornerZ scaler_sumr; congr (_.[x]); apply: eq_bigr => i _.
by rewrite nth_rcons ltn_ord scalerA -exprS subSn.
Qed.
End Math.

Section Vanishing.
Variables (F B : fieldType) (G : lmodType F) (E : env B G) (ps : params G).
Hypotheses (ok : env_ok E) (pok : params_ok E ps).
Variables (j : nat) (d : domain F).
Hypothesis hd : domain_new (e_rou E) (e_zeta E) (e_S E) j (p_k ps) = Some d.
Notation n := (2 ^ p_k ps)%N.
Notation omega := (d_omega d).
Notation coset p := (mkseq (fun i => p.[e_zeta E * d_ext_omega d ^+ i]) (2 ^ d_ek d)).

(* The commitment before y: a random polynomial of n coefficients. *)
Theorem C30_random_commitment : forall s,
  wp (vanishing_commit E ps d) s (fun c s' =>
    size (vc_random_poly c) = n /\
    exists2 p, replays s s' (vanishing_read_before_y E) p &
      commit E ps (vc_random_poly c) (vc_random_blind c) = Some p).
Proof.
move=> s; apply: wp_bind; apply: wpr_draws => rs s1 h1 hs.
have hn : size rs = n by rewrite hs size_iota (ok_n (dok ok hd)).
apply: wp_bind; apply: wpr_draw => b s2 h2; apply: wp_bind.
have e : commit E ps rs b = Some (commitment_of ps rs b) by rewrite commitE ?(ps_g pok).
apply: (wp_unwrap e); apply: wp_bind; apply: (wpr_write_point ok) => s3 h3; apply: wp_ret.
split=> //; exists (commitment_of ps rs b) => //.
by apply: replays_silent h1 _; apply: replays_silent h2 _.
Qed.

(* The quotient: if all expressions vanish on the domain and their degree is at most
   j (n - 1), the prover commits to j - 1 pieces of n coefficients, which recombine to h with
   h (X^n - 1) = sum_i y^(m-1-i) e_i. *)
Theorem C30_quotient : forall (Ps : seq {poly F}) (asts : seq (ast F)) (y : F) c (vk : vkey G) s,
  vk_domain vk = d -> Ps != [::] ->
  all (fun a => all (fun l => (l.1 < size Ps)%N && (`|l.2| <= n)%N) (leaves a)) asts ->
  all (fun a => size (expr_poly omega (nth 0%R Ps) a) <= (j * n.-1).+1)%N asts ->
  vanish_on_domain omega n (nth 0 Ps) asts ->
  wp (vanishing_construct E ps d [seq coset p | p : {poly F} <- Ps] asts y c) s (fun r s' =>
    [/\ vn_committed r = c,
        size (vn_pieces r) = (j - 1)%N /\ all (fun p => size p == n) (vn_pieces r),
        size (vn_blinds r) = (j - 1)%N,
        recombine n (vn_pieces r) * ('X^n - 1) =
          \sum_(i < size asts) y ^+ (size asts - i.+1) *: [seq expr_poly omega (nth 0 Ps) a | a <- asts]`_i &
        exists2 comms, replays s s' (vanishing_read_after_y E vk) comms &
          [seq commit E ps pb.1 pb.2 | pb <- zip (vn_pieces r) (vn_blinds r)] = [seq Some c | c <- comms]]).
Proof.
move=> Ps asts y c vk s hvk P0 hl hsz hvan.
have dk := dok ok hd; have hw := ok_omega_prim dk; have n0 : (0 < n)%N by rewrite expn_gt0.
set es := [seq expr_poly omega (nth 0 Ps) a | a <- asts].
pose f : {poly F} := interp (fun idx r => rotated (omega ^ r) (nth 0 Ps idx)) 'X polyC (ADistributePowers asts y).
have ef : f = \sum_(i < size asts) y ^+ (size asts - i.+1) *: es`_i.
  rewrite /f /es /= {hl hsz hvan es f}; elim/last_ind: asts => [|l a IH]; first by rewrite big_ord0.
  rewrite foldl_rcons IH size_rcons big_ord_recr /= subnn expr0 scale1r map_rcons nth_rcons size_map ltnn eqxx.
  congr (_ + _); rewrite mulrC mul_polyC scaler_sumr; apply: eq_bigr => i _.
  by rewrite nth_rcons size_map ltn_ord scalerA -exprS subSn.
have sf : (size f <= (j * n.-1).+1)%N.
  rewrite ef; elim/big_ind: _ => [|p q hp hq|i _]; first by rewrite size_poly0.
    by apply: leq_trans (size_add _ _) _; rewrite geq_max hp hq.
  apply: leq_trans (size_scale_leq _ _) _.
  by move/(all_nthP (AConstantTerm 0)): hsz => /(_ i (ltn_ord i)); rewrite /es (nth_map (AConstantTerm 0)).
have vf i : (i < n)%N -> f.[omega ^+ i] = 0.
  have se : size asts = size es by rewrite size_map.
  move=> hi; rewrite ef se horner_combine /es -map_comp.
  have := hvan i hi; rewrite /compress; elim: (asts) => // a l IH /= /andP [/eqP].
  by rewrite /expr_at /expr_poly => -> /IH; rewrite mul0r add0r.
pose q := f %/ ('X^n - 1).
have fq : f = q * ('X^n - 1) by rewrite /q divpK //; exact: vanish_dvd hw vf.
have sq : (size q <= n * (j - 1))%N by apply: quotient_size => //; exact: ok_j dk.
apply: wp_bind; apply: wp_unwrap.
  apply: (C08_evaluate_poly_extended (fc ok) (ok_threads ok) hd P0).
  by rewrite /=; elim: (asts) hl => //= a l IH /andP [h1 /IH]; rewrite all_cat h1.
have := C05_divide_by_vanishing_poly (fc ok) (ok_threads ok) hd fq sq.
rewrite -/f; case e1: divide_by_vanishing_poly => [dv|] //= e2.
apply: wp_bind; apply: (wp_lift (erefl (Ok dv))); apply: wp_bind; apply: (wp_unwrap e2).
have [p1 p2 p3] := @pieces_ok F n (j - 1) (mkseq (fun i => q`_i) (n * (j - 1))) n0 (size_mkseq _ _).
apply: wp_bind; apply: (@wp_unwrap _ _ _ (chunks n (mkseq (fun i => q`_i) (n * (j - 1))))).
  rewrite /chunks_exact (ps_n pok) -[_ == _]/(_ == _) (negbTE (_ : n != 0%N)) -?lt0n //; congr Some.
  by move: p1; elim: chunks => //= x l IH /andP [-> /IH ->].
move: (chunks _ _) p1 p2 p3 => pieces p1 p2 p3.
rewrite (ok_n dk) p1 [~~ _]/=; apply: wp_bind; apply: wpr_draws => bs s1 h1 hbs; apply: wp_bind.
pose comms := [seq commitment_of ps pb.1 pb.2 | pb <- zip pieces bs].
have ec : [seq commit E ps pb.1 pb.2 | pb <- zip pieces bs] = [seq Some c | c <- comms].
  rewrite /comms -map_comp; elim: (pieces) (bs) p1 => [|p l IH] [|b bs'] //= /andP [/eqP hp /IH ->].
  by rewrite commitE ?(ps_g pok).
apply: (@wp_unwrap _ _ _ comms); first by rewrite ec; elim: (comms) => //= x l ->.
have sc : size comms = (j - 1)%N by rewrite size_map size1_zip ?p2 ?hbs ?p2.
apply: wp_bind; apply: (wpr_write_points (l' := iota 0 (d_qd (vk_domain vk))) ok).
  by rewrite size_iota hvk (ok_qd dk) sc.
move=> s2 h2; apply: wp_ret; split=> //.
- by rewrite /= hbs.
- rewrite /= p3 -ef fq; congr (_ * _); apply/polyP => i; rewrite coef_Poly.
  case: (ltnP i (n * (j - 1))) => hi; first by rewrite nth_mkseq.
  by rewrite !nth_default ?size_mkseq // (leq_trans sq).
by exists comms => //; apply: replays_silent h1 _.
Qed.

(* After x: the opened polynomial is sum_i xn^i h_i with blind sum_i xn^i b_i; at x, with
   xn = x^n, it takes the value of the recombined h. *)
Theorem C30_evaluate : forall (r : vconstructed F) (x xn : F) s,
  all (fun p => size p == n) (vn_pieces r) ->
  wp (vanishing_evaluate E d x xn r) s (fun e s' =>
    [/\ size (ve_poly e) = n,
        Poly (ve_poly e) = \sum_(i < size (vn_pieces r)) xn ^+ i *: Poly (nth [::] (vn_pieces r) i),
        ve_blind e = \sum_(i < size (vn_blinds r)) xn ^+ i * (vn_blinds r)`_i,
        xn = x ^+ n -> (Poly (ve_poly e)).[x] = (recombine n (vn_pieces r)).[x] &
        ve_committed e = vn_committed r /\
        replays s s' (vanishing_read_eval E) (Poly (vc_random_poly (vn_committed r))).[x]]).
Proof.
move=> [pieces blinds c] x xn s /= hp; have n0 : (0 < n)%N by rewrite expn_gt0.
have [h eh [sh ph]] : exists2 h, foldl (fun acc eval =>
      obind (fun acc => obind (fun a => poly_add (e_threads E) a eval) (poly_scale (e_threads E) acc xn)) acc)
    (Some (nseq (d_n d) 0)) (rev pieces) = Some h &
    size h = n /\ Poly h = \sum_(i < size pieces) xn ^+ i *: Poly (nth [::] pieces i).
  rewrite foldl_rev (ok_n (dok ok hd)); elim: pieces hp => [|p l IH] /=.
    exists (nseq n 0); rewrite // size_nseq big_ord0; split=> //; apply/polyP => i.
    by rewrite coef_Poly nth_nseq if_same coef0.
  move=> /andP [/eqP hp /IH [h -> [sh ph]]].
  rewrite /= (poly_fma n0) ?(ok_threads ok) //; exists (addscale n h xn p) => //; split; first exact: size_addscale.
  rewrite lin_Poly // ph big_ord_recl expr0 scale1r addrC; congr (_ + _).
  by rewrite scaler_sumr; apply: eq_bigr => i _; rewrite lift0 scalerA -exprS.
apply: wp_bind; apply: (wp_unwrap eh); apply: wp_bind; apply: (wpr_write_scalar ok) => s1 h1; apply: wp_ret.
split=> //=; last by split=> //; rewrite -eval_Poly.
  rewrite foldl_rev; elim: (blinds) => [|b l IH] /=; first by rewrite big_ord0.
  rewrite IH big_ord_recl expr0 mul1r addrC; congr (_ + _).
  by rewrite mulr_suml; apply: eq_bigr => i _; rewrite lift0 mulrAC -exprSr.
move=> exn; rewrite ph /recombine !horner_sum; apply: eq_bigr => i _.
by rewrite hornerZ hornerM hornerXn exprM exn.
Qed.

(* The verifier's MSM stands for the commitment to that polynomial. *)
Theorem C30_h_commitment : forall (pieces : seq (seq F)) (blinds : seq F) (comms : seq G) (xn : F) h b,
  all (fun p => size p == n) pieces -> size blinds = size pieces ->
  [seq commit E ps pb.1 pb.2 | pb <- zip pieces blinds] = [seq Some c | c <- comms] ->
  size h = n -> Poly h = \sum_(i < size pieces) xn ^+ i *: Poly (nth [::] pieces i) ->
  b = \sum_(i < size blinds) xn ^+ i * blinds`_i ->
  exists2 m, h_commitment_msm E comms xn = Some m & commits_to E ps (CMsm G m) (h, b).
Proof.
move=> pieces blinds comms xn h b hp hsb hc sh ph hb.
rewrite /h_commitment_msm foldl_rev.
have [ops [o1 o2 o3]] : exists ops, [/\ all (op_ok (p_n ps)) ops,
    foldr (fun c acc => obind (fun acc : msm F B => append_term E (msm_scale acc xn) 1 c) acc) (Some msm_new) comms =
      ops_run E ps msm_new ops &
    ops_value ps ops = \sum_(i < size comms) xn ^+ i *: comms`_i].
  elim: (comms) => [|c l [ops [o1 o2 o3]]]; first by exists [::]; rewrite big_ord0.
  exists (ops ++ [:: OScale G xn; OTerm 1 c]); split; first by rewrite all_cat o1.
    rewrite /= o2; elim: (ops) (@msm_new F B) => [|o ops' IH] m0 /=; first by case: append_term.
    by case: op_run => //= m1; rewrite IH.
  rewrite /ops_value foldl_cat -/(ops_value ps ops) o3 /= scale1r big_ord_recl expr0 scale1r addrC; congr (_ + _).
  by rewrite scaler_sumr; apply: eq_bigr => i _; rewrite lift0 scalerA -exprS.
have [v0 _] := msm_newE E ps.
have [m em _] := ops_runE ok pok v0 o1.
rewrite o2 em; exists m => //; exists (ops_value ps ops); first by exists ops.
rewrite o3 commitE ?(ps_g pok) //; congr Some.
have hh i : (i < n)%N -> h`_i = \sum_(t < size pieces) xn ^+ t * (nth [::] pieces t)`_i.
  move=> hi; rewrite -[h`_i]coef_Poly ph coef_sum; apply: eq_bigr => t _; by rewrite coefZ coef_Poly.
have -> : dotG h (p_g ps) = \sum_(t < size pieces) xn ^+ t *: dotG (nth [::] pieces t) (p_g ps).
  rewrite /dotG (ps_g pok); under [RHS]eq_bigr do rewrite scaler_sumr.
  rewrite exchange_big /=; apply: eq_bigr => i _; rewrite hh // scaler_suml; apply: eq_bigr => t _.
  by rewrite scalerA.
rewrite hb scaler_suml {hb ph hh sh o1 o2 o3 em}.
have key : forall l1 l2 (l3 : seq G), all (fun p => size p == n) l1 -> size l2 = size l1 ->
   [seq commit E ps pb.1 pb.2 | pb <- zip l1 l2] = [seq Some c | c <- l3] ->
   size l3 = size l1 /\ forall i, (i < size l1)%N -> l3`_i = dotG (nth [::] l1 i) (p_g ps) + l2`_i *: p_w ps.
  elim=> [|p l1 IH] [|b' l2] [|c l3] //= /andP [/eqP hp'] /IH{}IH [] /IH{}IH [].
  rewrite commitE ?(ps_g pok) // => -[<-] /IH [-> h']; split=> // -[|i] //= hi; exact: h'.
have [sc hcs] := key _ _ _ hp hsb hc.
rewrite hsb sc -big_split; apply: eq_bigr => i _ /=.
by rewrite -scalerA -scalerDr -hcs.
Qed.

(* The value the verifier expects at x is h(x); it panics exactly if x^n = 1. *)
Theorem C30_expected_value : forall (h : {poly F}) (es : seq {poly F}) (x y : F),
  h * ('X^n - 1) = \sum_(i < size es) y ^+ (size es - i.+1) *: es`_i ->
  expected_h_eval [seq e.[x] | e <- es] y (x ^+ n) = if x ^+ n == 1 then None else Some h.[x].
Proof.
move=> h es x y e; rewrite /expected_h_eval subr_eq0; case: eqP => // /eqP hx; congr Some.
have := congr1 (horner^~ x) e; rewrite horner_combine /compress => <-.
by rewrite hornerM !hornerE hornerXn mulfK // subr_eq0.
Qed.

(* Soundness: if some expression is not zero somewhere on the domain, then for all but
   m - 1 values of y, whatever pieces the prover commits to, the verifier's expected value
   differs from the claimed h(x) for all but max(D, n j - 1) values of x. *)
Theorem C30_vanishing_sound : forall (es : seq {poly F}) (D : nat),
  all (fun e : {poly F} => size e <= D.+1)%N es ->
  (exists i, has (fun e : {poly F} => e.[omega ^+ i] != 0) es) ->
  exists bad_y : F -> Prop, at_most (size es).-1 bad_y /\
  forall y (pieces : seq (seq F)), ~ bad_y y -> size pieces = (j - 1)%N -> all (fun p => size p == n) pieces ->
  exists bad_x : F -> Prop, at_most (maxn D (n * j).-1) bad_x /\
  forall x, ~ bad_x x ->
  expected_h_eval [seq e.[x] | e <- es] y (x ^+ n) <> Some (recombine n pieces).[x].
Proof.
move=> es D hD [i /hasP [e he ne]].
have dk := dok ok hd; have hw := ok_omega_prim dk; have n0 : (0 < n)%N by rewrite expn_gt0.
pose vals := [seq e.[omega ^+ i] | e <- es].
exists (fun y => root (Poly (rev vals)) y); split.
  apply: at_most_root; last first.
    apply: leq_trans (size_Poly _) _; rewrite size_rev size_map; exact: leqSpred.
  apply: contraNneq ne => z; have hi : (index e es < size es)%N by rewrite index_mem.
  have : (rev vals)`_(size es - (index e es).+1) = 0 by rewrite -coef_Poly z coef0.
  rewrite nth_rev size_map ?subnSK ?leq_subr // ?ltn_subrL ?(leq_trans _ hi) //.
  by rewrite subKn ?(ltnW hi) // /vals (nth_map 0) // nth_index // => ->.
move=> y pieces /negP ny sp hp.
pose f : {poly F} := \sum_(i < size es) y ^+ (size es - i.+1) *: es`_i.
pose g := recombine n pieces * ('X^n - 1) - f.
have g0 : g != 0.
  apply: contra ny => /eqP z; rewrite rootE -compress_horner.
  have := congr1 (horner^~ (omega ^+ i)) z; rewrite /g hornerD hornerN horner_combine hornerM !hornerE hornerXn.
  by rewrite -exprM mulnC exprM (prim_expr_order hw) expr1n subrr mulr0 sub0r => /eqP; rewrite oppr_eq0.
have sr : (size (recombine n pieces) <= n * (j - 1))%N.
  rewrite /recombine; elim/big_ind: _ => [|p q hp1 hq|t _]; first by rewrite size_poly0.
    by apply: leq_trans (size_add _ _) _; rewrite geq_max hp1 hq.
  rewrite -commr_polyXn; apply: leq_trans (size_mul_leq _ _) _; rewrite size_polyXn addnS /=.
  have := ltn_ord t; rewrite [X in (_ < X)%N]sp => ht.
  apply: leq_trans (_ : n + n * t <= _)%N.
    rewrite leq_add2r; apply: leq_trans (size_Poly _) _.
    by move/(all_nthP [::]): hp => /(_ t (ltn_ord t)) /eqP ->.
  by rewrite -mulnS leq_mul2l ht orbT.
exists (root g); split.
  apply: at_most_root => //; apply: leq_trans (size_add _ _) _; rewrite size_opp geq_max; apply/andP; split.
    apply: leq_trans (size_mul_leq _ _) _; rewrite size_Xn_sub_1 // addnS /=.
    apply: leq_trans (leq_add sr (leqnn n)) _; rewrite addnC -mulnS subn1 prednK ?(ok_j dk) //.
    by apply: leq_trans (leqSpred _) _; rewrite ltnS leq_maxr.
  rewrite /f; elim/big_ind: _ => [|p q hp1 hq|t _]; first by rewrite size_poly0.
    by apply: leq_trans (size_add _ _) _; rewrite geq_max hp1 hq.
  apply: leq_trans (size_scale_leq _ _) _; move/(all_nthP 0): hD => /(_ t (ltn_ord t)) h.
  by apply: leq_trans h _; rewrite ltnS leq_maxl.
move=> x /negP nx; rewrite /expected_h_eval; case: eqP => // /eqP hx [ex].
case/negP: nx; rewrite rootE /g hornerD hornerN horner_combine hornerM !hornerE hornerXn -ex.
by rewrite /compress mulfVK // subrr.
Qed.
End Vanishing.
Print Assumptions C30_random_commitment.
Print Assumptions C30_quotient.
Print Assumptions C30_evaluate.
Print Assumptions C30_h_commitment.
Print Assumptions C30_expected_value.
Print Assumptions C30_vanishing_sound.

(* Non-vacuity: the boolean constraint a^2 - a on the column (X^4 + 1)/2 of F_97, eight rows. *)
Definition vn_col97 : {poly F97} := (2%:R^-1 : F97) *: ('X^4 + 1).
Definition vn_ast97 : ast F97 := AAdd (AMul (APoly 0 0) (APoly 0 0)) (AScale (APoly 0 0) (-1)).
Definition vn_run97 (y : F97) : option (seq (seq F97)) :=
  if params_new E97 3 is Some ps then
  if domain_new (e_rou E97) (e_zeta E97) (e_S E97) 3 3 is Some d then
  if coeff_to_extended (e_threads E97) d [:: 49%:R; 0; 0; 0; 49%:R; 0; 0; 0] is Some cos then
  if vanishing_construct E97 ps d [:: cos] [:: vn_ast97; vn_ast97] y (VCommitted [::] 0) (Wst [:: 9%N] [:: 1%N] 0) is Ok (r, _)
  then Some (vn_pieces r) else None else None else None else None.
(* h = (y + 1) / 4 *)
Example C30_run : vn_run97 2%:R = Some [:: [:: 3%:R / 4%:R; 0; 0; 0; 0; 0; 0; 0]; nseq 8 0].
Proof. by vm_compute. Qed.

Section VnPoly.
Add Ring vn_polyring : (C_ring_theory [comRingType of {poly F97}]).
Lemma vn_sq97 : ('X^4 + 1) * ('X^4 + 1) = 'X^8 - 1 + ('X^4 + 1 + ('X^4 + 1)) :> {poly F97}.
Proof.
rewrite -[8%N]/(4 + 4)%N exprD; move: ('X^4 : {poly F97}) => z.
by cnorm [comRingType of {poly F97}]; ring.
Qed.
End VnPoly.
Lemma vn_poly97 (w : F97) : expr_poly w (nth 0 [:: vn_col97]) vn_ast97 = (4%:R^-1 : F97) *: ('X^8 - 1).
Proof.
rewrite /expr_poly /vn_ast97 /= /rotated expr0z scale1r comp_polyXr /vn_col97.
rewrite -!scalerAl -scalerAr scalerA vn_sq97 scalerDr [_ * (-1)%:P]mulrC mul_polyC scalerA -mulr2n -scaler_nat scalerA.
have -> : (2%:R^-1 * -1 : F97) = - (2%:R^-1 / 2%:R * 2%:R) by apply/eqP; vm_compute.
have -> : (2%:R^-1 / 2%:R : F97) = 4%:R^-1 by apply/eqP; vm_compute.
by rewrite scaleNr addrK.
Qed.
Example C30_hypotheses : exists ps d,
  [/\ params_ok E97 ps, p_k ps = 3%N, domain_new (e_rou E97) (e_zeta E97) (e_S E97) 3 (p_k ps) = Some d &
  [/\ all (fun a => all (fun l => (l.1 < 1)%N && (`|l.2| <= 8)%N) (leaves a)) [:: vn_ast97],
      all (fun a => size (expr_poly (d_omega d) (nth 0%R [:: vn_col97]) a) <= (3 * 7).+1)%N [:: vn_ast97] &
      vanish_on_domain (d_omega d) 8 (nth 0 [:: vn_col97]) [:: vn_ast97]]].
Proof.
have [ps eps [pok [ek _]]] := @C11_params_new _ _ _ E97 E97_ok 3 isT isT.
have [d hd] : exists d, domain_new (e_rou E97) (e_zeta E97) (e_S E97) 3 3 = Some d.
  by have [[_ H] _] := C03_domain_new 3 3 constants97; apply: H.
have hd' : domain_new (e_rou E97) (e_zeta E97) (e_S E97) 3 (p_k ps) = Some d by rewrite ek.
have hw := ok_omega_prim (dok E97_ok hd').
exists ps, d; split; [exact: pok|exact: ek|exact: hd'|].
have h8 : (8.-primitive_root (d_omega d))%R by rewrite ek in hw.
clear -h8; move: (d_omega d) h8 => w h8; split; [by vm_compute| |].
  rewrite all_seq1 vn_poly97; apply: leq_trans (size_scale_leq _ _) _.
  by rewrite size_Xn_sub_1.
move=> i _; rewrite all_seq1; apply/eqP.
rewrite -[expr_at _ _ _ _]/((expr_poly w (nth 0 [:: vn_col97]) vn_ast97).[w ^+ i]) vn_poly97.
by rewrite hornerZ hornerD hornerN hornerC hornerXn -exprM mulnC exprM (prim_expr_order h8) expr1n subrr mulr0.
Qed.
