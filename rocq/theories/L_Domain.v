Set Warnings "-notation-overridden,-ambiguous-paths".
From mathcomp Require Import all_ssreflect all_algebra.
From Verif Require Import FieldTac Util M_FFT S_FFT L_FFT M_Poly L_Poly M_Domain.
Import GRing.Theory.
Set Implicit Arguments.
Unset Strict Implicit.
Local Open Scope ring_scope.

Section PrimRoots.
Variable F : fieldType.
Add Field Ff : (F_field_theory F).
Implicit Types (w x z : F) (p q : {poly F}).

Lemma iter_square m x : iter m (fun w => w ^+ 2) x = x ^+ (2 ^ m).
Proof. by elim: m => [|m IH] //=; rewrite IH -exprM -expnSr. Qed.

Lemma prim2_half m w : (2 ^ m.+1).-primitive_root w -> w ^+ (2 ^ m) = -1.
Proof.
move=> hw; have h2 : (w ^+ (2 ^ m)) ^+ 2 = 1.
  by rewrite -exprM -expnSr prim_expr_order.
have h1 : w ^+ (2 ^ m) != 1.
  rewrite -(prim_order_dvd hw) gtnNdvd // ?expn_gt0 //.
  by rewrite ltn_exp2l.
move/eqP: h2; rewrite sqrf_eq1 (negbTE h1) /= => /eqP //.
Qed.

Lemma prim2_neq0 m w : (2 ^ m).-primitive_root w -> ((2 ^ m)%N%:R : F) != 0.
Proof.
case: m => [|m] hw; first by rewrite expn0 oner_neq0.
rewrite natrX expf_neq0 //; apply/negP => /eqP h2.
have hm := prim2_half hw.
have h : w ^+ (2 ^ m) = 1.
  by apply/eqP; rewrite hm -subr_eq0 -opprD oppr_eq0 -[1 + 1]/(2%:R) h2.
have := prim_order_dvd hw (2 ^ m); rewrite h eqxx gtnNdvd ?expn_gt0 ?ltn_exp2l //.
Qed.

Lemma prim_neq0 n w : n.-primitive_root w -> w != 0.
Proof.
move=> hw; apply/negP => /eqP h0; have := prim_expr_order hw.
rewrite h0 expr0n; have := prim_order_gt0 hw; case: n {hw} => //= n _ /eqP.
by rewrite eq_sym oner_eq0.
Qed.

Lemma prim_inv_half m w : (2 ^ m).-primitive_root w ->
  (0 < m)%N -> (w^-1) ^+ (2 ^ m.-1) = -1.
Proof. by case: m => // m hw _; rewrite exprVn prim2_half // invrN invr1. Qed.

Lemma prim_half m w : (2 ^ m).-primitive_root w -> (0 < m)%N -> w ^+ (2 ^ m.-1) = -1.
Proof. by case: m => // m hw _; apply: prim2_half. Qed.

(* orthogonality of characters *)
Lemma prim_orth n w m j : n.-primitive_root w -> (m < n)%N -> (j < n)%N ->
  \sum_(i < n) w ^+ (m * i) * (w^-1) ^+ (i * j) = (if m == j then n%:R else 0).
Proof.
move=> hw hm hj; have w0 := prim_neq0 hw.
have e (i : nat) : w ^+ (m * i) * (w^-1) ^+ (i * j) = (w ^+ m / w ^+ j) ^+ i.
  by rewrite exprMn !exprVn -!exprM [(j * i)%N]mulnC.
under eq_bigr do rewrite e.
case: eqP => [->|/eqP nmj].
  by under eq_bigr do rewrite divff ?expf_neq0 // expr1n; rewrite sumr_const card_ord.
set z := _ / _.
have z1 : z != 1.
  apply: contra nmj; rewrite /z => /eqP h.
  have : w ^+ m == w ^+ j.
    by apply/eqP; rewrite -[RHS]mul1r -h mulfVK // expf_neq0.
  by rewrite (eq_prim_root_expr hw) !modn_small.
have : (z - 1) * (\sum_(i < n) z ^+ i) = 0.
  rewrite -subrX1 /z exprMn exprVn -!exprM ![(_ * n)%N]mulnC !exprM.
  by rewrite (prim_expr_order hw) !expr1n divr1 subrr.
by move/eqP; rewrite mulf_eq0 subr_eq0 (negbTE z1) => /eqP.
Qed.

Lemma prim_points_uniq n w : n.-primitive_root w -> uniq [seq w ^+ i | i <- iota 0 n].
Proof.
move=> hw; rewrite map_inj_in_uniq ?iota_uniq // => i j.
rewrite !mem_iota !add0n => /= hi hj /eqP.
by rewrite (eq_prim_root_expr hw) !modn_small // => /eqP.
Qed.

(* a polynomial of size <= n is determined by its values on the powers of w *)
Lemma prim_poly_eq n w p q : n.-primitive_root w -> (size p <= n)%N -> (size q <= n)%N ->
  (forall i, (i < n)%N -> p.[w ^+ i] = q.[w ^+ i]) -> p = q.
Proof.
move=> hw hp hq h.
apply: (@poly_interp_unique _ _ _ [seq w ^+ i | i <- iota 0 n]).
- exact: prim_points_uniq.
- by rewrite size_map size_iota.
- by rewrite size_map size_iota.
by move=> x /mapP [i]; rewrite mem_iota add0n /= => hi ->; apply: h.
Qed.

(* the inverse transform as a coefficient list *)
Definition idft (w : F) (a : seq F) : seq F :=
  mkseq (fun i => (\sum_(j < size a) (w^-1) ^+ (i * j) * nth 0 a j) * ((size a)%:R)^-1) (size a).

Lemma idft_eval n w a m : n.-primitive_root w -> n%:R != 0 :> F -> size a = n -> (m < n)%N ->
  (Poly (idft w a)).[w ^+ m] = nth 0 a m.
Proof.
move=> hw hn hs hm; rewrite horner_PolyE size_mkseq hs.
have : \sum_(j < n) nth 0 a j * n%:R^-1 *
   (\sum_(i < n) w ^+ (m * i) * (w^-1) ^+ (i * j)) = nth 0 a m.
  rewrite (bigD1 (Ordinal hm)) //= prim_orth // eqxx mulfVK // big1 ?addr0 // => j hj.
  rewrite prim_orth // [_ == _]negbTE ?mulr0 // eq_sym.
  by move: hj; rewrite -(inj_eq val_inj).
move=> <-.
under [RHS]eq_bigr do rewrite mulr_sumr.
rewrite exchange_big /=; apply: eq_bigr => i _.
rewrite nth_mkseq ?hs // !mulr_suml; apply: eq_bigr => j _.
rewrite -exprM; move: (w ^+ _) (w^-1 ^+ _) (nth 0 a j) (n%:R^-1) => u v s t.
fnorm F; ring.
Qed.

Lemma idft_coef n w a p : n.-primitive_root w -> n%:R != 0 :> F -> size a = n ->
  (size p <= n)%N -> (forall i, (i < n)%N -> nth 0 a i = p.[w ^+ i]) ->
  idft w a = mkseq (fun i => p`_i) n.
Proof.
move=> hw hn hs hp h.
have e : Poly (idft w a) = p.
  apply: (prim_poly_eq hw) => //.
    by apply: leq_trans (size_Poly _) _; rewrite size_mkseq hs.
  by move=> i hi; rewrite (idft_eval hw) // h.
apply: (@eq_from_nth _ 0); first by rewrite !size_mkseq.
rewrite size_mkseq hs => i hi; rewrite [RHS]nth_mkseq // -{1}e coef_Poly //.
Qed.

(* p(z X) *)
Definition scalep (z : F) p : {poly F} := \poly_(i < size p) (z ^+ i * p`_i).
Lemma scalep_coef z p i : (scalep z p)`_i = z ^+ i * p`_i.
Proof.
rewrite coef_poly; case: ltnP => // h.
by rewrite [p`_i]nth_default // mulr0.
Qed.
Lemma size_scalep z p : (size (scalep z p) <= size p)%N.
Proof. exact: size_poly. Qed.
Lemma horner_scalep z p x : (scalep z p).[x] = p.[z * x].
Proof.
rewrite (@horner_coef_wide _ (size p)) ?size_scalep // horner_coef.
apply: eq_bigr => i _; rewrite scalep_coef exprMn.
by rewrite mulrAC mulrC.
Qed.
Lemma size_resize0 (a : seq F) m : size (resize0 a m) = m.
Proof.
rewrite /resize0 size_cat size_take size_nseq; case: ltnP => h; nlia.
Qed.

Lemma nth_resize0 (a : seq F) m i : (size a <= m)%N -> nth 0 (resize0 a m) i = nth 0 a i.
Proof.
move=> h; rewrite /resize0 take_oversize // nth_cat; case: ltnP => // hi.
by rewrite nth_nseq if_same nth_default.
Qed.

Lemma nth_rotate_by (T : Type) (x0 : T) (s : seq T) neg m i : (m <= size s)%N -> (i < size s)%N ->
  exists2 s', rotate_by s neg m = Some s' &
  size s' = size s /\
  nth x0 s' i = nth x0 s ((i + (if neg then size s - m else m)) %% size s)%N.
Proof.
move=> hm hi.
have key (q : nat) : (q <= size s)%N ->
  size (drop q s ++ take q s) = size s /\
  nth x0 (drop q s ++ take q s) i = nth x0 s ((i + q) %% size s)%N.
  move=> hq; split; first by rewrite size_cat size_drop size_takel // subnK.
  rewrite nth_cat size_drop; case: ltnP => h.
    rewrite nth_drop modn_small ?[(i + q)%N]addnC //; nlia.
  have -> : (i + q = (i - (size s - q)) + size s)%N by nlia.
  have h2 : (i - (size s - q) < q)%N by nlia.
  by rewrite modnDr modn_small ?nth_take //; nlia.
rewrite /rotate_by; case: neg; rewrite /rotate_left /rotate_right hm.
- by eexists=> //; apply: key; apply: leq_subr.
by eexists=> //; apply: key.
Qed.

Lemma rotate_by_some (T : Type) (s : seq T) neg m : (m <= size s)%N ->
  exists2 s', rotate_by s neg m = Some s' & size s' = size s.
Proof.
move=> hm; rewrite /rotate_by; case: neg; rewrite /rotate_left /rotate_right hm;
eexists => //; rewrite size_cat size_drop size_takel ?leq_subr // ?subKn ?subnK //.
by rewrite subnKC.
Qed.

Lemma pow_shift (w : F) n (r : int) (s : nat) i : w ^+ n = 1 -> (s * `|r| <= n)%N -> w != 0 ->
  w ^+ ((i + (if rot_neg r then n - s * `|r| else s * `|r|)) %% n)%N = w ^+ i * (w ^+ s) ^ r.
Proof.
move=> hw hr w0; rewrite -[LHS]mul1r.
have md t : w ^+ (t %% n) = w ^+ t.
  by rewrite [in RHS](divn_eq t n) exprD mulnC exprM hw expr1n mul1r.
rewrite mul1r md exprD; congr (_ * _); rewrite /rot_neg.
case: r hr => r hr /=.
  by rewrite -exprnP -exprM.
apply: (mulIf (expf_neq0 (s * r.+1) w0)).
rewrite -exprD subnK // hw exprM NegzE -exprnN mulVf //.
by rewrite !expf_neq0.
Qed.
End PrimRoots.

Section D.
Variable F : fieldType.
Add Field Ff2 : (F_field_theory F).
Variables (rou zeta : F) (S : nat).
Hypothesis rou_prim : (2 ^ S).-primitive_root rou.
Hypothesis zeta3 : zeta ^+ 3 = 1.
Hypothesis zeta1 : zeta != 1.

Lemma zeta_neq0 : zeta != 0.
Proof.
apply/negP => /eqP h; move: zeta3; rewrite h expr0n /= => /eqP.
by rewrite eq_sym oner_eq0.
Qed.

Lemma zeta_pow2 m : zeta ^+ (2 ^ m) != 1.
Proof.
suff H : zeta ^+ (2 ^ m) = zeta \/ zeta ^+ (2 ^ m) = zeta ^+ 2.
  case: H => -> //; apply/negP => /eqP h; move: zeta3; rewrite exprS h mulr1 => h1.
  by move: zeta1; rewrite h1 eqxx.
elim: m => [|m [] IH]; first by left.
  by right; rewrite expnSr exprM IH.
by left; rewrite expnSr exprM IH -exprM (_ : 2 * 2 = 3 + 1)%N // exprD zeta3 mul1r.
Qed.

Lemma coset_nonzero m k w : w ^+ (2 ^ m) = 1 -> zeta ^+ (2 ^ k) * w != 1.
Proof.
move=> hw; apply/negP => /eqP h.
have := congr1 (fun x => x ^+ (2 ^ m)) h; rewrite /= exprMn hw mulr1 expr1n -exprM -expnD.
by move/eqP; rewrite (negbTE (zeta_pow2 _)).
Qed.

(* What a domain returned by [domain_new] satisfies. *)
Record dom_ok (j k : nat) (d : domain F) : Prop := DomOk {
  ok_j : (0 < j)%N;
  ok_n : d_n d = (2 ^ k)%N;
  ok_k : d_k d = k;
  ok_kek : (k <= d_ek d)%N;
  ok_ekS : (d_ek d <= S)%N;
  ok_qd : d_qd d = (j - 1)%N;
  ok_room : (2 ^ k * (j - 1) <= 2 ^ d_ek d)%N;
  ok_ext : (2 ^ d_ek d).-primitive_root (d_ext_omega d);
  ok_ext_rou : d_ext_omega d = rou ^+ (2 ^ (S - d_ek d));
  ok_omega : d_omega d = d_ext_omega d ^+ (2 ^ (d_ek d - k));
  ok_omega_prim : (2 ^ k).-primitive_root (d_omega d);
  ok_omega_inv : d_omega_inv d = (d_omega d)^-1;
  ok_ext_inv : d_ext_omega_inv d = (d_ext_omega d)^-1;
  ok_coset : d_coset d = zeta;
  ok_coset_inv : d_coset_inv d = zeta ^+ 2;
  ok_div : d_ifft_divisor d = ((2 ^ k)%N%:R)^-1;
  ok_ext_div : d_ext_ifft_divisor d = ((2 ^ d_ek d)%N%:R)^-1;
  ok_bary : d_barycentric d = ((2 ^ k)%N%:R)^-1;
  ok_t_size : size (d_t_evaluations d) = (2 ^ (d_ek d - k))%N;
  ok_t : forall i, (i < 2 ^ (d_ek d - k))%N -> nth 0 (d_t_evaluations d) i =
           ((zeta * d_ext_omega d ^+ i) ^+ (2 ^ k) - 1)^-1 }.

Lemma ek_loop_ge fuel ek t : (ek <= extended_k_loop fuel ek t)%N.
Proof.
elim: fuel ek => [|f IH] ek //=; case: ifP => // _.
exact: leq_trans (leqnSn _) (IH _).
Qed.

Lemma ek_loop_room fuel ek t : (t <= 2 ^ (ek + fuel))%N ->
  (t <= 2 ^ extended_k_loop fuel ek t)%N.
Proof.
elim: fuel ek => [|f IH] ek /=; first by rewrite addn0.
by move=> h; case: ltnP => // _; apply: IH; rewrite addSnnS.
Qed.

(* it is the least sufficient exponent *)
Lemma ek_loop_least fuel ek t m : (ek <= m)%N -> (t <= 2 ^ m)%N ->
  (extended_k_loop fuel ek t <= m)%N.
Proof.
move=> + ht; elim: fuel ek => [|f IH] ek //= hm; case: ltnP => // h.
apply: IH; rewrite ltn_neqAle hm andbT; apply/negP => /eqP e.
by move: h; rewrite e ltnNge ht.
Qed.

Lemma room_qd k qd : (2 ^ k * qd <= 2 ^ (k + qd))%N.
Proof. by rewrite expnD leq_mul2l ltnW ?orbT // ltn_expl. Qed.

Lemma t_loopE m (orig step : F) fuel i : m.-primitive_root step -> orig != 0 ->
  (i < m)%N -> (m - i <= fuel)%N ->
  t_loop fuel orig step (orig * step ^+ i) = Some (mkseq (fun t => orig * step ^+ (i + t)) (m - i)).
Proof.
move=> hp h0; elim: fuel i => [|f IH] i hi hf; first by move: hf; rewrite leqn0 subn_eq0 leqNgt hi.
rewrite /= -mulrA -exprSr.
have -> : (orig * step ^+ i.+1 == orig) = (i.+1 == m)%N.
  rewrite -{2}[orig]mulr1 (inj_eq (mulfI h0)) -(prim_order_dvd hp).
  apply/idP/eqP => [|->] //; move/dvdn_leq => /(_ isT) h.
  by apply/eqP; rewrite eqn_leq hi h.
have mk n (g : nat -> F) : mkseq g n.+1 = g 0%N :: mkseq (fun t => g t.+1) n.
  by rewrite /mkseq /= -[iota 1 n]/(iota (1 + 0) n) iotaDl -map_comp.
case: eqP => [<-|/eqP ne].
  by rewrite subSnn mk addn0.
have hi' : (i.+1 < m)%N by rewrite ltn_neqAle ne.
rewrite IH //; last by nlia.
have -> : (m - i = (m - i.+1).+1)%N by nlia.
rewrite mk addn0 /=; congr (Some (_ :: _)).
by apply: eq_mkseq => t; rewrite addSnnS.
Qed.

Lemma domain_new_ok j k :
  (0 < j)%N -> (k <= S)%N -> (2 ^ k * (j - 1) <= 2 ^ S)%N ->
  exists2 d, domain_new rou zeta S j k = Some d & dom_ok j k d.
Proof.
move=> j0 kS room; rewrite /domain_new (negbTE (lt0n_neq0 j0)).
set ek := extended_k_loop _ _ _.
have hek : (ek <= S)%N by apply: ek_loop_least.
have hkek : (k <= ek)%N by apply: ek_loop_ge.
have hroom : (2 ^ k * (j - 1) <= 2 ^ ek)%N by apply: ek_loop_room; apply: room_qd.
rewrite hek [~~ true]/=; cbv zeta; rewrite !iter_square.
set W := rou ^+ _.
have expdiv a b : (a <= b)%N -> (2 ^ b %/ 2 ^ a = 2 ^ (b - a))%N.
  by move=> h; rewrite -{1}(subnK h) expnD mulnK // expn_gt0.
have hW : (2 ^ ek).-primitive_root W.
  by have := dvdn_prim_root rou_prim (dvdn_exp2l 2 hek); rewrite expdiv.
have hw : (2 ^ k).-primitive_root (W ^+ (2 ^ (ek - k))).
  by have := dvdn_prim_root hW (dvdn_exp2l 2 hkek); rewrite expdiv.
have hstep : (2 ^ (ek - k)).-primitive_root (W ^+ (2 ^ k)).
  have := dvdn_prim_root hW (dvdn_exp2l 2 (leq_subr k ek)).
  by rewrite expdiv ?leq_subr // subKn.
have z0 : zeta ^+ (2 ^ k) != 0 by rewrite expf_neq0 // zeta_neq0.
have := t_loopE (fuel := (2 ^ (ek - k)).+1) hstep z0 (i := 0) _ _.
rewrite expr0 mulr1 subn0 => -> //; last by rewrite expn_gt0.
rewrite size_mkseq eqxx.
eexists; first by [].
split=> //=.
- by rewrite size_map size_map size_mkseq.
move=> i hi; rewrite /batch_invert.
rewrite (nth_map (0 : F)); last by rewrite size_map size_mkseq.
rewrite (nth_map (0 : F)); last by rewrite size_mkseq.
by rewrite nth_mkseq // add0n exprMn -!exprM [(2 ^ k * i)%N]mulnC.
Qed.

Lemma domain_new_inv j k d : domain_new rou zeta S j k = Some d -> dom_ok j k d.
Proof.
move=> h; have h' := h; move: h'.
rewrite /domain_new; case: eqP => // /eqP j0.
case: ifP => // /negbFE hek _.
have j0' : (0 < j)%N by rewrite lt0n.
have kS : (k <= S)%N by apply: leq_trans (ek_loop_ge _ _ _) hek.
have room : (2 ^ k * (j - 1) <= 2 ^ S)%N.
  apply: leq_trans (_ : _ <= 2 ^ _)%N (leq_pexp2l _ hek) => //.
  by apply: ek_loop_room; apply: room_qd.
have [d' h2 ok] := domain_new_ok j0' kS room.
by move: h; rewrite h2 => -[<-].
Qed.

Variable threads : nat.
Hypothesis threads0 : (0 < threads)%N.
Variables (j k : nat) (d : domain F).
Hypothesis ok : dom_ok j k d.

Local Notation W := (d_ext_omega d).
Local Notation N := (2 ^ d_ek d)%N.

Lemma N0 : (N%:R : F) != 0. Proof. exact: prim2_neq0 (ok_ext ok). Qed.
Lemma n0 : ((2 ^ k)%N%:R : F) != 0. Proof. exact: prim2_neq0 (ok_omega_prim ok). Qed.
Lemma zt0 : zeta != 0. Proof. exact: zeta_neq0. Qed.

Lemma mapi_from_map T U (f : T -> U) b s : mapi_from b (fun _ => f) s = map f s.
Proof. by elim: s b => //= x s IH b; rewrite IH. Qed.

Lemma parallelize_map (v : seq F) (g : F -> F) : (0 < size v)%N ->
  parallelize threads v (fun c _ => map g c) = Some (map g v).
Proof.
move=> hv; have := parallelize_mapi (fun _ => g) threads0 hv.
rewrite /mapi mapi_from_map => <-; rewrite /parallelize; case: ifP => // _.
congr (Some (flatten _)); rewrite /mapi.
by elim: (chunks _ _) 0%N => //= c cs IH m; rewrite IH mapi_from_map.
Qed.

Lemma ifftE (a : seq F) m (w : F) : (2 ^ m).-primitive_root w -> size a = (2 ^ m)%N ->
  ifft threads a w^-1 m ((2 ^ m)%N%:R)^-1 = Some (idft w a).
Proof.
move=> hw hs; rewrite /ifft best_fft_correct //; last exact: prim_inv_half.
rewrite /= parallelize_map ?size_mkseq ?hs ?expn_gt0 //; congr Some.
rewrite /dft /idft hs /mkseq -map_comp; apply: eq_map => i /=.
by [].
Qed.

Lemma lagrange_to_coeffE a : size a = (2 ^ k)%N ->
  lagrange_to_coeff threads d a = Some (idft (d_omega d) a).
Proof.
move=> hs; rewrite /lagrange_to_coeff (ok_k ok) hs eqxx (ok_omega_inv ok) (ok_div ok).
exact: ifftE (ok_omega_prim ok) hs.
Qed.

Lemma zeta_mod i : zeta ^+ (i %% 3) = zeta ^+ i.
Proof. by rewrite {2}(divn_eq i 3) exprD mulnC exprM zeta3 expr1n mul1r. Qed.

Lemma distributeE (a : seq F) (b : bool) : (0 < size a)%N ->
  distribute_powers_zeta threads d a b =
  Some (mapi (fun i x => (if b then zeta else zeta^-1) ^+ i * x) a).
Proof.
move=> h; rewrite /distribute_powers_zeta parallelize_mapi //; congr Some.
apply: (@eq_from_nth _ 0); first by rewrite !size_mapi.
rewrite size_mapi => i hi; rewrite !(nth_mapi _ 0) // (ok_coset ok) (ok_coset_inv ok).
have zV : zeta^-1 = zeta ^+ 2.
  by apply: (mulfI zt0); rewrite mulfV ?zt0 // -exprS zeta3.
have hm : (i %% 3 < 3)%N by rewrite ltn_mod.
case: b.
  rewrite -[zeta ^+ i]zeta_mod; case: (i %% 3)%N hm => [|[|[|]]] //= _.
  - by rewrite expr0 mul1r.
  - by rewrite expr1 mulrC.
  by rewrite mulrC.
rewrite zV -exprM mulnC exprM -[zeta ^+ i]zeta_mod.
case: (i %% 3)%N hm => [|[|[|]]] //= _.
- by rewrite expr0 expr1n mul1r.
- by rewrite expr1 mulrC.
by rewrite -exprM (_ : 2 * 2 = 3 + 1)%N // exprD zeta3 mul1r expr1 mulrC.
Qed.



Lemma kN : (2 ^ k <= N)%N. Proof. exact: leq_pexp2l (ok_kek ok). Qed.

(* evaluations on the coset *)
Definition coset_evals (p : {poly F}) : seq F := mkseq (fun i => p.[zeta * W ^+ i]) N.

Lemma coeff_to_extendedE a : size a = (2 ^ k)%N ->
  coeff_to_extended threads d a = Some (coset_evals (Poly a)).
Proof.
move=> hs; rewrite /coeff_to_extended (ok_k ok) hs eqxx distributeE ?hs ?expn_gt0 //=.
rewrite best_fft_correct //; last first.
- exact: prim_half (ok_ext ok).
- by rewrite size_resize0.
congr Some; rewrite /dft size_resize0; apply: eq_mkseq => i.
rewrite (horner_PolyE_wide (n := N)); last by rewrite hs kN.
apply: eq_bigr => l _; rewrite nth_resize0 ?size_mapi ?hs ?kN //.
rewrite exprMn -exprM.
case: (ltnP l (2 ^ k)) => hl.
  by rewrite (nth_mapi _ 0) ?hs // /GRing.scale /= mulrC mulrA [a`_l * _]mulrC.
by rewrite !nth_default ?size_mapi ?hs // scaler0 mul0r.
Qed.

Lemma extended_to_coeffE (p : {poly F}) : (size p <= N)%N ->
  extended_to_coeff threads d (coset_evals p) = Some (mkseq (fun i => p`_i) (2 ^ k * (j - 1))).
Proof.
move=> hp; rewrite /extended_to_coeff size_mkseq eqxx (ok_ext_inv ok) (ok_ext_div ok).
rewrite (ifftE (ok_ext ok)) ?size_mkseq //.
rewrite (idft_coef (n := N) (p := scalep zeta p) (ok_ext ok)) ?size_mkseq ?N0 //; first last.
- by move=> i hi; rewrite nth_mkseq // horner_scalep.
- exact: leq_trans (size_scalep _ _) hp.
rewrite /= distributeE ?size_mkseq ?expn_gt0 //= (ok_n ok) (ok_qd ok); congr Some.
apply: (@eq_from_nth _ 0).
  by rewrite size_takel ?size_mapi ?size_mkseq // (ok_room ok).
move=> i; rewrite size_takel ?size_mapi ?size_mkseq ?(ok_room ok) // => hi.
have hiN : (i < N)%N := leq_trans hi (ok_room ok).
rewrite nth_take // (nth_mapi _ 0) ?size_mkseq // !nth_mkseq // scalep_coef.
by rewrite exprVn mulKf // expf_neq0 // zt0.
Qed.

Lemma wn1 : d_omega d ^+ (2 ^ k) = 1. Proof. exact: prim_expr_order (ok_omega_prim ok). Qed.

Lemma divide_by_vanishingE (q : {poly F}) :
  divide_by_vanishing_poly threads d (coset_evals (q * ('X^(2 ^ k) - 1))) = Some (coset_evals q).
Proof.
rewrite /divide_by_vanishing_poly size_mkseq eqxx.
rewrite parallelize_mapi ?size_mkseq ?expn_gt0 //; congr Some.
apply: (@eq_from_nth _ 0); rewrite size_mapi !size_mkseq // => i hi.
rewrite (nth_mapi _ 0) ?size_mkseq // !nth_mkseq // (ok_t_size ok) (ok_t ok); last first.
  by rewrite ltn_mod expn_gt0.
rewrite hornerM !hornerE hornerXn.
have -> : (zeta * W ^+ (i %% 2 ^ (d_ek d - k))) ^+ (2 ^ k) = (zeta * W ^+ i) ^+ (2 ^ k).
  rewrite !exprMn; congr (_ * _); rewrite -!exprM.
  apply/eqP; rewrite (eq_prim_root_expr (ok_ext ok)).
  rewrite -(subnK (ok_kek ok)) expnD -!muln_modl ?expn_gt0 // addnK modn_mod //.
rewrite mulfK // subr_eq0 exprMn -exprM mulnC exprM.
apply: (@coset_nonzero (d_ek d - k)).
rewrite -!exprM mulnAC mulnC -expnD subnKC ?(ok_kek ok) //.
by rewrite mulnC exprM (prim_expr_order (ok_ext ok)) expr1n.
Qed.

Lemma omega0 : d_omega d != 0. Proof. exact: prim_neq0 (ok_omega_prim ok). Qed.

Lemma rotate_omegaE v r : rotate_omega d v r = v * d_omega d ^ r.
Proof.
rewrite /rotate_omega (ok_omega_inv ok); case: r => m //=.
by rewrite exprVn.
Qed.

Lemma omega_int r : exists2 i, (i < 2 ^ k)%N & d_omega d ^ r = d_omega d ^+ i.
Proof.
have h : (d_omega d ^ r) ^+ (2 ^ k) = 1.
  by rewrite (exprnP _ (2 ^ k)) exprz_exp mulrC -exprz_exp -exprnP wn1 exp1rz.
have [i hi] := prim_rootP (ok_omega_prim ok) h.
by exists i.
Qed.

(* Lagrange basis *)
Lemma lagrange_basis_value (l : {poly F}) m (x : F) :
  (m < 2 ^ k)%N -> (size l <= 2 ^ k)%N -> l.[d_omega d ^+ m] = 1 ->
  (forall i, (i < 2 ^ k)%N -> i != m -> l.[d_omega d ^+ i] = 0) ->
  x ^+ (2 ^ k) != 1 ->
  l.[x] = (x - d_omega d ^+ m)^-1 * ((x ^+ (2 ^ k) - 1) * ((2 ^ k)%N%:R)^-1) * d_omega d ^+ m.
Proof.
clear zeta1 threads0 zeta3 rou_prim.
set w := d_omega d; set n := (2 ^ k)%N => hm hl h1 h0 hx.
set a := w ^+ m.
have an : a ^+ n = 1 by rewrite /a -exprM mulnC exprM wn1 expr1n.
pose L : {poly F} := \poly_(i < n) (a / n%:R * a ^+ (n.-1 - i)).
have L_x y : L.[y] * (y - a) = a / n%:R * (y ^+ n - 1).
  have -> : y ^+ n - 1 = y ^+ n - a ^+ n by rewrite an.
  rewrite horner_poly subrXX [LHS]mulrC [RHS]mulrCA; congr (_ * _).
  rewrite mulr_sumr [RHS](reindex_inj rev_ord_inj) /=; apply: eq_bigr => i _.
  have -> : (n.-1 - (n - i.+1) = i)%N by have := ltn_ord i; nlia.
  have -> : (n - i.+1 = n.-1 - i)%N by nlia.
  by rewrite -mulrA [a ^+ _ * _]mulrC.
have n_0 : (n%:R : F) != 0 := n0.
have a0 : a != 0 by rewrite expf_neq0 // omega0.
have e : l = L.
  apply: (prim_poly_eq (ok_omega_prim ok)) => //; first exact: size_poly.
  move=> i hi; case: (eqVneq i m) => [->|ne].
    rewrite h1 horner_poly -/a (eq_bigr (fun=> n%:R^-1)); last first.
      move=> t _; rewrite -mulrA -exprD subnK; last by have := ltn_ord t; nlia.
      by rewrite mulrAC -exprS prednK ?expn_gt0 // an mul1r.
    by rewrite sumr_const card_ord -[RHS]mulr_natl mulfV.
  rewrite h0 //; apply/esym/eqP; have := L_x (w ^+ i).
  rewrite -exprM mulnC exprM wn1 expr1n subrr mulr0 => /eqP.
  rewrite mulf_eq0 subr_eq0 (eq_prim_root_expr (ok_omega_prim ok)) !modn_small //.
  by rewrite (negbTE ne) orbF.
have xa : x - a != 0.
  by rewrite subr_eq0; apply: contra hx => /eqP ->; rewrite an.
rewrite e; apply: (mulIf xa); rewrite L_x.
by rewrite -!mulrA [RHS]mulrCA; move: (x ^+ n - 1) n_0 xa => u; move: (n%:R) (x - a) => v t v0 t0;
  fnorm F; field; split; apply/eqP.
Qed.

Lemma l_i_rangeE (x : F) (rs : seq int) i : (i < size rs)%N ->
  nth 0 (l_i_range d x (x ^+ (2 ^ k)) rs) i =
  (x - d_omega d ^ (nth 0 rs i))^-1 * ((x ^+ (2 ^ k) - 1) * ((2 ^ k)%N%:R)^-1)
   * d_omega d ^ (nth 0 rs i).
Proof.
move=> hi; have hz : size rs = size (batch_invert [seq x - rotate_omega d 1 r | r <- rs]).
  by rewrite !size_map.
rewrite (nth_map (0 : int, 0 : F)) ?size_zip -?hz ?minnn //.
rewrite nth_zip // rotate_omegaE /= (ok_bary ok) /batch_invert.
rewrite (nth_map (0 : F)) ?size_map // (nth_map (0 : int)) //.
by rewrite rotate_omegaE mul1r.
Qed.

(* rotations *)


(* index shift by a multiple of the stride is multiplication by a power of the generator *)

Lemma rotate_extendedE (p : {poly F}) (r : int) : (`|r| <= 2 ^ k)%N ->
  rotate_extended d (coset_evals p) r = Some (coset_evals (scalep (d_omega d ^ r) p)).
Proof.
move=> hr; rewrite /rotate_extended (ok_k ok).
have hm : (2 ^ (d_ek d - k) * `|r| <= N)%N.
  apply: leq_trans (_ : 2 ^ (d_ek d - k) * 2 ^ k <= _)%N; first by rewrite leq_mul2l hr orbT.
  by rewrite -expnD subnK ?(ok_kek ok).
have hm' : (2 ^ (d_ek d - k) * `|r| <= size (coset_evals p))%N by rewrite size_mkseq.
have [s' e hs] := rotate_by_some (rot_neg r) hm'.
rewrite e; congr Some; apply: (@eq_from_nth _ 0); first by rewrite hs !size_mkseq.
rewrite hs size_mkseq => i hi; rewrite nth_mkseq // horner_scalep.
have hi' : (i < size (coset_evals p))%N by rewrite size_mkseq.
have [s2] := nth_rotate_by 0 (rot_neg r) hm' hi'.
rewrite e => -[<-] [_ ->]; rewrite !size_mkseq nth_mkseq ?ltn_mod ?expn_gt0 //.
rewrite pow_shift ?(prim_expr_order (ok_ext ok)) ?(prim_neq0 (ok_ext ok)) //.
by rewrite -(ok_omega ok) mulrA mulrC.
Qed.

Lemma poly_rotateE (p : {poly F}) (r : int) : (`|r| <= 2 ^ k)%N ->
  poly_rotate (mkseq (fun i => p.[d_omega d ^+ i]) (2 ^ k)) r =
  Some (mkseq (fun i => p.[d_omega d ^+ i * d_omega d ^ r]) (2 ^ k)).
Proof.
move=> hr; rewrite /poly_rotate; set s := mkseq _ _.
have hm : (`|r| <= size s)%N by rewrite size_mkseq.
have [s' e hs] := rotate_by_some (rot_neg r) hm.
rewrite e; congr Some; apply: (@eq_from_nth _ 0); first by rewrite hs !size_mkseq.
rewrite hs => i hi; rewrite nth_mkseq; last by move: hi; rewrite size_mkseq.
have [s2] := nth_rotate_by 0 (rot_neg r) hm hi.
rewrite e => -[<-] [_ ->]; rewrite !size_mkseq nth_mkseq ?ltn_mod ?expn_gt0 //.
rewrite -[in X in (_ + X)%N](mul1n `|r|%N) pow_shift ?wn1 ?mul1n ?omega0 //.
Qed.
End D.
