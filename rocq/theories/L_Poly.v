Set Warnings "-notation-overridden,-ambiguous-paths".
From mathcomp Require Import all_ssreflect all_algebra.
From Verif Require Import FieldTac Util M_Poly.
Import GRing.Theory.
Set Implicit Arguments.
Unset Strict Implicit.
Local Open Scope ring_scope.

Lemma flatten_mapi_chunks T (g : nat -> T -> T) chunk m (v : seq T) : (0 < chunk)%N ->
  flatten (mapi_from m (fun i c => mapi_from (i * chunk) g c) (chunks chunk v)) =
  mapi_from (m * chunk) g v.
Proof.
move=> c0; elim: {v}(size v) {-2}v (leqnn (size v)) m => [|n IH] v hv m.
  by move: hv; rewrite leqn0 => /eqP /size0nil->.
case: (posnP (size v)) => [/size0nil->|v0] //.
rewrite chunksE //= IH; last first.
  by rewrite size_drop; nlia.
rewrite -{3}(cat_take_drop chunk v) mapi_from_cat; congr cat.
case: (leqP (size v) chunk) => h; first by rewrite drop_oversize.
by rewrite size_takel ?(ltnW h) // mulSn addnC.
Qed.

Lemma parallelize_mapi T threads (v : seq T) (g : nat -> T -> T) :
  (0 < threads)%N -> (0 < size v)%N ->
  parallelize threads v (fun c start => mapi_from start g c) = Some (mapi g v).
Proof.
move=> ht hv; rewrite /parallelize.
set chunk := (if (_ < _)%N then _ else _).
have c0 : (0 < chunk)%N.
  by rewrite /chunk; case: (ltnP (size v %/ threads) threads) => // h; apply: leq_trans h.
by rewrite (negbTE (lt0n_neq0 c0)) /mapi flatten_mapi_chunks.
Qed.

Section L.
Variable F : fieldType.
Implicit Types (a q tmp points evals : seq F) (b x : F).
Add Ring polyring : (C_ring_theory [comRingType of {poly F}]).
Add Field Ff : (F_field_theory F).

Lemma Poly_cons_def x a : Poly (x :: a) = Poly a * 'X + x%:P.
Proof. by rewrite /= cons_poly_def. Qed.

Lemma horner_PolyE a x : (Poly a).[x] = \sum_(i < size a) nth 0 a i * x ^+ i.
Proof.
rewrite (@horner_coef_wide _ (size a)) ?size_Poly //.
by apply: eq_bigr => i _; rewrite coef_Poly.
Qed.

Lemma horner_PolyE_wide n a x : (size a <= n)%N ->
  (Poly a).[x] = \sum_(i < n) nth 0 a i * x ^+ i.
Proof.
move=> h; rewrite (@horner_coef_wide _ n); last exact: leq_trans (size_Poly _) h.
by apply: eq_bigr => i _; rewrite coef_Poly.
Qed.

Lemma eval_polynomial_horner a x : eval_polynomial a x = (Poly a).[x].
Proof.
rewrite /eval_polynomial; elim: a => [|c a IH]; first by rewrite horner0.
by rewrite rev_cons -cats1 foldl_cat /= IH horner_cons.
Qed.

Lemma compute_inner_productE a c : size a = size c ->
  compute_inner_product a c = Some (\sum_(i < size a) nth 0 a i * nth 0 c i).
Proof.
move=> hs; rewrite /compute_inner_product hs eqxx; congr Some.
suff H s z : foldl (fun acc (p : F * F) => acc + p.1 * p.2) z s = z + \sum_(p <- s) p.1 * p.2.
  rewrite H add0r (big_nth (0, 0)) big_mkord size_zip hs minnn.
  by apply: eq_bigr => i _; rewrite nth_zip.
elim: s z => [|p s IH] z; first by rewrite big_nil addr0.
by rewrite /= IH big_cons addrA.
Qed.

(** kate division *)
Lemma kate_loop_cat b tm s r :
  kate_loop b tm (rcons s r) =
  rcons (kate_loop b tm s) (r - last tm [seq y * b | y <- kate_loop b tm s]).
Proof. by elim: s tm => [|y s IH] tm //=; rewrite IH. Qed.

Definition kateQ b a := rev (kate_loop (- b) 0 (rev a)).

Lemma kateQ_cons b y a : kateQ b (y :: a) = (y + b * head 0 (kateQ b a)) :: kateQ b a.
Proof.
rewrite /kateQ rev_cons kate_loop_cat rev_rcons; congr (_ :: _).
case: (kate_loop _ _ _) / lastP => [|s z]; first by rewrite /= mulr0 subr0 addr0.
by rewrite map_rcons last_rcons rev_rcons /= mulrN opprK mulrC.
Qed.

Lemma head_kateQ b a : head 0 (kateQ b a) = (Poly a).[b].
Proof.
elim: a => [|y a IH]; first by rewrite horner0.
by rewrite kateQ_cons /= IH horner_cons addrC mulrC.
Qed.

Lemma kateQ_spec b y a :
  Poly (kateQ b a) * ('X - b%:P) = Poly (y :: a) - (Poly (y :: a)).[b]%:P.
Proof.
elim: a y => [|z a IH] y.
  by rewrite /kateQ /= polyC0 mul0r !cons_poly_def mul0r add0r hornerC subrr.
rewrite kateQ_cons.
have := IH z; rewrite !Poly_cons_def head_kateQ.
have -> : z + b * (Poly a).[b] = (Poly a * 'X + z%:P).[b].
  by rewrite hornerMXaddC addrC mulrC.
move: (Poly a * 'X + z%:P) => P h.
rewrite hornerMXaddC polyCD polyCM mulrDl mulrAC h.
by move: (P.[b])%:P y%:P b%:P => v y' b'; cnorm [comRingType of {poly F}]; ring.
Qed.

Lemma kate_divisionE b y a : kate_division (y :: a) b = Some (kateQ b a).
Proof.
rewrite /kate_division /=; congr (Some (rev (kate_loop _ _ _))).
by rewrite rev_cons -cats1 take_size_cat // size_rev.
Qed.

Lemma size_kateQ b a : size (kateQ b a) = size a.
Proof.
rewrite /kateQ size_rev; have : size (rev a) = size a by rewrite size_rev.
move: (rev a) 0 (size a) => s t n <-; elim: s t => //= y s IH t; by rewrite IH.
Qed.

Lemma kate_division_correct a b : (0 < size a)%N ->
  exists2 q, kate_division a b = Some q &
   size q = (size a).-1 /\ Poly q * ('X - b%:P) = Poly a - (Poly a).[b]%:P.
Proof.
case: a => // y a _; exists (kateQ b a); first exact: kate_divisionE.
by rewrite size_kateQ; split=> //; exact: kateQ_spec.
Qed.

(** interpolation *)
Lemma interp_step_poly tmp x d :
  Poly (interp_step tmp (x, d)) = Poly tmp * (d%:P * ('X - x%:P)).
Proof.
apply/polyP => i; rewrite coef_Poly /interp_step.
rewrite mulrCA coefCM mulrBr coefB coefMX coefMC coef_Poly.
have sz : size (zip (rcons tmp 0) (0 :: tmp)) = (size tmp).+1.
  by rewrite size_zip size_rcons minnn.
case: (ltnP i (size tmp).+1) => hi; last first.
  rewrite nth_default ?size_map ?sz // coef_Poly !nth_default //; first by
    rewrite mul0r if_same subr0 mulr0.
    exact: ltnW.
  by case: i hi => // i; rewrite ltnS.
rewrite (nth_map (0, 0)) ?sz // nth_zip ?size_rcons //=.
rewrite nth_rcons; case: i hi => [|i] /= hi.
  have -> : (if (0 < size tmp)%N then nth 0 tmp 0 else if 0%N == size tmp then 0 else 0) = nth 0 tmp 0.
    by case: tmp {sz hi}.
  rewrite coef_Poly mul0r addr0 sub0r; move: (nth 0 tmp 0) => t; fnorm F; ring.
rewrite coef_Poly.
have -> : (if (i.+1 < size tmp)%N then nth 0 tmp i.+1 else if i.+1 == size tmp then 0 else 0) = nth 0 tmp i.+1.
  by case: ltnP => // h; rewrite if_same nth_default.
move: (nth 0 tmp _) (nth 0 tmp i) => t u; fnorm F; ring.
Qed.

Lemma size_interp_step tmp xd : size (interp_step tmp xd) = (size tmp).+1.
Proof. by case: xd => x d; rewrite size_map size_zip size_rcons minnn. Qed.

Lemma interp_fold s tmp :
  size (foldl (@interp_step F) tmp s) = (size tmp + size s)%N /\
  Poly (foldl (@interp_step F) tmp s) = Poly tmp * \prod_(p <- s) (p.2%:P * ('X - p.1%:P)).
Proof.
elim: s tmp => [|[x d] s IH] tmp; first by rewrite big_nil mulr1 addn0.
rewrite /= big_cons; case: (IH (interp_step tmp (x, d))) => -> ->.
by rewrite size_interp_step interp_step_poly addSnnS; split=> //=; rewrite !mulrA.
Qed.

Lemma size_without (T : Type) j (s : seq T) : (j < size s)%N -> size (without j s) = (size s).-1.
Proof. by move=> h; rewrite size_cat size_takel ?size_drop; nlia. Qed.

Lemma without_split (T : Type) (x0 : T) j (s : seq T) : (j < size s)%N ->
  s = take j s ++ nth x0 s j :: drop j.+1 s.
Proof. by move=> h; rewrite -drop_nth // cat_take_drop. Qed.

(* the j-th basis polynomial of the code *)
Definition basis_coeffs (points : seq F) j :=
  foldl (@interp_step F) [:: 1]
    (zip (without j points) (batch_invert [seq nth 0 points j - x_k | x_k <- without j points])).

Lemma basis_size points j : (j < size points)%N -> size (basis_coeffs points j) = size points.
Proof.
move=> hj; rewrite /basis_coeffs; rewrite (proj1 (interp_fold _ _)).
by rewrite size_zip !size_map minnn /= size_without //; nlia.
Qed.

Lemma basis_prod points j :
  Poly (basis_coeffs points j) =
  \prod_(x <- without j points) ((nth 0 points j - x)^-1%:P * ('X - x%:P)).
Proof.
rewrite /basis_coeffs; rewrite (proj2 (interp_fold _ _)).
rewrite Poly_cons_def /= polyC0 mul0r add0r mul1r /batch_invert -map_comp.
move: (nth 0 points j) => z.
by elim: (without j points) => [|x s IH] /=; rewrite ?big_nil // !big_cons /= IH.
Qed.

Lemma basis_eval points j i : uniq points -> (j < size points)%N -> (i < size points)%N ->
  (Poly (basis_coeffs points j)).[nth 0 points i] = (i == j)%:R.
Proof.
move=> hu hj hi; rewrite basis_prod horner_prod.
have mem_wo x : (x \in without j points) = (x \in points) && (x != nth 0 points j).
  have hu' := hu; rewrite {1}(without_split 0 hj) uniq_catC cat_cons /= mem_cat negb_or in hu'.
  case/andP: hu' => /andP[h1 h2] _.
  rewrite {2}(without_split 0 hj) /without !mem_cat inE.
  case: (eqVneq x (nth 0 points j)) => [->|ne] /=.
    by rewrite (negbTE h1) (negbTE h2) andbF.
  by rewrite andbT.
case: (eqVneq i j) => [->|nij] /=.
  rewrite big_seq big1 // => x; rewrite mem_wo => /andP[_ hx].
  by rewrite hornerCM hornerXsubC mulVf // subr_eq0 eq_sym.
have hmem : nth 0 points i \in without j points.
  by rewrite mem_wo mem_nth //= nth_uniq.
rewrite (perm_big _ (perm_to_rem hmem)) big_cons /= hornerCM hornerXsubC subrr mulr0.
by rewrite mul0r.
Qed.

Lemma Poly_addscale (n : nat) (f t : seq F) e : size f = n -> size t = n ->
  Poly (mapi (fun i c => c + nth 0 t i * e) f) = Poly f + e *: Poly t.
Proof.
move=> hf ht; apply/polyP => i; rewrite coefD coefZ !coef_Poly.
case: (ltnP i n) => hi; first by rewrite (nth_mapi _ 0) ?hf // mulrC.
by rewrite !nth_default ?size_mapi ?hf ?ht // mulr0 addr0.
Qed.

Lemma lagrange_interpolateE points evals : size points = size evals -> size points != 1%N ->
  exists2 c, lagrange_interpolate points evals = Some c &
    size c = size points /\
  Poly c = \sum_(j < size points) nth 0 evals j *: Poly (basis_coeffs points j).
Proof.
move=> hs h1; rewrite /lagrange_interpolate hs eqxx -hs (negbTE h1).
set denoms := mapi _ _.
eexists; first by [].
have hd : size denoms = size points by rewrite size_mapi.
have nthd j : (j < size points)%N -> nth [::] denoms j =
    batch_invert [seq nth 0 points j - x_k | x_k <- without j points].
  by move=> hj; rewrite (nth_mapi _ 0).
suff H m z : (m <= size points)%N -> size z = size points ->
  let c := foldl (fun final_poly (jde : nat * (seq F * F)) =>
                     let: (j, (ds, eval)) := jde in
                     let tmp := foldl (@interp_step F) [:: 1] (zip (without j points) ds) in
                     mapi (fun i c => c + nth 0 tmp i * eval) final_poly)
                  z (take m (zip (iota 0 (size points)) (zip denoms evals))) in
  size c = size points /\ Poly c = Poly z + \sum_(j < m) nth 0 evals j *: Poly (basis_coeffs points j).
  have := H (size points) (nseq (size points) 0) (leqnn _).
  rewrite take_oversize; last by rewrite !size_zip size_iota hd hs !minnn.
  rewrite size_nseq => /(_ erefl) /= [-> ->]; split=> //.
  suff -> : Poly (nseq (size points) (0 : F)) = 0 by rewrite add0r.
  by apply/polyP => i; rewrite coef_Poly coef0 nth_nseq if_same.
elim: m => [|m IH] hm hz /=; first by rewrite take0 big_ord0 addr0.
have sz : size (zip (iota 0 (size points)) (zip denoms evals)) = size points.
  by rewrite !size_zip size_iota hd hs !minnn.
rewrite (take_nth (0%N, ([::], 0))) ?sz // -cats1 foldl_cat.
case: (IH (ltnW hm) hz) => {IH}; set c := foldl _ _ _ => hc1 hc2.
have -> : nth (0%N, ([::], 0)) (zip (iota 0 (size points)) (zip denoms evals)) m =
   (m, (batch_invert [seq nth 0 points m - x_k | x_k <- without m points], nth 0 evals m)).
  rewrite nth_zip ?size_iota ?size_zip ?hd -?hs ?minnn //.
  by rewrite nth_zip ?hd -?hs // nth_iota // nthd.
rewrite /= -/(basis_coeffs points m) size_mapi; split=> //.
rewrite (Poly_addscale _ hc1); last by rewrite basis_size.
by rewrite hc2 big_ord_recr /= addrA.
Qed.

Lemma lagrange_interpolate_correct points evals :
  uniq points -> size points = size evals ->
  exists2 c, lagrange_interpolate points evals = Some c &
    size c = size points /\
  forall i, (i < size points)%N -> (Poly c).[nth 0 points i] = nth 0 evals i.
Proof.
move=> hu hs; case: (eqVneq (size points) 1%N) => h1.
  rewrite /lagrange_interpolate hs eqxx -hs h1 /=.
  exists [:: head 0 evals] => //; split=> // -[|//] _.
  by rewrite Poly_cons_def /= polyC0 mul0r add0r hornerC nth0.
have [c -> [hc1 hc2]] := lagrange_interpolateE hs h1.
exists c => //; split=> // i hi; rewrite hc2 horner_sum.
rewrite (bigD1 (Ordinal hi)) //= hornerZ basis_eval // eqxx mulr1 big1 ?addr0 // => j hj.
rewrite hornerZ basis_eval // [_ == _]negbTE ?mulr0 // eq_sym.
by move: hj; rewrite -(inj_eq val_inj).
Qed.

(* uniqueness of interpolation *)
Lemma poly_interp_unique (p q : {poly F}) (points : seq F) :
  uniq points -> (size p <= size points)%N -> (size q <= size points)%N ->
  (forall x, x \in points -> p.[x] = q.[x]) -> p = q.
Proof.
move=> hu hp hq h; apply/eqP; rewrite -subr_eq0; apply/eqP.
apply: (@roots_geq_poly_eq0 _ _ points) => //.
  by apply/allP => x hx; rewrite rootE hornerD hornerN h // subrr.
apply: leq_trans (size_add _ _) _; by rewrite size_opp geq_max hp hq.
Qed.
End L.
