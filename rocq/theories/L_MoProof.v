(* Lemmas for the multi-point opening prover and verifier *)
Set Warnings "-notation-overridden,-ambiguous-paths".
From mathcomp Require Import all_ssreflect all_algebra.
From Verif Require Import Util FieldTac ModTac M_FFT M_Multiexp M_Poly L_Poly M_Domain M_Env M_Transcript L_Transcript L_Mono.
From Verif Require Import M_Commit S_Commit L_Commit M_IPA L_IPA M_Multiopen L_Multiopen.
Import GRing.Theory.
Set Implicit Arguments.
Unset Strict Implicit.
Local Open Scope ring_scope.

Lemma vec_updE (T : Type) m (f : nat -> T) j g : (j < m)%N ->
  vec_upd [seq f i | i <- iota 0 m] j g = Some [seq if i == j then g (f i) else f i | i <- iota 0 m].
Proof.
suff H a : vec_upd [seq f i | i <- iota a m] j g =
    if (j < m)%N then Some [seq if i == (a + j)%N then g (f i) else f i | i <- iota a m] else None.
  by move=> h; rewrite H h add0n.
elim: m a j => [|m IH] a j //=; case: j => [|j] /=.
  rewrite addn0 eqxx; congr (Some (_ :: _)); apply/eq_in_map => i; rewrite mem_iota => /andP [h _].
  by rewrite gtn_eqF.
rewrite IH ltnS; case: ifP => // _ /=; rewrite ltn_eqF; last by rewrite -addn1 leq_add2l.
by congr (Some (_ :: _)); apply: eq_map => i; rewrite addSnnS.
Qed.
Lemma nth_mapiota (T : Type) (d : T) (f : nat -> T) m j : (j < m)%N -> nth d [seq f i | i <- iota 0 m] j = f j.
Proof. by move=> h; rewrite (nth_map 0%N) ?size_iota // nth_iota. Qed.
Lemma nseq_mapiota (T : Type) (x : T) m : nseq m x = [seq x | i <- iota 0 m].
Proof. by elim: m 0%N => //= m IH a; rewrite (IH a.+1). Qed.

Lemma all_filter_sub (T : Type) (p q : pred T) l : all p l -> all p (filter q l).
Proof. by elim: l => //= x l IH /andP [h1 h2]; case: ifP => _ /=; rewrite ?h1 IH. Qed.

Section Hsum.
Variables (F : fieldType) (V : lmodType F).
Implicit Types (x : F) (v : V) (l : seq V).
(* Horner combination: x^(m-1) v_0 + ... + v_(m-1) *)
Definition hsum x l : V := foldl (fun a v => x *: a + v) 0 l.
Lemma hsum_rcons x l v : hsum x (rcons l v) = x *: hsum x l + v.
Proof. by rewrite /hsum -cats1 foldl_cat. Qed.
Lemma hsum_cons x v l : hsum x (v :: l) = x ^+ size l *: v + hsum x l.
Proof.
elim/last_ind: l => [|l w IH]; first by rewrite /hsum /= scaler0 expr0 scale1r addrC.
by rewrite -rcons_cons !hsum_rcons IH scalerDr scalerA -exprS size_rcons addrA.
Qed.
Lemma hsum_foldl x v l : foldl (fun a v => x *: a + v) v l = hsum x (v :: l).
Proof. by rewrite /hsum /= scaler0 add0r. Qed.
End Hsum.
Lemma hsum_lin (F : fieldType) (V V' : lmodType F) (f : V -> V') x l :
  f 0 = 0 -> (forall a b, f (x *: a + b) = x *: f a + f b) -> f (hsum x l) = hsum x [seq f v | v <- l].
Proof.
by move=> f0 fl; elim/last_ind: l => [|l v IH] //; rewrite map_rcons !hsum_rcons fl IH.
Qed.

Section Vec.
Variables (F : fieldType) (n : nat).
Hypothesis n0 : (0 < n)%N.
Definition addscale (q : seq F) (x : F) (p : seq F) : seq F := [seq q`_i * x + p`_i | i <- iota 0 n].
Lemma size_addscale q x p : size (addscale q x p) = n.
Proof. by rewrite size_map size_iota. Qed.
Lemma poly_fma threads q x p : (0 < threads)%N -> size q = n -> size p = n ->
  obind (fun a => poly_add threads a p) (poly_scale threads q x) = Some (addscale q x p).
Proof.
move=> ht sq sp; rewrite poly_scaleE ?sq //= poly_addE ?size_map ?sq ?sp //; congr Some.
by apply/eq_in_map => i; rewrite mem_iota add0n => /andP [_ h]; rewrite (nth_map 0) ?sq.
Qed.
(* linear on vectors of length n *)
Definition lin (V : lmodType F) (f : seq F -> V) : Prop :=
  forall q p x, size q = n -> size p = n -> f (addscale q x p) = x *: f q + f p.
Lemma lin_dotG (G : lmodType F) (g : seq G) : size g = n -> lin (fun p => dotG p g).
Proof.
move=> sg q p x sq sp; rewrite -dotG_scale; apply: dotG_add => i; rewrite sg => hi.
by rewrite nth_mapiota // (nth_map 0) ?sq.
Qed.
Lemma lin_Poly : lin (V := [lmodType F of {poly F}]) Poly.
Proof.
move=> q p x sq sp; apply/polyP => i; rewrite coefD coefZ !coef_Poly.
case: (ltnP i n) => hi; first by rewrite nth_mapiota // mulrC.
by rewrite !nth_default ?size_addscale ?sq ?sp // mulr0 addr0.
Qed.
Lemma lin_eval z : lin (V := [lmodType F of F^o]) (fun p => eval_polynomial p z).
Proof.
move=> q p x sq sp; rewrite !eval_polynomial_horner lin_Poly // hornerD hornerZ; by [].
Qed.

(* the prover's accumulated polynomial of a bucket *)
Definition hpoly x (l : seq (seq F)) : option (seq F) :=
  foldl (fun o p => Some (if o is Some q then addscale q x p else p)) None l.
Lemma hpoly_rcons x l p : hpoly x (rcons l p) = Some (if hpoly x l is Some q then addscale q x p else p).
Proof. by rewrite /hpoly -cats1 foldl_cat. Qed.
Lemma hpolyP x l : all (fun p => size p == n) l -> (0 < size l)%N ->
  exists2 q, hpoly x l = Some q & size q = n /\
    forall (V : lmodType F) (f : seq F -> V), lin f -> f q = hsum x [seq f p | p <- l].
Proof.
elim/last_ind: l => // l p IH; rewrite all_rcons => /andP [/eqP sp hl] _.
rewrite hpoly_rcons; case: (posnP (size l)) => [/size0nil ->|l0].
  by exists p => //; split=> // V f hf; rewrite /hsum /= scaler0 add0r.
have [q -> [sq hq]] := IH hl l0; eexists; first by [].
split; first exact: size_addscale.
by move=> V f hf; rewrite hf // map_rcons hsum_rcons hq.
Qed.
Lemma hpoly_fold x q l : size q = n -> all (fun p => size p == n) l ->
  size (foldl (fun a p => addscale a x p) q l) = n /\
  forall (V : lmodType F) (f : seq F -> V), lin f ->
    f (foldl (fun a p => addscale a x p) q l) = hsum x [seq f p | p <- q :: l].
Proof.
elim/last_ind: l => [|l p IH] sq.
  by move=> _; split=> // V f hf; rewrite /hsum /= scaler0 add0r.
rewrite all_rcons => /andP [/eqP sp hl]; rewrite -cats1 foldl_cat /= size_addscale; split=> // V f hf.
have [s1 h1] := IH sq hl; rewrite hf // h1 // cats1 [RHS](_ : _ = hsum x (rcons [seq f p | p <- q :: l] (f p))).
  by rewrite hsum_rcons.
by rewrite -map_rcons.
Qed.
End Vec.

Section Kate.
Variable F : fieldType.
Lemma kate_foldP (poly : seq F) points Q :
  foldl (fun o point => obind (fun poly => kate_division poly point) o) (Some poly) points = Some Q ->
  size Q = (size poly - size points)%N /\ (size points <= size poly)%N /\
  exists2 r : {poly F}, (size r <= size points)%N &
    Poly poly = Poly Q * \prod_(p <- points) ('X - p%:P) + r.
Proof.
elim: points poly => [|p points IH] poly.
  by case=> <-; rewrite subn0; split=> //; split=> //; exists 0; rewrite ?size_poly0 // big_nil mulr1 addr0.
rewrite [foldl _ _ _]/=.
case: (posnP (size poly)) => [h|h].
  have -> : kate_division poly p = None by rewrite /kate_division h.
  by suff -> : foldl (fun o point => obind (fun poly : seq F => kate_division poly point) o) None points = None; [|elim: points {IH}].
have [q -> [sq eq]] := kate_division_correct p h.
move=> /IH [sQ [sz [r sr er]]]; rewrite sQ sq /=; split; first by rewrite subnS -subn1 subnAC subn1.
split; first by move: sz; rewrite sq; case: (size poly) h.
exists (r * ('X - p%:P) + (Poly poly).[p]%:P).
  apply: leq_trans (size_add _ _) _; rewrite geq_max; apply/andP; split.
    apply: leq_trans (size_mul_leq _ _) _; rewrite size_XsubC addn2 /=; exact: sr.
  by apply: leq_trans (size_polyC_leq1 _) _.
rewrite big_cons addrA [_ * (_ * _)]mulrCA [_ * (Poly Q * _)]mulrC -mulrDl -er eq.
by rewrite subrK.
Qed.
Lemma kate_fold_ok (poly : seq F) points : (size points <= size poly)%N ->
  exists Q, foldl (fun o point => obind (fun poly => kate_division poly point) o) (Some poly) points = Some Q.
Proof.
elim: points poly => [|p points IH] poly h; first by exists poly.
have h0 : (0 < size poly)%N by apply: leq_trans h.
rewrite [foldl _ _ _]/=.
have [q -> [sq _]] := kate_division_correct p h0; apply: IH; rewrite sq.
by case: (size poly) h.
Qed.
Lemma size_resize (v : seq F) n : size (resize v n) = n.
Proof. by rewrite /resize size_cat size_nseq size_take; case: ltnP => h; nlia. Qed.
Lemma Poly_resize (v : seq F) n : (size v <= n)%N -> Poly (resize v n) = Poly v.
Proof.
move=> h; rewrite /resize take_oversize //; apply/polyP => i; rewrite !coef_Poly nth_cat nth_nseq if_same.
by case: ltnP => // h'; rewrite nth_default.
Qed.

(* the verifier's per-set term *)
Lemma verifier_term (q Q : seq F) (points evals : seq F) x3 :
  uniq points -> size evals = size points -> x3 \notin points ->
  foldl (fun o point => obind (fun poly => kate_division poly point) o) (Some q) points = Some Q ->
  exists2 r, lagrange_interpolate points evals = Some r &
  exists D : {poly F}, [/\ (size D <= size points)%N,
    forall j, (j < size points)%N -> D.[points`_j] = evals`_j - (Poly q).[points`_j] &
    foldl (fun o point => obind (fun eval : F =>
          if x3 - point == 0 then None else Some (eval * (x3 - point)^-1)) o)
        (Some (eval_polynomial q x3 - eval_polynomial r x3)) points =
    Some ((Poly Q).[x3] - D.[x3] / (\prod_(p <- points) ('X - p%:P)).[x3])].
Proof.
move=> hu hs hx /kate_foldP [_ [_ [R sR eR]]].
have [r er [sr hr]] := lagrange_interpolate_correct hu (esym hs); exists r => //.
exists (Poly r - R); split.
- apply: leq_trans (size_add _ _) _; rewrite geq_max size_opp sR andbT.
  by apply: leq_trans (size_Poly _) _; rewrite sr.
- move=> j hj; rewrite hornerD hornerN hr // eR hornerD hornerM horner_prod (big_rem points`_j) ?mem_nth //=.
  by rewrite hornerXsubC subrr mul0r mulr0 add0r.
set c0 := _ - _; set c1 := _ - _.
have hV : (\prod_(p <- points) ('X - p%:P)).[x3] != 0.
  rewrite horner_prod prodf_seq_neq0; apply/allP => p hp /=; rewrite hornerXsubC subr_eq0.
  by apply: contraNneq hx => ->.
have -> : c0 = c1 * (\prod_(p <- points) ('X - p%:P)).[x3].
  rewrite /c0 /c1 mulrBl divfK // !eval_polynomial_horner eR !hornerD hornerM hornerN opprB addrA.
  by [].
move: c1 hx => c; clear; rewrite horner_prod.
elim: points => [|p points IH] /= in c *; first by rewrite big_nil mulr1.
rewrite inE negb_or => /andP [hp hx]; rewrite big_cons hornerXsubC subr_eq0 (negbTE hp).
have nz : x3 - p != 0 by rewrite subr_eq0.
by rewrite mulrCA mulrAC divff // mul1r IH.
Qed.
Lemma verifier_term_bad (points : seq F) x3 c : x3 \in points ->
  foldl (fun o point => obind (fun eval : F =>
          if x3 - point == 0 then None else Some (eval * (x3 - point)^-1)) o) (Some c) points = None.
Proof.
elim: points c => //= p points IH c; rewrite inE subr_eq0; case: eqP => //= _.
  by move=> _; elim: points {IH}.
exact: IH.
Qed.
End Kate.

Definition hsumF (F : fieldType) (x : F) (l : seq F) : F := hsum (V := [lmodType F of F^o]) x l.
Lemma hsumF_rcons (F : fieldType) (x : F) l v : hsumF x (rcons l v) = x * hsumF x l + v.
Proof. by rewrite {1}/hsumF hsum_rcons. Qed.
Lemma hsumF_cons (F : fieldType) (x : F) l v : hsumF x (v :: l) = x ^+ size l * v + hsumF x l.
Proof. by rewrite {1}/hsumF hsum_cons. Qed.

Section Main.
Variables (F B : fieldType) (G : lmodType F) (E : env B G) (ps : params G) (K : eqType).
Hypothesis ok : env_ok E.
Hypothesis pok : params_ok E ps.
Let n := p_n ps.
Let pn0 : (0 < n)%N. Proof. by rewrite /n (ps_n pok) expn_gt0. Qed.
Let psz : size (p_g ps) = n. Proof. by rewrite /n (ps_g pok) (ps_n pok). Qed.
Local Notation Fo := [lmodType F of F^o].

(* buckets *)
Definition bucket (D V : Type) (i : nat) (l : seq (K * (D * cdata V))) := [seq e <- l | cd_set_index e.2.2 == i].
Notation pitem := (K * ((seq F * F) * cdata unit))%type.
Definition ipoly (e : pitem) : seq F := e.2.1.1.
Definition iblind (e : pitem) : F := e.2.1.2.

Lemma p_accE m x1 (l : seq pitem) :
  all (fun e => (cd_set_index e.2.2 < m)%N && (size (ipoly e) == n)) l ->
  foldl (fun o e => obind (fun st => p_accumulate E x1 st e) o) (Some (nseq m None, nseq m 0)) l =
  Some ([seq hpoly n x1 [seq ipoly e | e <- bucket i l] | i <- iota 0 m],
        [seq hsumF x1 [seq iblind e | e <- bucket i l] | i <- iota 0 m]).
Proof.
elim/last_ind: l => [|l e IH]; first by rewrite /= !nseq_mapiota.
rewrite all_rcons => /andP [/andP [hi /eqP sp] hl]; rewrite -cats1 foldl_cat {}IH //=.
case: e hi sp => [k [[p b] cd]] /= hi sp.
rewrite size_map size_iota hi nth_mapiota //.
set np := (if _ is Some poly then _ else _).
have -> : np = hpoly n x1 (rcons [seq ipoly e | e <- bucket (cd_set_index cd) l] p).
  have hbl : all (fun p : seq F => size p == n) [seq ipoly e | e <- bucket (cd_set_index cd) l].
    by rewrite all_map; apply: all_filter_sub; apply: sub_all hl => e /andP [].
  rewrite hpoly_rcons /np; case: (posnP (size (bucket (cd_set_index cd) l))) => [/size0nil ->//|l0].
  have [|q -> [sq _]] := hpolyP x1 hbl; first by rewrite size_map.
  by apply: (poly_fma pn0) => //; exact: ok_threads ok.
rewrite hpoly_rcons /= !vec_updE //=; congr (Some (_, _)); apply: eq_map => i /=.
  rewrite /bucket filter_cat /= [_ == i]eq_sym; case: eqP => [->|_]; last by rewrite cats0.
  by rewrite map_cat cats1 hpoly_rcons.
rewrite /bucket filter_cat /= [_ == i]eq_sym; case: eqP => [->|_]; last by rewrite cats0.
by rewrite map_cat cats1 hsumF_rcons mulrC.
Qed.

Notation vitem := (K * (cref B G * cdata F))%type.
Definition cref_val (c : cref B G) : G := match c with CCommitment p => p | CMsm m => mval E ps m end.
Definition cref_ok (c : cref B G) : Prop := match c with CCommitment p => True | CMsm m => mvalid E ps m end.
Definition ival (e : vitem) : G := cref_val e.2.1.

Lemma v_accE x1 (sets : seq (seq F)) (l : seq vitem) :
  (forall e, List.In e l -> [/\ (cd_set_index e.2.2 < size sets)%N,
     size (cd_evals e.2.2) = size (nth [::] sets (cd_set_index e.2.2)) & cref_ok e.2.1]) ->
  exists ms : nat -> msm F B,
  foldl (fun o e => obind (fun st => v_accumulate E ps x1 st e) o)
     (Some (nseq (size sets) (msm_new, 1), [seq nseq (size pts) 0 | pts <- sets])) (rev l) =
  Some ([seq (ms i, x1 ^+ size (bucket i l)) | i <- iota 0 (size sets)],
        [seq [seq hsumF x1 [seq (cd_evals e.2.2)`_j | e <- bucket i l] | j <- iota 0 (size (nth [::] sets i))]
         | i <- iota 0 (size sets)]) /\ forall i, mvalid E ps (ms i) /\ mval E ps (ms i) = hsum x1 [seq ival e | e <- bucket i l].
Proof.
elim: l => [|e l IH] h.
  exists (fun _ => msm_new); split; last by move=> i; exact: msm_newE.
  rewrite /= nseq_mapiota; congr (Some (_, _)).
  have {1}-> : sets = [seq nth [::] sets i | i <- iota 0 (size sets)] by rewrite map_nth_iota0 // take_size.
  by rewrite -map_comp; apply: eq_map => i /=; rewrite nseq_mapiota.
have [e' he'|ms [ef hm]] := IH; first by apply: h; right.
have [hi hs hc] := h e (or_introl erefl).
rewrite rev_cons -cats1 foldl_cat {}ef /=.
case: e hi hs hc h => [k [c cd]] /= hi hs hc _; rewrite size_map size_iota hi nth_mapiota //.
set si := cd_set_index cd in hi hs *.
have [vm em] := hm si.
have [m' -> [vm' em']] : exists2 m', match c with
   | CCommitment c => append_term E (ms si) (x1 ^+ size (bucket si l)) c
   | CMsm m => add_msm ps (ms si) (msm_scale m (x1 ^+ size (bucket si l)))
   end = Some m' & mvalid E ps m' /\ mval E ps m' = mval E ps (ms si) + x1 ^+ size (bucket si l) *: cref_val c.
  case: c hc => [p|m] hc; first exact: append_termE.
  have [v1 e1] := msm_scaleE (x1 ^+ size (bucket si l)) hc.
  by rewrite /= -e1; apply: (add_msmE ok psz).
exists (fun i => if i == si then m' else ms i); rewrite /= !vec_updE //=; split.
  congr (Some (_, _)); apply: eq_map => i; rewrite /= -/si [si == i]eq_sym; case: eqP => [->|] //.
    by rewrite exprS mulrC.
  rewrite drop_oversize ?cats0; last by rewrite size_map size_iota hs.
  have -> : [seq p.2 + p.1 * x1 ^+ size (bucket si l) | p <- zip (cd_evals cd)
     [seq hsumF x1 [seq (cd_evals e.2.2)`_j | e <- bucket si l] | j <- iota 0 (size (nth [::] sets si))]] =
     [seq hsumF x1 [seq (cd_evals e.2.2)`_j | e <- bucket si l] + (cd_evals cd)`_j * x1 ^+ size (bucket si l)
        | j <- iota 0 (size (nth [::] sets si))].
    apply: (@eq_from_nth _ 0) => [|j]; rewrite size_map size_zip size_map size_iota hs minnn ?size_map ?size_iota // => hj.
    rewrite (nth_map (0, 0)); last by rewrite size_zip size_map size_iota hs minnn.
    by rewrite nth_zip ?size_map ?size_iota // !nth_mapiota.
  apply: eq_map => j; by rewrite /= hsumF_cons size_map addrC mulrC.
move=> i; rewrite /= -/si [si == i]eq_sym; case: eqP => [->|_]; last exact: hm.
by split=> //; rewrite em' em /= hsum_cons size_map addrC.
Qed.

(* the queries: pointers into a memory of polynomials (prover) or commitments (verifier) *)
Definition pqs_of (kp : seq (K * F)) (dat : K -> seq F * F) : seq (pquery F K) :=
  [seq Query e.1 (dat e.1) e.2 tt | e <- kp].
Definition vqs_of (kp : seq (K * F)) (cr : K -> cref B G) (ev : K -> F -> F) : seq (vquery B G K) :=
  [seq Query e.1 (cr e.1) e.2 (ev e.1 e.2) | e <- kp].

Lemma qpairs_pqs kp dat : qpairs (pqs_of kp dat) = kp.
Proof. by rewrite /qpairs -map_comp -[RHS]map_id; apply: eq_map => -[]. Qed.
Lemma qpairs_vqs kp cr ev : qpairs (vqs_of kp cr ev) = kp.
Proof. by rewrite /qpairs -map_comp -[RHS]map_id; apply: eq_map => -[]. Qed.
Lemma qdata_gen (D V : Type) (d0 : D) (kp : seq (K * F)) (dat : K -> D) (ev : K -> F -> V) k : k \in map fst kp ->
  qdata d0 [seq Query e.1 (dat e.1) e.2 (ev e.1 e.2) | e <- kp] k = dat k.
Proof.
rewrite /qdata filter_map -map_comp.
elim: kp => //= -[k' p] kp IH; rewrite inE /= eq_sym; case: eqP => [->|_] //= h; exact: IH.
Qed.
Lemma qeval_gen (D V : Type) (v0 : V) (kp : seq (K * F)) (dat : K -> D) (ev : K -> F -> V) k p : (k, p) \in kp ->
  qeval v0 [seq Query e.1 (dat e.1) e.2 (ev e.1 e.2) | e <- kp] k p = ev k p.
Proof.
rewrite /qeval filter_map -map_comp.
elim: kp => //= -[k' p'] kp IH; rewrite inE xpair_eqE /= ![_ == k']eq_sym ![_ == p']eq_sym.
by case: ifP => [/andP [/eqP -> /eqP ->]|_] //= h; exact: IH.
Qed.

Definition pitems (kp : seq (K * F)) (dat : K -> seq F * F) : seq (K * ((seq F * F) * cdata unit)) :=
  [seq (k, (dat k, CData (kp_si kp k) (kp_pi kp k) [seq tt | p <- kp_pset kp k])) | k <- firsts (map fst kp)].
Definition vitems (kp : seq (K * F)) (cr : K -> cref B G) (ev : K -> F -> F) : seq (K * (cref B G * cdata F)) :=
  [seq (k, (cr k, CData (kp_si kp k) (kp_pi kp k) [seq ev k p | p <- kp_pset kp k])) | k <- firsts (map fst kp)].

Lemma cis_pqs kp dat : construct_intermediate_sets (pqs_of kp dat) =
  Ok (if uniq kp then Some (pitems kp dat, kp_point_sets 0 kp) else None).
Proof.
rewrite (cisE ([::], 0) 0 tt) qpairs_pqs; case: ifP => // _; congr (Ok (Some (_, _))).
rewrite /cis_cdata -map_fst_pairs qpairs_pqs; apply/eq_in_map => k; rewrite mem_firsts => hk.
rewrite (qdata_gen _ _ (fun _ _ => tt)) //; congr (_, (_, CData _ _ _)).
by apply: eq_map => p; case: (qeval _ _ _ _).
Qed.
Lemma cis_vqs kp cr ev : construct_intermediate_sets (vqs_of kp cr ev) =
  Ok (if uniq kp then Some (vitems kp cr ev, kp_point_sets 0 kp) else None).
Proof.
rewrite (cisE (CCommitment B 0) 0 0) qpairs_vqs; case: ifP => // _; congr (Ok (Some (_, _))).
rewrite /cis_cdata -map_fst_pairs qpairs_vqs; apply/eq_in_map => k; rewrite mem_firsts => hk.
rewrite (qdata_gen _ _ ev) //; congr (_, (_, CData _ _ _)); apply/eq_in_map => p; rewrite mem_pset => h.
by rewrite (qeval_gen 0 cr).
Qed.

Section KP.
Variable kp : seq (K * F).
Let m := size (kp_sets kp).
Lemma size_point_sets : size (kp_point_sets 0 kp) = m.
Proof. by rewrite size_map. Qed.
Lemma kp_si_lt k : k \in map fst kp -> (kp_si kp k < m)%N.
Proof. by move=> h; rewrite index_mem mem_firsts; apply/mapP; exists k => //; rewrite mem_firsts. Qed.
Lemma nth_point_sets k : k \in map fst kp -> nth [::] (kp_point_sets 0 kp) (kp_si kp k) = kp_pset kp k.
Proof.
move=> h; rewrite /kp_point_sets (nth_map [::]) ?kp_si_lt // nth_index ?kp_sets_pts //.
by rewrite mem_firsts; apply/mapP; exists k => //; rewrite mem_firsts.
Qed.
(* the keys of set i *)
Definition keys_of (i : nat) := [seq k <- firsts (map fst kp) | kp_si kp k == i].
Lemma keys_ofP i k : k \in keys_of i -> k \in map fst kp /\ kp_si kp k = i.
Proof. by rewrite mem_filter mem_firsts => /andP [/eqP -> ->]. Qed.
Lemma keys_of_nonempty i : (i < m)%N -> (0 < size (keys_of i))%N.
Proof.
move=> hi; have /mapP [k hk ek] : nth [::] (kp_sets kp) i \in [seq kp_ps kp k | k <- firsts (map fst kp)].
  by rewrite -mem_firsts; exact: mem_nth.
have : k \in keys_of i.
  by rewrite mem_filter hk andbT /kp_si -ek index_uniq ?firsts_uniq.
by case: (keys_of i).
Qed.
Lemma set_uniq i : (i < m)%N -> uniq (nth [::] (kp_point_sets 0 kp) i).
Proof.
move=> hi; have := keys_of_nonempty hi; case e: (keys_of i) => [|k l] // _.
have [hk <-] : k \in map fst kp /\ kp_si kp k = i by apply: keys_ofP; rewrite e mem_head.
by rewrite nth_point_sets // pset_uniq.
Qed.
Lemma mem_sets x : (x \in map snd kp) = has (fun pts => x \in pts) (kp_point_sets 0 kp).
Proof.
apply/idP/hasP => [/mapP [[k p] h /= ->]|[pts /(nthP [::]) [i]]].
  have hk : k \in map fst kp by apply/mapP; exists (k, p).
  exists (kp_pset kp k); last by rewrite mem_pset.
  by rewrite -nth_point_sets // mem_nth // size_point_sets kp_si_lt.
rewrite size_point_sets => hi <-.
have := keys_of_nonempty hi; case e: (keys_of i) => [|k l] // _.
have [hk <-] : k \in map fst kp /\ kp_si kp k = i by apply: keys_ofP; rewrite e mem_head.
by rewrite nth_point_sets // mem_pset => h; apply/mapP; exists (k, x).
Qed.
Lemma bucket_pitems i dat : bucket i (pitems kp dat) =
  [seq (k, (dat k, CData (kp_si kp k) (kp_pi kp k) [seq tt | p <- kp_pset kp k])) | k <- keys_of i].
Proof. by rewrite /bucket filter_map. Qed.
Lemma bucket_vitems i cr ev : bucket i (vitems kp cr ev) =
  [seq (k, (cr k, CData (kp_si kp k) (kp_pi kp k) [seq ev k p | p <- kp_pset kp k])) | k <- keys_of i].
Proof. by rewrite /bucket filter_map. Qed.
End KP.

Local Notation kfold q pts :=
  (foldl (fun o point => obind (fun poly : seq F => kate_division poly point) o) (Some q) pts).
Definition kq (q : seq F) (pts : seq F) : seq F := odflt [::] (kfold q pts).

Lemma q_primeP x2 (pts q : nat -> seq F) (l : seq nat) o :
  (forall i, i \in l -> size (q i) = n) ->
  foldl (q_prime_step E ps x2) (Some None) [seq (pts i, Some (q i)) | i <- l] = Some o ->
  (forall i, i \in l -> kfold (q i) (pts i) = Some (kq (q i) (pts i))) /\
  o = hpoly n x2 [seq resize (kq (q i) (pts i)) n | i <- l].
Proof.
elim/last_ind: l o => [|l i IH] o hs; first by case=> <-.
rewrite map_rcons -cats1 foldl_cat /=.
case e: (foldl _ _ _) => [q'|] //=; case ek: (kfold (q i) (pts i)) => [Q|] //=.
have hs' j : j \in l -> size (q j) = n by move=> hj; apply: hs; rewrite mem_rcons inE hj orbT.
have [h1 h2] := IH _ hs' e.
have eQ : kq (q i) (pts i) = Q by rewrite /kq ek.
move=> ho; split.
  by move=> j; rewrite mem_rcons inE => /orP [/eqP ->|]; [rewrite eQ | exact: h1].
rewrite map_rcons hpoly_rcons -h2 eQ; move: ho h2; case: q' {e} => [q'|] /= + h2; last by case=> <-.
have sq' : size q' = n.
  case: (posnP (size l)) h2 => [/size0nil ->//|l0] h2.
  have [| |r er [sr _]] := @hpolyP _ n x2 [seq resize (kq (q i) (pts i)) n | i <- l].
  - by rewrite all_map; apply/allP => j _ /=; rewrite size_resize.
  - by rewrite size_map.
  by move: er; rewrite -h2 => -[->].
by rewrite (poly_fma pn0) ?size_resize ?(ok_threads ok) // => -[<-].
Qed.

Lemma write_evalsP x3 (q : nat -> seq F) (l : seq nat) a s r s' :
  mmap (fun o => let! q := mlift (unwrap o) in write_scalar E (eval_polynomial q x3)) [seq Some (q i) | i <- l] s = Ok (r, s') ->
  replays s s' (mmap (fun _ : nat => mmap_err ESampling (read_scalar E)) (iota a (size l))) [seq eval_polynomial (q i) x3 | i <- l].
Proof.
elim: l a s r s' => [|i l IH] a s r s'; first by case=> _ <-; exact: replays_ret.
move=> h; sbind h t s1 => h1; ubind h1 q0 => -[eq0]; sbind h ts s2 => h2; case: h => _ <-.
apply: (replays_bind (replays_map_err _ (write_scalar_replay ok h1))).
apply: (replays_bind (IH _ _ _ _ h2)); rewrite -eq0; exact: replays_ret.
Qed.

Lemma final_foldE x4 (q' : seq F) (b' : F) (q : nat -> seq F) (b : nat -> F) (l : seq nat) :
  size q' = n -> (forall i, i \in l -> size (q i) = n) ->
  foldl (fun acc (pb : option (seq F) * F) =>
      obind (fun st => obind (fun poly => 
        omap (fun p => (p, st.2 * x4 + pb.2))
          (obind (fun a => poly_add (e_threads E) a poly) (poly_scale (e_threads E) st.1 x4))) pb.1) acc)
     (Some (q', b')) [seq (Some (q i), b i) | i <- l] =
  Some (foldl (fun a p => addscale n a x4 p) q' [seq q i | i <- l], hsumF x4 (b' :: [seq b i | i <- l])).
Proof.
move=> sq'; elim/last_ind: l => [|l i IH] hs; first by rewrite /hsumF /hsum /= scaler0 add0r.
have hs' j : j \in l -> size (q j) = n by move=> hj; apply: hs; rewrite mem_rcons inE hj orbT.
rewrite !map_rcons -cats1 foldl_cat IH //=.
have [|sz _] := @hpoly_fold _ n x4 q' [seq q i | i <- l] sq'.
  by rewrite all_map; apply/allP => j hj /=; rewrite hs'.
rewrite (poly_fma pn0) ?sz ?(ok_threads ok) ?hs ?mem_rcons ?mem_head //=.
by rewrite -cats1 foldl_cat -rcons_cons hsumF_rcons mulrC.
Qed.

(* the verifier's fold over the sets *)
Lemma msm_foldE x4 (ms : nat -> msm F B) (u : nat -> F) (pw : nat -> F) m0 v0 (l : seq nat) :
  (forall i, mvalid E ps (ms i)) -> mvalid E ps m0 ->
  exists2 m1, foldl (fun acc (qe : (msm F B * F) * F) =>
      obind (fun st => omap (fun m' => (m', st.2 * x4 + qe.2))
                            (add_msm ps (msm_scale st.1 x4) qe.1.1)) acc)
     (Some (m0, v0)) [seq ((ms i, pw i), u i) | i <- l] = Some (m1, hsumF x4 (v0 :: [seq u i | i <- l])) &
  mvalid E ps m1 /\ mval E ps m1 = hsum x4 (mval E ps m0 :: [seq mval E ps (ms i) | i <- l]).
Proof.
move=> hv v0m; elim/last_ind: l => [|l i [m1 IH [v1 e1]]].
  by exists m0 => //; rewrite /hsumF /hsum /= !scaler0 !add0r.
have [v2 e2] := msm_scaleE x4 v1; have [m3 e3 [v3 ev3]] := add_msmE ok psz v2 (hv i).
exists m3; first by rewrite !map_rcons -cats1 foldl_cat IH /= e3 /= -rcons_cons hsumF_rcons mulrC.
by split=> //; rewrite ev3 e2 e1 map_rcons -rcons_cons hsum_rcons.
Qed.

Lemma msm_eval_foldE x2 x3 (pts es q : nat -> seq F) (l : seq nat) : uniq l ->
  (forall i, i \in l -> [/\ uniq (pts i), size (es i) = size (pts i), x3 \notin pts i &
     kfold (q i) (pts i) = Some (kq (q i) (pts i))]) ->
  exists2 D : nat -> {poly F}, (forall i, i \in l -> (size (D i) <= size (pts i))%N /\
    forall j, (j < size (pts i))%N -> (D i).[(pts i)`_j] = (es i)`_j - (Poly (q i)).[(pts i)`_j]) &
  foldl (msm_eval_step x2 x3) (Some 0) [seq ((pts i, es i), eval_polynomial (q i) x3) | i <- l] =
  Some (hsumF x2 [seq (Poly (kq (q i) (pts i))).[x3] - (D i).[x3] / (\prod_(p <- pts i) ('X - p%:P)).[x3] | i <- l]).
Proof.
elim/last_ind: l => [|l i IH]; first by exists (fun _ => 0).
rewrite rcons_uniq => /andP [hil hul] h.
have [//|j hj|D hD eD] := IH; first by apply: h; rewrite mem_rcons inE hj orbT.
have [|hu hs hx hk] := h i; first by rewrite mem_rcons mem_head.
have [r er [Di [sD vD ek]]] := verifier_term hu hs hx hk.
exists (fun j => if j == i then Di else D j).
  move=> j; rewrite mem_rcons inE; case: eqP => [-> _|_ /= hj]; [by split | exact: hD].
rewrite !map_rcons -cats1 foldl_cat eD /= er /= ek /= eqxx hsumF_rcons mulrC; congr (Some (_ * hsumF _ _ + _)).
by apply/eq_in_map => j hj; case: eqP hil => // <-; rewrite hj.
Qed.
Lemma msm_eval_fold_bad x2 x3 (pts es : nat -> seq F) (u : nat -> F) (l : seq nat) v :
  has (fun i => x3 \in pts i) l ->
  foldl (msm_eval_step x2 x3) v [seq ((pts i, es i), u i) | i <- l] = None.
Proof.
elim: l v => //= i l IH v; case: (boolP (x3 \in pts i)) => [h _|h]; last exact: IH.
rewrite (_ : obind _ v = None); first by elim: l {IH}.
by case: v => //= v; case: lagrange_interpolate => //= r; rewrite verifier_term_bad.
Qed.

Lemma hsumF_sub (T : Type) x (f g : T -> F) (l : seq T) :
  hsumF x [seq f i | i <- l] - hsumF x [seq g i | i <- l] = hsumF x [seq f i - g i | i <- l].
Proof.
elim/last_ind: l => [|l i IH]; first by rewrite subrr.
by rewrite !map_rcons !hsumF_rcons -IH mulrBr opprD addrACA.
Qed.
Lemma hsum_pair (T : Type) x (f : T -> G) (g : T -> F) (w : G) (l : seq T) :
  hsum x [seq f i + g i *: w | i <- l] = hsum x [seq f i | i <- l] + hsumF x [seq g i | i <- l] *: w.
Proof.
elim/last_ind: l => [|l i IH]; first by rewrite /hsumF /hsum /= scale0r addr0.
by rewrite !map_rcons hsumF_rcons !hsum_rcons IH scalerDr scalerDl scalerA addrACA.
Qed.
Lemma zip_mapiota (T U : Type) (f : nat -> T) (g : nat -> U) l :
  zip [seq f i | i <- l] [seq g i | i <- l] = [seq (f i, g i) | i <- l].
Proof. by elim: l => //= i l ->. Qed.

(* A run of the prover determines the verifier's run on the same queries with any claimed
   evaluations. *)
Lemma mo_run (kp : seq (K * F)) (dat : K -> seq F * F) (cr : K -> cref B G) m s s' :
  (0 < p_k ps)%N -> 
  (forall k, k \in map fst kp -> size (dat k).1 = n) ->
  (forall k, k \in map fst kp -> cref_ok (cr k) /\
     cref_val (cr k) = dotG (dat k).1 (p_g ps) + (dat k).2 *: p_w ps) ->
  mvalid E ps m -> mval E ps m = 0 ->
  mo_create_proof E ps (pqs_of kp dat) s = Ok (tt, s') ->
  let sets := kp_point_sets 0 kp in
  exists x1 x2 x3 x4, [/\ uniq kp, squeezed E s s' x1, squeezed E s s' x2, squeezed E s s' x3 & squeezed E s s' x4] /\
  forall ev, let vq := vqs_of kp cr ev in
  (x3 \in map snd kp -> replay_panics s s' (mo_verify_proof E ps vq m)) /\
  (x3 \notin map snd kp -> exists gd (D : nat -> {poly F}),
    [/\ replays s s' (mo_verify_proof E ps vq m) gd, mvalid E ps (gd_msm gd), size (gd_u gd) = p_k ps,
      forall i, (i < size sets)%N -> (size (D i) <= size (nth [::] sets i))%N /\
        forall p, p \in nth [::] sets i ->
          (D i).[p] = hsumF x1 [seq ev k p - (Poly (dat k).1).[p] | k <- keys_of kp i] &
      mval E ps (gd_msm gd) + gd_neg_c gd *: dotG (svec (gd_u gd)) (p_g ps) =
        (x4 ^+ size sets * hsumF x2 [seq (D i).[x3] / (\prod_(p <- nth [::] sets i) ('X - p%:P)).[x3] | i <- iota 0 (size sets)])
          *: (p_g ps)`_0]).
Proof.
move=> k0 hsz hcr vm em hp; rewrite /=.
have mq1 := squeeze_replay (E := E).
rewrite /mo_create_proof in hp.
sbind hp x1 s1 => h1; sbind hp x2 s2 => h2.
sbind hp st s3 => hst; have [est es3] := mlift_inv hst; subst s3.
move: est; rewrite cis_pqs; case: ifP => // hu [est]; subst st.
set sets := kp_point_sets 0 kp in hp *.
ubind hp qs; rewrite p_accE; last first.
  rewrite all_map; apply/allP => k; rewrite mem_firsts => hk /=.
  by rewrite size_point_sets kp_si_lt //= /ipoly /= hsz ?eqxx.
case=> eqs; subst qs.
pose q i := odflt [::] (hpoly n x1 [seq (dat k).1 | k <- keys_of kp i]).
pose b i := hsumF x1 [seq (dat k).2 | k <- keys_of kp i].
have hq i : (i < size sets)%N -> [/\ hpoly n x1 [seq (dat k).1 | k <- keys_of kp i] = Some (q i), size (q i) = n &
    forall (V : lmodType F) (f : seq F -> V), lin n f -> f (q i) = hsum x1 [seq f (dat k).1 | k <- keys_of kp i]].
  rewrite size_point_sets => hi; have hne := keys_of_nonempty hi.
  have [| |r er [sr hr]] := @hpolyP _ n x1 [seq (dat k).1 | k <- keys_of kp i].
  - by rewrite all_map; apply/allP => k /keys_ofP [hk _] /=; rewrite hsz.
  - by rewrite size_map.
  by rewrite /q er /=; split=> // V f hf; rewrite hr // -map_comp.
have eqp : [seq hpoly n x1 [seq ipoly e | e <- bucket i (pitems kp dat)] | i <- iota 0 (size sets)] =
           [seq Some (q i) | i <- iota 0 (size sets)].
  apply/eq_in_map => i; rewrite mem_iota add0n => /andP [_ hi].
  by rewrite bucket_pitems -map_comp; have [<-] := hq i hi.
have eqb : [seq hsumF x1 [seq iblind e | e <- bucket i (pitems kp dat)] | i <- iota 0 (size sets)] =
           [seq b i | i <- iota 0 (size sets)].
  by apply: eq_map => i; rewrite bucket_pitems -map_comp.
rewrite {}eqp {}eqb in hp.
have eset : sets = [seq nth [::] sets i | i <- iota 0 (size sets)] by rewrite map_nth_iota0 // take_size.
ubind hp q'; rewrite {1}eset zip_mapiota; case ef: (foldl _ _ _) => [[q0|]|] //= [eq0]; subst q0.
have hsi i : i \in iota 0 (size sets) -> (i < size sets)%N by rewrite mem_iota add0n => /andP [].
have [|hkt eq'] := q_primeP _ ef; first by move=> i /hsi hi; have [] := hq i hi.
have sets0 : (0 < size sets)%N by case: (size sets) eq'.
have [| |q'' eq'' [sq' lq']] := @hpolyP _ n x2 [seq resize (kq (q i) (nth [::] sets i)) n | i <- iota 0 (size sets)].
- by rewrite all_map; apply/allP => i _ /=; rewrite size_resize.
- by rewrite size_map size_iota.
move: eq'; rewrite eq'' => -[eq']; subst q''.
sbind hp b' s3 => /draw_silent d3.
ubind hp c'; rewrite commitE ?sq' ?psz // => -[ec'].
sbind hp t4 s4 => w4; have [_ r4] := write_point_replay ok w4; have m4 := mono_write_point w4.
sbind hp x3 s5 => h5.
sbind hp t6 s6 => h6; have r6 := write_evalsP 0 h6; rewrite size_iota in r6.
have m6 : extends s5 s6.
  apply: mono_mmap h6 => o; apply: mono_bind => [|qq]; [exact: mono_lift | exact: mono_write_scalar].
sbind hp x4 s7 => h7.
ubind hp pb; rewrite zip_mapiota final_foldE //; last by move=> i /hsi hi; have [] := hq i hi.
case=> epb; subst pb.
have m8 := mono_ipa_create hp.
have m1 := mono_squeeze h1; have m2 := mono_squeeze h2; have m3 := extends_silent d3.
have m5 := mono_squeeze h5; have m7 := mono_squeeze h7.
have e78 : extends s7 s' by [].
have e68 := extends_trans m7 m8; have e58 := extends_trans m6 e68.
have e48 := extends_trans m5 e58; have e38 := extends_trans m4 e48; have e28 := extends_trans m3 e38.
have e18 := extends_trans m2 e28.
have e02 := extends_trans m1 m2; have e04 := extends_trans e02 (extends_trans m3 m4).
have e06 := extends_trans e04 (extends_trans m5 m6).
exists x1, x2, x3, x4; split.
  split=> //; [exact: squeezed_intro (extends_refl _) h1 _ | exact: squeezed_intro m1 h2 _
    | exact: squeezed_intro e04 h5 _ | exact: squeezed_intro e06 h7 _].
move=> ev.
have hvi e : List.In e (vitems kp cr ev) -> exists2 k, k \in map fst kp & 
  e = (k, (cr k, CData (kp_si kp k) (kp_pi kp k) [seq ev k p | p <- kp_pset kp k])).
  move=> /List.in_map_iff [k [<- hk]]; exists k => //; rewrite -mem_firsts.
  by elim: (firsts _) hk => //= a l IH [->|/IH]; rewrite inE ?eqxx // => ->; rewrite orbT.
have [e /hvi [k hk ->] /=|ms [ev1 hms]] := @v_accE x1 sets (vitems kp cr ev).
  rewrite size_point_sets kp_si_lt // nth_point_sets // size_map; split=> //; by case: (hcr k hk).
set es := fun i => [seq hsumF x1 [seq ev k p | k <- keys_of kp i] | p <- nth [::] sets i].
have ees : [seq [seq hsumF x1 [seq (cd_evals e.2.2)`_j | e <- bucket i (vitems kp cr ev)] | j <- iota 0 (size (nth [::] sets i))]
         | i <- iota 0 (size sets)] = [seq es i | i <- iota 0 (size sets)].
  apply/eq_in_map => i /hsi hi.
  rewrite /es; set pts := nth [::] sets i.
  rewrite -[in RHS](take_size pts) -(map_nth_iota0 0) // -map_comp; apply/eq_in_map => j; rewrite mem_iota add0n => /andP [_ hj] /=.
  rewrite bucket_vitems -map_comp; congr (hsumF _ _); apply/eq_in_map => k /keys_ofP [hk ek] /=.
  by rewrite (nth_map 0) -?nth_point_sets // ek.
rewrite {}ees in ev1.
have eu : [seq eval_polynomial (q i) x3 | i <- iota 0 (size sets)] = [seq eval_polynomial (q i) x3 | i <- iota 0 (size sets)] by [].
split=> hx3.
  apply: (panics_bind (squeeze_replay h1)); apply: (panics_bind (squeeze_replay h2)).
  apply: (panics_bind (a := (vitems kp cr ev, sets))); first by apply: replays_lift; rewrite cis_vqs hu.
  apply: (panics_bind (replays_lift _ _)); first by rewrite ev1.
  apply: (panics_silent d3); apply: (panics_bind (replays_map_err _ r4)); apply: (panics_bind (squeeze_replay h5)).
  rewrite size_map size_iota; apply: (panics_bind r6).
  rewrite {1}eset zip_mapiota zip_mapiota msm_eval_fold_bad; first exact: panics_now.
  move: hx3; rewrite mem_sets => /hasP [pts /(nthP [::]) [i hi <-] hp']; apply/hasP; exists i => //.
  by rewrite mem_iota add0n.
have [|i /hsi hi|D hD eD] := @msm_eval_foldE x2 x3 (nth [::] sets) es q (iota 0 (size sets)).
- exact: iota_uniq.
- split; first by apply: set_uniq; rewrite -size_point_sets.
  + by rewrite size_map.
  + by apply: contra hx3 => hx3; rewrite mem_sets; apply/hasP; exists (nth [::] sets i) => //; exact: mem_nth.
  by apply: hkt; rewrite mem_iota add0n.
have [m9 e9 [v9 ev9]] := append_termE ok 1 c' vm.
have [m10 e10 [v10 ev10]] := @msm_foldE x4 ms (fun i => eval_polynomial (q i) x3) (fun i => x1 ^+ size (bucket i (vitems kp cr ev)))
  m9 (hsumF x2 [seq (Poly (kq (q i) (nth [::] sets i))).[x3] -
         (D i).[x3] / (\prod_(p <- nth [::] sets i) ('X - p%:P)).[x3] | i <- iota 0 (size sets)]) (iota 0 (size sets))
  (fun i => (hms i).1) v9.
have hqa : all (fun p : seq F => size p == n) [seq q i | i <- iota 0 (size sets)].
  by rewrite all_map; apply/allP => i /hsi hi /=; have [_ ->] := hq i hi.
have [spf lpf] := hpoly_fold x4 sq' hqa.
have em10 : mval E ps m10 = dotG (foldl (fun a p => addscale n a x4 p) q' [seq q i | i <- iota 0 (size sets)]) (p_g ps)
   + hsumF x4 (b' :: [seq b i | i <- iota 0 (size sets)]) *: p_w ps.
  have lg := lin_dotG psz.
  rewrite ev10 ev9 em add0r scale1r -ec' (lpf _ _ lg) map_cons !hsum_cons hsumF_cons !size_map -map_comp -?size_point_sets -/sets.
  have -> : [seq mval E ps (ms i) | i <- iota 0 (size sets)] = [seq dotG (q i) (p_g ps) + b i *: p_w ps | i <- iota 0 (size sets)].
    apply/eq_in_map => i /hsi hi; rewrite (hms i).2 bucket_vitems -map_comp.
    have [_ _ hl] := hq i hi; rewrite (hl _ _ lg) -hsum_pair; congr (hsum _ _).
    by apply/eq_in_map => k /keys_ofP [hk _]; case: (hcr k hk).
  by rewrite hsum_pair scalerDr scalerDl scalerA addrACA.
have [gd [rg vg su eg]] := ipa_complete ok pok (hsumF x4
             (hsumF x2
                [seq (Poly (kq (q i) (nth [::] sets i))).[x3] -
                     (D i).[x3] / (\prod_(p <- nth [::] sets i) ('X - p%:P)).[x3] | i <- iota 0 (size sets)]
              :: [seq eval_polynomial (q i) x3 | i <- iota 0 (size sets)])) k0 v10 em10 hp.
exists gd, D; split=> //.
- apply: (replays_bind (squeeze_replay h1)); apply: (replays_bind (squeeze_replay h2)).
  apply: (replays_bind (a := (vitems kp cr ev, sets))); first by apply: replays_lift; rewrite cis_vqs hu.
  apply: (replays_bind (replays_lift _ _)); first by rewrite ev1.
  apply: (replays_silent d3); apply: (replays_bind (replays_map_err _ r4)); apply: (replays_bind (squeeze_replay h5)).
  rewrite size_map size_iota; apply: (replays_bind r6).
  rewrite {1}eset zip_mapiota zip_mapiota eD; apply: (replays_bind (replays_lift _ (erefl _))).
  apply: (replays_bind (squeeze_replay h7)).
  rewrite e9; apply: (replays_bind (replays_lift _ (erefl _))).
  rewrite zip_mapiota e10; apply: (replays_bind (replays_lift _ (erefl _))).
  exact: rg.
- move=> i hi; have [|sD vD] := hD i; first by rewrite mem_iota add0n.
  split=> // p hpt; have hj : (index p (nth [::] sets i) < size (nth [::] sets i))%N by rewrite index_mem.
  have := vD _ hj; rewrite (nth_map 0) // nth_index // => ->.
  have [_ _ hl] := hq i hi; have := hl _ _ (lin_eval (n := n) p); rewrite eval_polynomial_horner => ->.
  rewrite -[hsum _ _]/(hsumF _ _) hsumF_sub; congr (hsumF _ _); apply: eq_map => k.
  by rewrite eval_polynomial_horner.
rewrite eg; congr (_ *: _).
rewrite (lpf _ _ (lin_eval (n := n) x3)) -[hsum _ _]/(hsumF _ _) map_cons !hsumF_cons !size_map size_iota -map_comp -?size_point_sets -/sets.
rewrite opprD addrACA subrr addr0 -mulrBr; congr (_ * _).
rewrite (lq' _ _ (lin_eval (n := n) x3)) -[hsum _ _]/(hsumF _ _) -!map_comp hsumF_sub; congr (hsumF _ _).
apply/eq_in_map => i /= hi; have := hkt i hi; move: hi => /hsi hi.
move=> /kate_foldP [sQ _]; rewrite eval_polynomial_horner Poly_resize; last by rewrite sQ; have [_ -> _] := hq i hi; exact: leq_subr.
by rewrite opprB addrC subrK.
Qed.
End Main.
