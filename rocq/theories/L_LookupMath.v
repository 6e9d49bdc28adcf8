(* The algebra of the lookup argument. *)
Set Warnings "-notation-overridden,-ambiguous-paths".
From mathcomp Require Import all_ssreflect all_algebra.
From Verif Require Import Util S_Count L_PermMath S_Plonk.
Import GRing.Theory.
Set Implicit Arguments.
Unset Strict Implicit.
Local Open Scope ring_scope.

(* counting *)
Section Count.
Lemma at_most_or (T : eqType) a b (P : pred T) (Q : T -> Prop) :
  at_most a (fun x => P x) -> at_most b Q -> at_most (a + b) (fun x => P x \/ Q x).
Proof.
move=> hP hQ l ul hl; rewrite -(count_predC P l) -!size_filter; apply: leq_add.
  by apply: hP; [exact: filter_uniq|move=> x; rewrite mem_filter => /andP []].
apply: hQ; first exact: filter_uniq.
by move=> x; rewrite mem_filter /= => /andP [np /hl []] // px; rewrite px in np.
Qed.
Lemma at_most_weak (T : eqType) a b (P Q : T -> Prop) : (a <= b)%N -> (forall x, P x -> Q x) ->
  at_most a Q -> at_most b P.
Proof. by move=> hab h hQ l ul hl; apply: leq_trans hab; apply: hQ => // x /hl /h. Qed.
Lemma at_most_none (T : eqType) (P : T -> Prop) : (forall x, ~ P x) -> at_most 0 P.
Proof. by move=> h [|x l] // _ hl; case: (h x); apply: hl; rewrite inE eqxx. Qed.
Lemma at_most_exists (T : eqType) k N (P : nat -> pred T) :
  (forall i, (i < N)%N -> at_most k (fun x => P i x)) ->
  at_most (N * k) (fun x => exists2 i, (i < N)%N & P i x).
Proof.
elim: N => [|N IH] h; first by rewrite mul0n; apply: at_most_none => x [i].
rewrite mulSn.
apply: (@at_most_weak _ (k + N * k) _ _ (fun x => P N x \/ exists2 i, (i < N)%N & P i x)) => //.
  by move=> x [i]; rewrite ltnS leq_eqVlt => /orP [/eqP ->|hi] px; [left|right; exists i].
by apply: at_most_or; [exact: h|apply: IH => i hi; apply: h; exact: ltnW].
Qed.
Lemma at_most_root (F : fieldType) k (p : {poly F}) : p != 0 -> (size p <= k.+1)%N ->
  at_most k (fun x => root p x).
Proof.
move=> p0 sp l ul hl; rewrite -ltnS; apply: leq_trans sp.
by apply: max_poly_roots p0 _ ul; apply/allP.
Qed.
End Count.

(* Random linear combination: differing tuples of size m+1 collide for at most m thetas. *)
Section Compress.
Variable F : fieldType.
Lemma compress_horner (theta : F) xs : compress theta xs = (Poly (rev xs)).[theta].
Proof.
rewrite /compress; elim/last_ind: xs => [|xs x IH]; first by rewrite horner0.
by rewrite foldl_rcons rev_rcons IH /= horner_cons.
Qed.
Definition collide (xs ys : seq F) (theta : F) : bool :=
  (xs != ys) && (compress theta xs == compress theta ys).
Lemma Poly_inj_size (xs ys : seq F) : size xs = size ys -> Poly xs = Poly ys -> xs = ys.
Proof.
move=> hs e; apply: (@eq_from_nth _ 0) => // i hi.
by rewrite -[xs`_i]coef_Poly e coef_Poly.
Qed.
Lemma collide_few xs ys : size xs = size ys -> at_most (size xs).-1 (fun t => collide xs ys t).
Proof.
move=> hs; case: (eqVneq xs ys) => [->|ne].
  by move=> [|x l] //= _ /(_ x (mem_head _ _)); rewrite /collide eqxx.
pose p := Poly (rev xs) - Poly (rev ys).
have p0 : p != 0.
  rewrite subr_eq0; apply: contra ne => /eqP /Poly_inj_size; rewrite !size_rev => /(_ hs).
  by move/(can_inj revK) => ->.
have sp : (size p <= size xs)%N.
  apply: leq_trans (size_add _ _) _; rewrite size_opp geq_max.
  by rewrite -{1}(size_rev xs) hs -(size_rev ys) !size_Poly.
have sx : (size xs).-1.+1 = size xs.
  by rewrite prednK //; apply: leq_trans sp; rewrite size_poly_gt0.
apply: (at_most_weak (leqnn _) (Q := fun t => root p t)); last first.
  by apply: at_most_root => //; rewrite sx.
move=> t /andP [_]; rewrite !compress_horner => /eqP e.
by apply/rootP; rewrite /p hornerD hornerN e subrr.
Qed.
End Compress.

Section Lookup.
Variable F : fieldType.
Variable u : nat.
Implicit Types (A S a s z : nat -> F).

(* What the five constraints say about the usable rows. *)
Record lookup_rows (n : nat) (beta gamma : F) z a s A S : Prop := LookupRows {
  lr_first : z 0%N = 1;
  lr_last : z u ^+ 2 = z u;
  lr_step : forall i, (i < u)%N -> z i.+1 * (a i + beta) * (s i + gamma) = z i * (A i + beta) * (S i + gamma);
  lr_top : a 0%N = s 0%N;
  lr_lined : forall i, (i < u)%N -> a i = s i \/ a i = a ((i + n).-1 %% n)%N }.

Definition pp (w : nat -> F) : {poly F} := prodP (fun i : 'I_u => w i).
Lemma pp_horner w x : (pp w).[x] = \prod_(i < u) (w i + x).
Proof. by rewrite /pp horner_prodP; apply: eq_bigr => i _; rewrite addrC. Qed.
Lemma pp_size w : size (pp w) = u.+1. Proof. by rewrite /pp prodP_size card_ord. Qed.
Lemma pp_monic w : pp w \is monic. Proof. exact: prodP_monic. Qed.
Lemma pp_neq0 w : pp w != 0. Proof. exact: monic_neq0 (pp_monic w). Qed.
Lemma pp_in w w' i : pp w = pp w' -> (i < u)%N -> exists2 j, (j < u)%N & w i = w' j.
Proof.
move=> e hi; have [j h] := @prodP_root_in _ _ (fun i : 'I_u => w i) (fun i : 'I_u => w' i) (Ordinal hi) e.
by exists j.
Qed.

Definition lk_bad_beta a A (beta : F) : Prop :=
  (pp a != pp A) && ((pp a).[beta] == (pp A).[beta]) \/ root (pp A) beta.
Definition lk_bad_gamma a s A S (beta gamma : F) : Prop :=
  let D := (pp a).[beta] *: pp s - (pp A).[beta] *: pp S in
  (D != 0) && root D gamma \/ root (pp S) gamma.

Lemma lk_bad_beta_few a A : at_most (2 * u) (lk_bad_beta a A).
Proof.
rewrite mul2n -addnn; apply: (at_most_or (P := fun b => (pp a != pp A) && ((pp a).[b] == (pp A).[b]))); last first.
  by apply: at_most_root; rewrite ?pp_neq0 ?pp_size.
case: (eqVneq (pp a) (pp A)) => [e|ne].
  by move=> [|x l] //= _ /(_ x (mem_head _ _)).
apply: (at_most_weak (leqnn _) (Q := fun t => root (pp a - pp A) t)).
  by move=> x /eqP e; apply/rootP; rewrite hornerD hornerN e subrr.
apply: at_most_root; first by rewrite subr_eq0.
by apply: leq_trans (size_add _ _) _; rewrite size_opp !pp_size maxnn.
Qed.
Lemma lk_bad_gamma_few a s A S beta : at_most (2 * u) (lk_bad_gamma a s A S beta).
Proof.
rewrite /lk_bad_gamma; set D := _ - _.
rewrite mul2n -addnn; apply: (at_most_or (P := fun g => (D != 0) && root D g)); last first.
  by apply: at_most_root; rewrite ?pp_neq0 ?pp_size.
case: (eqVneq D 0) => [e|ne].
  by move=> [|x l] //= _ /(_ x (mem_head _ _)).
apply: at_most_root => //.
apply: leq_trans (size_add _ _) _; rewrite size_opp geq_max.
by rewrite -{1}(pp_size s) -(pp_size S) !size_scale_leq.
Qed.

Lemma lookup_rows_sound n beta gamma z a s A S : (u <= n)%N -> lookup_rows n beta gamma z a s A S ->
  ~ lk_bad_beta a A beta -> ~ lk_bad_gamma a s A S beta gamma ->
  forall i, (i < u)%N -> exists2 j, (j < u)%N & A i = S j.
Proof.
move=> un [h1 h2 h3 h4 h5] nb ng.
have hq : (pp A).[beta] != 0 by apply/negP => h; apply: nb; right.
have ht : (pp S).[gamma] != 0 by apply/negP => h; apply: ng; right.
have hz : z u * ((pp a).[beta] * (pp s).[gamma]) = (pp A).[beta] * (pp S).[gamma].
  rewrite !pp_horner -!big_split /=.
  have := @chain_rows F z (fun i => (a i + beta) * (s i + gamma)) (fun i => (A i + beta) * (S i + gamma)) u.
  by rewrite h1 mul1r; apply=> i hi; rewrite !mulrA h3.
have z1 : z u = 1.
  have zn : z u != 0 by apply: contraNneq (mulf_neq0 hq ht) => e; rewrite -hz e mul0r.
  by apply: (mulfI zn); rewrite mulr1 -expr2.
rewrite z1 mul1r in hz.
have D0 : (pp a).[beta] *: pp s = (pp A).[beta] *: pp S.
  apply/eqP; rewrite -subr_eq0; apply: contra_notT ng => ne; left; rewrite ne /=.
  by apply/rootP; rewrite hornerD hornerN !hornerZ hz subrr.
have eb : (pp a).[beta] = (pp A).[beta].
  have := congr1 lead_coef D0; rewrite !lead_coefZ !(monicP (pp_monic _)) !mulr1 //.
have ea : pp a = pp A.
  apply/eqP; apply: contra_notT nb => ne; left; by rewrite ne eb eqxx.
have es : pp s = pp S by move: D0; rewrite eb => /(scalerI hq).
have as_ i : (i < u)%N -> exists2 j, (j < u)%N & a i = s j.
  elim: i => [|i IH] hi; first by exists 0%N.
  case: (h5 _ hi) => [->|]; first by exists i.+1.
  have -> : ((i.+1 + n).-1 %% n = i)%N by rewrite addSn /= modnDr modn_small // (leq_trans (ltnW hi)).
  by move=> ->; apply: IH; exact: ltnW.
move=> i hi; have [j hj ->] := pp_in (esym ea) hi.
by have [k hk ->] := as_ _ hj; exact: pp_in es hk.
Qed.

(* a permutation has the same product *)
Lemma perm_prod (a A : seq F) x : perm_eq a A -> size A = u ->
  \prod_(i < u) (a`_i + x) = \prod_(i < u) (A`_i + x).
Proof.
move=> h sA.
have key (l : seq F) : size l = u -> \prod_(i < u) (l`_i + x) = \prod_(y <- l) (y + x).
  by move=> <-; rewrite (big_nth 0) big_mkord.
by rewrite !key // ?(perm_size h) //; exact: perm_big.
Qed.
Lemma lookup_end beta gamma (z : nat -> F) (a s A S : seq F) :
  perm_eq a A -> perm_eq s S -> size A = u -> size S = u -> z 0%N = 1 ->
  (forall i, (i < u)%N -> z i.+1 * (a`_i + beta) * (s`_i + gamma) = z i * (A`_i + beta) * (S`_i + gamma)) ->
  (forall i, (i < u)%N -> (a`_i + beta != 0) && (s`_i + gamma != 0)) -> z u = 1.
Proof.
move=> pa ps sA sS z0 hstep hne.
have h : z u * \prod_(i < u) ((a`_i + beta) * (s`_i + gamma)) = \prod_(i < u) ((A`_i + beta) * (S`_i + gamma)).
  have := @chain_rows F z (fun i => (a`_i + beta) * (s`_i + gamma)) (fun i => (A`_i + beta) * (S`_i + gamma)) u.
  by rewrite z0 mul1r; apply=> i hi; rewrite !mulrA hstep.
have e : \prod_(i < u) ((A`_i + beta) * (S`_i + gamma)) = \prod_(i < u) ((a`_i + beta) * (s`_i + gamma)).
  by rewrite !big_split /= (perm_prod beta pa sA) (perm_prod gamma ps sS).
apply: (@mulIf _ (\prod_(i < u) ((a`_i + beta) * (s`_i + gamma)))); last by rewrite mul1r h.
by apply/prodf_neq0 => i _; have /andP [h1 h2] := hne i (ltn_ord i); exact: mulf_neq0.
Qed.
End Lookup.
