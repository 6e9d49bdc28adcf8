(* The expressions built by the prover vanish on the domain iff the row constraints hold. *)
Set Warnings "-notation-overridden,-ambiguous-paths".
From mathcomp Require Import all_ssreflect all_algebra.
From Verif Require Import Util M_Poly M_Domain L_Domain M_Assigned M_Evaluator S_Evaluator L_Evaluator P_Evaluator
  M_Env M_Transcript M_Commit M_Multiopen M_Circuit M_Selectors L_Selectors M_Copy M_Keys M_Permutation L_Sigma
  L_Chunks S_Permutation.
Import GRing.Theory.
Set Implicit Arguments.
Unset Strict Implicit.
Local Open Scope ring_scope.

Section At.
Variables (F : fieldType) (w : F) (P : nat -> {poly F}) (x : F).
Notation at_ := (expr_at w P x).
Lemma at_poly i r : at_ (APoly i r) = (P i).[w ^ r * x].
Proof. by rewrite /expr_at /= /rotated horner_comp hornerZ hornerX. Qed.
Lemma at_poly0 i : at_ (APoly i 0) = (P i).[x].
Proof. by rewrite at_poly expr0z mul1r. Qed.
Lemma at_add a b : at_ (AAdd a b) = at_ a + at_ b.
Proof. by rewrite /expr_at /= hornerD. Qed.
Lemma at_mul a b : at_ (AMul a b) = at_ a * at_ b.
Proof. by rewrite /expr_at /= hornerM. Qed.
Lemma at_scale a s : at_ (AScale a s) = at_ a * s.
Proof. by rewrite /expr_at /= hornerM hornerC. Qed.
Lemma at_const s : at_ (AConstantTerm s) = s.
Proof. by rewrite /expr_at /= hornerC. Qed.
Lemma at_linear s : at_ (ALinearTerm s) = s * x.
Proof. by rewrite /expr_at /= !hornerE. Qed.
Lemma at_one : at_ (ast_one F) = 1.
Proof. exact: at_const. Qed.
Lemma at_sub a b : at_ (ast_sub a b) = at_ a - at_ b.
Proof. by rewrite /ast_sub at_add /ast_neg at_scale mulrN1. Qed.
Definition atE := (at_poly0, at_poly, at_add, at_mul, at_const, at_linear, at_one, at_sub, at_scale).

Lemma at_perm_left beta gamma (L : seq (nat * nat)) (a : ast F) :
  at_ (foldl (perm_left beta gamma) a L) =
  at_ a * \prod_(e <- L) ((P e.1).[x] + beta * (P e.2).[x] + gamma).
Proof.
elim: L a => [|e L IH] a /=; first by rewrite big_nil mulr1.
by rewrite IH big_cons /perm_left !atE mulrA.
Qed.
End At.

Lemma zip_behead (A : Type) (d : A) (s : seq A) :
  zip (behead s) s = [seq (nth d s t.+1, nth d s t) | t <- iota 0 (size s).-1].
Proof.
have sz : size (zip (behead s) s) = (size s).-1.
  by rewrite size_zip size_behead; apply/minn_idPl; exact: leq_pred.
apply: (@eq_from_nth _ (d, d)); first by rewrite size_map sz size_iota.
move=> i hi; rewrite nth_zip_cond hi nth_behead.
by rewrite sz in hi; rewrite (nth_map 0%N) ?size_iota // nth_iota.
Qed.
Lemma big_iota (F : fieldType) a l (f : nat -> F) : \prod_(j <- iota a l) f j = \prod_(i < l) f (a + i)%N.
Proof.
rewrite -[a in iota a]addn0 iotaDl big_map -(big_mkord xpredT (fun i => f (a + i)%N)).
by rewrite /index_iota subn0.
Qed.

Section R.
Variables (F B : fieldType) (G : lmodType F) (E : env B G).
Notation delta := (e_delta E).

Lemma at_perm_right w P x gamma (L : seq nat) (a : ast F) c :
  expr_at w P x (foldl (perm_right E gamma) (a, c) L).1 =
  expr_at w P x a * \prod_(i < size L) ((P (nth 0%N L i)).[x] + c * delta ^+ i * x + gamma).
Proof.
elim: L a c => [|e L IH] a c /=; first by rewrite big_ord0 mulr1.
rewrite IH big_ord_recl /= !atE /= expr0 mulr1 mulrA; congr (_ * _).
by apply: eq_bigr => i _; rewrite /= exprS mulrA.
Qed.

Variables (pk : pkey G) (k : nat) (omega : F).
Hypothesis hw : (2 ^ k).-primitive_root omega.
Notation n := (2 ^ k)%N.
Notation vk := (pk_vk pk).
Notation bf := (blinding_factors (vk_cs vk)).
Notation len := (vk_cs_degree vk - 2)%N.
Notation cols := (permutation (vk_cs vk)).
Notation m := (size cols).
Hypothesis hbf : (bf + 1 <= n)%N.
Hypothesis len0 : (0 < len)%N.
Notation u := (n - (bf + 1))%N.
Variables (sets : seq (pset F)) (advice fixed instance sigma : seq nat) (l0 l_blind l_last : nat).
Variables (lf : nat -> nat).
Hypothesis hsets : size sets = nch len m.
Hypothesis hsigma : size sigma = m.
Hypothesis hlf : forall j, (j < m)%N ->
  any_of advice fixed instance (nth (Advice, 0%N) cols j) = Some (lf j).
Variables beta gamma : F.

Definition set0 : pset F := PSet [::] 0 0.
Notation zc t := (s_coset (nth set0 sets t)).

Definition prod_ast (t : nat) : ast F :=
  perm_product_ast E l_blind l_last beta gamma len t (zc t) [seq lf j | j <- ch len m t]
     [seq nth 0%N sigma j | j <- ch len m t].

Definition perm_asts : seq (ast F) :=
  (if (0 < m)%N then [:: AMul (ast_sub (ast_one F) (APoly (zc 0%N) 0)) (APoly l0 0)] else [::]) ++
  (if (0 < m)%N then [:: AMul (ast_sub (AMul (APoly (zc (nch len m).-1) 0) (APoly (zc (nch len m).-1) 0))
                              (APoly (zc (nch len m).-1) 0)) (APoly l_last 0)] else [::]) ++
  [seq AMul (ast_sub (APoly (zc t.+1) 0) (APoly (zc t) (rot_last bf))) (APoly l0 0)
     | t <- iota 0 (nch len m).-1] ++
  [seq prod_ast t | t <- iota 0 (nch len m)].

Lemma perm_constructE :
  perm_construct E pk sets advice fixed instance sigma l0 l_blind l_last beta gamma = Some perm_asts.
Proof.
rewrite /perm_construct.
set prods := sequence _; have -> : prods = Some [seq prod_ast t | t <- iota 0 (nch len m)].
  rewrite {}/prods (mapiE (set0, [::], [::])) !size_zip hsets !(size_chunks _ (m := m)) // !minnn.
  apply: sequence_map => t; rewrite mem_iota => /andP [_ ht].
  rewrite !nth_zip ?size_zip ?hsets ?(size_chunks _ (m := m)) ?minnn //=.
  rewrite (nth_chunks (Advice, 0%N) erefl ht) (nth_chunks 0%N hsigma ht) -map_comp.
  rewrite (sequence_map (g := lf)) //= => j hj; apply: hlf; exact: mem_ch hj.
rewrite /= /perm_asts; congr Some; congr (_ ++ _); [|congr (_ ++ _); [|congr (_ ++ _)]].
- by rewrite -(nch_gt0 m len0) -hsets; case: (sets).
- rewrite -(nch_gt0 m len0) -hsets; case/lastP: (sets) => // l s.
  by rewrite rev_rcons size_rcons /= nth_rcons ltnn eqxx.
by rewrite (zip_behead set0) hsets -map_comp.
Qed.

Variable P : nat -> {poly F}.
Notation row p i := (P p).[omega ^+ i].
Hypothesis h_l0 : forall i, (i < n)%N -> row l0 i = (i == 0%N)%:R.
Hypothesis h_l_last : forall i, (i < n)%N -> row l_last i = (i == u)%:R.
Hypothesis h_l_blind : forall i, (i < n)%N -> row l_blind i = (u < i)%:R.
Definition zrow t i := row (zc t) i.
Definition vrow j i := row (lf j) i.
Definition srow j i := row (nth 0%N sigma j) i.

Lemma omega_wrap i : (0 < i)%N -> (i <= n)%N -> omega ^ (- (i%:Z)) = omega ^+ (n - i).
Proof.
move=> i0 hi; apply: (@mulIf _ (omega ^+ i)).
  by rewrite expf_neq0 // (prim_neq0 hw).
rewrite -exprD subnK // (prim_expr_order hw) -exprnN mulVf // expf_neq0 // (prim_neq0 hw) //.
Qed.

Lemma prod_ast_at t i : (t < nch len m)%N -> (i < n)%N ->
  expr_at omega P (omega ^+ i) (prod_ast t) =
  (zrow t (i.+1 %% n) * \prod_(j <- ch len m t) (vrow j i + beta * srow j i + gamma) -
   zrow t i * \prod_(j <- ch len m t) (vrow j i + beta * (delta ^+ j * omega ^+ i) + gamma))
  * (i < u)%:R.
Proof.
move=> ht hi; rewrite /prod_ast /perm_product_ast !atE at_perm_left at_perm_right !atE.
rewrite h_l_last // h_l_blind // /rot_next expr1z -exprS; congr ((_ * _ - _ * _) * _).
- by rewrite /zrow (prim_expr_mod hw).
- have -> : zip [seq lf j | j <- ch len m t] [seq nth 0%N sigma j | j <- ch len m t] =
            [seq (lf j, nth 0%N sigma j) | j <- ch len m t].
    by elim: (ch len m t) => //= a l ->.
  by rewrite big_map.
- have [l el _] := chE len0 ht; rewrite el big_iota size_map size_iota.
  apply: eq_bigr => j _; rewrite (nth_map 0%N) ?size_iota // nth_iota // exprD.
  by rewrite /vrow -!mulrA mulrCA.
case: ltngtP => h; rewrite ?mulr0n ?mulr1n ?addr0 ?add0r ?subr0 ?subrr //.
Qed.

Lemma perm_asts_rows : vanish_on_domain omega n P perm_asts <->
  perm_rows delta omega beta gamma len m u zrow vrow srow.
Proof.
have n0 : (0 < n)%N by rewrite expn_gt0.
have bf1 : (0 < bf + 1)%N by rewrite addn1.
have un : (u < n)%N by rewrite ltn_subrL n0 addn1.
have rb (b : bool) (c : F) : (c * b%:R == 0) = ~~ b || (c == 0).
  by case: b; rewrite ?mulr1 ?mulr0 ?eqxx.
have al (T : Type) (p : pred (ast F)) (f : T -> ast F) s : all p (map f s) = all (p \o f) s by rewrite all_map.
split=> [h|[h1 h2 h3 h4] i hi].
  have h' i : (i < n)%N -> [/\ 
      (0 < m)%N -> i = 0%N -> zrow 0 i = 1, (0 < m)%N -> i = u -> zrow (nch len m).-1 i ^+ 2 = zrow (nch len m).-1 i,
      forall t, (t < (nch len m).-1)%N -> i = 0%N -> zrow t.+1 0 = zrow t u &
      forall t, (t < nch len m)%N -> expr_at omega P (omega ^+ i) (prod_ast t) = 0].
    move=> hi; have := h i hi; rewrite /perm_asts !all_cat !al => /and4P [a1 a2 a3 a4]; split.
    - move=> m0 ei; move: a1; rewrite m0 /= !atE h_l0 // ei eqxx mulr1 subr_eq0 andbT => /eqP e.
      by rewrite /zrow -e.
    - move=> m0 ei; move: a2; rewrite m0 /= !atE h_l_last // ei eqxx mulr1 subr_eq0 andbT => /eqP e.
      by rewrite expr2.
    - move=> t ht ei; move/allP: a3 => /(_ t); rewrite mem_iota add0n => /(_ ht) /=.
      rewrite !atE h_l0 // ei eqxx mulr1 subr_eq0 expr0 mulr1 /rot_last (omega_wrap bf1 hbf) => /eqP e.
      by rewrite /zrow expr0 e.
    by move=> t ht; move/allP: a4 => /(_ t); rewrite mem_iota add0n => /(_ ht) /= /eqP.
  split.
  - by move=> m0; have [-> //] := h' 0%N n0.
  - by move=> m0; have [_ -> //] := h' u un.
  - by move=> t ht; have [_ _ h3 _] := h' 0%N n0; apply: h3 => //; rewrite -ltnS prednK // (leq_trans _ ht).
  move=> t i ht hi; have hin : (i < n)%N := ltn_trans hi un.
  have [_ _ _ /(_ t ht)] := h' i hin; rewrite prod_ast_at // hi mulr1 => /eqP.
  by rewrite subr_eq0 modn_small ?(leq_ltn_trans hi un) // => /eqP.
rewrite /perm_asts !all_cat !al; apply/and4P; split.
- case: ifP => // m0 /=; rewrite !atE h_l0 // andbT rb.
  by case: eqP => //= e; rewrite e -[(P _).[_]]/(zrow 0 0) h1 ?subrr.
- case: ifP => // m0 /=; rewrite !atE h_l_last // andbT rb.
  by case: eqP => //= e; rewrite e -[(P _).[_]]/(zrow (nch len m).-1 u) -expr2 h2 ?subrr.
- apply/allP => t; rewrite mem_iota add0n /= => ht; rewrite !atE h_l0 // rb.
  case: eqP => //= e; rewrite e expr0 mulr1 /rot_last (omega_wrap bf1 hbf).
  rewrite -[(P _).[omega ^+ _]]/(zrow t _) -[X in (P _).[X]](expr0 omega) -[(P _).[_]]/(zrow t.+1 0).
  by rewrite h3 ?subrr //; case: (nch len m) ht.
apply/allP => t; rewrite mem_iota add0n /= => ht; rewrite prod_ast_at // rb.
case: ltnP => //= hu; rewrite modn_small ?(leq_ltn_trans hu un) //.
by rewrite h4 ?subrr.
Qed.
End R.
