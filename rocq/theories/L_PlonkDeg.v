(* The degree of the prover's expressions: cs.degree() bounds the degree of every gate, of the
   permutation argument and of the lookup argument, in units of n - 1. *)
Set Warnings "-notation-overridden,-ambiguous-paths".
From mathcomp Require Import all_ssreflect all_algebra.
From Verif Require Import Util L_Chunks M_Poly M_Domain M_Evaluator S_Evaluator P_Evaluator M_Assigned M_Env M_Transcript M_Commit
  M_Multiopen M_Circuit S_Circuit M_Selectors M_Keys M_Permutation M_Lookup L_Sigma M_Vanishing P_Vanishing S_Plonk L_Expr P_Lookup M_Plonk L_Wpe.
Import GRing.Theory.
Set Implicit Arguments.
Unset Strict Implicit.
Local Open Scope ring_scope.

Section Deg.
Variables (F B : fieldType) (G : lmodType F) (E : env B G).
Variables (w : F) (P : nat -> {poly F}) (n : nat).
Hypothesis n2 : (1 < n)%N.
Hypothesis hP : forall l, (size (P l) <= n)%N.

Fixpoint adeg (a : ast F) : nat :=
  match a with
  | APoly _ _ | ALinearTerm _ => 1
  | AAdd a b => maxn (adeg a) (adeg b)
  | AMul a b => adeg a + adeg b
  | AScale a _ => adeg a
  | ADistributePowers ts _ => foldr maxn 0%N (map adeg ts)
  | AConstantTerm _ => 0
  end.

Lemma size_rotated r l : (size (rotated (w ^ r) (P l)) <= n)%N.
Proof.
rewrite /rotated; apply: leq_trans (size_comp_poly_leq _ _) _.
have h : ((size (w ^ r *: 'X : {poly F})%R).-1 <= 1)%N.
  by rewrite -subn1 leq_subLR; apply: leq_trans (size_scale_leq _ _) _; rewrite size_polyX.
have hl := hP l; have := leq_mul (leqnn (size (P l)).-1) h; rewrite muln1 => h2.
by apply: (leq_trans (n := ((size (P l)).-1).+1)) => //; case: (size (P l)) hl => [|k] //= _; exact: ltnW.
Qed.

(* asts without ADistributePowers *)
Fixpoint simple_ast (a : ast F) : bool :=
  match a with
  | ADistributePowers _ _ => false
  | AAdd a b | AMul a b => simple_ast a && simple_ast b
  | AScale a _ => simple_ast a
  | _ => true
  end.

Lemma adeg_bound a : simple_ast a -> (size (expr_poly w P a) <= (adeg a * n.-1).+1)%N.
Proof.
have nn : n.-1.+1 = n by rewrite prednK // ltnW.
rewrite /expr_poly; elim: a => [l r|a IHa b IHb|a IHa b IHb|a IH s|ts b|s|s] //=.
- by rewrite mul1n nn size_rotated.
- move=> /andP [/IHa ha /IHb hb]; apply: leq_trans (size_add _ _) _; rewrite geq_max; apply/andP; split.
    by apply: leq_trans ha _; rewrite ltnS leq_mul2r leq_maxl orbT.
  by apply: leq_trans hb _; rewrite ltnS leq_mul2r leq_maxr orbT.
- move=> /andP [/IHa ha /IHb hb]; apply: leq_trans (size_mul_leq _ _) _.
  have := leq_add ha hb; rewrite mulnDl addSn addnS.
  by case: (_ + _)%N => // m; rewrite ltnS => h; apply: leq_trans h _.
- by move=> /IH h; rewrite mulrC mul_polyC; apply: leq_trans (size_scale_leq _ _) h.
- by move=> _; rewrite mul1n mul_polyC; apply: leq_trans (size_scale_leq _ _) _; rewrite size_polyX nn.
- by move=> _; rewrite mul0n size_polyC leq_b1.
Qed.

Lemma adeg_le a D : simple_ast a -> (adeg a <= D)%N -> (size (expr_poly w P a) <= (D * n.-1).+1)%N.
Proof. by move=> h1 h2; apply: leq_trans (adeg_bound h1) _; rewrite ltnS leq_mul2r h2 orbT. Qed.

(* gates *)
Lemma leaf_ast_deg l e a : leaf_ast l e = Some a -> simple_ast a /\ (adeg a <= degree e)%N.
Proof.
elim: e a => [c|i b|i c r|i c r|i c r|e IH|e1 IH1 e2 IH2|e1 IH1 e2 IH2|e IH f] a //=.
- by move=> [<-].
- by rewrite /leaf_ast /=; case: get => //= q [<-].
- by rewrite /leaf_ast /=; case: get => //= q [<-].
- by rewrite /leaf_ast /=; case: get => //= q [<-].
- by rewrite /leaf_ast /= -/(leaf_ast l e); case: leaf_ast IH => //= q /(_ _ erefl) h [<-].
- rewrite /leaf_ast /= -/(leaf_ast l e1) -/(leaf_ast l e2).
  case: (leaf_ast l e1) IH1 => //= q1 /(_ _ erefl) [h1 h2]; case: (leaf_ast l e2) IH2 => //= q2 /(_ _ erefl) [h3 h4] [<-] /=.
  by rewrite h1 h3; split=> //; rewrite geq_max !leq_max h2 h4 orbT.
- rewrite /leaf_ast /= -/(leaf_ast l e1) -/(leaf_ast l e2).
  case: (leaf_ast l e1) IH1 => //= q1 /(_ _ erefl) [h1 h2]; case: (leaf_ast l e2) IH2 => //= q2 /(_ _ erefl) [h3 h4] [<-] /=.
  by rewrite h1 h3; split=> //; rewrite leq_add.
- by rewrite /leaf_ast /= -/(leaf_ast l e); case: leaf_ast IH => //= q /(_ _ erefl) h [<-].
Qed.

(* permutations *)
Lemma perm_left_deg beta gamma vals sigmas acc k : simple_ast acc -> (adeg acc <= k)%N ->
  let a := foldl (perm_left beta gamma) acc (zip vals sigmas) in
  simple_ast a /\ (adeg a <= k + size vals)%N.
Proof.
elim: vals sigmas acc k => [|v vals IH] [|s sigmas] acc k h1 h2 //=; try by rewrite addn0.
  by split=> //; apply: leq_trans h2 (leq_addr _ _).
have [||h3 h4] := IH sigmas (perm_left beta gamma acc (v, s)) k.+1; rewrite /= ?h1 //.
  by rewrite -[k.+1]addn1 leq_add.
by split=> //; rewrite addnS -addSn.
Qed.
Lemma perm_right_deg gamma vals (st : ast F * F) k : simple_ast st.1 -> (adeg st.1 <= k)%N ->
  let a := (foldl (perm_right E gamma) st vals).1 in simple_ast a /\ (adeg a <= k + size vals)%N.
Proof.
elim: vals st k => [|v vals IH] st k h1 h2 //=; first by rewrite addn0.
have [||h3 h4] := IH (perm_right E gamma st v) k.+1; rewrite /= ?h1 //.
  by rewrite -[k.+1]addn1 leq_add.
by split=> //; rewrite addnS -addSn.
Qed.
Lemma perm_product_deg beta gamma len k l_blind l_last leaf vals sigmas D :
  (size vals + 2 <= D)%N ->
  let a := perm_product_ast E l_blind l_last beta gamma len k leaf vals sigmas in
  simple_ast a /\ (adeg a <= D)%N.
Proof.
move=> hD; have [//|//|h1 h2] := @perm_left_deg beta gamma vals sigmas (APoly leaf rot_next) 1.
have [//|//|h3 h4] := @perm_right_deg gamma vals (APoly leaf 0, beta * e_delta E ^+ (k * len)) 1.
rewrite /perm_product_ast /= h1 h3; split=> //.
apply: leq_trans hD; rewrite -[2%N]/(1 + 1)%N addnA leq_add //.
by rewrite geq_max [(size vals + 1)%N]addnC h2 h4.
Qed.

Lemma sequence_size (T : Type) (l : seq (option T)) r : sequence l = Some r -> size r = size l.
Proof.
elim: l r => [|o l IH] r /=; first by case=> <-.
by case: o => //= x; case: (sequence l) IH => //= r' /(_ _ erefl) h [<-] /=; rewrite h.
Qed.
Lemma sequence_all (T U : Type) (f : T -> option U) (p : T -> bool) (q : U -> bool) (l : seq T) r :
  (forall x y, p x -> f x = Some y -> q y) -> all p l -> sequence (map f l) = Some r -> all q r.
Proof.
move=> h; elim: l r => [|x l IH] r /=; first by move=> _ [<-].
move=> /andP [px pl]; case e: (f x) => [y|] //=; case: (sequence _) IH => //= r' /(_ _ pl erefl) h2 [<-] /=.
by rewrite (h x y) // h2.
Qed.

Lemma chunks_short (T : Type) len (s : seq T) : (0 < len)%N -> all (fun c : seq T => size c <= len)%N (chunks len s).
Proof.
move=> l0; elim: {s}(size s) {-2}s (leqnn (size s)) => [|k IH] s hs.
  by move: hs; rewrite leqn0 => /nilP ->; rewrite chunks_nil.
case: (posnP (size s)) => [/size0nil ->|s0]; first by rewrite chunks_nil.
rewrite chunksE //= size_take; apply/andP; split; first by case: ltnP.
by apply: IH; rewrite size_drop leq_subLR (leq_trans hs) // addnC -addn1 leq_add2l.
Qed.

Definition deg_ok D a := simple_ast a && (adeg a <= D)%N.
Lemma deg_okP D a : deg_ok D a -> (size (expr_poly w P a) <= (D * n.-1).+1)%N.
Proof. by move=> /andP [h1 h2]; exact: adeg_le. Qed.

Lemma perm_construct_deg (pk : pkey G) sets la lf li sigma l0 l_blind l_last beta gamma asts :
  (2 < vk_cs_degree (pk_vk pk))%N ->
  perm_construct E pk sets la lf li sigma l0 l_blind l_last beta gamma = Some asts ->
  all (deg_ok (vk_cs_degree (pk_vk pk))) asts.
Proof.
move=> hD; rewrite /perm_construct; set D := vk_cs_degree _ in hD *; set len := (D - 2)%N.
case e: (sequence _) => [prods|] //= [<-]; rewrite !all_cat.
have D3 : (3 <= D)%N by [].
have D2 : (2 <= D)%N by exact: ltnW.
apply/and4P; split.
- by case: sets {e} => //= s sets; rewrite /deg_ok /= D2.
- by case: (rev sets) => //= s sets'; rewrite /deg_ok /= D3.
- by elim: (zip _ _) => //= p l ->; rewrite /deg_ok /= D2.
move: e; rewrite /mapi; move: 0%N => k.
have hc : all (fun c : seq column => size c <= len)%N (chunks len (permutation (vk_cs (pk_vk pk)))).
  by apply: chunks_short; rewrite subn_gt0.
elim: (sets) (chunks len (permutation _)) (chunks len sigma) k prods hc => [|s ss IH] [|c cc] [|sg sig] k prods //=;
  try by move=> _ [<-].
move=> /andP [h1 h2]; case e1: (sequence [seq any_of _ _ _ _ | _ <- c]) => [vals|] //=.
case e2: (sequence _) => [r|] //= [<-] /=; rewrite (IH cc sig k.+1) // andbT.
have [|h3 h4] := @perm_product_deg beta gamma len k l_blind l_last (s_coset s) vals sg D; last by rewrite /deg_ok h3.
by rewrite (sequence_size e1) size_map -(subnK (ltnW hD)) leq_add2r.
Qed.

(* lookups *)
Lemma compress_cosets_deg theta asts k : all (deg_ok k) asts -> deg_ok k (compress_cosets theta asts).
Proof.
rewrite /compress_cosets; have : deg_ok k (AConstantTerm (0 : F)) by [].
elim: asts (AConstantTerm _) => //= a asts IH acc h1 /andP [h2 h3].
apply: IH => //; move: h1 h2; rewrite /deg_ok /= !andbT addn0 => /andP [-> h1] /andP [-> h2] /=.
by rewrite geq_max h1 h2.
Qed.
Lemma lookup_construct_deg (lk : lookup F) l theta (c : lcommitted F) beta gamma l0 l_blind l_last D k :
  compressed_asts lk l theta (lc_permuted c) -> lookup_required_degree lk = Some k -> (k <= D)%N ->
  all (deg_ok D) (lookup_construct beta gamma l0 l_blind l_last c).
Proof.
move=> [ia [ta [e1 e2 e3 e4]]]; rewrite /lookup_required_degree; case: ifP => // _ [<-] hk.
have {hk} [D4 hD] : (4 <= D)%N /\ (2 + foldl (fun d e => maxn d (degree e)) 1 (lk_input lk) + foldl (fun d e => maxn d (degree e)) 1 (lk_table lk) <= D)%N.
  by move: hk; rewrite geq_max => /andP.
have fm (es : seq (expr F)) d : (d <= foldl (fun d e => maxn d (degree e)) d es)%N /\
    all (fun e => degree e <= foldl (fun d e => maxn d (degree e)) d es)%N es.
  elim: es d => //= e es IH d; have [h1 h2] := IH (maxn d (degree e)); split; last apply/andP; last split=> //.
    exact: leq_trans (leq_maxl _ _) h1.
  exact: leq_trans (leq_maxr _ _) h1.
have hdeg (es : seq (expr F)) asts : sequence [seq leaf_ast l e | e <- es] = Some asts ->
    deg_ok (foldl (fun d e => maxn d (degree e)) 1%N es) (compress_cosets theta asts).
  move=> e; apply: compress_cosets_deg; apply: (sequence_all (p := fun e => degree e <= foldl (fun d e => maxn d (degree e)) 1 es)%N) e.
    by move=> x y hx /leaf_ast_deg [h1 h2]; rewrite /deg_ok h1 (leq_trans h2 hx).
  by have [] := fm es 1%N.
have := hdeg _ _ e1; have := hdeg _ _ e2; rewrite -e3 -e4.
have [i1 _] := fm (lk_input lk) 1%N; have [t1 _] := fm (lk_table lk) 1%N.
move: (foldl _ _ (lk_input lk)) (foldl _ _ (lk_table lk)) i1 t1 hD => di dt i1 t1 hD /andP [st ht] /andP [si hi].
have D2 : (2 <= D)%N by exact: leq_trans D4.
have D3 : (3 <= D)%N by exact: leq_trans D4.
rewrite /lookup_construct /deg_ok /= si st /= !maxn0 !maxnn.
rewrite !D2 !D3 !andbT /=.
rewrite max0n addn_maxl geq_max D4 /=; apply: leq_trans hD; rewrite addn1 -!addnA [(2 + _)%N]addSn !add1n !ltnS.
exact: leq_add.
Qed.

(* cs.degree() *)
Lemma max_or_ge (s : seq nat) d x : x \in s -> (x <= max_or s d)%N.
Proof.
case: s => //= y s; rewrite inE; elim: s y x => [|z s IH] y x /=; first by rewrite orbF => /eqP ->.
rewrite inE => /or3P [/eqP ->|/eqP ->|h].
- by apply: leq_trans (leq_maxl y z) _; apply: IH; rewrite eqxx.
- by apply: leq_trans (leq_maxr y z) _; apply: IH; rewrite eqxx.
- by apply: IH; rewrite h orbT.
Qed.
Lemma cs_degree_bounds (m : cs F) D : cs_degree m = Some D ->
  [/\ (3 <= D)%N, all (fun p => degree p <= D)%N (flatten [seq g_polys g | g <- gates m]) &
      all (fun l => if lookup_required_degree l is Some k then k <= D else false)%N (lookups m)].
Proof.
rewrite /cs_degree; case e: (all_some _) => [lds|] //= [eD].
set d1 := maxn permutation_required_degree _ in eD; set d2 := maxn d1 _ in eD.
have h2 : (d2 <= D)%N by rewrite -eD leq_maxl.
have h1 : (d1 <= D)%N := leq_trans (leq_maxl _ _) h2.
split; first exact: leq_trans (leq_maxl _ _) h1.
  have hm : (max_or (flatten [seq [seq degree p | p <- g_polys g] | g <- gates m]) 0 <= D)%N.
    exact: leq_trans (leq_maxr _ _) h2.
  have -> : all (fun p => degree p <= D)%N (flatten [seq g_polys g | g <- gates m]) =
      all (fun k => k <= D)%N (flatten [seq [seq degree p | p <- g_polys g] | g <- gates m]).
    by elim: (gates m) => //= g gs IH; rewrite !all_cat IH all_map.
  by apply/allP => k hk; apply: leq_trans (max_or_ge 0 hk) hm.
have hm : all (fun k => k <= D)%N lds.
  by apply/allP => k hk; apply: leq_trans (max_or_ge 1 hk) (leq_trans (leq_maxr _ _) h1).
clear -e hm; elim: (lookups m) lds e hm => //= l ls IH lds.
by case: lookup_required_degree => //= k; case: all_some IH => //= r /(_ _ erefl) h [<-] /= /andP [-> /h ->].
Qed.
End Deg.
