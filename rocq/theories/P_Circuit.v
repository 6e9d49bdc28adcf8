(* C20 (expression degree and evaluation) and C21 (queries of a constraint system). *)
Set Warnings "-notation-overridden,-ambiguous-paths".
From mathcomp Require Import all_ssreflect all_algebra.
From Verif Require Import Util M_Circuit S_Circuit Ex_Field.
Import GRing.Theory.
Set Implicit Arguments.
Unset Strict Implicit.
Local Open Scope ring_scope.

(* degree() bounds the degree of the polynomial an expression stands for when every column
   polynomial (selectors included) has degree below n. *)
Theorem C20_degree_bound :
  forall (F : fieldType) (n : nat) (sel : nat -> {poly F}) (cell : any -> nat -> int -> {poly F})
         (e : expr F),
  (0 < n)%N -> (forall i, size (sel i) <= n)%N -> (forall t c r, size (cell t c r) <= n)%N ->
  (size (meaning sel cell e) <= (degree e * n.-1).+1)%N.
Proof.
move=> F n sel cell e n0 hs hc.
elim: e => [c|i b|i c r|i c r|i c r|a IH|a IHa b IHb|a IHa b IHb|a IH f] /=.
- by apply: leq_trans (size_scale_leq _ _) _; rewrite size_poly1.
- by rewrite mul1n prednK.
- by rewrite mul1n prednK.
- by rewrite mul1n prednK.
- by rewrite mul1n prednK.
- by rewrite size_opp.
- apply: leq_trans (size_add _ _) _; rewrite geq_max; apply/andP; split.
    by apply: leq_trans IHa _; rewrite ltnS leq_mul2r leq_maxl orbT.
  by apply: leq_trans IHb _; rewrite ltnS leq_mul2r leq_maxr orbT.
- apply: leq_trans (size_mul_leq _ _) _.
  have := leq_add IHa IHb; rewrite mulnDl addSn addnS.
  by case: (_ + _)%N => // m; rewrite ltnS => h; apply: leq_trans h _.
- by apply: leq_trans (size_scale_leq _ _) IH.
Qed.
Print Assumptions C20_degree_bound.

(* Evaluating an expression on polynomials and then at a point is evaluating it on the
   values at that point; a query at rotation r of a column with polynomial p is p(w^r X). *)
Theorem C20_evaluate_at_point :
  forall (F : fieldType) (w x : F) (sel : nat -> {poly F}) (col : any -> nat -> {poly F}) (e : expr F),
  (meaning sel (fun t c r => col t c \Po ((w ^ r) *: 'X)) e).[x] =
  meaning (R := [comAlgType F of F^o]) (fun i => (sel i).[x])
    (fun t c r => (col t c).[w ^ r * x]) e.
Proof.
move=> F w x sel col e.
elim: e => [c|i b|i c r|i c r|i c r|a IH|a IHa b IHb|a IHa b IHb|a IH f] /=;
  rewrite ?hornerZ ?hornerC ?horner_comp ?hornerZ ?hornerX //.
- by rewrite hornerN IH.
- by rewrite hornerD IHa IHb.
- by rewrite hornerM IHa IHb.
- by rewrite IH.
Qed.
Print Assumptions C20_evaluate_at_point.

(* Any map that commutes with the operations commutes with evaluate(): the result does not
   depend on how the caller represents values (field elements, polynomials, Asts, ...). *)
Theorem C20_evaluate_natural :
  forall (F : fieldType) (T U : Type) (h : T -> U)
    (c1 : F -> T) (s1 : nat -> bool -> T) (f1 a1 i1 : nat -> nat -> int -> T)
    (n1 : T -> T) (p1 m1 : T -> T -> T) (k1 : T -> F -> T)
    (c2 : F -> U) (s2 : nat -> bool -> U) (f2 a2 i2 : nat -> nat -> int -> U)
    (n2 : U -> U) (p2 m2 : U -> U -> U) (k2 : U -> F -> U) (e : expr F),
  h \o c1 =1 c2 -> (forall i b, h (s1 i b) = s2 i b) ->
  (forall i c r, h (f1 i c r) = f2 i c r) -> (forall i c r, h (a1 i c r) = a2 i c r) ->
  (forall i c r, h (i1 i c r) = i2 i c r) ->
  (forall x, h (n1 x) = n2 (h x)) -> (forall x y, h (p1 x y) = p2 (h x) (h y)) ->
  (forall x y, h (m1 x y) = m2 (h x) (h y)) -> (forall x f, h (k1 x f) = k2 (h x) f) ->
  h (expr_eval c1 s1 f1 a1 i1 n1 p1 m1 k1 e) = expr_eval c2 s2 f2 a2 i2 n2 p2 m2 k2 e.
Proof.
move=> F T U h c1 s1 f1 a1 i1 n1 p1 m1 k1 c2 s2 f2 a2 i2 n2 p2 m2 k2 e hc hs hf ha hi hn hp hm hk.
elim: e => [c|i b|i c r|i c r|i c r|a IH|a IHa b IHb|a IHa b IHb|a IH f] /=; rewrite -?hc //.
- by rewrite hn IH.
- by rewrite hp IHa IHb.
- by rewrite hm IHa IHb.
- by rewrite hk IH.
Qed.
Print Assumptions C20_evaluate_natural.

(* The product of two advice columns minus a constant times a fixed column has degree 2, and
   the bound is attained by columns X^(n-1). *)
Example C20_bound_attained (F : fieldType) (n : nat) :
  let e := ESum (EProduct (EAdvice F 0 0 0) (EAdvice F 1 1 1)) (EScaled (EFixed F 0 0 0) 1) in
  degree e = 2%N /\
  (0 < n)%N -> size (meaning (fun _ => 0) (fun t _ _ => if t is Advice then 'X^n.-1 else 0) e)
    = (degree e * n.-1).+1.
Proof.
move=> e [_ n0]; rewrite /e /= /meaning /= scaler0 addr0 -exprD size_polyXn.
by rewrite addnn mul2n.
Qed.

Section Queries.
Variable F : fieldType.
Implicit Types (m : cs F) (ops : seq (cs_op F)).

Lemma find_queryP (qs : seq (nat * int)) q k :
  find_query qs q k = if q \in qs then Some (k + index q qs)%N else None.
Proof.
elim: qs k => [|x qs IH] k //=; rewrite inE [q == x]eq_sym.
by case: eqVneq => /= _; rewrite ?addn0 // IH addSnnS.
Qed.

(* What every reachable constraint system satisfies. *)
Record cs_inv m : Prop := CsInv {
  inv_fixed : uniq (fixed_queries m);
  inv_fixed0 : all (fun q : nat * int => q.2 == 0) (fixed_queries m);
  inv_advice : uniq (advice_queries m);
  inv_instance : uniq (instance_queries m);
  inv_num : size (num_advice_queries m) = num_advice m;
  inv_cols : all (fun q : nat * int => q.1 < num_advice m)%N (advice_queries m);
  inv_count : forall c, (c < num_advice m)%N ->
    nth 0%N (num_advice_queries m) c = count (fun q : nat * int => q.1 == c) (advice_queries m);
  inv_const : all (fun c => (c, 0) \in fixed_queries m) (constants m);
  inv_perm_uniq : uniq (permutation m);
  inv_perm : all (fun c : column => (c.2, 0) \in
    match c.1 with Advice => advice_queries m | Fixed => fixed_queries m
                 | Instance => instance_queries m end) (permutation m) }.

(* m' extends m: the queries of m keep their indices. *)
Record cs_ext m m' : Prop := CsExt {
  ext_f : exists s, fixed_queries m' = fixed_queries m ++ s;
  ext_a : exists s, advice_queries m' = advice_queries m ++ s;
  ext_i : exists s, instance_queries m' = instance_queries m ++ s }.

Lemma cs_ext_refl m : cs_ext m m.
Proof. by split; exists [::]; rewrite cats0. Qed.
Lemma cs_ext_trans m1 m2 m3 : cs_ext m1 m2 -> cs_ext m2 m3 -> cs_ext m1 m3.
Proof.
move=> [[s1 e1] [s2 e2] [s3 e3]] [[t1 f1] [t2 f2] [t3 f3]]; split.
- by exists (s1 ++ t1); rewrite f1 e1 catA.
- by exists (s2 ++ t2); rewrite f2 e2 catA.
- by exists (s3 ++ t3); rewrite f3 e3 catA.
Qed.

Lemma cs_ext_sub m m' : cs_ext m m' ->
  [/\ {subset fixed_queries m <= fixed_queries m'},
      {subset advice_queries m <= advice_queries m'} &
      {subset instance_queries m <= instance_queries m'}].
Proof.
by move=> [[s1 e1] [s2 e2] [s3 e3]]; split=> q hq; rewrite ?e1 ?e2 ?e3 mem_cat hq.
Qed.

(* An update that only adds queries keeps the last three invariants. *)
Lemma inv_keep m m' : cs_ext m m' -> constants m' = constants m -> permutation m' = permutation m ->
  cs_inv m ->
  [/\ all (fun c => (c, 0) \in fixed_queries m') (constants m'), uniq (permutation m') &
   all (fun c : column => (c.2, 0) \in
    match c.1 with Advice => advice_queries m' | Fixed => fixed_queries m'
                 | Instance => instance_queries m' end) (permutation m')].
Proof.
move=> /cs_ext_sub[s1 s2 s3] -> -> hi; split; last 1 first.
- by apply: sub_all (inv_perm hi) => -[[] c] /=; [apply: s2|apply: s1|apply: s3].
- by apply: sub_all (inv_const hi) => c; apply: s1.
- exact: (inv_perm_uniq hi).
Qed.

Lemma cs_inv_default : cs_inv (cs_default F).
Proof. by split. Qed.

Lemma query_fixed_inv m c : cs_inv m ->
  let m' := (query_fixed_index m c).1 in
  [/\ cs_inv m', cs_ext m m', fixed_queries m' =i (c, 0) :: fixed_queries m,
      advice_queries m' = advice_queries m & instance_queries m' = instance_queries m].
Proof.
move=> hi; rewrite /query_fixed_index find_queryP.
case: (boolP (_ \in _)) => /= hin.
  split=> //; first exact: cs_ext_refl.
  by move=> q; rewrite inE; case: eqVneq => [->|].
have ext : cs_ext m (set_queries m (advice_queries m) (num_advice_queries m) (instance_queries m)
          (rcons (fixed_queries m) (c, 0))).
  by split=> /=; [exists [:: (c, 0)]; rewrite cats1 | exists [::]; rewrite cats0 ..].
split=> //.
- have [k1 k2 k3] := inv_keep ext erefl erefl hi.
  case: hi => *; split=> //=; first by rewrite rcons_uniq hin.
  by rewrite all_rcons.
- by move=> q; rewrite mem_rcons.
Qed.

Lemma query_instance_inv m c r : cs_inv m ->
  let m' := (query_instance_index m c r).1 in
  [/\ cs_inv m', cs_ext m m', instance_queries m' =i (c, r) :: instance_queries m,
      advice_queries m' = advice_queries m & fixed_queries m' = fixed_queries m].
Proof.
move=> hi; rewrite /query_instance_index find_queryP.
case: (boolP (_ \in _)) => /= hin.
  split=> //; first exact: cs_ext_refl.
  by move=> q; rewrite inE; case: eqVneq => [->|].
have ext : cs_ext m (set_queries m (advice_queries m) (num_advice_queries m)
          (rcons (instance_queries m) (c, r)) (fixed_queries m)).
  split=> /=; [by exists [::]; rewrite cats0 ..|by exists [:: (c, r)]; rewrite cats1].
split=> //.
- have [k1 k2 k3] := inv_keep ext erefl erefl hi.
  by case: hi => *; split=> //=; rewrite rcons_uniq hin.
- by move=> q; rewrite mem_rcons.
Qed.

Lemma query_advice_inv m c r m' i : cs_inv m -> query_advice_index m c r = Some (m', i) ->
  [/\ cs_inv m', cs_ext m m', advice_queries m' =i (c, r) :: advice_queries m,
      instance_queries m' = instance_queries m & fixed_queries m' = fixed_queries m].
Proof.
move=> hi; rewrite /query_advice_index find_queryP.
case: (boolP (_ \in _)) => /= hin.
  case=> <- _; split=> //; first exact: cs_ext_refl.
  by move=> q; rewrite inE; case: eqVneq => [->|].
case: ifP => // hc [<- _].
set m1 := set_queries _ _ _ _ _.
have ext : cs_ext m m1.
  split=> /=; [by exists [::]; rewrite cats0|by exists [:: (c, r)]; rewrite cats1|].
  by exists [::]; rewrite cats0.
split=> //.
- have [k1 k2 k3] := inv_keep ext erefl erefl hi.
  case: hi => uf f0 ua ui hn hcols hcount _ _ _; split=> //=.
  + by rewrite rcons_uniq hin.
  + by rewrite size_set_nth hn (maxn_idPr _) // -hn.
  + by rewrite all_rcons /= -hn hc hn.
  + move=> d hd; rewrite nth_set_nth /= -cats1 count_cat /= eq_sym.
    by case: eqVneq => [->|] /=; rewrite hcount // ?addn0 ?addn1 // -hn.
- by move=> q; rewrite mem_rcons.
Qed.

Lemma enable_equality_inv m c m' : cs_inv m -> enable_equality m c = Some m' ->
  [/\ cs_inv m', cs_ext m m',
      advice_queries m' =i asked_advice (OEnableEquality F c) ++ advice_queries m,
      instance_queries m' =i asked_instance (OEnableEquality F c) ++ instance_queries m &
      fixed_queries m' =i [seq (f, 0) | f <- asked_fixed (OEnableEquality F c)] ++ fixed_queries m].
Proof.
move=> hi; rewrite /enable_equality; case: c => t c.
case e: query_any_index => [[m1 i]|] //= [e'].
have [h1 h2 h3 h4 h5] : [/\ cs_inv m1, cs_ext m m1,
      advice_queries m1 =i asked_advice (OEnableEquality F (t, c)) ++ advice_queries m,
      instance_queries m1 =i asked_instance (OEnableEquality F (t, c)) ++ instance_queries m &
      fixed_queries m1 =i [seq (f, 0) | f <- asked_fixed (OEnableEquality F (t, c))] ++ fixed_queries m].
  move: e; rewrite /query_any_index; case: t {e'} => /=.
  - by move=> /(query_advice_inv hi)[a b q -> ->].
  - have := query_fixed_inv c hi; case: query_fixed_index => a b /= [h1 h2 h3 h4 h5] [<- _].
    by split=> //; rewrite ?h4 ?h5.
  - have := query_instance_inv c 0 hi; case: query_instance_index => a b /= [h1 h2 h3 h4 h5] [<- _].
    by split=> //; rewrite ?h4 ?h5.
case: ifP e' => hin <-; split=> //=.
- case: h1 => *; split=> //=; first by rewrite rcons_uniq hin.
  rewrite all_rcons; apply/andP; split=> //.
  by case: t {e hin} h3 h4 h5 => /= h3 h4 h5; rewrite ?h3 ?h4 ?h5 !inE eqxx.
- by case: h2; split.
Qed.

Definition lookup_step (acc : option (cs F * seq (expr F * expr F))) (it : expr F * nat) :=
  obind (fun acc : cs F * seq (expr F * expr F) =>
    if contains_simple_selector it.1 then None else
    let mi := query_fixed_index acc.1 it.2 in
    Some (mi.1, rcons acc.2 (it.1, EFixed F mi.2 it.2 0))) acc.

Lemma lookup_foldN tm : foldl lookup_step None tm = None.
Proof. by elim: tm. Qed.

Lemma lookup_fold_inv tm m acc m' acc' : cs_inv m ->
  foldl lookup_step (Some (m, acc)) tm = Some (m', acc') ->
  [/\ cs_inv m', cs_ext m m', advice_queries m' = advice_queries m,
      instance_queries m' = instance_queries m &
      fixed_queries m' =i [seq (f, 0) | f <- unzip2 tm] ++ fixed_queries m].
Proof.
elim: tm m acc => [|[e c] tm IH] m acc hi /=.
  by case=> <- _; split=> //; exact: cs_ext_refl.
case: ifP => _ /=; first by rewrite lookup_foldN.
have := query_fixed_inv c hi.
case: query_fixed_index => m1 i /= [h1 h2 h3 h4 h5] /(IH _ _ h1)[g1 g2 g3 g4 g5]; split=> //.
- exact: cs_ext_trans h2 g2.
- by rewrite g3 h4.
- by rewrite g4 h5.
- move=> q; rewrite g5 mem_cat h3 !inE mem_cat.
  by case: (q == _); rewrite /= ?orbT.
Qed.

Ltac same hi := split=> //; [by case: hi; split | by split; exists [::]; rewrite cats0].

Lemma run_op_inv m o m' : cs_inv m -> run_op m o = Some m' ->
  [/\ cs_inv m', cs_ext m m',
      advice_queries m' =i asked_advice o ++ advice_queries m,
      instance_queries m' =i asked_instance o ++ instance_queries m &
      fixed_queries m' =i [seq (f, 0) | f <- asked_fixed o] ++ fixed_queries m].
Proof.
move=> hi; case: o => [b||||c|c r|c r|c|c|tm|g|d] //=.
- by case=> <-; same hi.
- by case=> <-; same hi.
- case=> <-; split=> //; last by split; exists [::]; rewrite cats0.
  case: hi => uf f0 ua ui hn hcols hcount *; split=> //=.
  + by rewrite size_rcons hn.
  + by apply: sub_all hcols => q h; rewrite ltnS ltnW.
  + move=> c; rewrite ltnS nth_rcons hn leq_eqVlt => /orP[/eqP->|h].
      rewrite ltnn eqxx; symmetry; apply/eqP; rewrite -leqn0 leqNgt -has_count.
      apply/hasP => -[q hq /eqP eq]; have := allP hcols _ hq.
      by rewrite eq ltnn.
    by rewrite h hcount.
- by case=> <-; same hi.
- case=> <-; have [h1 h2 h3 h4 h5] := query_fixed_inv c hi.
  by split=> //; rewrite ?h4 ?h5.
- case e: query_advice_index => [[m1 i]|] //= [<-].
  by have [h1 h2 h3 h4 h5] := query_advice_inv hi e; split=> //; rewrite ?h4 ?h5.
- case=> <-; have [h1 h2 h3 h4 h5] := query_instance_inv c r hi.
  by split=> //; rewrite ?h4 ?h5.
- by move/(enable_equality_inv hi).
- rewrite /enable_constant; case: (boolP (_ \in _)) => hin.
    case=> <-.
    split=> //; first exact: cs_ext_refl.
    move=> q; rewrite inE; case: eqVneq => // ->.
    by rewrite (allP (inv_const hi) _ hin).
  rewrite /enable_equality /= {1}/query_fixed_index /=.
  have := query_fixed_inv c hi; rewrite /query_fixed_index find_queryP.
  case: (boolP ((c, 0) \in fixed_queries m)) => /= hq [[a1 a2 a3 a4 a5 a6 a7 a8 a9 a10] [x1 x2 x3] b3 b4 b5];
    case: (boolP (_ \in permutation m)) => hp [<-]; split=> //=; split=> //=.
  all: rewrite ?all_rcons ?rcons_uniq /= ?hp ?hq //= ?mem_rcons ?inE ?eqxx //=.
- rewrite /add_lookup -/lookup_step.
  case e: foldl => [[m1 acc]|] //= [<-].
  have [h1 h2 h3 h4 h5] := lookup_fold_inv hi e.
  by split; rewrite /= ?h3 ?h4 //; [case: h1; split | case: h2; split].
- rewrite /create_gate; case: (g_polys g) => // p ps [<-].
  by same hi.
- by case=> <-; same hi.
Qed.

Lemma run_ops_inv m ops m' : cs_inv m -> run_ops m ops = Some m' ->
  [/\ cs_inv m', cs_ext m m',
      advice_queries m' =i flatten [seq asked_advice o | o <- ops] ++ advice_queries m,
      instance_queries m' =i flatten [seq asked_instance o | o <- ops] ++ instance_queries m &
      fixed_queries m' =i
        [seq (f, 0) | f <- flatten [seq asked_fixed o | o <- ops]] ++ fixed_queries m].
Proof.
elim: ops m => [|o ops IH] m hi /=; first by case=> <-; split=> //; exact: cs_ext_refl.
case e: run_op => [m1|] //= /IH hr.
have [h1 h2 h3 h4 h5] := run_op_inv hi e.
have [g1 g2 g3 g4 g5] := hr h1; split=> //; first exact: cs_ext_trans h2 g2.
- by move=> q; rewrite g3 mem_cat h3 !mem_cat orbCA orbA.
- by move=> q; rewrite g4 mem_cat h4 !mem_cat orbCA orbA.
- by move=> q; rewrite g5 mem_cat h5 map_cat !mem_cat orbCA orbA.
Qed.

Lemma reach_inv ops m : run_ops (cs_default F) ops = Some m -> cs_inv m.
Proof. by case/(run_ops_inv cs_inv_default). Qed.

Lemma nth_ext (s t : seq (nat * int)) i : (i < size s)%N ->
  (i < size (s ++ t))%N && (nth (0%N, 0) (s ++ t) i == nth (0%N, 0) s i).
Proof. by move=> h; rewrite nth_cat h eqxx size_cat ltn_addr. Qed.

(* A query returns an index at which the pair is recorded; no later call changes that, and
   asking again, at any later time, returns the same index and changes nothing. *)
Theorem C21_advice_index_stable : forall ops1 ops2 m1 c r m2 i m3,
  run_ops (cs_default F) ops1 = Some m1 ->
  query_advice_index m1 c r = Some (m2, i) ->
  run_ops m2 ops2 = Some m3 ->
  [/\ (i < size (advice_queries m3))%N,
      nth (0%N, 0) (advice_queries m3) i = (c, r),
      query_advice_index m3 c r = Some (m3, i) &
      get_advice_query_index m3 c r = Some i].
Proof.
move=> ops1 ops2 m1 c r m2 i m3 h1 hq h2.
have hi1 := reach_inv h1.
have [hi2 _ hm _ _] := query_advice_inv hi1 hq.
have [hi3 [_ [s es] _] _ _ _] := run_ops_inv hi2 h2.
have hin : (c, r) \in advice_queries m2 by rewrite hm inE eqxx.
have ei : i = index (c, r) (advice_queries m2).
  move: hq; rewrite /query_advice_index find_queryP.
  case: (boolP (_ \in _)) => hm1; first by case=> <- <-.
  case: ifP => // _ [<- <-] /=.
  by rewrite -cats1 index_cat (negbTE hm1) /= eqxx addn0.
have hin3 : (c, r) \in advice_queries m3 by rewrite es mem_cat hin.
have ei3 : i = index (c, r) (advice_queries m3) by rewrite es index_cat hin.
split.
- by rewrite ei3 index_mem.
- by rewrite ei3 nth_index.
- by rewrite /query_advice_index find_queryP hin3 -ei3.
- by rewrite /get_advice_query_index find_queryP hin3 -ei3.
Qed.

Theorem C21_instance_index_stable : forall ops1 ops2 m1 c r m3,
  run_ops (cs_default F) ops1 = Some m1 ->
  let m2 := (query_instance_index m1 c r).1 in
  let i := (query_instance_index m1 c r).2 in
  run_ops m2 ops2 = Some m3 ->
  [/\ (i < size (instance_queries m3))%N,
      nth (0%N, 0) (instance_queries m3) i = (c, r),
      query_instance_index m3 c r = (m3, i) &
      get_instance_query_index m3 c r = Some i].
Proof.
move=> ops1 ops2 m1 c r m3 h1 m2 i h2.
have hi1 := reach_inv h1.
have [hi2 _ hm _ _] := query_instance_inv c r hi1.
have [hi3 [_ _ [s es]] _ _ _] := run_ops_inv hi2 h2.
rewrite -/m2 in hm es.
have hin : (c, r) \in instance_queries m2 by rewrite hm inE eqxx.
have ei : i = index (c, r) (instance_queries m2).
  rewrite /i /m2 /query_instance_index find_queryP.
  case: (boolP (_ \in _)) => hm1 //=.
  by rewrite -cats1 index_cat (negbTE hm1) /= eqxx addn0.
have hin3 : (c, r) \in instance_queries m3 by rewrite es mem_cat hin.
have ei3 : i = index (c, r) (instance_queries m3) by rewrite es index_cat hin.
split.
- by rewrite ei3 index_mem.
- by rewrite ei3 nth_index.
- by rewrite /query_instance_index find_queryP hin3 -ei3.
- by rewrite /get_instance_query_index find_queryP hin3 -ei3.
Qed.

Theorem C21_fixed_index_stable : forall ops1 ops2 m1 c m3,
  run_ops (cs_default F) ops1 = Some m1 ->
  let m2 := (query_fixed_index m1 c).1 in
  let i := (query_fixed_index m1 c).2 in
  run_ops m2 ops2 = Some m3 ->
  [/\ (i < size (fixed_queries m3))%N,
      nth (0%N, 0) (fixed_queries m3) i = (c, 0),
      query_fixed_index m3 c = (m3, i) &
      get_fixed_query_index m3 c 0 = Some i].
Proof.
move=> ops1 ops2 m1 c m3 h1 m2 i h2.
have hi1 := reach_inv h1.
have [hi2 _ hm _ _] := query_fixed_inv c hi1.
have [hi3 [[s es] _ _] _ _ _] := run_ops_inv hi2 h2.
rewrite -/m2 in hm es.
have hin : (c, 0) \in fixed_queries m2 by rewrite hm inE eqxx.
have ei : i = index (c, 0) (fixed_queries m2).
  rewrite /i /m2 /query_fixed_index find_queryP.
  case: (boolP (_ \in _)) => hm1 //=.
  by rewrite -cats1 index_cat (negbTE hm1) /= eqxx addn0.
have hin3 : (c, 0) \in fixed_queries m3 by rewrite es mem_cat hin.
have ei3 : i = index (c, 0) (fixed_queries m3) by rewrite es index_cat hin.
split.
- by rewrite ei3 index_mem.
- by rewrite ei3 nth_index.
- by rewrite /query_fixed_index find_queryP hin3 -ei3.
- by rewrite /get_fixed_query_index find_queryP hin3 -ei3.
Qed.

(* The recorded queries are exactly the pairs asked for, each recorded once; so distinct
   pairs have distinct indices, and nothing else is ever opened. *)
Theorem C21_queries_exact : forall ops m,
  run_ops (cs_default F) ops = Some m ->
  [/\ uniq (advice_queries m) /\ advice_queries m =i flatten [seq asked_advice o | o <- ops],
      uniq (instance_queries m) /\
        instance_queries m =i flatten [seq asked_instance o | o <- ops] &
      uniq (fixed_queries m) /\
        fixed_queries m =i [seq (f, 0) | f <- flatten [seq asked_fixed o | o <- ops]]].
Proof.
move=> ops m h.
have [hi _ ha hin hf] := run_ops_inv cs_inv_default h.
split; split; rewrite ?(inv_advice hi) ?(inv_instance hi) ?(inv_fixed hi) // => q.
- by rewrite ha cats0.
- by rewrite hin cats0.
- by rewrite hf cats0.
Qed.

(* num_advice_queries holds, per advice column, the number of distinct rotations asked for,
   and blinding_factors exceeds it by at least two (and is at least five). *)
Theorem C21_advice_counts : forall ops m,
  run_ops (cs_default F) ops = Some m ->
  size (num_advice_queries m) = num_advice m /\
  forall c, (c < num_advice m)%N ->
    let rotations := undup [seq q.2 | q <- flatten [seq asked_advice o | o <- ops] & q.1 == c] in
    nth 0%N (num_advice_queries m) c = size rotations /\
    (maxn 5 (size rotations + 2) <= blinding_factors m)%N.
Proof.
move=> ops m h.
have [hi _ ha _ _] := run_ops_inv cs_inv_default h.
split=> [|c hc rotations]; first exact: (inv_num hi).
have e : nth 0%N (num_advice_queries m) c = size rotations.
  rewrite (inv_count hi hc) -size_filter -(size_map (@snd nat int)).
  apply: perm_size; apply: uniq_perm; last 1 first.
  - move=> r; rewrite mem_undup; apply/mapP/mapP => -[[c' r']]; rewrite mem_filter => /andP[h1 h2] ->;
      exists (c', r') => //; rewrite mem_filter h1 /=.
      by move: h2; rewrite ha cats0.
    by rewrite ha cats0.
  - rewrite map_inj_in_uniq; first by rewrite filter_uniq // (inv_advice hi).
    move=> [c1 r1] [c2 r2]; rewrite !mem_filter /= => /andP[/eqP-> _] /andP[/eqP-> _] /= ->.
    by [].
  - exact: undup_uniq.
split=> //; rewrite -e /blinding_factors.
have max_ge s d i : (i < size s)%N -> (nth 0 s i <= max_or s d)%N.
  have mono (t : seq nat) a b : (a <= b)%N -> (a <= foldl maxn b t)%N.
    elim: t b => //= y t IHt b hb; apply: IHt.
    by rewrite (leq_trans hb) // leq_maxl.
  case: s => //= x s; elim: s x i => [|y s IH] x [|i] //= hi'.
    by apply: mono; rewrite leq_maxl.
  case: i hi' => [|i] hi'; first by apply: mono; rewrite leq_maxr.
  exact: (IH (maxn x y) i.+1).
have hm := max_ge (num_advice_queries m) 1%N c; rewrite (inv_num hi) hc in hm.
move: (hm isT); set a := nth _ _ _; set b := max_or _ _ => hab.
by rewrite geq_max addn2 !ltnS leq_maxl /= (leq_trans hab) // leq_maxr.
Qed.

(* Querying an allocated column, and enabling equality on it, never panics; the columns of
   the permutation argument are distinct and each has a query at the current row. *)
Theorem C21_query_no_panic : forall ops m,
  run_ops (cs_default F) ops = Some m ->
  [/\ forall c r, (c < num_advice m)%N -> query_advice_index m c r <> None,
      forall t c, (t = Advice -> (c < num_advice m)%N) -> enable_equality m (t, c) <> None,
      uniq (permutation m) &
      forall c, c \in permutation m -> get_any_query_index m c <> None].
Proof.
move=> ops m /reach_inv hi.
have hq c r : (c < num_advice m)%N -> query_advice_index m c r <> None.
  by move=> hc; rewrite /query_advice_index (inv_num hi) hc; case: find_query.
split=> //; last 1 first.
- move=> [[] c] hc; have := allP (inv_perm hi) _ hc => /= hm; rewrite /get_any_query_index /=;
  by rewrite /get_advice_query_index /get_fixed_query_index /get_instance_query_index find_queryP hm.
- move=> [] c /= hc; rewrite /enable_equality /query_any_index //=.
  by case e: (query_advice_index m c 0) => //; have := hq c 0 (hc erefl); rewrite e.
- exact: (inv_perm_uniq hi).
Qed.

Lemma expr_ok_ext m m' e : cs_ext m m' -> expr_ok m e -> expr_ok m' e.
Proof.
move=> [[s1 e1] [s2 e2] [s3 e3]].
elim: e => [c|i b|i c r|i c r|i c r|a IH|a IHa b IHb|a IHa b IHb|a IH f] //=.
- by case/andP=> h1 /eqP h2; rewrite e1; have /andP[-> /eqP->] := nth_ext s1 h1; rewrite h2 /=.
- by case/andP=> h1 /eqP h2; rewrite e2; have /andP[-> /eqP->] := nth_ext s2 h1; rewrite h2 /=.
- by case/andP=> h1 /eqP h2; rewrite e3; have /andP[-> /eqP->] := nth_ext s3 h1; rewrite h2 /=.
- by case/andP=> /IHa-> /IHb.
- by case/andP=> /IHa-> /IHb.
Qed.

Lemma cs_exprs_ok_ext m m' : cs_ext m m' -> gates m' = gates m -> lookups m' = lookups m ->
  cs_exprs_ok m -> cs_exprs_ok m'.
Proof.
move=> ext eg el /andP[h1 h2]; rewrite /cs_exprs_ok eg el; apply/andP; split.
  by apply: sub_all h1 => g; apply: sub_all => e; apply: expr_ok_ext.
by apply: sub_all h2 => l /andP[a b]; apply/andP; split;
  [apply: sub_all a|apply: sub_all b] => e; apply: expr_ok_ext.
Qed.

Lemma query_fixed_args m c : let m' := (query_fixed_index m c).1 in
  gates m' = gates m /\ lookups m' = lookups m.
Proof. by rewrite /query_fixed_index; case: find_query. Qed.

Lemma enable_equality_args m c m' : enable_equality m c = Some m' ->
  gates m' = gates m /\ lookups m' = lookups m.
Proof.
rewrite /enable_equality /query_any_index; case: c => -[] c /=.
- rewrite /query_advice_index; case: find_query => [i|] /=; last case: ifP => //= _;
  by case=> <-; case: ifP.
- by rewrite /query_fixed_index; case: find_query => [i|] /=; case=> <-; case: ifP.
- by rewrite /query_instance_index; case: find_query => [i|] /=; case=> <-; case: ifP.
Qed.

Lemma lookup_fold_ok tm m acc m' acc' : cs_inv m ->
  foldl lookup_step (Some (m, acc)) tm = Some (m', acc') ->
  all (fun it => expr_ok m it.1) tm ->
  all (fun p => expr_ok m p.1 && expr_ok m p.2) acc ->
  [/\ all (fun p => expr_ok m' p.1 && expr_ok m' p.2) acc', gates m' = gates m &
      lookups m' = lookups m].
Proof.
elim: tm m acc => [|[e c] tm IH] m acc hi /=; first by case=> <- <-.
case: ifP => _ /=; first by rewrite lookup_foldN.
have [h1 h2 h3 h4 h5] := query_fixed_inv c hi.
have [a1 a2] := query_fixed_args m c.
have hidx : expr_ok (query_fixed_index m c).1 (EFixed F (query_fixed_index m c).2 c 0).
  have /= := @C21_fixed_index_stable; rewrite /query_fixed_index find_queryP.
  case: (boolP (_ \in _)) => /= hin _; first by rewrite index_mem hin nth_index //= eqxx.
  by rewrite size_rcons ltnS leqnn nth_rcons ltnn eqxx /=.
move=> hf /andP[he htm] hacc.
have hx x : expr_ok m x -> expr_ok (query_fixed_index m c).1 x by apply: expr_ok_ext.
have := IH _ _ h1 hf; rewrite a1 a2; apply.
  by apply: sub_all htm => it; apply: hx.
rewrite all_rcons; apply/andP; split; first by rewrite /= hx.
by apply: sub_all hacc => p /andP[p1 p2]; rewrite !hx.
Qed.

(* If every gate and lookup is built from expressions returned by query_* calls, then all
   the expressions stored in the constraint system refer, by index, to the right recorded
   query, whatever is configured afterwards. *)
Theorem C21_expressions_stay_valid : forall ops m,
  ops_exprs_ok (cs_default F) ops -> run_ops (cs_default F) ops = Some m -> cs_exprs_ok m.
Proof.
suff gen : forall ops m m', cs_inv m -> cs_exprs_ok m -> ops_exprs_ok m ops ->
    run_ops m ops = Some m' -> cs_exprs_ok m'.
  by move=> ops m; apply: gen => //; exact: cs_inv_default.
elim=> [|o ops IH] m m' hi hok /=; first by move=> _ [<-].
case e: run_op => [m1|] //= /andP[ho hops] hr.
have [h1 h2 _ _ _] := run_op_inv hi e.
apply: IH hr => //.
case: o e ho => [b||||c|c r|c r|c|c|tm|g|d] /=.
1-4: by case=> <- _; apply: cs_exprs_ok_ext hok => //; split; exists [::]; rewrite cats0.
- case=> <- _; have [a1 a2] := query_fixed_args m c; apply: cs_exprs_ok_ext hok => //.
  by have [] := query_fixed_inv c hi.
- case e: query_advice_index => [[m2 i]|] //= [e'] _; apply: cs_exprs_ok_ext hok => //;
  by move: e; rewrite -e' /query_advice_index; case: find_query => [?|]; [case=> <-|case: ifP => // _ [<-]].
- case=> e' _; apply: cs_exprs_ok_ext hok => //; rewrite -e' /query_instance_index;
  by case: find_query.
- by move=> e _; have [eg el] := enable_equality_args e; apply: cs_exprs_ok_ext hok.
- rewrite /enable_constant; case: ifP => _; first by case=> <-.
  by move=> e _; have [eg el] := enable_equality_args e; apply: cs_exprs_ok_ext hok.
- rewrite /add_lookup -/lookup_step; case e: foldl => [[m2 acc]|] //= [e'] htm.
  have [a1 a2 a3] := lookup_fold_ok hi e htm isT.
  have [b1 b2 _ _ _] := lookup_fold_inv hi e.
  have ok2 : cs_exprs_ok m2 by apply: cs_exprs_ok_ext hok.
  move: ok2; rewrite -e' /cs_exprs_ok /= => /andP[c1 c2]; apply/andP; split.
    by apply: sub_all c1 => g; apply: sub_all => x; apply: expr_ok_ext; split; exists [::]; rewrite cats0.
  rewrite all_rcons; apply/andP; split; last first.
    by apply: sub_all c2 => l /andP[x1 x2]; apply/andP; split;
      [apply: sub_all x1|apply: sub_all x2] => x; apply: expr_ok_ext; split; exists [::]; rewrite cats0.
  rewrite /= !all_map; apply/andP; split; apply: sub_all a1 => p /andP[p1 p2] /=.
    by apply: expr_ok_ext p1; split; exists [::]; rewrite cats0.
  by apply: expr_ok_ext p2; split; exists [::]; rewrite cats0.
- rewrite /create_gate; case eg: (g_polys g) => [|p ps] // [<-] hg.
  have ext : cs_ext m (set_args m (rcons (gates m) g) (permutation m) (lookups m) (constants m)
               (minimum_degree m) (selector_map m)) by split; exists [::]; rewrite cats0.
  move: hok => /andP[c1 c2]; apply/andP; split; last first.
    by apply: sub_all c2 => l /andP[x1 x2]; apply/andP; split;
      [apply: sub_all x1|apply: sub_all x2] => x; apply: expr_ok_ext.
  rewrite /= all_rcons; apply/andP; split; first by rewrite eg; apply: sub_all hg => x; apply: expr_ok_ext.
  by apply: sub_all c1 => g'; apply: sub_all => x; apply: expr_ok_ext.
- by case=> <- _; apply: cs_exprs_ok_ext hok => //; split; exists [::]; rewrite cats0.
Qed.
End Queries.
Print Assumptions C21_advice_index_stable.
Print Assumptions C21_instance_index_stable.
Print Assumptions C21_fixed_index_stable.
Print Assumptions C21_queries_exact.
Print Assumptions C21_advice_counts.
Print Assumptions C21_query_no_panic.
Print Assumptions C21_expressions_stay_valid.

(* A circuit that configures two advice columns, one fixed, one instance column, a selector,
   a gate with a rotation, a lookup and equality: the calls succeed and the recorded queries
   are the four distinct pairs asked for. *)
Definition ex_ops : seq (cs_op K97_fieldType) :=
  [:: OAdviceColumn _; OAdviceColumn _; OFixedColumn _; OInstanceColumn _; OSelector _ true;
      OQueryAdvice _ 0 0; OQueryAdvice _ 0 1; OQueryAdvice _ 1 0; OQueryAdvice _ 0 1;
      OGate {| g_polys := [:: EProduct (ESelector _ 0 true)
                 (ESum (EAdvice _ 0 0 0) (ENegated (EAdvice _ 1 0 1)))];
               g_queried_selectors := [:: (0%N, true)];
               g_queried_cells := [:: ((Advice, 0%N), 0); ((Advice, 0%N), 1)] |};
      OLookup [:: (EAdvice _ 2 1 0, 0%N)];
      OEnableEquality _ (Advice, 1%N); OEnableEquality _ (Instance, 0%N);
      OEnableConstant _ 0; OMinimumDegree _ 5 ].
Example C21_example :
  ops_exprs_ok (cs_default K97_fieldType) ex_ops /\
  if run_ops (cs_default K97_fieldType) ex_ops is Some m then
    [/\ advice_queries m = [:: (0%N, 0); (0%N, 1); (1%N, 0)], num_advice_queries m = [:: 2; 1]%N,
        fixed_queries m = [:: (0%N, 0)], instance_queries m = [:: (0%N, 0)] &
        cs_degree m = Some 5%N /\ blinding_factors m = 5%N]
  else False.
Proof. by vm_compute. Qed.
