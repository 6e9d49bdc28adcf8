(* Lemmas for C37-C40: evaluation in MockProver, lists of failures, sorted lists. *)
Set Warnings "-notation-overridden,-ambiguous-paths".
From mathcomp Require Import all_ssreflect all_algebra.
From Coq Require Import Relation_Operators.
From Verif Require Import Util M_Env M_Assigned M_Circuit S_Circuit M_Selectors S_Selectors L_Selectors M_Copy L_Copy P_Copy M_Value
  M_Plonk S_Plonk M_Assign M_Mock S_Floor S_Assign S_Mock.
Import GRing.Theory Num.Theory.
Set Implicit Arguments.
Unset Strict Implicit.
Local Open Scope ring_scope.

(* ---- lists of failures *)
Lemma flat_mapi_fromP (T U : Type) (d : T) (f : nat -> T -> option (seq U)) b s :
  (forall i, (i < size s)%N -> exists es, f (b + i)%N (nth d s i) = Some es) ->
  exists2 es, omap flatten (sequence (mapi_from b f s)) = Some es &
    forall e, List.In e es <-> exists i es', [/\ (i < size s)%N, f (b + i)%N (nth d s i) = Some es' & List.In e es'].
Proof.
elim: s b => [|x s IH] b h /=; first by exists [::] => // e; split=> // -[i [es [//]]].
have [es1 e1] := h 0%N isT; rewrite addn0 /= in e1.
have [i hi|es2 e2 h2] := IH b.+1; first by have := h i.+1 hi; rewrite addSnnS.
rewrite e1 /=; case: (sequence _) e2 => //= l [e2]; rewrite -e2 in h2; exists (es1 ++ flatten l) => // e; split.
- move=> /(@List.in_app_or _ es1 (flatten l) e) [h1|/h2 [i [es' [h3 h4 h5]]]]; first by exists 0%N, es1; rewrite addn0.
  by exists i.+1, es'; split; rewrite -?addSnnS.
- move=> [[|i] [es' [h3 h4 h5]]]; apply: (List.in_or_app es1 (flatten l) e).
  + by left; move: h4; rewrite addn0 /= e1 => -[->].
  + by right; apply/h2; exists i, es'; split; rewrite ?addSnnS.
Qed.
Lemma flat_mapiP (T U : Type) (d : T) (f : nat -> T -> option (seq U)) s :
  (forall i, (i < size s)%N -> exists es, f i (nth d s i) = Some es) ->
  exists2 es, flat_mapi f s = Some es &
    forall e, List.In e es <-> exists i es', [/\ (i < size s)%N, f i (nth d s i) = Some es' & List.In e es'].
Proof. exact: (@flat_mapi_fromP T U d f 0 s). Qed.
(* a sequence of results, all of which are there *)
Lemma sequence_map (T U : Type) (f : T -> option U) (g : T -> U) s :
  (forall x, List.In x s -> f x = Some (g x)) -> sequence (map f s) = Some (map g s).
Proof.
elim: s => //= x s IH h; rewrite (h x (or_introl erefl)) /= IH //= => y hy; by apply: h; right.
Qed.

(* ---- evaluation *)
Section Eval.
Variables (F : fieldType) (pr : mprover F).
Local Notation n := (mp_n pr).
Local Notation u := (mp_u pr).
Local Notation m := (mp_cs pr).
Local Notation s := (mp_st pr).
Hypothesis ok : mp_ok pr.
Lemma ok_n0 : (0 < n)%N. Proof. by have /andP [] := ok_n ok; exact: leq_trans. Qed.
Lemma ok_un : (u <= n)%N. Proof. by have /andP [] := ok_n ok. Qed.
Lemma ok_u0 : (0 < u)%N. Proof. by have /andP [] := ok_n ok. Qed.
Lemma row_of_lt i r : (row_of n i r < n)%N.
Proof.
rewrite /row_of -ltz_nat gez0_abs ?modz_ge0 ?ltz_pmod ?ltz_nat ?ok_n0 //.
by rewrite eqz_nat -lt0n ok_n0.
Qed.

Lemma rem_wrap i (r : int) : (`|r| <= n)%N -> i32_rem ((n + i)%N%:Z + r) n = Posz (row_of n i r).
Proof.
move=> hr; have h0 : (0 <= (n + i)%N%:Z + r)%R.
  by rewrite PoszD -addrA addrCA addr_ge0 //; case: r hr => r //= hr; rewrite NegzE subr_ge0 lez_nat.
rewrite /i32_rem h0 /row_of gez0_abs ?modz_ge0 ?eqz_nat -?lt0n ?ok_n0 //.
by rewrite PoszD -addrA modzDl.
Qed.
Lemma lookup_wrap i (r : int) : `|((i%:Z + n%:Z + r) %% n)%Z|%N = row_of n i r.
Proof. by rewrite /row_of -addrA addrCA modzDl. Qed.

Definition mval_of (v : option F) : mval F := if v is Some x then Real x else Poison F.
Definition settled_cell t c row : option F :=
  match cell_at pr t c row with CUnassigned => Some 0 | CAssigned x => Some x | CPoison _ => None end.

Lemma fixed_cellE c row : (c < num_fixed m)%N -> (row < n)%N ->
  fixed_cell pr c row = Some (mval_of (settled_cell Fixed c row)).
Proof.
move=> hc hr; have [h1 h2] := ok_fixed ok.
by rewrite /fixed_cell (get2E (CUnassigned F)) /= ?h1 ?h2 // /settled_cell /=; case: (nth _ _ _).
Qed.
Lemma advice_cellE c row : (c < num_advice m)%N -> (row < n)%N ->
  advice_cell pr c row = Some (mval_of (settled_cell Advice c row)).
Proof.
move=> hc hr; have [h1 h2] := ok_advice ok.
by rewrite /advice_cell (get2E (CUnassigned F)) /= ?h1 ?h2 // /settled_cell /=; case: (nth _ _ _).
Qed.
Lemma instance_cellE c row : (c < num_instance m)%N -> (row < n)%N ->
  instance_cell pr c row = Some (mval_of (settled_cell Instance c row)).
Proof.
by move=> hc hr; have [h1 h2] := ok_instance ok; rewrite /instance_cell (get2E None) /= ?h1 ?h2.
Qed.

(* a query of the constraint system *)
Lemma query_in (qs : seq (nat * int)) k i c r :
  all (fun q : nat * int => (q.1 < k)%N && (`|q.2| <= n)%N) qs ->
  (i < size qs)%N && (nth (0%N, 0) qs i == (c, r)) -> [/\ get qs i = Some (c, r), (c < k)%N & (`|r| <= n)%N].
Proof.
move=> /all_nthP h /andP [hi /eqP e]; have /andP := h (0%N, 0) i hi.
by rewrite e /= => -[h1 h2]; rewrite (getE (0%N, 0)) // e.
Qed.

Lemma mv_addE a b : mv_add (mval_of a) (mval_of b) = mval_of (lift2 +%R (fun _ => false) a b).
Proof. by case: a b => [x|] [y|]. Qed.
Lemma mv_mulE a b : mv_mul (mval_of a) (mval_of b) = mval_of (lift2 *%R (fun x => x == 0) a b).
Proof. by case: a b => [x|] [y|] //=; case: ifP. Qed.
Lemma mv_scaleE a f : mv_scale (mval_of a) f = mval_of (lift2 *%R (fun x => x == 0) a (Some f)).
Proof. by case: a => [x|] //=; case: ifP. Qed.

Lemma evaluate_gen ld row i e : expr_ok m e -> selector_free e ->
  (forall qs cells j c r k, all (fun q : nat * int => (q.1 < k)%N && (`|q.2| <= n)%N) qs ->
    (j < size qs)%N && (nth (0%N, 0) qs j == (c, r)) -> ld qs cells row j c r = cells c (row_of n i r)) ->
  evaluate pr ld row e = Some (mval_of (settled pr i e)).
Proof.
move=> + + hld; have /and3P [qf qa qi] := ok_queries ok.
rewrite /evaluate /settled; elim: e => [c|c b|j c r|j c r|j c r|a IH|a IHa b IHb|a IHa b IHb|a IH f] //=.
- move=> h _; rewrite (hld _ _ _ _ _ _ qf h); have [_ hc _] := query_in qf h.
  by rewrite fixed_cellE ?row_of_lt.
- move=> h _; rewrite (hld _ _ _ _ _ _ qa h); have [_ hc _] := query_in qa h.
  by rewrite advice_cellE ?row_of_lt.
- move=> h _; rewrite (hld _ _ _ _ _ _ qi h); have [_ hc _] := query_in qi h.
  by rewrite instance_cellE ?row_of_lt.
- by move=> h1 h2; rewrite IH //; case: (expr_eval _ _ _ _ _ _ _ _ _ a).
- by move=> /andP [h1 h2] /andP [h3 h4]; rewrite IHa // IHb //= mv_addE.
- by move=> /andP [h1 h2] /andP [h3 h4]; rewrite IHa // IHb //= mv_mulE.
- by move=> h1 h2; rewrite IH //= mv_scaleE.
Qed.
(* the evaluation of the gates, at the rows n .. 2n - 1, and that of the lookups *)
Lemma evaluate_gate i e : expr_ok m e -> selector_free e ->
  evaluate pr (load pr) (n + i) e = Some (mval_of (settled pr i e)).
Proof.
move=> h1 h2; apply: evaluate_gen => // qs cells j c r k hq h; have [hg _ hr] := query_in hq h.
by rewrite /load hg /= rem_wrap.
Qed.
Lemma evaluate_lookup i e : expr_ok m e -> selector_free e ->
  evaluate pr (load_lookup pr) i e = Some (mval_of (settled pr i e)).
Proof.
move=> h1 h2; apply: evaluate_gen => // qs cells j c r k hq h; have [hg _ hr] := query_in hq h.
by rewrite /load_lookup hg /= lookup_wrap.
Qed.

(* the settled value of an expression is its value in every trace *)
Lemma settled_value T i e x : realises pr T -> expr_ok m e -> selector_free e ->
  settled pr i e = Some x -> row_value n T i e = x.
Proof.
move=> hT; have /and3P [qf qa qi] := ok_queries ok.
have cellP t c r y : (c < ncols m t)%N -> settled_cell t c (row_of n i r) = Some y -> T t c (row_of n i r) = y.
  move=> hc; have := hT t c (row_of n i r) hc (row_of_lt i r); rewrite /settled_cell.
  by case: (cell_at _ _ _ _) => [->|z ->|//] [].
rewrite /settled /row_value /meaning.
elim: e x => [c|c b|j c r|j c r|j c r|a IH|a IHa b IHb|a IHa b IHb|a IH f] x //=.
- by move=> _ _ [<-]; rewrite /GRing.scale /= mulr1.
- by move=> h _; have [_ hc _] := query_in qf h; apply: (cellP Fixed).
- by move=> h _; have [_ hc _] := query_in qa h; apply: (cellP Advice).
- by move=> h _; have [_ hc _] := query_in qi h; apply: (cellP Instance).
- by move=> h1 h2; move: (fun y => IH y h1 h2); case: (expr_eval _ _ _ _ _ _ _ _ _ a) => //= y /(_ y erefl) -> [<-].
- move=> /andP [h1 h2] /andP [h3 h4]; move: (fun y => IHa y h1 h3) (fun y => IHb y h2 h4).
  case: (expr_eval _ _ _ _ _ _ _ _ _ a) => [y|]; case: (expr_eval _ _ _ _ _ _ _ _ _ b) => [z|] //=.
  by move=> /(_ y erefl) -> /(_ z erefl) -> [<-].
- move=> /andP [h1 h2] /andP [h3 h4]; move: (fun y => IHa y h1 h3) (fun y => IHb y h2 h4).
  case: (expr_eval _ _ _ _ _ _ _ _ _ a) => [y|]; case: (expr_eval _ _ _ _ _ _ _ _ _ b) => [z|] //=.
  + by move=> /(_ y erefl) -> /(_ z erefl) -> [<-].
  + by move=> /(_ y erefl) -> _; case: eqP => // -> [<-]; rewrite mul0r.
  + by move=> _ /(_ z erefl) ->; case: eqP => // -> [<-]; rewrite mulr0.
- move=> h1 h2; move: (fun y => IH y h1 h2); case: (expr_eval _ _ _ _ _ _ _ _ _ a) => [y|] //=.
  + by move=> /(_ y erefl) -> [<-]; rewrite mulrC.
  + by move=> _; case: eqP => // -> [<-]; rewrite /GRing.scale /= mul0r.
Qed.
End Eval.

(* ---- the lookup check *)
Section Merge.
Variables (F : fieldType) (lt : rel F).
Hypotheses (lt_irr : irreflexive lt) (lt_tr : transitive lt) (lt_total : forall x y, x != y -> lt x y || lt y x).
Implicit Types (a b c : mval F) (v w z : seq (mval F)).

Lemma mv_lt_irr : irreflexive (mv_lt lt). Proof. by case=> //= x. Qed.
Lemma mv_lt_tr : transitive (mv_lt lt).
Proof. by move=> [y|] [x|] [z|] //=; exact: lt_tr. Qed.
Lemma mv_lt_total a b : a != b -> mv_lt lt a b || mv_lt lt b a.
Proof. by case: a b => [x|] [y|] //= h; apply: lt_total; apply: contra h => /eqP ->. Qed.
Lemma vec_lt_irr : irreflexive (vec_lt lt).
Proof. by elim=> //= x v IH; rewrite mv_lt_irr eqxx IH. Qed.
Lemma vec_lt_tr : transitive (vec_lt lt).
Proof.
move=> w v; elim: v w => [|x v IH] [|y w] [|z zs] //=.
case/orP=> [h1|/andP [/eqP -> h1]]; case/orP=> [h2|/andP [/eqP <- h2]].
- by rewrite (mv_lt_tr h1 h2).
- by rewrite h1.
- by rewrite h2.
- by rewrite eqxx (IH _ _ h1 h2) orbT.
Qed.
Lemma vec_lt_total v w : v != w -> vec_lt lt v w || vec_lt lt w v.
Proof.
elim: v w => [|x v IH] [|y w] //= h; case: (eqVneq x y) h => [->|ne] h.
- by rewrite mv_lt_irr /=; apply: IH; apply: contra h => /eqP ->.
- by rewrite /= !orbF; exact: mv_lt_total.
Qed.
Definition vec_le v w := ~~ vec_lt lt w v.
Lemma vec_le_lt v w : vec_le v w = (v == w) || vec_lt lt v w.
Proof.
rewrite /vec_le; case: (eqVneq v w) => [->|ne] /=; first by rewrite vec_lt_irr.
case/orP: (vec_lt_total ne) => h; rewrite h; first by apply/negP => h2; have := vec_lt_tr h h2; rewrite vec_lt_irr.
by apply/esym/negP => h2; have := vec_lt_tr h h2; rewrite vec_lt_irr.
Qed.
Lemma vec_le_total : total vec_le.
Proof. by move=> v w; rewrite !vec_le_lt eq_sym; case: (eqVneq w v) => //= ne; rewrite orbC vec_lt_total. Qed.
Lemma vec_le_tr : transitive vec_le.
Proof.
move=> w v z; rewrite !vec_le_lt => /orP [/eqP ->//|h1] /orP [/eqP <-|h2]; first by rewrite h1 orbT.
by rewrite (vec_lt_tr h1 h2) orbT.
Qed.
Lemma lt_le_tr v w z : vec_lt lt v w -> vec_le w z -> vec_lt lt v z.
Proof. by move=> h; rewrite vec_le_lt => /orP [/eqP <-//|]; exact: vec_lt_tr. Qed.

(* the inputs are sorted by their tuples *)
Definition in_le (x y : seq (mval F) * nat) := ~~ input_lt lt y x.
Lemma in_le_vec x y : in_le x y -> vec_le x.1 y.1.
Proof. by rewrite /in_le /input_lt negb_or => /andP []. Qed.
Lemma input_lt_total (x y : seq (mval F) * nat) : x != y -> input_lt lt x y || input_lt lt y x.
Proof.
case: x y => [v i] [w j] /= h; rewrite /input_lt /=; case: (eqVneq v w) h => [->|ne] h.
- rewrite !vec_lt_irr /= -neq_ltn; apply: contra h => /eqP ->; exact: eqxx.
- by rewrite /= !orbF vec_lt_total.
Qed.
Lemma input_lt_asym x y : input_lt lt x y -> ~~ input_lt lt y x.
Proof.
rewrite /input_lt negb_or negb_and -leqNgt => /orP [h|/andP [/eqP e h]].
- rewrite (_ : vec_lt lt y.1 x.1 = false); last by apply/negP => h2; have := vec_lt_tr h h2; rewrite vec_lt_irr.
  by apply/orP; left; apply/eqP => e; rewrite e vec_lt_irr in h.
- by rewrite e vec_lt_irr /= eqxx (ltnW h).
Qed.
Lemma in_le_total : total in_le.
Proof.
move=> x y; rewrite /in_le; case: (eqVneq x y) => [->|/input_lt_total /orP [h|h]].
- by rewrite orbb /input_lt vec_lt_irr eqxx ltnn.
- by rewrite (input_lt_asym h).
- by rewrite (input_lt_asym h) orbT.
Qed.
Lemma sorted_inputs (l : seq (seq (mval F) * nat)) :
  sorted (fun x y => vec_le x.1 y.1) (sort in_le l).
Proof.
have := sort_sorted in_le_total l; case: (sort _ _) => //= x s.
elim: s x => //= y s IH x /andP [h /IH ->]; by rewrite in_le_vec.
Qed.

Lemma skip_belowP (table : seq (seq (mval F))) v :
  exists2 a, table = a ++ skip_below lt table v & all (fun t => vec_lt lt t v) a /\
    (if skip_below lt table v is t :: _ then ~~ vec_lt lt t v else true).
Proof.
elim: table => [|t table [a e [h1 h2]]] /=; first by exists [::].
case: ifP => h; last by exists [::] => //; rewrite h.
by exists (t :: a); [rewrite /= -e | rewrite /= h].
Qed.

Lemma merge_checkP l (whole table : seq (seq (mval F))) dropped inputs :
  whole = dropped ++ table -> sorted vec_le table ->
  sorted (fun x y => vec_le x.1 y.1) inputs ->
  (forall d x, d \in dropped -> x \in inputs -> vec_lt lt d x.1) ->
  merge_check lt l whole table inputs = Some [seq VLookup l x.2 | x <- inputs & x.1 \notin whole].
Proof.
elim: inputs table dropped => [//|x inputs IH] table dropped ew st si hd /=.
have hx y : y \in inputs -> vec_le x.1 y.1.
  move=> hy; have tr : transitive (fun x y : seq (mval F) * nat => vec_le x.1 y.1) by move=> b a c; exact: vec_le_tr.
  by have /allP := order_path_min tr si; apply.
have [a ea [h1 h2]] := skip_belowP table x.1; set t' := skip_below _ _ _ in ea h2 *.
have st' : sorted vec_le t' by move: st; rewrite ea => /cat_sorted2 [].
have ew' : whole = (dropped ++ a) ++ t' by rewrite -catA -ea.
have IH' := IH t' (dropped ++ a) ew' st' (path_sorted si).
have {IH'} IH' : merge_check lt l whole t' inputs = Some [seq VLookup l x.2 | x <- inputs & x.1 \notin whole].
  apply: IH' => d y; rewrite mem_cat => /orP [hd1 hy|ha hy]; first by apply: hd hd1 _; rewrite inE hy orbT.
  exact: lt_le_tr (allP h1 _ ha) (hx _ hy).
rewrite IH'; have notin : (x.1 \notin dropped ++ a).
  rewrite mem_cat negb_or; apply/andP; split; apply/negP => h.
  - by have := hd x.1 x h (mem_head _ _); rewrite vec_lt_irr.
  - by have := allP h1 _ h; rewrite vec_lt_irr.
have inw : (x.1 \in whole) = (x.1 \in t') by rewrite ew' mem_cat (negbTE notin).
case e: t' h2 st' inw => [|t r] h2 st' inw; first by rewrite inw in_nil.
case hlt: (vec_lt lt x.1 t).
- rewrite inw; have -> // : (x.1 \in t :: r) = false.
  apply/negP; rewrite inE => /orP [/eqP e2|hr]; first by rewrite e2 vec_lt_irr in hlt.
  have := allP (order_path_min vec_le_tr st') _ hr => /(lt_le_tr hlt); by rewrite vec_lt_irr.
- rewrite inw; have : vec_le t x.1 by rewrite /vec_le hlt.
  by rewrite vec_le_lt (negbTE h2) orbF => /eqP ->; rewrite mem_head.
Qed.
End Merge.
