(* C37-C39: what the verdict of MockProver::verify says about the real traces of the circuit. *)
Set Warnings "-notation-overridden,-ambiguous-paths".
From mathcomp Require Import all_ssreflect perm all_algebra fingraph.
From Coq Require Import Relation_Operators.
From Verif Require Import Util M_Env M_Assigned M_Circuit S_Circuit M_Selectors S_Selectors L_Selectors M_Copy L_Copy P_Copy M_Value
  M_Plonk S_Plonk M_Assign M_Mock S_Floor S_Assign S_Mock L_Mock.
Import GRing.Theory.
Set Implicit Arguments.
Unset Strict Implicit.
Local Open Scope ring_scope.

Section Gates.
Variables (F : fieldType) (pr : mprover F).
Local Notation n := (mp_n pr).
Local Notation u := (mp_u pr).
Local Notation m := (mp_cs pr).
Hypothesis ok : mp_ok pr.

(* the polynomials of the gates can be evaluated *)
Definition poly_of (g p : nat) (e : expr F) : Prop :=
  exists2 gt, get (gates m) g = Some gt & get (g_polys gt) p = Some e.
Lemma get_lt (T : Type) (d : T) (s : seq T) i x : get s i = Some x -> (i < size s)%N /\ nth d s i = x.
Proof.
rewrite /get; case: ltnP => [h|h]; first by rewrite (drop_nth d) //= => -[].
by rewrite drop_oversize.
Qed.
Lemma poly_ok g p e : poly_of g p e -> expr_ok m e /\ selector_free e.
Proof.
move=> [gt /(get_lt gt) [h1 h2] /(get_lt e) [h3 h4]].
have /andP [/all_nthP h5 _] := ok_exprs ok; have /all_nthP h6 := ok_gates ok.
by have /all_nthP := h5 gt g h1; have /all_nthP := h6 gt g h1; rewrite h2 => /(_ e p h3); rewrite h4 => h7 /(_ e p h3); rewrite h4.
Qed.

Lemma gate_errorsP : exists2 es, gate_errors pr = Some es &
  forall f, List.In f es <-> exists g p e i, [/\ poly_of g p e, (i < n)%N &
    match settled pr i e with
    | Some x => x != 0 /\ f = VGate g p i
    | None => f = VPoisoned g p
    end].
Proof.
pose d : gate F := Gate [::] [::] [::]; pose d0 : expr F := EConstant 0.
pose at_row g i p e : option (seq vfailure) := omap (fun v => match v with
  | Real x => if x == 0 then [::] else [:: VGate g p (n + i - n)%N]
  | Poison => [:: VPoisoned g p] end) (evaluate pr (load pr) (n + i) e).
have atP g i p e : poly_of g p e -> exists2 es, at_row g i p e = Some es & forall f, List.In f es <->
    match settled pr i e with Some x => x != 0 /\ f = VGate g p i | None => f = VPoisoned g p end.
  move=> hp; have [h1 h2] := poly_ok hp; rewrite /at_row evaluate_gate //=.
  case: (settled pr i e) => [x|] /=; last by exists [:: VPoisoned g p] => // f; split=> [[]|->] //; left.
  rewrite addKn; case: ifP => [hx|/negbT hx]; first by exists [::] => // f; split=> // -[].
  by exists [:: VGate g p i] => // f; split=> [[<-|//]|[_ ->]]; [split|left].
have polyP g i : (g < size (gates m))%N -> (i < n)%N -> exists2 es,
    flat_mapi (fun p e => omap (fun v => match v with
      | Real x => if x == 0 then [::] else [:: VGate g p (nth 0%N (iota n n) i - n)%N]
      | Poison => [:: VPoisoned g p] end) (evaluate pr (load pr) (nth 0%N (iota n n) i) e)) (g_polys (nth d (gates m) g)) = Some es &
    forall f, List.In f es <-> exists p e, poly_of g p e /\
      match settled pr i e with Some x => x != 0 /\ f = VGate g p i | None => f = VPoisoned g p end.
  move=> hg hi; rewrite nth_iota //.
  have pg p : (p < size (g_polys (nth d (gates m) g)))%N -> poly_of g p (nth d0 (g_polys (nth d (gates m) g)) p).
    by move=> hp; exists (nth d (gates m) g); rewrite ?(getE d) ?(getE d0).
  have [p hp|es e h] := @flat_mapiP _ _ d0 (at_row g i) (g_polys (nth d (gates m) g)).
    by have [es] := atP _ i _ _ (pg p hp); exists es.
  exists es => // f; split=> [/h [p [es' [hp e1 e2]]]|[p [e' [hp hm]]]].
  - exists p, (nth d0 (g_polys (nth d (gates m) g)) p); split; first exact: pg.
    by have [es2] := atP _ i _ _ (pg p hp); rewrite e1 => -[<-] /(_ f) [h1 _]; apply: h1.
  - apply/h; have [es' e1 h1] := atP _ i _ _ hp; exists p, es'.
    by case: hp => gt /(get_lt d) [_ h3] /(get_lt d0) [h4 h5]; rewrite h3 h5; split=> //; apply/h1.
have [g hg|es e h] := @flat_mapiP _ _ d (fun g gt => flat_mapi (fun _ row => flat_mapi (fun p e =>
    omap (fun v => match v with
      | Real x => if x == 0 then [::] else [:: VGate g p (row - n)%N]
      | Poison => [:: VPoisoned g p] end) (evaluate pr (load pr) row e)) (g_polys gt)) (iota n n)) (gates m).
  have [i hi|es e _] := @flat_mapiP _ _ 0%N (fun _ row => flat_mapi (fun p e =>
    omap (fun v => match v with
      | Real x => if x == 0 then [::] else [:: VGate g p (row - n)%N]
      | Poison => [:: VPoisoned g p] end) (evaluate pr (load pr) row e)) (g_polys (nth d (gates m) g))) (iota n n); last by exists es.
  by rewrite size_iota in hi; have [es] := polyP g i hg hi; exists es.
exists es => // f; apply: (iff_trans (h f)); split.
- move=> [g [es1 [hg e1 e2]]].
  have [i hi|es2 e3 h3] := @flat_mapiP _ _ 0%N (fun _ row => flat_mapi (fun p e =>
    omap (fun v => match v with
      | Real x => if x == 0 then [::] else [:: VGate g p (row - n)%N]
      | Poison => [:: VPoisoned g p] end) (evaluate pr (load pr) row e)) (g_polys (nth d (gates m) g))) (iota n n).
    by rewrite size_iota in hi; have [es3] := polyP g i hg hi; exists es3.
  move: e1; rewrite e3 => -[e1]; move: e2; rewrite -e1 => /h3 [i [es4 [hi e5 e6]]]; rewrite size_iota in hi.
  have [es5] := polyP g i hg hi; rewrite e5 => -[e7] /(_ f) [h7 _]; have [p [e8 [h8 h9]]] := h7 ltac:(by rewrite -e7).
  by exists g, p, e8, i.
- move=> [g [p [e' [i [hp hi hm]]]]]; have [gt /(get_lt d) [hg eg] _] := hp.
  have [i' hi'|es2 e3 h3] := @flat_mapiP _ _ 0%N (fun _ row => flat_mapi (fun p e =>
    omap (fun v => match v with
      | Real x => if x == 0 then [::] else [:: VGate g p (row - n)%N]
      | Poison => [:: VPoisoned g p] end) (evaluate pr (load pr) row e)) (g_polys (nth d (gates m) g))) (iota n n).
    by rewrite size_iota in hi'; have [es3] := polyP g i' hg hi'; exists es3.
  exists g, es2; split=> //; apply/h3; have [es5 e5 h5] := polyP g i hg hi.
  exists i, es5; rewrite size_iota; split=> //; apply/h5; by exists p, e'.
Qed.

(* the gate check never panics, and for every polynomial of every gate: if it can be non-zero at a row, for
   some values in the blinding rows, that is reported; a row is reported as not satisfied only if the
   polynomial is non-zero there whatever the blinding; and "poisoned" is reported only if some row's value
   cannot be settled without the blinding. *)
Theorem C37_gates : exists2 es, gate_errors pr = Some es &
  forall g p e, poly_of g p e ->
  [/\ forall T i, realises pr T -> (i < n)%N -> row_value n T i e != 0 ->
        List.In (VGate g p i) es \/ List.In (VPoisoned g p) es,
      forall i, List.In (VGate g p i) es -> (i < n)%N /\ forall T, realises pr T -> row_value n T i e != 0 &
      List.In (VPoisoned g p) es -> exists2 i, (i < n)%N & settled pr i e = None].
Proof.
have [es ee h] := gate_errorsP; exists es => // g p e hp; have [k1 k2] := poly_ok hp.
have same g' p' e' : poly_of g p e' -> g' = g -> p' = p -> e' = e.
  by case: hp => gt h1 h2 [gt']; rewrite h1 => -[<-]; rewrite h2 => -[<-].
split.
- move=> T i hT hi hv; case hs: (settled pr i e) => [x|].
  + by left; apply/h; exists g, p, e, i; rewrite hs; split=> //; split=> //; rewrite -(settled_value ok hT k1 k2 hs).
  + by right; apply/h; exists g, p, e, i; rewrite hs.
- move=> i /h [g' [p' [e' [i' [hp' hi' hm]]]]]; case hs: (settled pr i' e') hm => [x|//] [hx [eg ep ei]]; subst.
  by have ee' := same _ _ _ hp' erefl erefl; subst; split=> // T hT; rewrite (settled_value ok hT k1 k2 hs).
- move=> /h [g' [p' [e' [i' [hp' hi' hm]]]]]; case hs: (settled pr i' e') hm => [x|]; first by case.
  by move=> [eg ep]; subst; have ee' := same _ _ _ hp' erefl erefl; subst; exists i'.
Qed.
(* No failure reported for the gates: they hold on every row of every trace. *)
Corollary C37_sound : gate_errors pr = Some [::] ->
  forall T, realises pr T -> forall g gt, get (gates m) g = Some gt -> gate_holds n T gt.
Proof.
have [es -> h] := C37_gates => -[ees] T hT g gt hg i hi; rewrite {}ees in h; apply/(all_nthP (EConstant 0)) => p hp.
have [|h1 _ _] := h g p (nth (EConstant 0) (g_polys gt) p); first by exists gt => //; rewrite (getE (EConstant 0)).
by apply/negP => /negP hv; have [] := h1 T i hT hi hv.
Qed.
(* what it means that a value cannot be settled: the polynomial queries an advice cell in a blinding row *)
Fixpoint queries (e : expr F) : seq (any * nat * int) :=
  match e with
  | EFixed _ c r => [:: (Fixed, c, r)] | EAdvice _ c r => [:: (Advice, c, r)] | EInstance _ c r => [:: (Instance, c, r)]
  | ENegated a | EScaled a _ => queries a
  | ESum a b | EProduct a b => queries a ++ queries b
  | _ => [::]
  end.
Theorem C37_poisoned i e : expr_ok m e -> selector_free e -> settled pr i e = None ->
  exists c r, (Advice, c, r) \in queries e /\ (u <= row_of n i r)%N.
Proof.
have /and3P [_ qa _] := ok_queries ok.
rewrite /settled; elim: e => [x|x b|j c r|j c r|j c r|a IH|a IHa b IHb|a IHa b IHb|a IH f] //=.
- move=> _ _; have := ok_clean ok c (row_of n i r).
  by case: (nth (CUnassigned F) _ _).
- move=> h _; have [_ hc _] := query_in qa h; have := @ok_usable _ _ ok c (row_of n i r) hc.
  case: leqP => [hu|hu]; first by exists c, r; rewrite mem_head.
  by move=> /(_ isT); case: (nth (CUnassigned F) _ _).
- by move=> h1 h2; move: IH; case: (expr_eval _ _ _ _ _ _ _ _ _ a) => //= h _; apply: h.
- move=> /andP [h1 h2] /andP [h3 h4]; move: IHa IHb.
  case: (expr_eval _ _ _ _ _ _ _ _ _ a) => [y|]; case: (expr_eval _ _ _ _ _ _ _ _ _ b) => [z|] //= ha hb _.
  + by have [c [r [k1 k2]]] := hb h2 h4 erefl; exists c, r; rewrite mem_cat k1 orbT.
  + by have [c [r [k1 k2]]] := ha h1 h3 erefl; exists c, r; rewrite mem_cat k1.
  + by have [c [r [k1 k2]]] := ha h1 h3 erefl; exists c, r; rewrite mem_cat k1.
- move=> /andP [h1 h2] /andP [h3 h4]; move: IHa IHb.
  case: (expr_eval _ _ _ _ _ _ _ _ _ a) => [y|]; case: (expr_eval _ _ _ _ _ _ _ _ _ b) => [z|] //= ha hb _.
  + by have [c [r [k1 k2]]] := hb h2 h4 erefl; exists c, r; rewrite mem_cat k1 orbT.
  + by have [c [r [k1 k2]]] := ha h1 h3 erefl; exists c, r; rewrite mem_cat k1.
  + by have [c [r [k1 k2]]] := ha h1 h3 erefl; exists c, r; rewrite mem_cat k1.
- by move=> h1 h2; move: IH; case: (expr_eval _ _ _ _ _ _ _ _ _ a) => //= h _; apply: h.
Qed.
End Gates.

(* ---------------------------------------------------------------- lookups *)
Section Lookups.
Variables (F : fieldType) (lt : rel F) (pr : mprover F).
Local Notation n := (mp_n pr).
Local Notation u := (mp_u pr).
Local Notation m := (mp_cs pr).
Hypothesis ok : mp_ok pr.
(* the order of the field is a strict total order *)
Hypotheses (lt_irr : irreflexive lt) (lt_tr : transitive lt) (lt_total : forall x y, x != y -> lt x y || lt y x).

(* the tuple of expressions at a row *)
Definition tuple_at (es : seq (expr F)) (i : nat) : seq (option F) := [seq settled pr i e | e <- es].

Lemma lookup_exprs l lk : get (lookups m) l = Some lk ->
  [/\ size (lk_input lk) = size (lk_table lk), all (@is_fixed_query F) (lk_table lk),
    all (fun e => expr_ok m e && selector_free e) (lk_input lk) &
    all (fun e => expr_ok m e && selector_free e) (lk_table lk)].
Proof.
move=> /(get_lt lk) [hl e]; have /andP [_ /all_nthP h1] := ok_exprs ok; have /all_nthP h2 := ok_lookups ok.
have := h1 lk l hl; have := h2 lk l hl; rewrite e => /and3P [/eqP -> h3 h4] /andP [h5 h6]; split=> //.
- by rewrite all_predI h5.
- by rewrite all_predI h6; apply: sub_all h4; case.
Qed.
Lemma load_tupleE es i : all (fun e => expr_ok m e && selector_free e) es ->
  load_tuple pr es i = Some [seq mval_of v | v <- tuple_at es i].
Proof.
move=> h; rewrite /load_tuple -map_comp; apply: sequence_map => e; elim: es h => //= e' es IH /andP [/andP [h1 h2] h].
by case=> [<-|]; [rewrite evaluate_lookup|exact: IH].
Qed.
Lemma mval_of_inj : injective (@mval_of F). Proof. by move=> [x|] [y|] // [->]. Qed.

(* Row r of lookup l is reported exactly if r is usable and the tuple of its inputs is not the tuple of
   the table at any usable row; a component that depends on the blinding matches nothing, as the table
   is settled.  The check does not panic; in particular its assertion never fails. *)
Theorem C38_lookup l lk : get (lookups m) l = Some lk -> exists2 es, lookup_check lt pr l lk = Some es &
  (forall f, List.In f es -> exists2 r, (r < u)%N & f = VLookup l r) /\
  forall r, List.In (VLookup l r) es <->
    (r < u)%N /\ forall j, (j < u)%N -> tuple_at (lk_input lk) r <> tuple_at (lk_table lk) j.
Proof.
move=> hl; have [hs _ hi ht] := lookup_exprs hl; have u0 := ok_u0 ok.
rewrite /lookup_check hs eqxx /= -(negbK (u == 0)%N) -lt0n u0 /= load_tupleE //=.
rewrite (sequence_map (f := load_tuple pr (lk_table lk)) (g := fun row => [seq mval_of v | v <- tuple_at (lk_table lk) row])); last by move=> x _; exact: load_tupleE.
rewrite (sequence_map (f := load_tuple pr (lk_input lk)) (g := fun row => [seq mval_of v | v <- tuple_at (lk_input lk) row])); last by move=> x _; exact: load_tupleE.
rewrite /=; set fill := [seq mval_of v | v <- tuple_at _ _]; set table := [seq _ | row <- iota 0 u]; set inputs := [seq _ | row <- iota 0 u].
set tab := sort _ _; set ins := sort _ _.
have -> := merge_checkP lt_irr lt_tr lt_total l (dropped := [::]) (inputs := ins) (erefl : tab = [::] ++ tab)
  (sort_sorted (vec_le_total lt_irr lt_tr lt_total) _) (sorted_inputs lt_irr lt_tr lt_total _) ltac:(by []).
eexists; first by [].
have key r : List.In (VLookup l r) [seq VLookup l x.2 | x <- ins & x.1 \notin tab] <->
    exists2 x, x \in ins & (x.1 \notin tab) && (x.2 == r).
  elim: ins => [|x ins IH] /=; first by split=> // -[].
  case: ifP => hx /=; rewrite ?IH; split.
  - case=> [[e]|]; first by exists x; rewrite ?mem_head // hx e eqxx.
    by move=> [y h1 h2]; exists y; rewrite // inE h1 orbT.
  - move=> [y]; rewrite inE => /orP [/eqP -> /andP [_ /eqP ->]|h1 h2]; first by left.
    by right; exists y.
  - by move=> [y h1 h2]; exists y; rewrite // inE h1 orbT.
  - by move=> [y]; rewrite inE => /orP [/eqP ->|h1 h2]; rewrite ?hx //; exists y.
have hin x : x \in ins -> [/\ (x.2 < u)%N, x.1 = [seq mval_of v | v <- tuple_at (lk_input lk) x.2] & x.1 != fill].
  rewrite mem_sort mem_filter => /andP [h1 /(nthP ([::], 0%N)) [i]].
  rewrite size_zip size_map size_iota minnn => hi'; rewrite nth_zip ?size_map //.
  by rewrite (nth_map 0%N) ?size_iota // nth_iota // add0n => e; rewrite -e /= in h1 *.
have hfill : fill \in table.
  by apply/(nthP [::]); exists u.-1; rewrite ?size_map ?size_iota ?prednK // (nth_map 0%N) ?size_iota ?prednK // nth_iota ?prednK.
have htab t : (t \in tab) = (t != fill) && (t \in table) by rewrite mem_sort mem_filter.
split.
- move=> f; have : forall x, x \in ins -> (x.2 < u)%N by move=> x /hin [].
  elim: (ins) => //= x s IH hx; case: ifP => _ /=.
  + case=> [<-|/IH]; first by exists x.2 => //; apply: hx; rewrite mem_head.
    by apply=> y hy; apply: hx; rewrite inE hy orbT.
  + by move=> /IH; apply=> y hy; apply: hx; rewrite inE hy orbT.
move=> r; rewrite key; split.
- move=> [x /hin [h1 h2 h3] /andP [h4 /eqP h5]]; rewrite -h5; split=> // j hj e.
  move: h4; rewrite htab h3 /= h2 e => /negP; apply; apply/(nthP [::]); exists j; first by rewrite size_map size_iota.
  by rewrite (nth_map 0%N) ?size_iota // nth_iota.
- move=> [hr hno]; set x := ([seq mval_of v | v <- tuple_at (lk_input lk) r], r).
  have hnt : x.1 \notin table.
    apply/negP => /(nthP [::]) [j]; rewrite size_map size_iota => hj; rewrite (nth_map 0%N) ?size_iota // nth_iota //= add0n.
    by move=> /(inj_map mval_of_inj) /esym; exact: hno.
  exists x; last by rewrite htab (negbTE hnt) andbF eqxx.
  rewrite mem_sort mem_filter; apply/andP; split.
    by apply/negP => /eqP e; rewrite /x /= in hnt e; rewrite e hfill in hnt.
  apply/(nthP ([::], 0%N)); exists r; first by rewrite size_zip size_map size_iota minnn.
  by rewrite nth_zip ?size_map // (nth_map 0%N) ?size_iota // nth_iota.
Qed.

(* In terms of the traces.  If nothing is reported for row r then in every trace the tuple is in the table.
   If r is reported and no component depends on the blinding, it is in none. *)
Theorem C38_traces l lk : get (lookups m) l = Some lk -> exists2 es, lookup_check lt pr l lk = Some es &
  forall r T, (r < u)%N -> realises pr T ->
    let found := exists2 j, (j < u)%N &
      [seq row_value n T r e | e <- lk_input lk] = [seq row_value n T j e | e <- lk_table lk] in
    (~ List.In (VLookup l r) es -> found) /\
    (all isSome (tuple_at (lk_input lk) r) -> List.In (VLookup l r) es -> ~ found).
Proof.
move=> hl; have [es e [_ h]] := C38_lookup hl; exists es => // r T hr hT found.
have [hs hf hi ht] := lookup_exprs hl.
have val es' i : all (fun e => expr_ok m e && selector_free e) es' -> all isSome (tuple_at es' i) ->
    tuple_at es' i = [seq Some (row_value n T i e) | e <- es'].
  elim: es' => //= e' es' IH /andP [/andP [h1 h2] h3] /andP [h4 /(IH h3) ->].
  by case hv: (settled pr i e') h4 => [x|] // _; rewrite (settled_value ok hT h1 h2 hv).
have tab j : all isSome (tuple_at (lk_table lk) j).
  elim: (lk_table lk) hf => //= e' es' IH /andP [h1 /IH ->]; rewrite andbT.
  case: e' h1 => // k c q _; rewrite /settled /=; have := ok_clean ok c (row_of n j q).
  by case: (nth (CUnassigned F) _ _).
have unSome (a b : seq F) : [seq Some x | x <- a] = [seq Some x | x <- b] -> a = b.
  by apply: inj_map => x y [].
split.
- move=> hno; have [hx|] := boolP (has (fun j => tuple_at (lk_input lk) r == tuple_at (lk_table lk) j) (iota 0 u)).
    move: hx => /hasP [j]; rewrite mem_iota /= add0n => hj /eqP ej; exists j => //; apply: unSome; rewrite -!map_comp.
    have := tab j; rewrite -ej => hs1; rewrite -[LHS](val _ _ hi hs1) ej; exact: val.
  move=> /hasPn hx; case: hno; apply/h; split=> // j hj ej.
  by have := hx j; rewrite mem_iota /= add0n hj ej eqxx => /(_ isT).
- move=> ha /h [_ h2] [j hj ej]; apply: (h2 j hj).
  rewrite (val _ _ hi ha) (val _ _ ht (tab j)).
  by rewrite (map_comp Some (row_value n T r)) ej -(map_comp Some (row_value n T j)).
Qed.
Corollary C38_sound : lookup_errors lt pr = Some [::] ->
  forall T, realises pr T -> forall l lk, get (lookups m) l = Some lk -> lookup_holds n u T lk.
Proof.
move=> h0 T hT l lk hl; have [es e h] := C38_traces hl => i hi.
have [h1 _] := h i T hi hT; apply: h1.
suff -> : es = [::] by [].
have [hl1 hl2] := get_lt lk hl.
have [i' hi'|es' e' h'] := @flat_mapiP _ _ lk (lookup_check lt pr) (lookups m).
  by have [es1 e1 _] := C38_lookup (getE lk hi'); exists es1.
move: h0; rewrite /lookup_errors e' => -[e0]; rewrite e0 in h'.
case: es e h => // f es e _; have [] := h' f => _ h2; case: h2; exists l, (f :: es); rewrite hl2; split=> //; by left.
Qed.
End Lookups.

(* ---------------------------------------------------------------- copies *)
Section Copies.
Variables (F : fieldType) (pr : mprover F).
Local Notation n := (mp_n pr).
Local Notation u := (mp_u pr).
Local Notation m := (mp_cs pr).
Local Notation cols := (permutation m).
Hypothesis ok : mp_ok pr.

(* what a cell of the permutation holds *)
Definition column_at (i : nat) : column := nth (Fixed, 0%N) cols i.
Definition held (x : cell) : cellv F := cell_at pr (column_at x.1).1 (column_at x.1).2 x.2.

Lemma originalE c row : (c < size cols)%N -> (row < n)%N -> original pr c row = Some (held (c, row)).
Proof.
move=> hc hr; rewrite /original (getE (Fixed, 0%N)) //= /held -/(column_at c).
have : (( column_at c).2 < ncols m (column_at c).1)%N by have /all_nthP := ok_columns ok; apply.
case: (column_at c) => -[] j /= hj.
- have [h1 h2] := ok_advice ok; by rewrite (get2E (CUnassigned F)) /= ?h1 ?h2.
- have [h1 h2] := ok_fixed ok; by rewrite (get2E (CUnassigned F)) /= ?h1 ?h2.
- have [h1 h2] := ok_instance ok; by rewrite (get2E None) /= ?h1 ?h2.
Qed.

Variable calls : seq copy_call.
Hypothesis run : mk_perm (mp_st pr) = (run_copies (assembly_new n cols) calls).1.
Local Notation mapping := (a_mapping (mk_perm (mp_st pr))).
Local Notation valid x := ((x.1 < size cols)%N && (x.2 < n)%N).

Lemma perm_errorsP : exists2 es, perm_errors pr = Some es &
  forall f, List.In f es <-> exists x y, [/\ valid x, get2 mapping x = Some y, held x <> held y &
    f = VPermutation (column_at x.1) x.2].
Proof.
have [_ [_ _ [sc [g [[s_inj [h1 h2 rm] _ _ _] hclos]]]]] := inv_run calls (inv_new cols n).
rewrite -run in h1 h2 rm; pose d : cell := (0%N, 0%N).
have stepP i j : (i < size cols)%N -> (j < n)%N ->
    get2 mapping (i, j) = Some (nth d (nth [::] mapping i) j) /\ valid (nth d (nth [::] mapping i) j).
  move=> hi hj; have e : get2 mapping (i, j) = Some (nth d (nth [::] mapping i) j) by rewrite (get2E d) ?h1 ?h2.
  split=> //; have := rm (Ordinal hi, Ordinal hj); rewrite e => -[->].
  by case: (sc _) => -[a ha] [b hb] /=; rewrite ha hb.
pose at_cell c row (cl : cell) := obind (fun o => obind (fun p =>
  if o == p then Some [::] else omap (fun col => [:: VPermutation col row]) (get cols c))
  (original pr cl.1 cl.2)) (original pr c row).
have cellP i j : (i < size cols)%N -> (j < n)%N -> exists2 es, at_cell i j (nth d (nth [::] mapping i) j) = Some es &
    forall f, List.In f es <-> held (i, j) <> held (nth d (nth [::] mapping i) j) /\ f = VPermutation (column_at i) j.
  move=> hi hj; have [_] := stepP i j hi hj; case: (nth d _ _) => i' j' /= /andP [hi' hj'].
  rewrite /at_cell !originalE //= (getE (Fixed, 0%N)) //=; case: eqP => [->|ne].
  - by exists [::] => // f; split=> // -[].
  - by exists [:: VPermutation (column_at i) j] => // f; split=> [[<-|//]|[_ ->]]; [|left].
have colP i : (i < size mapping)%N -> exists2 es, flat_mapi (at_cell i) (nth [::] mapping i) = Some es &
    forall f, List.In f es <-> exists j, [/\ (j < n)%N, held (i, j) <> held (nth d (nth [::] mapping i) j) & f = VPermutation (column_at i) j].
  rewrite h1 => hi; have [j hj|es e h] := @flat_mapiP _ _ d (at_cell i) (nth [::] mapping i).
    by rewrite h2 // in hj; have [es e _] := cellP i j hi hj; exists es.
  exists es => // f; rewrite h h2 //; split.
  - move=> [j [es' [hj e1 e2]]]; have [es2] := cellP i j hi hj; rewrite e1 => -[<-] /(_ f) [k _].
    by have [k1 k2] := k e2; exists j.
  - move=> [j [hj k1 k2]]; have [es2 e2 k] := cellP i j hi hj; exists j, es2; split=> //; by apply/k.
have [i hi|es e h] := @flat_mapiP _ _ [::] (fun c values => flat_mapi (at_cell c) values) mapping.
  by have [es e _] := colP i hi; exists es.
exists es => // f; rewrite h; split.
- move=> [i [es' [hi e1 e2]]]; have [es2] := colP i hi; rewrite e1 => -[<-] /(_ f) [k _].
  have [j [hj k1 k2]] := k e2; rewrite h1 in hi; have [k3 k4] := stepP i j hi hj.
  by exists (i, j), (nth d (nth [::] mapping i) j); split=> //=; rewrite hi hj.
- move=> [[i j] [y [/andP [hi hj] /= k1 k2 k3]]]; have hi' : (i < size mapping)%N by rewrite h1.
  have [es2 e2 k] := colP i hi'; exists i, es2; split=> //; apply/k; exists j; split=> //.
  by have [] := stepP i j hi hj; rewrite k1 => -[<-].
Qed.

(* No failure is reported exactly if the two cells of every copy made hold the same; then all cells linked by
   a chain of copies do.  A failure names a cell of the permutation that differs from one it is linked to. *)
Theorem C39_copies : (forall c, List.In c calls -> call_in_range cols n c) ->
  exists2 es, perm_errors pr = Some es &
  [/\ es = [::] <-> (forall c, List.In c calls ->
        cell_at pr (cc_lc c).1 (cc_lc c).2 (cc_lr c) = cell_at pr (cc_rc c).1 (cc_rc c).2 (cc_rr c)),
      es = [::] -> forall x y, valid x -> valid y -> clos_refl_sym_trans cell (linked cols n calls) x y -> held x = held y &
      forall f, List.In f es -> exists x y, [/\ f = VPermutation (column_at x.1) x.2, valid x,
        clos_refl_sym_trans cell (linked cols n calls) x y & held x <> held y]].
Proof.
move=> hcalls; have [es e h] := perm_errorsP; exists es => //.
have [_ [hv [_ hcl]]] := C23_copies cols n calls; rewrite -run in hv hcl.
have clos_eq (R : Prop) : (forall x y, linked cols n calls x y -> held x = held y) ->
    forall x y, clos_refl_sym_trans cell (linked cols n calls) x y -> held x = held y.
  by move=> hl x y; elim=> [p q /hl|p|p q _ ->|p q t _ -> _ ->].
have eq_clos : es = [::] -> forall x y, valid x -> valid y ->
    clos_refl_sym_trans cell (linked cols n calls) x y -> held x = held y.
  move=> e0 x y vx vy /(hcl _ _ vx vy) [k]; elim: k x vx => [|k IH] x vx; first by move=> [->].
  have [z e1 vz] := hv x vx; rewrite iterSr /= e1 => /(IH z vz) <-.
  by apply/eqP; apply/negPn/negP => /eqP ne; have := h (VPermutation (column_at x.1) x.2); rewrite e0 => -[_]; apply; exists x, z.
have end_of c : List.In c calls -> [/\ linked cols n calls (index (cc_lc c) cols, cc_lr c) (index (cc_rc c) cols, cc_rr c),
    held (index (cc_lc c) cols, cc_lr c) = cell_at pr (cc_lc c).1 (cc_lc c).2 (cc_lr c) &
    held (index (cc_rc c) cols, cc_rr c) = cell_at pr (cc_rc c).1 (cc_rc c).2 (cc_rr c)].
  move=> hc; have hr := hcalls c hc; have /and4P [a1 a2 a3 a4] := hr; split; first by exists c.
  - by rewrite /held /column_at /= nth_index.
  - by rewrite /held /column_at /= nth_index.
have succ x y : valid x -> get2 mapping x = Some y -> clos_refl_sym_trans cell (linked cols n calls) x y.
  by move=> vx e1; have [z e2 vz] := hv x vx; rewrite e1 in e2; case: e2 => e2; subst; apply/(hcl x z vx vz); exists 1%N.
split=> //.
- split=> [e0 c hc|hall].
    have [k1 <- <-] := end_of c hc; apply: eq_clos => //; last exact: rst_step.
    - by have /and4P [a1 a2 a3 a4] := hcalls c hc; rewrite /= index_mem a1.
    - by have /and4P [a1 a2 a3 a4] := hcalls c hc; rewrite /= index_mem a2.
  case: es e h eq_clos => // f es e h _; have [k _] := h f; have [|x [y [vx e1 ne _]]] := k; first by left.
  case: ne; apply: (clos_eq True) (succ x y vx e1) => p q [c hc [hr [-> ->]]].
  by have [_ -> ->] := end_of c hc; exact: hall.
- move=> f /h [x [y [vx e1 ne ef]]]; exists x, y; split=> //; exact: succ.
Qed.

(* in the traces *)
Theorem C39_traces : (forall c, List.In c calls -> [&& cc_lc c \in cols, cc_rc c \in cols, (cc_lr c < u)%N & (cc_rr c < u)%N]) ->
  perm_errors pr = Some [::] -> forall T, realises pr T -> forall c, List.In c calls ->
    T (cc_lc c).1 (cc_lc c).2 (cc_lr c) = T (cc_rc c).1 (cc_rc c).2 (cc_rr c).
Proof.
move=> hcalls h0 T hT c hc; have [c' hc'|es e [h1 _ _]] := C39_copies.
  have /and4P [a1 a2 a3 a4] := hcalls c' hc'.
  by rewrite /call_in_range a1 a2 (leq_trans a3 (ok_un ok)) (leq_trans a4 (ok_un ok)).
move: h0; rewrite e => -[e0]; have := proj1 h1 e0 c hc; have /and4P [a1 a2 a3 a4] := hcalls c hc.
have col x : x \in cols -> (x.2 < ncols m x.1)%N by move=> hx; have /allP := ok_columns ok; apply.
have := hT _ _ _ (col _ a1) (leq_trans a3 (ok_un ok)); have := hT _ _ _ (col _ a2) (leq_trans a4 (ok_un ok)).
move=> k1 k2 k3; move: k2; rewrite k3; move: k1; case ec: (cell_at _ _ _ _) => [|x|p]; try by move=> -> ->.
suff : ~~ if cell_at pr (cc_rc c).1 (cc_rc c).2 (cc_rr c) is CPoison _ then true else false by rewrite ec.
have := col _ a2; case: (cc_rc c) => -[] j //= hj.
- exact: ok_usable ok _ _ hj a4.
- exact: ok_clean ok _ _.
Qed.
End Copies.

(* Runs that meet the hypotheses are in Ex_Mock; that every run meets mp_ok is C40_run_ok. *)
Print Assumptions C37_gates.
Print Assumptions C37_sound.
Print Assumptions C37_poisoned.
Print Assumptions C38_lookup.
Print Assumptions C38_traces.
Print Assumptions C38_sound.
Print Assumptions C39_copies.
Print Assumptions C39_traces.
