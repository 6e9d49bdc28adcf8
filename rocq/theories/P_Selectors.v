(* C22: selector compression preserves the constraints. *)
Set Warnings "-notation-overridden,-ambiguous-paths".
From mathcomp Require Import all_ssreflect all_algebra.
From Verif Require Import Util FieldTac M_Assigned M_Circuit M_Selectors S_Circuit S_Selectors
  L_Selectors P_Circuit Ex_Field.
Import GRing.Theory.
Set Implicit Arguments.
Unset Strict Implicit.
Local Open Scope ring_scope.

Lemma degree_arith de' de dr dg D : (de' + 1 = de + dr)%N -> (0 < dr)%N -> (dr + dg.-1 <= D)%N ->
  (0 < dg)%N -> (de <= dg)%N -> (de <= de' <= D)%N.
Proof. by move=> *; apply/andP; split; nlia. Qed.

Section C22.
Variable F : fieldType.
Notation FA := ([comAlgType F of F^o]).
Implicit Types (e q : expr F) (m : cs F).
Notation no_sel := (@selector_free F).
Notation css := (@contains_simple_selector F).
Notation val sel cell e := (meaning (R := FA) sel cell e).

Section Replace.
Variables (kinds : seq bool) (repl : seq (expr F)).
Notation R i := (nth (EConstant (0 : F)) repl i).
Hypothesis srepl : size repl = size kinds.
Hypothesis rnosel : forall i, (i < size kinds)%N -> no_sel (R i).
Hypothesis rdeg1 : forall i, (i < size kinds)%N -> ~~ nth false kinds i -> degree (R i) = 1%N.

Definition ok_pres e e' := forall m, (forall i, (i < size kinds)%N -> expr_ok m (R i)) ->
  expr_ok m e -> expr_ok m e'.

Lemma replace_complex e : built kinds e -> ~~ css e ->
  exists e', [/\ forall b, replace_selectors repl b e = Some e', no_sel e',
    degree e' = degree e, ok_pres e e' &
    forall (sel sel' : nat -> F) cell,
      (forall i, (i < size kinds)%N -> ~~ nth false kinds i -> val sel' cell (R i) = sel i) ->
      val sel' cell e' = val sel cell e].
Proof.
elim: e => [c|i s|i c r|i c r|i c r|a IH|a IHa b IHb|a IHa b IHb|a IH f] /=.
- by move=> _ _; exists (EConstant c); split.
- case/andP=> hi /eqP-> hn; exists (R i); split=> //.
  + move=> b; rewrite /replace_selectors /=; rewrite -/(css _) /= in hn.
    have -> : nth false kinds i = false by apply/negbTE.
    by rewrite andbF (getE (EConstant 0)) ?srepl.
  + exact: rnosel.
  + by rewrite rdeg1.
  + by move=> m hm _; apply: hm.
  + by move=> sel sel' cell hs; rewrite hs.
- by move=> _ _; exists (EFixed F i c r); split.
- by move=> _ _; exists (EAdvice F i c r); split.
- by move=> _ _; exists (EInstance F i c r); split.
- move=> hb hn; have [a' [h1 h2 h3 h4 h5]] := IH hb hn; exists (ENegated a'); split=> //.
  + by move=> b; rewrite /replace_selectors /= -/(replace_selectors _ _ _) h1.
  + by move=> sel sel' cell hs; rewrite /meaning /= -!/(meaning _ _ _) (h5 sel).
- case/and4P=> ba bb na nb _.
  have [a' [h1 h2 h3 h4 h5]] := IHa ba na; have [b' [g1 g2 g3 g4 g5]] := IHb bb nb.
  exists (ESum a' b'); split=> //=.
  + move=> b0; rewrite /replace_selectors /= -!/(replace_selectors _ _ _) h1 g1 /=.
    by rewrite /e_add (no_sel_simple h2) (no_sel_simple g2).
  + by rewrite h2.
  + by rewrite h3 g3.
  + by move=> m hm /= /andP[oa ob]; rewrite h4 // g4.
  + by move=> sel sel' cell hs; rewrite /meaning /= -!/(meaning _ _ _) (h5 sel) // (g5 sel).
- case/and3P=> ba bb _; rewrite /contains_simple_selector /= -!/(css _) negb_or => /andP[na nb].
  have [a' [h1 h2 h3 h4 h5]] := IHa ba na; have [b' [g1 g2 g3 g4 g5]] := IHb bb nb.
  exists (EProduct a' b'); split=> //=.
  + move=> b0; rewrite /replace_selectors /= -!/(replace_selectors _ _ _) h1 g1 /=.
    by rewrite /e_mul (no_sel_simple h2).
  + by rewrite h2.
  + by rewrite h3 g3.
  + by move=> m hm /= /andP[oa ob]; rewrite h4 // g4.
  + by move=> sel sel' cell hs; rewrite /meaning /= -!/(meaning _ _ _) (h5 sel) // (g5 sel).
- move=> hb hn; have [a' [h1 h2 h3 h4 h5]] := IH hb hn; exists (EScaled a' f); split=> //.
  + by move=> b; rewrite /replace_selectors /= -/(replace_selectors _ _ _) h1.
  + by move=> sel sel' cell hs; rewrite /meaning /= -!/(meaning _ _ _) (h5 sel).
Qed.

Lemma css_degree e : css e -> (0 < degree e)%N.
Proof.
elim: e => //= [a IHa b IHb|a IHa b IHb]; rewrite /contains_simple_selector /= -!/(css _).
  by case/orP=> [/IHa|/IHb]; rewrite leq_max => ->; rewrite ?orbT.
by case/orP=> [/IHa|/IHb]; rewrite addn_gt0 => ->; rewrite ?orbT.
Qed.

Lemma extract_complex e : built kinds e -> ~~ css e -> extract_simple_selector e = Some None.
Proof.
elim: e => [c|i s|i c r|i c r|i c r|a IH|a IHa b IHb|a IHa b IHb|a IH f] //=.
- by rewrite /contains_simple_selector /extract_simple_selector /= => _ /negbTE->.
- case/and4P=> ba bb na nb _; rewrite /extract_simple_selector /= -!/(extract_simple_selector _).
  by rewrite IHa // IHb.
- case/and3P=> ba bb _; rewrite /contains_simple_selector /= -!/(css _) negb_or => /andP[na nb].
  by rewrite /extract_simple_selector /= -!/(extract_simple_selector _) IHa // IHb.
Qed.

Lemma replace_simple e : built kinds e -> css e ->
  exists s e', [/\ extract_simple_selector e = Some (Some s),
    (s < size kinds)%N && nth false kinds s,
    replace_selectors repl false e = Some e' /\ no_sel e',
    (degree e' + 1 = degree e + degree (R s))%N /\ ok_pres e e' &
    forall (sel sel' : nat -> F) cell,
      (forall i, (i < size kinds)%N -> ~~ nth false kinds i -> val sel' cell (R i) = sel i) ->
      (val sel' cell (R s) == 0) = (sel s == 0) ->
      (val sel' cell e' == 0) = (val sel cell e == 0)].
Proof.
elim: e => [c|i s|i c r|i c r|i c r|a IH|a IHa b IHb|a IHa b IHb|a IH f] //=.
- case/andP=> hi /eqP-> hk; rewrite /contains_simple_selector /= in hk.
  exists i, (R i); split=> //.
  + by rewrite /extract_simple_selector /= hk.
  + by rewrite hi hk.
  + split; last exact: rnosel.
    by rewrite /replace_selectors /= (getE (EConstant 0)) ?srepl.
  + split; first by rewrite addnC.
    by move=> m hm _; apply: hm.
- move=> hb hn; have [s [a' [h1 h2 [h3 h3'] [h4 h4'] h5]]] := IH hb hn.
  exists s, (ENegated a'); split=> //.
  + by split=> //; move: h3; rewrite /replace_selectors /= => ->.
  + by move=> sel sel' cell hs h0; rewrite /meaning /= -!/(meaning _ _ _) !oppr_eq0 (h5 sel).
- case/and4P=> ba bb na nb.
  by rewrite /contains_simple_selector /= -!/(css _) (negbTE na) (negbTE nb).
- case/and3P=> ba bb nn; rewrite {1}/contains_simple_selector /= -!/(css _) => ho.
  case: (boolP (css a)) ho nn => [sa _|na /= sb _] /=.
  + move=> nb; have [s [a' [h1 h2 [h3 h3'] [h4 h4'] h5]]] := IHa ba sa.
    have [b' [g1 g2 g3 g4 g5]] := replace_complex bb nb.
    exists s, (EProduct a' b'); split=> //=.
    * by rewrite /extract_simple_selector /= -!/(extract_simple_selector _) h1 extract_complex.
    * rewrite h3' g2; split=> //.
      move: h3 (g1 false); rewrite /replace_selectors /= => -> -> /=.
      by rewrite /e_mul (no_sel_simple h3').
    * split; first by rewrite g3 addnAC h4 addnAC.
      by move=> m hm /= /andP[oa ob]; rewrite h4' // g4.
    * move=> sel sel' cell hs h0; rewrite /meaning /= -!/(meaning _ _ _) !mulf_eq0.
      by rewrite (g5 sel) // (h5 sel).
  + have [s [b' [h1 h2 [h3 h3'] [h4 h4'] h5]]] := IHb bb sb.
    have [a' [g1 g2 g3 g4 g5]] := replace_complex ba na.
    exists s, (EProduct a' b'); split=> //=.
    * by rewrite /extract_simple_selector /= -!/(extract_simple_selector _) h1 extract_complex.
    * rewrite h3' g2; split=> //.
      move: (g1 false) h3; rewrite /replace_selectors /= => -> -> /=.
      by rewrite /e_mul (no_sel_simple g2).
    * split; first by rewrite g3 -addnA h4 addnA.
      by move=> m hm /= /andP[oa ob]; rewrite h4' // g4.
    * move=> sel sel' cell hs h0; rewrite /meaning /= -!/(meaning _ _ _) !mulf_eq0.
      by rewrite (g5 sel) // (h5 sel).
- move=> hb hn; have [s [a' [h1 h2 [h3 h3'] [h4 h4'] h5]]] := IH hb hn.
  exists s, (EScaled a' f); split=> //.
  + by split=> //; move: h3; rewrite /replace_selectors /= => ->.
  + move=> sel sel' cell hs h0; rewrite /meaning /= -!/(meaning _ _ _) /GRing.scale /= !mulf_eq0.
    by rewrite (h5 sel).
Qed.
End Replace.

Lemma allIn (T : Type) (p : pred T) s : all p s <-> forall x, List.In x s -> p x.
Proof.
split; first by elim: s => //= y s IH /andP[hy hs] x [<-|]; auto.
elim: s => //= y s IH h; rewrite h ?IH //; [|by left]; by move=> x hx; apply: h; right.
Qed.

Lemma nthIn (T : Type) (d : T) (u : seq T) i : (i < size u)%N -> List.In (nth d u i) u.
Proof.
elim: u i => // y u IH [|i] /= hi; first by left.
by right; apply: IH.
Qed.

Definition deg_step (acc : option (seq nat)) (e : expr F) :=
  obind (fun degrees => obind (fun os : option nat =>
      if os is Some s then
        if (s < size degrees)%N then
          Some (set_nth 0%N degrees s (maxn (nth 0%N degrees s) (degree e)))
        else None
      else Some degrees) (extract_simple_selector e)) acc.

Lemma degreesE kinds repl : size repl = size kinds ->
  (forall i, (i < size kinds)%N -> no_sel (nth (EConstant 0) repl i)) ->
  (forall i, (i < size kinds)%N -> ~~ nth false kinds i ->
     degree (nth (EConstant 0) repl i) = 1%N) ->
  forall polys degs0, size degs0 = size kinds ->
  (forall e, List.In e polys -> built kinds e) ->
  (forall s, nth 0%N degs0 s != 0%N -> nth false kinds s) ->
  exists degs, [/\ foldl deg_step (Some degs0) polys = Some degs, size degs = size kinds,
    forall s, nth 0%N degs s != 0%N -> nth false kinds s,
    forall D, (forall s, nth 0 degs0 s <= D)%N ->
      (forall e, List.In e polys -> degree e <= D)%N -> forall s, (nth 0 degs s <= D)%N &
    (forall s, nth 0 degs0 s <= nth 0 degs s)%N /\
    (forall e s, List.In e polys -> extract_simple_selector e = Some (Some s) ->
       (degree e <= nth 0 degs s)%N)].
Proof.
move=> sr r1 r2; elim=> [|e polys IH] degs0 sz hb hk /=.
  by exists degs0; split=> //; split.
have be : built kinds e by apply: hb; left.
have hb' e' : List.In e' polys -> built kinds e' by move=> h; apply: hb; right.
case: (boolP (css e)) => hc; last first.
  have ex := extract_complex be hc; rewrite ex /=.
  have [degs [h1 h2 h3 h4 [h5 h6]]] := IH degs0 sz hb' hk.
  exists degs; split=> //.
    by move=> D hD hDe; apply: h4 => // e' h'; apply: hDe; right.
  split=> // e' s [<-|]; [by rewrite ex | exact: h6].
have [s [e' [ex /andP[hs ks] _ _ _]]] := replace_simple sr r1 r2 be hc.
rewrite ex /= sz hs.
have [||degs [h1 h2 h3 h4 [h5 h6]]] :=
  IH (set_nth 0%N degs0 s (maxn (nth 0%N degs0 s) (degree e))) _ hb'.
- by rewrite size_set_nth sz (maxn_idPr _).
- by move=> t; rewrite nth_set_nth /=; case: (eqVneq t s) => [->|_]; last exact: hk.
exists degs; split=> //.
- move=> D hD hDe; apply: h4 => [t|f hf]; last by apply: hDe; right.
  rewrite nth_set_nth /=; case: eqP => [_|_]; last exact: hD.
  by rewrite geq_max hD hDe //; left.
- split.
    move=> t; apply: leq_trans (h5 t); rewrite nth_set_nth /=; case: eqP => [->|//].
    exact: leq_maxl.
  move=> f t [<-|]; last exact: h6.
  rewrite ex => -[<-]; apply: leq_trans (h5 s); rewrite nth_set_nth /= eqxx; exact: leq_maxr.
Qed.

(* Maximal degrees *)
Lemma foldl_maxE (s : seq nat) d : foldl maxn d s = maxn d (foldr maxn 0%N s).
Proof. by elim: s d => [|x s IH] d /=; rewrite ?maxn0 // IH maxnA. Qed.
Lemma max_or0 (s : seq nat) : max_or s 0%N = foldr maxn 0%N s.
Proof. by case: s => [|x s] //=; rewrite foldl_maxE. Qed.
Lemma foldr_max_le (s : seq nat) D : (foldr maxn 0 s <= D)%N = all (fun x => x <= D)%N s.
Proof. by elim: s => //= x s IH; rewrite geq_max IH. Qed.
Lemma foldr_max_F2 (s t : seq nat) : List.Forall2 (fun a b => a <= b)%N s t ->
  (foldr maxn 0 s <= foldr maxn 0 t)%N.
Proof.
elim=> //= a b u v hab _ IH; rewrite geq_max !leq_max hab IH.
by rewrite orbT.
Qed.

Lemma lookup_degree_eq (l l' : lookup F) :
  List.Forall2 (fun e e' => degree e' = degree e) (lk_input l) (lk_input l') ->
  List.Forall2 (fun e e' => degree e' = degree e) (lk_table l) (lk_table l') ->
  lookup_required_degree l' = lookup_required_degree l.
Proof.
have H (u v : seq (expr F)) : List.Forall2 (fun e e' => degree e' = degree e) u v ->
    size v = size u /\ forall d, foldl (fun d e => maxn d (degree e)) d v =
      foldl (fun d e => maxn d (degree e)) d u.
  by elim=> //= a b s t -> _ [-> IH]; split.
by move=> /H[s1 e1] /H[s2 e2]; rewrite /lookup_required_degree s1 s2 e1 e2.
Qed.

(* The constraint system after k calls of the allocating closure. *)
Definition mkcs (m : cs F) (k : nat) : cs F :=
  {| num_fixed := (num_fixed m + k)%N; num_advice := num_advice m;
     num_instance := num_instance m; num_selectors := num_selectors m;
     selector_map := selector_map m; gates := gates m; advice_queries := advice_queries m;
     num_advice_queries := num_advice_queries m; instance_queries := instance_queries m;
     fixed_queries := fixed_queries m ++ [seq ((num_fixed m + i)%N, 0 : int) | i <- iota 0 k];
     permutation := permutation m; lookups := lookups m; constants := constants m;
     minimum_degree := minimum_degree m |}.
Definition newq (m : cs F) (k : nat) : expr F :=
  EFixed F (size (fixed_queries m) + k) (num_fixed m + k) 0.

Lemma mkcs0 m : mkcs m 0 = m.
Proof. by case: m => *; rewrite /mkcs /= addn0 cats0. Qed.

Lemma iota_rcons k : iota 0 k.+1 = rcons (iota 0 k) k.
Proof. by rewrite -addn1 iotaD add0n cats1. Qed.

Lemma alloc_fixedE m k : all (fun q : nat * int => (q.1 < num_fixed m)%N) (fixed_queries m) ->
  alloc_fixed (mkcs m k, [seq (num_fixed m + i)%N | i <- iota 0 k]) =
  ((mkcs m k.+1, [seq (num_fixed m + i)%N | i <- iota 0 k.+1]), newq m k).
Proof.
move=> hq; rewrite /mkcs !iota_rcons !map_rcons -!/(mkcs m k).
rewrite /alloc_fixed /query_fixed_index find_queryP /= mem_cat.
have -> : ((num_fixed m + k)%N, 0 : int) \in fixed_queries m = false.
  by apply/negbTE/negP => /(allP hq) /=; rewrite ltnNge leq_addr.
have -> : ((num_fixed m + k)%N, 0 : int) \in
    [seq ((num_fixed m + i)%N, 0 : int) | i <- iota 0 k] = false.
  apply/negbTE/negP => /mapP[i]; rewrite mem_iota /= add0n => hi [/eqP].
  by rewrite eqn_add2l => /eqP ek; rewrite ek ltnn in hi.
rewrite /= size_cat size_map size_iota /newq.
by rewrite /set_queries /= -rcons_cat addnS.
Qed.

(* What does not change, and how the fixed columns are extended. *)
Record frame (m m' : cs F) (new : nat) : Prop := Frame {
  fr_fixed : num_fixed m' = (num_fixed m + new)%N;
  fr_fixed_queries : fixed_queries m' =
    fixed_queries m ++ [seq ((num_fixed m + i)%N, 0 : int) | i <- iota 0 new];
  fr_counts : [/\ num_advice m' = num_advice m, num_instance m' = num_instance m &
    num_selectors m' = num_selectors m];
  fr_queries : [/\ advice_queries m' = advice_queries m,
    num_advice_queries m' = num_advice_queries m & instance_queries m' = instance_queries m];
  fr_args : [/\ permutation m' = permutation m, constants m' = constants m &
    minimum_degree m' = minimum_degree m] }.

Lemma F2_In (A B : Type) (R : A -> B -> Prop) (f : A -> option B) s :
  (forall x, List.In x s -> exists y, f x = Some y /\ R x y) ->
  exists r, all_some (map f s) = Some r /\ List.Forall2 R s r.
Proof.
move=> h; have [|r [e hr]] := @all_some_F2 _ _ f s.
  by move=> x /h[y [e _]]; exists y.
exists r; split=> //; elim: hr h {e} => [|x y u v exy _ IH] h; first by constructor.
constructor; last by apply: IH => z hz; apply: h; right.
by have [y' [e' ry]] := h x (or_introl erefl); move: e'; rewrite exy => -[->].
Qed.

Lemma F2_getl (A B : Type) (R : A -> B -> Prop) s t x : List.Forall2 R s t -> List.In x s ->
  exists y, List.In y t /\ R x y.
Proof.
elim=> //= a b u v r _ IH [<-|/IH[y [h1 h2]]]; first by exists b; split; [left|].
by exists y; split; [right|].
Qed.
Lemma F2_getr (A B : Type) (R : A -> B -> Prop) s t y : List.Forall2 R s t -> List.In y t ->
  exists x, List.In x s /\ R x y.
Proof.
elim=> //= a b u v r _ IH [<-|/IH[x [h1 h2]]]; first by exists a; split; [left|].
by exists x; split; [right|].
Qed.
Lemma F2_map (A B C : Type) (R : A -> B -> Prop) (f : A -> C) (g : B -> C) s t :
  (forall a b, R a b -> f a = g b) -> List.Forall2 R s t -> map f s = map g t.
Proof. by move=> h; elim=> //= a b u v r _ ->; rewrite (h _ _ r). Qed.
Lemma F2_flatten (A B : Type) (R : A -> B -> Prop) s t :
  List.Forall2 (List.Forall2 R) s t -> List.Forall2 R (flatten s) (flatten t).
Proof. by elim=> [|a b u v r _ IH] /=; [constructor | apply: List.Forall2_app]. Qed.
Lemma F2_maps (A B C D : Type) (R : C -> D -> Prop) (f : A -> C) (g : B -> D) s t :
  List.Forall2 (fun a b => R (f a) (g b)) s t -> List.Forall2 R (map f s) (map g t).
Proof. by elim=> [|a b u v r _ IH] /=; constructor. Qed.
Lemma In_map_mem (T : Type) (K : eqType) (f : T -> K) s k :
  k \in map f s -> exists x, List.In x s /\ f x = k.
Proof.
elim: s => //= x s IH; rewrite inE => /orP[/eqP->|/IH[y [h1 h2]]]; first by exists x; split; [left|].
by exists y; split; [right|].
Qed.

Theorem C22_compress : forall (m : cs F) kinds acts n D,
  cs_built kinds m -> cs_degree m = Some D -> (forall i, (0 < i <= D)%N -> i%:R != 0 :> F) ->
  size acts = num_selectors m -> all (fun a => size a == n) acts ->
  exists m' polys, [/\ compress_selectors m acts = Some (m', polys),
    all (fun p => size p == n) polys /\ frame m m' (size polys),
    cs_degree m' = Some D /\ (cs_exprs_ok m -> cs_exprs_ok m'),
    List.Forall2 (fun g g' => [/\ g_queried_selectors g' = g_queried_selectors g,
        g_queried_cells g' = g_queried_cells g &
        List.Forall2 (fun e e' => selector_free e' /\
            same_constraint acts polys (num_fixed m) n e e') (g_polys g) (g_polys g')])
      (gates m) (gates m') /\
    List.Forall2 (fun l l' =>
        List.Forall2 (fun e e' => selector_free e' /\
          same_value acts polys (num_fixed m) n e e') (lk_input l) (lk_input l') /\
        List.Forall2 (fun e e' => selector_free e' /\
          same_value acts polys (num_fixed m) n e e') (lk_table l) (lk_table l'))
      (lookups m) (lookups m') &
    size (selector_map m') = num_selectors m /\
    forall s, (s < num_selectors m)%N -> exists c, [/\ (c < size polys)%N,
      nth 0%N (selector_map m') s = (num_fixed m + c)%N &
      forall row, (row < n)%N -> nth false (nth [::] acts s) row ->
        nth 0 (nth [::] polys c) row != 0]].
Proof.
move=> m kinds acts n D /and4P[/eqP sk hgb hlb hfq] hD hchar sa hact.
have D0 : (0 < D)%N.
  move: hD; rewrite /cs_degree; case: all_some => //= lds [<-].
  by rewrite !leq_max.
rewrite /compress_selectors sa eqxx.
pose polys0 := flatten [seq g_polys g | g <- gates m].
have inpolys g e : List.In g (gates m) -> List.In e (g_polys g) -> List.In e polys0.
  rewrite /polys0; elim: (gates m) => //= g' gs IH [<-|hg] he; apply: List.in_or_app; first by left.
  by right; apply: IH.
have bpolys e : List.In e polys0 -> built kinds e.
  rewrite /polys0; elim: (gates m) hgb => //= g' gs IH /andP[hg hgs] hin.
  by case: (List.in_app_or _ _ _ hin) => [|/(IH hgs)//]; move/allIn: hg; apply.
(* degrees: use dummy replacements *)
have [||||| degs [dg1 dg2 dg3 dg4 [_ dg5]]] :=
  @degreesE kinds (nseq (size kinds) (EFixed F 0 0 0)) _ _ _ polys0 (nseq (size kinds) 0%N) _ bpolys.
- by rewrite size_nseq.
- by move=> i hi; rewrite nth_nseq hi.
- by move=> i hi _; rewrite nth_nseq hi.
- by rewrite size_nseq.
- by move=> s; rewrite nth_nseq if_same.
rewrite -sk /selector_degrees -/deg_step dg1 /= hD /=.
(* every gate polynomial has degree at most D *)
have [lds elds eD] : exists2 lds, all_some [seq lookup_required_degree l | l <- lookups m] = Some lds &
    D = maxn (maxn (maxn permutation_required_degree (max_or lds 1))
         (max_or (flatten [seq [seq degree p | p <- g_polys g] | g <- gates m]) 0))
         (if minimum_degree m is Some md then md else 1%N).
  by move: hD; rewrite /cs_degree; case e: all_some => [lds|] //= [<-]; exists lds.
have dpolys e : List.In e polys0 -> (degree e <= D)%N.
  have : (max_or (flatten [seq [seq degree p | p <- g_polys g] | g <- gates m]) 0 <= D)%N.
    by rewrite eD !leq_max leqnn !orbT.
  rewrite max_or0 foldr_max_le -[X in flatten X](_ : [seq map (@degree F) i | i <- [seq g_polys g | g <- gates m]] = _).
    by rewrite -map_flatten all_map => /allIn h /h.
  by rewrite -map_comp.
have degsD s : (nth 0 degs s <= D)%N.
  by apply: dg4 => // t; rewrite nth_nseq if_same.
set l := mapi _ _.
have sl : size l = size kinds by rewrite /l size_mapi size_zip sa dg2 sk minnn.
have lnth i : (i < size kinds)%N ->
    nth d0 l i = {| sd_sel := i; sd_act := nth [::] acts i; sd_deg := nth 0%N degs i |}.
  move=> hi; rewrite /l (nth_mapi _ ([::], 0%N)) ?size_zip ?sa ?dg2 ?sk ?minnn -?sk //.
  by rewrite nth_zip ?sa ?dg2.
have selsl : map sd_sel l = iota 0 (size kinds).
  apply: (@eq_from_nth _ 0%N); first by rewrite size_map size_iota.
  by rewrite size_map sl => i hi; rewrite (nth_map d0) ?sl // lnth // nth_iota.
have lin sd : List.In sd l -> exists2 i, (i < size kinds)%N & sd = nth d0 l i.
  rewrite -sl; elim: (l) => //= y u IH [<-|/IH[i hi ->]]; first by exists 0%N.
  by exists i.+1.
pose PP k (st : cs F * seq nat) := st = (mkcs m k, [seq (num_fixed m + i)%N | i <- iota 0 k]).
have allocP k st : PP k st -> exists st', alloc_fixed st = (st', newq m k) /\ PP k.+1 st'.
  by move=> ->; exists (mkcs m k.+1, [seq (num_fixed m + i)%N | i <- iota 0 k.+1]);
     rewrite alloc_fixedE.
have [||st [sds [p1 [p2 p3] p4 p5 p6]]] :=
  @processSpec F _ (@alloc_fixed F) D n PP (newq m) allocP (fun _ => isT) (fun _ => erefl) hchar D0
    l (m, [::]).
- by rewrite /PP mkcs0.
- move=> sd /lin[i hi ->]; rewrite lnth //=; split; last exact: degsD.
  by apply/eqP/(allP hact)/mem_nth; rewrite sa -sk.
rewrite p1 /= p2 /=.
set k := size (p_combs st) in p2 *.
have esel : map sd_sel sds = map (@sa_sel F) (p_assigns st).
  by apply: (F2_map _ p6) => a b /gd_sel.
have num : size (p_assigns st) = size kinds.
  by rewrite -(size_map (@sa_sel F)) -esel (perm_size p4) size_map.
rewrite num.
have pkey : perm_eq (map (@sa_sel F) (p_assigns st)) (iota 0 (size kinds)).
  by rewrite -esel -selsl.
(* the assignment of selector i *)
have assn i : (i < size kinds)%N ->
    exists a, [/\ List.In a (p_assigns st), sa_sel a = i &
      good n D (newq m) (p_combs st) (nth d0 l i) a].
  move=> hi; have : i \in map sd_sel sds by rewrite (perm_mem p4) selsl mem_iota.
  case/In_map_mem=> sd [hin hs]; have [a [ha hg]] := F2_getl p6 hin.
  exists a; split=> //; first by rewrite (gd_sel hg).
  by have [j hj ej] := lin _ (p5 _ hin); rewrite ej in hs hg; rewrite lnth //= in hs; rewrite -hs.
have [||repl [r1 r2 r3]] := @fillE _ (EConstant (0 : F)) (size kinds)
    [seq (sa_sel a, Some (sa_expr a)) | a <- p_assigns st].
- by rewrite /unzip1 -map_comp.
- by elim: (p_assigns st) => //= a u IH i o [[_ <-]|/IH].
rewrite r1 /=.
set cols := [seq (num_fixed m + i)%N | i <- iota 0 k].
have colsE c : (c < k)%N -> get cols c = Some (num_fixed m + c)%N.
  by move=> hc; rewrite (getE 0%N) ?size_map ?size_iota // (nth_map 0%N) ?size_iota // nth_iota.
have acomb a : List.In a (p_assigns st) -> (sa_comb a < k)%N.
  by move=> /(F2_getr p6) [sd [_ /gd_comb]].
have [||smap [s1 s2 s3]] := @fillE _ 0%N (size kinds)
    [seq (sa_sel a, get cols (sa_comb a)) | a <- p_assigns st].
- by rewrite /unzip1 -map_comp.
- elim: (p_assigns st) acomb => //= a u IH ha i o [[_ <-]|]; last by apply: IH => b hb; apply: ha; right.
  by rewrite colsE //; apply: ha; left.
rewrite s1 /=.
have inmap (T : Type) (f : sassign F -> T) a : List.In a (p_assigns st) ->
    List.In (f a) (map f (p_assigns st)) by apply: List.in_map.
have replE i : (i < size kinds)%N -> exists a, [/\ nth (EConstant 0) repl i = sa_expr a,
    nth 0%N smap i = (num_fixed m + sa_comb a)%N, (sa_comb a < k)%N &
    good n D (newq m) (p_combs st) (nth d0 l i) a].
  move=> /assn[a [ha hs hg]]; exists a; split=> //; last exact: acomb.
  + have := r3 i (Some (sa_expr a)); rewrite -{1}hs => h.
    by have [<-] := h (inmap _ (fun a => (sa_sel a, Some (sa_expr a))) a ha).
  + have := s3 i (get cols (sa_comb a)); rewrite -{1}hs => h.
    by have := h (inmap _ (fun a => (sa_sel a, get cols (sa_comb a))) a ha); rewrite colsE ?acomb // => -[].
have rnosel i : (i < size kinds)%N -> no_sel (nth (EConstant 0) repl i).
  by move=> /replE[a [-> _ _ /gd_nosel]].
have deg0 i : ~~ nth false kinds i -> nth 0%N degs i = 0%N.
  by move=> h; apply/eqP; apply/negPn/negP => /dg3; rewrite (negbTE h).
have rdeg1 i : (i < size kinds)%N -> ~~ nth false kinds i ->
    degree (nth (EConstant 0) repl i) = 1%N.
  move=> hi hk; have [a [-> _ _ hg]] := replE i hi.
  by apply: (gd_deg0 hg); rewrite lnth //= deg0.
(* values of the replacements at a row *)
have rcell row cell (sel' : nat -> F) c : row_cells (p_combs st) (num_fixed m) row cell -> (c < k)%N ->
    val sel' cell (newq m c) = nth 0 (nth [::] (p_combs st) c) row.
  by move=> hr hc; exact: hr.
have rexact row cell (sel' : nat -> F) : (row < n)%N -> row_cells (p_combs st) (num_fixed m) row cell ->
    forall i, (i < size kinds)%N -> ~~ nth false kinds i ->
    val sel' cell (nth (EConstant 0) repl i) = sel_value F acts row i.
  move=> hr hc i hi hk; have [a [-> _ ha hg]] := replE i hi.
  rewrite (gd_exact hg _ hr (rcell _ _ _ _ hc ha)) ?lnth //=; exact: deg0.
have rzero row cell (sel' : nat -> F) : (row < n)%N -> row_cells (p_combs st) (num_fixed m) row cell ->
    forall i, (i < size kinds)%N ->
    (val sel' cell (nth (EConstant 0) repl i) == 0) = (sel_value F acts row i == 0).
  move=> hr hc i hi; have [a [-> _ ha hg]] := replE i hi.
  rewrite (gd_zero hg hr (rcell _ _ _ _ hc ha)) lnth //= /active /sel_value /=.
  by case: (nth _ _ _); rewrite /= ?oner_eq0 ?eqxx.
(* gates *)
pose RE e e' := [/\ selector_free e', same_constraint acts (p_combs st) (num_fixed m) n e e',
  (degree e <= degree e' <= D)%N & ok_pres kinds repl e e'].
have gateE e : List.In e polys0 -> exists e', replace_selectors repl false e = Some e' /\ RE e e'.
  move=> he; have be := bpolys e he; have dD := dpolys e he.
  case: (boolP (css e)) => hc.
    have [i [e' [h1 /andP[h2 h2'] [h3 h3'] [h4 h4'] h5]]] := replace_simple r2 rnosel rdeg1 be hc.
    exists e'; split=> //; split=> //.
      move=> row cell sel' hr hcell; apply: h5; first exact: rexact.
      exact: rzero.
    have [a [ea _ _ hg]] := replE i h2.
    have g1 := gd_deg1 hg; have g2 := gd_deg hg; rewrite lnth //= -ea in g1 g2.
    have dgi := dg5 _ _ he h1.
    have g3 : (0 < nth 0 degs i)%N.
      apply: leq_trans dgi; rewrite lt0n; apply/eqP => d0e.
      by move: (css_degree hc); rewrite d0e.
    exact: degree_arith h4 g1 g2 g3 dgi.
  have [e' [h1 h2 h3 h4 h5]] := replace_complex r2 rnosel rdeg1 be hc.
  exists e'; split=> //; split=> //; last by rewrite h3 leqnn.
  by move=> row cell sel' hr hcell; rewrite (h5 (sel_value F acts row)) //; exact: rexact.
pose RL e e' := [/\ selector_free e', same_value acts (p_combs st) (num_fixed m) n e e',
  degree e' = degree e & ok_pres kinds repl e e'].
have lookE e : built kinds e && ~~ css e -> exists e', replace_selectors repl true e = Some e' /\ RL e e'.
  case/andP=> be hc; have [e' [h1 h2 h3 h4 h5]] := replace_complex r2 rnosel rdeg1 be hc.
  exists e'; split=> //; split=> //.
  by move=> row cell sel' hr hcell; apply: h5; exact: rexact.
have [gs [eg hgs]] : exists gs, all_some [seq omap (fun ps => {| g_polys := ps;
                         g_queried_selectors := g_queried_selectors g;
                         g_queried_cells := g_queried_cells g |})
                       (all_some [seq replace_selectors repl false e | e <- g_polys g])
                    | g <- gates m] = Some gs /\
    List.Forall2 (fun g g' => [/\ g_queried_selectors g' = g_queried_selectors g,
        g_queried_cells g' = g_queried_cells g & List.Forall2 RE (g_polys g) (g_polys g')])
      (gates m) gs.
  apply: F2_In => g hg.
  have [|ps [e1 e2]] := @F2_In _ _ RE (replace_selectors repl false) (g_polys g).
    by move=> e he; apply: gateE; apply: inpolys he.
  by eexists; rewrite e1 /=; split; first reflexivity.
have [ls [el hls]] : exists ls, all_some [seq obind (fun i => omap (fun t => {| lk_input := i; lk_table := t |})
                       (all_some [seq replace_selectors repl true e | e <- lk_table l]))
                     (all_some [seq replace_selectors repl true e | e <- lk_input l])
                    | l <- lookups m] = Some ls /\
    List.Forall2 (fun l l' => List.Forall2 RL (lk_input l) (lk_input l') /\
      List.Forall2 RL (lk_table l) (lk_table l')) (lookups m) ls.
  apply: F2_In => lk hlk.
  have /and3P[_ hi ht] : lookup_built kinds lk by move/allIn: hlb; apply.
  have [|is_ [e1 e2]] := @F2_In _ _ RL (replace_selectors repl true) (lk_input lk).
    by move=> e he; apply: lookE; move/allIn: hi; apply.
  have [|ts [e3 e4]] := @F2_In _ _ RL (replace_selectors repl true) (lk_table lk).
    by move=> e he; apply: lookE; move/allIn: ht; apply.
  by eexists; rewrite e1 /= e3 /=; split; first reflexivity.
rewrite eg /= el /=.
set m' := set_args _ _ _ _ _ _ _; exists m', (p_combs st); split=> //.
- split.
  + have eqlds : [seq lookup_required_degree l | l <- ls] = [seq lookup_required_degree l | l <- lookups m].
      apply/esym; apply: (F2_map _ hls) => u v [hi ht]; apply/esym; apply: lookup_degree_eq.
        by apply: (F2_impl _ hi) => a b [].
      by apply: (F2_impl _ ht) => a b [].
    rewrite /cs_degree /= eqlds elds /=; congr Some.
    set A := maxn _ (max_or lds 1) in eD *; set B := (match minimum_degree m with Some _ => _ | None => _ end) in eD *.
    set G := max_or _ 0 in eD; set G' := max_or _ 0.
    have hG : (G <= G')%N.
      rewrite /G /G' !max_or0; apply/foldr_max_F2/F2_flatten/F2_maps.
      apply: (F2_impl _ hgs) => g g' [_ _ h]; apply: F2_maps.
      by apply: (F2_impl _ h) => e e' [_ _ /andP[]].
    have hG' : (G' <= D)%N.
      rewrite /G' max_or0 foldr_max_le; elim: hgs => //= g g' u v [_ _ h] _ IH.
      rewrite all_cat IH andbT all_map; elim: h => //= e e' x y [_ _ /andP[_ ->] _] _ //.
    apply/eqP; rewrite eqn_leq !geq_max hG' andbT; apply/andP; split.
      by rewrite eD !leq_max !leqnn !orbT.
    rewrite eD !geq_max !leq_max !leqnn hG !orbT //.
  + case/andP=> og ol.
    have okR i : (i < size kinds)%N -> expr_ok m' (nth (EConstant 0) repl i).
      move=> hi; have [a [-> _ ha hg]] := replE i hi; apply: (gd_ok hg).
      rewrite /= size_cat size_map size_iota ltn_add2l ha /=.
      by rewrite nth_cat ltnNge leq_addr /= addKn (nth_map 0%N) ?size_iota // nth_iota.
    have okE e : expr_ok m e -> expr_ok m' e.
      elim: e => //= [i c r|a IHa b IHb|a IHa b IHb]; try by case/andP=> /IHa-> /IHb->.
      by case/andP=> hi /eqP<-; rewrite size_cat ltn_addr // nth_cat hi eqxx.
    have okL m2 u v : (forall i, (i < size kinds)%N -> expr_ok m2 (nth (EConstant 0) repl i)) ->
        (forall e, expr_ok m e -> expr_ok m2 e) ->
        List.Forall2 (fun e e' => ok_pres kinds repl e e') u v -> all (expr_ok m) u ->
        all (expr_ok m2) v.
      move=> oR oE; elim=> //= e e' x y h _ IH' /andP[oe ox]; rewrite IH' // andbT.
      by apply: h => //; exact: oE.
    have okG m2 : (forall i, (i < size kinds)%N -> expr_ok m2 (nth (EConstant 0) repl i)) ->
        (forall e, expr_ok m e -> expr_ok m2 e) -> all (fun g => all (expr_ok m2) (g_polys g)) gs.
      move=> oR oE; elim: hgs og => //= g g' u v [_ _ h] _ IH /andP[og ogs]; rewrite IH // andbT.
      by apply: (okL m2 (g_polys g)) => //; apply: (F2_impl _ h) => e e' [].
    have okK m2 : (forall i, (i < size kinds)%N -> expr_ok m2 (nth (EConstant 0) repl i)) ->
        (forall e, expr_ok m e -> expr_ok m2 e) ->
        all (fun l => all (expr_ok m2) (lk_input l) && all (expr_ok m2) (lk_table l)) ls.
      move=> oR oE; elim: hls ol => //= l1 l1' u v [hi ht] _ IH /andP[/andP[o1 o2] ols].
      rewrite IH // (okL m2 (lk_input l1)) // ?(okL m2 (lk_table l1)) //.
        by apply: (F2_impl _ ht) => e e' [].
      by apply: (F2_impl _ hi) => e e' [].
    by apply/andP; split; [apply: okG | apply: okK].
- split.
    apply: (F2_impl _ hgs) => g g' [q1 q2 h]; split=> //.
    by apply: (F2_impl _ h) => e e' [].
  apply: (F2_impl _ hls) => l1 l1' [hi ht]; split.
    by apply: (F2_impl _ hi) => e e' [].
  by apply: (F2_impl _ ht) => e e' [].
- rewrite /= s2; split=> // i hi; have [a [_ ec ha hg]] := replE i hi.
  exists (sa_comb a); split=> // row hr hact'; apply: (gd_col hg) => //.
  by rewrite lnth.
Qed.

(* The operators of the API (and queries) only make such expressions, or panic. *)
Theorem C22_operators : forall kinds (a b c : expr F) (f : F),
  built kinds a -> built kinds b ->
  [/\ (e_add a b = Some c -> built kinds c), (e_sub a b = Some c -> built kinds c),
      (e_mul a b = Some c -> built kinds c),
      built kinds (e_neg a) /\ built kinds (e_scale a f) &
      forall cs r, all (built kinds) cs -> with_selector a cs = Some r -> all (built kinds) r].
Proof.
move=> kinds a b c f ba bb.
have mulB (x y z : expr F) : built kinds x -> built kinds y -> e_mul x y = Some z -> built kinds z.
  by move=> bx by_; rewrite /e_mul; case: ifP => // h [<-] /=; rewrite bx by_ h.
split=> //.
- by rewrite /e_add; case: ifP => // /negbT; rewrite negb_or => /andP[h1 h2] [<-] /=; rewrite ba bb h1 h2.
- by rewrite /e_sub; case: ifP => // /negbT; rewrite negb_or => /andP[h1 h2] [<-] /=; rewrite ba bb h1 h2.
- exact: mulB.
- move=> cs r hcs /all_some_inv h; elim: h hcs => //= x y u v e _ IH /andP[bx bu].
  by rewrite (mulB _ _ _ ba bx e) IH.
Qed.

(* Every constraint system a configure() can build satisfies the hypothesis of C22_compress. *)
Lemma built_rcons kinds k (e : expr F) : built kinds e -> built (rcons kinds k) e.
Proof.
elim: e => //= [i s|a IHa b IHb|a IHa b IHb].
- by case/andP=> hi; rewrite size_rcons ltnS (ltnW hi) nth_rcons hi.
- by case/and4P=> /IHa-> /IHb-> -> ->.
- by case/and3P=> /IHa-> /IHb-> ->.
Qed.

Lemma built_query_fixed kinds m c : cs_built kinds m -> (c < num_fixed m)%N ->
  cs_built kinds (query_fixed_index m c).1 /\ num_fixed (query_fixed_index m c).1 = num_fixed m.
Proof.
move=> h hc; rewrite /query_fixed_index; case: find_query => [i|] //=; split=> //.
by case/and4P: h => h1 h2 h3 h4; apply/and4P; split; rewrite //= all_rcons h4 hc.
Qed.

Lemma built_lookup_fold kinds tm m acc m' acc' : cs_built kinds m ->
  all (fun it : expr F * nat => built kinds it.1 && (it.2 < num_fixed m)%N) tm ->
  all (fun p : expr F * expr F => [&& built kinds p.1, ~~ css p.1, built kinds p.2 & ~~ css p.2]) acc ->
  foldl (@lookup_step F) (Some (m, acc)) tm = Some (m', acc') ->
  cs_built kinds m' /\
  all (fun p : expr F * expr F => [&& built kinds p.1, ~~ css p.1, built kinds p.2 & ~~ css p.2]) acc'.
Proof.
elim: tm m acc => [|[e c] tm IH] m acc hb /=; first by move=> _ ha [<- <-].
case/andP=> /andP[be hc] htm ha; case: ifP => hs /=; first by rewrite lookup_foldN.
have [b1 b2] := built_query_fixed hb hc.
by apply: IH; rewrite ?b2 // all_rcons /= be hs.
Qed.

Lemma run_op_built kinds m o m' : cs_built kinds m -> op_built kinds m o ->
  run_op m o = Some m' -> cs_built (op_kinds kinds o) m'.
Proof.
move=> hb; case: o => [simple| | | |c|c r|c r|[t c]|c|tm|g|d] /=.
- move=> _ [<-]; case/and4P: hb => /eqP h1 h2 h3 h4; apply/and4P; split=> //=.
  + by rewrite size_rcons h1.
  + by apply: sub_all h2 => g; apply: sub_all => e; exact: built_rcons.
  + apply: sub_all h3 => l /and3P[e1 e2 e3]; apply/and3P; split=> //.
      by apply: sub_all e2 => e /andP[/built_rcons -> ->].
    by apply: sub_all e3 => e /andP[/built_rcons -> ->].
- move=> _ [<-]; case/and4P: hb => h1 h2 h3 h4; apply/and4P; split=> //=.
  by apply: sub_all h4 => q /= hq; rewrite ltnW.
- by move=> _ [<-]; case/and4P: hb => h1 h2 h3 h4; apply/and4P; split.
- by move=> _ [<-]; case/and4P: hb => h1 h2 h3 h4; apply/and4P; split.
- by move=> hc [<-]; have [] := built_query_fixed hb hc.
- move=> _; rewrite /query_advice_index; case: find_query => [i [<-]|] //.
  by case: ifP => // _ [<-]; case/and4P: hb => h1 h2 h3 h4; apply/and4P; split.
- move=> _ [<-]; rewrite /query_instance_index; case: find_query => [i|]; first exact: hb.
  by case/and4P: hb => h1 h2 h3 h4; apply/and4P; split.
- case: t => hc; rewrite /enable_equality /query_any_index /=.
  + rewrite /query_advice_index; case: find_query => [i|] /=.
      by case=> <-; case: ifP => _; case/and4P: hb => h1 h2 h3 h4; apply/and4P; split.
    case: ifP => //= _ [<-].
    by case: ifP => _; case/and4P: hb => h1 h2 h3 h4; apply/and4P; split.
  + case=> <-; have [] := built_query_fixed hb hc.
    by case: ifP => _ h _; case/and4P: h => h1 h2 h3 h4; apply/and4P; split.
  + rewrite /query_instance_index; case: find_query => [i|] /= [<-];
    by case: ifP => _; case/and4P: hb => h1 h2 h3 h4; apply/and4P; split.
- move=> hc; rewrite /enable_constant; case: ifP => _; first by case=> <-.
  set m1 := set_args _ _ _ _ _ _ _.
  have hb1 : cs_built kinds m1 by case/and4P: hb => h1 h2 h3 h4; apply/and4P; split.
  rewrite /enable_equality /query_any_index /= => -[<-]; have [] := built_query_fixed hb1 hc.
  by case: ifP => _ h _; case/and4P: h => h1 h2 h3 h4; apply/and4P; split.
- move=> htm; rewrite /add_lookup -/(@lookup_step F).
  case e: foldl => [[m1 acc]|] //= [<-].
  have [hb1 ha] := built_lookup_fold (acc := [::]) hb htm isT e.
  case/and4P: hb1 => h1 h2 h3 h4; apply/and4P; split=> //=.
  rewrite all_rcons h3 andbT; apply/and3P; split=> /=.
  + by rewrite !size_map.
  + by rewrite all_map; apply: sub_all ha => p /= /and4P[-> ->].
  + by rewrite all_map; apply: sub_all ha => p /= /and4P[_ _ -> ->].
- rewrite /create_gate; case eg: (g_polys g) => [|p ps] // hg [<-].
  by case/and4P: hb => h1 h2 h3 h4; apply/and4P; split=> //=; rewrite all_rcons eg hg h2.
- by move=> _ [<-]; case/and4P: hb => h1 h2 h3 h4; apply/and4P; split.
Qed.

Theorem C22_configured : forall ops (m : cs F),
  ops_built [::] (cs_default F) ops -> run_ops (cs_default F) ops = Some m ->
  cs_built (foldl (@op_kinds F) [::] ops) m.
Proof.
move=> ops m; have : cs_built [::] (cs_default F) by [].
elim: ops [::] (cs_default F) => [|o ops IH] kinds m0 hb /=; first by move=> _ [<-].
case/andP=> ho; case e: (run_op m0 o) => [m1|] //= hops hrun.
exact: IH (run_op_built hb ho e) hops hrun.
Qed.
End C22.
Print Assumptions C22_compress.
Print Assumptions C22_operators.
Print Assumptions C22_configured.

(* Three simple selectors and a complex one on four rows; selectors 0 and 1 are never enabled
   together and share a column, selector 2 overlaps them, selector 3 keeps its own. *)
Notation K := K97_fieldType.
Definition ex22_gate (s : nat) (simple : bool) : gate K :=
  {| g_polys := [:: EProduct (ESelector _ s simple) (EAdvice _ 0 0 0)];
     g_queried_selectors := [:: (s, simple)]; g_queried_cells := [:: ((Advice, 0%N), 0)] |}.
Definition ex22_ops : seq (cs_op K) :=
  [:: OAdviceColumn _; OFixedColumn _; OSelector _ true; OSelector _ true; OSelector _ true;
      OSelector _ false; OQueryAdvice _ 0 0; OGate (ex22_gate 0 true); OGate (ex22_gate 1 true);
      OGate (ex22_gate 2 true);
      OLookup [:: (EProduct (ESelector _ 3 false) (EAdvice _ 0 0 0), 0%N)]].
Definition ex22_acts : seq (seq bool) :=
  [:: [:: true; false; false; false]; [:: false; true; false; false];
      [:: true; true; false; false]; [:: false; false; true; false]].
Example C22_example :
  ops_built [::] (cs_default K) ex22_ops /\
  if run_ops (cs_default K) ex22_ops is Some m then
    [/\ cs_degree m = Some 5%N, size ex22_acts = num_selectors m,
        all (fun a => size a == 4%N) ex22_acts, cs_exprs_ok m &
        if compress_selectors m ex22_acts is Some (m', polys) then
          [/\ polys = [:: [:: 0; 0; 1; 0]; [:: 1; 1 + 1; 0; 0]; [:: 1; 1; 0; 0]],
              selector_map m' = [:: 2; 2; 3; 1]%N & cs_degree m' = Some 5%N]
        else False]
  else False.
Proof. by vm_compute. Qed.

(* The hypothesis matters: the public constructor Expression::Sum can put a simple selector
   under a sum, which the operators refuse; compression then changes the constraint. Here the
   expression sel_1 + advice vanishes at row 1 before, with advice = -1, but not after. *)
Definition ex22_raw : cs K :=
  {| num_fixed := 0; num_advice := 1; num_instance := 0; num_selectors := 2;
     selector_map := [::];
     gates := [:: ex22_gate 0 true;
       {| g_polys := [:: ESum (ESelector _ 1 true) (EAdvice _ 0 0 0)];
          g_queried_selectors := [::]; g_queried_cells := [::] |}];
     advice_queries := [:: (0%N, 0)]; num_advice_queries := [:: 1%N]; instance_queries := [::];
     fixed_queries := [::]; permutation := [::]; lookups := [::]; constants := [::];
     minimum_degree := None |}.
Definition ex22_raw_acts : seq (seq bool) := [:: [:: true; false]; [:: false; true]].
Example C22_raw_sum_not_preserved :
  cs_built [:: true; true] ex22_raw = false /\
  if compress_selectors ex22_raw ex22_raw_acts is Some (m', polys) then
    let cell t c (r : int) : K := if t is Fixed then nth 0 (nth [::] polys c) 1 else -1 in
    let before := ESum (ESelector K 1 true) (EAdvice K 0 0 0) in
    let after := nth before (g_polys (nth (ex22_gate 0 true) (gates m') 1)) 0 in
    meaning (R := [comAlgType K of K^o]) (fun i => (i == 1%N)%:R) cell before == 0 /\
    meaning (R := [comAlgType K of K^o]) (fun i => (i == 1%N)%:R) cell after != 0
  else False.
Proof. by vm_compute. Qed.
