(* The first-fit strategy of the V1 floor planner. *)
Set Warnings "-notation-overridden,-ambiguous-paths".
From mathcomp Require Import all_ssreflect all_algebra.
From Verif Require Import Util M_Env M_Circuit M_Selectors L_Selectors M_Value M_Assigned M_Region M_Layout M_Assign M_Floor
  S_Floor L_Floor.
Set Implicit Arguments.
Unset Strict Implicit.

(* ---------------------------------------------------------------- one column *)

Definition alloc_ok (a : allocations) : bool :=
  sorted (fun x y : nat * nat => x.1 + x.2 <= y.1) a && all (fun x => 0 < x.2) a.
(* the rows row .. row+len-1 are free *)
Definition fits (a : allocations) (row len : nat) : bool :=
  all (fun x : nat * nat => (row + len <= x.1) || (x.1 + x.2 <= row)) a.

Definition before := fun x y : nat * nat => x.1 + x.2 <= y.1.
Lemma before_trans : transitive before.
Proof. by move=> y x z h1 h2; apply: leq_trans h1 (leq_trans (leq_addr _ _) h2). Qed.
Lemma alloc_okE x a : alloc_ok (x :: a) = [&& 0 < x.2, all (fun y => x.1 + x.2 <= y.1) a & alloc_ok a].
Proof.
rewrite /alloc_ok -!/before (sorted_pairwise before_trans) pairwise_cons -(sorted_pairwise before_trans) /=.
by rewrite andbCA -andbA.
Qed.

(* rows r .. r+len-1 lie in the space sp *)
Definition in_space (sp : nat * option nat) (r len : nat) : bool :=
  (sp.1 <= r) && (if sp.2 is Some e then r + len <= e else true).

Lemma free_intervals_sound a row b sp : alloc_ok a -> sp \in free_intervals a row b ->
  [/\ row <= sp.1, if sp.2 is Some e then sp.1 < e else true,
    if b is Some e then (if sp.2 is Some e' then e' <= e else false) else true &
    forall r len, in_space sp r len -> 0 < len -> fits a r len].
Proof.
elim: a row => [|x a IH] row /=.
  by move=> _; case: b => [e|]; [case: ifP => // h|]; rewrite inE => /eqP -> /=; split.
rewrite alloc_okE => /and3P [hx ha hok].
case hb: (if b is Some e then e <= x.1 else false).
  move=> /(IH _ hok) [h1 h2 h3 h4]; split=> // r len hi hl; rewrite /= h4 // andbT.
  case: b hb h3 {IH} => // e he; case: sp hi {h1 h2 h4} => s [e'|] //= /andP [_ k] k2.
  by rewrite (leq_trans k (leq_trans k2 he)).
rewrite mem_cat => /orP [|/(IH _ hok) [h1 h2 h3 h4]]; last first.
  split=> //; first by apply: leq_trans h1; rewrite leq_maxl.
  move=> r len hi hl; rewrite /= h4 // andbT; apply/orP; right.
  by case/andP: hi => hi _; apply: leq_trans hi; apply: leq_trans h1; rewrite leq_maxr.
case: ifP => // hr; rewrite inE => /eqP -> /=; split=> //.
  by case: b hb {IH} => // e; rewrite leqNgt => /negbFE/ltnW.
move=> r len /andP [k1 k2] hl /=; rewrite k2 /=; apply/allP => y /(allP ha) hy.
by rewrite (leq_trans k2) //; apply: leq_trans hy; rewrite leq_addr.
Qed.

Lemma free_intervals_complete a row b r len : alloc_ok a -> 0 < len -> row <= r -> fits a r len ->
  (if b is Some e then r + len <= e else true) ->
  exists2 sp, sp \in free_intervals a row b & in_space sp r len.
Proof.
move=> hok hl; elim: a row hok => [|x a IH] row /=.
  move=> _ hr _; case: b => [e|] he; last by exists (row, None); rewrite ?inE // /in_space hr.
  have -> : row < e by apply: leq_ltn_trans hr _; apply: leq_trans he; rewrite -addn1 leq_add2l.
  by exists (row, Some e); rewrite ?inE // /in_space hr.
rewrite alloc_okE => /and3P [hx ha hok] hr /andP [hfx hf] hb.
case: ifP => hb'; first exact: IH.
case/orP: hfx => h.
  exists (row, Some x.1); last by rewrite /in_space hr.
  rewrite mem_cat ifT ?inE ?eqxx //; apply: leq_ltn_trans hr _; apply: leq_trans h; by rewrite -addn1 leq_add2l.
have hm : maxn row (x.1 + x.2) <= r by rewrite geq_max hr.
have [sp hs hi] := IH _ hok hm hf hb.
by exists sp => //; rewrite mem_cat hs orbT.
Qed.

Lemma free_intervals_sorted a row b : alloc_ok a ->
  pairwise (fun sp sp' : nat * option nat => if sp.2 is Some e then e <= sp'.1 else false) (free_intervals a row b).
Proof.
elim: a row => [|x a IH] row /=; first by move=> _; case: ifP.
rewrite alloc_okE => /and3P [hx ha hok]; case: ifP => _; first exact: IH.
rewrite pairwise_cat IH // andbT; apply/andP; split; last by case: ifP.
apply/allrelP => sp sp'; case: ifP => // hr; rewrite inE => /eqP -> hs /=.
have [h _ _ _] := free_intervals_sound hok hs; apply: leq_trans h.
by rewrite leq_max leq_addr orbT.
Qed.

Lemma mem_alloc_insert x a y : alloc_ok a -> fits a x.1 x.2 -> 0 < x.2 ->
  (y \in alloc_insert x a) = (y == x) || (y \in a).
Proof.
elim: a => [|z a IH] /=; first by rewrite inE orbF.
rewrite alloc_okE => /and3P [hz ha hok] /andP [hfz hf] hx.
case: ltnP => h; first by rewrite !inE.
case: (x.1 =P z.1) => e; last by rewrite inE IH // inE orbCA.
by case/orP: hfz; rewrite e leqNgt -[X in X < _]addn0 ltn_add2l ?hz ?hx.
Qed.
Lemma alloc_insert_ok x a : alloc_ok a -> fits a x.1 x.2 -> 0 < x.2 -> alloc_ok (alloc_insert x a).
Proof.
elim: a => [|z a IH] /=; first by rewrite alloc_okE /= => _ _ ->.
rewrite alloc_okE => /and3P [hz ha hok] /andP [hfz hf] hx.
case: ltnP => h.
  have hxz : x.1 + x.2 <= z.1.
    by case/orP: hfz => // k; move: (leq_trans k (ltnW h)); rewrite leqNgt -[X in X < _]addn0 ltn_add2l hz.
  rewrite alloc_okE hx /= hxz alloc_okE hz ha hok /= andbT; apply/allP => y /(allP ha) hy.
  by apply: leq_trans hxz _; apply: leq_trans hy; rewrite leq_addr.
case: (x.1 =P z.1) => e.
  by rewrite alloc_okE hz ha.
rewrite alloc_okE hz IH // andbT /=; apply/allP => y; rewrite mem_alloc_insert // => /orP [/eqP ->|/(allP ha) //].
case/orP: hfz => // k; move: (leq_trans k h); rewrite leqNgt -[X in X < _]addn0 ltn_add2l hx //.
Qed.

(* ---------------------------------------------------------------- one region *)

Notation allocs := (region_column -> allocations).

Fixpoint try_spaces (rec : nat -> option nat -> res (option (nat * allocs)))
    (len : nat) (slack bound : option nat) (c : region_column) (spaces : seq (nat * option nat)) :=
  if spaces is sp :: spaces' then
    let s_slack := omap (fun e => e - sp.1 - len) sp.2 in
    if (if slack is Some sl then if s_slack is Some ss then ~~ (ss <= sl) else false else false) then Panic
    else if (if sp.2 is Some e then sp.1 + len <= e else true) then
      rbind (rec sp.1 s_slack) (fun o =>
        if o is Some (row, m') then
          if (if bound is Some e then ~~ (row + len <= e) else false) then Panic
          else Ok (Some (row, ins m' c (alloc_insert (row, len) (m' c))))
        else try_spaces rec len slack bound c spaces')
    else try_spaces rec len slack bound c spaces'
  else Ok None.

Lemma first_fit_cons m c rest len start slack :
  first_fit_region m (c :: rest) len start slack =
  try_spaces (first_fit_region m rest len) len slack (omap (fun s => start + len + s) slack) c
    (free_intervals (m c) start (omap (fun s => start + len + s) slack)).
Proof. by rewrite /=; elim: (free_intervals _ _ _) => //= sp spaces ->. Qed.

(* a row from [start], at most [slack] rows further down, where the region fits in all columns *)
Definition feasible (m : allocs) (columns : seq region_column) (len start : nat) (slack : option nat) (row : nat) : Prop :=
  [/\ start <= row, if slack is Some s then row <= start + s else true &
    forall c, c \in columns -> fits (m c) row len].

Definition fit_result (m : allocs) (columns : seq region_column) (len : nat) (P : nat -> Prop)
    (o : option (nat * allocs)) : Prop :=
  match o with
  | Some (row, m') => [/\ P row, forall row', P row' -> row <= row' &
      forall c, m' c = if c \in columns then alloc_insert (row, len) (m c) else m c]
  | None => forall row, ~ P row
  end.

Lemma first_fitP m columns len start slack : (forall c, alloc_ok (m c)) -> uniq columns -> 0 < len ->
  exists2 o, first_fit_region m columns len start slack = Ok o &
    fit_result m columns len (feasible m columns len start slack) o.
Proof.
move=> hok; elim: columns start slack => [|c rest IH] start slack.
  move=> _ hl; exists (Some (start, m)) => //=; split=> //; first by split=> //; case: slack => // s; rewrite leq_addr.
  by move=> row' [].
rewrite /= -/(first_fit_region m) => /andP [hc hu] hl.
pose bound := omap (fun s => start + len + s) slack.
change (exists2 o, first_fit_region m (c :: rest) len start slack = Ok o &
  fit_result m (c :: rest) len (feasible m (c :: rest) len start slack) o).
rewrite first_fit_cons -/bound.
have S sp : sp \in free_intervals (m c) start bound -> _ := free_intervals_sound (hok c).
have P := free_intervals_sorted start bound (hok c).
(* the search among the spaces *)
pose Q (spaces : seq (nat * option nat)) row :=
  exists2 sp, sp \in spaces & in_space sp row len /\ forall c', c' \in rest -> fits (m c') row len.
have H spaces : {subset spaces <= free_intervals (m c) start bound} ->
    pairwise (fun sp sp' : nat * option nat => if sp.2 is Some e then e <= sp'.1 else false) spaces ->
    exists2 o, try_spaces (first_fit_region m rest len) len slack bound c spaces = Ok o &
      fit_result m (c :: rest) len (Q spaces) o.
  elim: spaces => [|sp spaces IHs] hs /=.
    by move=> _; exists None => //= row [].
  move=> /andP [hp1 hp2].
  have [k1 k2 k3 k4] := S sp (hs sp (mem_head _ _)).
  have hs' : {subset spaces <= free_intervals (m c) start bound}.
    by move=> x hx; apply: hs; rewrite inE hx orbT.
  have [o' ho' ho2] := IHs hs' hp2.
  rewrite ifN; last first.
    case: slack @bound {S P Q hs IHs hs' o' ho' ho2 hp1 hp2} k3 => // sl /=; case: sp k1 {k2 k4} => s [e|] //= k1 k3.
    by rewrite negbK -subnDA leq_subLR (leq_trans k3) // !leq_add2r.
  case: ifP => room; last first.
    exists o' => //; case: o' ho2 {ho'} => [[row m']|] /=.
      move=> [[sp' h1 h2] h3 h4]; split=> //; first by exists sp'; rewrite ?inE ?h1 ?orbT.
      move=> row' [sp2]; rewrite inE => /orP [/eqP ->|h5 h6]; last by apply: h3; exists sp2.
      case: (sp) room => s [e|] //= room [/andP [/= g1 g2] _].
      by move: (leq_trans (leq_add g1 (leqnn len)) g2); rewrite room.
    move=> h row [sp']; rewrite inE => /orP [/eqP ->|h5 h6]; last by apply: (h row); exists sp'.
    case: (sp) room => s [e|] //= room [/andP [/= g1 g2] _].
    by move: (leq_trans (leq_add g1 (leqnn len)) g2); rewrite room.
  have [o ho ho3] := IH sp.1 (omap (fun e => e - sp.1 - len) sp.2) hu hl; rewrite ho /=.
  have eqf row : feasible m rest len sp.1 (omap (fun e => e - sp.1 - len) sp.2) row <->
      in_space sp row len /\ forall c', c' \in rest -> fits (m c') row len.
    rewrite /feasible /in_space; case: (sp) room => s [e|] /= room.
      have -> : (row <= s + (e - s - len)) = (row + len <= e).
        by rewrite -subnDA addnBA // subnDA addKn leq_subRL 1?addnC // (leq_trans _ room) // leq_addl.
      by split=> [[h1 h2 h3]|[/andP [h1 h2] h3]]; [rewrite h1 h2|split].
    by split=> [[h1 h2 h3]|[/andP [h1 h2] h3]]; [rewrite h1|split].
  case: o ho ho3 => [[row m']|] ho /=; last first.
    move=> hn; exists o' => //; case: o' ho2 {ho'} => [[row m']|] /=.
      move=> [[sp' h1 h2] h3 h4]; split=> //; first by exists sp'; rewrite ?inE ?h1 ?orbT.
      move=> row' [sp2]; rewrite inE => /orP [/eqP -> /eqf/hn //|h5 h6]; by apply: h3; exists sp2.
    by move=> h row [sp']; rewrite inE => /orP [/eqP -> /eqf/hn //|h5 h6]; apply: (h row); exists sp'.
  move=> [/eqf [g1 g2] hmin hm].
  rewrite ifN; last first.
    case: (bound) k3 => // e; case: (sp) g1 => s [e'|] //= /andP [/= _ g1] k3.
    by rewrite negbK (leq_trans g1 k3).
  eexists; first by []; split=> /=; first by exists sp; rewrite ?mem_head.
    move=> row' [sp2]; rewrite inE => /orP [/eqP -> /eqf /hmin //|h5 [/andP [h6 _] _]].
    move/(allP hp1): h5; case: (sp) g1 => s [e|] //= /andP [/= _ g1] h7.
    by apply: leq_trans (leq_trans (leq_addr _ _) g1) (leq_trans h7 h6).
  move=> c'; rewrite /ins inE; case: (c' =P c) => [->|_] /=; last by rewrite hm.
  by rewrite hm (negbTE hc).
have [o h1 h2] := H _ (fun x h => h) P; exists o => //.
have eqf row : feasible m (c :: rest) len start slack row <-> Q (free_intervals (m c) start bound) row.
  split.
    move=> [f1 f2 f3].
    have hb : is_true (if bound is Some e then row + len <= e else true).
      by rewrite /bound; case: (slack) f2 => //= s; rewrite -addnA (addnC len) addnA leq_add2r.
    have [sp k1 k2] := free_intervals_complete (hok c) hl f1 (f3 c (mem_head _ _)) hb.
    by exists sp => //; split=> // c' hc'; apply: f3; rewrite inE hc' orbT.
  move=> [sp k1 [k2 k3]]; have [g1 g2 g3 g4] := S sp k1; split.
  - by case/andP: k2 => k2 _; apply: leq_trans g1 k2.
  - case: (slack) @bound g3 {S P Q H h1 h2 k1} => // s /=; case: (sp) k2 => s0 [e|] //= /andP [_ /= k2] g3.
    by rewrite -(leq_add2r len) (leq_trans k2) // (leq_trans g3) // addnAC.
  - move=> c'; rewrite inE => /orP [/eqP ->|/k3 //]; exact: g4.
case: o h2 {h1} => [[row m']|] /=; last by move=> h row /eqf; apply: h.
by move=> [f1 f2 f3]; split=> //; [apply/eqf|move=> row' /eqf /f2].
Qed.

(* ---------------------------------------------------------------- all regions *)

(* the allocations are exactly the columns of the shapes placed so far *)
Definition placed (m : allocs) (done : seq (nat * shape)) : Prop :=
  (forall c, alloc_ok (m c)) /\
  (forall c x, x \in m c <-> exists2 d, d \in done & c \in sh_columns d.2 /\ x = (d.1, sh_rows d.2)).

Lemma fits_collide m done row s : placed m done -> all (fun d => shape_ok d.2) done -> shape_ok s ->
  (forall c, c \in sh_columns s -> fits (m c) row (sh_rows s)) <->
  (forall d, d \in done -> ~ collide (row, s) d).
Proof.
move=> [_ hm] hd /andP [_ hs].
have pos t c : shape_ok t -> c \in sh_columns t -> 0 < sh_rows t.
  by move=> /andP [_ /orP [//|/nilP ->]].
split.
  move=> h d hin [c [x [/= c1 c2 r1 r2]]].
  have /(allP (h c c1)) : (d.1, sh_rows d.2) \in m c by apply/hm; exists d.
  case/orP => /= k; move: r1 r2 => /andP [r1 r2] /andP [r3 r4].
    by move: (leq_trans r2 (leq_trans k r3)); rewrite ltnn.
  by move: (leq_trans r4 (leq_trans k r1)); rewrite ltnn.
move=> h c hc; apply/allP => x /hm [d hin [c2 ->]] /=.
case: leqP => //= k1; case: leqP => // k2.
case: (h d hin); exists c, (maxn row d.1); split=> //=.
  rewrite leq_maxl gtn_max k1 andbT -[X in X < _]addn0 ltn_add2l.
  by case/orP: hs => // /nilP hs; rewrite hs in hc.
rewrite leq_maxr gtn_max k2 -[X in X < _]addn0 ltn_add2l.
by move/(allP hd): hin => /pos /(_ c2).
Qed.

Lemma fits_big a : exists b, forall row len, b <= row -> fits a row len.
Proof.
elim: a => [|x a [b IH]]; first by exists 0.
exists (maxn b (x.1 + x.2)) => row len; rewrite geq_max => /andP [h1 h2] /=.
by rewrite h2 orbT IH.
Qed.
Lemma fits_big_all (m : allocs) (columns : seq region_column) : exists row, forall c len, c \in columns -> fits (m c) row len.
Proof.
suff [b h] : exists b, forall row len c, c \in columns -> b <= row -> fits (m c) row len.
  by exists b => c len hc; apply: h.
elim: columns => [|c l [b IH]]; first by exists 0.
have [b' h] := fits_big (m c); exists (maxn b b') => row len c'; rewrite inE geq_max => /orP [/eqP ->|hc] /andP [h1 h2].
  exact: h.
exact: IH.
Qed.

Definition forget_index (out : seq (nat * (nat * shape))) : seq (nat * shape) := [seq (x.1, x.2.2) | x <- out].

(* every region is at the least row where it collides with none of the ones placed before it *)
Definition greedy (done out : seq (nat * shape)) : Prop :=
  forall k x, k < size out ->
    let d := nth x out k in let prev := done ++ take k out in
    (forall y, y \in prev -> ~ collide d y) /\
    (forall row, (forall y, y \in prev -> ~ collide (row, d.2) y) -> d.1 <= row).

Lemma slot_inP m done regions : placed m done -> all (fun d => shape_ok d.2) done ->
  all (fun s : nat * shape => shape_ok s.2) regions ->
  exists out m', [/\ slot_in m regions = Ok (out, m'), unzip2 out = regions,
    placed m' (done ++ forget_index out) & greedy done (forget_index out)].
Proof.
elim: regions m done => [|s regions IH] m done hm hd.
  by move=> _; exists [::], m; split=> //=; rewrite ?cats0 //.
move=> /= /andP [hs hr]; have [hok hmem] := hm.
have [row [m1 [h1 h2 h3 h4]]] : exists row m1,
    [/\ first_fit_region m (sort rc_leq (sh_columns s.2)) (sh_rows s.2) 0 None = Ok (Some (row, m1)),
      forall c, c \in sh_columns s.2 -> fits (m c) row (sh_rows s.2),
      forall row', (forall c, c \in sh_columns s.2 -> fits (m c) row' (sh_rows s.2)) -> row <= row' &
      forall c, m1 c = if c \in sh_columns s.2 then alloc_insert (row, sh_rows s.2) (m c) else m c].
  have /andP [hu /orP [hl|/nilP hn]] := hs; last first.
    by rewrite hn; exists 0, m; split.
  have [|[[row m1]|] h] := first_fitP 0 None hok _ hl (columns := sort rc_leq (sh_columns s.2)).
  - by rewrite sort_uniq.
  - move=> /= [[_ _ f] g e]; exists row, m1; split=> //.
    + by move=> c hc; apply: f; rewrite mem_sort.
    + by move=> row' h'; apply: g; split=> // c; rewrite mem_sort; apply: h'.
    + by move=> c; rewrite e mem_sort.
  - have [row hrow] := fits_big_all m (sh_columns s.2).
    by move=> /(_ row) []; split=> // c; rewrite mem_sort; apply: hrow.
have hpos c : c \in sh_columns s.2 -> 0 < sh_rows s.2.
  by move: hs => /andP [_ /orP [//|/nilP ->]].
have hm1 : placed m1 (rcons done (row, s.2)).
  split=> [c|c x]; rewrite h4; case: ifP => hc.
  - by apply: alloc_insert_ok => //=; [apply: h2|apply: hpos hc].
  - exact: hok.
  - rewrite mem_alloc_insert //=; [|exact: h2|exact: hpos hc].
    split.
      case/orP => [/eqP ->|/hmem [d h5 h6]]; first by exists (row, s.2); rewrite ?mem_rcons ?mem_head.
      by exists d; rewrite // mem_rcons inE h5 orbT.
    move=> [d]; rewrite mem_rcons inE => /orP [/eqP -> [_ ->]|h5 h6]; first by rewrite eqxx.
    by apply/orP; right; apply/hmem; exists d.
  - split=> [/hmem [d h5 h6]|]; first by exists d; rewrite // mem_rcons inE h5 orbT.
    move=> [d]; rewrite mem_rcons inE => /orP [/eqP -> [/= h6 _]|h5 h6]; first by rewrite h6 in hc.
    by apply/hmem; exists d.
have hd1 : all (fun d => shape_ok d.2) (rcons done (row, s.2)) by rewrite all_rcons /= hs.
have [out [m' [k1 k2 k3 k4]]] := IH m1 _ hm1 hd1 hr.
exists ((row, s) :: out), m'; split=> //=.
- by rewrite h1 /= k1.
- by rewrite k2.
- by rewrite -cat_rcons.
case=> [|k] x /= hk.
  rewrite cats0; have e r := fits_collide r hm hd hs; split; first by apply/(e row).
  by move=> row' /(e row'); apply: h3.
by have := k4 k x hk; rewrite cat_rcons.
Qed.

Lemma placed_nil : placed (fun _ => [::]) [::].
Proof. by split=> // c x; split=> // -[]. Qed.

Lemma collide_sym x y : collide x y -> collide y x.
Proof. by move=> [c [row [h1 h2 h3 h4]]]; exists c, row. Qed.

Lemma slot_in_biggestP order shapes (zs := zip (iota 0 (size shapes)) shapes) (queue := rev (order zs)) :
  perm_eq (order zs) zs -> all shape_ok shapes ->
  exists regions m, [/\ slot_in_biggest_advice_first order shapes = Ok (regions, m),
    size regions = size shapes,
    placed m (zip regions shapes),
    unzip1 (zip regions shapes) = regions &
    greedy [::] [seq (nth 0 regions q.1, q.2) | q <- queue]].
Proof.
move=> hp hok.
have hz : all (fun s : nat * shape => shape_ok s.2) queue.
  rewrite all_rev (perm_all _ hp) /zs; apply/allP => x hx.
  apply: (allP hok); have -> : shapes = unzip2 zs by rewrite unzip2_zip // size_iota.
  exact: map_f.
have [out [m [h1 h2 h3 h4]]] := slot_inP placed_nil isT hz.
set le := fun x y : nat * (nat * shape) => x.2.1 <= y.2.1.
have pq : perm_eq queue zs by rewrite /queue perm_rev.
have e2 : unzip2 (sort le out) = zs.
  apply: (@sorted_eq_in _ (fun x y : nat * shape => x.1 <= y.1)).
  - by move=> x y z _ _ _; apply: leq_trans.
  - move=> x y hx hy /anti_leq e.
    have hin z : z \in unzip2 (sort le out) -> z \in zs.
      by rewrite -(perm_mem pq) -h2 => hz'; rewrite (perm_mem (perm_map snd (permEl (perm_sort le out)))) in hz'.
    move: (hin _ hx) (hin _ hy) e => /(nthP x) [i hi <-] /(nthP x) [j hj <-].
    rewrite !(set_nth_default (0, Shape [::] 0)) //.
    move: hi hj; rewrite /zs !size_zip !size_iota minnn => hi hj.
    by rewrite !nth_zip ?size_iota //= !nth_iota // !add0n => ->.
  - by rewrite sorted_map; apply: sort_sorted => x y; apply: leq_total.
  - have := iota_sorted 0 (size shapes).
    by rewrite -{1}(@unzip1_zip _ _ (iota 0 (size shapes)) shapes) ?size_iota // /unzip1 sorted_map.
  - by apply: perm_trans (perm_map snd (permEl (perm_sort le out))) _; rewrite -/(unzip2 out) h2.
pose regions := [seq x.1 | x <- sort le out].
have sz : size regions = size shapes.
  by rewrite /regions !size_map -(size_map snd) -/(unzip2 _) e2 size_zip size_iota minnn.
have eo : zip regions shapes = forget_index (sort le out).
  have -> : shapes = [seq x.2.2 | x <- sort le out].
    transitivity (unzip2 zs); first by rewrite unzip2_zip // size_iota.
    by rewrite -e2 /unzip2 -map_comp.
  by rewrite /regions zip_map.
have look x : x \in out -> nth 0 regions x.2.1 = x.1.
  rewrite -(mem_sort le) => /(nthP x) [i hi e].
  have hi' : i < size shapes by rewrite -sz size_map.
  have : nth (0, Shape [::] 0) (unzip2 (sort le out)) i = x.2.
    by rewrite (nth_map x) // e.
  rewrite e2 /zs nth_zip ?size_iota // nth_iota // add0n => <-.
  by rewrite /= /regions (nth_map x) // e.
exists regions, m; split=> //.
- by rewrite /slot_in_biggest_advice_first -/zs -/queue h1 /=.
- rewrite eo; have [k1 k2] := h3; split=> // c x; rewrite k2 /=.
  have pf : perm_eq (forget_index (sort le out)) (forget_index out) by apply: perm_map; rewrite perm_sort.
  by split=> -[d hd hd2]; exists d => //; rewrite (perm_mem pf) in hd *.
- by rewrite unzip1_zip // sz.
have -> : [seq (nth 0 regions q.1, q.2) | q <- queue] = forget_index out; last exact: h4.
by rewrite -h2 /unzip2 -map_comp; apply/eq_in_map => x hx /=; rewrite look.
Qed.

Lemma greedy_apart out k k' x : greedy [::] out -> k < size out -> k' < size out -> k != k' ->
  ~ collide (nth x out k) (nth x out k').
Proof.
move=> h; wlog hlt : k k' / k' < k.
  move=> H hk hk' ne; move: (ne); rewrite neq_ltn => /orP [] hl; last exact: H.
  by move=> /collide_sym; apply: H => //; rewrite eq_sym.
move=> hk hk' _; have [h1 _] := h k x hk; apply: h1; rewrite cat0s.
by rewrite -(nth_take x hlt) mem_nth // size_take hk.
Qed.

Lemma apart_rows x y c : ~ collide x y -> c \in sh_columns x.2 -> c \in sh_columns y.2 ->
  shape_ok x.2 -> shape_ok y.2 -> x.1 + sh_rows x.2 <= y.1 \/ y.1 + sh_rows y.2 <= x.1.
Proof.
move=> h cx cy.
have pos t : c \in sh_columns t -> shape_ok t -> 0 < sh_rows t by move=> hc /andP [_ /orP [//|/nilP e]]; rewrite e in hc.
move=> /(pos _ cx) px /(pos _ cy) py.
case: (leqP (x.1 + sh_rows x.2) y.1) => h1; first by left.
case: (leqP (y.1 + sh_rows y.2) x.1) => h2; first by right.
case: h; exists c, (maxn x.1 y.1); split=> //; rewrite ?leq_maxl ?leq_maxr gtn_max ?h1 ?h2 ?andbT /=.
  by rewrite -[X in X < _]addn0 ltn_add2l.
by rewrite -[X in X < _]addn0 ltn_add2l.
Qed.

Lemma shape_of_ok (F : fieldType) (ops : seq (rop F)) : shape_ok (shape_of ops).
Proof.
rewrite /shape_ok /shape_of /= undup_uniq /=; case: (pmap _ _) => //= u l.
by rewrite leq_max.
Qed.

(* ---------------------------------------------------------------- constants *)

Definition rows_of (spaces : seq (nat * option nat)) : seq nat :=
  flatten [seq iota e.1 (odflt 0 e.2 - e.1) | e <- spaces].
Lemma rows_of_sorted spaces :
  pairwise (fun sp sp' : nat * option nat => if sp.2 is Some e then e <= sp'.1 else false) spaces ->
  sorted ltn (rows_of spaces).
Proof.
rewrite (sorted_pairwise ltn_trans); elim: spaces => //= sp spaces IH /andP [h1 h2].
rewrite /rows_of /= pairwise_cat -/(rows_of spaces) IH // andbT; apply/andP; split; last first.
  by rewrite -(sorted_pairwise ltn_trans) iota_ltn_sorted.
apply/allrelP => i j; rewrite mem_iota => /andP [i1 i2] /flattenP [l /mapP [sp' h3 ->]].
rewrite mem_iota => /andP [j1 _]; move/(allP h1): h3.
case: sp i1 i2 {h1} => s [e|] //= i1 i2 k.
apply: leq_trans j1; apply: leq_trans k; move: i2; case: (leqP s e) => hs; first by rewrite subnKC.
by move: (ltnW hs); rewrite -subn_eq0 => /eqP ->; rewrite addn0 ltnNge i1.
Qed.

Lemma constant_positionsP constants (m : allocs) n : (forall c, alloc_ok (m c)) -> uniq constants ->
  uniq (constant_positions constants m n) /\
  (forall x, x \in constant_positions constants m n ->
    x.1 \in constants /\ fits (m (RCColumn (Fixed, x.1))) x.2 1).
Proof.
move=> hok; pose one c := [seq (c, i) | i <- rows_of (free_intervals (m (RCColumn (Fixed, c))) 0 (Some n))].
have -> : constant_positions constants m n = flatten [seq one c | c <- constants].
  rewrite /constant_positions; congr flatten; apply: eq_map => c.
  by rewrite /one /rows_of map_flatten -map_comp.
have h1 c : uniq (one c).
  rewrite map_inj_uniq; last by move=> i j [].
  exact: (@sorted_uniq _ ltn ltn_trans ltnn _ (rows_of_sorted (free_intervals_sorted 0 _ (hok _)))).
move=> hu; split.
  elim: constants hu => //= c cs IH /andP [hc hu]; rewrite cat_uniq h1 IH //= andbT.
  apply/hasPn => x /flattenP [l /mapP [c' hc' ->]] /mapP [i _ ->].
  by apply/negP => /mapP [j _ [e _]]; move: hc; rewrite -e hc'.
move=> x /flattenP [l /mapP [c hc ->]] /mapP [i /flattenP [l' /mapP [sp hsp ->]]].
rewrite mem_iota => /andP [i1 i2] -> /=; split=> //.
have [_ _ h3 h4] := free_intervals_sound (hok _) hsp; apply: h4 => //.
case: sp h3 i1 i2 {hsp} => s [e|] //= _ i1; rewrite /in_space /= i1 addn1 /=.
case: (leqP s e) => hs; first by rewrite subnKC.
by move: (ltnW hs); rewrite -subn_eq0 => /eqP ->; rewrite addn0 ltnNge i1.
Qed.

(* ---------------------------------------------------------------- the assigning pass *)
Section Pass.
Variables (F : fieldType) (inst : nat -> nat -> value F).
Local Notation performed := (performed inst).

Lemma v1_layoutP A regions r tables cs (p : lprog F A) k tr (es := levents inst r p) :
  performed (v1_layout regions r tables cs p k) = Ok tr ->
  exists a r' tr2, [/\ lreturns inst r p = Ok (a, r'), performed (k a (cs ++ all_wanted es)) = Ok tr2 &
    forall place, starts_at place regions -> tr = flatten [seq event_calls place e | e <- es] ++ tr2].
Proof.
rewrite {}/es; elim: p r tables cs tr => //= [a|C body q IH|ts q IH|c col row q IH] r tables cs tr.
- by move=> h; exists a, r, tr; rewrite cats0.
- move=> /performed_op [t1 /place_regionP [d [t2 [-> h2 ht]]] ->].
  move: h2 => /performed_op [t3 /IH [a [r' [tr2 [k1 k2 k3]]]] e3].
  exists a, r', tr2; split=> //; first by rewrite /all_wanted /= catA.
  by move=> place hp; rewrite (ht _ hp) e3 (k3 _ hp) /= -!catA /=.
- move=> h; have [t2 [/IH [a [r' [tr2 [k1 k2 k3]]]] -> _ _]] := @place_tableP _ inst _ ts (fun tables =>
    v1_layout regions r tables cs q k) tr h.
  by exists a, r', tr2; split=> // place hp; rewrite (k3 _ hp) /= !catA.
- move=> /with_rowP [s hs] /performed_op [t2 /IH [a [r' [tr2 [k1 k2 k3]]]] ->].
  by exists a, r', tr2; split=> // place hp; rewrite (k3 _ hp) /= /cell_row (hp _ _ hs).
Qed.

Lemma v1_constantsP regions pos cs tr : size cs <= size pos ->
  performed (v1_constants regions (zip pos cs)) = Ok tr ->
  forall place cpos i, starts_at place regions -> (forall j, j < size cs -> cpos (i + j) = nth (0, 0) pos j) ->
    tr = constant_calls place cpos i cs.
Proof.
elim: cs pos tr => [|x cs IH] [|q pos] tr //= hs; try by move=> [<-].
move=> /performed_op [t /with_rowP [st hst] /performed_op [t2 h2 ->] ->] place cpos i hp hc.
have := hc 0 erefl; rewrite addn0 /= => ->; rewrite /cell_row (hp _ _ hst).
congr (_ :: _ :: _); apply: (IH pos) => // j hj.
by rewrite addSnnS (hc j.+1).
Qed.

Lemma lregions_nth A (p : lprog F A) r0 r ops : List.In (r, ops) (lregions inst r0 p) ->
  exists2 i, i < size (lregions inst r0 p) & r = r0 + i /\ forall x, nth x (lregions inst r0 p) i = (r, ops).
Proof.
elim: p r0 => //= C body q IH r0 [[<- <-]|]; first by exists 0; rewrite ?addn0.
case: (returns inst (body r0)) => // d /IH [i hi [-> h]].
by exists i.+1; rewrite // addnS.
Qed.
End Pass.
