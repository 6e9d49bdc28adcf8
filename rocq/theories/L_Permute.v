(* permute_expression_pair sorts the inputs and lines the table up with them. *)
Set Warnings "-notation-overridden,-ambiguous-paths".
From mathcomp Require Import all_ssreflect all_algebra.
From Verif Require Import Util M_Env M_Lookup.
Import GRing.Theory.
Set Implicit Arguments.
Unset Strict Implicit.
Local Open Scope ring_scope.

Lemma index_iota_nth i u : (i < u)%N -> index i (iota 0 u) = i.
Proof. move=> h; have e : nth 0%N (iota 0 u) i = i by rewrite nth_iota.
by rewrite -{1}e index_uniq ?size_iota ?iota_uniq. Qed.

Section Permute.
Variables (F : fieldType) (le : rel F).
Hypothesis le_total : total le.
Hypothesis le_trans : transitive le.
Hypothesis le_anti : antisymmetric le.
Implicit Types (m : seq (F * nat)) (k a : F) (l t : seq F).

Definition keys m : seq F := [seq e.1 | e <- m].
Definition expand m : seq F := flatten [seq nseq e.2 e.1 | e <- m].
Definition lt : rel F := fun x y => le x y && (x != y).

Lemma lt_trans : transitive lt.
Proof.
move=> y x z /andP [h1 n1] /andP [h2 n2]; rewrite /lt (le_trans h1 h2) /=.
by apply: contraNneq n1 => e; apply/eqP; apply: le_anti; rewrite h1 e h2.
Qed.
Lemma lt_irr : irreflexive lt.
Proof. by move=> x; rewrite /lt eqxx andbF. Qed.

Lemma mem_expand m k : k \in expand m -> k \in keys m.
Proof.
elim: m => [//|[k' c] m IH]; rewrite /expand /= mem_cat inE => /orP [|/IH ->]; last by rewrite orbT.
by rewrite mem_nseq => /andP [_ ->].
Qed.

Lemma bt_incr_sorted k m : sorted lt (keys m) -> sorted lt (keys (bt_incr le k m)).
Proof.
suff H b : path lt b (keys m) -> lt b k -> path lt b (keys (bt_incr le k m)).
  case: m H => [//|[k' c] m] H /= hp; case: eqP => [e|/eqP ne] //=.
  case: ifP => [hle|/negbT hle] /=; first by rewrite /lt hle ne.
  suff: path lt k' (keys (bt_incr le k m)) by [].
  have lk : lt k' k.
    by rewrite /lt eq_sym ne andbT; have := le_total k' k; rewrite (negbTE hle) orbF.
  elim: m k' hp lk {H hle ne} => [|[k2 c2] m IH] b /=; first by rewrite andbT.
  move=> /andP [h1 h2] hb; case: eqP => [e|/eqP ne] /=; first by rewrite h1.
  case: ifP => [hle|/negbT hle] /=; first by rewrite hb h2 /lt hle ne.
  rewrite h1 /=; apply: IH => //; rewrite /lt eq_sym ne andbT.
  by have := le_total k2 k; rewrite (negbTE hle) orbF.
elim: m b => [|[k2 c2] m IH] b /=; first by rewrite andbT.
move=> /andP [h1 h2] hb; case: eqP => [e|/eqP ne] /=; first by rewrite h1.
case: ifP => [hle|/negbT hle] /=; first by rewrite hb h2 /lt hle ne.
rewrite h1 /=; apply: IH => //; rewrite /lt eq_sym ne andbT.
by have := le_total k2 k; rewrite (negbTE hle) orbF.
Qed.

Lemma bt_incr_expand k m : perm_eq (expand (bt_incr le k m)) (k :: expand m).
Proof.
elim: m => [//|[k' c] m IH] /=; case: eqP => [->//|ne]; case: ifP => // _.
rewrite /expand /= -!/(expand _).
apply: perm_trans (_ : perm_eq (nseq c k' ++ k :: expand m) _); first by rewrite perm_cat2l.
by rewrite -cat1s perm_catCA.
Qed.
Lemma bt_incr_pos k m : all (fun e => 0 < e.2)%N m -> all (fun e => 0 < e.2)%N (bt_incr le k m).
Proof.
elim: m => [//|[k' c] m IH] /= /andP [h1 h2]; case: eqP => [_|ne] /=; first by rewrite h2.
by case: ifP => _ /=; rewrite h1 ?h2 ?IH.
Qed.

Lemma keys_expand m x : all (fun e => 0 < e.2)%N m -> x \in keys m -> x \in expand m.
Proof.
elim: m => [//|[k c] m IH] /= /andP [hc h]; rewrite /expand /= mem_cat inE mem_nseq hc => /orP [->//|h'].
by rewrite -/(expand _) IH ?orbT.
Qed.
Lemma perm_maskC (A : eqType) (b : seq bool) (l : seq A) : size b = size l ->
  perm_eq (mask (map negb b) l ++ mask b l) l.
Proof.
elim: l b => [|x l IH] [|[] b] //= [] /IH h; last by rewrite perm_cons.
by apply: perm_trans (_ : perm_eq (x :: (mask (map negb b) l ++ mask b l)) _); rewrite ?perm_cons // -cat1s perm_catCA.
Qed.

(* the map of the table *)
Lemma bt_of_table t : let m := foldl (fun acc c => bt_incr le c acc) [::] t in
  [/\ uniq (keys m), perm_eq (expand m) t & keys m =i t].
Proof.
move=> m.
suff H : forall m0, sorted lt (keys m0) -> all (fun e => 0 < e.2)%N m0 ->
  let m := foldl (fun acc c => bt_incr le c acc) m0 t in
  [/\ sorted lt (keys m), all (fun e => 0 < e.2)%N m & perm_eq (expand m) (expand m0 ++ t)].
  have [h1 h2 h3] := H [::] isT isT; split=> //.
    exact: (sorted_uniq lt_trans lt_irr h1).
  move=> x; rewrite -(perm_mem h3) -/m; apply/idP/idP; last exact: mem_expand.
  exact: keys_expand.
rewrite {}/m; elim: t => [|c t IH] m0 h1 h2 /=; first by rewrite cats0.
have [||h3 h4 h5] := IH (bt_incr le c m0).
- exact: bt_incr_sorted.
- exact: bt_incr_pos.
split=> //; apply: perm_trans h5 _.
apply: perm_trans (_ : perm_eq ((c :: expand m0) ++ t) _); first by rewrite perm_cat2r bt_incr_expand.
by rewrite -[c :: t]cat1s perm_sym perm_catCA.
Qed.

Lemma bt_decr_ok k m : uniq (keys m) -> k \in expand m -> exists2 m',
  bt_decr k m = Ok m' & keys m' = keys m /\ perm_eq (k :: expand m') (expand m) /\
  forall a, a != k -> (a \in expand m') = (a \in expand m).
Proof.
move=> um hk.
suff [m' e [e1 e2]] : exists2 m', bt_decr k m = Ok m' & keys m' = keys m /\ perm_eq (k :: expand m') (expand m).
  exists m' => //; split=> //; split=> // a na.
  by rewrite -(perm_mem e2) inE (negbTE na).
elim: m um hk => [//|[k' c] m IH] /= /andP [nk um]; rewrite /expand /= mem_cat mem_nseq -/(expand m).
case: eqP nk => [<-|ne] nk /=.
  rewrite andbT => h; case: c h => [|c] /= h; last by exists ((k, c) :: m).
  by rewrite (mem_expand h) in nk.
rewrite andbF /= => /(IH um) [m' -> [e1 e2]]; exists ((k', c) :: m') => //=.
rewrite e1; split=> //; rewrite /expand /= -!/(expand _).
apply: perm_trans (_ : perm_eq (nseq c k' ++ k :: expand m') _); last by rewrite perm_cat2l.
by rewrite -cat1s perm_catCA.
Qed.
Lemma bt_decr_err k m : k \notin keys m -> bt_decr k m = Err EConstraintSystemFailure.
Proof.
elim: m => [//|[k' c] m IH] /=; rewrite inE negb_or => /andP [/negbTE -> /IH ->] //.
Qed.

(* which rows repeat the previous value *)
Fixpoint reps (prev : option F) (l : seq F) : seq bool :=
  if l is a :: l' then (prev == Some a) :: reps (Some a) l' else [::].
Definition firsts prev l := mask (map negb (reps prev l)) l.
Lemma size_reps prev l : size (reps prev l) = size l.
Proof. by elim: l prev => //= a l IH prev; rewrite IH. Qed.
Lemma mem_firsts prev l x : x \in l -> prev = Some x \/ x \in firsts prev l.
Proof.
elim: l prev => [//|a l IH] prev; rewrite inE /firsts /= => /orP [/eqP ->|/IH H].
  by case: eqP => [->|_] /=; [left|right; rewrite inE eqxx].
case: (H (Some a)) => [[<-]|h].
  by case: eqP => [->|_] /=; [left|right; rewrite inE eqxx].
by right; case: eqP => _ //=; rewrite inE h orbT.
Qed.
Lemma firsts_mem prev l x : x \in firsts prev l -> x \in l.
Proof. exact: mem_mask. Qed.
Lemma reps_nth l i : (i < size l)%N -> nth false (reps None l) i = (0 < i)%N && (l`_i.-1 == l`_i).
Proof.
case: l => [//|a l]; case: i => [//|i]; rewrite /= ltnS => hi.
elim: l a i hi => [//|b l IH] a [|i] //= hi; rewrite IH //; by case: i hi.
Qed.

Lemma permute_rows_ok prev row l m : sorted le l -> uniq (keys m) ->
  (forall p, prev = Some p -> all (le p) l) ->
  (forall x, x \in l -> prev <> Some x -> x \in keys m -> x \in expand m) ->
  let fs := firsts prev l in
  if all (fun x => x \in keys m) fs then
    exists m', permute_rows prev row l m =
      Ok (m', [seq if e.1 then 0 else e.2 | e <- zip (reps prev l) l],
          mask (reps prev l) (iota row (size l))) /\
      perm_eq (fs ++ expand m') (expand m)
  else permute_rows prev row l m = Err EConstraintSystemFailure.
Proof.
elim: l prev row m => [|a l IH] prev row m.
  by move=> _ _ _ _ /=; exists m.
move=> so um hp hm fs.
have so' : sorted le l by exact: path_sorted so.
have ale : all (le a) l by exact: order_path_min le_trans so.
have pa x : x \in l -> Some a <> Some x -> x \in keys m -> (x != a) && (x \in expand m).
  move=> xl na xk; have -> : x != a by apply/eqP => e; apply: na; rewrite e.
  apply: hm => //; first by rewrite inE xl orbT.
  move=> ep; apply: na; congr Some; have := hp x ep; rewrite /= => /andP [h _].
  by apply: le_anti; rewrite h (allP ale _ xl).
rewrite /fs /firsts /=; case: (eqVneq prev (Some a)) => [ep|np] /=.
  have := IH (Some a) row.+1 m so' um; rewrite /= -/(firsts _ _).
  have h1 p : Some a = Some p -> all (le p) l by case=> <-.
  have h2 x : x \in l -> Some a <> Some x -> x \in keys m -> x \in expand m.
    by move=> xl na xk; have /andP [] := pa x xl na xk.
  move=> /(_ h1 h2); case: ifP => _; last by move=> ->.
  by move=> [m' [-> hperm]]; exists m'.
rewrite -/(firsts _ _).
case ak: (a \in keys m) => /=; last by rewrite bt_decr_err ?ak.
have [|m1 -> [k1 [p1 h1]]] := @bt_decr_ok a m um.
  by apply: hm; rewrite ?inE ?eqxx //; apply/eqP.
have := IH (Some a) row.+1 m1 so'; rewrite k1 /=.
have h2 p : Some a = Some p -> all (le p) l by case=> <-.
have h3 x : x \in l -> Some a <> Some x -> x \in keys m -> x \in expand m1.
  by move=> xl na xk; have /andP [n1 n2] := pa x xl na xk; rewrite h1.
move=> /(_ um h2 h3); case: ifP => _; last by move=> ->.
move=> [m' [-> hperm]]; exists m'; split=> //=.
apply: perm_trans p1; by rewrite perm_cons.
Qed.

Lemma fill_rowsE (rows : seq nat) lo t : size lo = size rows -> uniq rows ->
  all (fun r => r < size t)%N rows ->
  exists t', [/\ fill_rows rows lo t = Some ([::], t'), size t' = size t,
    forall i, i \notin rows -> t'`_i = t`_i & [seq t'`_r | r <- rows] = rev lo].
Proof.
elim: lo rows t => [|c lo IH] rows t /=.
  by move=> /esym /size0nil -> _ _; exists t.
case/lastP: rows => [//|rows r]; rewrite size_rcons => -[es]; rewrite rcons_uniq all_rcons => /andP [nr ur] /andP [hr har].
rewrite rev_rcons hr revK.
have st : size (set_nth 0 t r c) = size t by rewrite size_set_nth; apply/maxn_idPr.
have [|t' [e1 e2 e3 e4]] := IH rows (set_nth 0 t r c) es ur; first by rewrite st.
exists t'; rewrite e2 st; split=> //.
  move=> i; rewrite mem_rcons inE negb_or => /andP [ni hi].
  by rewrite e3 // nth_set_nth /= (negbTE ni).
by rewrite map_rcons e4 rev_cons e3 // nth_set_nth /= eqxx.
Qed.

(* Row i of the first column repeats the row above it or equals the second column there. *)
Definition lined_up (u : nat) (a s : seq F) : Prop :=
  forall i, (i < u)%N -> a`_i = s`_i \/ (0 < i)%N /\ a`_i = a`_i.-1.

Lemma permute_usableE u (input table : seq F) : (u <= size input)%N -> (u <= size table)%N ->
  let A := take u input in let S := take u table in
  if all (fun x => x \in S) A then
    exists (a s : seq F), [/\ permute_usable le u input table = Ok (a, s), perm_eq a A, perm_eq s S & lined_up u a s]
  else permute_usable le u input table = Err EConstraintSystemFailure.
Proof.
move=> hi ht A S; rewrite /permute_usable -/A -/S.
have sA : size A = u by rewrite size_takel.
have sS : size S = u by rewrite size_takel.
rewrite size_sort sA eqxx /=.
set m := foldl _ _ _; have [um pm km] := bt_of_table S; rewrite -/m in um pm km.
set a := sort le A; have pa : perm_eq a A by rewrite perm_sort.
have sa : size a = u by rewrite size_sort.
have hm x : x \in a -> None <> Some x -> x \in keys m -> x \in expand m.
  by move=> _ _; rewrite km (perm_mem pm).
have := @permute_rows_ok None 0 a m (sort_sorted le_total A) um (fun p e => ltac:(by [])) hm.
rewrite /=; set fs := firsts _ _.
have -> : all (fun x => x \in keys m) fs = all (fun x => x \in S) A.
  apply/allP/allP => h x hx.
    rewrite -km; have xa : x \in a by rewrite (perm_mem pa).
    by case: (mem_firsts None xa) => [//|]; exact: h.
  by rewrite km h // -(perm_mem pa); exact: firsts_mem hx.
case: ifP => _; last by move=> ->.
move=> [m' [-> hperm]] /=; rewrite -/(expand m').
set R := reps None a; have sR : size R = u by rewrite size_reps.
set rows := mask R _; set tv := [seq (if e.1 then 0 else e.2) | e <- zip R a].
have stv : size tv = u by rewrite size_map size_zip sR sa minnn.
have szm : (size (mask R (iota 0 u)) + size (mask (map negb R) (iota 0 u)) = u)%N.
  rewrite !size_mask ?size_map ?size_iota // count_map.
  by rewrite -[RHS]sR -(count_predC id R); congr (_ + _)%N; apply: eq_count.
have sfs : size fs = size (mask (map negb R) (iota 0 u)) by rewrite !size_mask ?size_map ?size_iota ?sa.
have rE : rows = mask R (iota 0 u) by rewrite /rows sa.
have slo : size (expand m') = size rows.
  have := perm_size hperm; rewrite size_cat (perm_size pm) sS => h.
  apply/eqP; rewrite rE -(eqn_add2r (size fs)) addnC h sfs szm //.
have urows : uniq rows by rewrite rE mask_uniq // iota_uniq.
have hrows : all (fun r => r < size tv)%N rows.
  by rewrite rE stv; apply/allP => r /mem_mask; rewrite mem_iota.
have [t' [-> st' h1 h2]] := fill_rowsE slo urows hrows.
have nrows i : (i < u)%N -> (i \in rows) = nth false R i.
  by move=> hiu; rewrite rE in_mask ?iota_uniq // mem_iota hiu /= index_iota_nth.
have tvE i : (i < u)%N -> i \notin rows -> t'`_i = a`_i.
  move=> hiu ni; rewrite h1 // /tv (nth_map (false, 0)) ?size_zip ?sR ?sa ?minnn //.
  by rewrite nth_zip ?sR ?sa //=; rewrite nrows // in ni; rewrite (negbTE ni).
exists a, t'; split=> //.
  apply: perm_trans pm; apply: perm_trans hperm.
  have -> : t' = [seq t'`_i | i <- iota 0 u] by rewrite -{1}(mkseq_nth 0 t') st' stv.
  have := @perm_maskC _ R (iota 0 u); rewrite size_iota => /(_ sR); rewrite perm_sym => /(perm_map (fun i => t'`_i)) h.
  apply: perm_trans h _; rewrite map_cat -rE h2.
  apply: perm_cat; last by rewrite perm_rev.
  have -> : [seq t'`_i | i <- mask (map negb R) (iota 0 u)] = [seq a`_i | i <- mask (map negb R) (iota 0 u)].
    apply/eq_in_map => i; rewrite in_mask ?iota_uniq // mem_iota => /andP [hiu]; rewrite add0n in hiu.
    rewrite index_iota_nth // (nth_map false) ?sR // => hn; apply: tvE => //; by rewrite nrows.
  by rewrite map_mask -/(mkseq _ _) -{1}sa mkseq_nth.
move=> i hiu; case hR: (nth false R i); last by left; rewrite tvE // nrows // hR.
by right; move: hR; rewrite reps_nth ?sa // => /andP [h /eqP ->].
Qed.
End Permute.
