(* Lemmas about selector compression. *)
Set Warnings "-notation-overridden,-ambiguous-paths".
From mathcomp Require Import all_ssreflect all_algebra.
From Verif Require Import Util FieldTac M_Assigned M_Circuit M_Selectors S_Circuit S_Selectors.
Import GRing.Theory.
Set Implicit Arguments.
Unset Strict Implicit.
Local Open Scope ring_scope.

Lemma getE (T : Type) (d : T) s i : (i < size s)%N -> get s i = Some (nth d s i).
Proof. by move=> h; rewrite /get (drop_nth d h). Qed.

Lemma get_some (T : Type) (s : seq T) i x : get s i = Some x -> (i < size s)%N /\ nth x s i = x.
Proof.
rewrite /get; case: (ltnP i (size s)) => h; last by rewrite drop_oversize.
by rewrite (drop_nth x h) /= => -[].
Qed.

Lemma all_some_F2 (A B : Type) (f : A -> option B) s :
  (forall x, List.In x s -> exists y, f x = Some y) ->
  exists r, all_some (map f s) = Some r /\ List.Forall2 (fun x y => f x = Some y) s r.
Proof.
elim: s => [|x s IH] h; first by exists [::]; split; [|constructor].
have [y ey] := h x (or_introl erefl).
have [r [er hr]] := IH (fun z hz => h z (or_intror hz)).
by exists (y :: r); rewrite /all_some /= ey /= -/(all_some _) er; split; [|constructor].
Qed.

Lemma all_some_inv (A B : Type) (f : A -> option B) s r :
  all_some (map f s) = Some r -> List.Forall2 (fun x y => f x = Some y) s r.
Proof.
elim: s r => [|x s IH] r; rewrite /all_some /=; first by case=> <-; constructor.
case e: (f x) => [y|] //=; rewrite -/(all_some _).
by case e': all_some => [r'|] //= [<-]; constructor => //; apply: IH.
Qed.

Lemma F2_impl (A B : Type) (R1 R2 : A -> B -> Prop) s t : (forall a b, R1 a b -> R2 a b) ->
  List.Forall2 R1 s t -> List.Forall2 R2 s t.
Proof. by move=> h; elim=> *; constructor; auto. Qed.

Section Fill.
Variable T : Type.

Definition fill_step (acc : option (seq (option T))) (kv : nat * option T) :=
  obind (fun v => if (kv.1 < size v)%N then
                    obind (fun x => Some (set_nth None v kv.1 (Some x))) kv.2
                  else None) acc.

Lemma fill_run kvs (v : seq (option T)) :
  (forall k o, List.In (k, o) kvs -> (k < size v)%N /\ o <> None) ->
  uniq (unzip1 kvs) ->
  exists v', foldl fill_step (Some v) kvs = Some v' /\
    [/\ size v' = size v,
        forall k o, List.In (k, o) kvs -> nth None v' k = o &
        forall k, k \notin unzip1 kvs -> nth None v' k = nth None v k].
Proof.
elim: kvs v => [|[k o] kvs IH] v h /= hu; first by exists v.
case/andP: hu => hk hu.
have [hlt ho] := h k o (or_introl erefl).
case: o ho h => // x _ h; rewrite hlt /=.
have [|v' [e [h1 h2 h3]]] := IH (set_nth None v k (Some x)) _ hu.
  move=> k' o' hin; rewrite size_set_nth (maxn_idPr _) //.
  exact: h (or_intror hin).
rewrite size_set_nth (maxn_idPr _) // in h1.
exists v'; split=> //; split=> //.
- move=> k' o' [[<- <-]|]; last exact: h2.
  by rewrite h3 // nth_set_nth /= eqxx.
- move=> k'; rewrite inE negb_or => /andP[hn hk'].
  by rewrite h3 // nth_set_nth /= (negbTE hn).
Qed.

Lemma all_some_nth (d : T) (v : seq (option T)) :
  (forall k, (k < size v)%N -> nth None v k <> None) ->
  exists r, [/\ all_some v = Some r, size r = size v &
    forall k, (k < size v)%N -> nth None v k = Some (nth d r k)].
Proof.
elim: v => [|o v IH] h; first by exists [::].
have [|r [e1 e2 e3]] := IH; first by move=> k hk; apply: (h k.+1).
have := h 0%N isT => /=; case: o h => // x h _.
exists (x :: r); rewrite /all_some /= -/(all_some v) e1 /= e2; split=> //.
by case=> [|k] //=; rewrite ltnS; apply: e3.
Qed.

(* Filling a vector of length n from pairs whose keys are 0..n-1 in some order. *)
Lemma fillE (d : T) n (kvs : seq (nat * option T)) :
  perm_eq (unzip1 kvs) (iota 0 n) -> (forall k o, List.In (k, o) kvs -> o <> None) ->
  exists r, [/\ obind (fun v => all_some v) (fill n kvs) = Some r, size r = n &
    forall k o, List.In (k, o) kvs -> o = Some (nth d r k)].
Proof.
move=> hp ho.
have mem_in k o : List.In (k, o) kvs -> k \in unzip1 kvs.
  elim: kvs {hp ho} => //= -[k' o'] kvs IH [[-> _]|/IH h]; rewrite inE ?eqxx ?h ?orbT //.
have in_mem k : k \in unzip1 kvs -> exists o, List.In (k, o) kvs.
  elim: kvs {hp ho mem_in} => //= -[k' o'] kvs IH; rewrite inE => /orP[/eqP->|/IH[o h]].
    by exists o'; left.
  by exists o; right.
have [||v' [e [h1 h2 h3]]] := @fill_run kvs (nseq n None).
- move=> k o h; rewrite size_nseq; split; last exact: ho h.
  by have := mem_in _ _ h; rewrite (perm_mem hp) mem_iota add0n.
- by rewrite (perm_uniq hp) iota_uniq.
rewrite size_nseq in h1.
have nn k : (k < size v')%N -> nth None v' k <> None.
  rewrite h1 => hk; have : k \in unzip1 kvs by rewrite (perm_mem hp) mem_iota.
  by move/in_mem=> [o hin]; rewrite (h2 _ _ hin); apply: ho hin.
have [r [a1 a2 a3]] := all_some_nth d nn.
exists r; rewrite /fill -/fill_step e /= a1 a2 h1; split=> // k o hin.
rewrite -(h2 _ _ hin) a3 // h1.
by have := mem_in _ _ hin; rewrite (perm_mem hp) mem_iota.
Qed.
End Fill.

Section Sel.
Variable F : fieldType.
Notation FA := ([comAlgType F of F^o]).
Implicit Types (e q : expr F).

Notation no_sel := (@selector_free F).

Lemma no_sel_simple e : no_sel e -> contains_simple_selector e = false.
Proof.
elim: e => //= [a IHa b IHb|a IHa b IHb]; case/andP=> /IHa ha /IHb hb;
  by move: ha hb; rewrite /contains_simple_selector /= => -> ->.
Qed.

Lemma css_sum (a b : expr F) : contains_simple_selector (ESum a b) =
  contains_simple_selector a || contains_simple_selector b.
Proof. by []. Qed.
Lemma css_prod (a b : expr F) : contains_simple_selector (EProduct a b) =
  contains_simple_selector a || contains_simple_selector b.
Proof. by []. Qed.

(* The value of an expression at a row. *)
Notation val sel cell e := (meaning (R := FA) sel cell e : F).

Fixpoint rootprod (n : nat) (root ar x : F) : F :=
  if n is n'.+1 then (if root != ar then root - x else 1) * rootprod n' (root + 1) ar x else 1.
Fixpoint rootcount (n : nat) (root ar : F) : nat :=
  if n is n'.+1 then ((root != ar) + rootcount n' (root + 1) ar)%N else 0%N.

Lemma member_exprE n root ar q e : no_sel q -> no_sel e -> degree q = 1%N ->
  exists e', [/\ member_expr n root ar q e = Some e', no_sel e',
    degree e' = (degree e + rootcount n root ar)%N,
    (forall m, expr_ok m q -> expr_ok m e -> expr_ok m e') &
    forall sel cell, val sel cell e' = val sel cell e * rootprod n root ar (val sel cell q)].
Proof.
elim: n root e => [|n IH] root e nq ne dq /=.
  by exists e; split=> // *; rewrite ?addn0 ?mulr1.
case: (boolP (root != ar)) => h /=; last first.
  have [e' [h1 h2 h3 h4 h5]] := IH (root + 1) e nq ne dq.
  by exists e'; split=> // sel cell; rewrite h5 mul1r.
have ne' : no_sel (EProduct e (ESum (EConstant root) (ENegated q))) by rewrite /= ne nq.
have [e' [h1 h2 h3 h4 h5]] := IH (root + 1) _ nq ne' dq.
have -> : e_sub (EConstant root) q = Some (ESum (EConstant root) (ENegated q)).
  by rewrite /e_sub no_sel_simple // no_sel_simple.
rewrite /= /e_mul no_sel_simple //=.
exists e'; split=> //.
- by rewrite h3 /= dq max0n addnA.
- by move=> m oq oe; apply: h4 => //=; rewrite oe oq.
- move=> sel cell; rewrite h5 /meaning /= mulrA; congr (_ * _ * _).
  by rewrite /GRing.scale /= mulr1.
Qed.

(* Distinct small roots: characteristic large enough. *)
Definition char_gt (D : nat) := forall i, (0 < i <= D)%N -> i%:R != 0 :> F.

Lemma natr_inj D i j : char_gt D -> (i <= D)%N -> (j <= D)%N -> (i%:R == j%:R :> F) = (i == j).
Proof.
move=> hc; wlog: i j / (i <= j)%N.
  by move=> h hi hj; case: (leqP i j) => [/h->//|/ltnW/h]; rewrite eq_sym => -> //; rewrite eq_sym.
move=> hij hi hj; apply/idP/eqP => [|->//].
rewrite -{1}(subnK hij) natrD eq_sym -subr_eq0 addrK => h.
apply/eqP; rewrite eqn_leq hij /= -subn_eq0; apply/negPn/negP => hn.
have := hc (j - i)%N; rewrite lt0n hn (leq_trans (leq_subr _ _) hj) /= => /(_ isT).
by rewrite h.
Qed.

Lemma natr1 k : k%:R + 1 = k.+1%:R :> F.
Proof. by rewrite -[1]/(1%:R) -natrD addn1. Qed.

Lemma rootprod0 D n r a x : char_gt D -> (r + n <= D.+1)%N -> (a <= D)%N -> (x <= D)%N ->
  (rootprod n r%:R a%:R x%:R == 0) = (r <= x < r + n)%N && (x != a).
Proof.
move=> hc; elim: n r => [|n IH] r hr ha hx /=.
  by rewrite oner_eq0 addn0; case: leqP.
have hrD : (r <= D)%N by rewrite -ltnS (leq_trans _ hr) // addnS ltnS leq_addr.
rewrite mulf_eq0 natr1 IH ?addSnnS //.
rewrite (natr_inj hc hrD ha).
case: (eqVneq r a) => [->|hra] /=.
  rewrite oner_eq0 /=.
  by case: (ltngtP a x) => //= _; rewrite ?andbF.
rewrite subr_eq0 (natr_inj hc hrD hx).
case: (ltngtP r x) => //= erx; by rewrite -erx hra addnS ltnS leq_addr.
Qed.

Lemma rootcountE D n r a : char_gt D -> (r + n <= D.+1)%N -> (a <= D)%N ->
  rootcount n r%:R a%:R = (n - (r <= a < r + n))%N.
Proof.
move=> hc; elim: n r => [|n IH] r hr ha /=.
  by rewrite addn0; case: leqP.
have hrD : (r <= D)%N by rewrite -ltnS (leq_trans _ hr) // addnS ltnS leq_addr.
rewrite natr1 IH ?addSnnS // (natr_inj hc hrD ha).
case: (ltngtP r a) => /= hra; rewrite ?subn0 ?add1n //.
  case: (ltnP a (r + n.+1)) => hb /=; rewrite ?subn0 // !subn1 /= prednK //.
  by rewrite lt0n; apply/eqP => n0; move: hb; rewrite n0 addn1 ltnS leqNgt hra.
by rewrite -hra addnS ltnS leq_addr /= add0n subn1.
Qed.

(* The substituted expression of member number t (from 0) of a combination of length len. *)
Lemma member_spec D len t q : char_gt D -> (len <= D)%N -> (t < len)%N -> no_sel q ->
  degree q = 1%N ->
  exists e', [/\ member_expr len 1 (1 + t%:R) q q = Some e', no_sel e', degree e' = len,
    (forall m, expr_ok m q -> expr_ok m e') &
    forall sel cell x, (x <= len)%N -> val sel cell q = x%:R ->
      (val sel cell e' == 0) = (x != t.+1)].
Proof.
move=> hc hl ht nq dq.
have [e' [h1 h2 h3 h4 h5]] := member_exprE len 1 (1 + t%:R) nq nq dq.
have e1 : 1 + t%:R = t.+1%:R :> F by rewrite -natr1 addrC.
have tD : (t.+1 <= D)%N by apply: leq_trans ht hl.
exists e'; split=> //; last 1 first.
- move=> sel cell x hx eq; rewrite h5 eq e1 mulf_eq0.
  rewrite (rootprod0 hc (r := 1)) // ?add1n ?ltnS //; last exact: leq_trans hx hl.
  rewrite -[0]/(0%:R) (natr_inj hc) //; last exact: leq_trans hx hl.
  by case: x hx {eq} => //= x hx; rewrite hx.
- rewrite h3 dq e1 (rootcountE hc (r := 1)) // ?add1n ?ltnS //.
  by rewrite ht /= subn1; case: (len) ht.
- by move=> m hm; apply: h4.
Qed.

Lemma size_set_active r (ca : seq F) act : size (set_active r ca act) = size ca.
Proof. by elim: ca act => [|c ca IH] [|a act] //=; rewrite IH. Qed.
Lemma nth_set_active r (ca : seq F) act i : (i < size ca)%N -> size act = size ca ->
  nth 0 (set_active r ca act) i = if nth false act i then r else nth 0 ca i.
Proof. by elim: ca act i => [|c ca IH] [|a act] [|i] //= hi [hs]; exact: IH. Qed.

Definition active (s : sdesc) (row : nat) : bool := nth false (sd_act s) row.
Definition disjoint_sd (n : nat) (s o : sdesc) : Prop :=
  forall row, (row < n)%N -> ~~ (active s row && active o row).

Definition d0 : sdesc := {| sd_sel := 0; sd_act := [::]; sd_deg := 0 |}.
Definition a0 : sassign F := {| sa_sel := 0; sa_comb := 0; sa_expr := EConstant 0 |}.

Lemma assign_membersE len ci q comb k ca n :
  (forall t, (t < size comb)%N -> exists e', member_expr len 1 (1 + (k + t)%:R) q q = Some e') ->
  List.Forall (fun s => size (sd_act s) = n) comb -> size ca = n ->
  exists ca' ass, [/\ assign_members len ci q comb (1 + k%:R) ca = Some (ca', ass),
    size ca' = n, size ass = size comb,
    (forall t, (t < size comb)%N ->
       exists e', member_expr len 1 (1 + (k + t)%:R) q q = Some e' /\
       nth a0 ass t = {| sa_sel := sd_sel (nth d0 comb t); sa_comb := ci; sa_expr := e' |}) &
    forall row, (row < n)%N ->
      ((forall t, (t < size comb)%N -> ~~ active (nth d0 comb t) row) ->
         nth 0 ca' row = nth 0 ca row) /\
      (forall t, (t < size comb)%N -> active (nth d0 comb t) row ->
         (forall t', (t' < size comb)%N -> t' != t -> ~~ active (nth d0 comb t') row) ->
         nth 0 ca' row = (k + t).+1%:R)].
Proof.
elim: comb k ca => [|s comb IH] k ca hm hF hs /=; first by exists ca, [::]; split.
have hs1 : size (sd_act s) = n by inversion hF.
have hF' : List.Forall (fun s => size (sd_act s) = n) comb by inversion hF.
have [e0 em] := hm 0%N isT; rewrite addn0 in em; rewrite em /=.
have -> : 1 + k%:R + 1 = 1 + k.+1%:R :> F by rewrite -[k.+1%:R]natr1 addrA.
have [||ca' [ass [h1 h2 h3 h4 h5]]] := IH k.+1 (set_active (1 + k%:R) ca (sd_act s)) _ hF'.
- by move=> t ht; have := hm t.+1 ht; rewrite addnS.
- by rewrite size_set_active.
exists ca', ({| sa_sel := sd_sel s; sa_comb := ci; sa_expr := e0 |} :: ass).
rewrite h1 /= h3; split=> //.
- case=> [|t] ht /=; first by exists e0; rewrite addn0.
  by have := h4 t ht; rewrite addnS.
- move=> row hr; have [g1 g2] := h5 row hr.
  have en : nth 0 (set_active (1 + k%:R) ca (sd_act s)) row =
            if active s row then 1 + k%:R else nth 0 ca row.
    by rewrite nth_set_active ?hs ?hs1.
  split=> [hall|t ht ha hoth].
    rewrite g1; first by rewrite en (negbTE (hall 0%N isT)).
    by move=> t ht; apply: (hall t.+1).
  case: t ht ha hoth => [|t] ht ha hoth.
    rewrite g1; first by rewrite en ha addn0 addrC natr1.
    by move=> t ht'; apply: (hoth t.+1).
  rewrite (g2 t) // ?addnS // => t' ht' hn.
  exact: (hoth t'.+1).
Qed.

(* ----- the greedy search ----- *)
Section Greedy.
Variables (sels : seq sdesc) (n maxd : nat).
Notation N := (size sels).
Notation sel i := (nth d0 sels i).
Hypothesis acts : forall i, (i < N)%N -> size (sd_act (sel i)) = n.
Hypothesis degs : forall i, (i < N)%N -> (0 < sd_deg (sel i) <= maxd)%N.
Let M := exclusion_matrix sels.

Lemma excl_entry j i : (i < j)%N -> (j < N)%N ->
  obind (fun row => get row i) (get M j) =
  Some (has (fun lr : bool * bool => lr.1 && lr.2) (zip (sd_act (sel j)) (sd_act (sel i)))).
Proof.
move=> hij hj; have hi : (i < N)%N by apply: ltn_trans hij hj.
rewrite (getE [::]) /M /exclusion_matrix ?size_mapi //= (nth_mapi _ d0) //.
rewrite (getE false) ?size_map ?size_take ?hj //.
by rewrite (nth_map d0) ?size_take ?hj // nth_take.
Qed.

Lemma excl_disjoint j i : (i < N)%N -> (j < N)%N ->
  has (fun lr : bool * bool => lr.1 && lr.2) (zip (sd_act (sel j)) (sd_act (sel i))) = false ->
  disjoint_sd n (sel j) (sel i).
Proof.
move=> hi hj /negbT h row hr; apply/negP => ha; case/negP: h; apply/(has_nthP (false, false)).
have ez : size (sd_act (sel j)) = size (sd_act (sel i)) by rewrite !acts.
by exists row; rewrite ?size_zip ?ez ?minnn ?acts // nth_zip.
Qed.

Lemma excludedE j (cadded : seq nat) : (j < N)%N -> all (fun i => i < j)%N cadded ->
  exists b, excluded M j cadded = Some b /\
    (b = false -> forall i, i \in cadded -> disjoint_sd n (sel j) (sel i)).
Proof.
move=> hj; elim: cadded => [|i cadded IH] /=; first by exists false.
case/andP=> hi /IH[b [eb hb]].
have := excl_entry hi hj; case: (get M j) => //= row; case: (get row i) => //= x [->].
case: ifP => hx; first by exists true.
exists b; split=> // hbf k; rewrite inE => /orP[/eqP->|]; last exact: hb.
exact: excl_disjoint (ltn_trans hi hj) hj hx.
Qed.

Definition restof k := zip (iota k (N - k)) (drop k sels).
Lemma restof_nil : restof N = [::].
Proof. by rewrite /restof subnn; case: drop. Qed.
Lemma restof_cons k : (k < N)%N -> restof k = (k, sel k) :: restof k.+1.
Proof. by move=> h; rewrite /restof (drop_nth d0 h) -(subnSK h). Qed.

(* the members of a combination *)
Record comb_ok (g : seq nat) : Prop := CombOk {
  co_ne : g != [::];
  co_uniq : uniq g;
  co_lt : all (fun i => i < N)%N g;
  co_deg : forall i, i \in g -> ((sd_deg (sel i)).-1 + size g <= maxd)%N;
  co_dis : forall i j, i \in g -> j \in g -> i != j -> disjoint_sd n (sel i) (sel j) }.

Lemma disjoint_sym s o : disjoint_sd n s o -> disjoint_sd n o s.
Proof. by move=> h row hr; rewrite andbC; exact: h. Qed.

Lemma trySpec r : forall k d g added, (k + r = N)%N ->
  size added = N -> all (fun i => i < k)%N g -> g != [::] -> uniq g ->
  (forall i, i \in g -> (sd_deg (sel i)).-1 <= d)%N -> (d + size g <= maxd)%N ->
  (forall i j, i \in g -> j \in g -> i != j -> disjoint_sd n (sel i) (sel j)) ->
  (forall i, i \in g -> nth false added i) ->
  exists ext added', [/\
    try_selectors maxd M (restof k) d [seq sel i | i <- g] g added =
      Some ([seq sel i | i <- g ++ ext], added'),
    comb_ok (g ++ ext), size added' = N,
    (forall i, i \in ext -> (k <= i < N)%N && ~~ nth false added i) &
    forall i, nth false added' i = nth false added i || (i \in ext)].
Proof.
elim: r => [|r IH] k d g added ek sa hg gne gu gd gm gdis gadd.
  rewrite addn0 in ek; rewrite ek restof_nil /=; exists [::], added; rewrite cats0; split=> //.
    split=> //; first by rewrite -ek.
    by move=> i hi; apply: leq_trans gm; rewrite leq_add2r gd.
  by move=> i; rewrite orbF.
have hk : (k < N)%N by rewrite -ek -addn1 leq_add2l.
have ek1 : (k.+1 + r = N)%N by rewrite addSnnS.
have hg1 : all (fun i => i < k.+1)%N g by apply: sub_all hg => i hi; apply: ltnW.
rewrite restof_cons //= size_map.
case: ifP => hbreak.
  exists [::], added; rewrite cats0; split=> //.
    split=> //; first by apply: sub_all hg => i hi; apply: ltn_trans hi hk.
    by move=> i hi; apply: leq_trans gm; rewrite leq_add2r gd.
  by move=> i; rewrite orbF.
have skip : exists ext added', [/\
    try_selectors maxd M (restof k.+1) d [seq sel i | i <- g] g added =
      Some ([seq sel i | i <- g ++ ext], added'),
    comb_ok (g ++ ext), size added' = N,
    (forall i, i \in ext -> (k <= i < N)%N && ~~ nth false added i) &
    forall i, nth false added' i = nth false added i || (i \in ext)].
  have [ext [added' [h1 h2 h3 h4 h5]]] := IH k.+1 d g added ek1 sa hg1 gne gu gd gm gdis gadd.
  exists ext, added'; split=> // i /h4 /andP[/andP[a b] ->]; by rewrite b (ltnW a).
rewrite (getE false) ?sa //=; case: ifP => // hadd.
have [b [-> hb]] := excludedE hk hg; rewrite /=.
case: b hb => // hb.
have /andP[dk0 dkm] := degs hk.
rewrite eqn0Ngt dk0 /= ; case: ifP => // hfit.
have kg : k \notin g by apply/negP => /(allP hg); rewrite ltnn.
have [||||||||ext [added' [h1 h2 h3 h4 h5]]] :=
  IH k.+1 (maxn d (sd_deg (sel k) - 1)) (rcons g k) (set_nth false added k true) ek1.
- by rewrite size_set_nth sa (maxn_idPr _).
- by rewrite all_rcons ltnSn.
- by rewrite -size_eq0 size_rcons.
- by rewrite rcons_uniq kg.
- move=> i; rewrite mem_rcons inE => /orP[/eqP->|/gd h]; first by rewrite subn1 leq_maxr.
  by apply: leq_trans h _; rewrite leq_maxl.
- by rewrite size_rcons addnS -addn1 leqNgt hfit.
- move=> i j; rewrite !mem_rcons !inE => /orP[/eqP->|hi] /orP[/eqP->|hj]; rewrite ?eqxx // => hij.
  + exact: hb.
  + exact/disjoint_sym/hb.
  + exact: gdis.
- move=> i; rewrite mem_rcons inE nth_set_nth /=; case: eqP => //= _; exact: gadd.
exists (k :: ext), added'; rewrite -cat_rcons; split=> //.
- by rewrite map_rcons in h1; rewrite -h1.
- move=> i; rewrite inE => /orP[/eqP->|/h4]; first by rewrite leqnn hk hadd.
  rewrite nth_set_nth /=; case/andP=> /andP[a c]; rewrite (ltnW a) c /=.
  by rewrite gtn_eqF.
- move=> i; rewrite h5 nth_set_nth /= inE; case: eqP => [->|] /=; rewrite ?orbT //.
Qed.

(* ----- greedy: the groups it forms and what it outputs ----- *)
Variables (S : Type) (alloc : S -> S * expr F).
Variables (P : nat -> S -> Prop) (q : nat -> expr F).
Hypothesis allocP : forall k s, P k s -> exists s', alloc s = (s', q k) /\ P k.+1 s'.
Hypothesis q_nosel : forall k, no_sel (q k).
Hypothesis q_deg : forall k, degree (q k) = 1%N.
Hypothesis hchar : char_gt maxd.

(* What an assignment must satisfy for the selector described by [sd]. *)
Record good (combs : seq (seq F)) (sd : sdesc) (a : sassign F) : Prop := Good {
  gd_sel : sa_sel a = sd_sel sd;
  gd_comb : (sa_comb a < size combs)%N;
  gd_nosel : no_sel (sa_expr a);
  gd_ok : forall m, expr_ok m (q (sa_comb a)) -> expr_ok m (sa_expr a);
  gd_deg : (degree (sa_expr a) + (sd_deg sd).-1 <= maxd)%N;
  gd_deg1 : (0 < degree (sa_expr a))%N;
  gd_deg0 : sd_deg sd = 0%N -> degree (sa_expr a) = 1%N;
  gd_zero : forall s cell row, (row < n)%N ->
    val s cell (q (sa_comb a)) = nth 0 (nth [::] combs (sa_comb a)) row ->
    (val s cell (sa_expr a) == 0) = ~~ active sd row;
  gd_exact : sd_deg sd = 0%N -> forall s cell row, (row < n)%N ->
    val s cell (q (sa_comb a)) = nth 0 (nth [::] combs (sa_comb a)) row ->
    val s cell (sa_expr a) = (active sd row)%:R;
  gd_col : forall row, (row < n)%N -> active sd row ->
    nth 0 (nth [::] combs (sa_comb a)) row != 0 }.

Lemma good_ext combs c sd a : good combs sd a -> good (rcons combs c) sd a.
Proof.
case=> h1 h2 h3 h4 h5 h6 h7 h8 h9 h10; split=> //.
- by rewrite size_rcons ltnS ltnW.
- by move=> s cell row hr; rewrite nth_rcons h2; exact: h8.
- by move=> h0 s cell row hr; rewrite nth_rcons h2; exact: h9.
- by move=> row hr; rewrite nth_rcons h2; exact: h10.
Qed.

Lemma good_cat combs c sd a : good combs sd a -> good (combs ++ c) sd a.
Proof.
elim: c combs => [|x c IH] combs h; first by rewrite cats0.
by rewrite -cat_rcons; apply/IH/good_ext.
Qed.

Lemma comb_members (g : seq nat) ci st : comb_ok g -> P ci st ->
  exists ca ass, [/\
    assign_members (size g) ci (q ci) [seq sel i | i <- g] 1 (nseq n 0) = Some (ca, ass),
    size ca = n, size ass = size g &
    forall combs, size combs = ci -> forall t, (t < size g)%N ->
      good (rcons combs ca) (sel (nth 0%N g t)) (nth a0 ass t)].
Proof.
move=> gok hP.
have hlen : (size g <= maxd)%N.
  case: g gok => [|i g] gok; first by have := co_ne gok.
  by apply: leq_trans (co_deg gok (mem_head _ _)); rewrite leq_addl.
have hin t : (t < size g)%N -> nth 0%N g t \in g by exact: mem_nth.
have hmem t : (t < size [seq sel i | i <- g])%N ->
    exists e', member_expr (size g) 1 (1 + (0 + t)%:R) (q ci) (q ci) = Some e'.
  rewrite size_map add0n => ht.
  by have [e' [h _ _ _ _]] := member_spec hchar hlen ht (q_nosel ci) (q_deg ci); exists e'.
have hF : List.Forall (fun s => size (sd_act s) = n) [seq sel i | i <- g].
  have := co_lt gok; elim: (g) => [|i g' IH] /=; first by constructor.
  by case/andP=> hi /IH h; constructor => //; exact: acts.
have [ca [ass [h1 h2 h3 h4 h5]]] := assign_membersE ci hmem hF (size_nseq n 0).
rewrite addr0 in h1; exists ca, ass; rewrite h3 size_map; split=> // combs ec t ht.
rewrite size_map in h4 h5.
have hti : (nth 0%N g t < N)%N by apply: (allP (co_lt gok)); apply: hin.
have esel t' : (t' < size g)%N -> nth d0 [seq sel i | i <- g] t' = sel (nth 0%N g t').
  by move=> h; rewrite (nth_map 0%N).
have [e' [he' ->]] := h4 t ht; rewrite add0n in he'.
have [e2 [m1 m2 m3 m4 m5]] := member_spec hchar hlen ht (q_nosel ci) (q_deg ci).
move: m1; rewrite he' => -[ee]; rewrite -{e2}ee in m2 m3 m4 m5.
have /andP[dpos _] := degs hti.
rewrite esel //.
have rowv row : (row < n)%N -> exists x, [/\ (x <= size g)%N, nth 0 ca row = x%:R &
    (x != t.+1) = ~~ active (sel (nth 0%N g t)) row].
  move=> hr; have [r1 r2] := h5 row hr.
  case: (boolP (has (fun t' => active (sel (nth 0%N g t')) row) (iota 0 (size g)))).
    case/hasP=> t'; rewrite mem_iota /= add0n => ht' hact; exists t'.+1; split=> //.
      rewrite (r2 t') ?add0n ?esel // => t2 ht2 hne; rewrite esel //; apply/negP => h2'.
      have hd : nth 0%N g t2 != nth 0%N g t' by rewrite nth_uniq // (co_uniq gok).
      by have := co_dis gok (hin _ ht2) (hin _ ht') hd hr; rewrite h2' hact.
    rewrite eqSS; case: (eqVneq t' t) => [<-|hne]; first by rewrite hact.
    apply/esym/negP => hact'.
    have hd : nth 0%N g t' != nth 0%N g t by rewrite nth_uniq // (co_uniq gok).
    by have := co_dis gok (hin _ ht') (hin _ ht) hd hr; rewrite hact hact'.
  move/hasPn=> hno; exists 0%N; split=> //.
    rewrite r1 ?nth_nseq ?hr // => t' ht'; rewrite esel //; apply: hno.
    by rewrite mem_iota.
  by rewrite /= hno // mem_iota.
split=> //=.
- by rewrite size_rcons ec.
- by rewrite m3 addnC; exact: co_deg (hin _ ht).
- by rewrite m3; case: (size g) ht.
- by move=> h0; rewrite h0 in dpos.
- move=> s cell row hr; rewrite nth_rcons ec ltnn eqxx => ev.
  by have [x [x1 x2 <-]] := rowv row hr; apply: m5 => //; rewrite ev.
- by move=> h0; rewrite h0 in dpos.
- move=> row hr ha; rewrite nth_rcons ec ltnn eqxx.
  have [x [x1 -> hx]] := rowv row hr; move: hx; rewrite ha => /negbFE/eqP->.
  by apply: hchar; rewrite /= (leq_trans ht).
Qed.

(* Every recorded assignment is good for some selector of the original list [all]. *)
Lemma greedySpec off r : forall k added (st : pst F S) (done : seq nat),
  (k + r = N)%N -> size added = N ->
  P (size (p_combs st)) (p_s st) ->
  (forall i, (i < k)%N -> nth false added i) ->
  (off + size done)%N = size (p_assigns st) -> uniq done ->
  (forall i, i \in done -> nth false added i && (i < N)%N) ->
  (forall i, nth false added i -> (i < N)%N -> i \in done) ->
  (forall t, (t < size done)%N ->
     good (p_combs st) (sel (nth 0%N done t)) (nth a0 (p_assigns st) (off + t))) ->
  exists st' done', [/\ greedy alloc maxd n M (restof k) added st = Some st',
    P (size (p_combs st')) (p_s st'),
    (off + size done')%N = size (p_assigns st') /\ perm_eq done' (iota 0 N),
    (exists c, p_combs st' = p_combs st ++ c /\ all (fun x => size x == n) c) /\
    (exists x, p_assigns st' = p_assigns st ++ x) &
    forall t, (t < size done')%N ->
      good (p_combs st') (sel (nth 0%N done' t)) (nth a0 (p_assigns st') (off + t))].
Proof.
elim: r => [|r IH] k added st done ek sa hP hlow sd du dadd addd hgood.
  rewrite addn0 in ek; rewrite ek restof_nil /=; exists st, done; split=> //.
  - split=> //; apply: uniq_perm => //; first exact: iota_uniq.
    move=> i; rewrite mem_iota add0n /=; apply/idP/idP => [/dadd/andP[]//|hi].
    by apply: addd => //; apply: hlow; rewrite ek.
  - by split; exists [::]; rewrite ?cats0.
have hk : (k < N)%N by rewrite -ek -addn1 leq_add2l.
have ek1 : (k.+1 + r = N)%N by rewrite addSnnS.
rewrite restof_cons //= (getE false) ?sa //=.
case: ifP => hadd.
  apply: (IH _ _ _ done) => // i; rewrite ltnS leq_eqVlt => /orP[/eqP->|] //; exact: hlow.
have /andP[dk0 dkm] := degs hk.
rewrite dkm /= eqn0Ngt dk0 /=.
have [||||||||ext [added' [h1 h2 h3 h4 h5]]] :=
  trySpec (k := k.+1) (d := sd_deg (sel k) - 1) (g := [:: k]) (added := set_nth false added k true) ek1.
- by rewrite size_set_nth sa (maxn_idPr _).
- by rewrite /= ltnSn.
- by [].
- by [].
- by move=> i; rewrite inE => /eqP->; rewrite subn1.
- by rewrite /= addn1 subn1 prednK.
- by move=> i j; rewrite !inE => /eqP-> /eqP->; rewrite eqxx.
- by move=> i; rewrite inE => /eqP->; rewrite nth_set_nth /= eqxx.
rewrite /= in h1; rewrite h1 /=.
have [s' [-> hP']] := allocP hP; rewrite /=.
have [ca [ass [m1 m2 m3 m4]]] := comb_members h2 hP.
rewrite /= size_map in m1 *; rewrite m1 /=.
set st1 := {| p_s := s'; p_combs := rcons (p_combs st) ca; p_assigns := p_assigns st ++ ass |}.
have kd : k \notin done by apply/negP => /dadd /andP[]; rewrite hadd.
have extd i : i \in ext -> i \notin done.
  by move=> /h4 /andP[/andP[a b]]; rewrite nth_set_nth /= gtn_eqF // => hn; apply/negP => /dadd; rewrite (negbTE hn).
have [|||||||st' [done' [g1 g2 g3 [[c [g4 g4']] [x g5]] g6]]] :=
  IH k.+1 added' st1 (done ++ k :: ext) ek1 h3.
- by rewrite /= size_rcons.
- move=> i; rewrite h5 nth_set_nth /= ltnS leq_eqVlt => /orP[/eqP->|/hlow ->]; first by rewrite eqxx.
  by case: eqP.
- by rewrite /= !size_cat -sd m3 /= addnA.
- have /= uh := co_uniq h2; rewrite cat_uniq du [X in _ && (_ && X)]uh andbT; apply/hasPn => i.
  by rewrite inE => /orP[/eqP->|/extd].
- move=> i; rewrite mem_cat inE h5 nth_set_nth /=; case/or3P.
  + by move=> hd; have /andP[-> ->] := dadd _ hd; case: eqP.
  + by move=> /eqP->; rewrite eqxx hk.
  + by move=> he; rewrite he orbT /=; have /andP[/andP[]] := h4 _ he.
- move=> i; rewrite mem_cat inE h5 nth_set_nth /=; case: eqP => [->|_] //=.
    by rewrite orbT.
  by case/orP=> [ha hi|->]; rewrite ?orbT // addd.
- move=> t; rewrite size_cat nth_cat => ht; rewrite /= nth_cat -sd ltn_add2l subnDl.
  case: ifP => htd; first exact/good_ext/hgood.
  apply: m4 => //; by rewrite -(ltn_add2l (size done)) subnKC // leqNgt htd.
exists st', done'; split=> //; split.
  exists (ca :: c); rewrite g4 /st1 /= cat_rcons; split=> //.
  by rewrite m2 eqxx.
by exists (ass ++ x); rewrite g5 /st1 /= catA.
Qed.


Lemma retainSpec (l : seq sdesc) : forall st : pst F S,
  (0 < maxd)%N -> P (size (p_combs st)) (p_s st) ->
  exists x c, [/\ p_assigns (foldl (retain_step alloc) st l) = p_assigns st ++ x,
    p_combs (foldl (retain_step alloc) st l) = p_combs st ++ c,
    P (size (p_combs (foldl (retain_step alloc) st l))) (p_s (foldl (retain_step alloc) st l)) &
    (List.Forall (fun s => size (sd_act s) = n) l -> all (fun a => size a == n) c /\
    List.Forall2 (good (p_combs st ++ c)) [seq s <- l | sd_deg s == 0%N] x)].
Proof.
elim: l => [|s l IH] st m0 hP; first by exists [::], [::]; rewrite /= ?cats0.
rewrite /=; case: (eqVneq (sd_deg s) 0%N) => hd; last first.
  have -> : retain_step alloc st s = st by rewrite /retain_step (negbTE hd).
  have [x [c [h1 h2 h3 h4]]] := IH st m0 hP.
  by exists x, c; split=> // hF; apply: h4; inversion hF.
have [s' [ea hP']] := allocP hP.
set cb := [seq if b then 1 else 0 : F | b <- sd_act s].
set st1 := {| p_s := s'; p_combs := rcons (p_combs st) cb;
  p_assigns := rcons (p_assigns st)
    {| sa_sel := sd_sel s; sa_comb := size (p_combs st); sa_expr := q (size (p_combs st)) |} |}.
have -> : retain_step alloc st s = st1 by rewrite /retain_step hd eqxx ea.
have [|x [c [h1 h2 h3 h4]]] := IH st1 m0; first by rewrite /= size_rcons.
exists ({| sa_sel := sd_sel s; sa_comb := size (p_combs st); sa_expr := q (size (p_combs st)) |} :: x),
  (cb :: c); split=> //.
- by rewrite h1 /= cat_rcons.
- by rewrite h2 /= cat_rcons.
move=> hF; have hs : size (sd_act s) = n by inversion hF.
have hF' : List.Forall (fun s => size (sd_act s) = n) l by inversion hF.
have [h5 h6] := h4 hF'.
split; first by rewrite /= size_map hs eqxx.
rewrite /= cat_rcons in h6; constructor; last exact: h6.
have vact row : (row < n)%N -> nth 0 cb row = (active s row)%:R.
  by move=> hr; rewrite (nth_map false) ?hs //; rewrite /active; case: nth.
split=> //=.
- by rewrite size_cat /= addnS ltnS leq_addr.
- by rewrite q_deg hd.
- by rewrite q_deg.
- move=> sl cell row hr ->; rewrite nth_cat ltnn subnn /= vact //.
  by case: active; rewrite ?oner_eq0 ?eqxx.
- by move=> _ sl cell row hr ->; rewrite nth_cat ltnn subnn /= vact.
- by move=> row hr ha; rewrite nth_cat ltnn subnn /= vact // ha oner_eq0.
Qed.
End Greedy.

Lemma perm_parts (l : seq sdesc) (p : pred sdesc) :
  perm_eq (map sd_sel ([seq s <- l | p s] ++ [seq s <- l | ~~ p s])) (map sd_sel l).
Proof.
elim: l => [|s l IH] //=; rewrite map_cat in IH.
case: (p s) => /=; rewrite map_cat /=; first by rewrite perm_cons.
by rewrite -cat1s perm_catCA cat1s perm_cons.
Qed.

Section Process.
Variables (S : Type) (alloc : S -> S * expr F) (maxd n : nat).
Variables (P : nat -> S -> Prop) (q : nat -> expr F).
Hypothesis allocP : forall k s, P k s -> exists s', alloc s = (s', q k) /\ P k.+1 s'.
Hypothesis q_nosel : forall k, no_sel (q k).
Hypothesis q_deg : forall k, degree (q k) = 1%N.
Hypothesis hchar : char_gt maxd.
Hypothesis maxd0 : (0 < maxd)%N.

Lemma processSpec (l : seq sdesc) s0 : P 0 s0 ->
  (forall s, List.In s l -> size (sd_act s) = n /\ (sd_deg s <= maxd)%N) ->
  exists st sds, [/\ process alloc maxd l s0 = Some st,
    P (size (p_combs st)) (p_s st) /\ all (fun a => size a == n) (p_combs st),
    perm_eq (map sd_sel sds) (map sd_sel l),
    (forall s, List.In s sds -> List.In s l) &
    List.Forall2 (good n maxd q (p_combs st)) sds (p_assigns st)].
Proof.
move=> hP hl; case: l hl => [|s1 l1] hl.
  by exists {| p_s := s0; p_combs := [::]; p_assigns := [::] |}, [::]; split=> //; constructor.
rewrite /process; set l := s1 :: l1 in hl *.
have n1 : size (sd_act s1) = n by have [] := hl s1 (or_introl erefl).
have hF : List.Forall (fun s => size (sd_act s) = n) l.
  by apply/List.Forall_forall => s /hl[].
have -> : all (fun a => size (sd_act a) == size (sd_act s1)) l.
  rewrite n1; elim: hF => //= s l' -> _ ->; by rewrite eqxx.
set st0 : pst F S := {| p_s := s0; p_combs := [::]; p_assigns := [::] |}.
have [x [c [h1 h2 h3 h4]]] := retainSpec n allocP q_nosel q_deg l (st := st0) maxd0 hP.
have [h5 h6] := h4 hF; rewrite /= in h1 h2 h6.
set st1 := foldl _ _ _ in h1 h2 h3 *.
set sels := [seq s <- l | sd_deg s != 0%N].
have insel s : List.In s sels -> List.In s l /\ sd_deg s != 0%N.
  rewrite /sels; elim: (l) => //= s' l' IH; case: ifP => hd /=.
    by case=> [<-|/IH[]]; auto.
  by move/IH => []; auto.
have nthin (T : Type) (d : T) (u : seq T) i : (i < size u)%N -> List.In (nth d u i) u.
  elim: u i => // y u IH [|i] /= hi; first by left.
  by right; apply: IH.
have acts i : (i < size sels)%N -> size (sd_act (nth d0 sels i)) = n.
  by move=> /(nthin _ d0) /insel [/hl[]].
have degs i : (i < size sels)%N -> (0 < sd_deg (nth d0 sels i) <= maxd)%N.
  by move=> /(nthin _ d0) /insel [/hl[_ ->]]; rewrite lt0n => ->.
have [||||||st' [done [g1 g2 [g3 g3'] [[c' [g4 g4']] [x' g5]] g6]]] :=
  greedySpec acts degs allocP q_nosel q_deg hchar (off := size x) (r := size sels) (k := 0)
    (added := nseq (size sels) false) (st := st1) (done := [::]) (add0n _) (size_nseq _ _) h3.
- by [].
- by rewrite h1 /= addn0.
- by [].
- by [].
- by move=> i; rewrite nth_nseq if_same.
- by [].
exists st', ([seq s <- l | sd_deg s == 0%N] ++ [seq nth d0 sels i | i <- done]); split.
- by rewrite n1 -g1 /restof subn0 drop0.
- by split=> //; rewrite g4 all_cat h2 h5.
- rewrite map_cat -map_comp; apply: perm_trans (perm_parts l (fun s => sd_deg s == 0%N)).
  rewrite map_cat perm_cat2l; apply: (perm_trans (perm_map _ g3')).
  by rewrite map_comp map_nth_iota0 // take_size.
- move=> s hin; case: (List.in_app_or _ _ _ hin); last first.
    have : all (fun i => i < size sels)%N done.
      by rewrite (perm_all _ g3'); apply/allP => i; rewrite mem_iota.
    elim: (done) => //= i dn IH /andP[hi ha] [<-|]; last exact: IH.
    by have [] := insel _ (nthin _ d0 _ _ hi).
  elim: (l) => //= s' l' IH; case: ifP => hd /=; last by auto.
  by case=> [<-|/IH]; auto.
- rewrite g5 h1; apply: List.Forall2_app.
    by apply: (F2_impl _ h6) => a b h; rewrite g4 h2; apply: good_cat.
  have sx : size x' = size done.
    by apply/eqP; rewrite -(eqn_add2l (size x)) g3 g5 h1 size_cat.
  have {}g6 t : (t < size done)%N -> good n maxd q (p_combs st') (nth d0 sels (nth 0%N done t)) (nth a0 x' t).
    by move=> ht; have := g6 t ht; rewrite g5 h1 nth_cat ltnNge leq_addr /= addKn.
  elim: (done) (x') sx g6 => [|i dn IH] [|y xs] //= [ss] g6; constructor.
    exact: (g6 0%N).
  by apply: IH => // t ht; apply: (g6 t.+1).
Qed.
End Process.
End Sel.
