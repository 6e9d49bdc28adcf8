(* Lemmas for C23. *)
Set Warnings "-notation-overridden,-ambiguous-paths".
From mathcomp Require Import all_ssreflect perm all_algebra fingraph.
From Coq Require Import Relation_Operators.
From Verif Require Import Util M_Env M_Circuit M_Copy.
Set Implicit Arguments.
Unset Strict Implicit.

Lemma nth_upd (T : Type) (d : T) v i x j : i < size v ->
  nth d (upd v i x) j = if j == i then x else nth d v j.
Proof.
move=> hi; rewrite /upd nth_cat size_takel ?(ltnW hi) //.
case: ltngtP => [h|h|->]; last by rewrite subnn.
- by rewrite nth_take.
have -> : j - i = (j - i.+1).+1 by nlia.
by rewrite /= nth_drop; congr nth; nlia.
Qed.
Lemma size_upd (T : Type) (v : seq T) i x : i < size v -> size (upd v i x) = size v.
Proof. by move=> hi; rewrite size_cat /= size_drop size_takel ?(ltnW hi) //; nlia. Qed.

(* swapping two images of an injective map on a finite type *)
Section Swap.
Variables (T : finType) (s : T -> T).
Hypothesis s_inj : injective s.
Variables a b : T.
Hypothesis hab : ~~ fconnect s a b.
Definition swapped (z : T) : T := s (tperm a b z).
Lemma swapped_inj : injective swapped.
Proof. by move=> x y /s_inj /perm_inj. Qed.
Lemma swapped_sym : connect_sym (frel swapped).
Proof. exact: fconnect_sym swapped_inj. Qed.
Lemma swapped_out z : z != a -> z != b -> swapped z = s z.
Proof. by move=> h1 h2; rewrite /swapped tpermD // eq_sym. Qed.

Lemma nab k : iter k s b <> a.
Proof.
by move=> h; move/negP: hab; apply; rewrite fconnect_sym // -h fconnect_iter.
Qed.
Lemma iter_lt x i j : i < order s x -> j < order s x -> iter i s x = iter j s x -> i = j.
Proof.
move=> hi hj h; have u := orbit_uniq s x.
have := nth_uniq x (_ : i < size (orbit s x)) (_ : j < size (orbit s x)) u.
rewrite size_orbit => /(_ hi hj); rewrite /orbit !nth_traject // h eqxx.
by move=> /esym /eqP.
Qed.

Lemma swapped_walk k : k < order s b -> iter k swapped (swapped a) = iter k.+1 s b.
Proof.
elim: k => [_|k IH hk]; first by rewrite /= /swapped tpermL.
rewrite iterS IH; last exact: ltnW.
rewrite swapped_out //; first by apply/eqP; exact: nab.
by apply/eqP => /(@iter_lt b k.+1 0 hk (order_gt0 _ _)).
Qed.
Lemma swapped_joins : fconnect swapped a b.
Proof.
have hb := order_gt0 s b.
have := swapped_walk (k := (order s b).-1).
rewrite !prednK // leqnn iter_order // => /(_ isT) <-.
by rewrite -iterSr prednK // fconnect_iter.
Qed.
Lemma swapped_sub x y : fconnect s x y -> fconnect swapped x y.
Proof.
apply: connect_sub => {x y} z _ /eqP <-.
case: (eqVneq z a) => [->|h1]; last case: (eqVneq z b) => [->|h2].
- apply: connect_trans swapped_joins _.
  by have <- : swapped b = s a; [rewrite /swapped tpermR|exact: fconnect1].
- apply: connect_trans (_ : fconnect swapped b a) _; first by rewrite swapped_sym swapped_joins.
  by have <- : swapped a = s b; [rewrite /swapped tpermL|exact: fconnect1].
by rewrite -swapped_out // fconnect1.
Qed.

Lemma swapped_clos (lk : T -> T -> Prop) :
  (forall x y, fconnect s x y <-> clos_refl_sym_trans T lk x y) ->
  forall x y, fconnect swapped x y <->
    clos_refl_sym_trans T (fun x y => lk x y \/ (x = a /\ y = b)) x y.
Proof.
move=> H x y; set lk' := fun _ _ => _.
have sub u v : clos_refl_sym_trans T lk u v -> clos_refl_sym_trans T lk' u v.
  elim=> [p q h|p|p q _ h|p q r _ h1 _ h2].
  - by apply: rst_step; left.
  - exact: rst_refl.
  - exact: rst_sym.
  exact: rst_trans h1 h2.
split.
  move/iter_findex => <-; elim: (findex _ _ _) => [|k IH]; first exact: rst_refl.
  rewrite iterS; apply: rst_trans IH _; set z := iter _ _ _.
  apply: (@rst_trans _ _ _ (tperm a b z)); last by apply: sub; apply/H; exact: fconnect1.
  case: tpermP => [->|->|_ _]; last exact: rst_refl.
    by apply: rst_step; right.
  by apply: rst_sym; apply: rst_step; right.
elim=> [p q [h|[-> ->]]|p|p q _ h|p q r _ h1 _ h2].
- by apply: swapped_sub; apply/H; exact: rst_step.
- exact: swapped_joins.
- exact: connect0.
- by rewrite swapped_sym.
exact: connect_trans h1 h2.
Qed.

(* cycle representatives *)
Variable g : T -> T.
Hypothesis g_edge : forall z, g (s z) = g z.
Hypothesis g_rep : forall z, fconnect s z (g z).
Lemma g_conn u v : fconnect s u v -> g u = g v.
Proof.
by move/iter_findex => <-; elim: (findex _ _ _) => // k IH; rewrite iterS g_edge.
Qed.
Lemma g_eq u v : (g u == g v) = fconnect s u v.
Proof.
apply/eqP/idP => [h|]; last exact: g_conn.
apply: connect_trans (g_rep u) _; rewrite h fconnect_sym //.
Qed.
Definition relabelled (z : T) : T := if fconnect s (g b) z then g a else g z.
Lemma gb_b : fconnect s (g b) b. Proof. by rewrite fconnect_sym. Qed.
Lemma relabelled_edge z : relabelled (swapped z) = relabelled z.
Proof.
have ga : fconnect s (g b) a = false.
  apply/negP => h; move/negP: hab; apply; rewrite fconnect_sym //.
  exact: connect_trans (g_rep b) h.
have e z1 : relabelled (s z1) = relabelled z1.
  by rewrite /relabelled g_edge -same_fconnect1_r.
rewrite /swapped e; case: tpermP => [->|->|//]; rewrite /relabelled gb_b ga //.
Qed.
Lemma relabelled_rep z : fconnect swapped z (relabelled z).
Proof.
rewrite /relabelled; case: ifP => h; last exact: swapped_sub.
have h1 : fconnect s z b.
  by rewrite fconnect_sym //; apply: connect_trans (g_rep b) h.
apply: connect_trans (swapped_sub h1) _.
apply: connect_trans (_ : fconnect swapped b a) _; first by rewrite swapped_sym swapped_joins.
exact: swapped_sub.
Qed.
End Swap.

(* vectors of vectors as functions on the cells *)
Section Rep.
Variables m n : nat.
Notation T := ('I_m * 'I_n)%type.
Definition vc (x : T) : cell := (val x.1, val x.2).
Lemma vc_inj : injective vc.
Proof. by move=> [x1 x2] [y1 y2] [] /val_inj -> /val_inj ->. Qed.
Lemma vcP c : c.1 < m -> c.2 < n -> exists x, c = vc x.
Proof. by case: c => i j /= hi hj; exists (Ordinal hi, Ordinal hj). Qed.

Definition rep {A : Type} (v : seq (seq A)) (f : T -> A) : Prop :=
  [/\ size v = m, forall i, i < m -> size (nth [::] v i) = n &
      forall x, get2 v (vc x) = Some (f x)].

Lemma get2E (A : Type) (d : A) (v : seq (seq A)) c : c.1 < size v -> c.2 < size (nth [::] v c.1) ->
  get2 v c = Some (nth d (nth [::] v c.1) c.2).
Proof. by move=> h1 h2; rewrite /get2 h1 h2 (drop_nth d). Qed.

Lemma rep_ext (A : Type) (v : seq (seq A)) f1 f2 : f1 =1 f2 -> rep v f1 -> rep v f2.
Proof. by move=> e [h1 h2 h3]; split=> // x; rewrite h3 e. Qed.

Lemma set2_rep (A : Type) (v : seq (seq A)) f x y : rep v f ->
  exists2 v', set2 v (vc x) y = Some v' & rep v' (fun z => if z == x then y else f z).
Proof.
case=> h1 h2 h3; case: x => -[i hi] [j hj]; rewrite /set2 /= h1 hi h2 // hj.
eexists; first by [].
have s2 : j < size (nth [::] v i) by rewrite h2.
split.
- by rewrite size_upd // h1.
- move=> k hk; rewrite nth_upd ?h1 //; case: eqP => [_|_]; last exact: h2.
  by rewrite size_upd // h2.
move=> [[i' hi'] [j' hj']] /=; set z := (_, _).
have hz := h3 z; rewrite (get2E y) /= ?size_upd ?h1 //; last first.
  by rewrite nth_upd ?h1 //; case: eqP => [_|_]; rewrite ?size_upd ?h2.
rewrite (get2E y) /= ?h1 ?h2 // in hz.
rewrite nth_upd ?h1 //; case: (eqVneq i' i) => [e|ne].
  subst i'; rewrite nth_upd //; case: (eqVneq j' j) => [e|ne].
    subst j'; rewrite (_ : z == _ = true) //; apply/eqP; congr (_, _); exact: val_inj.
  rewrite (_ : z == _ = false) //; apply/eqP => -[] e; move/eqP: ne; case; exact: e.
rewrite (_ : z == _ = false) //; apply/eqP => -[] e _; move/eqP: ne; case; exact: e.
Qed.

Variables (mapping : seq (seq cell)) (s : T -> T).
Hypothesis s_inj : injective s.
Hypothesis rm : rep mapping (vc \o s).

Lemma relabelE x L fuel i aux (g : T -> cell) :
  i < order s x -> order s x - i <= fuel -> rep aux g ->
  exists2 aux', relabel fuel mapping aux (vc (iter i s x)) L (vc x) = Some aux' &
    rep aux' (fun z => if z \in [seq iter j s x | j <- iota i (order s x - i)] then L else g z).
Proof.
elim: fuel i aux g => [|fuel IH] i aux g hi hf ra; first by nlia.
have [aux1 e1 r1] := set2_rep (iter i s x) L ra.
case: (rm) => _ _ /(_ (iter i s x)) e2.
rewrite [relabel _ _ _ _ _ _]/= e1 [obind _ _]/= e2 /comp [obind _ _]/= -iterS.
have eo : order s x - i = (order s x - i.+1).+1 by nlia.
rewrite (inj_eq vc_inj); case: (eqVneq i.+1 (order s x)) => [e|ne].
  rewrite {1}e iter_order // eqxx; exists aux1 => //.
  apply: rep_ext r1 => z; rewrite -e subSnn /=; by rewrite mem_seq1.
have hi' : i.+1 < order s x by rewrite ltn_neqAle ne.
case: eqP => [h|_].
  by have := @iter_lt _ s x i.+1 0 hi' (order_gt0 _ _) h.
have [|aux2 e3 r3] := IH i.+1 aux1 _ hi' _ r1; first by nlia.
exists aux2 => //; apply: rep_ext r3 => z; rewrite eo /= in_cons.
by case: eqP => //= ->; case: ifP.
Qed.

Lemma relabel_cycle x L fuel aux (g : T -> cell) :
  m * n <= fuel -> rep aux g ->
  exists2 aux', relabel fuel mapping aux (vc x) L (vc x) = Some aux' &
    rep aux' (fun z => if fconnect s x z then L else g z).
Proof.
move=> hf ra; have ho : order s x - 0 <= fuel.
  apply: leq_trans hf; rewrite subn0.
  by have := max_card (fconnect s x); rewrite card_prod !card_ord.
have [aux' e r] := relabelE L (order_gt0 s x) ho ra.
exists aux' => //; apply: rep_ext r => z; rewrite subn0 fconnect_orbit.
rewrite (_ : [seq _ | _ <- _] = orbit s x) //.
apply: (@eq_from_nth _ x); rewrite size_map size_iota ?size_orbit // => i hi.
by rewrite (nth_map 0) ?size_iota // nth_iota // add0n /orbit nth_traject.
Qed.
End Rep.
