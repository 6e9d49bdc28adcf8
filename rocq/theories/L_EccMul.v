(* Soundness of the parts of variable-base scalar multiplication: the running invariant after j bits is
   accumulator = [2^j + 1 + 2 z] B, where z < 2^j is what the running sum holds. *)
Set Warnings "-notation-overridden,-ambiguous-paths".
From mathcomp Require Import all_ssreflect all_algebra.
From Verif Require Import FieldTac Util M_Env M_Assigned P_Assigned M_Circuit S_Circuit M_Selectors M_Value M_Region S_Region
  M_Layout S_Layout M_Utilities L_Region L_Gadget M_Ecc S_Curve L_Curve L_Group L_Multiples P_Ecc P_CondSwap M_EccMul.
Import GRing.Theory.
Set Implicit Arguments.
Unset Strict Implicit.
Local Open Scope ring_scope.
Local Arguments at_row : simpl never.
Local Arguments esub : simpl never.
Local Arguments padd : simpl never.
Local Arguments pmul : simpl never.

(* running sums of bits *)
Definition doubles (x y : nat) : bool := (y == 2 * x)%N || (y == 2 * x + 1)%N.
Lemma doubles_lt x y j : doubles x y -> (x < 2 ^ j)%N -> (y < 2 ^ j.+1)%N.
Proof. by rewrite expnS => /orP[] /eqP -> h; nlia. Qed.
Lemma doubles_div x y : doubles x y -> x = (y %/ 2)%N.
Proof. by case/orP=> /eqP ->; rewrite mulnC ?divnMDl ?mulnK // addn0. Qed.
Lemma path_last_lt x l j : path doubles x l -> (x < 2 ^ j)%N -> (last x l < 2 ^ (j + size l))%N.
Proof.
elim: l x j => [|y l IH] x j /=; first by rewrite addn0.
by case/andP=> /doubles_lt h hp /h{}h; rewrite addnS -addSn; apply: IH.
Qed.
Lemma path_nth x l i : path doubles x l -> (i <= size l)%N -> nth 0%N (x :: l) i = (last x l %/ 2 ^ (size l - i))%N.
Proof.
elim: l x i => [|y l IH] x i /=; first by rewrite leqn0 => _ /eqP ->; rewrite divn1.
case/andP=> hd hp; case: i => [_|i]; last by rewrite ltnS => hi; rewrite subSS -(IH y).
have := IH y 0%N hp isT; rewrite /= !subn0 expnSr divnMA => <-; exact: doubles_div.
Qed.

Section Rules.
Variables (F : fieldType) (T : table F) (place : nat -> int) (inst : nat -> nat -> value F) (r : nat).
Notation rsound := (rsound T place inst r).
Lemma rsound_e c o v (Q : ecell F -> Prop) : Q (ECell v (Cell r o (Advice, c))) -> rsound (assign_e r c o v) Q.
Proof. by move=> h a [<-]. Qed.
Lemma rsound_copy_e a c o (Q : ecell F -> Prop) :
  (t_cell T Advice c (place r + o%:Z) = cell_value T place (ec_cell a) -> Q (ECell (ec_value a) (Cell r o (Advice, c)))) ->
  rsound (copy_e r a c o) Q.
Proof. by move=> h a' [<-]; rewrite /= !respects_cons => -[_ [/= e _]]; apply: h. Qed.
Lemma rsound_enable_rows s o n (Q : unit -> Prop) :
  ((forall i, (i < n)%N -> t_selector T s (place r + (o + i)%N%:Z)) -> Q tt) -> rsound (enable_rows F s o n) Q.
Proof.
move=> h [] _; have [-> _] := enable_rowsE inst s o n => hr; apply: h => i hi.
have : List.In (OEnable s (o + i) : rop F) [seq OEnable s (o + i) | i <- iota 0 n].
  have : i \in iota 0 n by rewrite mem_iota.
  elim: (iota 0 n) => //= j l IH; rewrite inE => /orP[/eqP ->|/IH]; by [left|right].
by move: hr; rewrite /respects List.Forall_forall => /[apply].
Qed.
Lemma rsound_try (u : res unit) (Q : unit -> Prop) : Q tt -> rsound (try_unit F u) Q.
Proof. by case: u => [[]|e|] h a //= [<-]. Qed.
Lemma rsound_add b c p q o P Q0 (Q : ecpoint F -> Prop) :
  good_curve b -> on_curve b P -> on_curve b Q0 -> gates_hold T (add_gates F c) ->
  point_in T place p P -> point_in T place q Q0 ->
  (forall u, point_in T place u (padd P Q0) -> Q u) ->
  rsound (add_region c r p q o) Q.
Proof. by move=> hc hP hQ hg p1 q1 h u e hr; apply: h; exact: (C45_add_sound hc hP hQ e hr hg). Qed.
End Rules.

Lemma bit_cases (F : fieldType) (k : F) : k * (1 - k) = 0 -> exists t : bool, k = t%:R.
Proof. by move/eqP; rewrite mulf_eq0 subr_eq0 => /orP[/eqP ->|/eqP <-]; [exists false|exists true]. Qed.

Section Incomplete.
Variables (F : fieldType) (b : F) (T : table F) (place : nat -> int) (r : nat).
Add Field Ff : (F_field_theory F).
Hypothesis hc : good_curve b.
Variables (q : nat) (B : F * F).
Hypotheses (hB : on_curve b (Some B)) (pq : prime q) (hq : pmul q (Some B) = None).
Variables (c : dbl_config) (n offset : nat).
Hypothesis hg : gates_hold T (dbl_gates F c).

(* the value of a column k rows after the first row of the block *)
Let v (col k : nat) : F := t_cell T Advice col (place r + (offset + k)%N%:Z).
Let xr k := v (db_l1 c) k ^+ 2 - v (db_xa c) k - v (db_xp c) k.
Let YA k := 2%:R^-1 * ((v (db_l1 c) k + v (db_l2 c) k) * (v (db_xa c) k - xr k)).

Lemma next_row k : place r + (offset + k)%N%:Z + 1 = place r + (offset + k.+1)%N%:Z.
Proof. by rewrite -addrA -PoszD addn1 addnS. Qed.
Lemma prev_row k : place r + (offset + k.+1)%N%:Z + -1 = place r + (offset + k)%N%:Z.
Proof. by rewrite -next_row addrK. Qed.

Lemma y_a0 k : at_row T (place r + (offset + k)%N%:Z) (y_a F c 0) = YA k.
Proof. by rewrite /y_a /Y_A /x_r /esquare !rowE !addr0. Qed.
Lemma y_a1 k : at_row T (place r + (offset + k)%N%:Z) (y_a F c 1) = YA k.+1.
Proof. by rewrite /y_a /Y_A /x_r /esquare !rowE !next_row. Qed.

(* what the gates of one row say *)
Definition row_ok (k : nat) (ya' : F) : Prop :=
  exists t : bool, [/\ v (db_z c) k.+1 = 2%:R * v (db_z c) k + t%:R,
    v (db_l1 c) k.+1 * (v (db_xa c) k.+1 - v (db_xp c) k.+1) = YA k.+1 - (if t then v (db_yp c) k.+1 else - v (db_yp c) k.+1),
    v (db_xa c) k.+2 = v (db_l2 c) k.+1 ^+ 2 - xr k.+1 - v (db_xa c) k.+1 &
    ya' = v (db_l2 c) k.+1 * (v (db_xa c) k.+1 - v (db_xa c) k.+2) - YA k.+1].
Lemma for_loop_ok k ynext : (forall g, List.In g (for_loop c ynext) -> at_row T (place r + (offset + k.+1)%N%:Z) g = 0) ->
  row_ok k (at_row T (place r + (offset + k.+1)%N%:Z) ynext).
Proof.
move=> h.
have h1 := h _ (or_introl erefl); have h2 := h _ (or_intror (or_introl erefl)).
have h3 := h _ (or_intror (or_intror (or_introl erefl))); have h4 := h _ (or_intror (or_intror (or_intror (or_introl erefl)))).
move: h1 h2 h3 h4; rewrite bool_checkE !rowE !addr0 ?next_row ?prev_row.
rewrite -![t_cell T Advice _ (place r + (offset + k)%N%:Z)]/(v _ k) -![t_cell T Advice _ (place r + (offset + k.+1)%N%:Z)]/(v _ k.+1)
  -![t_cell T Advice _ (place r + (offset + k.+2)%N%:Z)]/(v _ k.+2).
case/bit_cases=> t et; rewrite et => h2 h3 h4; exists t; rewrite /YA /xr; split.
- by rewrite -et addrC subrK.
- apply/eqP; rewrite -subr_eq0 -[X in _ == X]h2; apply/eqP.
  by case: (t); rewrite ?mulr1 ?mulr0; fnorm F; ring.
- by apply/esym/eqP; rewrite -subr_eq0 -[X in _ == X]h3; apply/eqP; fnorm F; ring.
- by apply/esym/eqP; rewrite -subr_eq0 -[X in _ == X]h4; apply/eqP; fnorm F; ring.
Qed.

Lemma in_map (A C : Type) (f : A -> C) x s : List.In x s -> List.In (f x) [seq f x | x <- s].
Proof. by elim: s => //= y s IH [->|/IH]; [left|right]. Qed.
Lemma in_cat (A : Type) (x : A) s1 s2 : List.In x (s1 ++ s2) <-> List.In x s1 \/ List.In x s2.
Proof. by elim: s1 => [|y s1 IH] //=; [split; [right|case]|rewrite IH; tauto]. Qed.
Lemma sel_gate s g row : t_selector T s row -> List.In (EProduct (ESelector F s true) g) (dbl_gates F c) -> at_row T row g = 0.
Proof. by move=> hs hi; have := gate_at row hg hi; rewrite at_mul at_sel hs mul1r. Qed.

Hypothesis n0 : (0 < n)%N.
Hypothesis s1 : t_selector T (q_mul_1 c) (place r + (offset + 0)%N%:Z).
Hypothesis s2 : forall i, (i < n - 1)%N -> t_selector T (q_mul_2 c) (place r + (offset + i.+1)%N%:Z).
Hypothesis s3 : t_selector T (q_mul_3 c) (place r + (offset + n)%N%:Z).

Let yv i := if (i < n)%N then YA i.+1 else v (db_l1 c) n.+1.
Lemma row_all i : (i < n)%N -> row_ok i (yv i.+1).
Proof.
move=> hi; rewrite /yv; case: ltnP => hi'.
  rewrite -y_a1; apply: for_loop_ok => g hgin.
  have hs : t_selector T (q_mul_2 c) (place r + (offset + i.+1)%N%:Z) by apply: s2; nlia.
  apply: sel_gate hs _; rewrite /dbl_gates !in_cat; right; left; apply: in_map; rewrite in_cat; by right.
have e : i.+1 = n by apply/eqP; rewrite eqn_leq hi hi'.
have -> : v (db_l1 c) n.+1 = at_row T (place r + (offset + i.+1)%N%:Z) (EAdvice F 0 (db_l1 c) 1).
  by rewrite at_adv next_row e.
apply: for_loop_ok => g hgin; rewrite e.
by apply: sel_gate s3 _; rewrite /dbl_gates !in_cat; right; right; apply: in_map.
Qed.
Lemma first_y : v (db_l1 c) 0 = yv 0.
Proof.
rewrite /yv n0 -y_a1; apply/eqP; rewrite -subr_eq0.
have := sel_gate s1 (or_introl erefl); rewrite at_sub at_adv addr0 => /eqP; exact.
Qed.
Hypothesis hxp : v (db_xp c) 1 = B.1.
Hypothesis hyp : v (db_yp c) 1 = B.2.
Lemma base_row i : (i < n)%N -> v (db_xp c) i.+1 = B.1 /\ v (db_yp c) i.+1 = B.2.
Proof.
elim: i => [//|i IH] hi; have [e1 e2] := IH (ltnW hi).
have hs : t_selector T (q_mul_2 c) (place r + (offset + i.+1)%N%:Z) by apply: s2; nlia.
have g1 : at_row T (place r + (offset + i.+1)%N%:Z) (esub (EAdvice F 0 (db_xp c) 0) (EAdvice F 0 (db_xp c) 1)) = 0.
  by apply: sel_gate hs _; rewrite /dbl_gates !in_cat; right; left; apply: in_map; left.
have g2 : at_row T (place r + (offset + i.+1)%N%:Z) (esub (EAdvice F 0 (db_yp c) 0) (EAdvice F 0 (db_yp c) 1)) = 0.
  by apply: sel_gate hs _; rewrite /dbl_gates !in_cat; right; left; apply: in_map; right; left.
move: g1 g2; rewrite !rowE !addr0 !next_row => /eqP; rewrite subr_eq0 => /eqP u1 /eqP; rewrite subr_eq0 => /eqP u2.
by split; [rewrite -e1|rewrite -e2]; apply: esym.
Qed.

Variables (j z : nat).
Hypotheses (hz : (z < 2 ^ j)%N) (hqn : (2 ^ (j + n + 2) <= q)%N).
Hypothesis hz0 : v (db_z c) 0 = z%:R.
Hypothesis hacc : (v (db_xa c) 1, v (db_l1 c) 0) = encode (pmul (2 ^ j + 1 + 2 * z) (Some B)).

Lemma dbl_step_ok i zi : (i < n)%N -> (zi < 2 ^ (j + i))%N -> v (db_z c) i = zi%:R ->
  Some (v (db_xa c) i.+1, yv i) = pmul (2 ^ (j + i) + 1 + 2 * zi) (Some B) ->
  exists2 zi', doubles zi zi' & v (db_z c) i.+1 = zi'%:R /\
    Some (v (db_xa c) i.+2, yv i.+1) = pmul (2 ^ (j + i.+1) + 1 + 2 * zi') (Some B).
Proof.
move=> hi hzi ez eA; set a := (2 ^ (j + i) + 1 + 2 * zi)%N in eA.
have pow : (8 * 2 ^ (j + i) <= q)%N.
  apply: leq_trans hqn; rewrite -[8%N]/(2 ^ 3)%N -expnD leq_exp2l //; nlia.
have a2 : (2 <= a)%N by rewrite /a; have := expn_gt0 2 (j + i); nlia.
have ab : (2 * a + 1 < q)%N by rewrite /a; nlia.
have [t [e1 e2 e3 e4]] := row_all hi; have [ex ey] := base_row hi.
have eyv : yv i = YA i.+1 by rewrite /yv hi.
rewrite -eyv ex ey in e2; rewrite -eyv in e4.
have [nx nr] := dbl_distinct hc t (xr i.+1) (v (db_l1 c) i.+1 * (v (db_xa c) i.+1 - xr i.+1) - yv i) hB pq hq a2 ab (esym eA).
have two0 : (2%:R : F) != 0 by case: hc.
have esg : signed t (Some B) = Some (B.1, if t then B.2 else - B.2) by rewrite /signed; case: (t); case: (B).
have exr : xr i.+1 = v (db_l1 c) i.+1 ^+ 2 - v (db_xa c) i.+1 - B.1 by rewrite /xr ex.
have nr' : xr i.+1 != v (db_xa c) i.+1.
  apply: nr; rewrite esg /padd nx exr.
  have nd1 : B.1 - v (db_xa c) i.+1 != 0 by rewrite subr_eq0 eq_sym.
  suff -> : (((if t then B.2 else - B.2) - yv i) / (B.1 - v (db_xa c) i.+1)) = v (db_l1 c) i.+1 by [].
  apply: (mulIf nd1); rewrite mulfVK // -[LHS]opprB -e2; by fnorm F; ring.
exists (2 * zi + t)%N; first by rewrite /doubles; case: (t); rewrite ?addn0 ?eqxx ?orbT.
split; first by rewrite e1 ez natrD natrM.
rewrite (dbl_row (l1 := v (db_l1 c) i.+1) (l2 := v (db_l2 c) i.+1) (xa := v (db_xa c) i.+1) (ya := yv i) (xp := B.1) (yp := B.2) (k := t)) //.
- rewrite -esg eA (signed_step hc t hB); last by nlia.
  by congr pmul; rewrite /dstep /a (addnS j i) expnS; case: (t) => /=; nlia.
- by rewrite -exr.
- by rewrite eyv /YA -exr mulrA mulrV ?unitfE // mul1r.
- by rewrite e3 exr.
Qed.
Lemma dbl_ok : exists l : seq nat, [/\ size l = n, path doubles z l,
  [seq v (db_z c) i.+1 | i <- iota 0 n] = [seq k%:R | k <- l] &
  (v (db_xa c) n.+1, v (db_l1 c) n.+1) = encode (pmul (2 ^ (j + n) + 1 + 2 * last z l) (Some B))].
Proof.
have nB : Some B <> None by [].
have hstart : Some (v (db_xa c) 1, yv 0) = pmul (2 ^ j + 1 + 2 * z) (Some B).
  rewrite -first_y; move: hacc.
  case e: (pmul _ _) => [[x y]|] /=; first by move=> [-> ->].
  have h2 : (2 ^ (j + n + 2) = 4 * (2 ^ j * 2 ^ n))%N by rewrite !expnD mulnC.
  have p2 : (0 < 2 ^ n)%N by rewrite expn_gt0.
  have p3 : (2 ^ j <= 2 ^ j * 2 ^ n)%N by rewrite leq_pmulr.
  have hM := hqn; rewrite h2 in hM; move: (2 ^ j * 2 ^ n)%N p3 hM => M p3 hM.
  by case: (@order_neq _ _ hc q (2 ^ j + 1 + 2 * z) _ hB nB pq hq) => //; apply/andP; split; nlia.
suff H i : (i <= n)%N -> exists l : seq nat, [/\ size l = i, path doubles z l,
    [seq v (db_z c) i.+1 | i <- iota 0 i] = [seq k%:R | k <- l] &
    Some (v (db_xa c) i.+1, yv i) = pmul (2 ^ (j + i) + 1 + 2 * last z l) (Some B)].
  have [l [h1 h2 h3 h4]] := H n (leqnn n); exists l; split=> //; rewrite -h4 /yv ltnn //.
elim: i => [|i IH] hi; first by exists [::]; split; rewrite ?addn0.
have [l [h1 h2 h3 h4]] := IH (ltnW hi).
have hl : (last z l < 2 ^ (j + i))%N by rewrite -h1; apply: path_last_lt.
have ez : v (db_z c) i = (last z l)%:R.
  case: (i) h1 h3 => [|i'] h1 h3; first by move/size0nil: h1 => ->.
  move: h3; rewrite -[i'.+1]addn1 iotaD map_cat /= => e.
  have := congr1 (last 0) e; rewrite last_cat /= add0n addn1 => ->.
  by case/lastP: l h1 {h2 h4 hl e} => [//|l x] _; rewrite map_rcons !last_rcons.
have [z' hd [e1 e2]] := dbl_step_ok hi hl ez h4.
exists (rcons l z'); split.
- by rewrite size_rcons h1.
- by rewrite rcons_path h2.
- by rewrite -addn1 iotaD map_cat /= h3 add0n e1 map_rcons cats1.
- by rewrite last_rcons.
Qed.
End Incomplete.

Section Programs.
Variables (F : fieldType) (b : F) (T : table F) (place : nat -> int) (inst : nat -> nat -> value F) (r : nat).
Add Field Ff2 : (F_field_theory F).
Hypothesis hc : good_curve b.
Variables (q : nat) (B : F * F).
Hypotheses (hB : on_curve b (Some B)) (pq : prime q) (hq : pmul q (Some B) = None).
Notation rsound := (rsound T place inst r).
Notation "'val' a" := (cell_value T place (ac_cell a)) (at level 10, a at level 8).
Notation at_ col o := (t_cell T Advice col (place r + (o)%N%:Z)).

(* the assigned cells hold a running sum of bits that starts at z *)
Definition sums (z : nat) (zs : seq (acell F)) (l : seq nat) : Prop :=
  path doubles z l /\ [seq val a | a <- zs] = [seq k%:R | k <- l].
(* after j bits *)
Definition accum (j : nat) (z : nat) (p : ecpoint F) : Prop :=
  point_in T place p (pmul (2 ^ j + 1 + 2 * z) (Some B)).

Lemma dbl_loop_cells c offset xp yp row bits xa ya z :
  rsound (dbl_loop c r offset xp yp row bits xa ya z) (fun t =>
    [seq ac_cell a | a <- t.2] = [seq Cell r (row + i + offset) (Advice, db_z c) | i <- iota 0 (size bits)] /\
    ec_cell t.1.1 = if bits is [::] then ec_cell xa else Cell r (row + size bits + offset) (Advice, db_xa c)).
Proof.
elim: bits row xa ya z => [|k bits IH] row xa ya z; first exact: rsound_ret.
apply: rsound_bind; apply: rsound_advice; do 4!(apply: rsound_bind; apply: rsound_e); apply: rsound_bind; apply: rsound_e.
apply: rsound_bind; apply: rsound_weaken (IH _ _ _ _) => -[[xa' ya'] zs] [e1 e2]; rewrite /= in e1 e2.
apply: rsound_ret; split => /=.
  rewrite e1 addn0; congr cons; rewrite (iotaDl 1 0) -map_comp; apply: eq_map => i /=.
  by rewrite addSnnS.
by rewrite e2; case: (bits) => [|k' bits'] /=; congr Cell; nlia.
Qed.
Lemma point_in_pair p x y : point_in T place p (Some (x, y)) <->
  cell_value T place (ec_cell (ep_x p)) = x /\ cell_value T place (ec_cell (ep_y p)) = y.
Proof. by rewrite /point_in /=; split=> [[-> ->]|[-> ->]]. Qed.

Lemma double_and_add_sound c n offset base bits ax ay az j z :
  gates_hold T (dbl_gates F c) -> at_ (db_xp c) (offset + 1) = B.1 -> at_ (db_yp c) (offset + 1) = B.2 ->
  (z < 2 ^ j)%N -> (2 ^ (j + n + 2) <= q)%N -> val az = z%:R -> accum j z (ECPoint ax ay) ->
  rsound (double_and_add c n r offset base bits (ax, ay, az)) (fun t => exists l,
    [/\ size l = n, sums z t.2 l & accum (j + n) (last z l) (ECPoint t.1.1 t.1.2)]).
Proof.
move=> hg hx hy hz hqn ez hacc; rewrite /double_and_add.
case: ifP => [_|/norP[/negbNE/eqP hs n0]]; first exact: rsound_panic.
apply: rsound_bind; apply: rsound_try; apply: rsound_bind; apply: rsound_enable => s1.
apply: rsound_bind; apply: rsound_enable_rows => s2; apply: rsound_bind; apply: rsound_enable => s3.
apply: rsound_bind; apply: rsound_copy => e1; apply: rsound_bind; apply: rsound_copy_e => e2.
apply: rsound_bind; apply: rsound_copy_e => e3; apply: rsound_bind.
apply: rsound_weaken (@dbl_loop_cells _ _ _ _ _ _ _ _ _) => -[[xa ya] zs] [h1 h2]; rewrite /= in h1 h2.
 apply: rsound_bind; apply: rsound_e; apply: rsound_ret => /=.
have n1 : (0 < n)%N by rewrite lt0n.
have [] := @dbl_ok F b T place r hc q B hB pq hq c n offset hg n1 _ _ _ _ _ j z hz hqn _ _.
- by rewrite addn0.
- by move=> i hi; have := s2 i hi; rewrite -addnA add1n.
- by move: s3; rewrite -addnBA // -addnA subnKC.
- exact: hx.
- exact: hy.
- by rewrite addn0 e1.
- by rewrite addn0 e3 e2.
move=> l [l1 l2 l3 l4]; exists l; split=> //.
  split=> //; rewrite -l3; rewrite hs in h1.
  rewrite [LHS](map_comp (cell_value T place) (@ac_cell F)) h1 -map_comp; apply: eq_map => i /=.
  by rewrite /cell_value /row_of /=; congr (t_cell _ _ _ (_ + Posz _)); nlia.
rewrite /accum /point_in -l4 /= h2 hs; case: bits hs {h1 h2} => [hs|k bits hs]; first by rewrite -hs in n1.
by rewrite /cell_value /row_of /=; congr (t_cell _ _ _ (_ + Posz _), t_cell _ _ _ (_ + Posz _)); nlia.
Qed.

(* ---- complete additions *)
Lemma accum_step j z (t : bool) p u w :
  accum j z p -> on_curve b w -> w = signed t (Some B) ->
  point_in T place u (padd (pmul (2 ^ j + 1 + 2 * z) (Some B)) (padd w (pmul (2 ^ j + 1 + 2 * z) (Some B)))) ->
  accum j.+1 (2 * z + t) u.
Proof.
move=> _ hw ew; rewrite /accum ew; set a := (2 ^ j + 1 + 2 * z)%N.
rewrite (paddC hc (signed_on t hB) (pmul_on hc a hB)) (signed_step hc t hB); last by nlia.
suff -> : dstep a t = (2 ^ j.+1 + 1 + 2 * (2 * z + t))%N by [].
by rewrite /dstep /a expnS; case: (t) => /=; nlia.
Qed.
Lemma comp_loop_sound c offset base iter bits acc za j z :
  gates_hold T (comp_gates F c) -> gates_hold T (add_gates F (co_add c)) ->
  point_in T place base (Some B) -> accum j z acc ->
  ac_cell za = Cell r (2 * iter + offset) (Advice, z_complete c) -> val za = z%:R ->
  (forall i, (i < size bits)%N -> t_selector T (q_mul_decompose_var c) (place r + (2 * (iter + i) + offset + 1)%N%:Z)) ->
  rsound (comp_loop c r offset base iter bits acc za) (fun t => exists l,
    [/\ size l = size bits, sums z t.2 l, accum (j + size bits) (last z l) t.1 &
        ac_cell (last za t.2) = Cell r (2 * (iter + size bits) + offset) (Advice, z_complete c)]).
Proof.
move=> hg hga hb; elim: bits iter acc za j z => [|k bits IH] iter acc za j z hacc ca ez hs.
  by apply: rsound_ret; exists [::]; split; rewrite ?addn0.
apply: rsound_bind; apply: rsound_advice; apply: rsound_bind; apply: rsound_copy_e => eb.
apply: rsound_bind; apply: rsound_e.
case eB: B hb => [Bx By] /point_in_pair[bx by_].
set a := (2 ^ j + 1 + 2 * z)%N in hacc; set row := (2 * iter + offset)%N.
have hs0 := hs 0%N isT; rewrite addn0 -/row in hs0.
have gate g : List.In g [seq EProduct (ESelector F (q_mul_decompose_var c) true) p | p <- [:: bool_check
     (esub (EAdvice F 0 (z_complete c) 1) (EProduct (EConstant 2%:R) (EAdvice F 0 (z_complete c) (-1))));
     ternary (esub (EAdvice F 0 (z_complete c) 1) (EProduct (EConstant 2%:R) (EAdvice F 0 (z_complete c) (-1))))
       (esub (EAdvice F 0 (z_complete c) 0) (EAdvice F 0 (ad_yp (co_add c)) (-1)))
       (ESum (EAdvice F 0 (z_complete c) 0) (EAdvice F 0 (ad_yp (co_add c)) (-1)))]] ->
     at_row T (place r + (row + 1)%N%:Z) g = 0 by exact: gate_at hg.
have g1 := gate _ (or_introl erefl); have g2 := gate _ (or_intror (or_introl erefl)).
have up : place r + (row + 1)%N%:Z + 1 = place r + (row + 2)%N%:Z by rewrite -addrA -PoszD -addnA.
have dn : place r + (row + 1)%N%:Z + -1 = place r + row%:Z by rewrite PoszD addrA addrK.
move: g1 g2; rewrite /ternary at_mul bool_checkE !rowE hs0 !mul1r !addr0 up dn.
have -> : at_ (z_complete c) row = z%:R by rewrite -ez /cell_value ca /row_of.
rewrite eb by_; case/bit_cases=> t et; rewrite et => esw.
have ez' : at_ (z_complete c) (row + 2) = (2 * z + t)%N%:R.
  by rewrite natrD natrM -et [RHS]addrC subrK.
have ey : at_ (ad_yp (co_add c)) row = if t then By else - By.
  case: (t) esw; rewrite ?mul1r ?subrr ?mul0r ?addr0 ?subr0 ?mul1r ?add0r.
    by move/eqP; rewrite subr_eq0 => /eqP.
  by move/eqP; rewrite addrC addr_eq0 => /eqP.
pose w := signed t (Some B).
have hw : on_curve b w by exact: signed_on.
have hA := pmul_on hc a hB.
apply: rsound_bind; apply: (rsound_add (P := w) (Q0 := pmul a (Some B)) hc hw hA hga) => //.
  rewrite /point_in /= bx /cell_value /row_of /= -/row ey /w /signed eB; by case: (t).
move=> tmp htmp; apply: rsound_bind.
apply: (rsound_add (P := pmul a (Some B)) (Q0 := padd w (pmul a (Some B))) hc hA _ hga) => //.
  exact: (padd_on_curve hc hw hA).
move=> acc' hacc'; have {}hacc' := accum_step hacc hw erefl hacc'.
apply: rsound_bind; apply: rsound_weaken (IH iter.+1 acc' _ j.+1 (2 * z + t)%N hacc' _ _ _).
- move=> [p zs] [l [/= l1 [l2 l3] l4 l5]]; apply: rsound_ret; exists ((2 * z + t)%N :: l); split=> /=.
  + by rewrite l1.
  + split=> /=; last by rewrite l3; congr cons; rewrite /cell_value /row_of /= -/row -ez'.
    by rewrite l2 andbT /doubles; case: (t); rewrite ?addn0 ?eqxx ?orbT.
  + by rewrite addnS -addSn.
  + by rewrite l5; congr Cell; nlia.
- by rewrite /=; congr Cell; nlia.
- by rewrite /cell_value /row_of /= -/row.
- by move=> i hi; rewrite addSnnS; apply: hs.
Qed.
Lemma rsound_comp_enable c o n (Q : unit -> Prop) :
  ((forall i, (i < n)%N -> t_selector T (q_mul_decompose_var c) (place r + (2 * i + o + 1)%N%:Z)) -> Q tt) ->
  rsound (comp_enable F c o n) Q.
Proof.
move=> h [] _; have -> : calls inst (comp_enable F c o n) = [seq OEnable (q_mul_decompose_var c) (2 * i + o + 1) | i <- iota 0 n].
  by rewrite /comp_enable; elim: (iota 0 n) => //= i l ->.
move=> hr; apply: h => i hi.
have : List.In (OEnable (q_mul_decompose_var c) (2 * i + o + 1) : rop F)
    [seq OEnable (q_mul_decompose_var c) (2 * i + o + 1) | i <- iota 0 n].
  have : i \in iota 0 n by rewrite mem_iota.
  elim: (iota 0 n) => //= i' l IH; rewrite inE => /orP[/eqP ->|/IH]; by [left|right].
by move: hr; rewrite /respects List.Forall_forall => /[apply].
Qed.
Lemma comp_region_sound m c offset bits base xa ya za j z :
  gates_hold T (comp_gates F c) -> gates_hold T (add_gates F (co_add c)) ->
  point_in T place base (Some B) -> accum j z (ECPoint xa ya) -> val za = z%:R ->
  rsound (comp_region m c r offset bits base xa ya za) (fun t => exists l,
    [/\ size l = mp_complete m, sums z t.2 l, accum (j + mp_complete m) (last z l) t.1 &
        t.2 <> [::] -> forall za, ac_cell (last za t.2) = Cell r (offset + mp_complete m * 2) (Advice, z_complete c)]).
Proof.
move=> hg hga hb hacc ez; rewrite /comp_region; case: ifP => [_|/negbFE/eqP hs]; first exact: rsound_panic.
apply: rsound_bind; apply: rsound_comp_enable => hsel.
apply: rsound_bind; apply: rsound_copy => e.
apply: rsound_weaken (comp_loop_sound hg hga hb hacc _ _ _).
- move=> [p zs] [l [l1 l2 l3 l4]]; exists l; rewrite -hs; split=> // ne za'.
  move: l4 ne => /=; case: zs {l2 l3} => //= z1 zs -> _; congr Cell; nlia.
- by rewrite /= muln0 add0n.
- by rewrite /cell_value /row_of /= e.
- by rewrite hs => i hi; apply: hsel.
Qed.

(* ---- the last bit *)
Lemma process_lsb_sound (c : mul_config) offset base acc z1 lsb j z :
  gates_hold T (lsb_gates F c) -> gates_hold T (add_gates F (mu_add c)) ->
  point_in T place base (Some B) -> accum j z acc -> val z1 = z%:R ->
  ac_cell z1 = Cell r offset (Advice, z_complete (mu_comp c)) ->
  rsound (process_lsb c r offset base acc z1 lsb) (fun t => exists2 z', doubles z z' &
    val t.2 = z'%:R /\ point_in T place t.1 (pmul (2 ^ j + z') (Some B))).
Proof.
move=> hg hga hb hacc ez cz; rewrite /process_lsb.
apply: rsound_bind; apply: rsound_enable => hs; apply: rsound_bind; apply: rsound_advice.
apply: rsound_bind; apply: rsound_copy => ex; apply: rsound_bind; apply: rsound_copy => ey.
apply: rsound_bind; apply: rsound_e; apply: rsound_bind; apply: rsound_e.
case eB: B hb => [Bx By] /point_in_pair[bx by_].
rewrite /= bx in ex; rewrite /= by_ in ey.
have e0 : at_ (z_complete (mu_comp c)) offset = z%:R by rewrite -ez /cell_value cz /row_of.
have hgr := hg (place r + offset%:Z); rewrite /lsb_gates /= /ternary at_mul bool_checkE !rowE hs !mul1r !addr0 andbT in hgr.
rewrite -!(addrA (place r)) -!PoszD ex ey e0 in hgr.
case/and3P: hgr => /eqP; case/bit_cases=> t et; rewrite et => hx hy.
set px := at_ (ad_xp (mu_add c)) offset in hx; set py := at_ (ad_yp (mu_add c)) offset in hy.
pose P := if t then None else popp (Some B).
have hP : on_curve b P by rewrite /P; case: (t) => //; exact: popp_on_curve.
have eP : (px, py) = encode P.
  move: hx hy; rewrite /P eB; case: (t); rewrite /= ?mul1r ?subrr ?mul0r ?addr0 ?subr0 ?mul1r ?add0r.
    by move=> /eqP -> /eqP ->.
  by rewrite subr_eq0 addr_eq0 => /eqP -> /eqP ->.
set a := (2 ^ j + 1 + 2 * z)%N in hacc; have hA := pmul_on hc a hB.
apply: rsound_bind; apply: (rsound_add (P := P) (Q0 := pmul a (Some B)) hc hP hA hga) => //.
move=> u hu; apply: rsound_ret; exists (2 * z + t)%N; first by rewrite /doubles; case: (t); rewrite ?addn0 ?eqxx ?orbT.
rewrite -eB; split; first by rewrite /= /cell_value /row_of /= natrD natrM -et mulrC; rewrite [RHS]addrC subrK.
suff <- : padd P (pmul a (Some B)) = pmul (2 ^ j + (2 * z + t)) (Some B) by [].
rewrite /P; case: (t); first by congr pmul; rewrite /a; nlia.
rewrite (paddC hc (popp_on_curve hB) hA) (pmul_sub1 hc hB); last by nlia.
by congr pmul; rewrite /a; nlia.
Qed.
End Programs.
