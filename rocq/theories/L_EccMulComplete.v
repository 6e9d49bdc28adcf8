(* The honest prover's variable-base scalar multiplication, part by part: each part succeeds, holds the multiple
   of the base it should, and meets the gates of the rows whose selectors it turns on. *)
Set Warnings "-notation-overridden,-ambiguous-paths".
From mathcomp Require Import all_ssreflect all_algebra.
From Verif Require Import FieldTac Util M_Env M_Assigned P_Assigned M_Circuit S_Circuit M_Selectors M_Value M_Region S_Region
  M_Layout S_Layout M_Utilities L_Region L_Gadget M_Ecc S_Curve L_Curve L_Group L_Multiples P_Ecc P_CondSwap
  S_Digits P_Bits P_RangeCheck M_EccMul L_EccMul S_Sinsemilla L_Sinsemilla P_SinsemillaComplete.
Import GRing.Theory.
Set Implicit Arguments.
Unset Strict Implicit.
Local Open Scope ring_scope.
Local Arguments at_row : simpl never.
Local Arguments esub : simpl never.
Local Arguments padd : simpl never.
Local Arguments pmul : simpl never.
Local Arguments rbindp : simpl never.
Local Arguments assign_advice : simpl never.

Section Rules.
Variables (F : fieldType) (b : F) (T : table F) (place : nat -> int) (inst : nat -> nat -> value F) (r : nat).
Variable ok : nat -> int -> Prop.
Notation rhon := (rhon T place inst r).
Notation rcomp := (rcomp T place inst r ok).
(* selectors turned on first and justified by what follows *)
Lemma rcomp_defer (H : Prop) (A C : Type) (p : rprog F A) (f : A -> rprog F C) L V1 Q1 (V Q Q' : C -> Prop) :
  rhon H p L V1 Q1 -> (forall a, V1 a -> rcomp (H /\ Q1 a) (f a) V Q) ->
  (forall a c, H -> V1 a -> Q1 a -> V c -> Q c -> (forall s off, (s, off) \in L -> ok s (place r + off%:Z)) /\ Q' c) ->
  rcomp H (rbindp p f) V Q'.
Proof.
move=> [a ea [h1 h2 h3]] /(_ a h1) [d ed [h4 h5]] h6; exists d; first by rewrite returns_bind ea.
rewrite (calls_bind _ ea); split=> // h /honest_on_cat[n1 n2].
have [r1 q1] := h3 h n1; have [r2 o2 q2] := h5 (conj h q1) n2; have [k1 k2] := h6 a d h h1 q1 h4 q2.
by split=> //; [apply/respects_cat|move=> s off; rewrite enabled_cat => /orP[/h2 /k1|/o2]].
Qed.
Lemma rcomp_rhon (H : Prop) (A : Type) (p : rprog F A) (V Q : A -> Prop) : rhon H p [::] V Q -> rcomp H p V Q.
Proof. by move=> h; apply: (rcomp_block h). Qed.
Lemma rcomp_keep (H : Prop) (A : Type) (p : rprog F A) (V Q Q' : A -> Prop) :
  rcomp H p V Q -> (forall a, H -> V a -> Q a -> Q' a) -> rcomp H p V Q'.
Proof.
by move=> [a e [h1 h2]] h3; exists a => //; split=> // h h4; have [h5 h6 h7] := h2 h h4; split=> //; apply: h3.
Qed.
Lemma rcomp_add (H : Prop) c p q o P Q : good_curve b -> on_curve b P -> on_curve b Q ->
  (forall row, all (fun g => at_row T row g == 0) (add_gates F c) -> ok (q_add c) row) ->
  point_is p P -> point_is q Q -> (H -> point_in T place p P) -> (H -> point_in T place q Q) ->
  rcomp H (add_region c r p q o) (fun u => point_is u (padd P Q)) (fun u => point_in T place u (padd P Q)).
Proof.
move=> hc hP hQ hok p1 q1 p2 q2; have [u [e1 e2 e3]] := @C45_add_complete F b inst T place c r p q o P Q hc hP hQ p1 q1.
exists u => //; split=> // h [hh hs]; have [h1 h2 h3] := e3 hs hh (p2 h) (q2 h); split=> // s off.
by rewrite /enabled_in /= !orbF => /andP[/eqP <- /eqP <-]; apply: hok.
Qed.
End Rules.

Section Incomplete.
Variables (F : fieldType) (b : F) (T : table F) (place : nat -> int) (inst : nat -> nat -> value F) (r : nat).
Add Field Ff : (F_field_theory F).
Hypothesis hc : good_curve b.
Variables (q : nat) (B : F * F).
Hypotheses (hB : on_curve b (Some B)) (pq : prime q) (hq : pmul q (Some B) = None).
Notation rhon := (rhon T place inst r).
Notation at_ col o := (t_cell T Advice col (place r + (o)%N%:Z)).

Definition sg (t : bool) : F * F := (B.1, if t then B.2 else - B.2).
Lemma sgE t : signed t (Some B) = Some (sg t). Proof. by rewrite /sg; case: t; case: (B). Qed.
Fixpoint walk (A : F * F) (bs : seq bool) : option (F * F) :=
  if bs is t :: bs' then obind (fun A' => walk A' bs') (sins_step (sg t) A) else Some A.
Fixpoint zsum (z : nat) (bs : seq bool) : seq nat :=
  if bs is t :: bs' then (2 * z + t)%N :: zsum (2 * z + t) bs' else [::].
Lemma size_zsum z bs : size (zsum z bs) = size bs. Proof. by elim: bs z => //= t bs IH z; rewrite IH. Qed.
Lemma last_zsum z bs : last z (zsum z bs) = (z * 2 ^ size bs + dval 2 [seq nat_of_bool t | t <- rev bs])%N.
Proof.
elim: bs z => [|t bs IH] z /=; first by rewrite muln1 dval_nil addn0.
rewrite IH rev_cons map_rcons -cats1 dval_cat dval_cons dval_nil size_map size_rev expnS; nring.
Qed.
Lemma zsum_lt z bs j : (z < 2 ^ j)%N -> (last z (zsum z bs) < 2 ^ (j + size bs))%N.
Proof.
elim: bs z j => [|t bs IH] z j hz /=; first by rewrite addn0.
by rewrite addnS -addSn; apply: IH; rewrite expnS; case: (t) => /=; nlia.
Qed.

(* one step: the divisions are never by zero *)
Lemma step_ok a A t : (2 <= a)%N -> (2 * a + 1 < q)%N -> pmul a (Some B) = Some A ->
  exists2 A', sins_step (sg t) A = Some A' & pmul (dstep a t) (Some B) = Some A'.
Proof.
move=> a2 ab; case: A => xa ya ea; have hA : on_curve b (Some (xa, ya)) by rewrite -ea; exact: pmul_on.
pose R := line_sum (((sg t).2 - ya) / (B.1 - xa)) xa ya B.1.
have [xr [yr eR]] : exists xr yr, R = Some (xr, yr) by rewrite /R /line_sum; do 2 eexists.
have [nx nr] := dbl_distinct hc t xr yr hB pq hq a2 ab ea.
have e1 : padd (Some (xa, ya)) (Some (sg t)) = Some (xr, yr) by rewrite -eR /padd /sg /= nx.
have {}nr : xr != xa by apply: nr; rewrite sgE.
have hR : on_curve b (Some (xr, yr)) by rewrite -e1 -sgE; apply: padd_on_curve => //; exact: signed_on.
have e2 : padd (Some (xr, yr)) (Some (xa, ya)) = pmul (dstep a t) (Some B).
  rewrite -(signed_step hc t hB); last by apply: leq_trans a2.
  by rewrite ea sgE e1 (paddC hc hA hR).
case eA: (pmul (dstep a t) (Some B)) e2 => [A'|] e2.
  by exists A' => //; rewrite /sins_step /inc_add /= (negbTE nx) e1 /= (negbTE nr) e2.
by move: e2; rewrite /padd nr.
Qed.
Lemma walk_ok j z A bs : (z < 2 ^ j)%N -> (2 ^ (j + size bs + 2) <= q)%N -> pmul (2 ^ j + 1 + 2 * z) (Some B) = Some A ->
  exists2 C, walk A bs = Some C & pmul (2 ^ (j + size bs) + 1 + 2 * last z (zsum z bs)) (Some B) = Some C.
Proof.
elim: bs j z A => [|t bs IH] j z A hz hqn hA /=; first by exists A => //; rewrite addn0.
have pow : (8 * 2 ^ j <= q)%N.
  apply: leq_trans hqn; rewrite -[8%N]/(2 ^ 3)%N -expnD leq_exp2l //=; nlia.
have p0 := expn_gt0 2 j.
have [A' e1 e2] := @step_ok (2 ^ j + 1 + 2 * z) A t ltac:(nlia) ltac:(nlia) hA.
rewrite e1 /=; have ed : dstep (2 ^ j + 1 + 2 * z) t = (2 ^ j.+1 + 1 + 2 * (2 * z + t))%N.
  by rewrite /dstep expnS; case: (t) => /=; nlia.
rewrite ed in e2; rewrite -(addSnnS j (size bs)); apply: IH e2; last by rewrite addSnnS.
by rewrite expnS; case: (t) => /=; nlia.
Qed.

Variable c : dbl_config.
Fixpoint dbl_rows k (bs : seq bool) (z : nat) (A C : F * F) : Prop :=
  if bs is t :: bs' then exists2 A', sins_step (sg t) A = Some A' &
    [/\ at_ (db_z c) k = (2 * z + t)%N%:R, at_ (db_xp c) k = B.1 /\ at_ (db_yp c) k = B.2,
        at_ (db_xa c) k = A.1 /\ at_ (db_xa c) k.+1 = A'.1,
        at_ (db_l1 c) k = slope1 A (sg t) /\ at_ (db_l2 c) k = slope2 A (sg t) & dbl_rows k.+1 bs' (2 * z + t) A' C]
  else A = C.
Lemma dbl_loop_hon (H : Prop) o xp yp row bs xa ya z zn A C :
  denote xp = B.1 -> denote yp = B.2 ->
  carries_v (ec_value xa) A.1 -> carries_v ya A.2 -> (H -> at_ (db_xa c) (row + o) = A.1) -> ac_value z = known zn%:R ->
  walk A bs = Some C ->
  rhon H (dbl_loop c r o (known xp) (known yp) row [seq known t | t <- bs] xa ya z) [::]
    (fun t => [/\ carries_v (ec_value t.1.1) C.1, carries_v t.1.2 C.2,
       ec_cell t.1.1 = if bs is [::] then ec_cell xa else Cell r (row + size bs + o) (Advice, db_xa c),
       [seq ac_value a | a <- t.2] = [seq known k%:R | k <- zsum zn bs] &
       [seq ac_cell a | a <- t.2] = [seq Cell r (row + i + o) (Advice, db_z c) | i <- iota 0 (size bs)]])
    (fun t => dbl_rows (row + o) bs zn A C).
Proof.
move=> dxp dyp; elim: bs H row xa ya z zn A => [|t bs IH] H row xa ya z zn A.
  by move=> h1 h2 h3 h4 [<-]; apply: rhon_ret.
move=> [av eav dav] [bv ebv dbv] hx ez; cbn [walk]; case e: (sins_step _ _) => [A'|] //= hC.
have [s1 s2 s3] := sins_stepE e; rewrite eav ebv ez.
pose zc : acell F := ACell (known (2 * zn + t)%N%:R) (Cell r (row + o) (Advice, db_z c)).
apply: (@rhon_bind _ T place inst r _ _ _ _ _ [::] [::] (eq zc) (fun=> at_ (db_z c) (row + o) = (2 * zn + t)%N%:R)).
  have -> : v_map (fun t0 : F * bool => 2%:R * t0.1 + bit_f F t0.2) (v_zip (known zn%:R) (known t)) = known (2 * zn + t)%N%:R.
    by rewrite !vE /= /bit_f natrD natrM.
  exact: rhon_advice.
move=> _ <-.
apply: (@rhon_bind _ T place inst r _ _ _ _ _ [::] [::] (fun=> True) (fun=> at_ (db_xp c) (row + o) = B.1)).
  by apply: (@rhon_e _ T place inst r _ _ _ xp) => // _ ->.
move=> _ _; apply: (@rhon_bind _ T place inst r _ _ _ _ _ [::] [::] (fun=> True) (fun=> at_ (db_yp c) (row + o) = B.2)).
  by apply: (@rhon_e _ T place inst r _ _ _ yp) => // _ ->.
move=> _ _; rewrite !vE.
set ys := (if ~~ _ then _ else _); have dys : denote ys = (sg t).2 by rewrite /ys /=; case: (t); rewrite /= ?C09_neg dyp.
set l1 := a_mul (a_sub bv ys) (a_invert (a_sub av xp)).
have d1 : denote l1 = slope1 A (sg t) by rewrite /l1 !denE dys dav dbv dxp.
set xr := a_sub (a_sub (a_square l1) av) xp.
have d2 : denote xr = third A (sg t) by rewrite /xr !C09_sub C09_square d1 dav dxp.
set l2 := a_sub (a_mul (a_mul_f bv 2%:R) (a_invert (a_sub av xr))) l1.
have d3 : denote l2 = slope2 A (sg t) by rewrite /l2 C09_sub C09_mul denote_mul_f inv0E C09_sub d1 d2 dav dbv /slope2 [A.2 * _]mulrC.
set xn := a_sub (a_sub (a_square l2) av) xr.
have d4 : denote xn = A'.1 by rewrite /xn C09_sub C09_sub C09_square d2 d3 dav s3 /= addrAC.
apply: (@rhon_bind _ T place inst r _ _ _ _ _ [::] [::] (fun=> True) (fun=> at_ (db_l1 c) (row + o) = slope1 A (sg t))).
  by apply: (@rhon_e _ T place inst r _ _ _ l1) => // _ ->.
move=> _ _; apply: (@rhon_bind _ T place inst r _ _ _ _ _ [::] [::] (fun=> True) (fun=> at_ (db_l2 c) (row + o) = slope2 A (sg t))).
  by apply: (@rhon_e _ T place inst r _ _ _ l2) => // _ ->.
move=> _ _; apply: (@rhon_bind _ T place inst r _ _ _ _ _ [::] [::] (eq (ECell (known xn) (Cell r (row + o + 1) (Advice, db_xa c))))
   (fun=> at_ (db_xa c) (row + o + 1) = A'.1)).
  by apply: (@rhon_e _ T place inst r _ _ _ xn) => // _ ->.
move=> _ <-; have d5 : carries_v (v_sub (v_mul (known l2) (v_sub (known av) (known xn))) (known bv)) A'.2.
  by exists (a_sub (a_mul l2 (a_sub av xn)) bv) => //; rewrite C09_sub C09_mul C09_sub d3 d4 dav dbv s3.
apply: (@rhon_bind _ T place inst r _ _ _ _ _ [::] [::] _ _ _ _ (IH _ row.+1 (ECell (known xn) (Cell r (row + o + 1) (Advice, db_xa c))) _ zc (2 * zn + t)%N A' _ d5 _ _ hC)).
- by exists xn.
- by case=> _; rewrite addn1 addSn.
- by [].
move=> [[xa' ya'] zs] [/= c1 c2 c3 c4 c5]; apply: rhon_ret.
  split=> //=.
  + by rewrite c3; case: (bs) => [|w' ws'] /=; congr Cell; nlia.
  + by rewrite c4.
  + rewrite c5 addn0; congr cons; rewrite (iotaDl 1 0) -map_comp; apply: eq_map => i /=; congr Cell; nlia.
case=> [[[[[[[hH h1] h2] h3] h4] h5] h6] h7]; exists A' => //; split=> //; first by split; [exact: hx|rewrite -addn1].
Qed.

(* the gates of such rows hold *)
Lemma up k : place r + k%:Z + 1 = place r + k.+1%:Z. Proof. by rewrite -addrA -PoszD addn1. Qed.
Lemma down k : place r + k.+1%:Z + -1 = place r + k%:Z. Proof. by rewrite -up addrK. Qed.
Notation vanish k ps := (all (fun g => at_row T (place r + (k)%N%:Z) g == 0) ps).
Lemma y_a_row k A A' t : sins_step (sg t) A = Some A' -> at_ (db_xp c) k = B.1 -> at_ (db_xa c) k = A.1 ->
  at_ (db_l1 c) k = slope1 A (sg t) -> at_ (db_l2 c) k = slope2 A (sg t) -> at_row T (place r + k%:Z) (y_a F c 0) = A.2.
Proof.
move=> /sins_stepE[_ s2 _] e1 e2 e3 e4; have two0 : (2%:R : F) != 0 by case: hc.
rewrite /y_a /Y_A /x_r /esquare !rowE !addr0 e1 e2 e3 e4.
have -> : slope1 A (sg t) * slope1 A (sg t) - A.1 - B.1 = third A (sg t) by [].
by rewrite s2 mulKf.
Qed.
Lemma one_row k z (t : bool) A A' ynext : sins_step (sg t) A = Some A' -> at_ (db_z c) k = z%:R ->
  at_ (db_z c) k.+1 = (2 * z + t)%N%:R -> at_ (db_xp c) k.+1 = B.1 -> at_ (db_yp c) k.+1 = B.2 ->
  at_ (db_xa c) k.+1 = A.1 -> at_ (db_xa c) k.+2 = A'.1 ->
  at_ (db_l1 c) k.+1 = slope1 A (sg t) -> at_ (db_l2 c) k.+1 = slope2 A (sg t) ->
  at_row T (place r + k.+1%:Z) ynext = A'.2 -> vanish k.+1 (for_loop c ynext).
Proof.
move=> e z0 z1 xp yp xa xa' l1 l2 yn; have ya := y_a_row e xp xa l1 l2; have [s1 s2 s3] := sins_stepE e.
rewrite /for_loop /= bool_checkE; move: (y_a F c 0) ya => Ya ya; rewrite !rowE !addr0 up down ya yn z0 z1 xp yp xa xa' l1 l2.
have ek : (2 * z + t)%N%:R - 2%:R * z%:R = t%:R :> F by rewrite natrD natrM addrC addKr.
have -> : slope1 A (sg t) * slope1 A (sg t) - A.1 - B.1 = third A (sg t) by [].
rewrite ek s3; apply/and5P; split=> //; apply/eqP.
- by case: (t); rewrite ?mul0r // subrr mulr0.
- by rewrite [B.1]/((sg t).1) s1 /sg; case: (t) => /=; fnorm F; ring.
- by rewrite /=; fnorm F; ring.
- by rewrite /=; fnorm F; ring.
Qed.
Lemma rows_fine k bs z A C : dbl_rows k.+1 bs z A C -> at_ (db_z c) k = z%:R -> (0 < size bs)%N ->
  [/\ at_ (db_xp c) k.+1 = B.1 /\ at_ (db_yp c) k.+1 = B.2, at_row T (place r + k.+1%:Z) (y_a F c 0) = A.2,
   (forall i, (i.+1 < size bs)%N -> vanish (k.+1 + i) ([:: esub (EAdvice F 0 (db_xp c) 0) (EAdvice F 0 (db_xp c) 1);
        esub (EAdvice F 0 (db_yp c) 0) (EAdvice F 0 (db_yp c) 1)] ++ for_loop c (y_a F c 1))) &
   (at_ (db_l1 c) (k.+1 + size bs) = C.2 -> vanish (k + size bs) (for_loop c (EAdvice F 0 (db_l1 c) 1)))].
Proof.
elim: bs k z A => [//|t bs IH] k z A [A' e [h1 [h2 h3] [h4 h5] [h6 h7] h8]] hz _.
case: bs IH h8 => [_ /= h8|t' bs IH /IH/(_ h1 isT)[[k1 k2] k3 k4 k5]]; split=> //; try exact: (y_a_row e h2 h4 h6 h7).
- rewrite !addn1 => hl; apply: (one_row e hz) => //; rewrite at_adv up hl -h8 //.
- case=> [_|i hi]; last by rewrite addnS -addSn; apply: k4.
  have yn : at_row T (place r + k.+1%:Z) (y_a F c 1) = A'.2.
    by rewrite -k3 /y_a /Y_A /x_r /esquare !rowE !addr0 up.
  rewrite addn0 all_cat (one_row e hz h1 h2 h3 h4 h5 h6 h7 yn) andbT /=.
  by rewrite !rowE !addr0 up h2 h3 k1 k2 !subrr eqxx.
- have es : size [:: t, t' & bs] = (size (t' :: bs)).+1 by [].
  by rewrite es !(addnS _ (size (t' :: bs))) -!addSn => hl; apply: k5.
Qed.

Lemma rows_last k bs z A C : dbl_rows k bs z A C -> (0 < size bs)%N -> at_ (db_xa c) (k + size bs) = C.1.
Proof.
elim: bs k z A => [//|t bs IH] k z A [A' e [_ _ [_ h] _ h8]] _; rewrite /= addnS -addSn.
by case: bs IH h8 => [_ <-|t' bs IH h8]; [rewrite addn0|exact: IH h8 _].
Qed.
Lemma rows_zs k bs z A C : dbl_rows k bs z A C -> [seq n%:R | n <- zsum z bs] = [seq at_ (db_z c) (k + i) | i <- iota 0 (size bs)].
Proof.
elim: bs k z A => [//|t bs IH] k z A [A' _ [h1 _ _ _ /IH e]]; cbn [zsum map size iota].
rewrite e addn0 h1; congr cons; rewrite (iotaDl 1 0) -map_comp; apply: eq_map => i /=; congr (t_cell _ _ _ (_ + Posz _)); nlia.
Qed.
(* the selectors of a block, and what their gates ask for *)
Definition dbl_on n o : seq (nat * nat) :=
  [:: (q_mul_1 c, o)] ++ [seq (q_mul_2 c, o + 1 + i)%N | i <- iota 0 (n - 1)] ++ [:: (q_mul_3 c, o + 1 + n - 1)%N].
Definition polys1 : seq (expr F) := [:: esub (EAdvice F 0 (db_l1 c) 0) (y_a F c 1)].
Definition polys2 : seq (expr F) := [:: esub (EAdvice F 0 (db_xp c) 0) (EAdvice F 0 (db_xp c) 1);
  esub (EAdvice F 0 (db_yp c) 0) (EAdvice F 0 (db_yp c) 1)] ++ for_loop c (y_a F c 1).
Definition polys3 : seq (expr F) := for_loop c (EAdvice F 0 (db_l1 c) 1).
Variable ok : nat -> int -> Prop.
Hypothesis ok1 : forall row, all (fun g => at_row T row g == 0) polys1 -> ok (q_mul_1 c) row.
Hypothesis ok2 : forall row, all (fun g => at_row T row g == 0) polys2 -> ok (q_mul_2 c) row.
Hypothesis ok3 : forall row, all (fun g => at_row T row g == 0) polys3 -> ok (q_mul_3 c) row.
Lemma dbl_on_ok n o bs z A C : size bs = n -> (0 < n)%N -> dbl_rows o.+1 bs z A C -> at_ (db_z c) o = z%:R ->
  at_ (db_l1 c) o = A.2 -> at_ (db_l1 c) (o.+1 + n) = C.2 ->
  forall s off, (s, off) \in dbl_on n o -> ok s (place r + off%:Z).
Proof.
move=> hs n0 hr hz hl hC s off; rewrite -hs in n0; have [h1 h2 h3 h4] := rows_fine hr hz n0; rewrite hs in h3 h4 n0.
rewrite /dbl_on !mem_cat !inE => /or3P[/eqP[-> ->]|/mapP[i]|/eqP[-> ->]].
- apply: ok1; rewrite /= at_sub at_adv addr0 hl.
  have -> : at_row T (place r + o%:Z) (y_a F c 1) = A.2 by rewrite -h2 /y_a /Y_A /x_r /esquare !rowE !addr0 up.
  by rewrite subrr eqxx.
- by rewrite mem_iota => hi [-> ->]; apply: ok2; rewrite addn1; apply: h3; nlia.
- have -> : (o + 1 + n - 1 = o + n)%N by nlia.
  by apply: ok3; apply: h4.
Qed.
Lemma dbl_comp (H : Prop) n o base bs ax ay az j z A :
  size bs = n -> (0 < n)%N -> (z < 2 ^ j)%N -> (2 ^ (j + n + 2) <= q)%N -> pmul (2 ^ j + 1 + 2 * z) (Some B) = Some A ->
  point_is base (Some B) -> point_is (ECPoint ax ay) (Some A) -> (H -> point_in T place (ECPoint ax ay) (Some A)) ->
  ac_value az = known z%:R -> (H -> cell_value T place (ac_cell az) = z%:R) ->
  rcomp T place inst r ok H (double_and_add c n r o base [seq known t | t <- bs] (ax, ay, az))
    (fun t => point_is (ECPoint t.1.1 t.1.2) (pmul (2 ^ (j + n) + 1 + 2 * last z (zsum z bs)) (Some B)) /\
       [seq ac_value a | a <- t.2] = [seq known k%:R | k <- zsum z bs])
    (fun t => point_in T place (ECPoint t.1.1 t.1.2) (pmul (2 ^ (j + n) + 1 + 2 * last z (zsum z bs)) (Some B)) /\
       [seq cell_value T place (ac_cell a) | a <- t.2] = [seq k%:R | k <- zsum z bs]).
Proof.
move=> hs n0 hz hqn hA [[xv exv dxv] [yv eyv dyv]] [[av eav dav] [bv ebv dbv]] hin ez vz.
rewrite /= in exv dxv eyv dyv eav dav ebv dbv.
have hqs : (2 ^ (j + size bs + 2) <= q)%N by rewrite hs.
have [C hw hC] := walk_ok hz hqs hA; rewrite hs in hC; rewrite hC.
have oA : on_curve b (Some A) by rewrite -hA; exact: pmul_on.
have nx : A.1 != B.1.
  have pow : (8 * 2 ^ j <= q)%N by apply: leq_trans hqn; rewrite -[8%N]/(2 ^ 3)%N -expnD leq_exp2l //; nlia.
  have p0 := expn_gt0 2 j; move: hA; rewrite [A]surjective_pairing => hA'.
  by have [] := @dbl_distinct F b hc q (2 ^ j + 1 + 2 * z) true B A.1 A.2 0 0 hB pq hq ltac:(nlia) ltac:(nlia) hA'.
apply: (@rcomp_block _ T place inst r ok _ _ _ (dbl_on n o) _ (fun t =>
   [/\ dbl_rows o.+1 bs z A C, at_ (db_z c) o = z%:R, at_ (db_l1 c) o = A.2, at_ (db_l1 c) (o.+1 + n) = C.2 &
     point_in T place (ECPoint t.1.1 t.1.2) (Some C) /\ [seq cell_value T place (ac_cell a) | a <- t.2] = [seq k%:R | k <- zsum z bs]])); last first.
  by move=> t _ _ [h1 h2 h3 h4 h5]; split=> //; exact: dbl_on_ok h1 h2 h3 h4.
rewrite /double_and_add; case: ifP => [|_]; first by rewrite size_map hs eqxx /= => /eqP e0; rewrite e0 in n0.
rewrite exv eyv eav ebv !vE /v_error_if_known_and.
case: ifP => [|_].
  rewrite /= !C09_is_zero C09_eq dxv dyv dav dbv [B.1 == A.1]eq_sym (negbTE nx).
  have /negbTE -> : B.1 != 0 by apply: (@x_neq0 _ _ hc _ B.2); rewrite -surjective_pairing.
  by have /negbTE -> : A.1 != 0 by apply: (@x_neq0 _ _ hc _ A.2); rewrite -surjective_pairing.
apply: (@rhon_bind _ T place inst r _ _ _ _ _ [::] _ (fun=> True) (fun=> True)); first exact: rhon_try.
move=> _ _; apply: (@rhon_bind _ T place inst r _ _ _ _ _ [:: (q_mul_1 c, o)] _ (fun=> True) (fun=> True)); first exact: rhon_enable.
move=> _ _; apply: (@rhon_bind _ T place inst r _ _ _ _ _ _ _ (fun=> True) (fun=> True)); first exact: rhon_enable_rows.
move=> _ _; apply: rhon_nil.
apply: (@rhon_bind _ T place inst r _ _ _ _ _ [:: _] _ (fun=> True) (fun=> True)); first exact: rhon_enable.
move=> _ _; pose zc : acell F := ACell (known z%:R) (Cell r o (Advice, db_z c)).
apply: (@rhon_bind _ T place inst r _ _ _ _ _ [::] [::] (eq zc) (fun=> at_ (db_z c) o = z%:R)).
  by apply: (rhon_copy _ ez) => //; tauto.
move=> _ <-; pose xc : ecell F := ECell (known av) (Cell r (o + 1) (Advice, db_xa c)).
apply: (@rhon_bind _ T place inst r _ _ _ _ _ [::] [::] (eq xc) (fun=> at_ (db_xa c) (o + 1) = A.1)).
  apply: (rhon_copy_e _ eav) => // [h|_ ->]; last exact: dav.
  have : point_in T place (ECPoint ax ay) (Some A) by tauto.
  by rewrite /point_in dav /= => e; have := congr1 fst e.
move=> _ <-; pose yc : ecell F := ECell (known bv) (Cell r o (Advice, db_l1 c)).
apply: (@rhon_bind _ T place inst r _ _ _ _ _ [::] [::] (eq yc) (fun=> at_ (db_l1 c) o = A.2)).
  apply: (rhon_copy_e _ ebv) => // [h|_ ->]; last exact: dbv.
  have : point_in T place (ECPoint ax ay) (Some A) by tauto.
  by rewrite /point_in dbv /= => e; have := congr1 snd e.
move=> _ <-.
have cx : carries_v (ec_value xc) A.1 by exists av.
have cy : carries_v (ec_value yc) A.2 by exists bv.
apply: (@rhon_bind _ T place inst r _ _ _ _ _ [::] [::] _ _ _ _ (@dbl_loop_hon _ (o + 1) xv yv 0 bs xc (ec_value yc) zc z A C dxv dyv cx cy _ erefl hw)).
  by case=> [[[_ _] h] _]; rewrite add0n.
move=> [[xa ya] zs] [/= c1 [wv ewv dwv] c3 c4 c5]; rewrite ewv.
apply: (@rhon_bind _ T place inst r _ _ _ _ _ [::] [::] (eq (ECell (known wv) (Cell r (o + 1 + n) (Advice, db_l1 c)))) (fun=> at_ (db_l1 c) (o + 1 + n) = C.2)).
  by apply: rhon_e => // _ ->.
move=> _ <-; apply: rhon_ret.
  by split=> //; split=> //; exists wv.
case=> [[[[[h1 h2] h3] h4] h5] h6]; rewrite add0n addn1 in h5; rewrite addn1 in h6.
have hzs : [seq cell_value T place (ac_cell a) | a <- zs] = [seq k%:R | k <- zsum z bs].
  rewrite (map_comp (cell_value T place) (@ac_cell F)) c5 -map_comp.
  rewrite (rows_zs h5); by apply: eq_map => i /=; rewrite /cell_value /row_of /=; congr (t_cell _ _ _ (_ + Posz _)); nlia.
split=> //; split=> //; rewrite /point_in /= c3; case: (bs) hs h5 => [hs|t l hs h5]; first by rewrite -hs in n0.
rewrite /cell_value /row_of /= addn1 h6 add0n.
by rewrite addnC (rows_last h5 isT) -surjective_pairing.
Qed.
End Incomplete.

Section Complete.
Variables (F : fieldType) (b : F) (T : table F) (place : nat -> int) (inst : nat -> nat -> value F) (r : nat).
Add Field Ff2 : (F_field_theory F).
Hypothesis hc : good_curve b.
Variable B : F * F.
Hypothesis hB : on_curve b (Some B).
Variable ok : nat -> int -> Prop.
Notation rcomp := (rcomp T place inst r ok).
Notation at_ col o := (t_cell T Advice col (place r + (o)%N%:Z)).
Notation vanish k ps := (all (fun g => at_row T (place r + (k)%N%:Z) g == 0) ps).
Notation "'val' a" := (cell_value T place (ac_cell a)) (at level 10, a at level 8).
Notation sg := (sg B).

Definition compolys (c : comp_config) : seq (expr F) :=
  let k := esub (EAdvice F 0 (z_complete c) 1) (EProduct (EConstant 2%:R) (EAdvice F 0 (z_complete c) (-1))) in
  [:: bool_check k; ternary k (esub (EAdvice F 0 (z_complete c) 0) (EAdvice F 0 (ad_yp (co_add c)) (-1)))
                      (ESum (EAdvice F 0 (z_complete c) 0) (EAdvice F 0 (ad_yp (co_add c)) (-1)))].
Lemma acc_step j z (t : bool) : padd (pmul (2 ^ j + 1 + 2 * z) (Some B)) (padd (Some (sg t)) (pmul (2 ^ j + 1 + 2 * z) (Some B)))
  = pmul (2 ^ j.+1 + 1 + 2 * (2 * z + t)) (Some B).
Proof.
set a := (2 ^ j + 1 + 2 * z)%N; rewrite -sgE (paddC hc (signed_on t hB) (pmul_on hc a hB)) (signed_step hc t hB); last by rewrite /a; nlia.
by congr pmul; rewrite /dstep /a expnS; case: (t) => /=; nlia.
Qed.
Lemma base_y p (H : Prop) : point_is p (Some B) -> (H -> point_in T place p (Some B)) ->
  exists2 v, ec_value (ep_y p) = known v & denote v = B.2 /\ (H -> cell_value T place (ec_cell (ep_y p)) = denote v).
Proof.
by move=> [_ [v e d]] h; exists v => //; split=> // /h; rewrite /point_in d /= => e'; have := congr1 snd e'.
Qed.
Section Loop.
Variables (c : comp_config) (o : nat) (base : ecpoint F).
Hypothesis hb : point_is base (Some B).
Hypothesis oka : forall row, all (fun g => at_row T row g == 0) (add_gates F (co_add c)) -> ok (q_add (co_add c)) row.
Lemma comp_row k z (t : bool) : at_ (z_complete c) k = z%:R -> at_ (z_complete c) k.+2 = (2 * z + t)%N%:R ->
  at_ (z_complete c) k.+1 = B.2 -> at_ (ad_yp (co_add c)) k = (sg t).2 -> vanish k.+1 (compolys c).
Proof.
move=> h1 h2 h3 h4; rewrite /compolys /= bool_checkE /ternary !rowE !addr0 up down h1 h2 h3 h4.
have -> : (2 * z + t)%N%:R - 2%:R * z%:R = t%:R :> F by rewrite natrD natrM addrC addKr.
rewrite andbT; apply/andP; split; apply/eqP; rewrite /sg; case: (t) => /=; fnorm F; ring.
Qed.
Lemma comp_loop_comp (H : Prop) iter bs acc za j z :
  (H -> point_in T place base (Some B)) ->
  point_is acc (pmul (2 ^ j + 1 + 2 * z) (Some B)) -> (H -> point_in T place acc (pmul (2 ^ j + 1 + 2 * z) (Some B))) ->
  ac_value za = known z%:R -> (H -> at_ (z_complete c) (2 * iter + o) = z%:R) ->
  rcomp H (comp_loop c r o base iter [seq known t | t <- bs] acc za)
    (fun t => [/\ point_is t.1 (pmul (2 ^ (j + size bs) + 1 + 2 * last z (zsum z bs)) (Some B)),
       [seq ac_value a | a <- t.2] = [seq known k%:R | k <- zsum z bs] &
       [seq ac_cell a | a <- t.2] = [seq Cell r (2 * (iter + i) + o + 2) (Advice, z_complete c) | i <- iota 0 (size bs)]])
    (fun t => [/\ point_in T place t.1 (pmul (2 ^ (j + size bs) + 1 + 2 * last z (zsum z bs)) (Some B)),
       [seq val a | a <- t.2] = [seq k%:R | k <- zsum z bs] &
       forall i, (i < size bs)%N -> vanish (2 * (iter + i) + o + 1) (compolys c)]).
Proof.
elim: bs H iter acc za j z => [|t bs IH] H iter acc za j z hbi ha hai ez hz.
  by rewrite addn0; apply: rcomp_ret => // h; split=> //; apply: hai.
set k := (2 * iter + o)%N; pose zc : acell F := ACell (known (2 * z + t)%N%:R) (Cell r (k + 2) (Advice, z_complete c)).
apply: (rcomp_bind (V1 := eq zc) (Q1 := fun=> at_ (z_complete c) (k + 2) = (2 * z + t)%N%:R)).
  have -> : v_op2 +%R (v_op2 *%R (ac_value za) (known 2%:R)) (v_map (bit_f F) (known t)) = known (2 * z + t)%N%:R.
    by rewrite ez /v_op2 !vE /= /bit_f natrD natrM mulrC.
  by apply: rcomp_rhon; apply: rhon_advice.
move=> _ <-; have [bv eb [db cb]] := base_y hb hbi.
apply: (rcomp_bind (V1 := eq (ECell (known bv) (Cell r (k + 1) (Advice, z_complete c)))) (Q1 := fun=> at_ (z_complete c) (k + 1) = B.2)).
  by apply: rcomp_rhon; apply: (rhon_copy_e _ eb) => // [[h _]|_ ->]; [exact: cb|exact: db].
move=> _ <-; rewrite [ec_value _]/= !vE.
set yv := (if ~~ _ then _ else _); have dy : denote yv = (sg t).2 by rewrite /yv /sg /=; case: (t); rewrite /= ?C09_neg db.
pose yc : ecell F := ECell (known yv) (Cell r k (Advice, ad_yp (co_add c))).
apply: (rcomp_bind (V1 := eq yc) (Q1 := fun=> at_ (ad_yp (co_add c)) k = (sg t).2)).
  by apply: rcomp_rhon; apply: rhon_e => // _ ->.
move=> _ <-; have hA := pmul_on hc (2 ^ j + 1 + 2 * z) hB; have hW : on_curve b (Some (sg t)) by rewrite -sgE; exact: signed_on.
apply: (rcomp_bind (rcomp_add _ _ _ hc hW hA oka _ ha _ _)).
- by split; [case: hb|exists yv].
- move=> [[[h _] _] h4]; have := hbi h; rewrite /point_in /= => e; rewrite [cell_value _ _ _ in LHS](congr1 fst e).
  by rewrite /cell_value /row_of /= h4.
- by move=> [[[h _] _] _]; apply: hai.
move=> tmp htmp.
apply: (rcomp_bind (rcomp_add _ _ _ hc hA (padd_on_curve hc hW hA) oka ha htmp _ _)).
- by move=> [[[[h _] _] _] _]; apply: hai.
- by case.
move=> acc'; rewrite acc_step => hacc'.
apply: (rcomp_bind (IH _ iter.+1 acc' zc j.+1 (2 * z + t)%N _ hacc' _ erefl _)).
- by move=> h; apply: hbi; tauto.
- by case.
- move=> [[[[[_ h] _] _] _] _]; rewrite -h; congr (t_cell _ _ _ (_ + Posz _)); rewrite /k; nlia.
move=> [res zs] [/= h1 h2 h3]; apply: rcomp_ret.
  split=> /=.
  - by rewrite -(addSnnS j (size bs)).
  - by rewrite h2.
  - rewrite h3 addn0; congr cons; rewrite (iotaDl 1 0) -map_comp; apply: eq_map => i /=; congr Cell; nlia.
case=> [[[[[[h g1] g2] g3] _] _] [g4 g5 g6]]; split=> /=.
- by rewrite -(addSnnS j (size bs)).
- by rewrite g5 /cell_value /row_of /= g1.
rewrite addn1 in g2; rewrite addn2 in g1.
case=> [_|i hi]; last by rewrite -(addSnnS iter i); exact: g6.
by rewrite addn0 addn1 -/k; exact: comp_row (hz h) g1 g2 g3.
Qed.
End Loop.

Lemma rhon_comp_enable (H : Prop) c o n (V Q : unit -> Prop) : V tt -> (H -> Q tt) ->
  rhon T place inst r H (comp_enable F c o n) [seq (q_mul_decompose_var c, 2 * i + o + 1)%N | i <- iota 0 n] V Q.
Proof.
have e1 : calls inst (comp_enable F c o n) = [seq OEnable (q_mul_decompose_var c) (2 * i + o + 1) | i <- iota 0 n].
  by rewrite /comp_enable; elim: (iota 0 n) => //= i l ->.
have e2 : returns inst (comp_enable F c o n) = Ok tt by rewrite /comp_enable; elim: (iota 0 n).
move=> hV hQ; exists tt => //; rewrite e1; split=> //.
  move=> s' off; elim: (iota 0 n) => //= i l IH /orP[/andP[/eqP -> /eqP ->]|/IH]; rewrite inE ?eqxx //.
  by move=> ->; rewrite orbT.
move=> h [_ hs]; split; last exact: hQ.
elim: (iota 0 n) hs => [|i l IH]; first by constructor.
by move=> /List.Forall_cons_iff[h1 /IH h2]; apply: List.Forall_cons.
Qed.
Lemma comp_region_comp (H : Prop) m c o base bs xa ya za j z :
  (forall row, all (fun g => at_row T row g == 0) (add_gates F (co_add c)) -> ok (q_add (co_add c)) row) ->
  (forall row, all (fun g => at_row T row g == 0) (compolys c) -> ok (q_mul_decompose_var c) row) ->
  size bs = mp_complete m -> point_is base (Some B) -> (H -> point_in T place base (Some B)) ->
  point_is (ECPoint xa ya) (pmul (2 ^ j + 1 + 2 * z) (Some B)) ->
  (H -> point_in T place (ECPoint xa ya) (pmul (2 ^ j + 1 + 2 * z) (Some B))) ->
  ac_value za = known z%:R -> (H -> val za = z%:R) ->
  rcomp H (comp_region m c r o [seq known t | t <- bs] base xa ya za)
    (fun t => [/\ point_is t.1 (pmul (2 ^ (j + mp_complete m) + 1 + 2 * last z (zsum z bs)) (Some B)),
       [seq ac_value a | a <- t.2] = [seq known k%:R | k <- zsum z bs] &
       [seq ac_cell a | a <- t.2] = [seq Cell r (2 * i + o + 2) (Advice, z_complete c) | i <- iota 0 (mp_complete m)]])
    (fun t => point_in T place t.1 (pmul (2 ^ (j + mp_complete m) + 1 + 2 * last z (zsum z bs)) (Some B)) /\
       [seq val a | a <- t.2] = [seq k%:R | k <- zsum z bs]).
Proof.
move=> oka okd hs hb hbi ha hai ez vz; rewrite /comp_region; case: ifP => [|_]; first by rewrite size_map hs eqxx.
apply: (@rcomp_defer _ T place inst r ok _ _ _ _ _ [seq (q_mul_decompose_var c, 2 * i + o + 1)%N | i <- iota 0 (mp_complete m)]
  (fun=> True) (fun=> True) _ (fun t => [/\ point_in T place t.1 (pmul (2 ^ (j + mp_complete m) + 1 + 2 * last z (zsum z bs)) (Some B)),
       [seq val a | a <- t.2] = [seq k%:R | k <- zsum z bs] &
       forall i, (i < size bs)%N -> vanish (2 * i + o + 1) (compolys c)])).
- exact: rhon_comp_enable.
- move=> _ _; apply: (rcomp_bind (V1 := eq (ACell (known z%:R) (Cell r o (Advice, z_complete c)))) (Q1 := fun=> at_ (z_complete c) o = z%:R)).
    by apply: rcomp_rhon; apply: (rhon_copy _ ez) => // -[h _]; exact: vz.
  move=> _ <-; rewrite -hs; apply: (@comp_loop_comp c o base hb oka _ 0) => //.
  + by case=> -[h _] _; apply: hbi.
  + by case=> -[h _] _; apply: hai.
  + by case=> _; rewrite muln0 add0n.
move=> _ t _ _ _ _ [h1 h2 h3]; split=> // s off /mapP[i]; rewrite mem_iota => hi [-> ->].
by apply: okd; apply: h3; rewrite hs.
Qed.

(* the last bit *)
Definition lsbpolys (c : mul_config) : seq (expr F) :=
  let lsb := esub (EAdvice F 0 (z_complete (mu_comp c)) 1) (EScaled (EAdvice F 0 (z_complete (mu_comp c)) 0) 2%:R) in
  let x_p := EAdvice F 0 (ad_xp (mu_add c)) 0 in let y_p := EAdvice F 0 (ad_yp (mu_add c)) 0 in
  [:: bool_check lsb; ternary lsb x_p (esub x_p (EAdvice F 0 (ad_xp (mu_add c)) 1));
      ternary lsb y_p (ESum y_p (EAdvice F 0 (ad_yp (mu_add c)) 1))].
Definition last_add (t : bool) : point F := if t then None else popp (Some B).
Lemma lsb_row c k z (t : bool) : at_ (z_complete (mu_comp c)) k = z%:R -> at_ (z_complete (mu_comp c)) k.+1 = (2 * z + t)%N%:R ->
  at_ (ad_xp (mu_add c)) k = (encode (last_add t)).1 -> at_ (ad_yp (mu_add c)) k = (encode (last_add t)).2 ->
  at_ (ad_xp (mu_add c)) k.+1 = B.1 -> at_ (ad_yp (mu_add c)) k.+1 = B.2 -> vanish k (lsbpolys c).
Proof.
move=> h1 h2 h3 h4 h5 h6; rewrite /lsbpolys /= bool_checkE /ternary !rowE !addr0 up h1 h2 h3 h4 h5 h6.
have -> : (2 * z + t)%N%:R - 2%:R * z%:R = t%:R :> F by rewrite natrD natrM addrC addKr.
rewrite andbT; apply/and3P; split; apply/eqP; rewrite /last_add; case: (t); case: (B) => * /=; fnorm F; ring.
Qed.
Lemma last_addE j z (t : bool) : padd (last_add t) (pmul (2 ^ j + 1 + 2 * z) (Some B)) = pmul (2 ^ j + (2 * z + t)) (Some B).
Proof.
set a := (2 ^ j + 1 + 2 * z)%N; have hA := pmul_on hc a hB.
rewrite /last_add; case: (t); first by congr pmul; rewrite /a; nlia.
rewrite (paddC hc (popp_on_curve hB) hA) (pmul_sub1 hc hB); last by rewrite /a; nlia.
by congr pmul; rewrite /a; nlia.
Qed.
Lemma process_lsb_comp (H : Prop) c o base acc z1 (t : bool) j z :
  (forall row, all (fun g => at_row T row g == 0) (add_gates F (mu_add c)) -> ok (q_add (mu_add c)) row) ->
  (forall row, all (fun g => at_row T row g == 0) (lsbpolys c) -> ok (q_mul_lsb c) row) ->
  point_is base (Some B) -> (H -> point_in T place base (Some B)) ->
  point_is acc (pmul (2 ^ j + 1 + 2 * z) (Some B)) -> (H -> point_in T place acc (pmul (2 ^ j + 1 + 2 * z) (Some B))) ->
  ac_value z1 = known z%:R -> (H -> at_ (z_complete (mu_comp c)) o = z%:R) ->
  rcomp H (process_lsb c r o base acc z1 (known t))
    (fun u => point_is u.1 (pmul (2 ^ j + (2 * z + t)) (Some B)) /\ ac_value u.2 = known (2 * z + t)%N%:R)
    (fun u => point_in T place u.1 (pmul (2 ^ j + (2 * z + t)) (Some B)) /\ val u.2 = (2 * z + t)%N%:R).
Proof.
move=> oka okl hb hbi ha hai ez vz; rewrite /process_lsb.
apply: (@rcomp_defer _ T place inst r ok _ _ _ _ _ [:: (q_mul_lsb c, o)] (fun=> True) (fun=> True) _
  (fun u => vanish o (lsbpolys c) /\ (point_in T place u.1 (pmul (2 ^ j + (2 * z + t)) (Some B)) /\ val u.2 = (2 * z + t)%N%:R))).
- exact: rhon_enable.
- move=> _ _; pose zc : acell F := ACell (known (2 * z + t)%N%:R) (Cell r (o + 1) (Advice, z_complete (mu_comp c))).
  apply: (rcomp_bind (V1 := eq zc) (Q1 := fun=> at_ (z_complete (mu_comp c)) (o + 1) = (2 * z + t)%N%:R)).
    rewrite ez !vE /bit_f.
    have -> : z%:R * 2%:R + (t : nat)%:R = (2 * z + t)%N%:R :> F by rewrite natrD natrM mulrC.
    by apply: rcomp_rhon; apply: rhon_advice.
  move=> _ <-; case: (hb) => -[bx ebx dbx] [by' eby dby]; rewrite /= in dbx dby.
  apply: (rcomp_bind (V1 := fun=> True) (Q1 := fun=> at_ (ad_xp (mu_add c)) (o + 1) = B.1)).
    apply: rcomp_rhon; apply: (rhon_copy _ (x := B.1)) => //; first by rewrite /ec_evaluate /= ebx -dbx -C09_evaluate.
    by move=> [[h _] _]; have := hbi h; rewrite /point_in => e; have := congr1 fst e.
  move=> _ _; apply: (rcomp_bind (V1 := fun=> True) (Q1 := fun=> at_ (ad_yp (mu_add c)) (o + 1) = B.2)).
    apply: rcomp_rhon; apply: (rhon_copy _ (x := B.2)) => //; first by rewrite /ec_evaluate /= eby -dby -C09_evaluate.
    by move=> [[[h _] _] _]; have := hbi h; rewrite /point_in => e; have := congr1 snd e.
  move=> _ _; rewrite ebx eby /v_and_then /=.
  set vx := (if ~~ t then _ else _); set vy := (if ~~ t then _ else _).
  have [wx ex dx] : exists2 w, vx = known w & denote w = (encode (last_add t)).1.
    by rewrite /vx /last_add; case: (t) => /=; [exists (AZero F)|exists bx => //; case: (B) dbx].
  have [wy ey dy] : exists2 w, vy = known w & denote w = (encode (last_add t)).2.
    by rewrite /vy /last_add; case: (t) => /=; [exists (AZero F)|exists (a_neg by') => //; rewrite C09_neg; case: (B) dby => ? ? /= ->].
  rewrite ex ey; pose xc : ecell F := ECell (known wx) (Cell r o (Advice, ad_xp (mu_add c))).
  pose yc : ecell F := ECell (known wy) (Cell r o (Advice, ad_yp (mu_add c))).
  apply: (rcomp_bind (V1 := eq xc) (Q1 := fun=> at_ (ad_xp (mu_add c)) o = (encode (last_add t)).1)).
    by apply: rcomp_rhon; apply: rhon_e => // _ ->.
  move=> _ <-; apply: (rcomp_bind (V1 := eq yc) (Q1 := fun=> at_ (ad_yp (mu_add c)) o = (encode (last_add t)).2)).
    by apply: rcomp_rhon; apply: rhon_e => // _ ->.
  move=> _ <-; have hA := pmul_on hc (2 ^ j + 1 + 2 * z) hB.
  have hP : on_curve b (last_add t) by rewrite /last_add; case: (t) => //; exact: popp_on_curve.
  apply: (rcomp_bind (rcomp_add _ _ _ hc hP hA oka _ ha _ _)).
  + by split; [exists wx|exists wy].
  + by move=> [[_ h1] h2]; rewrite /point_in /cell_value /row_of /= h1 h2 -surjective_pairing.
  + by move=> h; apply: hai; tauto.
  move=> u hu; rewrite last_addE in hu; apply: rcomp_ret => //.
  rewrite last_addE; case=> [[[[[[[h _] g1] g2] g3] g4] g5] g6]; split; last by split=> //; rewrite /cell_value /row_of /= g1.
  by rewrite addn1 in g1 g2 g3; exact: lsb_row (vz h) g1 g4 g5 g2 g3.
move=> _ u _ _ _ _ [h1 h2]; split=> // s off; rewrite inE => /eqP[-> ->]; exact: okl.
Qed.
End Complete.
