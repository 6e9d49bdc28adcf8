(* C45: witnessing and adding curve points *)
Set Warnings "-notation-overridden,-ambiguous-paths".
From mathcomp Require Import all_ssreflect all_algebra.
From Verif Require Import FieldTac Util M_Env M_Assigned P_Assigned M_Circuit S_Circuit M_Value M_Region S_Region
  M_Layout S_Layout M_Utilities L_Region L_Gadget M_Ecc S_Curve L_Curve.
Import GRing.Theory.
Set Implicit Arguments.
Unset Strict Implicit.
Local Open Scope ring_scope.
Local Arguments at_row : simpl never.
Local Arguments esub : simpl never.
Local Arguments inc_gates : simpl never.
Local Arguments add_gates : simpl never.
Local Arguments padd : simpl never.

Lemma v_mapE (V W : Type) (f : V -> W) x : v_map f (known x) = known (f x). Proof. by []. Qed.
Lemma v_zipE (V W : Type) (x : V) (y : W) : v_zip (known x) (known y) = known (x, y). Proof. by []. Qed.
Lemma v_subE (F : fieldType) (x y : assigned F) : v_sub (known x) (known y) = known (a_sub x y). Proof. by []. Qed.
Definition vE := (v_mapE, v_zipE, v_subE).

Section Spec.
Variables (F : fieldType) (T : table F) (place : nat -> int).
(* the two cells of an assigned point hold the point *)
Definition point_in (p : ecpoint F) (P : point F) : Prop :=
  (cell_value T place (ec_cell (ep_x p)), cell_value T place (ec_cell (ep_y p))) = encode P.
(* the values a prover attached to an assigned cell, an assigned point *)
Definition value_is (a : ecell F) (x : F) : Prop := exists2 v, ec_value a = known v & denote v = x.
Definition point_is (p : ecpoint F) (P : point F) : Prop :=
  value_is (ep_x p) (encode P).1 /\ value_is (ep_y p) (encode P).2.
End Spec.

Section Ecc.
Variables (F : fieldType) (b : F) (inst : nat -> nat -> value F).
Add Field Ff : (F_field_theory F).
Implicit Types (T : table F) (place : nat -> int) (P Q : point F).

Lemma inv0E (a : assigned F) : denote (a_invert a) = (denote a)^-1.
Proof. by rewrite C09_invert; case: eqP => [->|_]; rewrite ?invr0 // div1r. Qed.
Definition denE := (C09_sub, C09_add, C09_mul, C09_square, inv0E, C09_neg, C09_eq, C09_is_zero).
Lemma denote_mul_f (a : assigned F) x : denote (a_mul_f a x) = denote a * x.
Proof. by rewrite /a_mul_f C09_mul. Qed.

(* ---- witness points *)
Lemma curve_eqnE T row c : let x := t_cell T Advice (wp_x c) row in let y := t_cell T Advice (wp_y c) row in
  at_row T row (curve_eqn b c) = y ^+ 2 - x ^+ 3 - b.
Proof. by rewrite /curve_eqn /esquare !rowE !addr0 expr2 !exprS expr0 mulr1 mulrA. Qed.

(* Whatever the prover assigns, the two cells hold the identity (0, 0) or a point of the curve. *)
Theorem C45_witness_sound T place c region v offset p :
  good_curve b ->
  returns inst (wp_point c region v offset) = Ok p ->
  respects T place region (calls inst (wp_point c region v offset)) ->
  gates_hold T (wp_gates b c) ->
  exists2 P, on_curve b P & point_in T place p P.
Proof.
rewrite /= => hc -[<-] /respects_cons[/= hs _] hg.
have := hg (place region + offset%:Z); rewrite /wp_gates /= !at_mul !curve_eqnE !at_sel !at_adv hs !mul1r !addr0.
rewrite !mulf_eq0 /point_in /cell_value /row_of /=.
set x := t_cell _ _ _ _; set y := t_cell _ _ _ _ => /and3P[h1 h2 _].
have [e|ne] := boolP (y ^+ 2 - x ^+ 3 - b == 0).
  by exists (Some (x, y)) => //=; rewrite -subr_eq0 opprD addrA.
by move: h1 h2; rewrite (negbTE ne) !orbF => /eqP -> /eqP ->; exists None.
Qed.
Theorem C45_witness_non_id_sound T place c region v offset p :
  returns inst (wp_point_non_id c region v offset) = Ok p ->
  respects T place region (calls inst (wp_point_non_id c region v offset)) ->
  gates_hold T (wp_gates b c) ->
  exists xy, on_curve b (Some xy) /\ point_in T place p (Some xy).
Proof.
rewrite /wp_point_non_id /try_unit; case: v_error_if_known_and => [[]|//|//] /= -[<-] /respects_cons[/= hs _] hg.
have := hg (place region + offset%:Z); rewrite /wp_gates /= !at_mul !curve_eqnE !at_sel !at_adv hs !mul1r.
case/and4P=> _ _ h _; eexists (_, _); split; last by rewrite /point_in.
by rewrite /= -subr_eq0 opprD addrA.
Qed.
(* a constant point: exactly the constant, with no freedom left *)
Theorem C45_constant_point T place c region P offset p :
  returns inst (wp_constant_point c region P offset) = Ok p ->
  respects T place region (calls inst (wp_constant_point c region P offset)) ->
  point_in T place p P.
Proof. by case: P => [[x y]|] /= [<-] /respects_cons[_ /respects_cons[/= hx /respects_cons[/= hy _]]]; rewrite /point_in /cell_value /row_of /= hx hy. Qed.

(* the honest prover *)
Theorem C45_witness_complete T place c region P offset :
  on_curve b P ->
  let pr := wp_point c region (known P) offset in
  exists p, [/\ returns inst pr = Ok p, point_is p P &
    (selectors_on T place region (calls inst pr) -> honest T place region (calls inst pr) ->
     [/\ respects T place region (calls inst pr), point_in T place p P &
         t_selector T (q_point_non_id c) (place region + offset%:Z) = false \/ P <> None ->
         all (fun g => at_row T (place region + offset%:Z) g == 0) (wp_gates b c)])].
Proof.
move=> hP pr; rewrite /pr /=; eexists; split; first by [].
  by case: (P) => [[x y]|]; split; (eexists; [reflexivity|by []]).
rewrite !honest_cons => /List.Forall_cons_iff[/= hs _] [_ [h1 [h2 _]]].
have e1 := h1 _ erefl; have e2 := h2 _ erefl; rewrite /= in e1 e2.
have ex : denote (coords P).1 = (encode P).1 by case: (P) => [[]|].
have ey : denote (coords P).2 = (encode P).2 by case: (P) => [[]|].
split.
- by do !constructor.
- by rewrite /point_in /cell_value /row_of /= e1 e2 ex ey; case: (encode P).
rewrite /wp_gates /= !at_mul !curve_eqnE !at_sel !at_adv hs !mul1r !addr0 e1 e2 ex ey andbT.
case: P hP {h1 h2 e1 e2 ex ey pr} => [[x y]|] /= hP; last by case=> [->|//]; rewrite !mul0r eqxx.
by rewrite (eqP hP) [x ^+ 3 + b]addrC addrK subrr !mulr0 eqxx.
Qed.
Theorem C45_witness_non_id_complete T place c region x y offset :
  on_curve b (Some (x, y)) ->
  let pr := wp_point_non_id c region (known (Some (x, y))) offset in
  exists p, [/\ returns inst pr = Ok p, point_is p (Some (x, y)) &
    (selectors_on T place region (calls inst pr) -> honest T place region (calls inst pr) ->
     [/\ respects T place region (calls inst pr), point_in T place p (Some (x, y)) &
         all (fun g => at_row T (place region + offset%:Z) g == 0) (wp_gates b c)])].
Proof.
move=> hP pr; rewrite /pr /=; eexists; split; first by [].
  by split; (eexists; [reflexivity|by []]).
rewrite !honest_cons => /List.Forall_cons_iff[/= hs _] [_ [h1 [h2 _]]].
have e1 := h1 _ erefl; have e2 := h2 _ erefl; rewrite /= in e1 e2.
split.
- by do !constructor.
- by rewrite /point_in /cell_value /row_of /= e1 e2.
rewrite /wp_gates /= !at_mul !curve_eqnE !at_sel !at_adv hs !mul1r !addr0 e1 e2 andbT.
by rewrite (eqP hP) [x ^+ 3 + b]addrC addrK subrr !mulr0 eqxx.
Qed.
(* and the identity is refused *)
Theorem C45_witness_non_id_identity c region offset :
  returns inst (wp_point_non_id c region (known (None : point F)) offset) = Err ESynthesis.
Proof. by []. Qed.

(* ---- incomplete addition *)
Lemma inc_gatesE T row c : t_selector T (q_add_incomplete c) row ->
  let v col := t_cell T Advice col row in let v' col := t_cell T Advice col (row + 1) in
  all (fun g => at_row T row g == 0) (inc_gates F c) =
  ((v' (inc_xqr c) + v (inc_xqr c) + v (inc_xp c)) * (v (inc_xp c) - v (inc_xqr c)) ^+ 2 == (v (inc_yp c) - v (inc_yqr c)) ^+ 2) &&
  ((v' (inc_yqr c) + v (inc_yqr c)) * (v (inc_xp c) - v (inc_xqr c)) == (v (inc_yp c) - v (inc_yqr c)) * (v (inc_xqr c) - v' (inc_xqr c))).
Proof.
move=> hs v v'; rewrite /inc_gates /= /esquare !rowE hs !mul1r !addr0 andbT !subr_eq0 -!mulrA -!expr2 !mulrA.
by rewrite -/(v _) -[t_cell T Advice (inc_xqr c) (row + 1)]/(v' _).
Qed.
Theorem C45_add_incomplete_sound T place c region p q offset r x1 y1 x2 y2 :
  returns inst (inc_region c region p q offset) = Ok r ->
  respects T place region (calls inst (inc_region c region p q offset)) ->
  gates_hold T (inc_gates F c) ->
  point_in T place p (Some (x1, y1)) -> point_in T place q (Some (x2, y2)) -> x1 != x2 ->
  point_in T place r (padd (Some (x1, y1)) (Some (x2, y2))).
Proof.
rewrite /inc_region /try_unit /=; case: v_error_if_known_and => [[]|//|//] /= -[<-].
rewrite !respects_cons => -[/= hs [_ [e1 [_ [e2 [_ [e3 [_ [e4 _]]]]]]]]] hg [p1 p2] [q1 q2] ne.
have := hg (place region + offset%:Z); rewrite inc_gatesE //.
rewrite p1 in e1; rewrite p2 in e2; rewrite q1 in e3; rewrite q2 in e4.
rewrite /cell_value /row_of /= in e1 e2 e3 e4; rewrite e1 e2 e3 e4.
rewrite /point_in /cell_value /row_of /padd /= ne PoszD addrA.
set xr := t_cell _ _ _ _; set yr := t_cell _ _ _ _; have nd : x1 - x2 != 0 by rewrite subr_eq0.
have nd' : x2 - x1 != 0 by rewrite subr_eq0 eq_sym.
set l := _ / _; have hl : y1 - y2 = l * (x1 - x2) by rewrite -opprB -[x1 - x2]opprB mulrN /l mulfVK.
have nd2 : (x1 - x2) ^+ 2 != 0 by rewrite expf_neq0.
case/andP; rewrite hl exprMn => /eqP /(mulIf nd2) ex /eqP ey.
have exr : xr = l ^+ 2 - x1 - x2 by rewrite -ex; fnorm F; ring.
have eyr : yr + y2 = l * (x2 - xr) by apply: (mulIf nd); rewrite ey; fnorm F; ring.
congr pair => //; have ey1 : y1 = y2 + l * (x1 - x2) by rewrite -hl addrC subrK.
have -> : yr = l * (x2 - xr) - y2 by rewrite -eyr addrK.
by rewrite ey1 exr; fnorm F; ring.
Qed.
(* an honest prover's table meets the constraints; the chip refuses the identity and equal x *)
Theorem C45_add_incomplete_complete T place c region p q offset x1 y1 x2 y2 :
  good_curve b -> on_curve b (Some (x1, y1)) -> on_curve b (Some (x2, y2)) -> x1 != x2 ->
  point_is p (Some (x1, y1)) -> point_is q (Some (x2, y2)) ->
  let pr := inc_region c region p q offset in
  exists r, [/\ returns inst pr = Ok r, point_is r (padd (Some (x1, y1)) (Some (x2, y2))) &
    (selectors_on T place region (calls inst pr) -> honest T place region (calls inst pr) ->
     point_in T place p (Some (x1, y1)) -> point_in T place q (Some (x2, y2)) ->
     [/\ respects T place region (calls inst pr),
         point_in T place r (padd (Some (x1, y1)) (Some (x2, y2))) &
         all (fun g => at_row T (place region + offset%:Z) g == 0) (inc_gates F c)])].
Proof.
move=> hc h1 h2 ne [[v1 ev1 /= d1] [w1 ew1 /= f1]] [[v2 ev2 /= d2] [w2 ew2 /= f2]].
rewrite /inc_region ev1 ew1 ev2 ew2 !vE /v_error_if_known_and /= !denE d1 d2 f1 f2.
rewrite (negbTE (x_neq0 hc h1)) (negbTE (x_neq0 hc h2)) (negbTE ne) /=.
have nd : x1 - x2 != 0 by rewrite subr_eq0.
have nd' : x2 - x1 != 0 by rewrite subr_eq0 eq_sym.
pose lv := a_mul (a_sub w2 w1) (a_invert (a_sub v2 v1)).
pose vx := a_sub (a_sub (a_square lv) v1) v2; pose vy := a_sub (a_mul lv (a_sub v1 vx)) w1.
have ex : denote vx = ((y2 - y1) / (x2 - x1)) ^+ 2 - x1 - x2 by rewrite /vx /lv !denE d1 d2 f1 f2 -expr2.
have ey : denote vy = (y2 - y1) / (x2 - x1) * (x1 - (((y2 - y1) / (x2 - x1)) ^+ 2 - x1 - x2)) - y1.
  by rewrite /vy C09_sub C09_mul (C09_sub v1) ex /lv !denE d1 d2 f1 f2.
eexists; split; first by [].
  by rewrite /padd ne; split; (eexists; [reflexivity|by []]).
rewrite !honest_cons => /List.Forall_cons_iff[/= hs _] [_ [n1 [_ [n2 [_ [n3 [_ [n4 [_ [n5 [n6 _]]]]]]]]]]] [p1 p2] [q1 q2].
have m1 := n1 _ erefl; have m2 := n2 _ erefl; have m3 := n3 _ erefl; have m4 := n4 _ erefl.
have m5 := n5 _ erefl; have m6 := n6 _ erefl; rewrite /= in m1 m2 m3 m4 m5 m6.
rewrite d1 in m1; rewrite f1 in m2; rewrite d2 in m3; rewrite f2 in m4; rewrite ex in m5; rewrite ey in m6.
split.
- do !constructor=> //=; rewrite ?p1 ?p2 ?q1 ?q2; by rewrite /cell_value /row_of.
- by rewrite /point_in /cell_value /row_of /padd /= ne m5 m6.
suff : all (fun g => at_row T (place region + offset%:Z) g == 0) (inc_gates F c) by [].
rewrite inc_gatesE // m1 m2 m3 m4 -(addrA (place region)) -PoszD m5 m6.
set l := _ / _; have hl : y1 - y2 = l * (x1 - x2) by rewrite -opprB -[x1 - x2]opprB mulrN /l mulfVK.
have ey1 : y1 = y2 + l * (x1 - x2) by rewrite -hl addrC subrK.
rewrite hl ey1; apply/andP; split; apply/eqP; fnorm F; ring.
Qed.
Theorem C45_add_incomplete_exceptional c region p q offset P Q :
  point_is p P -> point_is q Q -> P = None \/ Q = None \/ (encode P).1 = (encode Q).1 ->
  returns inst (inc_region c region p q offset) = Err ESynthesis.
Proof.
move=> [[v1 ev1 d1] [w1 ew1 f1]] [[v2 ev2 d2] [w2 ew2 f2]] h.
rewrite /inc_region ev1 ew1 ev2 ew2 !vE /v_error_if_known_and /= !denE d1 d2 f1 f2.
by case: h => [->|[->|->]]; rewrite /= !eqxx ?orbT.
Qed.

(* ---- complete addition *)
Lemma add_gatesE T row c : t_selector T (q_add c) row ->
  let v col := t_cell T Advice col row in let v' col := t_cell T Advice col (row + 1) in
  all (fun g => at_row T row g == 0) (add_gates F c) =
  all (eq_op 0) (add_eqs (v (ad_xp c)) (v (ad_yp c)) (v (ad_xqr c)) (v (ad_yqr c)) (v' (ad_xqr c)) (v' (ad_yqr c))
    (v (ad_lambda c)) (v (ad_alpha c)) (v (ad_beta c)) (v (ad_gamma c)) (v (ad_delta c))).
Proof. by move=> hs; rewrite /add_gates /add_eqs /= /esquare !rowE hs !mul1r !addr0 !(eq_sym 0). Qed.
Theorem C45_add_sound T place c region p q offset r P Q :
  good_curve b -> on_curve b P -> on_curve b Q ->
  returns inst (add_region c region p q offset) = Ok r ->
  respects T place region (calls inst (add_region c region p q offset)) ->
  gates_hold T (add_gates F c) ->
  point_in T place p P -> point_in T place q Q ->
  point_in T place r (padd P Q).
Proof.
move=> hc hP hQ; rewrite /= => -[<-].
rewrite !respects_cons => -[/= hs [_ [e1 [_ [e2 [_ [e3 [_ [e4 _]]]]]]]]] hg p1 q1.
have := hg (place region + offset%:Z); rewrite add_gatesE //.
rewrite /cell_value /row_of /= in e1 e2 e3 e4; rewrite e1 e2 e3 e4 -(addrA (place region)) -PoszD => h.
apply: (add_eqs_sound hc hP hQ (xr := cell_value _ _ _) (yr := cell_value _ _ _)).
by move: h; rewrite -p1 -q1; exact.
Qed.
Theorem C45_add_complete T place c region p q offset P Q :
  good_curve b -> on_curve b P -> on_curve b Q -> point_is p P -> point_is q Q ->
  let pr := add_region c region p q offset in
  exists r, [/\ returns inst pr = Ok r, point_is r (padd P Q) &
    (selectors_on T place region (calls inst pr) -> honest T place region (calls inst pr) ->
     point_in T place p P -> point_in T place q Q ->
     [/\ respects T place region (calls inst pr), point_in T place r (padd P Q) &
         all (fun g => at_row T (place region + offset%:Z) g == 0) (add_gates F c)])].
Proof.
move=> hc hP hQ [[v1 ev1 d1] [w1 ew1 f1]] [[v2 ev2 d2] [w2 ew2 f2]].
rewrite /add_region ev1 ew1 ev2 ew2 !vE /=.
pose vl := if ~~ a_eq v2 v1 then a_mul (a_sub w2 w1) (a_invert (a_sub v2 v1))
  else if ~~ a_is_zero w1 then a_mul (a_mul_f (a_square v1) 3%:R) (a_mul_f (a_invert w1) (2%:R)^-1) else AZero F.
have el : denote vl = add_lambda (encode P).1 (encode P).2 (encode Q).1 (encode Q).2.
  rewrite /vl /add_lambda C09_eq C09_is_zero d1 d2 f1; case: eqP => /= _; last by rewrite !denE d1 d2 f1 f2.
  by case: eqP => //= _; rewrite C09_mul !denote_mul_f !denE d1 f1.
pose vd := if a_eq v2 v1 then a_invert (a_add w2 w1) else AZero F.
have ed : denote vd = add_delta (encode P).1 (encode P).2 (encode Q).1 (encode Q).2.
  by rewrite /vd /add_delta C09_eq d1 d2; case: eqP => //= _; rewrite !denE f1 f2.
pose vr := if a_is_zero v1 then (v2, w2) else if a_is_zero v2 then (v1, w1)
  else if a_eq v2 v1 && a_eq w2 (a_neg w1) then (AZero F, AZero F)
  else let x_r := a_sub (a_sub (a_square vl) v1) v2 in (x_r, a_sub (a_mul vl (a_sub v1 x_r)) w1).
have er : (denote vr.1, denote vr.2) = encode (padd P Q).
  rewrite -(add_resultE hc hP hQ) -el /vr /add_result !denE d1 d2 f1 f2.
  case: ifP => [_|_]; first by rewrite /= d2 f2.
  case: ifP => [_|_]; first by rewrite /= d1 f1.
  by case: ifP => [//|_]; rewrite /= !denE d1 d2 f1.
have [xr [yr eR]] : exists xr yr, encode (padd P Q) = (xr, yr) by case: (encode (padd P Q)) => xr yr; exists xr, yr.
rewrite eR in er; case: er => er1 er2.
eexists; split; first by [].
  by rewrite /point_is eR; split; (eexists; [reflexivity|by []]).
rewrite !honest_cons => /List.Forall_cons_iff[/= hs _] [_ [n1 [_ [n2 [_ [n3 [_ [n4 [_ [n5 [n6 [n7 [n8 [n9 [n10 [n11 _]]]]]]]]]]]]]]]].
have m1 := n1 _ ev1; have m2 := n2 _ ew1; have m3 := n3 _ ev2; have m4 := n4 _ ew2.
have m5 := n5 _ erefl; have m6 := n6 _ erefl; have m7 := n7 _ erefl; have m8 := n8 _ erefl.
have m9 := n9 _ erefl; have m10 := n10 _ erefl; have m11 := n11 _ erefl.
rewrite /= in m1 m2 m3 m4 m5 m6 m7 m8 m9 m10 m11.
rewrite d1 in m1; rewrite f1 in m2; rewrite d2 in m3; rewrite f2 in m4; rewrite er1 in m10; rewrite er2 in m11.
rewrite !denE d1 d2 in m5; rewrite inv0E d1 in m6; rewrite inv0E d2 in m7; rewrite ed in m8; rewrite el in m9.
rewrite /point_in; case eP: (encode P) => [xp yp] [p1 p2]; case eQ: (encode Q) => [xq yq] [q1 q2].
split.
- rewrite eP eQ /= in m1 m2 m3 m4; do !constructor=> //=; rewrite ?p1 ?p2 ?q1 ?q2; by rewrite /cell_value /row_of.
- by rewrite /point_in /cell_value /row_of /= eR m10 m11.
suff : all (fun g => at_row T (place region + offset%:Z) g == 0) (add_gates F c) by [].
rewrite add_gatesE // m1 m2 m3 m4 m5 m6 m7 m8 m9 -(addrA (place region)) -PoszD m10 m11.
by have := add_eqs_complete hc hP hQ; rewrite eR.
Qed.
End Ecc.
Print Assumptions C45_witness_sound.
Print Assumptions C45_witness_non_id_sound.
Print Assumptions C45_witness_complete.
Print Assumptions C45_add_incomplete_sound.
Print Assumptions C45_add_incomplete_complete.
Print Assumptions C45_add_sound.
Print Assumptions C45_add_complete.

(* ---------------------------------------------------------------- example *)
From Coq Require Import Lia.
From Verif Require Import Ex_Field Ex_Env Ex_Layout.
(* y^2 = x^3 + 5 over F_97: 79 points *)
Lemma all97 (f : pred K97) : all (fun i => f (kred (NArith.BinNat.N.of_nat i))) (iota 0 97) -> forall x, f x.
Proof.
move=> /allP h x; have := h (k_nat x); rewrite k_natK; apply; rewrite mem_iota add0n /k_nat.
have := K97_lt x => /NArith.BinNat.N.ltb_lt; set n := kval x; clearbody n => hn.
by apply/ltP; lia.
Qed.
Definition b97 : F97 := 5%:R.
Example good97 : good_curve b97.
Proof.
split; first by vm_compute.
  by apply: (@all97 (fun y : F97 => y ^+ 2 != b97)); vm_compute.
by apply: (@all97 (fun x : F97 => x ^+ 3 + b97 != 0)); vm_compute.
Qed.
Definition P97 : point F97 := Some (1, 43%:R).
Definition Q97 : point F97 := Some (3%:R, 41%:R).
Definition wpc97 := WPConfig 0 1 0 1.
Definition incc97 := IncConfig 2 0 1 2 3.
Definition addc97 := AddConfig 3 4 0 1 2 3 5 6 7 8.
(* Q + (P + Q) by incomplete addition, then everything by complete addition: P + Q, P + P, P + (-P), P + 0 *)
Definition ecc_demo97 : lprog F97 (seq (ecpoint F97)) :=
  let* p := ecc_witness_point_non_id wpc97 (known P97) in
  let* q := ecc_witness_point wpc97 (known Q97) in
  let* n := ecc_witness_point wpc97 (known (popp P97)) in
  let* o := ecc_witness_point wpc97 (known None) in
  let* a := ecc_add_incomplete incc97 p q in
  let* c := ecc_add addc97 p q in
  let* d := ecc_add addc97 p p in
  let* e := ecc_add addc97 p n in
  let* f := ecc_add addc97 p o in
  LRet [:: a; c; d; e; f].
Definition eplace97 (r : nat) : int := Posz (3 * r).
Definition einst97 : nat -> nat -> value F97 := fun _ _ => unknown.
Definition eregions97 := lregions einst97 0 ecc_demo97.
Definition eT97 : table F97 := table_of eplace97 eregions97.
Definition egates97 := wp_gates b97 wpc97 ++ inc_gates F97 incc97 ++ add_gates F97 addc97.
(* the honest prover's table satisfies every gate on the rows it uses, and holds the five sums *)
Check (ltac:(vm_compute; reflexivity) :
  [&& honestb eplace97 eT97 eregions97,
      all (fun row => all (fun g => at_row eT97 (Posz row) g == 0) egates97) (iota 0 30) &
      if lreturns einst97 0 ecc_demo97 is Ok (ps, _) then
        [seq (cell_value eT97 eplace97 (ec_cell (ep_x p)), cell_value eT97 eplace97 (ec_cell (ep_y p))) | p <- ps] ==
        [seq encode R | R <- [:: padd P97 Q97; padd P97 Q97; padd P97 P97; None; P97]]
      else false] = true).
Example C45_sums97 : (padd P97 Q97 == Some (94%:R, 50%:R)) && (padd P97 P97 != None) && on_curve b97 (padd P97 P97).
Proof. by vm_compute. Qed.
