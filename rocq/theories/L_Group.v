(* The affine group law is a commutative group law on the points of a good curve. *)
Set Warnings "-notation-overridden,-ambiguous-paths".
From mathcomp Require Import all_ssreflect all_algebra.
From Coq Require Import NsatzTactic.
From Verif Require Import FieldTac S_Curve L_Curve.
Import GRing.Theory.
Set Implicit Arguments.
Unset Strict Implicit.
Local Open Scope ring_scope.

Section Nsatz.
Variable F : fieldType.
#[local] Instance Fops : @Ring_ops F f0 f1 fadd fmul fsub fopp (@eq F). Defined.
#[local] Instance Fring : @Ring F f0 f1 fadd fmul fsub fopp (@eq F) Fops.
Proof.
split; try (by []); try exact: eq_equivalence.
- by move=> x y -> ? ? ->.
- by move=> x y -> ? ? ->.
- by move=> x y -> ? ? ->.
- by move=> x y ->.
- exact: add0r.
- exact: addrC.
- exact: addrA.
- exact: mul1r.
- exact: mulr1.
- exact: mulrA.
- exact: mulrDl.
- move=> x y z; exact: mulrDr.
- exact: subrr.
Qed.
#[local] Instance Fcring : Cring (Rr := Fring). Proof. move=> x y; exact: mulrC. Qed.
#[local] Instance Fdom : Integral_domain (Rcr := Fcring).
Proof.
split; last by apply/eqP; exact: oner_neq0.
move=> x y /eqP; change (fmul x y == f0) with (x * y == 0)%R; rewrite mulf_eq0 => /orP[/eqP|/eqP]; by [left|right].
Qed.
Implicit Types x y l m u v : F.

(* (A + B) + C and A + (B + C) on chords; l is the slope of AB, m that of BC *)
Lemma assoc_x x1 x2 y2 x3 l m :
  let y1 := y2 + l * (x1 - x2) in let y3 := y2 + m * (x3 - x2) in
  let x4 := l * l - x1 - x2 in let y4 := l * (x1 - x4) - y1 in
  let x5 := m * m - x2 - x3 in let y5 := m * (x2 - x5) - y2 in
  l * (y1 + y2) = x1 * x1 + x1 * x2 + x2 * x2 ->
  m * (y3 + y2) = x3 * x3 + x3 * x2 + x2 * x2 ->
  (y4 - y3) * (y4 - y3) * (x5 - x1) * (x5 - x1) - (x4 + x3) * (x4-x3) * (x4-x3) * (x5 - x1) * (x5 - x1) =
  (y5 - y1) * (y5 - y1) * (x4 - x3) * (x4 - x3) - (x5 + x1) * (x4-x3) * (x4-x3) * (x5 - x1) * (x5 - x1).
Proof.
cbv zeta; fnorm F => h1 h2.
nsatz with radicalmax := 1%N strategy := 1%Z parameters := (@nil F) variables := (y2 :: x1 :: x2 :: x3 :: l :: m :: nil)%list.
Qed.
Lemma assoc_y x1 x2 y2 x3 l m :
  let y1 := y2 + l * (x1 - x2) in let y3 := y2 + m * (x3 - x2) in
  let x4 := l * l - x1 - x2 in let y4 := l * (x1 - x4) - y1 in
  let x5 := m * m - x2 - x3 in let y5 := m * (x2 - x5) - y2 in
  l * (y1 + y2) = x1 * x1 + x1 * x2 + x2 * x2 ->
  m * (y3 + y2) = x3 * x3 + x3 * x2 + x2 * x2 ->
  (* y6 = u (x4 - x6) - y4 with x6 = u^2 - x4 - x3, times (x4 - x3)^3 (x5 - x1)^3 *)
  ((y4 - y3) * ((2%:R * x4 + x3) * (x4 - x3) * (x4 - x3) - (y4 - y3) * (y4 - y3)) - y4 * (x4 - x3) * (x4 - x3) * (x4 - x3)) *
    (x5 - x1) * (x5 - x1) * (x5 - x1) =
  ((y5 - y1) * ((2%:R * x5 + x1) * (x5 - x1) * (x5 - x1) - (y5 - y1) * (y5 - y1)) - y5 * (x5 - x1) * (x5 - x1) * (x5 - x1)) *
    (x4 - x3) * (x4 - x3) * (x4 - x3).
Proof.
cbv zeta; fnorm F => h1 h2.
nsatz with radicalmax := 1%N strategy := 1%Z parameters := (@nil F) variables := (y2 :: x1 :: x2 :: x3 :: l :: m :: nil)%list.
Qed.

(* A + (B + (A + B)) = 2 (A + B); m is the slope of the line through B and A + B *)
Lemma double_x x1 x2 y2 l m :
  let y1 := y2 + l * (x1 - x2) in
  let x4 := l * l - x1 - x2 in let y4 := l * (x1 - x4) - y1 in
  let x5 := m * m - x2 - x4 in let y5 := m * (x2 - x5) - y2 in
  l * (y1 + y2) = x1 * x1 + x1 * x2 + x2 * x2 ->
  y4 - y2 = m * (x4 - x2) ->
  m * (y4 + y2) = x4 * x4 + x4 * x2 + x2 * x2 ->
  (y5 - y1) * (y5 - y1) * (4%:R * y4 * y4) - (x5 + x1) * (x5 - x1) * (x5 - x1) * (4%:R * y4 * y4) =
  9%:R * x4 * x4 * x4 * x4 * (x5 - x1) * (x5 - x1) - (x4 + x4) * (x5 - x1) * (x5 - x1) * (4%:R * y4 * y4).
Proof.
cbv zeta; fnorm F => h1 h2 h3.
nsatz with radicalmax := 1%N strategy := 1%Z parameters := (@nil F) variables := (y2 :: x1 :: x2 :: l :: m :: nil)%list.
Qed.
Lemma double_y x1 x2 y2 l m :
  let y1 := y2 + l * (x1 - x2) in
  let x4 := l * l - x1 - x2 in let y4 := l * (x1 - x4) - y1 in
  let x5 := m * m - x2 - x4 in let y5 := m * (x2 - x5) - y2 in
  l * (y1 + y2) = x1 * x1 + x1 * x2 + x2 * x2 ->
  y4 - y2 = m * (x4 - x2) ->
  m * (y4 + y2) = x4 * x4 + x4 * x2 + x2 * x2 ->
  ((y5 - y1) * ((2%:R * x5 + x1) * (x5 - x1) * (x5 - x1) - (y5 - y1) * (y5 - y1)) - y5 * (x5 - x1) * (x5 - x1) * (x5 - x1)) *
    (8%:R * y4 * y4 * y4) =
  (3%:R * x4 * x4 * (12%:R * x4 * y4 * y4 - 9%:R * x4 * x4 * x4 * x4) - 8%:R * y4 * y4 * y4 * y4) *
    (x5 - x1) * (x5 - x1) * (x5 - x1).
Proof.
cbv zeta; fnorm F => h1 h2 h3.
nsatz with radicalmax := 1%N strategy := 1%Z parameters := (@nil F) variables := (y2 :: x1 :: x2 :: l :: m :: nil)%list.
Qed.
End Nsatz.

Section Group.
Variables (F : fieldType) (b : F).
Add Field Ff : (F_field_theory F).
Implicit Types (P Q R : point F) (x y l m u v : F).

(* l is the slope of the chord through two points, or of the tangent if they are the same *)
Definition slope l x1 y1 x2 y2 : Prop :=
  y1 - y2 = l * (x1 - x2) /\ l * (y1 + y2) = x1 * x1 + x1 * x2 + x2 * x2.
Lemma padd_slope l x1 y1 x2 y2 : (x1 != x2) || (y1 + y2 != 0) -> (2%:R : F) != 0 ->
  slope l x1 y1 x2 y2 -> padd (Some (x1, y1)) (Some (x2, y2)) = line_sum l x1 y1 x2.
Proof.
move=> + h2 [e1 e2]; rewrite /padd; case: (x1 =P x2) => [e /= ny|/eqP ne _] /=; last first.
  have nd : x2 - x1 != 0 by rewrite subr_eq0 eq_sym.
  congr line_sum; apply: (mulIf nd); rewrite mulfVK // -[x2 - x1]opprB mulrN -e1; fnorm F; ring.
have ey : y1 = y2 by apply/eqP; rewrite -subr_eq0 e1 e subrr mulr0.
rewrite -addr_eq0 (negbTE ny); congr line_sum.
have n2 : 2%:R * y1 != 0 by rewrite mulr_natl mulr2n {2}ey.
apply: (mulIf n2); rewrite mulfVK //; have -> : l * (2%:R * y1) = l * (y1 + y2) by rewrite -ey; fnorm F; ring.
by rewrite e2 -e; fnorm F; ring.
Qed.
Hypothesis hc : good_curve b.
Let two0 := gc_char hc.
Lemma has_slope x1 y1 x2 y2 : on_curve b (Some (x1, y1)) -> on_curve b (Some (x2, y2)) ->
  (x1 != x2) || (y1 + y2 != 0) -> exists l, slope l x1 y1 x2 y2.
Proof.
move=> h1 h2; case: (x1 =P x2) => [e /= ny|/eqP ne _].
  have ey : y1 = y2.
    rewrite -e in h2; have [e3|[]//] := same_x hc h1 h2; by move: ny; rewrite e3 addNr eqxx.
  exists (3%:R * x1 ^+ 2 / (y1 + y2)); split; first by rewrite e ey !subrr mulr0.
  by rewrite mulfVK // e; fnorm F; ring.
have nd : x1 - x2 != 0 by rewrite subr_eq0.
exists ((y1 - y2) / (x1 - x2)); split; first by rewrite mulfVK.
apply: (mulIf nd); rewrite mulrAC mulfVK //.
transitivity (y1 ^+ 2 - y2 ^+ 2); first by fnorm F; ring.
by rewrite (eqP h1) (eqP h2); fnorm F; ring.
Qed.
Lemma not_opp x1 y1 x2 y2 : (x1 != x2) || (y1 + y2 != 0) = (Some (x1, y1) != popp (Some (x2, y2))).
Proof. by rewrite addr_eq0 -negb_and. Qed.

Lemma poppK P : popp (popp P) = P. Proof. by case: P => [[x y]|] //=; rewrite opprK. Qed.
Lemma padd0 P : padd P None = P. Proof. by case: P => [[]|]. Qed.
Lemma paddN P : padd P (popp P) = None.
Proof. by case: P => [[x y]|] //=; rewrite eqxx /= opprK eqxx. Qed.
Lemma padd_opp P Q : P = popp Q -> padd P Q = None.
Proof. by move->; rewrite -{2}[Q]poppK paddN. Qed.

Lemma paddC P Q : on_curve b P -> on_curve b Q -> padd P Q = padd Q P.
Proof.
case: P Q => [[x1 y1]|] [[x2 y2]|] // h1 h2.
have [e|ne] := eqVneq (Some (x1, y1)) (popp (Some (x2, y2))).
  by rewrite padd_opp // padd_opp // e poppK.
move: (ne); rewrite -not_opp => n1; have [l sl] := has_slope h1 h2 n1.
have sl' : slope l x2 y2 x1 y1.
  case: sl => e1 e2; split; first by rewrite -opprB e1; fnorm F; ring.
  by rewrite [y2 + y1]addrC e2; fnorm F; ring.
have n2 : (x2 != x1) || (y2 + y1 != 0) by rewrite eq_sym [y2 + y1]addrC.
rewrite (padd_slope n1 two0 sl) (padd_slope n2 two0 sl') /line_sum; congr Some.
have [e1 _] := sl; have -> : y1 = y2 + l * (x1 - x2) by rewrite -e1 addrC subrK.
by congr pair; fnorm F; ring.
Qed.
Lemma popp_padd P Q : on_curve b P -> on_curve b Q -> popp (padd P Q) = padd (popp P) (popp Q).
Proof.
case: P Q => [[x1 y1]|] [[x2 y2]|] // h1 h2.
have [e|ne] := eqVneq (Some (x1, y1)) (popp (Some (x2, y2))).
  by rewrite padd_opp // padd_opp // e.
move: (ne); rewrite -not_opp => n1; have [l sl] := has_slope h1 h2 n1.
have sl' : slope (- l) x1 (- y1) x2 (- y2).
  case: sl => e1 e2; split; first by rewrite mulNr -e1; fnorm F; ring.
  by rewrite -opprD mulrNN e2.
have n2 : (x1 != x2) || (- y1 - y2 != 0) by rewrite -opprD oppr_eq0.
rewrite (padd_slope n1 two0 sl) [RHS](padd_slope n2 two0 sl') /line_sum /=; congr Some.
by congr pair; fnorm F; ring.
Qed.
(* - B + (B + C) = C *)
Lemma padd_cancel B C : on_curve b B -> on_curve b C -> padd (popp B) (padd B C) = C.
Proof.
case: B C => [[x2 y2]|] [[x3 y3]|] // h2 h3; last by rewrite padd0 padd_opp.
have [e|ne] := eqVneq (Some (x2, y2)) (popp (Some (x3, y3))).
  by rewrite (padd_opp e) padd0 e poppK.
move: (ne); rewrite -not_opp => n1; have [l sl] := has_slope h2 h3 n1.
have hs := padd_on_curve hc h2 h3; move: hs.
rewrite (padd_slope n1 two0 sl) {1 2}/line_sum; set x4 := _ - x2 - x3; set y4 := _ - y2 => h4.
have [e1 e2] := sl.
have sl' : slope (- l) x2 (- y2) x4 y4.
  split; first by rewrite /y4 /x4; fnorm F; ring.
  have ey3 : y3 = y2 + l * (x3 - x2) by transitivity (y2 - (y2 - y3)); [fnorm F; ring|rewrite e1; fnorm F; ring].
  move: e2; rewrite ey3 => e2.
  transitivity (l ^+ 2 * (l ^+ 2 - x3 - x2 - x2) + l * (y2 + (y2 + l * (x3 - x2))) - l ^+ 2 * (x3 - x2)).
    by rewrite /y4 /x4; fnorm F; ring.
  by rewrite e2 /x4; fnorm F; ring.
have n2 : (x2 != x4) || (- y2 + y4 != 0).
  case: (x2 =P x4) => [e|//] /=; rewrite addrC subr_eq0; apply/eqP => ey.
  have /eqP := yy_neq0 hc h2; apply.
  have := erefl y4; rewrite {2}/y4 -e subrr mulr0 sub0r ey => e5.
  by rewrite mulr_natl mulr2n {1}e5 addNr.
rewrite [popp _]/= (padd_slope n2 two0 sl') /line_sum; congr Some; congr pair; first by rewrite /x4; fnorm F; ring.
have -> : y3 = y2 + l * (x3 - x2) by transitivity (y2 - (y2 - y3)); [fnorm F; ring|rewrite e1; fnorm F; ring].
by rewrite /x4; fnorm F; ring.
Qed.
(* the sum of two points with different x, the slope being a quotient *)
Lemma chord_sum x1 y1 x2 y2 x y d : d != 0 -> x1 - x2 = d ->
  x * (d * d) = (y1 - y2) * (y1 - y2) - (x1 + x2) * d * d ->
  y * (d * d * d) = (y1 - y2) * ((2%:R * x1 + x2) * d * d - (y1 - y2) * (y1 - y2)) - y1 * d * d * d ->
  padd (Some (x1, y1)) (Some (x2, y2)) = Some (x, y).
Proof.
move=> nd ed hx hy; have ne : x1 != x2 by rewrite -subr_eq0 ed.
rewrite /padd ne /line_sum; set l := _ / _.
have el : l * d = y1 - y2 by rewrite /l -[y2 - y1]opprB -[x2 - x1]opprB ed invrN mulrNN mulfVK.
have n2 : d * d != 0 by rewrite mulf_neq0.
have n3 : d * d * d != 0 by rewrite mulf_neq0.
have ex : l ^+ 2 - x1 - x2 = x by apply: (mulIf n2); rewrite hx -el; fnorm F; ring.
congr Some; rewrite ex; congr pair; apply: (mulIf n3); rewrite hy -el.
transitivity (l * d * (x1 * d * d - x * (d * d)) - y1 * d * d * d); first by fnorm F; ring.
by rewrite hx -el; fnorm F; ring.
Qed.
Lemma neq_x x1 y1 x2 y2 : on_curve b (Some (x1, y1)) -> on_curve b (Some (x2, y2)) ->
  Some (x1, y1) != Some (x2, y2) -> Some (x1, y1) != popp (Some (x2, y2)) -> x1 != x2.
Proof.
move=> h1 h2 n1 n2; apply/eqP => e; rewrite -e in h2 n1 n2.
have [ey|[ey _]] := same_x hc h1 h2; [by rewrite ey eqxx in n2|by rewrite ey eqxx in n1].
Qed.
Lemma slope_y l x1 y1 x2 y2 : slope l x1 y1 x2 y2 -> y1 = y2 + l * (x1 - x2).
Proof. by case=> e _; rewrite -e addrC subrK. Qed.

(* A + (B + C) for C = A + B *)
Lemma assoc_double A B : on_curve b A -> on_curve b B -> A != popp B ->
  let C := padd A B in B != popp C -> A != popp (padd B C) -> A != padd B C ->
  padd A (padd B C) = padd C C.
Proof.
case: A => [[x1 y1]|] // h1; case: B => [[x2 y2]|] h2 n1; last by cbv zeta => _ _; rewrite /= eqxx.
cbv zeta.
have hC := padd_on_curve hc h1 h2; move: (n1); rewrite -not_opp => n1'; have [l sl] := has_slope h1 h2 n1'.
move: hC; rewrite (padd_slope n1' two0 sl) /line_sum; set x4 := _ - x1 - x2; set y4 := _ - y1 => hC n2.
move: (n2); rewrite -not_opp => n2'; have [m sm] := has_slope h2 hC n2'.
have hD := padd_on_curve hc h2 hC; move: hD.
rewrite (padd_slope n2' two0 sm) /line_sum; set x5 := _ - x2 - x4; set y5 := _ - y2 => hD n3 n4.
have nx : x1 != x5 by exact: neq_x h1 hD n4 n3.
have ny4 := yy_neq0 hc hC.
have sc : slope (3%:R * x4 ^+ 2 / (2%:R * y4)) x4 y4 x4 y4.
  split; first by rewrite !subrr mulr0.
  have -> : y4 + y4 = 2%:R * y4 by rewrite mulr_natl mulr2n.
  by rewrite mulfVK //; fnorm F; ring.
have nC : (x4 != x4) || (y4 + y4 != 0) by rewrite -mulr2n -mulr_natl ny4 orbT.
rewrite (padd_slope nC two0 sc) (paddC h1 hD) /line_sum; set u := _ / _.
have eu : u * (2%:R * y4) = 3%:R * x4 * x4 by rewrite /u mulfVK //; fnorm F; ring.
have nd : x5 - x1 != 0 by rewrite subr_eq0 eq_sym.
have ey1 := slope_y sl; have [_ e2] := sl; have [e3 e4] := sm.
have e3' : y4 - y2 = m * (x4 - x2) by rewrite -opprB e3; fnorm F; ring.
have e4' : m * (y4 + y2) = x4 * x4 + x4 * x2 + x2 * x2 by rewrite [y4 + _]addrC e4; fnorm F; ring.
have dx := @double_x F x1 x2 y2 l m; have dy := @double_y F x1 x2 y2 l m.
cbv zeta in dx, dy; rewrite -!ey1 -!expr2 -/x4 -/y4 -/x5 -/y5 in dx dy.
have n2y : (2%:R * y4) ^+ 2 != 0 by rewrite expf_neq0.
have n3y : (2%:R * y4) ^+ 3 != 0 by rewrite expf_neq0.
apply: (@chord_sum _ _ _ _ _ _ (x5 - x1)) => //.
  apply: (mulIf n2y).
  transitivity ((u * (2%:R * y4)) ^+ 2 * (x5 - x1) * (x5 - x1) - (x4 + x4) * (x5 - x1) * (x5 - x1) * (4%:R * y4 * y4)).
    by fnorm F; ring.
  rewrite eu; move: (dx e2 e3' e4') => {dx dy} e.
  match type of e with ?a = ?c => transitivity c; [|rewrite -e] end; by fnorm F; ring.
apply: (mulIf n3y); move: (dy e2 e3' e4') => {dx dy} e.
match type of e with ?a = ?c => transitivity a; [rewrite e|] end; last by fnorm F; ring.
transitivity ((u * (2%:R * y4) * (3%:R * x4 * (2%:R * y4) ^+ 2 - (u * (2%:R * y4)) ^+ 2) - y4 * (2%:R * y4) ^+ 3) *
  (x5 - x1) * (x5 - x1) * (x5 - x1)); first by fnorm F; ring.
by rewrite eu; fnorm F; ring.
Qed.

Theorem padd_assoc P Q R : on_curve b P -> on_curve b Q -> on_curve b R ->
  padd (padd P Q) R = padd P (padd Q R).
Proof.
move=> h1 h2 h3.
case: P h1 => [A|//] h1; case: Q h2 => [B|] h2; last by rewrite padd0.
case: R h3 => [C|] h3; last by rewrite !padd0.
have hAB := padd_on_curve hc h1 h2; have hBC := padd_on_curve hc h2 h3.
have oA := popp_on_curve h1; have oB := popp_on_curve h2; have oC := popp_on_curve h3.
have [e1|n1] := eqVneq (Some A) (popp (Some B)).
  by rewrite (padd_opp e1) e1 padd_cancel.
have [e2|n2] := eqVneq (Some B) (popp (Some C)).
  rewrite (padd_opp e2) padd0 (paddC hAB h3).
  have -> : Some C = popp (Some B) by rewrite e2 poppK.
  by rewrite (paddC h1 h2) padd_cancel.
have [e3|n3] := eqVneq (padd (Some A) (Some B)) (popp (Some C)).
  rewrite (padd_opp e3); have -> : Some C = padd (popp (Some B)) (popp (Some A)).
    by rewrite (paddC oB oA) -popp_padd // e3 poppK.
  by rewrite -{1}[Some B]poppK padd_cancel // paddN.
have [e4|n4] := eqVneq (Some A) (popp (padd (Some B) (Some C))).
  rewrite (padd_opp e4); have -> : Some A = padd (popp (Some B)) (popp (Some C)) by rewrite e4 popp_padd.
  rewrite (paddC (padd_on_curve hc oB oC) h2) -{1}[Some B]poppK padd_cancel //.
  by rewrite padd_opp.
have [e5|n5] := eqVneq (padd (Some A) (Some B)) (Some C).
  have [e6|n6] := eqVneq (Some A) (padd (Some B) (Some C)).
    have eB : padd (popp (Some A)) (Some C) = Some B by rewrite -e5 padd_cancel.
    have eB' : padd (popp (Some C)) (Some A) = Some B by rewrite e6 (paddC h2 h3) padd_cancel.
    have : popp (Some B) = Some B by rewrite -{1}eB popp_padd // poppK (paddC h1 oC).
    case: (B) h2 => x y h2 [] e; have /eqP := yy_neq0 hc h2; case.
    by rewrite mulr_natl mulr2n -{1}e addNr.
  by rewrite -e5 in n2 n4 n6 *; rewrite (assoc_double h1 h2).
have [e6|n6] := eqVneq (Some A) (padd (Some B) (Some C)).
  rewrite (paddC hAB h3) (paddC h1 h2) -e6; rewrite (paddC h2 h3) in n4 e6.
  rewrite e6 (assoc_double h3 h2) //.
  - by apply/eqP => e; case/eqP: n2; rewrite e poppK.
  - by rewrite -e6; apply/eqP => e; case/eqP: n1; rewrite e poppK.
  - by rewrite -e6 (paddC h2 h1); apply/eqP => e; case/eqP: n3; rewrite e poppK.
  by rewrite -e6 (paddC h2 h1); apply/eqP => e; case/eqP: n5.
case: A B C h1 h2 h3 hAB hBC n1 n2 n3 n4 n5 n6 {oA oB oC} => [x1 y1] [x2 y2] [x3 y3] h1 h2 h3 hAB hBC n1 n2 n3 n4 n5 n6.
move: (n1) (n2); rewrite -!not_opp => n1' n2'; have [l sl] := has_slope h1 h2 n1'; have [m sm] := has_slope h2 h3 n2'.
move: hAB hBC n3 n4 n5 n6; rewrite (padd_slope n1' two0 sl) (padd_slope n2' two0 sm) /line_sum.
set x4 := _ - x1 - x2; set y4 := _ - y1; set x5 := _ - x2 - x3; set y5 := _ - y2 => hAB hBC n3 n4 n5 n6.
have nx4 : x4 - x3 != 0 by rewrite subr_eq0; exact: neq_x hAB h3 n5 n3.
have nx5 : x5 - x1 != 0 by rewrite subr_eq0 eq_sym; exact: neq_x h1 hBC n6 n4.
have ey1 := slope_y sl; have [_ e2] := sl; have [e3 e4] := sm.
have ey3 : y3 = y2 + m * (x3 - x2) by transitivity (y2 - (y2 - y3)); [fnorm F; ring|rewrite e3; fnorm F; ring].
have e4' : m * (y3 + y2) = x3 * x3 + x3 * x2 + x2 * x2 by rewrite [y3 + _]addrC e4; fnorm F; ring.
have dx := @assoc_x F x1 x2 y2 x3 l m; have dy := @assoc_y F x1 x2 y2 x3 l m.
cbv zeta in dx, dy; rewrite -!ey1 -!ey3 -!expr2 -/x4 -/y4 -/x5 -/y5 in dx dy.
move/(_ e2 e4'): dx => dx; move/(_ e2 e4'): dy => dy.
have p2 (z : F) : z != 0 -> z * z != 0 by move=> hz; rewrite mulf_neq0.
have p3 (z : F) : z != 0 -> z * z * z != 0 by move=> hz; rewrite !mulf_neq0.
have [x [ex ex']] : exists x, x * ((x4 - x3) * (x4 - x3)) = (y4 - y3) * (y4 - y3) - (x4 + x3) * (x4 - x3) * (x4 - x3) /\
    x * ((x5 - x1) * (x5 - x1)) = (y5 - y1) * (y5 - y1) - (x5 + x1) * (x5 - x1) * (x5 - x1).
  exists (((y4 - y3) * (y4 - y3) - (x4 + x3) * (x4 - x3) * (x4 - x3)) / ((x4 - x3) * (x4 - x3))).
  rewrite mulfVK ?p2 //; split=> //; apply: (mulIf (p2 _ nx4)).
  rewrite mulrAC mulfVK ?p2 //.
  match type of dx with ?a = ?c => transitivity a; [|rewrite dx] end; by fnorm F; ring.
have [y [fy fy']] : exists y,
    y * ((x4 - x3) * (x4 - x3) * (x4 - x3)) = (y4 - y3) * ((2%:R * x4 + x3) * (x4 - x3) * (x4 - x3) - (y4 - y3) * (y4 - y3)) - y4 * (x4 - x3) * (x4 - x3) * (x4 - x3) /\
    y * ((x5 - x1) * (x5 - x1) * (x5 - x1)) = (y5 - y1) * ((2%:R * x5 + x1) * (x5 - x1) * (x5 - x1) - (y5 - y1) * (y5 - y1)) - y5 * (x5 - x1) * (x5 - x1) * (x5 - x1).
  eexists (_ / ((x4 - x3) * (x4 - x3) * (x4 - x3))).
  rewrite mulfVK ?p3 //; split; first reflexivity; apply: (mulIf (p3 _ nx4)).
  rewrite mulrAC mulfVK ?p3 //.
  match type of dy with ?a = ?c => transitivity a; [|rewrite dy] end; by fnorm F; ring.
rewrite (chord_sum nx4 erefl ex fy) (paddC h1 hBC).
by rewrite (chord_sum nx5 erefl ex' fy').
Qed.
End Group.
