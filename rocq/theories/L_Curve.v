(* Facts about the affine group law. *)
Set Warnings "-notation-overridden,-ambiguous-paths".
From mathcomp Require Import all_ssreflect all_algebra.
From Verif Require Import FieldTac S_Curve.
Import GRing.Theory.
Set Implicit Arguments.
Unset Strict Implicit.
Local Open Scope ring_scope.

Section Curve.
Variables (F : fieldType) (b : F).
Add Field Ff : (F_field_theory F).
Implicit Types (P Q : point F) (x y l : F).

Lemma line_on_curve l x1 y1 x2 : y1 ^+ 2 = x1 ^+ 3 + b ->
  2%:R * y1 * l + l ^+ 2 * (x2 - x1) = x1 ^+ 2 + x1 * x2 + x2 ^+ 2 ->
  on_curve b (line_sum l x1 y1 x2).
Proof.
move=> h1 h2; rewrite /on_curve /line_sum; apply/eqP.
have -> : b = y1 ^+ 2 - x1 ^+ 3 by rewrite h1; fnorm F; ring.
apply/subr0_eq; set x3 := l ^+ 2 - x1 - x2.
transitivity ((x1 - x3) * ((x1 ^+ 2 + x1 * x2 + x2 ^+ 2) - (2%:R * y1 * l + l ^+ 2 * (x2 - x1)))).
  by rewrite /x3; fnorm F; ring.
by rewrite h2 subrr mulr0.
Qed.

Hypothesis (hc : good_curve b).
Lemma x_neq0 x y : on_curve b (Some (x, y)) -> x != 0.
Proof.
move=> h; apply/eqP => e; move: h; rewrite /= e expr0n /= add0r => /eqP h.
by have := gc_x0 hc y; rewrite h eqxx.
Qed.
Lemma y_neq0 x y : on_curve b (Some (x, y)) -> y != 0.
Proof.
move=> h; apply/eqP => e; move: h; rewrite /= e expr0n /= => /eqP h.
by have := gc_y0 hc x; rewrite -h eqxx.
Qed.
Lemma yy_neq0 x y : on_curve b (Some (x, y)) -> 2%:R * y != 0.
Proof. by move=> h; rewrite mulf_neq0 ?(gc_char hc) ?(y_neq0 h). Qed.
(* two points with the same x are equal or opposite *)
Lemma same_x x y y' : on_curve b (Some (x, y)) -> on_curve b (Some (x, y')) -> y = - y' \/ y = y' /\ y != - y'.
Proof.
move=> h h'; move/eqP: (h) => e; move/eqP: (h') => e'; have /eqP : y ^+ 2 = y' ^+ 2 by rewrite e e'.
rewrite eqf_sqr => /orP[/eqP ->|/eqP ->]; last by left.
right; split=> //; apply/eqP => e2; have /eqP := yy_neq0 h'; apply.
by rewrite mulr2n mulrDl mul1r {1}e2 addNr.
Qed.

Theorem padd_on_curve P Q : on_curve b P -> on_curve b Q -> on_curve b (padd P Q).
Proof.
case: P Q => [[x1 y1]|] [[x2 y2]|] //= h1 h2; case: eqP => [e|/eqP ne] /=.
  case: eqP => // /eqP ny; apply: line_on_curve; first exact/eqP.
  have n2 := yy_neq0 (x := x1) (y := y1) h1; rewrite -e subrr mulr0 addr0 mulrCA divff // mulr1.
  by fnorm F; ring.
apply: line_on_curve; first exact/eqP.
have nd : x2 - x1 != 0 by rewrite subr_eq0 eq_sym.
set l := _ / _; have hl : l * (x2 - x1) = y2 - y1 by rewrite /l mulfVK.
apply: (mulIf nd).
transitivity (x2 ^+ 3 - x1 ^+ 3); last by fnorm F; ring.
have -> : x2 ^+ 3 - x1 ^+ 3 = y2 ^+ 2 - y1 ^+ 2 by rewrite (eqP h1) (eqP h2); fnorm F; ring.
have -> : y2 = y1 + l * (x2 - x1) by rewrite hl addrC subrK.
by fnorm F; ring.
Qed.
Lemma popp_on_curve P : on_curve b P -> on_curve b (popp P).
Proof. by case: P => [[x y]|] //=; rewrite sqrrN. Qed.
Lemma encode_inj P Q : on_curve b P -> on_curve b Q -> encode P = encode Q -> P = Q.
Proof.
case: P Q => [[x y]|] [[x' y']|] //= h h'; first by case=> -> ->.
  by case=> e _; have := x_neq0 h; rewrite e eqxx.
by case=> e _; have := x_neq0 h'; rewrite -e eqxx.
Qed.

(* the twelve polynomials of the complete addition gate *)
Definition add_eqs (xp yp xq yq xr yr lambda alpha beta gamma delta : F) : seq F :=
  [:: (xq - xp) * ((xq - xp) * lambda - (yq - yp));
      (1 - (xq - xp) * alpha) * (2%:R * yp * lambda - 3%:R * (xp * xp));
      xp * xq * (xq - xp) * (lambda * lambda - xp - xq - xr);
      xp * xq * (xq - xp) * (lambda * (xp - xr) - yp - yr);
      xp * xq * (yq + yp) * (lambda * lambda - xp - xq - xr);
      xp * xq * (yq + yp) * (lambda * (xp - xr) - yp - yr);
      (1 - xp * beta) * (xr - xq);
      (1 - xp * beta) * (yr - yq);
      (1 - xq * gamma) * (xr - xp);
      (1 - xq * gamma) * (yr - yp);
      (1 - (xq - xp) * alpha - (yq + yp) * delta) * xr;
      (1 - (xq - xp) * alpha - (yq + yp) * delta) * yr].
Lemma add_eqs_sound P Q xr yr lambda alpha beta gamma delta :
  on_curve b P -> on_curve b Q ->
  let p := encode P in let q := encode Q in
  all (eq_op 0) (add_eqs p.1 p.2 q.1 q.2 xr yr lambda alpha beta gamma delta) ->
  (xr, yr) = encode (padd P Q).
Proof.
move=> hP hQ p q; rewrite /add_eqs /= !(eq_sym 0).
case: P hP @p => [[x1 y1]|] hP; last first.
  by move=> p; do 6![case/andP=> _]; rewrite /p /= mul0r subr0 !mul1r !subr_eq0 => /andP[/eqP -> /andP[/eqP -> _]]; rewrite /q; case: (encode Q).
case: Q hQ @q => [[x2 y2]|] hQ; last first.
  by move=> q p; do 8![case/andP=> _]; rewrite /q /= mul0r subr0 !mul1r !subr_eq0 => /andP[/eqP -> /andP[/eqP -> _]].
move=> q p; rewrite /q /p /= {q p}.
have nx1 := x_neq0 hP; have nx2 := x_neq0 hQ.
have step d l : d != 0 -> x1 * x2 * d * (l * l - x1 - x2 - xr) = 0 -> x1 * x2 * d * (l * (x1 - xr) - y1 - yr) = 0 ->
    (xr, yr) = encode (line_sum l x1 y1 x2).
  move=> nd /eqP; rewrite !mulf_eq0 (negbTE nx1) (negbTE nx2) (negbTE nd) /= subr_eq0 => /eqP <-.
  by move/eqP; rewrite !mulf_eq0 (negbTE nx1) (negbTE nx2) (negbTE nd) /= subr_eq0 => /eqP <-.
case: (x1 =P x2) => [e|/eqP ne] /=; last first.
  have nd : x2 - x1 != 0 by rewrite subr_eq0 eq_sym.
  case/andP; rewrite mulf_eq0 (negbTE nd) /= subr_eq0 => /eqP hl.
  have -> : (y2 - y1) / (x2 - x1) = lambda by rewrite -hl mulrC mulKf.
  by case/and4P=> _ /eqP h1 /eqP h2 _; exact: step nd h1 h2.
rewrite -e !subrr !mul0r !subr0 !mul1r.
case: (y1 =P - y2) => [ey|/eqP ny].
  do 10![case/andP=> _].
  by rewrite ey addrN mul0r subr0 !mul1r andbT => /andP[/eqP -> /eqP ->].
rewrite -{}e in hQ step *.
have [//|[ey _]] := same_x hP hQ; first by move=> e'; rewrite e' eqxx in ny.
have n2 := yy_neq0 hP.
case/and5P=> _; rewrite subr_eq0 => /eqP hl _ _ /andP[/eqP h1 /andP[/eqP h2 _]].
have -> : 3%:R * x1 ^+ 2 / (2%:R * y1) = lambda by rewrite expr2 -hl mulrC mulKf.
apply: step h1 h2; by rewrite -ey -mulr2n -mulr_natl.
Qed.

(* what the prover computes *)
Definition add_lambda (xp yp xq yq : F) : F :=
  if xq != xp then (yq - yp) * (xq - xp)^-1 else if yp != 0 then xp * xp * 3%:R * (yp^-1 * 2%:R^-1) else 0.
Definition add_delta (xp yp xq yq : F) : F := if xq == xp then (yq + yp)^-1 else 0.
Definition add_result (xp yp xq yq l : F) : F * F :=
  if xp == 0 then (xq, yq) else if xq == 0 then (xp, yp)
  else if (xq == xp) && (yq == - yp) then (0, 0)
  else (l * l - xp - xq, l * (xp - (l * l - xp - xq)) - yp).
Lemma add_resultE P Q : on_curve b P -> on_curve b Q ->
  let p := encode P in let q := encode Q in
  add_result p.1 p.2 q.1 q.2 (add_lambda p.1 p.2 q.1 q.2) = encode (padd P Q).
Proof.
case: P => [[x1 y1]|] hP; last by rewrite /add_result /= eqxx; case: (encode Q).
case: Q => [[x2 y2]|] hQ; rewrite /add_result /= (negbTE (x_neq0 hP)); last by rewrite eqxx.
rewrite (negbTE (x_neq0 hQ)) /add_lambda eq_sym; case: (x1 =P x2) => [e|ne] /=; last by rewrite /line_sum /= expr2.
rewrite (eq_sym y2) eqr_oppLR; case: (y1 =P - y2) => [//|/eqP ny].
have e3 : x1 * x1 * 3%:R * (y1^-1 * 2%:R^-1) = 3%:R * x1 ^+ 2 / (2%:R * y1).
  by rewrite invfM expr2 (mulrC _ 3%:R) (mulrC y1^-1).
by rewrite (y_neq0 hP) e3 /line_sum /= -expr2.
Qed.
Lemma add_eqs_complete P Q : on_curve b P -> on_curve b Q ->
  let p := encode P in let q := encode Q in let r := encode (padd P Q) in
  all (eq_op 0) (add_eqs p.1 p.2 q.1 q.2 r.1 r.2 (add_lambda p.1 p.2 q.1 q.2) (q.1 - p.1)^-1 p.1^-1 q.1^-1
    (add_delta p.1 p.2 q.1 q.2)).
Proof.
have i0 (x : F) : x != 0 -> 1 - x * x^-1 = 0 by move=> h; rewrite divff // subrr.
have hl xp yp xq yq : xq != xp -> (xq - xp) * add_lambda xp yp xq yq = yq - yp.
  by move=> h; rewrite /add_lambda h mulrCA divff ?mulr1 // subr_eq0.
have ht xp yp yq : on_curve b (Some (xp, yp)) -> 2%:R * yp * add_lambda xp yp xp yq = 3%:R * (xp * xp).
  move=> h; rewrite /add_lambda eqxx /= (y_neq0 h).
  by rewrite [yp^-1 / _]mulrC -invfM mulrCA divff ?mulr1 ?(yy_neq0 h) // mulrC.
move=> hP hQ /=; rewrite -(add_resultE hP hQ) /add_eqs /= !(eq_sym 0) andbT.
case: P Q hP hQ => [[x1 y1]|] [[x2 y2]|] hP hQ; rewrite /= /add_result ?eqxx /=.
- have n1 := x_neq0 hP; have n2 := x_neq0 hQ; rewrite (negbTE n1) (negbTE n2) (i0 _ n1) (i0 _ n2) !mul0r !eqxx /=.
  case: (x2 =P x1) => [e|/eqP ne] /=; last first.
    have nd : x2 - x1 != 0 by rewrite subr_eq0.
    by rewrite hl // (i0 _ nd) /add_delta (negbTE ne) !(mulr0, subr0, mul0r, subrr, eqxx).
  rewrite e in hQ *; rewrite ht // /add_delta eqxx !(subrr, mul0r, mulr0, subr0, eqxx, mul1r) /=.
  case: (y2 =P - y1) => [ey|/eqP ny] /=; first by rewrite ey !(addNr, mulr0, mul0r, subr0, eqxx).
  have ns : y2 + y1 != 0 by rewrite addr_eq0.
  by rewrite (i0 _ ns) !(subrr, mul0r, mulr0, eqxx).
- have n1 := x_neq0 hP; have nn : 0 - x1 != 0 by rewrite sub0r oppr_eq0.
  rewrite (negbTE n1) hl ?(eq_sym 0) // (i0 _ nn) (i0 _ n1) /add_delta (eq_sym 0) (negbTE n1).
  by rewrite !(subrr, mul0r, mulr0, subr0, eqxx).
- have n2 := x_neq0 hQ; have nn : x2 - 0 != 0 by rewrite subr0.
  by rewrite hl // (i0 _ nn) (i0 _ n2) /add_delta (negbTE n2) !(subrr, mul0r, mulr0, subr0, eqxx).
by rewrite !(subrr, mul0r, mulr0, subr0, addr0, eqxx).
Qed.
End Curve.
