(* Specification for the elliptic curve gadgets: the textbook group law on a short Weierstrass
   curve y^2 = x^3 + b, in affine coordinates with a separate identity. *)
Set Warnings "-notation-overridden,-ambiguous-paths".
From mathcomp Require Import all_ssreflect all_algebra.
Import GRing.Theory.
Set Implicit Arguments.
Unset Strict Implicit.
Local Open Scope ring_scope.

Section Curve.
Variables (F : fieldType) (b : F).

(* None is the identity *)
Definition point := option (F * F).
Definition on_curve (P : point) : bool := if P is Some (x, y) then y ^+ 2 == x ^+ 3 + b else true.
Definition popp (P : point) : point := if P is Some (x, y) then Some (x, - y) else None.
(* the third point of the line with slope l through (x1, y1) and (x2, _), reflected *)
Definition line_sum (l x1 y1 x2 : F) : point :=
  let x3 := l ^+ 2 - x1 - x2 in Some (x3, l * (x1 - x3) - y1).
Definition padd (P Q : point) : point :=
  match P, Q with
  | None, _ => Q
  | _, None => P
  | Some (x1, y1), Some (x2, y2) =>
      if x1 != x2 then line_sum ((y2 - y1) / (x2 - x1)) x1 y1 x2          (* chord *)
      else if y1 == - y2 then None                                        (* P + (-P) *)
      else line_sum (3%:R * x1 ^+ 2 / (2%:R * y1)) x1 y1 x2               (* tangent *)
  end.

(* [n] P *)
Fixpoint pmul (n : nat) (P : point) : point := if n is n'.+1 then padd P (pmul n' P) else None.

(* The curves the gadgets are for: characteristic not 2, no point with x = 0 (so that (0, 0) can
   stand for the identity and x = 0 can test for it), and no point with y = 0 (order 2). *)
Record good_curve : Prop := GoodCurve {
  gc_char : (2%:R : F) != 0;
  gc_x0 : forall y : F, y ^+ 2 != b;
  gc_y0 : forall x : F, x ^+ 3 + b != 0 }.

(* how a point is written in two cells *)
Definition encode (P : point) : F * F := if P is Some xy then xy else (0, 0).
End Curve.
