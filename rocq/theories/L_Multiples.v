(* Multiples of a point, and one step of incomplete double-and-add. *)
Set Warnings "-notation-overridden,-ambiguous-paths".
From mathcomp Require Import all_ssreflect all_algebra.
From Verif Require Import Util FieldTac S_Curve L_Curve L_Group.
Import GRing.Theory.
Set Implicit Arguments.
Unset Strict Implicit.
Local Open Scope ring_scope.

Section Multiples.
Variables (F : fieldType) (b : F).
Add Field Ff : (F_field_theory F).
Hypothesis hc : good_curve b.
Implicit Types (P Q R U : point F).

Lemma pmul_on n P : on_curve b P -> on_curve b (pmul n P).
Proof. by move=> h; elim: n => //= n IH; apply: padd_on_curve. Qed.
Lemma pmul1 P : pmul 1 P = P. Proof. exact: padd0. Qed.
Lemma pmulS n P : pmul n.+1 P = padd P (pmul n P). Proof. by []. Qed.
Lemma pmulD m n P : on_curve b P -> pmul (m + n) P = padd (pmul m P) (pmul n P).
Proof.
move=> h; elim: m => //= m IH; have hm := pmul_on m h; have hn := pmul_on n h.
by rewrite IH (padd_assoc hc).
Qed.
Lemma pmulM m n P : on_curve b P -> pmul (m * n) P = pmul m (pmul n P).
Proof. by move=> h; elim: m => //= m IH; rewrite mulSn pmulD // IH. Qed.
Lemma pmul_none n : pmul n (None : point F) = None. Proof. by elim: n => //= n ->. Qed.
Lemma pmul_sub1 n P : on_curve b P -> (0 < n)%N -> padd (pmul n P) (popp P) = pmul (n - 1) P.
Proof.
case: n => // n h _; rewrite subn1 /=; have hn := pmul_on n h.
by rewrite (paddC hc (padd_on_curve hc h hn) (popp_on_curve h)) (padd_cancel hc h hn).
Qed.
Lemma padd_none P Q : on_curve b P -> on_curve b Q -> padd P Q = None -> P = popp Q.
Proof.
move=> hP hQ e; have := padd_cancel hc hP hQ; rewrite e padd0 => <-; by rewrite poppK.
Qed.
Lemma padd_inj P Q R : on_curve b P -> on_curve b Q -> on_curve b R -> padd P Q = padd P R -> Q = R.
Proof. by move=> hP hQ hR e; rewrite -(padd_cancel hc hP hQ) e (padd_cancel hc hP hR). Qed.

(* the order of a point *)
Lemma order_dvd q n P : on_curve b P -> P <> None -> prime q -> pmul q P = None -> pmul n P = None -> (q %| n)%N.
Proof.
move=> h nP pq hq hn; rewrite -[(q %| n)%N]negbK; apply/negP => nd.
have cop : coprime q n by rewrite prime_coprime.
have n0 : (0 < q)%N by exact: prime_gt0.
have [km kn e _] := egcdnP n n0; rewrite (eqP cop) in e.
have : pmul (km * q) P = pmul (kn * n + 1) P by rewrite e.
by rewrite pmulM // hq pmul_none pmulD // pmulM // hn pmul_none pmul1 /= => e2; apply: nP.
Qed.
Lemma order_neq q n P : on_curve b P -> P <> None -> prime q -> pmul q P = None -> (0 < n < q)%N -> pmul n P <> None.
Proof.
move=> h nP pq hq /andP[n0 nq] hn; have := order_dvd h nP pq hq hn.
by move=> /(dvdn_leq n0); rewrite leqNgt nq.
Qed.

(* the sign a bit selects *)
Definition signed (k : bool) P := if k then P else popp P.
Lemma signed_on k P : on_curve b P -> on_curve b (signed k P).
Proof. by case: k => //; exact: popp_on_curve. Qed.
Definition dstep (a : nat) (k : bool) : nat := (2 * a + 2 * k - 1)%N.
Lemma signed_step a k P : on_curve b P -> (0 < a)%N ->
  padd (pmul a P) (padd (pmul a P) (signed k P)) = pmul (dstep a k) P.
Proof.
move=> h a0; rewrite /dstep; have ha := pmul_on a h; case: k => /=.
  by rewrite (paddC hc ha h) -pmulS -pmulD //; congr pmul; nlia.
rewrite pmul_sub1 // -pmulD //; congr pmul; nlia.
Qed.

(* the equations of one row of incomplete double-and-add *)
Lemma dbl_row (xa ya xp yp l1 l2 xa' ya' : F) (k : bool) :
  let s := if k then yp else - yp in let xr := l1 ^+ 2 - xa - xp in
  xa != xp -> xr != xa ->
  l1 * (xa - xp) = ya - s -> (l1 + l2) * (xa - xr) = 2%:R * ya ->
  xa' = l2 ^+ 2 - xr - xa -> ya' = l2 * (xa - xa') - ya ->
  Some (xa', ya') = padd (Some (xa, ya)) (padd (Some (xa, ya)) (Some (xp, s))).
Proof.
move=> s xr n1 n2 e1 e2 e3 e4.
have nd1 : xp - xa != 0 by rewrite subr_eq0 eq_sym.
have nd2 : xr - xa != 0 by rewrite subr_eq0.
have -> : padd (Some (xa, ya)) (Some (xp, s)) = line_sum l1 xa ya xp.
  rewrite /padd n1; congr line_sum; apply: (mulIf nd1); rewrite mulfVK //.
  by rewrite -opprB -e1; fnorm F; ring.
rewrite /line_sum -/xr /padd [xa == xr]eq_sym n2 /line_sum; set l := _ / _.
suff -> : l = l2 by rewrite [l2 ^+ 2 - xa - xr]addrAC -e3 -e4.
apply: (mulIf nd2); rewrite /l mulfVK //.
transitivity (l1 * (xa - xr) - 2%:R * ya); first by fnorm F; ring.
by rewrite -e2; fnorm F; ring.
Qed.

(* ... and why its divisions are never by zero: the accumulator is [a] P with 2 <= a, 2 a + 1 < q *)
Lemma dbl_distinct q a k B xa ya xr yr : on_curve b (Some B) -> prime q -> pmul q (Some B) = None ->
  (2 <= a)%N -> (2 * a + 1 < q)%N ->
  pmul a (Some B) = Some (xa, ya) ->
  xa != B.1 /\ (padd (Some (xa, ya)) (signed k (Some B)) = Some (xr, yr) -> xr != xa).
Proof.
move=> h pq hq ha hb ea; have nB : Some B <> None by [].
have a0 : (0 < a)%N by exact: leq_trans ha.
have hA : on_curve b (Some (xa, ya)) by rewrite -ea; exact: pmul_on.
have ord n : (0 < n < q)%N -> pmul n (Some B) <> None by exact: order_neq h nB pq hq.
split.
  case: B h hq ea nB ord => x y h hq ea nB ord /=; apply: (neq_x hc hA h).
    apply/eqP => e; apply: (ord (a - 1)%N).
      by apply/andP; split; nlia.
    by rewrite -pmul_sub1 // ea e padd_opp // poppK.
  apply/eqP => e; apply: (ord a.+1).
    by rewrite /=; nlia.
  by rewrite pmulS ea e paddN.
move=> eR; have hR : on_curve b (Some (xr, yr)) by rewrite -eR; apply: padd_on_curve => //; exact: signed_on.
apply: (neq_x hc hR hA).
  apply/eqP => e; have := padd_cancel hc hA (signed_on k h); rewrite eR e padd_opp //.
  by case: (k); case: (B).
apply/eqP => e; have := signed_step k h a0; rewrite ea eR e paddN => /esym; apply: ord.
by rewrite /dstep; case: (k) => /=; apply/andP; split; nlia.
Qed.
End Multiples.
