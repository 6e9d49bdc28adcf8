(* Soundness of the Sinsemilla chip: what the gates and the lookup say about the rows of a piece. *)
Set Warnings "-notation-overridden,-ambiguous-paths".
From mathcomp Require Import all_ssreflect all_algebra.
From Verif Require Import FieldTac Util M_Env M_Assigned P_Assigned M_Circuit S_Circuit M_Selectors M_Value M_Region S_Region
  M_Layout S_Layout M_Utilities S_Digits P_Bits P_RangeCheck L_Region L_Gadget M_Ecc S_Curve L_Curve L_Multiples P_Ecc P_CondSwap
  M_EccMul L_EccMul M_Sinsemilla S_Sinsemilla.
Import GRing.Theory.
Set Implicit Arguments.
Unset Strict Implicit.
Local Open Scope ring_scope.
Local Arguments at_row : simpl never.
Local Arguments esub : simpl never.
Local Arguments padd : simpl never.

Section Spec.
Variable F : fieldType.
Add Field Ff0 : (F_field_theory F).
Lemma chord_comm (P Q : F * F) : P.1 != Q.1 -> padd (Some P) (Some Q) = padd (Some Q) (Some P).
Proof.
case: P Q => [x1 y1] [x2 y2] /= n; rewrite /padd n [x2 == x1]eq_sym n.
have d1 : x2 - x1 != 0 by rewrite subr_eq0 eq_sym.
have -> : (y1 - y2) / (x1 - x2) = (y2 - y1) / (x2 - x1) by rewrite -[y1 - y2]opprB -[x1 - x2]opprB invrN mulrNN.
rewrite /line_sum; set l := _ / _; have e : l * (x2 - x1) = y2 - y1 by rewrite mulfVK.
have e1 : l ^+ 2 - x1 - x2 = l ^+ 2 - x2 - x1 by rewrite addrAC.
rewrite -e1; move: (l ^+ 2 - x1 - x2) => x3; congr (Some (_, _)).
have -> : l * (x1 - x3) = l * (x2 - x3) - l * (x2 - x1) by fnorm F; ring.
by rewrite e; fnorm F; ring.
Qed.
Lemma hash_cat (S : nat -> F * F) A u w :
  hash_to_point_spec S A (u ++ w) = obind (fun B => hash_to_point_spec S B w) (hash_to_point_spec S A u).
Proof. by elim: u A => //= m u IH A; case: (sins_step _ _) => //= B; apply: IH. Qed.
(* one row of the gate computes one step *)
Lemma sins_row (xa ya xp yp l1 l2 xa' ya' : F) A' :
  let xr := l1 ^+ 2 - xa - xp in
  l1 * (xa - xp) = ya - yp -> (l1 + l2) * (xa - xr) = 2%:R * ya ->
  xa' = l2 ^+ 2 - xr - xa -> ya' = l2 * (xa - xa') - ya ->
  sins_step (xp, yp) (xa, ya) = Some A' -> A' = (xa', ya').
Proof.
move=> xr e1 e2 e3 e4; rewrite /sins_step /inc_add /=; case: ifP => // /negbT n1.
have nd1 : xp - xa != 0 by rewrite subr_eq0 eq_sym.
have eR : padd (Some (xa, ya)) (Some (xp, yp)) = Some (xr, l1 * (xa - xr) - ya).
  rewrite /padd n1 /line_sum; suff -> : (yp - ya) / (xp - xa) = l1 by [].
  apply: (mulIf nd1); rewrite mulfVK // -opprB -e1; by fnorm F; ring.
rewrite eR /=; case: ifP => // /negbT n2; rewrite chord_comm // -eR.
by rewrite -(@dbl_row F xa ya xp yp l1 l2 xa' ya' true n1 n2 e1 e2 e3 e4) => -[<-].
Qed.
End Spec.

Section Rows.
Variables (F : fieldType) (pf : prime_field F) (p : nat).
Hypothesis pok : prime_field_ok pf p.
Variables (K : nat) (gens : seq (F * F)).
Variables (T : table F) (place : nat -> int) (inst : nat -> nat -> value F) (r : nat) (c : sins_config).
Add Field Ff : (F_field_theory F).
Hypothesis two0 : (2%:R : F) != 0.
Let d := sc_dbl c.
Variable usable : int -> Prop.
Hypothesis hg : gates_hold T (sins_gates F c).
Hypothesis hl : looked_up T usable (sins_lookup K gens c) (sins_columns c).
Hypothesis ht : generator_table K gens T c usable.
Let S w := nth (0, 0) gens w.

Let v (col k : nat) : F := t_cell T Advice col (place r + k%:Z).
Let f2 (k : nat) : F := t_cell T Fixed (q_s2 c) (place r + k%:Z).
Let xr k := v (db_l1 d) k ^+ 2 - v (db_xa d) k - v (db_xp d) k.
Let YA k := (v (db_l1 d) k + v (db_l2 d) k) * (v (db_xa d) k - xr k).
Definition y_row k := 2%:R^-1 * YA k.

Lemma row1 k : place r + k%:Z + 1 = place r + k.+1%:Z.
Proof. by rewrite -addrA -PoszD addn1. Qed.
Lemma Y_A0 k : at_row T (place r + k%:Z) (Y_A F d 0) = YA k.
Proof. by rewrite /Y_A /x_r /esquare !rowE !addr0. Qed.
Lemma Y_A1 k : at_row T (place r + k%:Z) (Y_A F d 1) = YA k.+1.
Proof. by rewrite /Y_A /x_r /esquare !rowE !row1. Qed.
Lemma x_r0 k : at_row T (place r + k%:Z) (x_r F d 0) = xr k.
Proof. by rewrite /x_r /esquare !rowE !addr0. Qed.
Lemma half (a : F) : 2%:R * (2%:R^-1 * a) = a.
Proof. by rewrite mulrA divff // mul1r. Qed.

Lemma one2 : (2%:R == 1 :> F) = false.
Proof. by apply/negP => /eqP e; have := oner_neq0 F; rewrite -[X in X != _](addrK 1) -[1 + 1]/(2%:R) e subrr eqxx. Qed.

Lemma hash_rowE k : t_selector T (q_s1 c) (place r + k%:Z) ->
  let s3 := f2 k * (f2 k - 1) in
  v (db_xa d) k.+1 = v (db_l2 d) k ^+ 2 - xr k - v (db_xa d) k /\
  v (db_l2 d) k * 4%:R * (v (db_xa d) k - v (db_xa d) k.+1)
    = 2%:R * YA k + (2%:R - s3) * YA k.+1 + s3 * 2%:R * v (db_l1 d) k.+1.
Proof.
move=> hs s3.
have gate g : List.In (EProduct (ESelector F (q_s1 c) false) g) (sins_gates F c) -> at_row T (place r + k%:Z) g = 0.
  by move=> hi; have := gate_at (place r + k%:Z) hg hi; rewrite at_mul at_sel hs mul1r.
have i1 : forall g, List.In g (hash_gate F c) -> List.In g (sins_gates F c) by move=> g hi; right.
have g1 := gate _ (i1 _ (or_introl erefl)); have g2 := gate _ (i1 _ (or_intror (or_introl erefl))).
move: g1 g2; rewrite /q_s3 /esquare !(at_sub, at_sum, at_mul, at_scale, at_const, at_adv, at_fixed) -/d !addr0 !row1.
rewrite -![t_cell T Advice _ (place r + k%:Z)]/(v _ k) -![t_cell T Advice _ (place r + k.+1%:Z)]/(v _ k.+1) -![t_cell T Fixed _ _]/(f2 k) -/s3.
rewrite /YA /xr; move/eqP; rewrite subr_eq0 => /eqP g1 /eqP; rewrite subr_eq0 => /eqP g2; split.
  by rewrite expr2 g1; fnorm F; ring.
by rewrite [_ * 4%:R]mulrC g2 [s3 * 2%:R]mulrC.
Qed.
Hypothesis huse : forall k, t_selector T (q_s1 c) (place r + k%:Z) -> usable (place r + k%:Z).
Lemma hash_lookupE k : t_selector T (q_s1 c) (place r + k%:Z) ->
  let s3 := f2 k * (f2 k - 1) in
  exists2 w, (w < 2 ^ K)%N & [/\ v (sc_bits c) k - (f2 k - s3) * v (sc_bits c) k.+1 * (2 ^ K)%N%:R = w%:R,
    v (db_xp d) k = (S w).1 & v (db_l1 d) k * (v (db_xa d) k - v (db_xp d) k) = y_row k - (S w).2].
Proof.
move=> hs s3; have [row' /ht[w hw ew]] := hl (huse hs); rewrite {}ew /sins_lookup => e; exists w => //.
move: e; case: (nth (0, 0) gens 0) => ix iy; rewrite /q_s3 /= !(at_sub, at_sum, at_mul, at_scale, at_const, at_adv, at_fixed, at_sel) hs
  -/d !addr0 !row1.
rewrite -![t_cell T Advice _ (place r + k%:Z)]/(v _ k) -![t_cell T Advice _ (place r + k.+1%:Z)]/(v _ k.+1) -![t_cell T Fixed _ _]/(f2 k) -/s3.
rewrite subrr !mul1r !mulr0 !addr0 /y_row /YA /xr => -[e1 e2 e3]; split=> //.
  by rewrite -e1; fnorm F; ring.
by rewrite /S -e3; fnorm F; ring.
Qed.

(* one row, with the three values key generation gives q_s2 *)
Lemma sins_rowE k f : t_selector T (q_s1 c) (place r + k%:Z) -> f2 k = f -> (f == 0) || (f == 1) || (f == 2%:R) ->
  exists2 w, (w < 2 ^ K)%N & v (sc_bits c) k - (2 ^ K)%N%:R * (if f == 1 then v (sc_bits c) k.+1 else 0) = w%:R /\
    forall A, sins_step (S w) (v (db_xa d) k, y_row k) = Some A ->
      A = (v (db_xa d) k.+1, if f == 2%:R then v (db_l1 d) k.+1 else y_row k.+1).
Proof.
move=> hs ef hf; have [e1 e2] := hash_rowE hs; have [w hw [e3 e4 e5]] := hash_lookupE hs; exists w => //; rewrite ef in e2 e3.
have four0 : (4%:R : F) != 0 by rewrite (natrM F 2 2) mulf_neq0.
split.
  rewrite -e3; case/orP: hf => [/orP[]|] /eqP ->; rewrite ?eqxx ?one2 ?[0 == 1]eq_sym ?oner_eq0.
  - by fnorm F; ring.
  - by rewrite subrr mulr0 subr0 mul1r; congr (_ - _); rewrite mulrC.
  - by fnorm F; ring.
move=> A; rewrite [S w]surjective_pairing -e4; apply: sins_row e5 _ e1 _.
  by rewrite /y_row half.
apply: (mulfI four0); rewrite mulrBr mulrA [4%:R * v _ _]mulrC.
have eY i : YA i = 2%:R * y_row i by rewrite /y_row half.
rewrite e2 !eY; case/orP: hf => [/orP[]|] /eqP ->.
- by rewrite eq_sym (negbTE two0); fnorm F; ring.
- by rewrite eq_sym one2; fnorm F; ring.
- by rewrite eqxx; fnorm F; ring.
Qed.

(* the rows of one piece *)
Lemma piece_ok o n (final : bool) : (0 < n)%N ->
  (forall i, (i < n)%N -> t_selector T (q_s1 c) (place r + (o + i)%N%:Z)) ->
  (forall i, (i < n - 1)%N -> f2 (o + i)%N = 1) -> f2 (o + n - 1) = (if final then 2%:R else 0) ->
  exists2 ws, size ws = n & [/\ all (fun w => (w < 2 ^ K)%N) ws,
    (forall j, (j < n)%N -> v (sc_bits c) (o + j)%N = (dval (2 ^ K) (drop j ws))%:R) &
    forall A, hash_to_point_spec S (v (db_xa d) o, y_row o) ws = Some A ->
      A = (v (db_xa d) (o + n)%N, if final then v (db_l1 d) (o + n)%N else y_row (o + n)%N)].
Proof.
move=> n0 hs h1 hlast.
pose f i : F := if (i < n - 1)%N then 1 else if final then 2%:R else 0.
have ef i : (i < n)%N -> f2 (o + i)%N = f i.
  move=> hi; rewrite /f; case: ltnP => [/h1//|hi']; rewrite -hlast; congr f2; nlia.
have fok i : (f i == 0) || (f i == 1) || (f i == 2%:R).
  by rewrite /f; case: ifP; rewrite ?eqxx ?orbT //; case: (final); rewrite eqxx ?orbT.
have f1 i : (i < n)%N -> (f i == 1) = (i.+1 < n)%N.
  move=> hi; rewrite /f; case: ltnP => hi'; first by rewrite eqxx; apply/esym; rewrite -[RHS]/true; apply/idP; nlia.
  have -> : (i.+1 < n)%N = false by apply/negbTE; rewrite -leqNgt; nlia.
  by case: (final); [exact: one2|rewrite eq_sym oner_eq0].
pose z j := if (j < n)%N then v (sc_bits c) (o + j)%N else 0.
pose ay j := if (j < n)%N then y_row (o + j)%N else if final then v (db_l1 d) (o + j)%N else y_row (o + j)%N.
have hw i : (i < n)%N -> exists2 w, (w < 2 ^ K)%N & z i - (2 ^ K)%N%:R * z i.+1 = w%:R /\
    forall A, sins_step (S w) (v (db_xa d) (o + i)%N, ay i) = Some A -> A = (v (db_xa d) (o + i.+1), ay i.+1).
  move=> hi; have [w hw [e1 e2]] := sins_rowE (hs i hi) (ef i hi) (fok i).
  exists w => //; move: e1 e2; rewrite f1 // /z /ay hi addnS; split=> // A /e2 ->; congr (_, _).
  rewrite /f; case: ltnP => hi'; first by rewrite eq_sym one2; case: ltnP => // hn; case: (final) => //; nlia.
  have -> : (i.+1 < n)%N = false by apply/negbTE; rewrite -leqNgt; nlia.
  by case: (final); rewrite ?eqxx // eq_sym (negbTE two0).
have key m j : (j + m = n)%N -> exists2 ws, size ws = m & [/\ all (fun w => (w < 2 ^ K)%N) ws,
    (forall i, (i <= m)%N -> z (j + i)%N = (dval (2 ^ K) (drop i ws))%:R) &
    forall A, hash_to_point_spec S (v (db_xa d) (o + j)%N, ay j) ws = Some A -> A = (v (db_xa d) (o + n)%N, ay n)].
  elim: m j => [|m IH] j ej.
    rewrite addn0 in ej; exists [::] => //; split=> //; last by rewrite ej => A [<-].
    by move=> i; rewrite leqn0 => /eqP ->; rewrite /z addn0 ej ltnn dval_nil.
  have hj : (j < n)%N by nlia.
  have [w hw1 [e1 e2]] := hw j hj; have [ws hsz [ha hz hA]] := IH j.+1 ltac:(nlia).
  exists (w :: ws); first by rewrite /= hsz.
  split; first by rewrite /= hw1.
    case=> [_|i hi] /=; last by rewrite addnS -addSn hz.
    have := hz 0%N isT; rewrite drop0 addn0 addn0 dval_cons natrD natrM => <-.
    by rewrite -e1 subrK.
  by move=> A /=; case E: (sins_step _ _) => [A'|] //=; move/e2: E => ->; apply: hA.
have [ws hsz [ha hz hA]] := key n 0%N (add0n n); exists ws => //; split=> //.
  by move=> j hj; have := hz j (ltnW hj); rewrite add0n /z hj.
by move=> A hh; have := hA A; rewrite /ay n0 ltnn addn0; apply.
Qed.
End Rows.
