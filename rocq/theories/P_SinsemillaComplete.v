(* C54, completeness: the honest prover's hash satisfies every constraint. *)
Set Warnings "-notation-overridden,-ambiguous-paths".
From mathcomp Require Import all_ssreflect all_algebra.
From Verif Require Import FieldTac Util M_Env M_Assigned P_Assigned M_Circuit S_Circuit M_Selectors M_Value M_Region S_Region
  M_Layout S_Layout M_Utilities S_Digits P_Bits P_RangeCheck L_Region L_Gadget M_Ecc S_Curve L_Curve L_Multiples P_Ecc P_CondSwap
  M_EccMul L_EccMul M_Sinsemilla S_Sinsemilla L_Sinsemilla P_Sinsemilla.
Import GRing.Theory.
Set Implicit Arguments.
Unset Strict Implicit.
Local Open Scope ring_scope.
Local Arguments at_row : simpl never.
Local Arguments esub : simpl never.
Local Arguments padd : simpl never.
Local Arguments rbindp : simpl never.
Local Arguments assign_advice : simpl never.

Section Rules.
Variables (F : fieldType) (T : table F) (place : nat -> int) (inst : nat -> nat -> value F) (r : nat).
Notation rhon := (rhon T place inst r).
(* the value an ecell carries *)
Definition carries (a : ecell F) (x : F) : Prop := exists2 v, ec_value a = known v & denote v = x.
Lemma rhon_e (H : Prop) c o v (V Q : ecell F -> Prop) :
  V (ECell (known v) (Cell r o (Advice, c))) ->
  (H -> t_cell T Advice c (place r + o%:Z) = denote v -> Q (ECell (known v) (Cell r o (Advice, c)))) ->
  rhon H (assign_e r c o (known v)) [::] V Q.
Proof.
move=> hV hQ; exists (ECell (known v) (Cell r o (Advice, c))) => //; split=> // h [/honest_cons[hv _] _].
by split; [exact: respects_one|apply: hQ => //; exact: hv v erefl].
Qed.
Lemma rhon_e_constant (H : Prop) c o v (V Q : ecell F -> Prop) :
  V (ECell (known v) (Cell r o (Advice, c))) ->
  (H -> t_cell T Advice c (place r + o%:Z) = denote v -> Q (ECell (known v) (Cell r o (Advice, c)))) ->
  rhon H (assign_e_constant r c o v) [::] V Q.
Proof.
move=> hV hQ; exists (ECell (known v) (Cell r o (Advice, c))) => //; split=> // h [/honest_cons[hv _] _].
by split; [exact: respects_one|apply: hQ].
Qed.
Lemma rhon_copy_e (H : Prop) a v c o (V Q : ecell F -> Prop) :
  ec_value a = known v -> (H -> cell_value T place (ec_cell a) = denote v) ->
  V (ECell (known v) (Cell r o (Advice, c))) ->
  (H -> t_cell T Advice c (place r + o%:Z) = denote v -> Q (ECell (known v) (Cell r o (Advice, c)))) ->
  rhon H (copy_e r a c o) [::] V Q.
Proof.
set b := ECell _ _; move=> ea ca hV hQ; rewrite /copy_e ea.
apply: (@rhon_bind _ T place inst r H _ _ _ _ [::] [::] (eq b) (fun _ => t_cell T Advice c (place r + o%:Z) = denote v)).
  by apply: rhon_e.
move=> _ <-; apply: (@rhon_bind _ T place inst r _ _ _ _ _ [::] [::] (fun=> True) (fun=> True)).
  by apply: rhon_equal => // -[h e]; rewrite ca //; exact: e.
by move=> _ _; apply: rhon_ret => // -[[h e] _]; apply: hQ.
Qed.
Lemma rhon_enable_rows (H : Prop) s o n (V Q : unit -> Prop) : V tt -> (H -> Q tt) ->
  rhon H (enable_rows F s o n) [seq (s, o + i)%N | i <- iota 0 n] V Q.
Proof.
have [e1 e2] := enable_rowsE inst s o n; move=> hV hQ; exists tt => //; rewrite e1; split=> //.
  move=> s' off; elim: (iota 0 n) => //= i l IH /orP[/andP[/eqP -> /eqP ->]|/IH]; rewrite inE ?eqxx //.
  by move=> ->; rewrite orbT.
move=> h [_ hs]; split; last exact: hQ.
elim: (iota 0 n) hs => [|i l IH]; first by constructor.
by move=> /List.Forall_cons_iff[h1 /IH h2]; apply: List.Forall_cons.
Qed.
Lemma rhon_nil (H : Prop) (A : Type) (q : rprog F A) L (V Q : A -> Prop) : rhon H q (L ++ [::]) V Q -> rhon H q L V Q.
Proof. by rewrite cats0. Qed.
Lemma rhon_try (H : Prop) (V Q : unit -> Prop) : V tt -> (H -> Q tt) -> rhon H (try_unit F (Ok tt)) [::] V Q.
Proof. exact: rhon_ret. Qed.
Lemma rhon_fixed_ones (H : Prop) col o n (V Q : unit -> Prop) : V tt ->
  (H -> (forall i, (i < n)%N -> t_cell T Fixed col (place r + (o + i)%N%:Z) = 1) -> Q tt) ->
  rhon H (fixed_ones F col r o n) [::] V Q.
Proof.
elim: n o H Q => [|n IH] o H Q hV hQ; first by apply: rhon_ret => // h; apply: hQ.
apply: (@rhon_bind _ T place inst r _ _ _ _ _ [::] [::] (fun=> True) (fun=> t_cell T Fixed col (place r + o%:Z) = 1)).
  by apply: rhon_fixed.
move=> _ _; apply: IH => // -[h1 h2] h3; apply: hQ => // -[_|i hi]; first by rewrite addn0.
by rewrite addnS -addSn; apply: h3.
Qed.
End Rules.

Lemma denote_sub_f (F : fieldType) (a : assigned F) x : denote (a_sub_f a x) = denote a - x.
Proof. by have [_ []] := C09_field_operand a x. Qed.
Section Comp.
Variables (F : fieldType) (pf : prime_field F) (p : nat).
Hypothesis pok : prime_field_ok pf p.
Variables (K : nat) (gens : seq (F * F)).
Variables (T : table F) (place : nat -> int) (inst : nat -> nat -> value F) (c : sins_config).
Hypothesis two0 : (2%:R : F) != 0.
Hypothesis hK : (0 < K <= 64)%N.
Hypothesis hgens : size gens = (2 ^ K)%N.
Let d := sc_dbl c.
Let S w := nth (0, 0) gens w.
Add Field Ff : (F_field_theory F).

Section Region.
Variable r : nat.
Notation rhon := (rhon T place inst r).
Notation at_ col o := (t_cell T Advice col (place r + (o)%N%:Z)).
Notation f2 k := (t_cell T Fixed (q_s2 c) (place r + (k)%N%:Z)).
Notation y_at o := (y_row T place r c o).

(* the honest slopes of one row *)
Definition slope1 (A P : F * F) : F := (A.2 - P.2) / (A.1 - P.1).
Definition third (A P : F * F) : F := slope1 A P ^+ 2 - A.1 - P.1.
Definition slope2 (A P : F * F) : F := 2%:R * A.2 / (A.1 - third A P) - slope1 A P.
Lemma sins_stepE P A A' : sins_step P A = Some A' ->
  [/\ slope1 A P * (A.1 - P.1) = A.2 - P.2, (slope1 A P + slope2 A P) * (A.1 - third A P) = 2%:R * A.2 &
      A' = (slope2 A P ^+ 2 - third A P - A.1, slope2 A P * (A.1 - (slope2 A P ^+ 2 - third A P - A.1)) - A.2)].
Proof.
move=> e; have := e; rewrite /sins_step /inc_add; case: ifP => // /negbT n1.
have d1 : A.1 - P.1 != 0 by rewrite subr_eq0.
have e1 : slope1 A P * (A.1 - P.1) = A.2 - P.2 by rewrite /slope1 mulfVK.
have eR : padd (Some A) (Some P) = Some (third A P, slope1 A P * (A.1 - third A P) - A.2).
  rewrite /third; case: (A) (P) n1 d1 => [xa ya] [xp yp] /= n1 d1; rewrite /padd n1 /line_sum /slope1 /=.
  by rewrite -opprB -[xp - xa]opprB invrN mulrNN.
rewrite eR /=; case: ifP => // /negbT n2 _.
have e2 : (slope1 A P + slope2 A P) * (A.1 - third A P) = 2%:R * A.2.
  by rewrite /slope2 addrC subrK mulfVK // subr_eq0 eq_sym.
split=> //; move: e; rewrite [P]surjective_pairing [A]surjective_pairing => e; by apply: (sins_row _ _ erefl erefl e).
Qed.

(* the rows of a piece, on the curve side *)
Fixpoint curve_rows k (ws : seq nat) (A B : F * F) : Prop :=
  if ws is w :: ws' then exists2 A', sins_step (S w) A = Some A' &
    [/\ at_ (db_xp d) k = (S w).1, at_ (db_xa d) k = A.1, at_ (db_l1 d) k = slope1 A (S w) & at_ (db_l2 d) k = slope2 A (S w)] /\
    at_ (db_xa d) k.+1 = A'.1 /\ curve_rows k.+1 ws' A' B
  else A = B.
Definition carries_v (v : value (assigned F)) (x : F) : Prop := exists2 a, v = known a & denote a = x.

Lemma piece_rows_hon (H : Prop) o row ws xa ya A B :
  carries_v (ec_value xa) A.1 -> carries_v ya A.2 -> (H -> at_ (db_xa d) (o + row) = A.1) ->
  hash_to_point_spec S A ws = Some B ->
  rhon H (piece_rows c r o row [seq known (S w) | w <- ws] xa ya) [::]
    (fun t => [/\ carries_v (ec_value t.1) B.1, carries_v t.2 B.2 &
       ec_cell t.1 = if ws is [::] then ec_cell xa else Cell r (o + row + size ws) (Advice, db_xa d)])
    (fun t => curve_rows (o + row) ws A B).
Proof.
elim: ws H row xa ya A => [|w ws IH] H row xa ya A; first by move=> h1 h2 h3 [<-]; apply: rhon_ret.
move=> [av eav dav] [bv ebv dbv] hx /=; case e: (sins_step _ _) => [A'|] //= hB.
have [s1 s2 s3] := sins_stepE e; rewrite eav ebv.
apply: (@rhon_bind _ T place inst r _ _ _ _ _ [::] [::] (fun=> True) (fun=> at_ (db_xp d) (o + row) = (S w).1)).
  exact: rhon_advice.
set l1 := a_mul (a_sub_f bv (S w).2) (a_invert (a_sub_f av (S w).1)).
have d1 : denote l1 = slope1 A (S w) by rewrite /l1 !(denE, denote_sub_f) dav dbv.
set xr := a_sub_f (a_sub (a_square l1) av) (S w).1.
have d2 : denote xr = third A (S w) by rewrite /xr denote_sub_f C09_sub C09_square d1 dav.
set l2 := a_sub (a_mul (a_mul_f bv 2%:R) (a_invert (a_sub av xr))) l1.
have d3 : denote l2 = slope2 A (S w) by rewrite /l2 C09_sub C09_mul denote_mul_f inv0E C09_sub d1 d2 dav dbv /slope2 [A.2 * _]mulrC.
set xn := a_sub (a_sub (a_square l2) av) xr.
have d4 : denote xn = A'.1 by rewrite /xn C09_sub C09_sub C09_square d2 d3 dav s3 /= addrAC.
move=> _ _; apply: (@rhon_bind _ T place inst r _ _ _ _ _ [::] [::] (fun=> True) (fun=> at_ (db_l1 d) (o + row) = slope1 A (S w))).
  by apply: (@rhon_e _ T place inst r _ _ _ l1) => // _ ->.
move=> _ _; apply: (@rhon_bind _ T place inst r _ _ _ _ _ [::] [::] (fun=> True) (fun=> at_ (db_l2 d) (o + row) = slope2 A (S w))).
  by apply: (@rhon_e _ T place inst r _ _ _ l2) => // _ ->.
move=> _ _; apply: (@rhon_bind _ T place inst r _ _ _ _ _ [::] [::] (eq (ECell (known xn) (Cell r (o + row + 1) (Advice, db_xa d))))
   (fun=> at_ (db_xa d) (o + row + 1) = A'.1)).
  by apply: (@rhon_e _ T place inst r _ _ _ xn) => // _ ->.
move=> _ <-; have d5 : carries_v (v_sub (v_mul (known l2) (v_sub (known av) (known xn))) (known bv)) A'.2.
  by exists (a_sub (a_mul l2 (a_sub av xn)) bv) => //; rewrite C09_sub C09_mul C09_sub d3 d4 dav dbv s3.
apply: (rhon_keep (Q := fun=> curve_rows (o + row.+1) ws A' B)); last first.
  move=> t [[[[hH h1] h2] h3] h4] _ h5; exists A' => //; split; first by split=> //; exact: hx.
  by rewrite -addn1; split=> //; rewrite addn1 -addnS.
apply: rhon_weaken (IH _ row.+1 (ECell (known xn) (Cell r (o + row + 1) (Advice, db_xa d))) _ A' _ d5 _ hB) => //.
- by move=> t [h1 h2 h3]; split=> //; rewrite h3; case: (ws) => [|w' ws'] /=; congr Cell; nlia.
- by exists xn.
- by case=> _; rewrite addn1 addnS.
Qed.

(* the words of a piece *)
Lemma piece_wordsE n x : (n * K < pf_num_bits pf)%N -> (pf_val pf x < 2 ^ (K * n))%N ->
  exists2 ws, piece_words pf K n x = Some ws & [/\ size ws = n, all (fun w => (w < 2 ^ K)%N) ws, dval (2 ^ K) ws = pf_val pf x &
    ws = words_of K n (pf_val pf x)].
Proof.
case/andP: hK => K0 K64 hn hx; rewrite /piece_words -leqn0 leqNgt K0 /=.
have hr : (K * n <= pf_repr_bits pf)%N by have := pf_repr pok; rewrite mulnC; nlia.
set bits := take _ _; have hs : size bits = (K * n)%N by rewrite size_takel // /to_le_bits size_map size_iota.
have [h1 h2 h3] := chunks_exact_dval K0 hs; set ws := [seq word_of_bits ch | ch <- chunks_exact K bits].
have hd : dval (2 ^ K) ws = pf_val pf x.
  rewrite h3; have := @slice_bits F pf x 0 (K * n); rewrite add0n drop0 -/bits => -> //.
  by rewrite bits_dval expn0 divn1 modn_small.
exists ws; last by split=> //; rewrite -hd -h1 words_of_dval.
rewrite (_ : map _ (chunks_exact _ _) = [seq Some x | x <- ws]); first by elim: (ws) => //= y ys ->.
rewrite /ws -!map_comp; apply: eq_map => i /=; set ch := take K _.
have hsz : (size ch <= 64)%N by apply: leq_trans K64; rewrite size_take; case: ltnP.
by have [/(_ hsz)[-> _] _] := C48_lebs2ip ch; rewrite /= word_of_bitsE.
Qed.
Lemma piece_gensE n x ws : piece_words pf K n x = Some ws -> all (fun w => (w < 2 ^ K)%N) ws ->
  piece_gens pf K gens n x = Some [seq S w | w <- ws].
Proof.
rewrite /piece_gens => -> /=; elim: ws => //= w ws IH /andP[hw /IH e].
have -> : get gens w = Some (S w) by rewrite /get (drop_nth (0, 0)) ?hgens.
by rewrite /all_some /= in e *; rewrite e.
Qed.

(* the running sums *)
Lemma zvals_take inv (y : F) us m : zvals inv y (take m us) = take m (zvals inv y us).
Proof. by elim: us y m => [|u us IH] y [|m] //=; rewrite IH. Qed.
Lemma piece_sums_hon (H : Prop) o inv y idx us :
  rhon H (piece_sums c r o inv (known y) idx [seq known u | u <- us]) [::]
    (fun zs => zs = [seq ACell (known (nth 0 (zvals inv y us) i)) (Cell r (o + idx + 1 + i) (Advice, sc_bits c)) | i <- iota 0 (size us)])
    (fun _ => forall i, (i < size us)%N -> at_ (sc_bits c) (o + idx + 1 + i) = nth 0 (zvals inv y us) i).
Proof.
elim: us H y idx => [|u us IH] H y idx; first exact: rhon_ret.
set y' := (y - u%:R) * inv; set cell := ACell (known y') (Cell r (o + idx + 1) (Advice, sc_bits c)).
apply: (@rhon_bind _ T place inst r _ _ _ _ _ [::] [::] (eq cell) (fun=> at_ (sc_bits c) (o + idx + 1) = y')).
  exact: rhon_advice.
move=> _ <-; apply: (@rhon_bind _ T place inst r _ _ _ _ _ [::] [::] _ _ _ _ (IH _ y' idx.+1)) => zs ->.
apply: rhon_ret.
  rewrite /= addn0; congr cons; rewrite (iotaDl 1 0) -map_comp; apply: eq_map => i /=.
  by congr (ACell _ (Cell _ _ _)); nlia.
by move=> [[hH h1] h2] [_|i hi] /=; rewrite ?addn0 //; have := h2 i hi; rewrite /= -/y' => <-; congr (at_ _ _); nlia.
Qed.

(* the rows of a message *)
Definition row_good k w f : Prop :=
  [/\ (w < 2 ^ K)%N, f2 k = f, (f == 0) || (f == 1) || (f == 2%:R) &
      at_ (sc_bits c) k - (2 ^ K)%N%:R * (if f == 1 then at_ (sc_bits c) k.+1 else 0) = w%:R].
Fixpoint rows_good (final : bool) k (ws : seq nat) (A B : F * F) : Prop :=
  if ws is w :: ws' then exists2 A', sins_step (S w) A = Some A' &
    [/\ exists2 f, row_good k w f & (f == 2%:R) = final && (ws' == [::]),
        [/\ at_ (db_xp d) k = (S w).1, at_ (db_xa d) k = A.1, at_ (db_l1 d) k = slope1 A (S w) & at_ (db_l2 d) k = slope2 A (S w)],
        at_ (db_xa d) k.+1 = A'.1 & rows_good final k.+1 ws' A' B]
  else A = B.
Lemma rows_good_cat final k u w A B C : w != [::] -> rows_good false k u A B -> rows_good final (k + size u) w B C ->
  rows_good final k (u ++ w) A C.
Proof.
move=> w0; elim: u k A => [|x u IH] k A /=; first by move=> ->; rewrite addn0.
case=> A' e [[f h1 h2] h3 h4 h5] h6; exists A' => //; split=> //.
  by exists f => //; rewrite h2; case: (u) (w) w0 => [|? ?] [|? ?] //=; rewrite andbF.
by apply: IH => //; rewrite addSnnS.
Qed.
Lemma rows_good_piece final o ws A B : (0 < size ws)%N -> all (fun w => (w < 2 ^ K)%N) ws ->
  (forall i, (i < size ws - 1)%N -> f2 (o + i) = 1) -> f2 (o + size ws - 1) = (if final then 2%:R else 0) ->
  (forall j, (j < size ws)%N -> at_ (sc_bits c) (o + j) = (dval (2 ^ K) (drop j ws))%:R) ->
  curve_rows o ws A B -> rows_good final o ws A B.
Proof.
move=> n0 ha h1 h2 h3; have key m j A0 : (j + m = size ws)%N -> curve_rows (o + j) (drop j ws) A0 B -> rows_good final (o + j) (drop j ws) A0 B.
  elim: m j A0 => [|m IH] j A0 ej; first by rewrite addn0 in ej; rewrite drop_oversize ?ej.
  have hj : (j < size ws)%N by nlia.
  rewrite (drop_nth 0%N hj) /=; case=> A' e [h4 [h5 h6]]; exists A' => //; split=> //; last by rewrite -addnS; apply: IH; [nlia|rewrite addnS].
  set w := nth 0%N ws j; have hw : (w < 2 ^ K)%N by apply: (allP ha); apply: mem_nth.
  have eb : at_ (sc_bits c) (o + j) = (w + 2 ^ K * dval (2 ^ K) (drop j.+1 ws))%N%:R.
    by rewrite h3 // (drop_nth 0%N hj) dval_cons.
  have [hl|hl] := ltnP j.+1 (size ws).
    have f1 : f2 (o + j) = 1 by apply: h1; nlia.
    exists 1; last by rewrite eq_sym one2 // -size_eq0 size_drop; case: (final) => //=; apply/esym/negbTE; rewrite -lt0n; nlia.
    split=> //; rewrite ?eqxx ?orbT // eb -addnS h3 // natrD natrM addrK //.
  have ej' : (o + j = o + size ws - 1)%N by nlia.
  exists (f2 (o + j)%N).
    split=> //; rewrite ej' h2; first by case: (final); rewrite eqxx ?orbT.
    have -> : ((if final then 2%:R else 0) == 1 :> F) = false by case: (final); [exact: one2|rewrite eq_sym oner_eq0].
    by rewrite -ej' eb drop_oversize // dval_nil muln0 addn0 mulr0 subr0.
  rewrite ej' h2 drop_oversize // eqxx andbT; case: (final); first exact: eqxx.
  by rewrite eq_sym (negbTE two0).
by have := key (size ws) 0%N A (add0n _); rewrite addn0 drop0.
Qed.
Lemma rows_good_end final k ws A B : (0 < size ws)%N -> rows_good final k ws A B -> at_ (db_xa d) (k + size ws) = B.1.
Proof.
elim: ws k A => //= w ws IH k A _ [A' _ [_ _ h4 h5]].
by case: ws IH h5 => [|w' ws] IH h5; [rewrite addn1 h4 h5|rewrite -addSnnS; apply: IH h5].
Qed.

(* what the prover knows of a piece: its value, which fits *)
Definition knows (q : piece F) (x : F) : Prop :=
  [/\ (0 < pc_words q)%N, (pc_words q * K < pf_num_bits pf)%N, ac_value (pc_cell q) = known x & (pf_val pf x < 2 ^ (K * pc_words q))%N].
Definition shifts (n : nat) (x : F) : seq F := [seq (pf_val pf x %/ 2 ^ (K * j))%N%:R | j <- iota 0 n].

Lemma hash_piece_hon (H : Prop) o q x xa ya final A B :
  knows q x -> (H -> cell_value T place (ac_cell (pc_cell q)) = x) ->
  carries_v (ec_value xa) A.1 -> carries_v ya A.2 -> ec_cell xa = Cell r o (Advice, db_xa d) -> (H -> at_ (db_xa d) o = A.1) ->
  hash_to_point_spec S A (words_of K (pc_words q) (pf_val pf x)) = Some B ->
  rhon H (hash_piece pf K gens c r o q xa ya final) [seq (q_s1 c, o + i)%N | i <- iota 0 (pc_words q)]
    (fun t => [/\ carries_v (ec_value t.1.1) B.1, carries_v t.1.2 B.2, ec_cell t.1.1 = Cell r (o + pc_words q) (Advice, db_xa d) &
       [seq ac_value a | a <- t.2] = [seq known y | y <- shifts (pc_words q) x]])
    (fun t => rows_good final o (words_of K (pc_words q) (pf_val pf x)) A B /\
       [seq cell_value T place (ac_cell a) | a <- t.2] = shifts (pc_words q) x).
Proof.
move=> [n0 hn ev hx] hc cx cy ex hx0 hB; rewrite /hash_piece /piece_selectors; set n := pc_words q; rewrite -/n in n0 hn hx.
have [ws ew [hsz ha hd hws]] := piece_wordsE hn hx; have eg := piece_gensE ew ha; rewrite -/n -hws in hB *.
have B0 : (2 ^ K)%N%:R != 0 :> F by rewrite natrX expf_neq0.
have hd' : x = (dval (2 ^ K) ws)%:R by rewrite hd (pf_valK pok).
rewrite -[n == 0%N]leqn0 leqNgt n0 /=.
have -> : map_transpose (piece_words pf K n) (ac_value (pc_cell q)) n = Some [seq known w | w <- ws].
  by rewrite ev /map_transpose /= ew /= /v_transpose_vec /= hsz eqxx.
have -> : map_transpose (piece_gens pf K gens n) (ac_value (pc_cell q)) n = Some [seq known (S w) | w <- ws].
  by rewrite ev /map_transpose /= eg /= /v_transpose_vec /= size_map hsz eqxx -map_comp.
rewrite ev size_map -map_take; set us := take _ ws.
have sus : size us = (n - 1)%N by rewrite size_takel hsz ?leq_subr.
apply: rhon_nil.
apply: (@rhon_bind _ T place inst r _ _ _ _ _ _ [::] (fun=> True)
   (fun _ => (forall i, (i < n - 1)%N -> f2 (o + i) = 1) /\ f2 (o + n - 1) = (if final then 2%:R else 0))).
  apply: rhon_nil.
  apply: (rhon_bind (V1 := fun=> True) (Q1 := fun=> True)); first exact: rhon_enable_rows.
  move=> _ _; apply: (rhon_bind (L1 := [::]) (L2 := [::]) (V1 := fun=> True) (Q1 := fun=> forall i, (i < n - 1)%N -> f2 (o + i) = 1)).
    exact: rhon_fixed_ones.
  move=> _ _; apply: (rhon_bind (L1 := [::]) (L2 := [::]) (V1 := fun=> True) (Q1 := fun=> f2 (o + n - 1) = (if final then 2%:R else 0))).
    exact: rhon_fixed.
  by move=> _ _; apply: rhon_ret => // -[[_ h1] h2].
move=> _ _; set z0 := ACell (known x) (Cell r o (Advice, sc_bits c)).
apply: (rhon_bind (L1 := [::]) (L2 := [::]) (V1 := eq z0) (Q1 := fun=> at_ (sc_bits c) o = x)).
  by apply: (rhon_copy _ ev) => // -[/hc].
move=> _ <-; apply: (rhon_bind (L1 := [::]) (L2 := [::])); first exact: piece_sums_hon.
move=> zs ezs; apply: (rhon_bind (L1 := [::]) (L2 := [::])).
  by apply: piece_rows_hon cx cy _ hB; rewrite addn0 => -[[[/hx0]]].
move=> [xa' ya'] [h1 h2 h3].
have esh j : (j <= n)%N -> (pf_val pf x %/ 2 ^ (K * j))%N = dval (2 ^ K) (drop j ws).
  by move=> hj; rewrite -hd expnM dval_drop ?expn_gt0 ?hsz.
have ez i : (i < n - 1)%N -> nth 0 (zvals ((2 ^ K)%N%:R^-1) x us) i = (dval (2 ^ K) (drop i.+1 ws))%:R.
  by move=> hi; rewrite zvals_take nth_take ?hsz //; apply: (@zvals_dval F (2 ^ K) x ws i.+1 B0 hd'); rewrite hsz; nlia.
have esn : shifts n x = x :: [seq (dval (2 ^ K) (drop i.+1 ws))%:R | i <- iota 0 (n - 1)].
  rewrite /shifts (_ : iota 0 n = 0%N :: iota 1 (n - 1)); last by case: (n) n0 => // n' _; rewrite subn1.
  rewrite /= muln0 expn0 divn1 (pf_valK pok) (iotaDl 1 0) -map_comp; congr cons; apply/eq_in_map => i; rewrite mem_iota => /andP[_ hi] /=.
  by rewrite add1n esh //; nlia.
apply: rhon_ret; rewrite /= ezs esn.
  split=> //; first by rewrite h3 addn0 hsz; case: (ws) hsz n0 => [<-|].
  rewrite /= -!map_comp sus; congr cons; apply/eq_in_map => i; rewrite mem_iota => /andP[_ hi] /=; by rewrite ez.
move=> [[[[hH [g1 g2]] g3] g4] g5]; rewrite addn0 in g5.
have hb j : (j < n)%N -> at_ (sc_bits c) (o + j) = (dval (2 ^ K) (drop j ws))%:R.
  case: j => [_|j hj]; first by rewrite addn0 drop0 g3.
  by rewrite -ez; [rewrite -g4 ?sus; [congr (at_ _ _)|]|]; nlia.
split.
  by apply: rows_good_piece; rewrite ?hsz.
rewrite /= -!map_comp sus; congr cons; first exact: g3.
apply/eq_in_map => i; rewrite mem_iota => /andP[_ hi] /=; by rewrite /cell_value /= g4 ?sus // ez.
Qed.

Definition pv (q : piece F) : F := odflt 0 (inner (ac_value (pc_cell q))).
Definition total (ps : seq (piece F)) : nat := sumn [seq pc_words q | q <- ps].
Definition known_message (ps : seq (piece F)) : Prop := List.Forall (fun q => knows q (pv q)) ps.
Definition in_cells (ps : seq (piece F)) : Prop :=
  List.Forall (fun q => cell_value T place (ac_cell (pc_cell q)) = pv q) ps.
Definition wordss (ps : seq (piece F)) : seq nat := flatten [seq words_of K (pc_words q) (pf_val pf (pv q)) | q <- ps].
Definition shiftss (ps : seq (piece F)) : seq (seq F) := [seq shifts (pc_words q) (pv q) | q <- ps].
Lemma size_wordss ps : size (wordss ps) = total ps.
Proof. by rewrite size_flatten /shape -map_comp; congr sumn; apply: eq_map => q /=; rewrite size_map size_iota. Qed.

Lemma hash_pieces_hon (H : Prop) o ps xa ya A B : (0 < size ps)%N ->
  known_message ps -> (H -> in_cells ps) ->
  carries_v (ec_value xa) A.1 -> carries_v ya A.2 -> ec_cell xa = Cell r o (Advice, db_xa d) -> (H -> at_ (db_xa d) o = A.1) ->
  hash_to_point_spec S A (wordss ps) = Some B ->
  rhon H (hash_pieces pf K gens c r o ps xa ya) [seq (q_s1 c, o + i)%N | i <- iota 0 (total ps)]
    (fun t => let: (o', xa', ya', zss) := t in
       [/\ o' = (o + total ps)%N, carries_v (ec_value xa') B.1, carries_v ya' B.2, ec_cell xa' = Cell r o' (Advice, db_xa d) &
       [seq [seq ac_value a | a <- zs] | zs <- zss] = [seq [seq known y | y <- ys] | ys <- shiftss ps]])
    (fun t => rows_good true o (wordss ps) A B /\
       [seq [seq cell_value T place (ac_cell a) | a <- zs] | zs <- t.2] = shiftss ps).
Proof.
elim: ps H o xa ya A => [//|q ps IH] H o xa ya A _ /List.Forall_cons_iff[kq kps] hc cx cy ex hx.
rewrite /wordss /= hash_cat -/(wordss ps); case hA': (hash_to_point_spec _ _ _) => [A'|] //= hB.
set fin := (if ps is [::] then true else false).
apply: (@rhon_weaken _ T place inst r _ _ _ ([seq (q_s1 c, o + i)%N | i <- iota 0 (pc_words q)]
    ++ [seq (q_s1 c, o + pc_words q + i)%N | i <- iota 0 (total ps)]) _ _ _ _ _ _ (fun _ h => h) (fun _ _ h => h)).
  move=> z; rewrite mem_cat => /orP[] /mapP[i]; rewrite mem_iota => /andP[_ hi] ->; apply/mapP.
    by exists i => //; rewrite mem_iota /total /=; nlia.
  by exists (pc_words q + i)%N; rewrite ?addnA // mem_iota /total /= -/(total ps); nlia.
apply: rhon_bind.
  apply: (hash_piece_hon _ kq _ cx cy ex hx hA'); by move=> /hc /List.Forall_cons_iff[].
move=> [[xa' ya'] zs] [c1 c2 c3 c4]; rewrite /= in c1 c2 c3 c4; apply: rhon_nil.
have n0 : (0 < pc_words q)%N by case: kq.
case: (ltnP 0 (size ps)) => hps.
  apply: rhon_bind; first apply: (IH _ _ _ _ A' hps kps _ c1 c2 c3 _ hB).
  - by case=> /hc /List.Forall_cons_iff[].
  - by move=> [_ [g _]]; have := rows_good_end _ g; rewrite size_map size_iota; apply.
  move=> [[[o' xa''] ya''] zss] [e1 e2 e3 e4 e5]; apply: rhon_ret => /=.
    by split=> //; [rewrite e1 /total /= addnA|rewrite c4 e5].
  move=> [[hH [g1 g2]] [g3 g4]]; rewrite /= in g2 g4; rewrite g2 g4; split=> //.
  have efin : fin = false by rewrite /fin; case: (ps) hps.
  rewrite efin in g1; apply: (rows_good_cat _ g1); last by rewrite size_map size_iota.
  by rewrite -size_eq0 size_wordss; case: (ps) hps kps => // q' ps' _ /List.Forall_cons_iff[[h _ _ _] _]; rewrite /total /=; nlia.
have e0 : ps = [::] by move: hps; rewrite leqn0 => /eqP; exact: size0nil.
move: (hB); rewrite /fin e0 /= => -[<-]; apply: (@rhon_bind _ T place inst r _ _ _ _ _ [::] [::]
   (eq ((o + pc_words q)%N, xa', ya', [::])) (fun=> True)); first exact: rhon_ret.
move=> _ <-; apply: rhon_ret => /=; first by rewrite /total /= addn0 c4.
by move=> [[_ [g1 g2]] _]; rewrite /wordss /= cats0 g2.
Qed.

Lemma all_pieces_hon (H : Prop) o ps xa ya A B : (0 < size ps)%N ->
  known_message ps -> (H -> in_cells ps) ->
  carries_v (ec_value xa) A.1 -> carries_v ya A.2 -> ec_cell xa = Cell r o (Advice, db_xa d) -> (H -> at_ (db_xa d) o = A.1) ->
  hash_to_point_spec S A (wordss ps) = Some B ->
  rhon H (hash_all_pieces pf K gens c r o ps xa ya) [seq (q_s1 c, o + i)%N | i <- iota 0 (total ps)]
    (fun t => let: (xa', ya', zss) := t in
       [/\ carries_v (ec_value xa') B.1, carries_v (ec_value ya') B.2 &
       [seq [seq ac_value a | a <- zs] | zs <- zss] = [seq [seq known y | y <- ys] | ys <- shiftss ps]])
    (fun t => [/\ rows_good true o (wordss ps) A B, at_ (db_l1 d) (o + total ps) = B.2, point_in T place (ECPoint t.1.1 t.1.2) (Some B) &
       [seq [seq cell_value T place (ac_cell a) | a <- zs] | zs <- t.2] = shiftss ps]).
Proof.
move=> n0 hk hc cx cy ex hx hB; apply: rhon_nil; apply: rhon_bind.
  exact: (hash_pieces_hon n0 hk hc cx cy ex hx hB).
move=> [[[o' xa'] ya'] zss] [e1 e2 [y ey dy] e4 e5]; rewrite {}ey.
apply: (rhon_bind (L1 := [::]) (L2 := [::]) (V1 := eq (ECell (known y) (Cell r o' (Advice, db_l1 d)))) (Q1 := fun=> at_ (db_l1 d) o' = B.2)).
  by apply: (@rhon_e _ T place inst r) => // _ ->.
move=> _ <-; apply: (rhon_bind (L1 := [::]) (L2 := [::]) (V1 := fun=> True) (Q1 := fun=> True)); first exact: rhon_advice.
move=> _ _; apply: (rhon_bind (L1 := [::]) (L2 := [::]) (V1 := fun=> True) (Q1 := fun=> True)); first exact: rhon_advice.
move=> _ _; apply: rhon_ret => /=; first by split=> //; exists y.
move=> [[[[_ [g1 g2]] g3] _] _]; rewrite -e1; split=> //; rewrite /point_in /= e4 /cell_value /= g3.
have ht : (0 < size (wordss ps))%N.
  rewrite size_wordss; case: (ps) n0 hk => // q' ps' _ /List.Forall_cons_iff[[h _ _ _] _]; rewrite /total /=; nlia.
by have := rows_good_end ht g1; rewrite size_wordss -e1 => ->; case: (B).
Qed.

(* the rows satisfy the gates and the lookup *)
Let poly1 : seq (expr F) := match hash_gate F c with [:: EProduct _ a; EProduct _ b] => [:: a; b] | _ => [::] end.
Lemma hash_polyE k : all (fun g => at_row T (place r + k%:Z) g == 0) poly1 <->
  let s3 := f2 k * (f2 k - 1) in
  let v col k := at_ col k in
  let xr k := v (db_l1 d) k ^+ 2 - v (db_xa d) k - v (db_xp d) k in
  let YA k := (v (db_l1 d) k + v (db_l2 d) k) * (v (db_xa d) k - xr k) in
  v (db_xa d) k.+1 = v (db_l2 d) k ^+ 2 - xr k - v (db_xa d) k /\
  v (db_l2 d) k * 4%:R * (v (db_xa d) k - v (db_xa d) k.+1)
    = 2%:R * YA k + (2%:R - s3) * YA k.+1 + s3 * 2%:R * v (db_l1 d) k.+1.
Proof.
rewrite /poly1 /= andbT /q_s3 /esquare !(at_sub, at_sum, at_mul, at_scale, at_const, at_adv, at_fixed) -/d !addr0 !row1 /=.
set s3 := f2 k * (f2 k - 1); split.
  case/andP; rewrite !subr_eq0 => /eqP g1 /eqP g2; split; first by rewrite expr2 g1; fnorm F; ring.
  by rewrite [_ * 4%:R]mulrC g2 [s3 * 2%:R]mulrC; fnorm F; ring.
move=> [g1 g2]; rewrite !subr_eq0; apply/andP; split; apply/eqP; first by rewrite g1; fnorm F; ring.
by rewrite [4%:R * _]mulrC g2; fnorm F; ring.
Qed.
(* the inputs of the lookup at a row are a word and its generator *)
Definition looks_good row : Prop := exists2 w, (w < 2 ^ K)%N & [seq at_row T row e | e <- sins_lookup K gens c] = [:: w%:R; (S w).1; (S w).2].
Lemma row_fine k w f A A' (ynext : F) : sins_step (S w) A = Some A' -> row_good k w f ->
  [/\ at_ (db_xp d) k = (S w).1, at_ (db_xa d) k = A.1, at_ (db_l1 d) k = slope1 A (S w) & at_ (db_l2 d) k = slope2 A (S w)] ->
  at_ (db_xa d) k.+1 = A'.1 -> ynext = A'.2 -> ynext = (if f == 2%:R then at_ (db_l1 d) k.+1 else y_at k.+1) ->
  [/\ all (fun g => at_row T (place r + k%:Z) g == 0) poly1, t_selector T (q_s1 c) (place r + k%:Z) -> looks_good (place r + k%:Z) &
      y_at k = A.2].
Proof.
move=> /sins_stepE[s1 s2 s3] [hw ef hf eb] [e1 e2 e3 e4] e5 ey1 ey2.
have eY i : (at_ (db_l1 d) i + at_ (db_l2 d) i) * (at_ (db_xa d) i - (at_ (db_l1 d) i ^+ 2 - at_ (db_xa d) i - at_ (db_xp d) i)) = 2%:R * y_at i.
  by rewrite /y_row half.
have eY0 : y_at k = A.2.
  by apply: (mulfI two0); rewrite -eY e1 e2 e3 e4 s2.
split=> //.
  apply/hash_polyE => /=; rewrite !eY eY0 ef; split; first by rewrite e1 e2 e3 e4 e5 s3.
  have -> : at_ (db_l2 d) k * 4%:R * (at_ (db_xa d) k - at_ (db_xa d) k.+1) = 4%:R * (A.2 + A'.2).
    by rewrite e2 e4 e5 s3 /= mulrAC mulrC; congr (_ * _); fnorm F; ring.
  rewrite -ey1 ey2; case/orP: hf => [/orP[]|] /eqP ->.
  - by rewrite eq_sym (negbTE two0); fnorm F; ring.
  - by rewrite eq_sym one2; fnorm F; ring.
  - by rewrite eqxx; fnorm F; ring.
move=> hs; exists w => //; rewrite /sins_lookup; case: (nth (0, 0) gens 0) => ix iy.
rewrite /q_s3 /= !(at_sub, at_sum, at_mul, at_scale, at_const, at_adv, at_fixed, at_sel) hs -/d !addr0 !row1 ef.
have := eY k; rewrite expr2 eY0 => ->.
congr [:: _; _; _].
- rewrite -eb mul1r; case/orP: hf => [/orP[]|] /eqP ->; rewrite ?eqxx ?one2 ?[0 == 1]eq_sym ?oner_eq0.
  + by fnorm F; ring.
  + by rewrite subrr mulr0 subr0 mul1r; congr (_ - _); rewrite mulrC.
  + by fnorm F; ring.
- by rewrite e1 subrr mulr0 mul1r addr0.
rewrite subrr mulr0 addr0 mul1r e1 e2 e3 s1 mulrA mulVf // mul1r opprB addrC subrK //.
Qed.
Lemma rows_fine k ws A B : rows_good true k ws A B -> at_ (db_l1 d) (k + size ws) = B.2 ->
  (forall i, (i < size ws)%N -> all (fun g => at_row T (place r + (k + i)%N%:Z) g == 0) poly1 /\
     (t_selector T (q_s1 c) (place r + (k + i)%N%:Z) -> looks_good (place r + (k + i)%N%:Z))) /\
  (if ws == [::] then at_ (db_l1 d) k else y_at k) = A.2.
Proof.
elim: ws k A => [|w ws IH] k A /=; first by move=> ->; rewrite addn0.
case=> A' e [[f h1 h2] h3 h4 h5] h6; rewrite -addSnnS in h6; have [h7 h8] := IH _ _ h5 h6.
have [g1 g2 g3] := row_fine e h1 h3 h4 h8 ltac:(by rewrite h2).
split=> // -[_|i hi]; first by rewrite addn0.
by rewrite addnS -addSn; apply: h7.
Qed.

Let yq : expr F := if allow_private c then EAdvice F 0 (db_xp (sc_dbl c)) (-1) else EFixed F 0 (fixed_y_q c) 0.
Let poly4 : expr F := esub (EScaled yq 2%:R) (Y_A F (sc_dbl c) 0).
Definition ok (s : nat) (row : int) : Prop :=
  (s = q_s1 c -> all (fun g => at_row T row g == 0) poly1 /\ (t_selector T (q_s1 c) row -> looks_good row)) /\
  (s = q_s4 c -> at_row T row poly4 = 0).
Definition start_is o (A : F * F) : Prop := at_ (db_xa d) o = A.1 /\
  (if allow_private c then t_cell T Advice (db_xp d) (place r + o%:Z - 1) else t_cell T Fixed (fixed_y_q c) (place r + o%:Z)) = A.2.
Definition start_carries (A : F * F) (t : nat * ecell F * value (assigned F)) : Prop := let: (o, xa, ya) := t in
  [/\ o = (if allow_private c then 1 else 0)%N, carries_v (ec_value xa) A.1, carries_v ya A.2 & ec_cell xa = Cell r o (Advice, db_xa d)].
Lemma public_q_hon (H : Prop) (A : F * F) :
  rhon H (public_q c r (Some A)) [:: (q_s4 c, (if allow_private c then 1 else 0)%N)] (start_carries A) (fun t => start_is t.1.1 A).
Proof.
case: A => x y; rewrite /public_q /start_is /start_carries; case: (allow_private c).
  apply: (rhon_bind (L1 := [:: _]) (L2 := [::]) (V1 := fun=> True) (Q1 := fun=> True)); first exact: rhon_enable.
  move=> _ _; apply: (rhon_bind (L1 := [::]) (L2 := [::]) (V1 := eq (ECell (known (ATrivial y)) (Cell r 0 (Advice, db_xp d)))) (Q1 := fun=> at_ (db_xp d) 0 = y)).
    exact: rhon_e_constant.
  move=> _ <-; apply: (rhon_bind (L1 := [::]) (L2 := [::]) (V1 := eq (ECell (known (ATrivial x)) (Cell r 1 (Advice, db_xa d)))) (Q1 := fun=> at_ (db_xa d) 1 = x)).
    exact: rhon_e_constant.
  move=> _ <-; apply: rhon_ret => /=; first by split=> //; [exists (ATrivial x)|exists (ATrivial y)].
  by move=> [[_ <-] <-]; rewrite addrK addr0.
apply: (rhon_bind (L1 := [:: _]) (L2 := [::]) (V1 := fun=> True) (Q1 := fun=> True)); first exact: rhon_enable.
move=> _ _; apply: (rhon_bind (L1 := [::]) (L2 := [::]) (V1 := fun=> True) (Q1 := fun=> t_cell T Fixed (fixed_y_q c) (place r + 0%N%:Z) = y)).
  exact: rhon_fixed.
move=> _ _; apply: (rhon_bind (L1 := [::]) (L2 := [::]) (V1 := eq (ECell (known (ATrivial x)) (Cell r 0 (Advice, db_xa d)))) (Q1 := fun=> at_ (db_xa d) 0 = x)).
  exact: rhon_e_constant.
move=> _ <-; apply: rhon_ret => /=; first by split=> //; [exists (ATrivial x)|exists (ATrivial y)].
by move=> [[_ <-] <-].
Qed.
Lemma private_q_hon (H : Prop) Q (A : F * F) : allow_private c -> point_is Q (Some A) -> (H -> point_in T place Q (Some A)) ->
  rhon H (private_q c r Q) [:: (q_s4 c, (if allow_private c then 1 else 0)%N)] (start_carries A) (fun t => start_is t.1.1 A).
Proof.
case: A => x y ha [[vx ex dx] [vy ey dy]] hin; rewrite /private_q /start_is /start_carries ha /=; rewrite /= in dx dy.
apply: (rhon_bind (L1 := [:: _]) (L2 := [::]) (V1 := fun=> True) (Q1 := fun=> True)); first exact: rhon_enable.
have e1 z v (w : F) : ec_value z = known v -> denote v = w -> ec_value (ec_of (ec_evaluate z)) = known (ATrivial w) by rewrite /= => -> <-; rewrite -C09_evaluate.
move=> _ _; apply: (rhon_bind (L1 := [::]) (L2 := [::]) (V1 := eq (ECell (known (ATrivial y)) (Cell r 0 (Advice, db_xp d)))) (Q1 := fun=> at_ (db_xp d) 0 = y)).
  by apply: (@rhon_copy_e _ _ _ _ _ _ _ _ _ _ _ _ (e1 _ _ _ ey dy)) => // -[/hin[]].
move=> _ <-; apply: (rhon_bind (L1 := [::]) (L2 := [::]) (V1 := eq (ECell (known (ATrivial x)) (Cell r 1 (Advice, db_xa d)))) (Q1 := fun=> at_ (db_xa d) 1 = x)).
  by apply: (@rhon_copy_e _ _ _ _ _ _ _ _ _ _ _ _ (e1 _ _ _ ex dx)) => // -[[/hin[]]].
move=> _ <-; apply: rhon_ret => /=; first by split=> //; [exists (ATrivial x)|exists (ATrivial y)].
by move=> [[_ <-] <-]; rewrite addrK addr0.
Qed.

Hypothesis sels : q_s1 c != q_s4 c.
Lemma rest_comp (H : Prop) (init : rprog F (nat * ecell F * value (assigned F))) (fin : ecell F -> ecell F -> seq (seq (acell F)) -> rprog F (ecpoint F * seq (seq (acell F)))) ps A B :
  (rhon H init [:: (q_s4 c, (if allow_private c then 1 else 0)%N)] (start_carries A) (fun t => start_is t.1.1 A)) ->
  (forall H x y zss, carries_v (ec_value x) B.1 -> carries_v (ec_value y) B.2 ->
    rhon H (fin x y zss) [::] (eq (ECPoint x y, zss)) (fun=> True)) ->
  (0 < size ps)%N -> known_message ps -> (H -> in_cells ps) -> hash_to_point_spec S A (wordss ps) = Some B ->
  rcomp T place inst r ok H
    (rbindp init (fun t => let: (o, xa, ya) := t in
       rbindp (hash_all_pieces pf K gens c r o ps xa ya) (fun t => let: (xa, ya, zss) := t in fin xa ya zss)))
    (fun t => point_is t.1 (Some B) /\ [seq [seq ac_value a | a <- zs] | zs <- t.2] = [seq [seq known y | y <- ys] | ys <- shiftss ps])
    (fun t => point_in T place t.1 (Some B) /\ [seq [seq cell_value T place (ac_cell a) | a <- zs] | zs <- t.2] = shiftss ps).
Proof.
move=> hi hch n0 hk hc hB; set o := (if allow_private c then 1 else 0)%N.
apply: (rcomp_block (L := [:: (q_s4 c, o)] ++ ([seq (q_s1 c, o + i)%N | i <- iota 0 (total ps)] ++ [::]))
  (Q := fun t => [/\ start_is o A, rows_good true o (wordss ps) A B, at_ (db_l1 d) (o + total ps) = B.2, point_in T place t.1 (Some B) &
     [seq [seq cell_value T place (ac_cell a) | a <- zs] | zs <- t.2] = shiftss ps])).
  apply: rhon_bind; first exact: hi.
  move=> [[o' xa] ya] [-> c1 c2 c3]; apply: rhon_bind.
    by apply: (all_pieces_hon n0 hk _ c1 c2 c3 _ hB); [case=> /hc|move=> [_ []]].
  move=> [[xa' ya'] zss] [d1 d2 d3]; apply: (rhon_keep (Q := eq (ECPoint xa' ya', zss))).
    apply: rhon_weaken (hch _ _ _ zss d1 d2) => //; by move=> _ <-.
  by move=> _ [[_ h1] [h2 h3 h4 h5]] _ <-.
move=> t hH _ [h1 h2 h3 h4 h5]; split=> // s off.
have [g1 g2] := rows_fine h2 ltac:(by rewrite size_wordss).
rewrite mem_cat inE cats0 => /orP[/eqP[-> ->]|/mapP[i]].
  split=> [e|_]; first by move: sels; rewrite e eqxx.
  have g3 : y_at o = A.2.
    move: g2; case: eqP => // e; have := size_wordss ps; rewrite e /=.
    by case: (ps) n0 hk => // q' ps' _ /List.Forall_cons_iff[[h _ _ _] _]; rewrite /total /= => ?; nlia.
  rewrite /poly4 at_sub at_scale Y_A0; have := half two0; rewrite /y_row in g3; move=> hh; rewrite -[X in _ - X]hh g3.
  by case: h1 => _ <-; rewrite /yq; case: (allow_private c); rewrite ?at_adv ?at_fixed ?addr0 subrr.
rewrite mem_iota => /andP[_ hi'] [-> ->]; split=> [_|e]; last by move: sels; rewrite e eqxx.
by apply: g1; rewrite size_wordss.
Qed.
End Region.

Hypothesis sels : q_s1 c != q_s4 c.
Notation facts ps B := (fun t => point_is t.1 (Some B) /\ [seq [seq ac_value a | a <- zs] | zs <- t.2] = [seq [seq known y | y <- ys] | ys <- shiftss ps]).
Notation holds ps B := (fun t => point_in T place t.1 (Some B) /\ [seq [seq cell_value T place (ac_cell a) | a <- zs] | zs <- t.2] = shiftss ps).
Lemma hash_to_point_comp (H : Prop) ps A B : (0 < size ps)%N -> known_message ps -> (H -> in_cells ps) ->
  hash_to_point_spec S A (wordss ps) = Some B -> B.1 != 0 -> B.2 != 0 ->
  lcomp T place inst ok H (hash_to_point pf K gens c (Some A) ps) (facts ps B) (holds ps B).
Proof.
move=> n0 hk hc hB b1 b2; apply: lcomp_region => r; rewrite /hash_message.
apply: (rest_comp sels (public_q_hon r H A) _ n0 hk hc hB).
move=> H' x y zss [vx -> dx] [vy -> dy]; rewrite vE /v_error_if_known_and /= !C09_is_zero dx dy (negbTE b1) (negbTE b2).
by apply: (rhon_bind (L1 := [::]) (L2 := [::]) (V1 := fun=> True) (Q1 := fun=> True)); [exact: rhon_try|move=> _ _; exact: rhon_ret].
Qed.
Lemma hash_to_point_private_comp (H : Prop) Q ps A B : allow_private c -> point_is Q (Some A) -> (H -> point_in T place Q (Some A)) ->
  (0 < size ps)%N -> known_message ps -> (H -> in_cells ps) ->
  hash_to_point_spec S A (wordss ps) = Some B -> B.1 != 0 -> B.2 != 0 ->
  lcomp T place inst ok H (hash_to_point_with_private_init pf K gens c Q ps) (facts ps B) (holds ps B).
Proof.
move=> ha q1 q2 n0 hk hc hB b1 b2; rewrite /hash_to_point_with_private_init ha /=; apply: lcomp_region => r.
rewrite /hash_message_with_private_init ha /=; apply: (rest_comp sels (private_q_hon r ha q1 q2) _ n0 hk hc hB).
move=> H' x y zss [vx -> dx] [vy -> dy]; rewrite /v_error_if_known_and /= !C09_is_zero dx dy (negbTE b1) (negbTE b2).
apply: (rhon_bind (L1 := [::]) (L2 := [::]) (V1 := fun=> True) (Q1 := fun=> True)); first exact: rhon_try.
by move=> _ _; apply: (rhon_bind (L1 := [::]) (L2 := [::]) (V1 := fun=> True) (Q1 := fun=> True)); [exact: rhon_try|move=> _ _; exact: rhon_ret].
Qed.
(* from the rows turned on to the whole table *)
Lemma ok_row row : (t_selector T (q_s1 c) row -> ok (q_s1 c) row) -> (t_selector T (q_s4 c) row -> ok (q_s4 c) row) ->
  row_passes K gens T c row.
Proof.
move=> h1 h4; split.
  rewrite /sins_gates all_cat; apply/andP; split.
    rewrite /init_gate /= andbT at_mul at_sel; case e: (t_selector T (q_s4 c) row); last by rewrite mul0r.
    by have [_ /(_ erefl) ->] := h4 e; rewrite mulr0.
  rewrite /hash_gate /= !at_mul at_sel; case e: (t_selector T (q_s1 c) row); last by rewrite !mul0r eqxx.
  by have [/(_ erefl)[h _] _] := h1 e; rewrite !mul1r; exact: h.
case e: (t_selector T (q_s1 c) row); first by have [/(_ erefl)[_ h] _] := h1 e; apply: h.
exists 0%N; first by rewrite expn_gt0.
rewrite /sins_lookup; case: (nth (0, 0) gens 0) => ix iy.
rewrite /= !(at_sum, at_mul, at_scale, at_sub, at_const, at_sel) e /= !mul0r !add0r.
by rewrite subr0 !mulr1.
Qed.
Lemma on_here_passes regions : lon_ok place ok regions -> sins_on_here K gens T place c regions -> forall row, row_passes K gens T c row.
Proof.
move=> hk ho row.
have key s : s \in [:: q_s1 c; q_s4 c] -> row_passes K gens T c row \/ (t_selector T s row -> ok s row).
  move=> hs; case e: (t_selector T s row); last by right.
  have [h1|] := ho s row hs e; last by left.
  right=> _; move: h1 hk; rewrite /turned_on /lon_ok; elim: (regions) => [|e' l IH] /=; first by move=> /List.Exists_nil.
  by move=> /List.Exists_cons[[off ee ->]|h1] /List.Forall_cons_iff[h2 h3]; [exact: h2|exact: IH].
have [//|k1] := key (q_s1 c) ltac:(by rewrite inE eqxx); have [//|k4] := key (q_s4 c) ltac:(by rewrite !inE eqxx orbT).
exact: ok_row.
Qed.
End Comp.

(* ---------------------------------------------------------------- the theorems *)
Section Theorems.
Variables (F : fieldType) (pf : prime_field F) (p : nat).
Hypothesis pok : prime_field_ok pf p.
Variables (K : nat) (gens : seq (F * F)) (c : sins_config).
Hypothesis two0 : (2%:R : F) != 0.
Hypothesis hK : (0 < K <= 64)%N.
Hypothesis hgens : size gens = (2 ^ K)%N.
Hypothesis sels : q_s1 c != q_s4 c.
Variables (T : table F) (place : nat -> int) (inst : nat -> nat -> value F) (usable : int -> Prop).
Let S := nth (0, 0) gens.

(* a message the prover knows, whose pieces fit *)
Definition good_message (message : seq (piece F)) : Prop :=
  [/\ (0 < size message)%N, all (fun q => (0 < pc_words q) && (pc_words q * K < pf_num_bits pf))%N message,
      List.Forall (piece_known T place) message & all (fun q => (piece_int pf T place q < 2 ^ (K * pc_words q))%N) message].
Lemma good_messageE message : good_message message -> [/\ known_message pf K message, in_cells T place message &
  wordss pf K message = message_words pf K T place message].
Proof.
case=> _ h1 h2 h3; have ev q : piece_known T place q -> cell_value T place (ac_cell (pc_cell q)) = pv q by rewrite /piece_known /pv => ->.
have e : List.Forall (fun q => cell_value T place (ac_cell (pc_cell q)) = pv q) message by apply: List.Forall_impl h2 => q /ev.
split=> //.
  elim: (message) h1 h2 h3 => [|q l IH] /=; first by constructor.
  move=> /andP[/andP[a1 a2] a3] /List.Forall_cons_iff[a4 a5] /andP[a6 a7]; apply: List.Forall_cons; last exact: IH.
  by split=> //; [rewrite -ev|rewrite /pv; move: a6; rewrite /piece_int; move: (a4) => ->].
rewrite /wordss /message_words; congr flatten; elim: (message) e => //= q l IH /List.Forall_cons_iff[<- /IH ->].
by [].
Qed.

Lemma facts_of Q message A P zss : in_cells T place message ->
  [seq [seq cell_value T place (ac_cell a) | a <- zs] | zs <- zss] = shiftss pf K message -> point_in T place P (Some A) ->
  good_message message /\ hash_to_point_spec S Q (message_words pf K T place message) = Some A ->
  hash_facts pf K gens T place Q message P zss.
Proof.
move=> hc e hp [[_ _ _ h1] h2]; split=> // [|A']; last by rewrite h2 => -[<-].
rewrite e /shiftss /piece_int; elim: (message) hc => //= q l IH /List.Forall_cons_iff[-> /IH ->].
by [].
Qed.

(* the honest prover: if the hash is defined, and not a point with a zero coordinate, hashing succeeds, the
   values are those of the hash, and every constraint of the chip holds *)
Theorem C54_hash_to_point_complete r Q message A :
  good_message message -> hash_to_point_spec S Q (message_words pf K T place message) = Some A -> A.1 != 0 -> A.2 != 0 ->
  let prog := hash_to_point pf K gens c (Some Q) message in
  exists P zss r', [/\ lreturns inst r prog = Ok (P, zss, r'), point_is P (Some A) &
    lhonest T place inst r prog -> lselectors_on T place inst r prog -> sins_on_here K gens T place c (lregions inst r prog) ->
    [/\ lrespects T place inst r prog, gates_hold T (sins_gates F c),
        all_generators K gens T c usable -> looked_up T usable (sins_lookup K gens c) (sins_columns c) &
        hash_facts pf K gens T place Q message P zss /\ point_in T place P (Some A)]].
Proof.
move=> hm hA a1 a2 prog; have [k1 k2 k3] := good_messageE hm; have m0 : (0 < size message)%N by case: hm.
rewrite -k3 in hA.
have [[P zss] [r' [e1 [[v1 v2] h1]]]] := @hash_to_point_comp F pf p pok K gens T place inst c two0 hK hgens sels True message Q A m0 k1 (fun=> k2) hA a1 a2 r.
exists P, zss, r'; split=> // g1 g2 g3; have [q1 q2 [q3 q4]] := h1 Logic.I (conj g1 g2).
have hp := on_here_passes q2 g3; split=> // [row|ht row _|]; first by case: (hp row).
  by have [_ [w /ht[row' h2 h3] h4]] := hp row; exists row'; rewrite ?h3.
by split=> //; apply: facts_of k2 q4 q3 _; rewrite -k3.
Qed.
Theorem C54_private_init_complete r Q B message A : allow_private c -> point_is Q (Some B) -> point_in T place Q (Some B) ->
  good_message message -> hash_to_point_spec S B (message_words pf K T place message) = Some A -> A.1 != 0 -> A.2 != 0 ->
  let prog := hash_to_point_with_private_init pf K gens c Q message in
  exists P zss r', [/\ lreturns inst r prog = Ok (P, zss, r'), point_is P (Some A) &
    lhonest T place inst r prog -> lselectors_on T place inst r prog -> sins_on_here K gens T place c (lregions inst r prog) ->
    [/\ lrespects T place inst r prog, gates_hold T (sins_gates F c),
        all_generators K gens T c usable -> looked_up T usable (sins_lookup K gens c) (sins_columns c) &
        hash_facts pf K gens T place B message P zss /\ point_in T place P (Some A)]].
Proof.
move=> ha qv qc hm hA a1 a2 prog; have [k1 k2 k3] := good_messageE hm; have m0 : (0 < size message)%N by case: hm.
rewrite -k3 in hA.
have [[P zss] [r' [e1 [[v1 v2] h1]]]] := @hash_to_point_private_comp F pf p pok K gens T place inst c two0 hK hgens sels
  True Q message B A ha qv (fun=> qc) m0 k1 (fun=> k2) hA a1 a2 r.
exists P, zss, r'; split=> // g1 g2 g3; have [q1 q2 [q3 q4]] := h1 Logic.I (conj g1 g2).
have hp := on_here_passes q2 g3; split=> // [row|ht row _|]; first by case: (hp row).
  by have [_ [w /ht[row' h2 h3] h4]] := hp row; exists row'; rewrite ?h3.
by split=> //; apply: facts_of k2 q4 q3 _; rewrite -k3.
Qed.
End Theorems.
Print Assumptions C54_hash_to_point_complete.
Print Assumptions C54_private_init_complete.

