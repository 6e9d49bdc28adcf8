(* C55: the honest prover of the Merkle gadget. *)
Set Warnings "-notation-overridden,-ambiguous-paths".
From mathcomp Require Import all_ssreflect all_algebra.
From Verif Require Import Util FieldTac M_Env M_Assigned P_Assigned M_Circuit S_Circuit M_Selectors M_Value P_Value M_Region S_Region M_Layout S_Layout
  M_Utilities P_Bits L_Region L_Gadget P_RangeCheck P_CondSwap M_Ecc S_Curve P_Ecc M_EccMul M_Sinsemilla S_Sinsemilla L_Sinsemilla P_Sinsemilla
  P_SinsemillaComplete M_Merkle S_Merkle P_Merkle.
Import GRing.Theory.
Set Implicit Arguments.
Unset Strict Implicit.
Local Open Scope ring_scope.

(* ---------------------------------------------------------------- which selectors a program turns on *)
Section Enables.
Variables (F : fieldType) (inst : nat -> nat -> value F) (E : seq nat).
Definition renables {A : Type} (p : rprog F A) : Prop := forall s off, enabled_in (calls inst p) s off -> s \in E.
Lemma renables_ret (A : Type) (a : A) : renables (RRet F a). Proof. by []. Qed.
Lemma renables_panic (A : Type) : renables (@RPanic F A). Proof. by []. Qed.
Lemma renables_bind (A C : Type) (p : rprog F A) (f : A -> rprog F C) :
  renables p -> (forall a, renables (f a)) -> renables (rbindp p f).
Proof.
move=> h1 h2 s off; move: h1; elim: p => [a|e||s' o k IH|? ? ? k IH|? ? ? k IH|? ? ? ? k IH|? ? k IH|? ? ? k IH|? ? k IH|? ? k IH] h1 //=;
  try exact: IH; try (by apply: IH => ? ?; apply: h1); first exact: h2.
move=> /orP[e|h]; first by apply: (h1 s off); rewrite /= e.
by apply: IH h => s'' off'' h''; apply: (h1 s'' off''); rewrite /= h'' orbT.
Qed.
Lemma renables_enable s o : s \in E -> renables (enable_selector s o).
Proof. by move=> hs s' off /=; rewrite orbF => /andP[/eqP <-]. Qed.
Lemma renables_rows s o n : s \in E -> renables (enable_rows F s o n).
Proof.
move=> hs s' off; rewrite /enable_rows; elim: (iota 0 n) => //= i l IH /orP[/andP[/eqP <-]//|]; exact: IH.
Qed.
Lemma renables_RAdvice (A : Type) c o v (k : rprog F A) : renables k -> renables (RAdvice c o v k). Proof. by []. Qed.
Lemma renables_map (I A : Type) (f : I -> rprog F A) l : (forall i, renables (f i)) -> renables (rmap f l).
Proof. by move=> h; elim: l => [|i l IH]; [exact: renables_ret|do 2 (apply: renables_bind => [//|?])]. Qed.

Lemma hash_enables pf K gens c r Q ps : q_s1 c \in E -> q_s4 c \in E -> renables (hash_message pf K gens c r (Some Q) ps).
Proof.
move=> h1 h4; rewrite /hash_message.
have base (A : Type) (q : rprog F A) : calls inst q = [::] -> renables q by move=> e s off; rewrite e.
have copy a col o : renables (copy_advice r a col o) by [].
have fixed col o v : renables (assign_fixed r col o v) by [].
have adv col o v : renables (assign_advice r col o v) by [].
have adve col o v : renables (assign_e r col o v) by [].
apply: renables_bind => [|[[o xa] ya]].
  case: Q => x y; rewrite /public_q; case: ifP => _.
    by apply: renables_bind => [|_]; [exact: renables_enable|].
  by apply: renables_bind => [|_]; [exact: renables_enable|].
apply: renables_bind => [|[[xa' ya'] zss]]; last first.
  apply: renables_bind => [|_ //]; rewrite /v_error_if_known_and; case: (inner _) => [t|//]; case: ifP => //.
rewrite /hash_all_pieces; apply: renables_bind => [|[[[o' xa'] ya'] zss] //].
elim: ps o xa ya => [//|q ps IH] o xa ya /=; apply: renables_bind => [|[[xa' ya'] zs]].
  rewrite /hash_piece; apply: renables_bind => [|_].
    rewrite /piece_selectors; case: ifP => // _; apply: renables_bind => [|_]; first exact: renables_rows.
    apply: renables_bind => [|_ //]; elim: (_ - 1)%N (o) => [//|n IHn o'] s off /=; exact: IHn.
  case: (map_transpose _ _ _) => [ws|//]; case: (map_transpose _ _ _) => [gs|//].
  apply: renables_bind => [//|z0]; apply: renables_bind => [|zs].
    move: (take _ ws) (_^-1) (ac_value _) => us inv v; elim: us 0%N v => [//|wd l IHl] i v /=.
    by apply: renables_RAdvice; apply: renables_bind => [|//]; exact: IHl.
  apply: renables_bind => [|//]; move: 0%N => i; elim: gs i xa ya => [//|g gs IHg] i xa ya /=.
  by do 4 apply: renables_RAdvice; exact: IHg.
apply: renables_bind => [|//]; exact: IH.
Qed.
End Enables.

(* a region that turns on no selectors but those in E *)
Lemma lcomp_region_in (F : fieldType) (T : table F) place inst (ok ok' : nat -> int -> Prop) (E : seq nat) (H : Prop) (A : Type)
    (body : nat -> rprog F A) (V Q : A -> Prop) :
  lcomp T place inst ok H (assign_region body) V Q -> (forall r, renables inst E (body r)) ->
  (forall s row, s \in E -> ok s row -> ok' s row) -> lcomp T place inst ok' H (assign_region body) V Q.
Proof.
move=> hc he ho r; have [a [r' [e1 [v h]]]] := hc r; exists a, r'; split=> //; split=> // hH hon.
have [h1 h2 h3] := h hH hon; split=> //; move: h2; rewrite /lon_ok /= => /List.Forall_cons_iff[k1 _].
apply: List.Forall_cons; last by case: (returns _ _).
by move=> s off hs; apply: ho; [exact: he hs|exact: k1].
Qed.

(* ---------------------------------------------------------------- one chip *)
Section Chip.
Variables (F : fieldType) (pf : prime_field F) (p : nat).
Hypothesis pok : prime_field_ok pf p.
Variables (K : nat) (gens : seq (F * F)) (max_words s w : nat).
Hypothesis eK : K = (2 * s)%N.
Hypothesis hn : pf_num_bits pf = (K * w.+1 + s)%N.
Hypothesis hp : (2 ^ K * 2 ^ K <= p)%N.
Hypothesis s0 : (0 < s)%N.
Hypothesis hK : (K + s < 64)%N.
Hypothesis hmax : (2 * w + 4 < max_words)%N.
Hypothesis hgens : size gens = (2 ^ K)%N.
Hypothesis two0 : (2%:R : F) != 0.
Variables (T : table F) (place : nat -> int) (inst : nat -> nat -> value F) (c : merkle_config).
Notation n := (pf_num_bits pf).
Notation S := (nth (0, 0) gens).
Notation at_ a := (cell_value T place (ac_cell a)).
Hypothesis sels : uniq (merkle_sels c).

(* where selector q of the chip is on *)
Definition own (q : nat) (row : int) : Prop :=
  [/\ P_SinsemillaComplete.ok K gens T (mc_sins c) q row,
      q = q_decompose c -> all (fun g => at_row T row g == 0) (decompose_gate F K s w c),
      q = q_swap (mc_swap c) -> all (fun g => at_row T row g == 0) (swap_gates F (mc_swap c)),
      q = q_lookup (mc_lookup c) -> word K (t_cell T Advice (running_sum (mc_lookup c)) row) &
      q <> q_running (mc_lookup c) /\ (q = q_bitshift (mc_lookup c) -> at_row T row (lrc_gate F (mc_lookup c) K) = 0)].
Definition okc (q : nat) (row : int) : Prop := q \in merkle_sels c /\ own q row.
Notation lcomp := (lcomp T place inst okc).

Lemma sels_distinct i j : (i < 7)%N -> (j < 7)%N -> nth 0%N (merkle_sels c) i = nth 0%N (merkle_sels c) j -> i = j.
Proof. by move=> hi hj /eqP; rewrite nth_uniq // => /eqP. Qed.

Lemma okc_short row : word K (t_cell T Advice (running_sum (mc_lookup c)) row) -> okc (q_lookup (mc_lookup c)) row.
Proof.
have d := sels_distinct; move=> h; split; first by rewrite /merkle_sels !inE eqxx !orbT.
split=> //; last split.
- by split=> e; [have := d 4%N 0%N isT isT e|have := d 4%N 1%N isT isT e].
- by move=> e; have := d 4%N 2%N isT isT e.
- by move=> e; have := d 4%N 3%N isT isT e.
- by move=> e; have := d 4%N 5%N isT isT e.
- by move=> e; have := d 4%N 6%N isT isT e.
Qed.
Lemma okc_bitshift row : at_row T row (lrc_gate F (mc_lookup c) K) = 0 -> okc (q_bitshift (mc_lookup c)) row.
Proof.
have d := sels_distinct; move=> h; split; first by rewrite /merkle_sels !inE eqxx !orbT.
split=> //; last split=> //.
- by split=> e; [have := d 6%N 0%N isT isT e|have := d 6%N 1%N isT isT e].
- by move=> e; have := d 6%N 2%N isT isT e.
- by move=> e; have := d 6%N 3%N isT isT e.
- by move=> e; have := d 6%N 4%N isT isT e.
- by move=> e; have := d 6%N 5%N isT isT e.
Qed.
Lemma okc_swap row : all (fun g => at_row T row g == 0) (swap_gates F (mc_swap c)) -> okc (q_swap (mc_swap c)) row.
Proof.
have d := sels_distinct; move=> h; split; first by rewrite /merkle_sels !inE eqxx !orbT.
split=> //; last split.
- by split=> e; [have := d 3%N 0%N isT isT e|have := d 3%N 1%N isT isT e].
- by move=> e; have := d 3%N 2%N isT isT e.
- by move=> e; have := d 3%N 4%N isT isT e.
- by move=> e; have := d 3%N 5%N isT isT e.
- by move=> e; have := d 3%N 6%N isT isT e.
Qed.
Lemma okc_decompose row : all (fun g => at_row T row g == 0) (decompose_gate F K s w c) -> okc (q_decompose c) row.
Proof.
have d := sels_distinct; move=> h; split; first by rewrite /merkle_sels !inE eqxx !orbT.
split=> //; last split.
- by split=> e; [have := d 2%N 0%N isT isT e|have := d 2%N 1%N isT isT e].
- by move=> e; have := d 2%N 3%N isT isT e.
- by move=> e; have := d 2%N 4%N isT isT e.
- by move=> e; have := d 2%N 5%N isT isT e.
- by move=> e; have := d 2%N 6%N isT isT e.
Qed.
Lemma okc_sins q row : q \in [:: q_s1 (mc_sins c); q_s4 (mc_sins c)] -> P_SinsemillaComplete.ok K gens T (mc_sins c) q row -> okc q row.
Proof.
have d := sels_distinct; rewrite !inE => hq h; split; first by rewrite /merkle_sels !inE; case/orP: hq => ->; rewrite ?orbT.
split=> //; last split; move=> e; subst q; case/orP: hq => /eqP e.
- by have := d 2%N 0%N isT isT e.
- by have := d 2%N 1%N isT isT e.
- by have := d 3%N 0%N isT isT e.
- by have := d 3%N 1%N isT isT e.
- by have := d 4%N 0%N isT isT e.
- by have := d 4%N 1%N isT isT e.
- by have := d 5%N 0%N isT isT e.
- by have := d 5%N 1%N isT isT e.
- by have := d 6%N 0%N isT isT e.
- by have := d 6%N 1%N isT isT e.
Qed.

(* what the prover knows of a cell: its value; and the table holds it *)
Notation lcompv p x := (lcomp _ p (fun a => ac_value a = known x) (fun a => at_ a = x)).

Definition slice (x : F) (a b : nat) : nat := ((pf_val pf x %/ 2 ^ a) %% 2 ^ (b - a))%N.
Lemma bitrange_known x a b : (a <= b <= n)%N -> bitrange_of pf (known x) a b = Some (known (slice x a b)%:R, (b - a)%N).
Proof. by move=> h; rewrite /bitrange_of /= (C48_bitrange_subset pok). Qed.
Lemma slice_lt x a b : (slice x a b < 2 ^ (b - a))%N. Proof. by rewrite ltn_mod expn_gt0. Qed.

Lemma short_comp (H : Prop) x a b : (a <= b <= n)%N -> (b - a < K)%N ->
  lcomp H (witness_short pf K (mc_lookup c) (known x) a b)
    (fun t => ac_value t.1 = known (slice x a b)%:R /\ t.2 = (b - a)%N) (fun t => at_ t.1 = (slice x a b)%:R).
Proof.
move=> hab hk; rewrite /witness_short; case: ifP => [|_]; first by rewrite hk.
rewrite bitrange_known //; set y := slice x a b; set nb := (b - a)%N.
have hy : (y < 2 ^ nb)%N by exact: slice_lt.
have pn m : (2 ^ m)%N%:R != 0 :> F by rewrite natrX expf_neq0.
have hKn : (2 ^ nb * 2 ^ (K - nb) = 2 ^ K)%N by rewrite -expnD subnKC // ltnW.
apply: (lcomp_bind (V1 := fun a => ac_value a = known y%:R) (Q1 := fun a => at_ a = y%:R)); last first.
  by move=> a' h; apply: lcomp_ret => // -[].
apply: lcomp_region => r; rewrite /lrc_witness_short_check; case: ifP => [|_]; first by rewrite (ltnW hk).
pose A o := t_cell T Advice (running_sum (mc_lookup c)) (place r + o%N%:Z).
apply: (@rcomp_block _ _ _ _ _ _ _ _ _ (([::] : seq (nat * nat)) ++ ([:: (q_lookup (mc_lookup c), 0%N); (q_lookup (mc_lookup c), 1%N); (q_bitshift (mc_lookup c), 1%N)] ++ [::])) (fun a => ac_value a = known y%:R)
  (fun a => [/\ ac_cell a = Cell r 0%N (Advice, running_sum (mc_lookup c)), A 0%N = y%:R, A 1%N = (y * 2 ^ (K - nb))%N%:R & A 2%N = (2 ^ nb)%N%:R^-1])).
  apply: (rhon_bind (V1 := eq (ACell (known y%:R) (Cell r 0%N (Advice, running_sum (mc_lookup c))))) (Q1 := fun=> A 0%N = y%:R)).
    exact: rhon_advice.
  move=> _ <-; apply: (rhon_bind (V1 := fun=> True) (Q1 := fun=> A 1%N = (y * 2 ^ (K - nb))%N%:R /\ A 2%N = (2 ^ nb)%N%:R^-1)); last first.
    by move=> _ _; apply: rhon_ret => // -[[_ h0] [h1 h2]].
  rewrite /lrc_short_range_check.
  apply: (rhon_bind (L1 := [:: (q_lookup (mc_lookup c), 0%N)]) (V1 := fun=> True) (Q1 := fun=> True)); first exact: rhon_enable.
  move=> _ _; apply: (rhon_bind (L1 := [:: (q_lookup (mc_lookup c), 1%N)]) (V1 := fun=> True) (Q1 := fun=> True)); first exact: rhon_enable.
  move=> _ _; apply: (rhon_bind (L1 := [:: (q_bitshift (mc_lookup c), 1%N)]) (L2 := [::]) (V1 := fun=> True) (Q1 := fun=> True)); first exact: rhon_enable.
  move=> _ _; case: ifP => [|_]; first by rewrite ltnNge (ltnW hk).
  apply: (rhon_bind (L1 := [::]) (L2 := [::]) (V1 := fun=> True) (Q1 := fun=> A 1%N = (y * 2 ^ (K - nb))%N%:R)).
    exists (ACell (known (y%:R * (2 ^ (K - nb))%N%:R)) (Cell r 1 (Advice, running_sum (mc_lookup c)))) => //; split=> // h [/honest_cons[hv _] _].
    by split; [exact: respects_one|rewrite natrM; exact: hv _ erefl].
  move=> _ _; rewrite (negbTE (pn nb)).
  apply: (rhon_bind (L1 := [::]) (L2 := [::]) (V1 := fun=> True) (Q1 := fun=> A 2%N = (2 ^ nb)%N%:R^-1)).
    exact: rhon_advice_constant.
  by move=> _ _; apply: rhon_ret => // -[[_ h1] h2].
move=> a' _ ev [ec e0 e1 e2]; split; last by rewrite /cell_value ec /=; exact: e0.
have le : (2 ^ nb <= 2 ^ K)%N by rewrite leq_exp2l // ltnW.
move=> q off; rewrite cats0 cat0s !inE => /or3P[] /eqP[-> ->].
- by apply: okc_short; exists y; [exact: leq_trans le|exact: e0].
- by apply: okc_short; exists (y * 2 ^ (K - nb))%N; [rewrite -hKn ltn_pmul2r ?expn_gt0|exact: e1].
apply: okc_bitshift; rewrite /lrc_gate !rowE.
have -> : place r + 1%N%:Z - 1 = place r + 0%N%:Z by rewrite addrK addr0.
have -> : place r + 1%N%:Z + 1 = place r + 2%N%:Z by rewrite -addrA.
rewrite addr0 -!/(A _) e0 e1 e2 -hKn !natrM.
by rewrite -(mulrA (2 ^ nb)%N%:R) [(2 ^ nb)%N%:R * _]mulrC mulfK // [y%:R * _]mulrC subrr mulr0.
Qed.

Lemma swap_comp (H : Prop) node x y (b : bool) : ac_value node = known x -> (H -> at_ node = x) ->
  lcomp H (merkle_swap c node (known y) (known b))
    (fun t => ac_value t.1 = known (if b then y else x) /\ ac_value t.2 = known (if b then x else y))
    (fun t => at_ t.1 = (if b then y else x) /\ at_ t.2 = (if b then x else y)).
Proof.
move=> ev hv; apply: lcomp_region => r; rewrite /swap_region; set m := mc_swap c.
pose A col := t_cell T Advice col (place r + 0%N%:Z).
apply: (@rcomp_block _ _ _ _ _ _ _ _ _ ([:: (q_swap m, 0%N)] ++ [::])
  (fun t => ac_value t.1 = known (if b then y else x) /\ ac_value t.2 = known (if b then x else y))
  (fun t => (ac_cell t.1 = Cell r 0%N (Advice, a_swapped m) /\ ac_cell t.2 = Cell r 0%N (Advice, b_swapped m)) /\ [/\ t_selector T (q_swap m) (place r + 0%N%:Z), A (sw_a m) = x /\ A (sw_b m) = y, A (sw_swap m) = (nat_of_bool b)%:R, A (a_swapped m) = (if b then y else x) & A (b_swapped m) = (if b then x else y)])).
  apply: (rhon_bind (V1 := fun=> True) (Q1 := fun=> t_selector T (q_swap m) (place r + 0%N%:Z))); first exact: rhon_enable.
  move=> _ _; apply: (rhon_bind (L1 := [::]) (L2 := [::]) (V1 := eq (ACell (known x) (Cell r 0%N (Advice, sw_a m)))) (Q1 := fun=> A (sw_a m) = x)).
    by apply: (rhon_copy _ ev) => // -[/hv].
  move=> _ <-; apply: (rhon_bind (L1 := [::]) (L2 := [::]) (V1 := eq (ACell (known y) (Cell r 0%N (Advice, sw_b m)))) (Q1 := fun=> A (sw_b m) = y)).
    exact: rhon_advice.
  move=> _ <-; apply: (rhon_bind (L1 := [::]) (L2 := [::]) (V1 := fun=> True) (Q1 := fun=> A (sw_swap m) = (nat_of_bool b)%:R)).
    exact: rhon_advice.
  move=> _ _; apply: (rhon_bind (L1 := [::]) (L2 := [::]) (V1 := eq (ACell (known (if b then y else x)) (Cell r 0%N (Advice, a_swapped m)))) (Q1 := fun=> A (a_swapped m) = (if b then y else x))).
    exact: rhon_advice.
  move=> _ <-; apply: (rhon_bind (L1 := [::]) (L2 := [::]) (V1 := eq (ACell (known (if b then x else y)) (Cell r 0%N (Advice, b_swapped m)))) (Q1 := fun=> A (b_swapped m) = (if b then x else y))).
    exact: rhon_advice.
  by move=> _ <-; apply: rhon_ret => // -[[[[[[_ h1] h2] h3] h4] h5] h6].
move=> t _ _ [[c1 c2] [h1 [h2 h3] h4 h5 h6]]; split; last by rewrite /cell_value c1 c2; split; [exact: h5|exact: h6].
move=> q off; rewrite cats0 inE => /eqP[-> ->]; apply: okc_swap; apply/(swap_gatesE h1).
rewrite -!/(A _) h2 h3 h4 h5 h6; case: (b); [right|left]; by [].
Qed.

(* the values of the cells of the last region *)
Lemma decompose_comp (H : Prop) l a b c' left right z1a z1b b1 b2 xa xb xc xl xr xza xzb x1 x2 r :
  let knows a x := ac_value a = known x /\ (H -> at_ a = x) in
  [/\ knows a xa, knows b xb & knows c' xc] -> [/\ knows left xl, knows right xr & knows z1a xza] -> [/\ knows z1b xzb, knows b1 x1 & knows b2 x2] ->
  [/\ xa = l%:R + (2 ^ K)%N%:R * xza,
      xl = xza + (2 ^ (K * w))%N%:R * (xb - (2 ^ K)%N%:R * xzb + (2 ^ K)%N%:R * x1),
      xr = x2 + (2 ^ s)%N%:R * xc & xzb = x1 + (2 ^ s)%N%:R * x2] ->
  rcomp T place inst r okc H (decompose_region c l a b c' left right z1a z1b b1 b2 r) (fun=> True) (fun=> True).
Proof.
move=> knows [[va ha] [vb hb] [vc hc]] [[vl hl] [vr hr] [vza hza]] [[vzb hzb] [v1 h1] [v2 h2]] [e1 e2 e3 e4].
rewrite /decompose_region.
pose A i o := t_cell T Advice (mc_adv c i) (place r + o%N%:Z).
apply: (@rcomp_block _ _ _ _ _ _ _ _ _ ([:: (q_decompose c, 0%N)] ++ [::]) (fun=> True)
  (fun t => [/\ A 4%N 1%N = l%:R, [/\ A 0%N 0%N = xa, A 1%N 0%N = xb & A 2%N 0%N = xc], [/\ A 3%N 0%N = xl, A 4%N 0%N = xr & A 0%N 1%N = xza] &
      [/\ A 1%N 1%N = xzb, A 2%N 1%N = x1 & A 3%N 1%N = x2]])).
  apply: (rhon_bind (V1 := fun=> True) (Q1 := fun=> True)); first exact: rhon_enable.
  move=> _ _; apply: (rhon_bind (L1 := [::]) (L2 := [::]) (V1 := fun=> True) (Q1 := fun=> A 4%N 1%N = l%:R)); first exact: rhon_advice_constant.
  move=> _ _; apply: (rhon_bind (L1 := [::]) (L2 := [::]) (V1 := fun=> True) (Q1 := fun=> A 0%N 0%N = xa)); first by apply: (rhon_copy _ va) => // h; apply: ha; tauto.
  move=> _ _; apply: (rhon_bind (L1 := [::]) (L2 := [::]) (V1 := fun=> True) (Q1 := fun=> A 1%N 0%N = xb)); first by apply: (rhon_copy _ vb) => // h; apply: hb; tauto.
  move=> _ _; apply: (rhon_bind (L1 := [::]) (L2 := [::]) (V1 := fun=> True) (Q1 := fun=> A 2%N 0%N = xc)); first by apply: (rhon_copy _ vc) => // h; apply: hc; tauto.
  move=> _ _; apply: (rhon_bind (L1 := [::]) (L2 := [::]) (V1 := fun=> True) (Q1 := fun=> A 3%N 0%N = xl)); first by apply: (rhon_copy _ vl) => // h; apply: hl; tauto.
  move=> _ _; apply: (rhon_bind (L1 := [::]) (L2 := [::]) (V1 := fun=> True) (Q1 := fun=> A 4%N 0%N = xr)); first by apply: (rhon_copy _ vr) => // h; apply: hr; tauto.
  move=> _ _; apply: (rhon_bind (L1 := [::]) (L2 := [::]) (V1 := fun=> True) (Q1 := fun=> A 0%N 1%N = xza)); first by apply: (rhon_copy _ vza) => // h; apply: hza; tauto.
  move=> _ _; apply: (rhon_bind (L1 := [::]) (L2 := [::]) (V1 := fun=> True) (Q1 := fun=> A 1%N 1%N = xzb)); first by apply: (rhon_copy _ vzb) => // h; apply: hzb; tauto.
  move=> _ _; apply: (rhon_bind (L1 := [::]) (L2 := [::]) (V1 := fun=> True) (Q1 := fun=> A 2%N 1%N = x1)); first by apply: (rhon_copy _ v1) => // h; apply: h1; tauto.
  move=> _ _; apply: (rhon_bind (L1 := [::]) (L2 := [::]) (V1 := fun=> True) (Q1 := fun=> A 3%N 1%N = x2)); first by apply: (rhon_copy _ v2) => // h; apply: h2; tauto.
  by move=> _ _; apply: rhon_ret => // h; split; try split; tauto.
move=> t _ _ [g1 [g2 g3 g4] [g5 g6 g7] [g8 g9 g10]]; split=> // q off; rewrite cats0 inE => /eqP[-> ->]; apply: okc_decompose.
have r01 : place r + 0%N%:Z + 1 = place r + 1%N%:Z by rewrite addr0.
have two_s : (2 ^ s)%N%:R * (2 ^ s)%N%:R = (2 ^ K)%N%:R :> F by rewrite -natrM -expnD eK mul2n addnn.
rewrite /decompose_gate two_s; cbn [map all].
rewrite !rowE r01 (addr0 (place r + 0%N%:Z)) -!/(A _ _) g1 g2 g3 g4 g5 g6 g7 g8 g9 g10.
apply/and5P; split=> //; rewrite mulf_eq0; apply/orP; right; rewrite subr_eq0; apply/eqP.
- by rewrite e1 addrK.
- by rewrite e2.
- by rewrite e3.
- exact: e4.
Qed.

Lemma piece_comp (H : Prop) (x : F) nw : (nw * K < n)%N ->
  lcomp H (witness_message_piece pf K (mc_sins c) (known x) nw)
    (fun q => pc_words q = nw /\ ac_value (pc_cell q) = known x) (fun q => at_ (pc_cell q) = x).
Proof.
move=> h; rewrite /witness_message_piece.
apply: (lcomp_bind (V1 := fun a => ac_value a = known x) (Q1 := fun a => at_ a = x)).
  apply: lcomp_region => r.
  apply: (@rcomp_block _ _ _ _ _ _ _ _ _ [::] (fun a => ac_value a = known x) (fun a => at_ a = x)) => //.
  exact: rhon_advice.
by move=> a va; rewrite /piece_new h; apply: lcomp_ret => // -[].
Qed.

Lemma K0 : (0 < K)%N. Proof. by rewrite eK muln_gt0. Qed.
Lemma from1 sc x0 n0 nw : n0 = (nw * K)%N ->
  from_subpieces pf K sc [:: (known x0, n0)] = witness_message_piece pf K sc (known x0) nw.
Proof.
move=> e; have k0 := K0; rewrite /from_subpieces /= add0n e modnMl /= mulnK //.
by rewrite -[K == 0%N]leqn0 leqNgt k0 /= /v_op2 /= expn0 mul1r add0r.
Qed.
Lemma from2 sc x0 n0 x1 n1 nw : (n0 < 64)%N -> (n0 + n1 = nw * K)%N ->
  from_subpieces pf K sc [:: (known x0, n0); (known x1, n1)] = witness_message_piece pf K sc (known (x0 + (2 ^ n0)%N%:R * x1)) nw.
Proof.
move=> h0 e; have k0 := K0; rewrite /from_subpieces /= add0n h0 /= e modnMl /= mulnK //.
by rewrite -[K == 0%N]leqn0 leqNgt k0 /= /v_op2 /= expn0 mul1r add0r.
Qed.
Lemma from3 sc x0 n0 x1 n1 x2 n2 nw : (n0 + n1 < 64)%N -> (n0 + n1 + n2 = nw * K)%N ->
  from_subpieces pf K sc [:: (known x0, n0); (known x1, n1); (known x2, n2)] =
  witness_message_piece pf K sc (known (x0 + (2 ^ n0)%N%:R * x1 + (2 ^ (n0 + n1))%N%:R * x2)) nw.
Proof.
move=> h1 e; have k0 := K0; have h0 : (n0 < 64)%N by exact: leq_ltn_trans (leq_addr _ _) h1.
rewrite /from_subpieces /= add0n h0 /= h1 /= e modnMl /= mulnK //.
by rewrite -[K == 0%N]leqn0 leqNgt k0 /= /v_op2 /= expn0 mul1r add0r.
Qed.
Lemma get_shift (zs : seq (acell F)) m x : (1 < m)%N -> [seq ac_value a | a <- zs] = [seq known y | y <- shifts pf K m x] ->
  exists z, [/\ get zs 1 = Some z, ac_value z = known (pf_val pf x %/ 2 ^ K)%N%:R &
    [seq at_ a | a <- zs] = shifts pf K m x -> at_ z = (pf_val pf x %/ 2 ^ K)%N%:R].
Proof.
case: m => [|[|m]] // _; case: zs => [|z0 [|z1 zs]] //= [_ e _]; exists z1; split=> //; first by rewrite e muln1.
by move=> [_ -> _]; rewrite muln1.
Qed.

Lemma layer_comp (H : Prop) Q l left right x y d : (l < 2 ^ K)%N -> (0 < w)%N ->
  ac_value left = known x -> (H -> at_ left = x) -> ac_value right = known y -> (H -> at_ right = y) ->
  parent_of S Q K n l (pf_val pf x) (pf_val pf y) = Some d ->
  lcomp H (hash_layer pf K gens max_words s w c (Some Q) l left right) (fun h => ac_value h = known d) (fun h => at_ h = d).
Proof.
move=> hl w0 vx hx vy hy hd; rewrite /hash_layer vx vy.
have k0 := K0.
have hP : (2 ^ K <= p)%N by apply: leq_trans hp; rewrite leq_pmull ?expn_gt0.
have l1 : (K <= n)%N by rewrite hn mulnS -addnA leq_addr.
have l2 : (K * w <= K * w.+1)%N by rewrite leq_mul2l leqnSn orbT.
have l3 : (K * w.+1 <= n)%N by rewrite hn leq_addr.
have l4 : (s <= n)%N by rewrite hn leq_addl.
rewrite !bitrange_known ?leqnn ?l1 ?l2 ?l3 ?l4 ?(leq_trans l2 l3) //.
have -> : slice l%:R 0 K = l by rewrite /slice expn0 divn1 subn0 (val_natr pok) ?modn_small //; exact: leq_trans hP.
rewrite !subn0; lazy iota beta.
set u := pf_val pf x; set v := pf_val pf y.
set a1 := slice x 0 (K * w); set b0 := slice x (K * w) (K * w.+1); set b1 := slice x (K * w.+1) n.
set b2 := slice y 0 s; set c0 := slice y s n.
have d1 : (K * w.+1 - K * w = K)%N by rewrite mulnS addnK.
have d2 : (n - K * w.+1 = s)%N by rewrite hn addKn.
have d3 : (n - s = w.+1 * K)%N by rewrite hn addnK mulnC.
have sp : (s < K)%N by rewrite eK mul2n -addnn -[X in (X < _)%N]addn0 ltn_add2l.
rewrite d1 d3 (@from2 _ _ _ _ _ w.+1); [|exact: leq_ltn_trans (leq_addr _ _) hK|by rewrite mulSn [(K * w)%N]mulnC].
pose A := (l + 2 ^ K * a1)%N; have -> : l%:R + (2 ^ K)%N%:R * a1%:R = A%:R :> F by rewrite natrD natrM.
have lw : (w.+1 * K < n)%N by rewrite hn mulnC -[X in (X < _)%N]addn0 ltn_add2l.
apply: (lcomp_bind (V1 := fun q => pc_words q = w.+1 /\ ac_value (pc_cell q) = known A%:R) (Q1 := fun q => at_ (pc_cell q) = A%:R)).
  exact: piece_comp.
move=> qa [wa va].
apply: (lcomp_bind (short_comp _ _ _ _)); rewrite ?leqnn ?l3 // ?d2 //.
move=> [B1 nb1] [vb1 nb1E]; cbn [fst snd] in vb1, nb1E; subst nb1.
apply: (lcomp_bind (short_comp _ _ _ _)); rewrite ?subn0 //.
move=> [B2 nb2] [vb2 nb2E]; cbn [fst snd] in vb2, nb2E; subst nb2; rewrite ?subn0.
cbn [fst snd]; rewrite vb1 vb2 -/b1 -/b2.
rewrite (@from3 _ _ _ _ _ _ _ 2); [|exact: hK|by rewrite -addnA addnn -[(s.*2)%N]mul2n -eK mul2n addnn].
pose B := (b0 + 2 ^ K * b1 + 2 ^ (K + s) * b2)%N.
have -> : b0%:R + (2 ^ K)%N%:R * b1%:R + (2 ^ (K + s))%N%:R * b2%:R = B%:R :> F by rewrite !natrD !natrM.
have l2w : (2 * K < n)%N by rewrite hn mulnC; apply: leq_ltn_trans (_ : K * w.+1 < _)%N; [rewrite leq_mul2l ltnS w0 orbT|rewrite -[X in (X < _)%N]addn0 ltn_add2l].
apply: (lcomp_bind (V1 := fun q => pc_words q = 2%N /\ ac_value (pc_cell q) = known B%:R) (Q1 := fun q => at_ (pc_cell q) = B%:R)).
  exact: piece_comp.
move=> qb [wb vb]; rewrite (@from1 _ _ _ w.+1) //.
apply: (lcomp_bind (V1 := fun q => pc_words q = w.+1 /\ ac_value (pc_cell q) = known c0%:R) (Q1 := fun q => at_ (pc_cell q) = c0%:R)).
  exact: piece_comp.
move=> qc [wc vc]; rewrite /message_from.
case: ifP => [_|]; last by rewrite /= wa wb wc addn0 => /negbT/negP[]; nlia.
(* the numbers *)
have hb1 : (b1 < 2 ^ s)%N by rewrite -[s in (2 ^ s)%N]d2 slice_lt.
have hb2 : (b2 < 2 ^ s)%N by have := slice_lt y 0 s; rewrite subn0.
have hb0 : (b0 < 2 ^ K)%N by rewrite -[K in (2 ^ K)%N]d1 slice_lt.
have ha1 : (a1 < 2 ^ (K * w))%N by have := slice_lt x 0 (K * w); rewrite subn0.
have hc0 : (c0 < 2 ^ (K * w.+1))%N by have := slice_lt y s n; rewrite d3 [(w.+1 * K)%N]mulnC.
have ss : (2 ^ s * 2 ^ s = 2 ^ K)%N by rewrite -expnD addnn -mul2n -eK.
have hA : (A < 2 ^ (K * w.+1))%N by rewrite mulnS expnD; exact: radix.
have hz : (B %/ 2 ^ K = b1 + 2 ^ s * b2)%N.
  by rewrite /B expnD -!addnA -mulnA -mulnDr mulnC addnC divnMDl ?expn_gt0 // divn_small // addn0.
have hbb : (b1 + 2 ^ s * b2 < 2 ^ K)%N by rewrite -ss; exact: radix.
have hB : (B < 2 ^ (K * 2))%N.
  by rewrite muln2 -addnn expnD /B [(2 ^ (K + s))%N]expnD -!addnA -mulnA -mulnDr; exact: radix.
have Bm : (B %% 2 ^ K = b0)%N by rewrite /B expnD -!addnA -mulnA -mulnDr mulnC addnC modnMDl modn_small.
have Am : (A %% 2 ^ K = l)%N by rewrite /A mulnC addnC modnMDl modn_small.
have Ad : (A %/ 2 ^ K = a1)%N by rewrite /A mulnC addnC divnMDl ?expn_gt0 // divn_small // addn0.
have hpw : (2 ^ (K * w.+1) <= p)%N.
  by have /andP[h _] := pf_bits pok; apply: leq_trans h; rewrite leq_exp2l // hn -addnBA // leq_addr.
have vA : pf_val pf A%:R = A by rewrite (val_natr pok) //; exact: leq_trans hpw.
have vB : pf_val pf B%:R = B by rewrite (val_natr pok) //; apply: leq_trans hp; rewrite -expnD addnn -muln2.
have vC : pf_val pf c0%:R = c0 by rewrite (val_natr pok) //; exact: leq_trans hpw.
have un : (u < 2 ^ n)%N by have /andP[_ h] := pf_bits pok; exact: ltn_trans (pf_lt pok _) h.
have vn : (v < 2 ^ n)%N by have /andP[_ h] := pf_bits pok; exact: ltn_trans (pf_lt pok _) h.
have uE : (a1 + 2 ^ (K * w) * (b0 + 2 ^ K * b1) = u)%N.
  rewrite /b1 /b0 /a1 /slice -/u subn0 expn0 divn1 d1 d2 mulnS [(K + _)%N]addnC expnD divnMA.
  rewrite (_ : u %/ 2 ^ (K * w) %/ 2 ^ K %% 2 ^ s = u %/ 2 ^ (K * w) %/ 2 ^ K)%N.
    by rewrite [(_ %% 2 ^ K + _)%N]addnC [(2 ^ K * _)%N]mulnC -divn_eq addnC mulnC -divn_eq.
  by rewrite modn_small // -divnMA -expnD addnC -mulnS ltn_divLR ?expn_gt0 // -expnD addnC -hn.
have vE : (b2 + 2 ^ s * c0 = v)%N.
  rewrite /b2 /c0 /slice -/v subn0 expn0 divn1 d3 (_ : v %/ 2 ^ s %% 2 ^ (w.+1 * K) = v %/ 2 ^ s)%N; first by rewrite addnC mulnC -divn_eq.
  by rewrite modn_small // ltn_divLR ?expn_gt0 // -expnD mulnC -hn.
have hw := layer_words c0 eK k0 hA hB hb1 hz; rewrite /= -hn Am Ad Bm uE vE in hw.
have [dy [hh x0 y0]] : exists dy, [/\ hash_to_point_spec S Q (words_of K w.+1 A ++ words_of K 2 B ++ words_of K w.+1 c0) = Some (d, dy), d != 0 & dy != 0].
  move: hd; rewrite /parent_of hw; case hh: (hash_to_point_spec _ _ _) => [[dx dy]|] //=.
  by case: ifP => //= /andP[x0 y0] [<-]; exists dy.
have pvA : pv qa = A%:R by rewrite /pv va.
have pvB : pv qb = B%:R by rewrite /pv vb.
have pvC : pv qc = c0%:R by rewrite /pv vc.
have km : known_message pf K [:: qa; qb; qc].
  apply: List.Forall_cons; first by split; rewrite ?wa ?pvA ?vA ?hA.
  apply: List.Forall_cons; first by split; rewrite ?wb ?pvB ?vB ?hB.
  apply: List.Forall_cons; last exact: List.Forall_nil.
  by split; rewrite ?wc ?pvC ?vC ?hc0.
have hs : q_s1 (mc_sins c) != q_s4 (mc_sins c) by apply/eqP=> e; have := @sels_distinct 0%N 1%N isT isT e.
have K64 : (0 < K <= 64)%N by rewrite k0 /=; exact: ltnW (leq_ltn_trans (leq_addr _ _) hK).
have sE : shiftss pf K [:: qa; qb; qc] = [:: shifts pf K w.+1 A%:R; shifts pf K 2 B%:R; shifts pf K w.+1 c0%:R].
  by rewrite /shiftss /= pvA pvB pvC wa wb wc.
apply: (lcomp_bind (V1 := fun t => point_is t.1 (Some (d, dy)) /\ [seq [seq ac_value a | a <- zs] | zs <- t.2] = [seq [seq known y | y <- ys] | ys <- shiftss pf K [:: qa; qb; qc]])
   (Q1 := fun t => point_in T place t.1 (Some (d, dy)) /\ [seq [seq at_ a | a <- zs] | zs <- t.2] = shiftss pf K [:: qa; qb; qc])).
  apply: (@lcomp_region_in _ _ _ _ (P_SinsemillaComplete.ok K gens T (mc_sins c)) _ [:: q_s1 (mc_sins c); q_s4 (mc_sins c)]).
  - apply: (hash_to_point_comp pok _ two0 K64 hgens hs _ km) => //.
      move=> h; apply: List.Forall_cons; first by rewrite pvA; tauto.
      apply: List.Forall_cons; first by rewrite pvB; tauto.
      apply: List.Forall_cons; last exact: List.Forall_nil.
      by rewrite pvC; tauto.
    by rewrite -hh /wordss /= pvA pvB pvC vA vB vC wa wb wc cats0.
  - by move=> r; apply: hash_enables; rewrite !inE eqxx ?orbT.
  - exact: okc_sins.
rewrite sE => -[P zss] [vP vz]; cbn [fst snd] in vP, vz |- *.
case: zss vz => [|za [|zb [|zc [|? ?]]]] // [ea eb _].
have [z1a [ga va1 ha1']] := @get_shift za w.+1 A%:R w0 ea.
have [z1b [gb vb1' hb1']] := @get_shift zb 2 B%:R isT eb.
have -> : obind (fun zs => get zs 1) (get [:: za; zb; zc] 0) = get za 1 by [].
have -> : obind (fun zs => get zs 1) (get [:: za; zb; zc] 1) = get zb 1 by [].
rewrite ga gb; lazy iota beta.
rewrite vA Ad in va1 ha1'; rewrite vB hz in vb1' hb1'.
apply: (lcomp_bind (V1 := fun=> True) (Q1 := fun=> True)).
  apply: lcomp_region => r.
  apply: (@decompose_comp _ l _ _ _ _ _ _ _ _ _ A%:R B%:R c0%:R x y a1%:R (b1 + 2 ^ s * b2)%N%:R b1%:R b2%:R).
  - by split; split=> //; tauto.
  - by split; split=> //; try tauto; move=> [_ [_ h]]; apply: ha1'; exact: (congr1 (fun l => nth [::] l 0) h).
  - by split; split=> //; try tauto; move=> [_ [_ h]]; apply: hb1'; exact: (congr1 (fun l => nth [::] l 1) h).
  split; [by rewrite /A natrD natrM| |by rewrite -natrM -natrD vE (pf_valK pok)|by rewrite natrD natrM].
  have -> : B%:R = b0%:R + (2 ^ K)%N%:R * (b1 + 2 ^ s * b2)%N%:R :> F.
    by rewrite -natrM -natrD -hz -Bm addnC mulnC -divn_eq.
  by rewrite addrK -natrM -natrD -natrM -natrD uE (pf_valK pok).
move=> _ _; apply: lcomp_ret; last by move=> [[_ [h _]] _]; move: h; rewrite /point_in /=; case.
by case: vP => -[v0 e0 e1] _; rewrite /= in e1; rewrite -e1 -C09_evaluate /extract /ec_evaluate; cbn [fst ac_value]; rewrite e0.
Qed.
End Chip.

(* ---------------------------------------------------------------- the path *)
Section Path.
Variables (F : fieldType) (pf : prime_field F) (p : nat).
Hypothesis pok : prime_field_ok pf p.
Variables (K : nat) (gens : seq (F * F)) (max_words s w : nat).
Hypothesis eK : K = (2 * s)%N.
Hypothesis hn : pf_num_bits pf = (K * w.+1 + s)%N.
Hypothesis hp : (2 ^ K * 2 ^ K <= p)%N.
Hypothesis s0 : (0 < s)%N.
Hypothesis w0 : (0 < w)%N.
Hypothesis hK : (K + s < 64)%N.
Hypothesis hmax : (2 * w + 4 < max_words)%N.
Hypothesis hgens : size gens = (2 ^ K)%N.
Hypothesis two0 : (2%:R : F) != 0.
Variables (T : table F) (place : nat -> int) (inst : nat -> nat -> value F) (chips : seq merkle_config).
Notation n := (pf_num_bits pf).
Notation S := (nth (0, 0) gens).
Notation at_ a := (cell_value T place (ac_cell a)).
Hypothesis sep : separate chips.
Notation own := (own K gens s w T).

Definition okall (q : nat) (row : int) : Prop := forall c, List.In c chips -> own c q row.
Lemma own_share c c' q row : List.In c chips -> List.In c' chips -> q \in merkle_sels c -> own c q row -> own c' q row.
Proof.
move=> h h' /(nthP 0%N)[i hi <-] [[o0 o1] o2 o3 o4 [o5 o6]].
have key j : (j < 7)%N -> nth 0%N (merkle_sels c) i = nth 0%N (merkle_sels c') j -> i = j /\ shares i c c' by exact: sep.
split; [split| | | |split].
- by move=> e; have [ei hs] := key 0%N isT e; subst i; move: o0; rewrite /= in hs *; rewrite hs; apply.
- by move=> e; have [ei hs] := key 1%N isT e; subst i; move: o1; rewrite /= in hs *; rewrite hs; apply.
- by move=> e; have [ei hs] := key 2%N isT e; subst i; move: o2; rewrite /= in hs *; subst c'; apply.
- by move=> e; have [ei hs] := key 3%N isT e; subst i; move: o3; rewrite /= in hs *; rewrite hs; apply.
- by move=> e; have [ei hs] := key 4%N isT e; subst i; move: o4; rewrite /= in hs *; rewrite hs; apply.
- by move=> e; have [ei hs] := key 5%N isT e; subst i; move: o5; rewrite /= in hs *; rewrite hs.
- by move=> e; have [ei hs] := key 6%N isT e; subst i; move: o6; rewrite /= in hs *; rewrite hs; apply.
Qed.
Lemma lcomp_all (H : Prop) (A : Type) (q : lprog F A) V Q c : List.In c chips ->
  lcomp T place inst (okc K gens s w T c) H q V Q -> lcomp T place inst okall H q V Q.
Proof.
move=> hc h r; have [a [r' [e1 [v h1]]]] := h r; exists a, r'; split=> //; split=> // hH hon.
have [h2 h3 h4] := h1 hH hon; split=> //; apply: List.Forall_impl h3 => rc h3 q' off he c' hc'.
by have [h5 h6] := h3 q' off he; exact: own_share h6.
Qed.

(* the path: is the node the right child, and its sibling *)
Notation root := (merkle_root S _ K n (pf_val pf)).
Lemma root_step Q l x p1 b sib p2 z : merkle_root S Q K n (pf_val pf) l x (p1 ++ (b, sib) :: p2) = Some z ->
  exists y y', [/\ merkle_root S Q K n (pf_val pf) l x p1 = Some y,
    (if b then parent_of S Q K n (l + size p1) (pf_val pf sib) (pf_val pf y) else parent_of S Q K n (l + size p1) (pf_val pf y) (pf_val pf sib)) = Some y' &
    merkle_root S Q K n (pf_val pf) l x (rcons p1 (b, sib)) = Some y'].
Proof.
elim: p1 l x => [|[b1 s1] p1 IH] l x /=.
  by rewrite addn0; case e: (if b then _ else _) => [y'|] //= _; exists x, y'.
by rewrite -addSnnS; case e: (if b1 then _ else _) => [y|] //= /IH.
Qed.

Lemma uniq_sels c : List.In c chips -> uniq (merkle_sels c).
Proof.
move=> hc; apply/(uniqP 0%N) => i j; rewrite !inE => hi hj e.
by have [] := sep hc hc hi hj e.
Qed.

Lemma path_comp Q m pos path leaf x z : (0 < size chips)%N -> (m <= 2 ^ K)%N -> (m <= 64)%N -> size path = m ->
  ac_value leaf = known x -> at_ leaf = x ->
  merkle_root S Q K n (pf_val pf) 0 x (zip [seq odd (pos %/ 2 ^ i) | i <- iota 0 m] path) = Some z ->
  lcomp T place inst okall True (calculate_root pf K gens max_words s w chips (Some Q) m (known pos) (known path) leaf)
    (fun a => ac_value a = known z) (fun a => at_ a = z).
Proof.
move=> c0 hm h64 sp vl hl hr; rewrite /calculate_root; case: ifP => [/eqP e|_]; first by rewrite e in c0.
set bits := [seq odd (pos %/ 2 ^ i) | i <- iota 0 m] in hr *.
have sb : size bits = m by rewrite size_map size_iota.
have -> : map_transpose (i2lebsp m) (known pos) m = Some [seq known b | b <- bits].
  by rewrite /map_transpose /= /i2lebsp h64 /= /v_transpose_vec /= size_map size_iota eqxx.
have [_ tr] := C47_transpose_array m (known path); rewrite (tr path sp erefl).
set P := zip bits path in hr *; have sP : size P = m by rewrite size_zip sb sp minnn.
pose node i := odflt 0 (merkle_root S Q K n (pf_val pf) 0 x (take i P)).
have := @lcomp_fold F T place inst okall _ _ True
  (path_layer pf K gens max_words s w chips (Some Q) m [seq known y | y <- path] [seq known b | b <- bits]) (iota 0 m) leaf
  (fun l1 a => ac_value a = known (node (size l1))) (fun l1 a => at_ a = node (size l1)).
have n0 : node 0%N = x by rewrite /node take0.
have nm : node m = z by rewrite /node -sP take_size hr.
rewrite size_iota nm; apply.
- by rewrite [size _]/= n0.
- by rewrite [size _]/= n0.
- move=> l1 i l2 a /iota_split[-> hi] va; rewrite size_rcons; set k := size l1 in hi va *.
  have bsib : exists b sib, nth (false, 0) P k = (b, sib) by case: (nth _ _ _) => b sib; exists b, sib.
  have [b [sib eb]] := bsib.
  have eP : P = take k P ++ (b, sib) :: drop k.+1 P by rewrite -eb -drop_nth ?sP // cat_take_drop.
  have tk : take k.+1 P = rcons (take k P) (b, sib) by rewrite (take_nth (false, 0)) ?sP // eb.
  rewrite eP in hr; have [y [y' [e1 e2 e3]]] := root_step hr.
  rewrite add0n size_takel ?sP ?(ltnW hi) // in e2; rewrite /node e1 in va *; rewrite tk e3; cbn [odflt oapp] in va |- *.
  rewrite /path_layer; set lpc := (_ %/ size chips)%N.
  have lp : (m <= lpc * size chips)%N.
    have := ltn_ceil (m + size chips - 1)%N c0; rewrite mulSn -/lpc; move: (lpc * _)%N c0 => t; clear; nlia.
  have hidx : (k %/ lpc < size chips)%N.
    rewrite ltn_divLR; first by rewrite mulnC; exact: leq_trans lp.
    by case: (lpc) lp => // /(leq_trans hi).
  have [c ec hc] : exists2 c, get chips (k %/ lpc) = Some c & List.In c chips.
    move: (k %/ lpc)%N hidx; clear; elim: chips => [|c l IH] [|i] //= hi; first by exists c; [|left].
    by have [c' e h] := IH i hi; exists c'; [|right].
  rewrite ec.
  have -> : nth unknown [seq known y | y <- path] k = known sib.
    rewrite (nth_map 0) ?sp //; congr known; have := congr1 snd eb; rewrite /P nth_zip ?sb ?sp //= => ->; done.
  have -> : nth unknown [seq known b | b <- bits] k = known b.
    rewrite (nth_map false) ?sb //; congr known; have := congr1 fst eb; rewrite /P nth_zip ?sb ?sp //= => ->; done.
  apply: (lcomp_all hc); have uq := uniq_sels hc.
  apply: (lcomp_bind (@swap_comp F K gens s w T place inst c uq _ _ _ _ _ va _)) => [[]//|[lft rgt] [vl' vr']].
  cbn [fst snd] in vl', vr' |- *.
  apply: (@layer_comp F pf p pok K gens max_words s w eK hn hp s0 hK hmax hgens two0 T place inst c uq _ _ _ _ _ _ _ _ _ w0 vl' _ vr' _); first exact: leq_trans hm.
  - by case=> _ [].
  - by case=> _ [].
  by case: (b) e2.
Qed.

Lemma all_pass regions : lon_ok place okall regions -> merkle_on_here K gens s w T place chips regions ->
  forall c, List.In c chips -> forall row, merkle_row_passes K gens s w T c row.
Proof.
move=> hk ho c hc row.
have key q : q \in merkle_sels c -> merkle_row_passes K gens s w T c row \/ (t_selector T q row -> own c q row).
  move=> hq; case e: (t_selector T q row); last by right.
  have [h1|] := ho c hc q row hq e; last by left.
  right=> _; move: h1 hk; rewrite /turned_on /lon_ok; elim: (regions) => [|e' l IH] /=; first by move=> /List.Exists_nil.
  by move=> /List.Exists_cons[[off ee ->]|h1] /List.Forall_cons_iff[h2 h3]; [exact: h2|exact: IH].
have [//|k0] := key (q_s1 (mc_sins c)) ltac:(by rewrite !inE eqxx ?orbT).
have [//|k1] := key (q_s4 (mc_sins c)) ltac:(by rewrite !inE eqxx ?orbT).
have [//|k2] := key (q_decompose c) ltac:(by rewrite !inE eqxx ?orbT).
have [//|k3] := key (q_swap (mc_swap c)) ltac:(by rewrite !inE eqxx ?orbT).
have [//|k4] := key (q_lookup (mc_lookup c)) ltac:(by rewrite !inE eqxx ?orbT).
have [//|k5] := key (q_running (mc_lookup c)) ltac:(by rewrite !inE eqxx ?orbT).
have [//|k6] := key (q_bitshift (mc_lookup c)) ltac:(by rewrite !inE eqxx ?orbT).
have off : t_selector T (q_running (mc_lookup c)) row = false.
  by apply/negbTE/negP => /k5[_ _ _ _ [h _]]; apply: h.
split.
- by apply: ok_row => [/k0[]|/k1[]].
- rewrite -cat1s !all_cat all_seq1; apply/and3P; split.
  + case e: (t_selector T (q_bitshift (mc_lookup c)) row); last by rewrite /lrc_gate !rowE e mul0r.
    by have [_ _ _ _ [_ h]] := k6 e; apply/eqP; exact: h.
  + case e: (t_selector T (q_swap (mc_swap c)) row); last by rewrite /swap_gates; cbn [map all]; rewrite !at_mul !at_sel e !mul0r eqxx.
    by have [_ _ h _ _] := k3 e; exact: h.
  + case e: (t_selector T (q_decompose c) row); last by rewrite /decompose_gate; cbn [map all]; rewrite !at_mul !at_sel e !mul0r eqxx.
    by have [_ h _ _ _] := k2 e; exact: h.
- rewrite /lrc_lookup !rowE off; case e: (t_selector T (q_lookup (mc_lookup c)) row); last by exists 0%N; rewrite ?expn_gt0 ?mul0r.
  by have [_ _ _ h _] := k4 e; rewrite mul0r add0r subr0 !mul1r addr0; exact: h.
Qed.
End Path.

(* the honest prover: the gadget returns the root, and every constraint of every chip holds *)
Theorem C55_calculate_root_complete (F : fieldType) (pf : prime_field F) (p : nat) (K : nat) (gens : seq (F * F)) (max_words s w : nat)
    (T : table F) (place : nat -> int) (inst : nat -> nat -> value F) chips Q m pos path leaf x root r :
  prime_field_ok pf p -> (2%:R : F) != 0 ->
  K = (2 * s)%N -> pf_num_bits pf = (K * w.+1 + s)%N -> (2 ^ K * 2 ^ K <= p)%N -> (m <= 2 ^ K)%N ->
  (0 < s)%N -> (0 < w)%N -> (K + s < 64)%N -> (2 * w + 4 < max_words)%N -> size gens = (2 ^ K)%N -> (m <= 64)%N ->
  (0 < size chips)%N -> separate chips ->
  size path = m -> holds_value T place leaf x ->
  merkle_root (nth (0, 0) gens) Q K (pf_num_bits pf) (pf_val pf) 0 x (zip [seq odd (pos %/ 2 ^ i) | i <- iota 0 m] path) = Some root ->
  let prog := calculate_root pf K gens max_words s w chips (Some Q) m (known pos) (known path) leaf in
  exists a r', [/\ lreturns inst r prog = Ok (a, r'), ac_value a = known root &
    lhonest T place inst r prog -> lselectors_on T place inst r prog -> merkle_on_here K gens s w T place chips (lregions inst r prog) ->
    [/\ lrespects T place inst r prog, (forall c, List.In c chips -> forall row, merkle_row_passes K gens s w T c row) &
        holds_value T place a root]].
Proof.
move=> pok two0 eK hn hp hm s0 w0 hK hmax hgens h64 c0 sep sp [vl hl] hr prog.
have [a [r' [e1 [v h]]]] := path_comp pok eK hn hp s0 w0 hK hmax hgens two0 inst sep c0 hm h64 sp vl hl hr r.
exists a, r'; split=> // g1 g2 g3; have [q1 q2 q3] := h Logic.I (conj g1 g2); split=> //.
exact: all_pass q2 g3.
Qed.
Print Assumptions C55_calculate_root_complete.
