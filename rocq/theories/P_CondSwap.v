(* C44: the conditional swap and multiplexer gadgets *)
Set Warnings "-notation-overridden,-ambiguous-paths".
From mathcomp Require Import all_ssreflect all_algebra.
From Verif Require Import FieldTac Util M_Env M_Assigned P_Assigned M_Circuit S_Circuit M_Value M_Region S_Region
  M_Utilities L_Region.
Import GRing.Theory.
Set Implicit Arguments.
Unset Strict Implicit.
Local Open Scope ring_scope.
Local Arguments at_row : simpl never.
Local Arguments esub : simpl never.

Section CondSwap.
Variables (F : fieldType) (inst : nat -> nat -> value F).
Implicit Types (T : table F) (place : nat -> int) (c : swap_config).

Lemma bool_checkE T row (e : expr F) : at_row T row (bool_check e) = at_row T row e * (1 - at_row T row e).
Proof. by rewrite /bool_check /range_check /= at_mul at_sub at_const. Qed.
Lemma ternaryE T row (a b d : expr F) :
  at_row T row (ternary a b d) = at_row T row a * at_row T row b + (1 - at_row T row a) * at_row T row d.
Proof. by rewrite /ternary !rowE. Qed.

(* the three polynomials on a row where the selector is on *)
Lemma swap_gatesE T row c : t_selector T (q_swap c) row ->
  let v col := t_cell T Advice col row in
  all (fun g => at_row T row g == 0) (swap_gates F c) <->
  (v (sw_swap c) = 0 /\ v (a_swapped c) = v (sw_a c) /\ v (b_swapped c) = v (sw_b c)) \/
  (v (sw_swap c) = 1 /\ v (a_swapped c) = v (sw_b c) /\ v (b_swapped c) = v (sw_a c)).
Proof.
move=> hs v; rewrite /swap_gates /= !(bool_checkE, ternaryE, at_sub, at_mul, at_sel, at_adv) hs !mul1r !addr0 andbT -!/(v _).
split.
  case/and3P=> h1 h2; rewrite mulf_eq0 subr_eq0 => /orP[/eqP h|/eqP h]; [left|right]; move: h1 h2; rewrite -?h.
    by rewrite h !mul0r !add0r subr0 !mul1r !subr_eq0 => /eqP -> /eqP ->.
  by rewrite !mul1r subrr !mul0r !addr0 !subr_eq0 => /eqP -> /eqP ->.
by case=> -[-> [-> ->]]; rewrite ?(mul0r, add0r, subr0, mul1r, subrr, addr0) eqxx.
Qed.
Lemma gates_at T row c : gates_hold T (swap_gates F c) -> all (fun g => at_row T row g == 0) (swap_gates F c).
Proof. exact. Qed.

Theorem C44_swap_sound T place c region pair0 pair1 swap a' b' :
  returns inst (swap_region c region pair0 pair1 swap) = Ok (a', b') ->
  respects T place region (calls inst (swap_region c region pair0 pair1 swap)) ->
  gates_hold T (swap_gates F c) ->
  let here col := t_cell T Advice col (place region + 0%N%:Z) in
  let x := cell_value T place (ac_cell pair0) in
  let y := here (sw_b c) in
  (here (sw_swap c) = 0 /\ cell_value T place (ac_cell a') = x /\ cell_value T place (ac_cell b') = y) \/
  (here (sw_swap c) = 1 /\ cell_value T place (ac_cell a') = y /\ cell_value T place (ac_cell b') = x).
Proof.
rewrite /= => -[<- <-]; rewrite !respects_cons => -[hs [_ [hcopy _]]] hg.
have := iffLR (swap_gatesE hs) (gates_at _ hg); rewrite /= in hcopy; rewrite -hcopy.
by case=> -[h1 [h2 h3]]; [left|right].
Qed.

Theorem C44_swap_complete T place c region pair0 x y s :
  let pr := swap_region c region pair0 (known y) (known s) in
  holds_value T place pair0 x ->
  exists a' b', returns inst pr = Ok (a', b') /\
  (respects T place region (calls inst pr) -> honest T place region (calls inst pr) ->
   all (fun g => at_row T (place region + 0%N%:Z) g == 0) (swap_gates F c) /\
   holds_value T place a' (if s then y else x) /\ holds_value T place b' (if s then x else y)).
Proof.
move=> pr [hv0 hv1]; rewrite /pr /= hv0; do 2 eexists; split; first by [].
rewrite !respects_cons !honest_cons => -[hs [_ [hcopy _]]] [_ [h1 [_ [h2 [h3 [h4 [h5 _]]]]]]].
have e1 := h1 _ erefl; have e2 := h2 _ erefl; have e3 := h3 _ erefl; have e4 := h4 _ erefl; have e5 := h5 _ erefl.
rewrite /= in e1 e2 e3 e4 e5; split; last by split.
apply/(swap_gatesE hs); rewrite e1 e2 e3 e4 e5.
by case: (s); [right|left].
Qed.

Theorem C44_mux_sound T place c region choice left right out :
  returns inst (mux_region c region choice left right) = Ok out ->
  respects T place region (calls inst (mux_region c region choice left right)) ->
  gates_hold T (swap_gates F c) ->
  let v (a : acell F) := cell_value T place (ac_cell a) in
  (v choice = 0 /\ v out = v left) \/ (v choice = 1 /\ v out = v right).
Proof.
rewrite /= => -[<-]; rewrite !respects_cons => -[hs [_ [h1 [_ [h2 [_ [h3 _]]]]]]] hg.
have := iffLR (swap_gatesE hs) (gates_at _ hg); rewrite /= in h1 h2 h3; rewrite -h1 -h2 -h3.
by case=> -[e1 [e2 e3]]; [left|right].
Qed.

Theorem C44_mux_complete T place c region choice left right s x y :
  let pr := mux_region c region choice left right in
  holds_value T place choice (nat_of_bool s)%:R -> holds_value T place left x -> holds_value T place right y ->
  exists out, returns inst pr = Ok out /\
  (respects T place region (calls inst pr) -> honest T place region (calls inst pr) ->
   all (fun g => at_row T (place region + 0%N%:Z) g == 0) (swap_gates F c) /\
   holds_value T place out (if s then y else x)).
Proof.
move=> pr [c0 c1] [l0 l1] [r0 r1]; rewrite /pr /= c0 l0 r0; eexists; split; first by [].
rewrite !respects_cons !honest_cons => -[hs _] [_ [h1 [_ [h2 [_ [h3 [_ [h4 [h5 _]]]]]]]]].
have e1 := h1 _ erefl; have e2 := h2 _ erefl; have e3 := h3 _ erefl; have e4 := h4 _ erefl; have e5 := h5 _ erefl.
rewrite /= in e1 e2 e3 e4 e5.
have hb : ((nat_of_bool s)%:R == 0 :> F) = ~~ s by case: (s); rewrite ?oner_eq0 ?eqxx.
rewrite hb in e4 e5 *; split; last first.
  split; first by rewrite /v_map /v_zip /= hb if_neg; case: (s).
  by rewrite /cell_value /row_of /= e5; case: (s).
apply/(swap_gatesE hs); rewrite e1 e2 e3 e4 e5.
by case: (s); [right|left].
Qed.
End CondSwap.

From Verif Require Import Ex_Field Ex_Env.
(* swapping (5, 7) with the bit set, over GF(97) *)
Definition ex_c := SwapConfig 0 0 1 2 3 4.
Definition ex_swapT : table F97 :=
  Table (fun kind c row => match kind, row with
                           | Advice, Posz 0 => (nth 0 [:: 5; 7; 7; 5; 1] c)%N%:R
                           | Advice, Posz 9 => 5%:R
                           | _, _ => 0 end)
        (fun s row => (s == 0%N) && (row == 0)).
Definition ex_pair0 : acell F97 := ACell (known 5%:R) (Cell 1 0 (Advice, 0%N)).
Definition ex_place (r : nat) : int := if r == 0%N then 0 else 9%:Z.
Example C44_case :
  let pr := swap_region ex_c 0 ex_pair0 (known 7%:R) (known true) in
  let inst : nat -> nat -> value F97 := fun _ _ => unknown in
  [/\ holds_value ex_swapT ex_place ex_pair0 5%:R,
      respects ex_swapT ex_place 0 (calls inst pr), honest ex_swapT ex_place 0 (calls inst pr) &
      gates_hold ex_swapT (swap_gates F97 ex_c)].
Proof.
split.
- by split; [|apply/eqP; vm_compute].
- by do !constructor; apply/eqP; vm_compute.
- rewrite /honest /=; repeat (apply: List.Forall_cons || apply: List.Forall_nil); try exact: I;
    by move=> v [<-]; apply/eqP; vm_compute.
- have off row : (row == 0) = false -> all (fun g => at_row ex_swapT row g == 0) (swap_gates F97 ex_c).
    by move=> e; rewrite /= !at_mul !at_sel /= e !mul0r eqxx.
  case=> [[|n]|n]; [by vm_compute| |]; exact: off.
Qed.
Print Assumptions C44_swap_sound.
Print Assumptions C44_swap_complete.
Print Assumptions C44_mux_sound.
Print Assumptions C44_mux_complete.
