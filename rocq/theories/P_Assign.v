(* C36: the back-ends a circuit is synthesized against (key generation, the prover, MockProver) reject
   calls outside the usable rows, hold exactly what was written, and agree with each other. *)
Set Warnings "-notation-overridden,-ambiguous-paths".
From mathcomp Require Import all_ssreflect all_algebra.
From Verif Require Import Util M_Env M_Assigned P_Assigned M_Circuit M_Selectors L_Selectors M_Copy L_Copy M_Value
  M_Region M_Layout M_Plonk M_Assign M_Mock M_Floor S_Floor P_Floor S_Assign L_Assign.
Import GRing.Theory.
Set Implicit Arguments.
Unset Strict Implicit.

Section Reject.
Variable F : fieldType.
Variables (u : nat) (o : aop F).
Hypothesis outside : has (fun r => u <= r) (rows_touched o).

(* A call that touches a row which is not usable is an error, whatever the state.  Key generation
   ignores advice, the prover everything else. *)
Theorem C36_rejects :
  [/\ ~~ is_advice o -> forall a, keygen_op u o a = Err ENotEnoughRows,
    is_advice o -> forall a, witness_op u o a = Err ENotEnoughRows &
    forall s, mock_op u o s = Err ENotEnoughRows].
Proof.
move: outside; case: o => [||s row|c row v|c row v|c row c' row'|c from v] //=; rewrite ?orbF => h.
- by split=> // *; rewrite ltnNge h.
- by split=> // *; rewrite ltnNge h.
- by split=> // *; rewrite /mock_fixed ltnNge h.
- by split=> // *; rewrite -negb_and !ltnNge -negb_or h.
- by split=> // *; rewrite ltnNge h.
Qed.
End Reject.

Section Records.
Variable F : fieldType.
Variables (u n : nat).
Hypothesis hu : u <= n.

Lemma unwritten (tr : seq (aop F)) : (forall o, List.In o tr -> ~~ is_advice o -> all (fun r => r < u) (rows_touched o)) ->
  forall c row, u <= row -> fixed_written u tr c row = None /\ selected tr c row = false.
Proof.
move=> h c row hr; elim/last_ind: tr h => [//|tr o IH] h.
have [i1 i2] : fixed_written u tr c row = None /\ selected tr c row = false.
  by apply: IH => o' ho; apply: h; rewrite -cats1; apply: List.in_or_app; left.
have := h o; rewrite fixed_written_rcons selected_rcons i1 i2.
have hin : List.In o (rcons tr o) by rewrite -cats1; apply: List.in_or_app; right; left.
move=> /(_ hin); case: o {h hin} => [||s r|c' r v|c' r v|c' r c2 r2|c' from v] //= /(_ isT); rewrite ?andbT => h.
- by rewrite andbC orbF; case: eqP => // e; move: h; rewrite e ltnNge hr.
- by rewrite andbC; case: eqP => // e; move: h; rewrite e ltnNge hr.
- by rewrite [row < u]ltnNge hr !andbF.
Qed.
Lemma unwritten_advice (tr : seq (aop F)) : (forall o, List.In o tr -> is_advice o -> all (fun r => r < u) (rows_touched o)) ->
  forall c row, u <= row -> advice_written tr c row = None.
Proof.
move=> h c row hr; elim/last_ind: tr h => [//|tr o IH] h.
have i1 : advice_written tr c row = None.
  by apply: IH => o' ho; apply: h; rewrite -cats1; apply: List.in_or_app; left.
have := h o; rewrite advice_written_rcons i1.
have hin : List.In o (rcons tr o) by rewrite -cats1; apply: List.in_or_app; right; left.
move=> /(_ hin); case: o {h hin} => [||s r|c' r v|c' r v|c' r c2 r2|c' from v] //= /(_ isT); rewrite ?andbT => h.
by rewrite andbC; case: eqP => // e; move: h; rewrite e ltnNge hr.
Qed.

(* Key generation, for every synthesis: the calls made, the state after them, and that the rows which
   are not usable hold 0 and have no selector on. *)
Theorem C36_keygen nf ns cols (kg : synth F) a :
  keygen_run u kg (KAssembly (nseq nf (nseq n (ATrivial 0%R))) (assembly_new n cols) (nseq ns (nseq n false))) = Ok a ->
  exists tr, [/\ performed (fun _ _ => unknown) kg = Ok tr, kstate u n nf ns cols tr a &
    forall c row, u <= row < n ->
      (c < nf -> nth (ATrivial 0%R) (nth [::] (ka_fixed a) c) row = ATrivial 0%R) /\
      (c < ns -> nth false (nth [::] (ka_selectors a) c) row = false)].
Proof.
move=> h; have [c r s v|tr h1 h2] := run_performed (inst := fun _ _ => unknown) _ h.
  by rewrite /keygen_query; case: ltnP => //= _ [].
have ks := keygen_callsP hu h2; exists tr; split=> // c row /andP [h3 h4].
have [u1 u2] := unwritten (ks_rows ks) c h3; split=> hc.
- by have := ks_fixed ks hc h4; rewrite u1.
- by rewrite (ks_sel ks).
Qed.

(* what the prover answers to the queries of instance cells *)
Definition instance_of (instances : seq (seq F)) (c r : nat) : value F :=
  Value (obind (fun col => get col r) (get instances c)).
Theorem C36_prover na instances (p : synth F) a :
  witness_run u instances p (nseq na (nseq n (ATrivial 0%R))) = Ok a ->
  exists tr, [/\ performed (instance_of instances) p = Ok tr, wstate u n na tr a &
    forall c row, c < na -> u <= row < n -> nth (ATrivial 0%R) (nth [::] a c) row = ATrivial 0%R].
Proof.
move=> h; have [c r s v|tr h1 h2] := run_performed (inst := instance_of instances) _ h.
  rewrite /witness_query /instance_of; case: ltnP => //= _; case: (get _ c) => //= col; case: (get _ r) => //= x [<-] //.
have ws := witness_callsP h2; exists tr; split=> // c row hc /andP [h3 h4].
by have := ws_advice ws hc h4; rewrite (unwritten_advice (ws_rows ws)).
Qed.

(* what MockProver answers: the padding is 0 *)
Definition mock_answers (inst : seq (seq (option F))) (c r : nat) : value F :=
  Value (omap (@iv_value F) (obind (fun col => get col r) (get inst c))).
Theorem C36_mock m inst (p : synth F) s :
  run_synth (mock_op u) (mock_query u inst) p (mock_new n u m) = Ok s ->
  exists tr, [/\ performed (mock_answers inst) p = Ok tr,
    mstate u n (num_fixed m) (num_advice m) (num_selectors m) (M_Circuit.permutation m) tr s &
    forall c row, u <= row < n ->
      [/\ c < num_fixed m -> nth (CUnassigned F) (nth [::] (mk_fixed s) c) row = CUnassigned F,
        c < num_advice m -> nth (CUnassigned F) (nth [::] (mk_advice s) c) row = CPoison F row &
        c < num_selectors m -> nth false (nth [::] (mk_selectors s) c) row = false]].
Proof.
move=> h; have [c r s0 v|tr h1 h2] := run_performed (inst := mock_answers inst) _ h.
  rewrite /mock_query /mock_answers; case: ltnP => //= _; case: (get _ c) => //= col; case: (get _ r) => //= x [<-] //.
have ms := mock_callsP hu h2; exists tr; split=> // c row /andP [h3 h4].
have [u1 u2] := unwritten (fun o ho _ => ms_rows ms ho) c h3.
have u3 := unwritten_advice (fun o ho _ => ms_rows ms ho) c h3; split=> hc.
- by have := ms_fixed ms hc h4; rewrite u1.
- by have := ms_advice ms hc h4; rewrite u3 /= /blank_advice ltnNge h3.
- by rewrite (ms_sel ms).
Qed.

(* If MockProver accepts the calls of a circuit, key generation accepts those of a circuit which
   differs at most in the values of advice cells, and both hold the same. *)
Lemma alike_fixed tr tr' : List.Forall2 (@alike F) tr tr' -> fixed_written u tr =2 fixed_written u tr'.
Proof.
move=> h c row; rewrite /fixed_written; elim: h (None) => // o o' l l' ho _ IH w /=; rewrite IH.
by case: o o' ho => [||? ?|? ? ?|? ? ?|? ? ? ?|? ? ?] [||? ?|? ? ?|? ? ?|? ? ? ?|? ? ?] //= [] // *; subst.
Qed.
Lemma alike_selected tr tr' : List.Forall2 (@alike F) tr tr' -> selected tr =2 selected tr'.
Proof.
move=> h c row; rewrite /selected; elim: h => // o o' l l' ho _ IH /=; rewrite IH.
by case: o o' ho => [||? ?|? ? ?|? ? ?|? ? ? ?|? ? ?] [||? ?|? ? ?|? ? ?|? ? ? ?|? ? ?] //= [] // *; subst.
Qed.
Lemma alike_copies tr tr' : List.Forall2 (@alike F) tr tr' -> copies tr = copies tr'.
Proof.
rewrite /copies; elim=> // o o' l l' ho _ IH /=; rewrite IH.
by case: o o' ho => [||? ?|? ? ?|? ? ?|? ? ? ?|? ? ?] [||? ?|? ? ?|? ? ?|? ? ? ?|? ? ?] //= [] // *; subst.
Qed.

Record sim nf ns (s : mock F) (a : kassembly F) : Prop := Sim {
  sim_f : rectangle nf n (mk_fixed s); sim_f' : rectangle nf n (ka_fixed a);
  sim_s' : rectangle ns n (ka_selectors a);
  sim_s : mk_selectors s = ka_selectors a; sim_p : mk_perm s = ka_perm a }.
Lemma sim_op nf ns s a o o' s' : sim nf ns s a -> alike o o' -> mock_op u o s = Ok s' ->
  exists2 a', keygen_op u o' a = Ok a' & sim nf ns s' a'.
Proof.
move=> S; case: (S) => f1 f2 f3 es ep ho.
case: o o' ho => [||q row|c row v|c row v|c row c' row'|c from v]
  [||q2 row2|c2 row2 v2|c2 row2 v2|c2 row2 c2' row2'|c2 from2 v2] //=.
- by case: (mk_current s) => //= _ [<-]; exists a.
- by case: (mk_current s) => [r|//] /= _ [<-]; exists a.
- move=> [-> ->]; case: ltnP => //= hr; case: (mk_current s) => [r|//] /=; rewrite es.
  case e: (set2 _ _ _) => [sels|] //= [<-]; eexists; first by [].
  by have [_ _ g3 _] := set2P f3 e.
- move=> _; case: ltnP => //= hr; case: (v_assign _) => [x||] //=; case: (put2 _ _ _ _) => [ad||] //= [<-].
  by exists a.
- move=> [-> -> ->] h; have [[hr hc] g1 [y ey _] _ [g4 g5]] := mock_fixedP f1 h; rewrite hr ey /=.
  have [f' e'] := put2_ok y f2 hc (leq_trans hr hu); rewrite e' /=; eexists; first by [].
  by have [_ _ g3 _] := put2P f2 e'; split; rewrite ?g4 ?g5.
- move=> [-> -> -> ->]; case: ifP => // _; rewrite ep; case: (copy _ _ _ _ _) => p' [[]||] //= [<-].
  by eexists; first by [].
- move=> [-> -> ->]; case: ltnP => //= hr h; have [g1 g2 g3 _ [g5 g6 g7]] := mock_fillP f1 h.
  have ne : drop from2 (iota 0 u) <> [::] by move/(f_equal size); rewrite size_drop size_iota /= => /eqP; rewrite subn_eq0 leqNgt hr.
  have [y ey] : exists y, v2 = known y by case: g3.
  have hc : c2 < nf by case: g1.
  have [sf hf] := f2; rewrite (getE [::]) ?sf // ey /=.
  have [col' -> [h1 _]] /= := @fill_rowsP _ u from2 y (nth [::] (ka_fixed a) c2) ltac:(by rewrite hf).
  eexists; first by []; split; rewrite ?g6 ?g7 //; split=> /=; first by rewrite size_upd ?sf.
  by move=> i hi; rewrite nth_upd ?sf //; case: eqP => [_|_]; rewrite ?h1 hf.
Qed.

(* the value of a MockProver cell in the real trace *)
Definition cell_f (c : cellv F) : F := if c is CAssigned x then x else 0%R.

Theorem C36_mock_keygen_agree m tr tr' s : List.Forall2 (@alike F) tr tr' ->
  run_calls (mock_op u) tr (mock_new n u m) = Ok s ->
  exists2 a, run_calls (keygen_op u) tr' (KAssembly (nseq (num_fixed m) (nseq n (ATrivial 0%R)))
      (assembly_new n (M_Circuit.permutation m)) (nseq (num_selectors m) (nseq n false))) = Ok a &
    [/\ ka_perm a = mk_perm s, ka_selectors a = mk_selectors s &
      [seq [seq a_evaluate x | x <- col] | col <- ka_fixed a] = [seq [seq cell_f x | x <- col] | col <- mk_fixed s]].
Proof.
move=> ha hm; set a0 := KAssembly _ _ _.
have [a h S] : exists2 a, run_calls (keygen_op u) tr' a0 = Ok a & sim (num_fixed m) (num_selectors m) s a.
  have : sim (num_fixed m) (num_selectors m) (mock_new n u m) a0 by split=> //; exact: rectangle_nseq.
  elim: ha (mock_new n u m) a0 hm => [|o o' l l' ho _ IH] s0 a0 /=; first by move=> [<-] S; exists a0.
  case e: (mock_op u o s0) => [s1||] //= h S; have [a1 -> S1] /= := sim_op S ho e; exact: IH h S1.
exists a => //; case: S => r1 r2 r3 -> ->; split=> //.
have ks := keygen_callsP hu h; have ms := mock_callsP hu hm; have [s1 c1] := r1; have [s2 c2] := r2.
apply: (@eq_from_nth _ [::]); first by rewrite !size_map s1 s2.
rewrite size_map s2 => c hc; rewrite !(nth_map [::]) ?s1 ?s2 //.
apply: (@eq_from_nth _ 0%R); first by rewrite !size_map c1 // c2.
rewrite size_map c2 // => row hr; rewrite (nth_map (ATrivial 0%R)) ?c2 // (nth_map (CUnassigned F)) ?c1 //.
have := ks_fixed ks hc hr; have := ms_fixed ms hc hr; rewrite -(alike_fixed ha).
case: (fixed_written _ _ _ _) => [v|] /=; last by move=> -> ->.
by move=> [y -> ->] [->].
Qed.
End Records.

(* ---------------------------------------------------------------- examples *)
(* the circuit of P_Floor, with 10 usable rows of 16, in all three back-ends *)
Section Examples.
Variables (F : fieldType) (x i0 i1 : F).
Definition ex_cs : cs F := CS 5 6 1 1 [::] [::] [::] [::] [::] [::]
  [:: (Advice, 0); (Advice, 1); (Advice, 2); (Advice, 5); (Fixed, 0); (Instance, 0)] [::] [:: 0] None.
Local Definition planned w : synth F := simple_floor_planner [:: 0] (ex_circuit w).
Local Definition k0 : kassembly F := KAssembly (nseq 5 (nseq 16 (ATrivial 0%R)))
  (assembly_new 16 (M_Circuit.permutation ex_cs)) (nseq 1 (nseq 16 false)).
Definition ex_inst : seq (seq (option F)) := [:: [:: Some i0; Some i1] ++ nseq 14 None].

Example ex_keygen : exists a, [/\ keygen_run 10 (planned unknown) k0 = Ok a,
  nth [::] (ka_selectors a) 0 = [:: true; false; false; true] ++ nseq 12 false &
  take 3 (nth [::] (ka_fixed a) 4) = [:: ATrivial 7%:R%R; ATrivial 8%:R%R; ATrivial 7%:R%R]].
Proof. by eexists; split; vm_compute; reflexivity. Qed.
Example ex_prover : exists a, [/\ witness_run 10 [:: [:: i0; i1]] (planned (known x)) (nseq 6 (nseq 16 (ATrivial 0%R))) = Ok a,
  take 4 (nth [::] a 0) = [:: ATrivial x; ATrivial 0%R; ATrivial 0%R; ATrivial x] &
  take 3 (nth [::] a 5) = [:: ATrivial i1; ATrivial 0%R; ATrivial i1]].
Proof. by eexists; split; vm_compute; reflexivity. Qed.
Example ex_mock : exists s, [/\ run_synth (mock_op 10) (mock_query 10 ex_inst) (planned (known x)) (mock_new 16 10 ex_cs) = Ok s,
  take 4 (nth [::] (mk_advice s) 0) = [:: CAssigned x; CUnassigned F; CUnassigned F; CAssigned x] &
  nth (CUnassigned F) (nth [::] (mk_advice s) 0) 10 = CPoison F 10].
Proof. by eexists; split; vm_compute; reflexivity. Qed.
(* the calls of the two syntheses differ in the advice values only, and the table is in both *)
Example ex_alike (tr := ex_calls (mock_answers ex_inst) (known x) ex_place 0 1 false)
  (tr' := ex_calls (fun _ _ => unknown) (unknown : value F) ex_place 0 1 false) :
  [/\ performed (mock_answers ex_inst) (planned (known x)) = Ok tr,
  performed (fun _ _ => unknown) (planned unknown) = Ok tr', List.Forall2 (@alike F) tr tr' &
  exists s, run_calls (mock_op 10) tr (mock_new 16 10 ex_cs) = Ok s].
Proof. by split; [exact: ex_simple|exact: ex_simple|repeat constructor|eexists; vm_compute; reflexivity]. Qed.
(* with 3 usable rows all of them refuse *)
Example ex_too_small : [/\ keygen_run 3 (planned unknown) k0 = Err ENotEnoughRows,
  witness_run 3 [:: [:: i0; i1]] (planned (known x)) (nseq 6 (nseq 16 (ATrivial 0%R))) = Err ENotEnoughRows &
  run_synth (mock_op 3) (mock_query 3 ex_inst) (planned (known x)) (mock_new 16 3 ex_cs) = Err ENotEnoughRows].
Proof. by split; vm_compute. Qed.
End Examples.

Print Assumptions C36_rejects.
Print Assumptions C36_keygen.
Print Assumptions C36_prover.
Print Assumptions C36_mock.
Print Assumptions C36_mock_keygen_agree.
