(* C54: an example over F_97. *)
Set Warnings "-notation-overridden,-ambiguous-paths".
From mathcomp Require Import all_ssreflect all_algebra.
From Verif Require Import Util M_Env M_Assigned M_Circuit S_Circuit M_Selectors M_Value M_Region S_Region M_Layout S_Layout Ex_Layout
  M_Utilities P_Bits L_Gadget M_Ecc S_Curve Ex_Env P_Ecc M_EccMul P_EccMul M_Sinsemilla S_Sinsemilla L_Sinsemilla P_Sinsemilla P_SinsemillaComplete.
Import GRing.Theory.
Set Implicit Arguments.
Unset Strict Implicit.
Local Open Scope ring_scope.

(* ---------------------------------------------------------------- example: y^2 = x^3 + 5 over F_97, K = 2 *)
Definition gens97 : seq (F97 * F97) := [:: (1, 43%:R); (3%:R, 56%:R); (5%:R, 79%:R); (8%:R, 41%:R)].
Definition Qs97 : F97 * F97 := (10%:R, 61%:R).
Definition scfg97 : sins_config := ecfg.
Definition spieces97 : seq (piece F97) :=
  [:: Piece (ACell (known 45%:R) (Cell 0 0 (Advice, 5%N))) 3; Piece (ACell (known 12%:R) (Cell 0 1 (Advice, 5%N))) 2].
Definition sprog97 : lprog F97 (ecpoint F97 * seq (seq (acell F97))) := hash_to_point pf97 2 gens97 scfg97 (Some Qs97) spieces97.
Definition sregions97 := lregions (fun _ _ => unknown) 1 sprog97.
Definition splace97 (r : nat) : int := if r == 0%N then 20 else 4.
(* the honest prover's cells, and the generator table on rows 0 to 3 *)
Definition scells97 : seq (seq nat) :=
  ([:: [:: 10; 14; 59; 45; 23; 75]; [:: 3; 8; 5; 1; 8; 0]; [:: 70; 71; 32; 50; 87; 30];
       [:: 62; 40; 26; 0; 78; 0]; [:: 45; 11; 2; 12; 3; 0]])%N.
Definition sT97 : table F97 := Table
  (fun kind col row => match kind, row with
     | Fixed, Posz i => if col == 0%N then nth 0 [:: 1; 1; 0; 1; 2%:R] (i - 4)
                        else if col == 1%N then 61%:R
                        else if (i < 4)%N then nth 0 [:: i%:R; (nth (0, 0) gens97 i).1; (nth (0, 0) gens97 i).2] (col - 2)
                        else nth 0 [:: 0; 1; 43%:R] (col - 2)
     | Advice, Posz i => if col == 5%N then nth 0 [:: 45%:R; 12%:R] (i - 20) else (nth 0%N (nth [::] scells97 col) (i - 4))%:R
     | _, _ => 0 end)
  (t_selector (table_of splace97 sregions97)).
Definition susable97 (row : int) : Prop := row \in [seq Posz i | i <- iota 0 12].

Lemma enabled_rows (F : fieldType) (place : nat -> int) (regions : seq (nat * seq (rop F))) (rows : seq int) s row :
  all (fun rc => all (fun o : rop F => if o is OEnable _ off then place rc.1 + off%:Z \in rows else true) rc.2) regions ->
  t_selector (table_of place regions) s row -> row \in rows.
Proof.
move=> key; rewrite /table_of; cbn [t_selector].
elim: regions key => [|rc l IH] //= /andP[k1 k2] /orP[h|]; last exact: IH.
elim: rc.2 k1 h => [|o ops IH'] //= /andP[k1 k3] /orP[|]; last exact: IH'.
by case: o k1 => // s' off h /andP[_ /eqP <-].
Qed.

(* the hypotheses of C54_hash_to_point_complete, hence of C54_hash_to_point_sound: the hash of the words
   1, 3, 2 and 0, 3 is (75, 30) *)
Example C54_example : hash_to_point_spec (nth (0, 0) gens97) Qs97 [:: 1; 3; 2; 0; 3]%N = Some (75%:R, 30%:R) /\
  [/\ gates_hold sT97 (sins_gates F97 scfg97), looked_up sT97 susable97 (sins_lookup 2 gens97 scfg97) (sins_columns scfg97),
      generator_table 2 gens97 sT97 scfg97 susable97, (forall row, t_selector sT97 (q_s1 scfg97) row -> susable97 row) &
      lrespects sT97 splace97 (fun _ _ => unknown) 1 sprog97 /\
      exists P zss r', lreturns (fun _ _ => unknown) 1 sprog97 = Ok (P, zss, r') /\ point_in sT97 splace97 P (Some (75%:R, 30%:R : F97))].
Proof.
have hm : good_message pf97 2 sT97 splace97 spieces97.
  split; [by vm_compute|by vm_compute| |by vm_compute].
  apply: List.Forall_cons; first by congr known; apply/eqP; vm_compute.
  apply: List.Forall_cons; first by congr known; apply/eqP; vm_compute.
  exact: List.Forall_nil.
have ew : message_words pf97 2 sT97 splace97 spieces97 = [:: 1; 3; 2; 0; 3]%N by apply/eqP; vm_compute.
have eh : hash_to_point_spec (nth (0, 0) gens97) Qs97 [:: 1; 3; 2; 0; 3]%N = Some (75%:R, 30%:R) by apply/eqP; vm_compute.
split; first exact: eh.
have k2 : (2%:R : F97) != 0 by vm_compute.
have k75 : (75%:R : F97) != 0 by vm_compute.
have k30 : (30%:R : F97) != 0 by vm_compute.
have [P [zss [r' [e1 e2 e3]]]] := @C54_hash_to_point_complete _ pf97 97 pf97_ok 2 gens97 scfg97 k2 isT erefl isT sT97 splace97 (fun _ _ => unknown)
  susable97 1 Qs97 spieces97 (75%:R, 30%:R) hm ltac:(by rewrite ew) k75 k30.
have /honestP[h1 h2] : honestb splace97 sT97 sregions97 by vm_compute.
have ho : sins_on_here 2 gens97 sT97 splace97 scfg97 sregions97.
  by move=> s row hs ht; left; exact: (@table_of_only _ splace97 sregions97 _ s row hs ht).
have [q1 q2 q3 [q4 q5]] := e3 h1 h2 ho.
split; first exact: q2.
- apply: q3 => w hw.
  have key : all (fun w => has (fun i => [seq t_cell sT97 Fixed col (Posz i) | col <- sins_columns scfg97]
      == [:: w%:R; (nth (0, 0) gens97 w).1; (nth (0, 0) gens97 w).2]) (iota 0 12)) (iota 0 4) by vm_compute.
  have /hasP[i hi /eqP e] := allP key w ltac:(by rewrite mem_iota).
  exists (Posz i); [exact: map_f|exact: e].
- move=> row /mapP[i hi ->].
  have key : all (fun i => has (fun w => [seq t_cell sT97 Fixed col (Posz i) | col <- sins_columns scfg97]
      == [:: w%:R; (nth (0, 0) gens97 w).1; (nth (0, 0) gens97 w).2]) (iota 0 4)) (iota 0 12) by vm_compute.
  have /hasP[w] := allP key i hi; rewrite mem_iota => hw /eqP e; exists w; [exact: hw|exact: e].
- move=> row ht.
  have key : all (fun rc => all (fun o : rop F97 => if o is OEnable _ off then splace97 rc.1 + off%:Z \in [seq Posz i | i <- iota 0 12] else true) rc.2) sregions97.
    by vm_compute.
  have sel s r : t_selector sT97 s r = t_selector (table_of splace97 sregions97) s r by reflexivity.
  rewrite sel in ht; exact: (@enabled_rows _ splace97 sregions97 _ _ row key ht).
- exact (conj q1 (ex_intro _ P (ex_intro _ zss (ex_intro _ r' (conj e1 q5))))).
Qed.
Print Assumptions C54_example.
