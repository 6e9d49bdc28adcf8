(* C55: an example over F_97: two levels, two chips that share the range check. *)
Set Warnings "-notation-overridden,-ambiguous-paths".
From mathcomp Require Import all_ssreflect all_algebra.
From Verif Require Import Util M_Env M_Assigned P_Assigned M_Circuit S_Circuit M_Selectors M_Value M_Region S_Region M_Layout S_Layout Ex_Layout
  M_Utilities P_Bits L_Gadget P_RangeCheck M_Ecc S_Curve Ex_Env P_Ecc M_EccMul P_EccMul M_Sinsemilla S_Sinsemilla L_Sinsemilla P_Sinsemilla P_SinsemillaComplete
  Ex_Sinsemilla M_Merkle S_Merkle P_Merkle P_MerkleComplete.
Import GRing.Theory.
Set Implicit Arguments.
Unset Strict Implicit.
Local Open Scope ring_scope.

(* what the honest prover's theorem says of each row is what the soundness theorem assumes *)
Lemma merkle_holds_of (F : fieldType) K (gens : seq (F * F)) s w T usable c :
  (forall row, merkle_row_passes K gens s w T c row) ->
  all_generators K gens T (mc_sins c) usable -> generator_table K gens T (mc_sins c) usable ->
  (forall k, (k < 2 ^ K)%N -> exists2 row, usable row & t_cell T Fixed (table_idx (mc_lookup c)) row = k%:R) ->
  (forall row, usable row -> word K (t_cell T Fixed (table_idx (mc_lookup c)) row)) ->
  (forall row, t_selector T (q_s1 (mc_sins c)) row || t_selector T (q_lookup (mc_lookup c)) row -> usable row) ->
  (forall row, t_selector T (q_running (mc_lookup c)) row = false) -> merkle_holds K gens s w T usable c.
Proof.
move=> hp hg ht hk hw hr ho; split=> //.
- by move=> row; have [[]] := hp row.
- move=> row _; have [[_ [k /hg[row' h1 h2] h3]] _ _] := hp row.
  by exists row'; rewrite ?h3.
- by move=> row; have [_ + _] := hp row; rewrite -cat1s !all_cat => /and3P[].
- move=> row _; have [_ _ [k /hk[row' h1 h2] h3]] := hp row.
  by exists row' => //; apply: (congr1 (fun x => [:: x])); exact: etrans h3 (esym h2).
- by move=> row; have [_ + _] := hp row; rewrite -cat1s !all_cat => /and3P[].
- by move=> row; have [_ + _] := hp row; rewrite -cat1s !all_cat => /and3P[].
Qed.
Lemma never_enabled (F : fieldType) (place : nat -> int) (regions : seq (nat * seq (rop F))) s row :
  all (fun rc => all (fun o : rop F => if o is OEnable s' _ then s' != s else true) rc.2) regions ->
  t_selector (table_of place regions) s row = false.
Proof.
move=> key; rewrite /table_of; cbn [t_selector].
elim: regions key => [|rc l IH] //= /andP[k1 k2]; rewrite IH // orbF.
elim: rc.2 k1 => [|o ops IH'] //= /andP[k1 k3]; rewrite IH' // orbF.
by case: o k1 => // s' off /negbTE ->.
Qed.

Definition lk97 : lrc := LRC 4 5 6 10 7.
Definition mc1_97 : merkle_config := MerkleConfig 2 (SwapConfig 3 0 1 2 3 4)
  (SinsConfig 0 0 1 1 (DblConfig 90 91 92 93 0 1 3 4 94) 2 2 2 3 4 false) lk97.
Definition mc2_97 : merkle_config := MerkleConfig 9 (SwapConfig 10 5 6 7 8 9)
  (SinsConfig 7 5 8 6 (DblConfig 95 96 97 98 5 6 8 9 99) 7 7 2 3 4 false) lk97.
Definition chips97 : seq merkle_config := [:: mc1_97; mc2_97].
Definition leaf97 : acell F97 := ACell (known 12%:R) (Cell 0 0 (Advice, 11%N)).
Definition mprog97 : lprog F97 (acell F97) :=
  calculate_root pf97 2 gens97 253 1 2 chips97 (Some Qs97) 2 (known 2%N) (known [:: 23%:R; 7%:R]) leaf97.
Definition mregions97 := lregions (fun _ _ => unknown) 1 mprog97.
Definition mplace97 (r : nat) : int := nth 0%N [:: 0; 4; 5; 6; 9; 12; 13; 14; 23; 25; 26; 27; 30; 33; 34; 35; 44]%N r.
(* the honest prover's cells from row 4 on: advice columns 0 to 10, and the fixed columns q_s2 and y_Q of both chips *)
Definition madvice97 : seq (seq nat) :=
  ([:: [:: 12; 0; 0; 0; 0; 0; 0; 0; 0; 0; 10; 5; 16; 28; 45; 16; 38; 82; 14; 48; 12];
       [:: 23; 0; 0; 0; 0; 0; 0; 0; 0; 0; 1; 1; 8; 1; 5; 8; 5; 1; 0; 8; 2];
       [:: 12; 48; 0; 0; 0; 0; 0; 0; 8; 11; 48; 12; 3; 8; 2; 11; 2; 0; 0; 11];
       [:: 23; 0; 0; 0; 0; 0; 0; 0; 0; 0; 2; 9; 76; 68; 25; 35; 95; 3; 18; 12; 1];
       [:: 0; 0; 0; 0; 0; 0; 0; 0; 0; 0; 28; 22; 48; 20; 65; 73; 88; 33; 0; 23];
       [:: 0; 0; 0; 0; 0; 0; 0; 0; 0; 0; 0; 0; 0; 0; 0; 0; 0; 0; 0; 0; 0; 14; 0; 0; 0; 0; 0; 0; 0; 0; 0; 10; 14; 59; 86; 57; 96; 26; 87; 10; 29; 7];
       [:: 0; 0; 0; 0; 0; 0; 0; 0; 0; 0; 0; 0; 0; 0; 0; 0; 0; 0; 0; 0; 0; 7; 0; 0; 0; 0; 0; 0; 0; 0; 0; 3; 8; 3; 1; 1; 8; 3; 1];
       [:: 0; 0; 0; 0; 0; 0; 0; 0; 0; 0; 0; 0; 0; 0; 0; 0; 0; 0; 0; 0; 0; 7; 29; 0; 0; 0; 0; 0; 0; 0; 7; 29; 7; 1; 0; 0; 7; 1; 0; 0; 7];
       [:: 0; 0; 0; 0; 0; 0; 0; 0; 0; 0; 0; 0; 0; 0; 0; 0; 0; 0; 0; 0; 0; 14; 0; 0; 0; 0; 0; 0; 0; 0; 0; 70; 71; 33; 7; 79; 91; 36; 38; 36; 7];
       [:: 0; 0; 0; 0; 0; 0; 0; 0; 0; 0; 0; 0; 0; 0; 0; 0; 0; 0; 0; 0; 0; 1; 0; 0; 0; 0; 0; 0; 0; 0; 0; 62; 40; 28; 69; 82; 32; 33; 80; 0; 14; 1];
       [:: 0; 0; 0; 0; 49; 1; 2; 49; 0; 0; 0; 0; 0; 0; 0; 0; 0; 0; 0; 0; 0; 0; 0; 0; 0; 49; 0; 0; 49]])%N.
Definition mfixed97 : seq (seq nat) :=
  ([:: [:: 0; 0; 0; 0; 0; 0; 0; 0; 0; 0; 1; 1; 0; 1; 0; 1; 1; 2];
       [:: 0; 0; 0; 0; 0; 0; 0; 0; 0; 0; 61];
       [:: 0; 0; 0; 0; 0; 0; 0; 0; 0; 0; 0; 0; 0; 0; 0; 0; 0; 0; 0; 0; 0; 0; 0; 0; 0; 0; 0; 0; 0; 0; 0; 1; 1; 0; 1; 0; 1; 1; 2];
       [:: 0; 0; 0; 0; 0; 0; 0; 0; 0; 0; 0; 0; 0; 0; 0; 0; 0; 0; 0; 0; 0; 0; 0; 0; 0; 0; 0; 0; 0; 0; 0; 61]])%N.
Definition mT97 : table F97 := Table
  (fun kind col row => match kind, row with
     | Fixed, Posz i =>
         if (col \in [:: 2; 3; 4])%N then
           if (i < 4)%N then nth 0 [:: i%:R; (nth (0, 0) gens97 i).1; (nth (0, 0) gens97 i).2] (col - 2)
           else nth 0 [:: 0; 1; 43%:R] (col - 2)
         else if col == 7%N then (if (i < 4)%N then i%:R else 0)
         else (nth 0%N (nth [::] mfixed97 (if (col < 2)%N then col else col - 3)%N) (i - 4))%:R
     | Advice, Posz i => if col == 11%N then 12%:R else (nth 0%N (nth [::] madvice97 col) (i - 4))%:R
     | _, _ => 0 end)
  (t_selector (table_of mplace97 mregions97)).
Definition mrows97 : seq int := [seq Posz i | i <- iota 0 50].
Definition musable97 (row : int) : Prop := row \in mrows97.

Lemma separate97 : separate chips97.
Proof.
move=> c c' hc hc' i j hi hj e.
have key : all (fun c => all (fun c' => all (fun i => all (fun j => (nth 0%N (merkle_sels c) i == nth 0%N (merkle_sels c') j) ==>
  (i == j) && ((4 <= i)%N || (q_decompose c == q_decompose c'))) (iota 0 7)) (iota 0 7)) chips97) chips97 by vm_compute.
case: hc => [?|[?|[]]]; case: hc' => [?|[?|[]]]; subst c c'; move: i hi j hj e => [|[|[|[|[|[|[|i]]]]]]] // _ [|[|[|[|[|[|[|j]]]]]]] // _ e;
  by split.
Qed.

(* the hypotheses of C55_calculate_root_complete, and what it gives: those of C55_calculate_root_sound.  The leaf 12 at
   position 2 (a left child, whose parent is a right child) with siblings 23 and 7 has root 10 *)
Example C55_example :
  merkle_root (nth (0, 0) gens97) Qs97 2 7 (pf_val pf97) 0 12%:R [:: (false, 23%:R); (true, 7%:R)] = Some 10%:R /\
  List.Forall (merkle_holds 2 gens97 1 2 mT97 musable97) chips97 /\
  (lrespects mT97 mplace97 (fun _ _ => unknown) 1 mprog97 /\
   exists root r', lreturns (fun _ _ => unknown) 1 mprog97 = Ok (root, r') /\ holds_value mT97 mplace97 root 10%:R).
Proof.
have er : merkle_root (nth (0, 0) gens97) Qs97 2 7 (pf_val pf97) 0 12%:R [:: (false, 23%:R); (true, 7%:R)] = Some 10%:R.
  by apply/eqP; vm_compute.
split; first exact: er.
have k2 : (2%:R : F97) != 0 by vm_compute.
have vl : holds_value mT97 mplace97 leaf97 12%:R by split; [reflexivity|apply/eqP; vm_compute].
have [a [r' [e1 e2 e3]]] := @C55_calculate_root_complete F97 pf97 97 2 gens97 253 1 2 mT97 mplace97 (fun _ _ => unknown) chips97 Qs97 2 2
  [:: 23%:R; 7%:R] leaf97 12%:R 10%:R 1 pf97_ok k2 erefl erefl isT isT isT isT isT isT erefl isT isT separate97 erefl vl er.
have /honestP[h1 h2] : honestb mplace97 mT97 mregions97 by vm_compute.
have ho : merkle_on_here 2 gens97 1 2 mT97 mplace97 chips97 mregions97.
  by move=> c _ q row hq ht; left; exact: (@table_of_only _ mplace97 mregions97 _ q row hq ht).
have [q1 q2 q3] := e3 h1 h2 ho.
split; last exact (conj q1 (ex_intro _ a (ex_intro _ r' (conj e1 q3)))).
have sel s r : t_selector mT97 s r = t_selector (table_of mplace97 mregions97) s r by reflexivity.
have key c : List.In c chips97 -> merkle_holds 2 gens97 1 2 mT97 musable97 c.
  move=> hc; apply: merkle_holds_of; first exact: q2 hc.
  - move=> k hk.
    have cols : sins_columns (mc_sins c) = [:: 2; 3; 4]%N by case: hc => [<-|[<-|[]]].
    have key : all (fun w => has (fun i => [seq t_cell mT97 Fixed col (Posz i) | col <- [:: 2; 3; 4]%N]
      == [:: w%:R; (nth (0, 0) gens97 w).1; (nth (0, 0) gens97 w).2]) (iota 0 50)) (iota 0 4) by vm_compute.
    have /hasP[i hi /eqP e] := allP key k ltac:(by rewrite mem_iota).
    rewrite cols; exists (Posz i); [exact: map_f|exact: e].
  - move=> row /mapP[i hi ->].
    have cols : sins_columns (mc_sins c) = [:: 2; 3; 4]%N by case: hc => [<-|[<-|[]]].
    have key : all (fun i => has (fun w => [seq t_cell mT97 Fixed col (Posz i) | col <- [:: 2; 3; 4]%N]
      == [:: w%:R; (nth (0, 0) gens97 w).1; (nth (0, 0) gens97 w).2]) (iota 0 4)) (iota 0 50) by vm_compute.
    have /hasP[w] := allP key i hi; rewrite mem_iota cols => hw /eqP e; exists w; [exact: hw|exact: e].
  - move=> k hk; have idx : table_idx (mc_lookup c) = 7%N by case: hc => [<-|[<-|[]]].
    have key : all (fun w => has (fun i => t_cell mT97 Fixed 7%N (Posz i) == w%:R) (iota 0 50)) (iota 0 4) by vm_compute.
    have /hasP[i hi /eqP e] := allP key k ltac:(by rewrite mem_iota).
    rewrite idx; exists (Posz i); [exact: map_f|exact: e].
  - move=> row /mapP[i hi ->]; have idx : table_idx (mc_lookup c) = 7%N by case: hc => [<-|[<-|[]]].
    have key : all (fun i => has (fun w => t_cell mT97 Fixed 7%N (Posz i) == w%:R) (iota 0 4)) (iota 0 50) by vm_compute.
    have /hasP[w] := allP key i hi; rewrite mem_iota idx => hw /eqP e; exists w; [exact: hw|exact: e].
  - have key : all (fun rc => all (fun o : rop F97 => if o is OEnable _ off then mplace97 rc.1 + off%:Z \in mrows97 else true) rc.2) mregions97.
      by vm_compute.
    move=> row; rewrite !sel => /orP[] ht; exact: (@enabled_rows _ mplace97 mregions97 _ _ row key ht).
  - have idx : q_running (mc_lookup c) = 5%N by case: hc => [<-|[<-|[]]].
    have key : all (fun rc => all (fun o : rop F97 => if o is OEnable s' _ then s' != 5%N else true) rc.2) mregions97 by vm_compute.
    by move=> row; rewrite sel idx (@never_enabled _ mplace97 mregions97 5%N row key).
apply: List.Forall_cons; first by apply: key; left.
apply: List.Forall_cons; first by apply: key; right; left.
exact: List.Forall_nil.
Qed.
Print Assumptions C55_example.
