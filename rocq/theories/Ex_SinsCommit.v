(* A case of C61: the curve, base and scalar field of Ex_EccFixed, with four generators (K = 2) and two message pieces. *)
Set Warnings "-notation-overridden,-ambiguous-paths".
From mathcomp Require Import all_ssreflect all_algebra.
From Verif Require Import Util M_Env M_Assigned M_Circuit S_Circuit M_Selectors M_Value M_Region S_Region M_Layout S_Layout M_Utilities
  L_Region L_Gadget M_Ecc S_Curve P_Ecc P_Bits S_Digits M_EccMul P_EccMul M_Sinsemilla S_Sinsemilla P_Sinsemilla P_SinsemillaComplete
  M_EccFixed P_EccFixed P_EccFixedComplete Ex_Field163 Ex_Field181 Ex_Layout Ex_EccFixed M_SinsCommit P_SinsCommit.
Import GRing.Theory.
Set Implicit Arguments.
Unset Strict Implicit.
Local Open Scope ring_scope.

Definition cgens163 : seq (F163 * F163) := [seq odflt (0, 0) (pmul k (Some B163)) | k <- [:: 3; 5; 11; 29]%N].
Definition cQ163 : F163 * F163 := odflt (0, 0) (pmul 51 (Some B163)).
Definition cpieces163 : seq (piece F163) :=
  [:: Piece (ACell (known 45%:R) (Cell 0 0 (Advice, 40%N))) 3; Piece (ACell (known 12%:R) (Cell 0 1 (Advice, 40%N))) 2].
Definition csins163 : sins_config := SinsConfig 10 20 11 21 (DblConfig 12 13 14 30 31 32 33 34 35) 36 40 22 23 24 false.
Definition cprog163 (r : nat) := commit pf163 pf181 181 2 4 2 cgens163 csins163 fixc163 (Some cQ163) base163 cpieces163 (known (r%:R : F181)).
(* region 0 holds the pieces; the generator table takes the columns 22 to 24 *)
Definition cregions163 (r : nat) : seq (nat * seq (rop F163)) :=
  (0%N, [:: OAdvice 40 0 (known (ATrivial 45%:R)); OAdvice 40 1 (known (ATrivial 12%:R))]) :: lregions inst163 1 (cprog163 r).
Definition with_generators (T : table F163) : table F163 := Table
  (fun k col row => if (k == Fixed) && (22 <= col <= 24)%N then
     let i := if row is Posz i then if (i < 4)%N then i else 0%N else 0%N in
     nth 0 [:: i%:R; (nth (0, 0) cgens163 i).1; (nth (0, 0) cgens163 i).2] (col - 22)
   else t_cell T k col row) (t_selector T).
Definition ctable163 (r : nat) : table F163 := with_generators (honest_table place163 (cregions163 r)).
Definition crun163 (r : nat) : bool :=
  let T := ctable163 r in
  let rs := cregions163 r in
  [&& honestb place163 T rs, all (fun rc => all (respects_opb T place163 rc.1) rc.2) rs,
      all (fun row => all (fun g => at_row T (Posz row) g == 0) (fixed_gates b163 2 fixc163 ++ sins_gates F163 csins163)) (iota 0 50),
      all (fun row => [seq at_row T (Posz row) e | e <- sins_lookup 2 cgens163 csins163] \in
                      [seq [seq t_cell T Fixed c (Posz i) | c <- sins_columns csins163] | i <- iota 0 4]) (iota 0 50) &
      if lreturns inst163 1 (cprog163 r) is Ok ((res, _), _) then
        Some (cell_value T place163 (ec_cell (ep_x res)), cell_value T place163 (ec_cell (ep_y res))) ==
        omap (@encode _) (commit_spec (nth (0, 0) cgens163) cQ163 B163 [:: 1; 3; 2; 0; 3]%N r)
      else false].
Check (ltac:(vm_compute; reflexivity) : all crun163 [:: 0; 180]%N = true).

(* the hypotheses of C61_commit_complete: a table with the pieces 45 and 12, and every r *)
Definition chash163 : F163 * F163 := odflt (0, 0) (hash_to_point_spec (nth (0, 0) cgens163) cQ163 [:: 1; 3; 2; 0; 3]%N).
Example cmessage163 (T : table F163) : t_cell T Advice 40 0 = 45%:R -> t_cell T Advice 40 1 = 12%:R ->
  good_message pf163 2 T place163 cpieces163 /\
  hash_to_point_spec (nth (0, 0) cgens163) cQ163 (message_words pf163 2 T place163 cpieces163) = Some chash163.
Proof.
move=> e1 e2; split.
  split; [by []|by []| |by rewrite /piece_int /cell_value /row_of /= e1 e2].
  by apply: List.Forall_cons; [rewrite /piece_known /cell_value /row_of /= e1|apply: List.Forall_cons; [rewrite /piece_known /cell_value /row_of /= e2|apply: List.Forall_nil]].
have -> : message_words pf163 2 T place163 cpieces163 = [:: 1; 3; 2; 0; 3]%N.
  by rewrite /message_words /piece_int /cell_value /row_of /= e1 e2.
by apply/eqP; vm_compute.
Qed.
Example commit163 (T : table F163) (r : F181) (usable : int -> Prop) : t_cell T Advice 40 0 = 45%:R -> t_cell T Advice 40 1 = 12%:R ->
  exists res zss n', lreturns inst163 1 (commit pf163 pf181 181 2 4 2 cgens163 csins163 fixc163 (Some cQ163) base163 cpieces163 (known r)) = Ok ((res, zss), n') /\
    point_is res (padd (Some chash163) (pmul (pf_val pf181 r) (Some B163))).
Proof.
move=> e1 e2; have [hm hA] := cmessage163 e1 e2.
have hQ : on_curve b163 (Some cQ163) by vm_compute.
have hg : all (fun P => on_curve b163 (Some P)) cgens163 by vm_compute.
have h := @C61_commit_complete F163 b163 pf163 163 F181 pf181 181 2 4 2 cgens163 csins163 fixc163 cQ163 B163 base163
  good163 pf163_ok pf181_ok base163_ok base163_us fits163 isT isT erefl erefl hQ hg isT erefl isT T place163 inst163 usable 1 cpieces163 r chash163 hm hA.
case: h => res [zss [n' [h1 h2 _]]]; exists res, zss, n'; exact (conj h1 h2).
Qed.
